(** * Proofs about the model of CglZeroHalf: the rows kept, the weakening and
    the cut derived from a set of rows *)

From Coq Require Import Qabs.
From Verif Require Import Base Model_ZeroHalf.
Local Open Scope Q_scope.

Lemma cint_done z v : cint z = Done v -> v = z.
Proof. unfold cint. destruct (int_range z); intro E; [injection E as <-; reflexivity|discriminate]. Qed.
Lemma put_same {A} (f : nat -> A) j v : put f j v j = v.
Proof. unfold put. rewrite Nat.eqb_refl. reflexivity. Qed.
Lemma put_other {A} (f : nat -> A) j v i : i <> j -> put f j v i = f i.
Proof. intro H. unfold put. apply Nat.eqb_neq in H. rewrite H. reflexivity. Qed.

(** ** Rounding *)
Lemma nearest_bounds q : inject_Z (nearest q) <= q + (1 # 2) /\ q - (1 # 2) < inject_Z (nearest q).
Proof.
  unfold nearest. pose proof (qfloor_le (q + (1 # 2))) as A. pose proof (qfloor_lt (q + (1 # 2))) as B.
  unfold qfloor in *. split; lra.
Qed.
Lemma nearest_unique q z : Qabs (q - inject_Z z) < 1 # 2 -> nearest q = z.
Proof.
  intro H. apply Qabs_Qlt_condition in H as [A B].
  unfold nearest. apply Qfloor_unique; lra.
Qed.
Lemma nearest_integral q : integral q -> inject_Z (nearest q) == q.
Proof.
  intros [z E]. rewrite (nearest_unique q z); [symmetry; exact E|].
  rewrite E. setoid_replace (inject_Z z - inject_Z z) with 0 by ring. reflexivity.
Qed.
Lemma near_int_ok tol q : near_int tol q = true -> Qabs (q - inject_Z (nearest q)) <= tol.
Proof. unfold near_int. intro H. qb. exact H. Qed.

Lemma near_upper tol v u :
  tol < 1 -> integral v -> near_int tol u = true -> v <= u -> v <= inject_Z (nearest u).
Proof.
  intros Ht Hv Hn L. apply near_int_ok in Hn. apply Qabs_Qle_condition in Hn as [A B].
  destruct (Qlt_le_dec (inject_Z (nearest u)) v) as [C|C]; [|exact C].
  pose proof (integral_lt_le1 _ _ (integral_inject (nearest u)) Hv C). lra.
Qed.
Lemma near_lower tol v l :
  tol < 1 -> integral v -> near_int tol l = true -> l <= v -> inject_Z (nearest l) <= v.
Proof.
  intros Ht Hv Hn L. apply near_int_ok in Hn. apply Qabs_Qle_condition in Hn as [A B].
  destruct (Qlt_le_dec v (inject_Z (nearest l))) as [C|C]; [|exact C].
  pose proof (integral_lt_le1 _ _ Hv (integral_inject (nearest l)) C). lra.
Qed.

(** ** The rows kept hold at every integer solution *)

(** Value of integer entries and satisfaction of a kept row. *)
Definition zvalue (f : list (nat * Z)) (y : point) : Q :=
  value (map (fun e => (fst e, inject_Z (snd e))) f) y.
Definition zrow_sat (r : zrow) (y : point) : Prop :=
  if z_ge r then inject_Z (z_rhs r) <= zvalue (z_form r) y
  else zvalue (z_form r) y <= inject_Z (z_rhs r).

Lemma row_entries_value r y :
  (forall j a, In (j, a) (r_form r) -> integral a) ->
  zvalue (row_entries r) y == value (r_form r) y.
Proof.
  unfold zvalue, row_entries. induction (r_form r) as [|[j a] f IH]; intro H; [reflexivity|].
  assert (IH' := IH (fun i b Hb => H i b (or_intror Hb))). clear IH.
  assert (Ea : inject_Z (nearest a) == a) by (apply nearest_integral, (H j a); left; reflexivity).
  cbn [map filter fst snd]. destruct (negb (nearest a =? 0)%Z) eqn:E.
  - cbn [map value fst snd]. rewrite IH', Ea. reflexivity.
  - apply negb_false_iff, Z.eqb_eq in E. rewrite E in Ea. cbn [value].
    rewrite IH', <- Ea. change (inject_Z 0) with 0. ring.
Qed.

Lemma copies_ok r y z :
  (forall j a, In (j, a) (r_form r) -> integral a /\ integral (y j)) ->
  row_sat r y -> In z (copies r) -> zrow_sat z y.
Proof.
  intros Hi [Hlo Hhi] Hz.
  assert (V : zvalue (row_entries r) y == value (r_form r) y).
  { apply row_entries_value. intros j a Hj. exact (proj1 (Hi j a Hj)). }
  assert (I : integral (value (r_form r) y)) by (apply value_integral; exact Hi).
  assert (L : forall l, row_lo r = Some l -> lo_ok l = true ->
              inject_Z (nearest l) <= value (r_form r) y).
  { intros l El Hl. unfold row_lo in El. destruct (r_lo r) as [l'|]; [|discriminate].
    destruct (inject_Z (- 10 ^ 20) <? l'); [|discriminate]. apply Some_inj in El; subst l'.
    refine (near_lower _ _ _ _ I Hl Hlo). reflexivity. }
  assert (U : forall u, row_up r = Some u -> up_ok u = true ->
              value (r_form r) y <= inject_Z (nearest u)).
  { intros u Eu Hu. unfold row_up in Eu. destruct (r_hi r) as [u'|]; [|discriminate].
    destruct (u' <? inject_Z (10 ^ 20)); [|discriminate]. apply Some_inj in Eu; subst u'.
    refine (near_upper _ _ _ _ I Hu Hhi). reflexivity. }
  unfold copies in Hz.
  destruct (row_lo r) as [l|] eqn:El, (row_up r) as [u|] eqn:Eu; [| | |destruct Hz].
  - destruct (lo_ok l && up_ok u && (rhs_ok l && rhs_ok u)) eqn:E; [|destruct Hz].
    repeat (apply andb_true_iff in E as [E ?]).
    destruct (Qeq_bool l u); repeat (destruct Hz as [<-|Hz]);
      try destruct Hz; unfold zrow_sat; cbn [z_ge z_rhs z_form]; rewrite V; auto.
  - destruct (lo_ok l && rhs_ok l) eqn:E; [|destruct Hz]. apply andb_true_iff in E as [E ?].
    destruct Hz as [<-|[]]. unfold zrow_sat; cbn [z_ge z_rhs z_form]; rewrite V; auto.
  - destruct (up_ok u && rhs_ok u) eqn:E; [|destruct Hz]. apply andb_true_iff in E as [E ?].
    destruct Hz as [<-|[]]. unfold zrow_sat; cbn [z_ge z_rhs z_form]; rewrite V; auto.
Qed.
Lemma copies_form r z : In z (copies r) -> z_form z = row_entries r.
Proof.
  unfold copies. intro H.
  destruct (row_lo r), (row_up r); try destruct (_ && _)%bool; try destruct (Qeq_bool _ _);
    repeat (destruct H as [<-|H]; [reflexivity|]); destruct H.
Qed.
Lemma row_entries_in r j a :
  In (j, a) (row_entries r) -> exists b, In (j, b) (r_form r) /\ a = nearest b /\ a <> 0%Z.
Proof.
  unfold row_entries. intro H. apply filter_In in H as [H N]. cbn in N.
  apply in_map_iff in H as ([i b] & E & Hb). cbn in E. injection E as -> <-.
  exists b. split; [exact Hb|]. split; [reflexivity|]. intros Z0. rewrite Z0 in N. discriminate.
Qed.
Lemma copies_len r : (length (copies r) <= 2)%nat.
Proof.
  unfold copies. destruct (row_lo r), (row_up r); try destruct (_ && _)%bool; try destruct (Qeq_bool _ _); simpl; lia.
Qed.

(** ** Bounds *)

(** The bounds loaded for the integer columns of [m] are those of [si]. *)
Definition bounds_of (m si : mip) (lb ub : nat -> Z) : Prop :=
  forall j, (j < m_ncols m)%nat ->
    if m_int m j
    then int_lower (m_clo si j) = Done (lb j) /\ int_upper (m_chi si j) = Done (ub j)
    else lb j = INT_MAX /\ ub j = (- INT_MAX)%Z.

Lemma ofold_app {A B} (f : B -> A -> outcome B) l l' s :
  ofold f (l ++ l') s = bind (ofold f l s) (ofold f l').
Proof.
  revert s. induction l as [|a l IH]; intro s; simpl; [reflexivity|].
  destruct (f s a); simpl; auto.
Qed.

Lemma load_bounds_ok m n b0 b :
  ofold (load_bound m) (seq 0 n) b0 = Done b ->
  (forall j, (j < n)%nat ->
    if m_int m j
    then int_lower (m_clo m j) = Done (fst b j) /\ int_upper (m_chi m j) = Done (snd b j)
    else fst b j = INT_MAX /\ snd b j = (- INT_MAX)%Z).
Proof.
  revert b. induction n as [|n IH]; intros b E j Hj; [lia|].
  rewrite seq_S, ofold_app in E. apply bind_done in E as (b1 & E1 & E2).
  cbn [ofold] in E2. apply bind_done in E2 as (b2 & E2 & E3). apply Done_inj in E3; subst b2.
  rewrite Nat.add_0_l in E2. unfold load_bound in E2.
  destruct (m_int m n) eqn:En.
  - apply bind_done in E2 as (l & El & E2). apply bind_done in E2 as (u & Eu & E2).
    apply Done_inj in E2; subst b. cbn [fst snd]. destruct (Nat.eq_dec j n) as [->|Ne].
    + rewrite En, !put_same. split; assumption.
    + rewrite !put_other by exact Ne. apply IH; [exact E1|lia].
  - apply Done_inj in E2; subst b. cbn [fst snd]. destruct (Nat.eq_dec j n) as [->|Ne].
    + rewrite En, !put_same. split; reflexivity.
    + rewrite !put_other by exact Ne. apply IH; [exact E1|lia].
Qed.

Lemma redo_bounds_ok si n b0 b :
  ofold (redo_bound si) (seq 0 n) b0 = Done b ->
  forall j,
    if (j <? n)%nat && negb (fst b0 j =? INT_MAX)%Z
    then int_lower (m_clo si j) = Done (fst b j) /\ int_upper (m_chi si j) = Done (snd b j)
    else fst b j = fst b0 j /\ snd b j = snd b0 j.
Proof.
  revert b. induction n as [|n IH]; intros b E j.
  - apply Done_inj in E; subst b. simpl. split; reflexivity.
  - rewrite seq_S, ofold_app in E. apply bind_done in E as (b1 & E1 & E2).
    cbn [ofold] in E2. apply bind_done in E2 as (b2 & E2 & E3). apply Done_inj in E3; subst b2.
    rewrite Nat.add_0_l in E2. unfold redo_bound in E2. specialize (IH b1 E1).
    assert (Kn : fst b1 n = fst b0 n /\ snd b1 n = snd b0 n).
    { specialize (IH n). rewrite Nat.ltb_irrefl in IH. exact IH. }
    destruct (fst b1 n =? INT_MAX)%Z eqn:En.
    + apply Done_inj in E2; subst b1. destruct (Nat.eq_dec j n) as [->|Ne].
      * destruct Kn as [K1 K2]. rewrite <- K1, En. rewrite andb_false_r. split; [reflexivity|exact K2].
      * specialize (IH j). replace (j <? S n)%nat with (j <? n)%nat; [exact IH|].
        destruct (Nat.ltb_spec j n), (Nat.ltb_spec j (S n)); try reflexivity; lia.
    + apply bind_done in E2 as (l & El & E2). apply bind_done in E2 as (u & Eu & E2).
      apply Done_inj in E2; subst b. cbn [fst snd]. destruct (Nat.eq_dec j n) as [->|Ne].
      * rewrite !put_same. destruct Kn as [K1 _]. rewrite <- K1, En.
        replace (n <? S n)%nat with true by (symmetry; apply Nat.ltb_lt; lia). cbn. split; assumption.
      * rewrite !put_other by exact Ne. specialize (IH j).
        replace (j <? S n)%nat with (j <? n)%nat; [exact IH|].
        destruct (Nat.ltb_spec j n), (Nat.ltb_spec j (S n)); try reflexivity; lia.
Qed.

Lemma int_lower_le lo l : int_lower lo = Done l -> (- INT_MAX <= l)%Z.
Proof.
  unfold int_lower. destruct lo as [q|]; [|intro E; apply Done_inj in E; subst l; apply Z.le_refl].
  destruct (q <? inject_Z (- INT_MAX)) eqn:B; [intro E; apply Done_inj in E; subst l; apply Z.le_refl|].
  unfold castint. destruct (int_range _); [|discriminate]. intro E. apply Done_inj in E; subst l. qb.
  pose proof (qceil_ge q) as C. unfold qceil in C.
  assert (D : inject_Z (- INT_MAX) <= inject_Z (Qceiling q)) by (eapply Qle_trans; eassumption).
  rewrite <- Zle_Qle in D. exact D.
Qed.
(** A lower bound well above -INT_MAX is a bound of every integer point. *)
Lemma int_lower_true lo l v x :
  int_lower lo = Done l -> integral v -> ge_opt_lo v lo ->
  inject_Z (1 - INT_MAX) < x -> x <= inject_Z l + 1 -> inject_Z l <= v.
Proof.
  intros E Hv Hlo Hx L.
  assert (N : l <> (- INT_MAX)%Z).
  { intros ->. assert (inject_Z (1 - INT_MAX) == inject_Z (- INT_MAX) + 1) by reflexivity. lra. }
  unfold int_lower in E. destruct lo as [q|]; [|apply Done_inj in E; congruence].
  destruct (q <? inject_Z (- INT_MAX)) eqn:B; [apply Done_inj in E; congruence|].
  unfold castint in E. destruct (int_range _); [|discriminate]. apply Done_inj in E; subst l.
  exact (integral_ge_ceil _ _ Hv Hlo).
Qed.
Lemma int_upper_true up u v x :
  int_upper up = Done u -> integral v -> le_opt_hi v up ->
  x < inject_Z (INT_MAX - 1) -> inject_Z u - 1 <= x -> v <= inject_Z u.
Proof.
  intros E Hv Hup Hx L.
  assert (N : u <> INT_MAX).
  { intros ->. assert (inject_Z (INT_MAX - 1) == inject_Z INT_MAX - 1) by reflexivity. lra. }
  unfold int_upper in E. destruct up as [q|]; [|apply Done_inj in E; congruence].
  destruct (inject_Z INT_MAX <? q) eqn:B; [apply Done_inj in E; congruence|].
  unfold castint in E. destruct (int_range _); [|discriminate]. apply Done_inj in E; subst u.
  exact (integral_le_floor _ _ Hv Hup).
Qed.

(** ** Sums over the dense coefficients *)
Fixpoint dv (l : list nat) (c : nat -> Z) (y : point) : Q :=
  match l with [] => 0 | j :: l' => y j * inject_Z (c j) + dv l' c y end.
Lemma dense_fold x c l a : fold_left (fun s j => s + x j * inject_Z (c j)) l a == a + dv l c x.
Proof.
  revert a. induction l as [|j l IH]; intro a; cbn [fold_left dv]; [ring|].
  rewrite IH. ring.
Qed.
Lemma dense_value_dv h x c : dense_value h x c == dv (cols h) c x.
Proof. unfold dense_value. rewrite dense_fold. ring. Qed.
Lemma dv_ext l c d y : (forall j, In j l -> c j = d j) -> dv l c y == dv l d y.
Proof.
  induction l as [|j l IH]; intro H; cbn [dv]; [reflexivity|].
  rewrite IH by (intros; apply H; right; assumption). rewrite (H j) by (left; reflexivity). reflexivity.
Qed.
Lemma dv_put l c j v y :
  NoDup l -> In j l -> dv l (put c j v) y == dv l c y + y j * inject_Z (v - c j).
Proof.
  induction l as [|i l IH]; intros Hn Hj; [destruct Hj|]. cbn [dv].
  inversion Hn; subst. destruct (Nat.eq_dec i j) as [->|Ne].
  - rewrite put_same. rewrite (dv_ext l (put c j v) c).
    + unfold Z.sub. rewrite inject_Z_plus, inject_Z_opp. ring.
    + intros i Hi. apply put_other. congruence.
  - destruct Hj as [->|Hj]; [congruence|]. rewrite put_other by exact Ne.
    rewrite IH by assumption. ring.
Qed.
Lemma dv_zero l y : dv l (fun _ => 0%Z) y == 0.
Proof. induction l as [|j l IH]; cbn [dv]; [reflexivity|]. rewrite IH. change (inject_Z 0) with 0. ring. Qed.
Lemma dv_integral l c y : (forall j, In j l -> c j <> 0%Z -> integral (y j)) -> integral (dv l c y).
Proof.
  induction l as [|j l IH]; intro H; cbn [dv]; [apply integral_0|].
  apply integral_plus; [|apply IH; intros; apply H; [right|]; assumption].
  destruct (Z.eq_dec (c j) 0) as [E|Ne].
  - apply (integral_eq 0); [rewrite E; change (inject_Z 0) with 0; ring|apply integral_0].
  - apply integral_mult; [apply H; [left; reflexivity|exact Ne]|apply integral_inject].
Qed.
Lemma dv_half l c y :
  (forall j, In j l -> Z.odd (c j) = false) ->
  dv l (fun j => Z.quot (c j) 2) y * 2 == dv l c y.
Proof.
  induction l as [|j l IH]; intro H; cbn [dv]; [reflexivity|].
  rewrite Qmult_plus_distr_l, IH by (intros; apply H; right; assumption).
  assert (E : (Z.quot (c j) 2 * 2 = c j)%Z).
  { assert (Hj := H j (or_introl eq_refl)). rewrite <- Z.negb_even in Hj. apply negb_false_iff in Hj.
    apply Z.even_spec in Hj as [k Ek]. rewrite Ek. rewrite (Z.mul_comm 2 k), Z.quot_mul by lia. reflexivity. }
  rewrite <- E at 2. rewrite inject_Z_mult. change (inject_Z 2) with 2. ring.
Qed.
(** The sparse form of the cut has the dense value. *)
Lemma sparse_dv l c y :
  value (map (fun e => (fst e, inject_Z (snd e)))
             (map (fun j => (j, c j)) (filter (fun j => negb (c j =? 0)%Z) l))) y == dv l c y.
Proof.
  induction l as [|j l IH]; cbn [filter map dv]; [reflexivity|].
  destruct (c j =? 0)%Z eqn:E; cbn [negb map value fst snd].
  - rewrite IH. apply Z.eqb_eq in E. rewrite E. change (inject_Z 0) with 0. ring.
  - rewrite IH. ring.
Qed.

(** ** gcd and the parity rows *)
Lemma fold_gcd_divides l g :
  Z.divide (fold_left (fun g (e : nat * Z) => Z.gcd g (snd e)) l g) g /\
  forall e, In e l -> Z.divide (fold_left (fun g (e : nat * Z) => Z.gcd g (snd e)) l g) (snd e).
Proof.
  revert g. induction l as [|a l IH]; intro g; cbn [fold_left].
  - split; [apply Z.divide_refl|intros e []].
  - destruct (IH (Z.gcd g (snd a))) as [A B]. split.
    + eapply Z.divide_trans; [exact A|apply Z.gcd_divide_l].
    + intros e [<-|He]; [|apply B; exact He].
      eapply Z.divide_trans; [exact A|apply Z.gcd_divide_r].
Qed.
Lemma fold_gcd_nonneg l g :
  (0 <= g)%Z -> (0 <= fold_left (fun g (e : nat * Z) => Z.gcd g (snd e)) l g)%Z.
Proof.
  revert g. induction l as [|a l IH]; intros g H; cbn [fold_left]; [exact H|].
  apply IH. apply Z.gcd_nonneg.
Qed.
Lemma row_gcd_ok r :
  z_form r <> [] ->
  (0 <= row_gcd r)%Z /\ Z.divide (row_gcd r) (z_rhs r) /\
  forall j a, In (j, a) (z_form r) -> Z.divide (row_gcd r) a.
Proof.
  intro H. unfold row_gcd. destruct (fold_gcd_divides (z_form r) (z_rhs r)) as [A B].
  split; [|split; [exact A|intros j a Hj; exact (B (j, a) Hj)]].
  destruct (z_form r) as [|a l]; [contradiction|]. cbn [fold_left].
  apply fold_gcd_nonneg, Z.gcd_nonneg.
Qed.
Lemma quot_exact a g : (0 < g)%Z -> Z.divide g a -> (g * Z.quot a g = a)%Z.
Proof.
  intros H [k ->]. rewrite Z.quot_mul by lia. ring.
Qed.

(** The data of the row that a parity row belongs to: gcd, slack and odd
    columns do not change when identical rows are removed. *)
Definition prow_of (h : zhalf) (x : point) (r : zrow) (p : prow) : Prop :=
  p_gcd p = row_gcd r /\ p_gcd p <> 0%Z /\ p_slack p = row_slack x r /\
  p_odd p = filter (fun j => negb (col_deleted h x j)) (odd_entries (row_gcd r) r) /\
  (p_del p = false -> p_slack p <= MAX_SLACK - zEPS /\ p_odd p <> []).
Lemma parity_row_of h x r p : parity_row h x r = Done p -> prow_of h x r p.
Proof.
  unfold parity_row. destruct (row_gcd r =? 0)%Z eqn:G; [discriminate|].
  intro E. apply Done_inj in E; subst p. apply Z.eqb_neq in G.
  unfold prow_of. cbn [p_gcd p_slack p_odd p_del]. repeat split; auto.
  - apply orb_false_iff in H as [H _]. qb. exact H.
  - apply orb_false_iff in H as [_ H]. apply Nat.eqb_neq in H. intro N. rewrite N in H. auto.
Qed.
Lemma with_del_of h x r p : prow_of h x r p -> prow_of h x r (with_del p).
Proof.
  unfold prow_of, with_del. cbn. intros (A & B & C & D & _). repeat split; auto; discriminate.
Qed.
Lemma reduce_with_of h x r p rs ps :
  prow_of h x r p -> Forall2 (prow_of h x) rs ps ->
  prow_of h x r (fst (reduce_with p ps)) /\ Forall2 (prow_of h x) rs (snd (reduce_with p ps)).
Proof.
  intros Hp H. revert p Hp. induction H as [|r' q rs ps Hq H IH]; intros p Hp; cbn [reduce_with].
  - cbn. split; [exact Hp|constructor].
  - cbv zeta. set (pq := if same_parity p q then _ else _).
    assert (K : prow_of h x r (fst pq) /\ prow_of h x r' (snd pq)).
    { subst pq. destruct (same_parity p q); [|split; assumption].
      destruct (p_slack p <? p_slack q); cbn; split; auto using with_del_of. }
    destruct (IH (fst pq) (proj1 K)) as [A B]. cbn [fst snd]. split; [exact A|].
    constructor; [exact (proj2 K)|exact B].
Qed.
Lemma reduce_of h x n rs ps :
  Forall2 (prow_of h x) rs ps -> Forall2 (prow_of h x) rs (reduce n ps).
Proof.
  revert rs ps. induction n as [|n IH]; intros rs ps H; [exact H|].
  destruct H as [|r p rs ps Hp H]; [constructor|]. cbn [reduce]. cbv zeta.
  destruct (reduce_with_of _ _ _ _ _ _ Hp H) as [A B]. constructor; [exact A|]. apply IH. exact B.
Qed.
Lemma omap_forall2 {A B} (f : A -> outcome B) (R : A -> B -> Prop) l l' :
  (forall a b, f a = Done b -> R a b) -> omap f l = Done l' -> Forall2 R l l'.
Proof.
  intro H. revert l'. induction l as [|a l IH]; intros l' E; cbn [omap] in E.
  - apply Done_inj in E; subst. constructor.
  - apply bind_done in E as (b & E1 & E). apply bind_done in E as (bs & E2 & E).
    apply Done_inj in E; subst. constructor; auto.
Qed.
Lemma get_parity_ilp_of h x ps :
  get_parity_ilp h x = Done ps -> Forall2 (prow_of h x) (h_rows h) ps.
Proof.
  unfold get_parity_ilp. intro E. apply bind_done in E as (qs & E1 & E2). apply Done_inj in E2; subst.
  apply reduce_of. exact (omap_forall2 _ _ _ _ (parity_row_of h x) E1).
Qed.
Lemma forall2_nth {A B} (R : A -> B -> Prop) l l' i a b :
  Forall2 R l l' -> nth_error l i = Some a -> nth_error l' i = Some b -> R a b.
Proof.
  intro H. revert i. induction H as [|x y l l' Hr H IH]; intros [|i] Ha Hb; cbn in *; try discriminate.
  - congruence.
  - exact (IH i Ha Hb).
Qed.

(** ** Weakening of columns *)
Definition bound_odd (h : zhalf) (j : nat) (t : bool) : bool :=
  Z.odd (if t then h_lb h j else h_ub h j).
(** The bound is near the point: its loss is at most one. *)
Definition bound_near (h : zhalf) (x : point) (j : nat) (t : bool) : Prop :=
  if t then x j <= inject_Z (h_lb h j) + 1 else inject_Z (h_ub h j) - 1 <= x j.
Definition weak_ok (h : zhalf) (x : point) (j : nat) (w : weakening) : Prop :=
  match w with
  | WNone => True
  | WEven t loss => bound_odd h j t = false /\ bound_near h x j t /\ 0 <= loss
  | WOdd t loss => bound_odd h j t = true /\ bound_near h x j t /\ 0 <= loss
  | WBoth te le to lo =>
      bound_odd h j te = false /\ bound_near h x j te /\ 0 <= le /\
      bound_odd h j to = true /\ bound_near h x j to /\ 0 <= lo
  end.
Lemma one_weak_ok h x j o t loss :
  bound_odd h j t = o -> bound_near h x j t -> 0 <= loss -> weak_ok h x j (one_weak o t loss).
Proof. intros <- B L. unfold one_weak. destruct (bound_odd h j t) eqn:E; cbn; auto. Qed.
Lemma col_weak_ok h x j : weak_ok h x j (col_weak h x j).
Proof.
  unfold col_weak, col_class, classify.
  assert (Zp : 0 < zZERO) by reflexivity. assert (Zl : zZERO < 1) by reflexivity.
  destruct (inject_Z (h_ub h j) - zZERO <? x j) eqn:E1.
  { cbn [snd]. apply one_weak_ok; [reflexivity| |lra]. cbn. qb. lra. }
  destruct (x j <? inject_Z (h_lb h j) + zZERO) eqn:E2.
  { cbn [snd]. apply one_weak_ok; [reflexivity| |lra]. cbn. qb. lra. }
  cbv zeta. cbn [snd]. qb. unfold MAX_LOSS.
  destruct (1 <? inject_Z (h_ub h j) - x j) eqn:E3; destruct (1 <? x j - inject_Z (h_lb h j)) eqn:E4;
    cbn [andb]; qb.
  - exact Logic.I.
  - apply one_weak_ok; [reflexivity| |lra]. cbn. lra.
  - apply one_weak_ok; [reflexivity| |lra]. cbn. lra.
  - destruct (Bool.eqb (Z.odd (h_ub h j)) (Z.odd (h_lb h j))) eqn:E5.
    + apply eqb_prop in E5.
      destruct (x j - inject_Z (h_lb h j) <=? inject_Z (h_ub h j) - x j) eqn:E6; qb;
        (apply one_weak_ok; [cbn; unfold bound_odd; congruence| |lra]); cbn; lra.
    + apply eqb_false_iff in E5. destruct (Z.odd (h_ub h j)) eqn:E6; cbn; unfold bound_odd;
        rewrite ?E6; destruct (Z.odd (h_lb h j)) eqn:E7; try (exfalso; congruence);
        repeat split; try reflexivity; lra.
Qed.

(** The parity reached by walking back from [p] through the records. *)
Fixpoint start_of (p : bool) (steps : list wstep) : bool :=
  match steps with
  | [] => p
  | s :: r => start_of (xorb p (if p then w_odd_switch s else w_even_switch s)) r
  end.
Definition step_ok (h : zhalf) (x : point) (j : nat) (s : wstep) : Prop :=
  bound_odd h j (w_even s) = w_even_switch s /\ bound_near h x j (w_even s) /\
  bound_odd h j (w_odd s) = w_odd_switch s /\ bound_near h x j (w_odd s).
Definition slack_of (p : bool) (s : wstate) : Q := if p then w_odd_slack s else w_even_slack s.

(** Walking back from a parity with a small slack ends at the parity of the
    constraint itself. *)
Definition winv (o : bool) (s : wstate) : Prop :=
  forall p, start_of p (w_steps s) <> o -> zINF <= slack_of p s.
Lemma weak_column_inv h x o s l s' :
  winv o s -> weak_column (col_weak h x) s l = Some s' ->
  winv o s' /\ exists st, w_steps s' = st :: w_steps s /\ step_ok h x l st.
Proof.
  intros Hi E. pose proof (col_weak_ok h x l) as W. unfold weak_column in E.
  assert (I1 := Hi true). assert (I2 := Hi false). cbn [slack_of] in I1, I2.
  destruct (col_weak h x l) as [|t loss|t loss|te le to lo]; [discriminate| | |]; cbv zeta in E;
    apply Some_inj in E; subst s'; cbn in W.
  - destruct W as (A & B & C). split; [|eexists; split; [reflexivity|repeat split; assumption]].
    intros [|]; cbn [start_of w_steps w_odd_switch w_even_switch xorb slack_of w_odd_slack w_even_slack]; intro N.
    + specialize (I1 N). lra.
    + specialize (I2 N). lra.
  - destruct W as (A & B & C). split; [|eexists; split; [reflexivity|repeat split; assumption]].
    intros [|]; cbn [start_of w_steps w_odd_switch w_even_switch xorb slack_of w_odd_slack w_even_slack]; intro N.
    + specialize (I2 N). lra.
    + specialize (I1 N). lra.
  - destruct W as (A & B & C & D & F & G).
    split.
    + intros [|]; cbn [start_of w_steps w_odd_switch w_even_switch slack_of w_odd_slack w_even_slack];
        [destruct (w_odd_slack s + le <=? w_even_slack s + lo)|destruct (w_even_slack s + le <=? w_odd_slack s + lo)];
        cbn [negb xorb]; intro N;
        first [specialize (I1 N) | specialize (I2 N)]; lra.
    + eexists; split; [reflexivity|]. unfold step_ok.
      cbn [w_even w_even_switch w_odd w_odd_switch].
      destruct (w_odd_slack s + le <=? w_even_slack s + lo); destruct (w_even_slack s + le <=? w_odd_slack s + lo);
        cbn [negb]; repeat split; assumption.
Qed.
Lemma weak_columns_inv h x ov o s vars s' :
  winv o s -> weak_columns (col_weak h x) ov s vars = Some s' ->
  winv o s' /\ exists sts, w_steps s' = rev sts ++ w_steps s /\ Forall2 (step_ok h x) vars sts.
Proof.
  revert s. induction vars as [|l vars IH]; intros s Hi E; cbn [weak_columns] in E.
  - apply Some_inj in E; subst. split; [exact Hi|]. exists []. split; [reflexivity|constructor].
  - destruct (weak_column (col_weak h x) s l) as [s1|] eqn:E1; [|discriminate].
    destruct (ov && _); [discriminate|].
    destruct (weak_column_inv _ _ _ _ _ _ Hi E1) as (H1 & st & S1 & O1).
    destruct (IH s1 H1 E) as (H2 & sts & S2 & O2).
    split; [exact H2|]. exists (st :: sts). split; [|constructor; assumption].
    rewrite S2, S1. cbn [rev]. rewrite <- app_assoc. reflexivity.
Qed.

(** The types found by unwinding: one per column, near bounds, and the
    parities of the bounds add up to the change of parity. *)
Lemma unwind_spec h x vars sts p acc base :
  Forall2 (step_ok h x) vars sts ->
  exists ts q, unwind p (rev sts ++ base) acc = unwind q base (ts ++ acc) /\
    start_of p (rev sts ++ base) = start_of q base /\
    Forall2 (fun j t => bound_near h x j t) vars ts /\
    q = fold_right (fun jt b => xorb (bound_odd h (fst jt) (snd jt)) b) p (combine vars ts).
Proof.
  intro H. revert p acc base. induction H as [|l st vars sts Ho H IH]; intros p acc base.
  - exists [], p. cbn. repeat split; constructor.
  - cbn [rev]. rewrite <- app_assoc. cbn [app].
    destruct (IH p acc (st :: base)) as (ts & q & U & St & F & Q).
    destruct Ho as (A1 & A2 & A3 & A4).
    exists ((if q then w_odd st else w_even st) :: ts).
    exists (xorb q (if q then w_odd_switch st else w_even_switch st)).
    split; [|split; [|split]].
    + rewrite U. cbn [unwind app]. destruct q; reflexivity.
    + rewrite St. reflexivity.
    + constructor; [|exact F]. destruct q; assumption.
    + cbn [combine fold_right fst snd]. rewrite <- Q.
      destruct q; rewrite ?A1, ?A3; apply xorb_comm.
Qed.

(** best_weakening with an odd target. *)
Lemma best_weakening_odd h x vars o slack oo s ts :
  slack < zINF ->
  snd (best_weakening (col_weak h x) true vars o slack oo) = Some (s, ts) ->
  Forall2 (fun j t => bound_near h x j t) vars ts /\
  fold_right (fun jt b => xorb (bound_odd h (fst jt) (snd jt)) b) true (combine vars ts) = o /\
  s <= MAX_SLACK - zEPS.
Proof.
  intros Hs E. unfold best_weakening in E. cbv zeta in E.
  set (s0 := if o then WState zINF slack [] else WState slack zINF []) in E.
  assert (I0 : winv o s0).
  { subst s0. intros p N. cbn in N. destruct o; cbn [w_steps start_of] in N; destruct p; cbn in *; try congruence; apply Qle_refl. }
  destruct (weak_columns (col_weak h x) true s0 vars) as [st|] eqn:W; [|discriminate].
  destruct (weak_columns_inv _ _ _ _ _ _ _ I0 W) as (I1 & sts & S1 & F1).
  assert (B0 : w_steps s0 = []) by (subst s0; destruct o; reflexivity). rewrite B0 in S1.
  cbn [snd] in E. destruct (slack_fine true (w_odd_slack st)) eqn:Sf; [|discriminate].
  apply Some_inj in E. injection E as <- <-.
  unfold slack_fine in Sf. cbn [negb] in Sf. rewrite orb_false_r in Sf. qb.
  rewrite S1. destruct (unwind_spec h x vars sts true [] [] F1) as (ts & q & U & St & F & Q).
  rewrite U. cbn [unwind]. rewrite app_nil_r. split; [exact F|]. split; [|exact Sf].
  rewrite <- Q. rewrite <- S1 in St. cbn [start_of] in St. rewrite <- St.
  destruct (Bool.bool_dec (start_of true (w_steps st)) o) as [K|K]; [exact K|].
  assert (J := I1 true K). cbn [slack_of] in J. exfalso.
  assert (MAX_SLACK - zEPS < zINF) by reflexivity. lra.
Qed.

(** ** Sums of rows *)
Lemma zvalue_nil y : zvalue [] y == 0. Proof. reflexivity. Qed.
Lemma zvalue_cons j a f y : zvalue ((j, a) :: f) y == inject_Z a * y j + zvalue f y.
Proof. reflexivity. Qed.
Lemma add_entries_dv h ge g f c c' y :
  (0 < g)%Z -> (forall j a, In (j, a) f -> (j < h_mc h)%nat /\ Z.divide g a) ->
  ofold (add_entry ge g) f c = Done c' ->
  inject_Z g * dv (cols h) c' y ==
  inject_Z g * dv (cols h) c y + (if ge then - zvalue f y else zvalue f y).
Proof.
  intros Hg. revert c. induction f as [|[j a] f IH]; intros c Hf E; cbn [ofold] in E.
  - apply Done_inj in E; subst. destruct ge; rewrite zvalue_nil; ring.
  - apply bind_done in E as (c1 & E1 & E2).
    unfold add_entry in E1. cbn [fst snd] in E1. apply bind_done in E1 as (v & Ev & E1).
    apply cint_done in Ev. apply Done_inj in E1; subst c1.
    rewrite (IH _ (fun i b Hb => Hf i b (or_intror Hb)) E2).
    destruct (Hf j a (or_introl eq_refl)) as [Hj Hd].
    rewrite dv_put; [|apply seq_NoDup|unfold cols; apply in_seq; lia].
    assert (Q : inject_Z a == inject_Z g * inject_Z (Z.quot a g)).
    { rewrite <- inject_Z_mult, (quot_exact a g Hg Hd). reflexivity. }
    subst v. destruct ge; rewrite zvalue_cons, Q.
    + replace (c j - Z.quot a g - c j)%Z with (- Z.quot a g)%Z by ring. rewrite inject_Z_opp. ring.
    + replace (c j + Z.quot a g - c j)%Z with (Z.quot a g) by ring. ring.
Qed.

Definition entries_in (h : zhalf) (icol : nat -> Prop) (r : zrow) : Prop :=
  forall j a, In (j, a) (z_form r) -> (j < h_mc h)%nat /\ icol j.
Definition supported (icol : nat -> Prop) (c : nat -> Z) : Prop := forall j, c j <> 0%Z -> icol j.
Lemma add_entries_support (icol : nat -> Prop) ge g f c c' :
  (forall j a, In (j, a) f -> icol j) -> supported icol c ->
  ofold (add_entry ge g) f c = Done c' -> supported icol c'.
Proof.
  intros Hf Hc E. revert c Hc Hf E. induction f as [|[j a] f IH]; intros c Hc Hf E; cbn [ofold] in E.
  - apply Done_inj in E; subst. exact Hc.
  - apply bind_done in E as (c1 & E1 & E2). unfold add_entry in E1. cbn [fst snd] in E1.
    apply bind_done in E1 as (v & _ & E1). apply Done_inj in E1; subst c1.
    refine (IH _ _ (fun i b Hb => Hf i b (or_intror Hb)) E2).
    intros i Hi. destruct (Nat.eq_dec i j) as [->|Ne]; [exact (Hf j a (or_introl eq_refl))|].
    rewrite put_other in Hi by exact Ne. exact (Hc i Hi).
Qed.

Definition combo_ok (h : zhalf) (icol : nat -> Prop) (y : point) (c : combo) : Prop :=
  supported icol (fst c) /\ dv (cols h) (fst c) y <= inject_Z (snd c).

Lemma add_row_ok h icol x y ps c i c' :
  Forall2 (prow_of h x) (h_rows h) ps ->
  (forall r, nth_error (h_rows h) i = Some r -> entries_in h icol r /\ zrow_sat r y) ->
  (forall r, nth_error (h_rows h) i = Some r -> z_form r <> []) ->
  combo_ok h icol y c -> add_row h ps c i = Done c' -> combo_ok h icol y c'.
Proof.
  intros Hp Hr Hn [Hs Hv] E. unfold add_row in E.
  destruct (nth_error (h_rows h) i) as [r|] eqn:Er; [|discriminate].
  destruct (nth_error ps i) as [p|] eqn:Ep; [|discriminate]. cbv zeta in E.
  pose proof (forall2_nth _ _ _ _ _ _ Hp Er Ep) as (G & Gn & _).
  destruct (Hr r eq_refl) as [Hin Hsat].
  destruct (row_gcd_ok r (Hn r eq_refl)) as (G0 & Grhs & Gent). rewrite <- G in G0, Grhs, Gent.
  assert (Gp : (0 < p_gcd p)%Z) by lia.
  apply bind_done in E as (cc & E1 & E). apply bind_done in E as (rhs & E2 & E).
  apply Done_inj in E; subst c'. apply cint_done in E2. split; cbn [fst snd].
  - refine (add_entries_support icol _ _ _ _ _ _ Hs E1). intros j a Hj. exact (proj2 (Hin j a Hj)).
  - assert (D : inject_Z (p_gcd p) * dv (cols h) cc y ==
                inject_Z (p_gcd p) * dv (cols h) (fst c) y +
                (if z_ge r then - zvalue (z_form r) y else zvalue (z_form r) y)).
    { refine (add_entries_dv h _ _ _ _ _ y Gp _ E1). intros j a Hj. split; [exact (proj1 (Hin j a Hj))|exact (Gent j a Hj)]. }
    assert (Q : inject_Z (z_rhs r) == inject_Z (p_gcd p) * inject_Z (Z.quot (z_rhs r) (p_gcd p))).
    { rewrite <- inject_Z_mult, (quot_exact _ _ Gp Grhs). reflexivity. }
    assert (Gq : 0 < inject_Z (p_gcd p)) by (change 0 with (inject_Z 0); rewrite <- Zlt_Qlt; exact Gp).
    apply (proj1 (Qmult_le_l _ _ _ Gq)). rewrite D. subst rhs.
    assert (Hv' := proj2 (Qmult_le_l _ _ _ Gq) Hv).
    unfold zrow_sat in Hsat. destruct (z_ge r).
    + unfold Z.sub. rewrite inject_Z_plus, inject_Z_opp. rewrite Qmult_plus_distr_r.
      setoid_replace (inject_Z (p_gcd p) * - inject_Z (Z.quot (z_rhs r) (p_gcd p)))
        with (- inject_Z (z_rhs r)) by (rewrite Q; ring). lra.
    + rewrite inject_Z_plus, Qmult_plus_distr_r, <- Q. lra.
Qed.

Lemma weaken_one_ok h (icol : nat -> Prop) y c (jt : nat * bool) c' :
  (fst jt < h_mc h)%nat -> icol (fst jt) ->
  (if snd jt then inject_Z (h_lb h (fst jt)) <= y (fst jt) else y (fst jt) <= inject_Z (h_ub h (fst jt))) ->
  combo_ok h icol y c -> weaken_one h c jt = Done c' -> combo_ok h icol y c'.
Proof.
  intros Hj Hi Hb [Hs Hv] E. unfold weaken_one in E. cbv zeta in E.
  destruct (snd jt); apply bind_done in E as (a & Ea & E); apply bind_done in E as (r & Er & E);
    apply cint_done in Ea; apply cint_done in Er; apply Done_inj in E; subst c' a r; split; cbn [fst snd].
  - intros i Hne. destruct (Nat.eq_dec i (fst jt)) as [->|Ne]; [exact Hi|].
    rewrite put_other in Hne by exact Ne. exact (Hs i Hne).
  - rewrite dv_put; [|apply seq_NoDup|unfold cols; apply in_seq; lia].
    replace (fst c (fst jt) - 1 - fst c (fst jt))%Z with (- (1))%Z by ring.
    change (inject_Z (- (1))) with (- (1)). unfold Z.sub. rewrite inject_Z_plus, inject_Z_opp. lra.
  - intros i Hne. destruct (Nat.eq_dec i (fst jt)) as [->|Ne]; [exact Hi|].
    rewrite put_other in Hne by exact Ne. exact (Hs i Hne).
  - rewrite dv_put; [|apply seq_NoDup|unfold cols; apply in_seq; lia].
    replace (fst c (fst jt) + 1 - fst c (fst jt))%Z with 1%Z by ring.
    rewrite inject_Z_plus. change (inject_Z 1) with 1. lra.
Qed.

Definition xor_bounds (h : zhalf) (l : list (nat * bool)) (b : bool) : bool :=
  fold_right (fun jt b => xorb (bound_odd h (fst jt) (snd jt)) b) b l.
Lemma xor_bounds_init h l b : xor_bounds h l b = xorb b (xor_bounds h l false).
Proof.
  induction l as [|a l IH]; cbn [xor_bounds fold_right]; [destruct b; reflexivity|].
  fold (xor_bounds h l b). fold (xor_bounds h l false). rewrite IH.
  destruct b, (bound_odd h (fst a) (snd a)), (xor_bounds h l false); reflexivity.
Qed.
(** Weakening makes the odd columns even and adds the parities of the bounds. *)
Lemma weaken_parity h l c c' :
  NoDup (map fst l) -> ofold (weaken_one h) l c = Done c' ->
  (forall j, Z.odd (fst c' j) = if existsb (Nat.eqb j) (map fst l) then negb (Z.odd (fst c j)) else Z.odd (fst c j)) /\
  Z.odd (snd c') = xor_bounds h l (Z.odd (snd c)).
Proof.
  revert c. induction l as [|[k t] l IH]; intros c Hn E; cbn [ofold] in E.
  - apply Done_inj in E; subst. split; reflexivity.
  - apply bind_done in E as (c1 & E1 & E2). cbn [map fst] in Hn. inversion Hn as [|? ? Hk Hn']; subst.
    destruct (IH c1 Hn' E2) as [A B].
    assert (K : (forall j, Z.odd (fst c1 j) = if Nat.eqb j k then negb (Z.odd (fst c j)) else Z.odd (fst c j)) /\
                Z.odd (snd c1) = xorb (Z.odd (snd c)) (bound_odd h k t)).
    { unfold weaken_one in E1. cbn [fst snd] in E1. unfold bound_odd.
      destruct t; apply bind_done in E1 as (a & Ea & E1); apply bind_done in E1 as (r & Er & E1);
        apply cint_done in Ea; apply cint_done in Er; apply Done_inj in E1; subst c1 a r; cbn [fst snd]; split.
      - intro j. unfold put. destruct (Nat.eqb_spec j k) as [->|]; [|reflexivity].
        rewrite Z.odd_sub. change (Z.odd 1) with true. apply xorb_true_r.
      - apply Z.odd_sub.
      - intro j. unfold put. destruct (Nat.eqb_spec j k) as [->|]; [|reflexivity].
        rewrite Z.odd_add. change (Z.odd 1) with true. apply xorb_true_r.
      - apply Z.odd_add. }
    destruct K as [K1 K2]. split.
    + intro j. rewrite A, K1. cbn [map fst existsb].
      destruct (Nat.eqb_spec j k) as [->|Ne]; [|reflexivity].
      cbn [orb]. destruct (existsb (Nat.eqb k) (map fst l)) eqn:X; [|reflexivity].
      apply existsb_exists in X as (z & Hz & Ez). apply Nat.eqb_eq in Ez. subst z. contradiction.
    + rewrite B, K2, xor_bounds_init, (xor_bounds_init h ((k, t) :: l)).
      cbn [xor_bounds fold_right fst snd]. fold (xor_bounds h l false).
      destruct (Z.odd (snd c)), (bound_odd h k t), (xor_bounds h l false); reflexivity.
Qed.
Lemma combine_fst {A B} (l : list A) (l' : list B) :
  length l = length l' -> map fst (combine l l') = l.
Proof.
  revert l'. induction l as [|a l IH]; intros [|b l'] H; simpl in *; try discriminate; [reflexivity|].
  f_equal. apply IH. lia.
Qed.
Lemma forall2_combine {A B} (R : A -> B -> Prop) l l' a b :
  Forall2 R l l' -> In (a, b) (combine l l') -> R a b.
Proof.
  induction 1 as [|x y l l' Hr H IH]; intro Hi; [destruct Hi|].
  destruct Hi as [E|Hi]; [injection E as -> ->; exact Hr|exact (IH Hi)].
Qed.

(** The bounds near [x] are bounds of [y]. *)
Definition near_bounds_hold (h : zhalf) (icol : nat -> Prop) (x y : point) : Prop :=
  forall j t, (j < h_mc h)%nat -> icol j -> bound_near h x j t ->
    if t then inject_Z (h_lb h j) <= y j else y j <= inject_Z (h_ub h j).

Lemma odd_columns_in h c j : In j (odd_columns h c) -> (j < h_mc h)%nat /\ Z.odd (c j) = true.
Proof.
  unfold odd_columns, cols. intro H. apply filter_In in H as [H O]. apply in_seq in H. split; [lia|exact O].
Qed.
Lemma ofold_inv_in {A B} (P : B -> Prop) (f : B -> A -> outcome B) l s s' :
  (forall s a s', In a l -> P s -> f s a = Done s' -> P s') -> P s -> ofold f l s = Done s' -> P s'.
Proof.
  revert s. induction l as [|a l IH]; intros s H Hp E; cbn [ofold] in E.
  - apply Done_inj in E; subst. exact Hp.
  - apply bind_done in E as (s1 & E1 & E2).
    refine (IH s1 _ _ E2); [intros ? ? ? Hi; apply H; right; exact Hi|].
    exact (H s a s1 (or_introl eq_refl) Hp E1).
Qed.

Lemma ofold_not_aborts {A B} (f : B -> A -> outcome B) l s :
  (forall s a, f s a <> Aborts) -> ofold f l s <> Aborts.
Proof.
  intro H. revert s. induction l as [|a l IH]; intro s; cbn [ofold]; [discriminate|].
  pose proof (H s a) as Hs. destruct (f s a); cbn [bind]; try discriminate; [apply IH|congruence].
Qed.

(** best_cut: a combination valid at [y] becomes a cut valid at [y], and
    exit(0) is never reached. *)
Lemma best_cut_parts h x c :
  match best_cut h x c with
  | Aborts => False
  | Done (Some (cc, v)) => exists s ts c',
      Forall2 (fun j t => bound_near h x j t) (odd_columns h (fst c)) ts /\
      ofold (weaken_one h) (combine (odd_columns h (fst c)) ts) c = Done c' /\
      (forall j, In j (cols h) -> Z.odd (fst c' j) = false) /\ Z.odd (snd c') = true /\
      cc = (fun j => Z.quot (fst c' j) 2, Z.quot (snd c' - 1) 2) /\ v = (1 - s) / 2 /\ s <= MAX_SLACK - zEPS
  | _ => True
  end.
Proof.
  unfold best_cut. cbv zeta.
  destruct (MAX_SLACK - zEPS <? inject_Z (snd c) - dense_value h x (fst c)) eqn:Es; [exact Logic.I|].
  destruct (snd (best_weakening _ _ _ _ _ _)) as [[s ts]|] eqn:Ew; [|exact Logic.I]. qb.
  assert (Ez : MAX_SLACK - zEPS < zINF) by reflexivity.
  apply best_weakening_odd in Ew as (F & X & Sl); [|lra].
  destruct (ofold (weaken_one h) (combine (odd_columns h (fst c)) ts) c) as [c'| | | |] eqn:Eo;
    cbn [bind]; try exact Logic.I.
  2:{ exfalso. revert Eo. apply ofold_not_aborts. intros a jt. unfold weaken_one.
      cbv zeta. destruct (snd jt); unfold cint; repeat (destruct (int_range _); cbn [bind]); discriminate. }
  assert (Hl : length (odd_columns h (fst c)) = length ts) by exact (forall2_len _ _ _ F).
  assert (Nd : NoDup (map fst (combine (odd_columns h (fst c)) ts))).
  { rewrite combine_fst by exact Hl. apply NoDup_filter, seq_NoDup. }
  destruct (weaken_parity h _ _ _ Nd Eo) as [A B].
  rewrite combine_fst in A by exact Hl.
  assert (Ev : forall j, In j (cols h) -> Z.odd (fst c' j) = false).
  { intros j Hj. rewrite A. destruct (existsb (Nat.eqb j) (odd_columns h (fst c))) eqn:X1.
    - apply existsb_exists in X1 as (k & Hk & Ek). apply Nat.eqb_eq in Ek. subst k.
      apply odd_columns_in in Hk as [_ O]. rewrite O. reflexivity.
    - destruct (Z.odd (fst c j)) eqn:O; [|reflexivity]. exfalso.
      assert (existsb (Nat.eqb j) (odd_columns h (fst c)) = true); [|congruence].
      apply existsb_exists. exists j. split; [|apply Nat.eqb_refl].
      unfold odd_columns. apply filter_In. split; assumption. }
  assert (Od : Z.odd (snd c') = true).
  { rewrite B, xor_bounds_init. fold (xor_bounds h (combine (odd_columns h (fst c)) ts) true) in X.
    rewrite xor_bounds_init in X. rewrite <- X.
    destruct (xor_bounds h _ false); reflexivity. }
  destruct (existsb (fun j => Z.odd (fst c' j)) (cols h)) eqn:X2.
  { apply existsb_exists in X2 as (j & Hj & Ej). rewrite (Ev j Hj) in Ej. discriminate. }
  rewrite Od. cbn [negb]. unfold cint. destruct (int_range _); cbn [bind]; [|exact Logic.I].
  exists s, ts, c'. repeat split; auto.
Qed.

Lemma best_cut_ok h (icol : nat -> Prop) x y c cc v :
  near_bounds_hold h icol x y -> (forall j, icol j -> integral (y j)) ->
  combo_ok h icol y c -> best_cut h x c = Done (Some (cc, v)) -> combo_ok h icol y cc.
Proof.
  intros Hb Hi Hc E. pose proof (best_cut_parts h x c) as P. rewrite E in P.
  destruct P as (s & ts & c' & F & Eo & Ev & Od & -> & _).
  assert (C' : combo_ok h icol y c').
  { refine (ofold_inv_in (combo_ok h icol y) _ _ _ _ _ Hc Eo).
    intros a [j t] b Hin Ha Eb.
    pose proof (forall2_combine _ _ _ _ _ F Hin) as Nr. cbn beta in Nr.
    apply in_combine_l in Hin. apply odd_columns_in in Hin as [Hj Oj].
    assert (Ij : icol j).
    { apply (proj1 Hc). intro Z0. rewrite Z0 in Oj. discriminate. }
    exact (weaken_one_ok h icol y a (j, t) b Hj Ij (Hb j t Hj Ij Nr) Ha Eb). }
  destruct C' as [Hs Hv]. split; cbn [fst snd].
  - intros j Hj. apply Hs. intro Z0. rewrite Z0 in Hj. apply Hj. reflexivity.
  - pose proof (dv_half (cols h) (fst c') y Ev) as Hh.
    assert (Int : integral (dv (cols h) (fun j => Z.quot (fst c' j) 2) y)).
    { apply dv_integral. intros j _ Hj. apply Hi, Hs. intro Z0. rewrite Z0 in Hj. apply Hj. reflexivity. }
    destruct Int as [k Ek]. rewrite Ek in Hh |- *. rewrite <- Hh in Hv.
    change 2 with (inject_Z 2) in Hv. rewrite <- inject_Z_mult in Hv. rewrite <- Zle_Qle in Hv |- *.
    apply Z.odd_spec in Od as [q Eq]. rewrite Eq in Hv |- *.
    replace (2 * q + 1 - 1)%Z with (q * 2)%Z by ring. rewrite Z.quot_mul by lia. lia.
Qed.

(** The same for the columns alone. *)
Lemma add_row_support h (icol : nat -> Prop) ps c i c' :
  (forall r, nth_error (h_rows h) i = Some r -> entries_in h icol r) ->
  supported icol (fst c) -> add_row h ps c i = Done c' -> supported icol (fst c').
Proof.
  intros Hr Hs E. unfold add_row in E.
  destruct (nth_error (h_rows h) i) as [r|] eqn:Er; [|discriminate].
  destruct (nth_error ps i) as [p|] eqn:Ep; [|discriminate]. cbv zeta in E.
  apply bind_done in E as (cc & E1 & E). apply bind_done in E as (rhs & E2 & E).
  apply Done_inj in E; subst c'. cbn [fst].
  refine (add_entries_support icol _ _ _ _ _ _ Hs E1). intros j a Hj. exact (proj2 (Hr r eq_refl j a Hj)).
Qed.
Lemma best_cut_support h (icol : nat -> Prop) x c cc v :
  supported icol (fst c) -> best_cut h x c = Done (Some (cc, v)) -> supported icol (fst cc).
Proof.
  intros Hc E. pose proof (best_cut_parts h x c) as P. rewrite E in P.
  destruct P as (s & ts & c' & F & Eo & _ & _ & -> & _). cbn [fst].
  assert (C' : supported icol (fst c')).
  { refine (ofold_inv_in (fun c => supported icol (fst c)) _ _ _ _ _ Hc Eo).
    intros a [j t] b Hin Ha Eb. apply in_combine_l in Hin. apply odd_columns_in in Hin as [Hj Oj].
    assert (Ij : icol j) by (apply Hc; intro Z0; rewrite Z0 in Oj; discriminate).
    unfold weaken_one in Eb. cbn [fst snd] in Eb.
    assert (G : exists v, fst b = put (fst a) j v).
    { destruct t; apply bind_done in Eb as (a1 & _ & Eb); apply bind_done in Eb as (r1 & _ & Eb);
        apply Done_inj in Eb; subst b; eexists; reflexivity. }
    destruct G as (w & G). intros i Hi. destruct (Nat.eq_dec i j) as [->|Ne]; [exact Ij|].
    rewrite G, put_other in Hi by exact Ne. exact (Ha i Hi). }
  intros j Hj. apply C'. intro Z0. rewrite Z0 in Hj. apply Hj. reflexivity.
Qed.

(** ** Cuts *)
Definition zcut_shape (h : zhalf) (icol : nat -> Prop) (x : point) (k : zcut) : Prop :=
  NoDup (map fst (k_form k)) /\
  (forall j a, In (j, a) (k_form k) -> a <> 0%Z /\ (j < h_mc h)%nat /\ icol j) /\
  k_viol k == zvalue (k_form k) x - inject_Z (k_rhs k).
Lemma define_cut_value h x c y : zvalue (k_form (define_cut h x c)) y == dv (cols h) (fst c) y.
Proof. unfold zvalue, define_cut. cbn [k_form]. apply sparse_dv. Qed.
Lemma define_cut_shape h (icol : nat -> Prop) x c :
  supported icol (fst c) -> zcut_shape h icol x (define_cut h x c).
Proof.
  intro Hs. split; [|split].
  - unfold define_cut. cbn [k_form]. rewrite map_map. cbn [fst]. rewrite map_id.
    apply NoDup_filter, seq_NoDup.
  - unfold define_cut. cbn [k_form]. intros j a H. apply in_map_iff in H as (i & E & Hi).
    injection E as -> <-. apply filter_In in Hi as [Hi Hn]. apply negb_true_iff, Z.eqb_neq in Hn.
    unfold cols in Hi. apply in_seq in Hi. repeat split; [exact Hn|lia|exact (Hs j Hn)].
  - rewrite define_cut_value. cbn [k_viol define_cut]. rewrite dense_value_dv. reflexivity.
Qed.

Lemma gather_in h debug es comb comb' i :
  gather h debug es comb = Done comb' -> In i comb' -> In i comb \/ In (Some i) es.
Proof.
  revert comb. induction es as [|[e|] es IH]; intros comb E Hi; cbn [gather] in E.
  - apply Done_inj in E; subst. left; exact Hi.
  - destruct (existsb (Nat.eqb e) comb).
    + destruct (IH _ E Hi); [left|right; right]; assumption.
    + destruct (debug && _); [discriminate|].
      destruct (IH _ E Hi) as [H|H]; [|right; right; exact H].
      apply in_app_or in H as [H|[<-|[]]]; [left; exact H|right; left; reflexivity].
  - destruct (IH _ E Hi); [left|right; right]; assumption.
Qed.

Lemma get_cut_parts h x debug ps es k :
  get_cut h x debug ps es = Done (Cut k) ->
  exists rows c cc v, (forall i, In i rows -> In (Some i) es) /\
    ofold (add_row h ps) rows (fun _ => 0%Z, 0%Z) = Done c /\
    best_cut h x c = Done (Some (cc, v)) /\ k = define_cut h x cc.
Proof.
  unfold get_cut. intro E. apply bind_done in E as (rows & E1 & E).
  apply bind_done in E as (oc & E2 & E). destruct oc as [c|]; [|discriminate].
  apply bind_done in E as (ob & E3 & E). destruct ob as [[cc v]|]; [|discriminate]. cbv zeta in E.
  destruct (_ || _); [discriminate|]. apply Done_inj in E. injection E as <-.
  unfold get_ori_cut_coef in E2. apply bind_done in E2 as (ok & _ & E2).
  destruct ok; [|discriminate]. apply bind_done in E2 as (c0 & E4 & E2).
  apply Done_inj in E2. injection E2 as ->.
  exists rows, c, cc, v. repeat split; auto.
  intros i Hi. destruct (gather_in _ _ _ _ _ _ E1 Hi) as [[]|H]. exact H.
Qed.

(** A row that may be combined: it has entries. *)
Definition row_used (h : zhalf) (i : nat) : Prop :=
  forall r, nth_error (h_rows h) i = Some r -> z_form r <> [].

Lemma get_cut_shape h (icol : nat -> Prop) x debug ps es k :
  (forall r, In r (h_rows h) -> entries_in h icol r) ->
  get_cut h x debug ps es = Done (Cut k) -> zcut_shape h icol x k.
Proof.
  intros Hr E. apply get_cut_parts in E as (rows & c & cc & v & _ & E1 & E2 & ->).
  apply define_cut_shape. refine (best_cut_support h icol x c cc v _ E2).
  refine (ofold_inv_in (fun c => supported icol (fst c)) _ _ _ _ _ _ E1).
  - intros a i b _ Ha Eb. refine (add_row_support h icol ps a i b _ Ha Eb).
    intros r Er. apply Hr. exact (nth_error_In _ _ Er).
  - intros j Hj. cbn in Hj. contradiction.
Qed.
Lemma get_cut_valid h (icol : nat -> Prop) x debug ps es k y :
  Forall2 (prow_of h x) (h_rows h) ps ->
  (forall r, In r (h_rows h) -> entries_in h icol r /\ zrow_sat r y) ->
  near_bounds_hold h icol x y -> (forall j, icol j -> integral (y j)) ->
  (forall i, In (Some i) es -> row_used h i) ->
  get_cut h x debug ps es = Done (Cut k) -> zvalue (k_form k) y <= inject_Z (k_rhs k).
Proof.
  intros Hp Hr Hb Hi Hu E. apply get_cut_parts in E as (rows & c & cc & v & Hin & E1 & E2 & ->).
  rewrite define_cut_value.
  assert (C : combo_ok h icol y c).
  { refine (ofold_inv_in (combo_ok h icol y) _ _ _ _ _ _ E1).
    - intros a i b Hi' Ha Eb. refine (add_row_ok h icol x y ps a i b Hp _ _ Ha Eb).
      + intros r Er. apply Hr. exact (nth_error_In _ _ Er).
      + exact (Hu i (Hin i Hi')).
    - split; cbn [fst snd]; [intros j Hj; cbn in Hj; contradiction|]. rewrite dv_zero. apply Qle_refl. }
  exact (proj2 (best_cut_ok h icol x y c cc v Hb Hi C E2)).
Qed.

(** ** The separation graph *)
Lemma update_edge_inv (P : zedge -> Prop) j k w o i g :
  P (ZEdge j k o w i) ->
  (forall e, P e -> joins j k o e = true -> P (ZEdge (e_1 e) (e_2 e) o w i)) ->
  Forall P g -> Forall P (update_edge j k w o i g).
Proof.
  intros Hn Hu H. induction H as [|e g He H IH]; cbn [update_edge]; [constructor; [exact Hn|constructor]|].
  destruct (joins j k o e) eqn:J; [|constructor; assumption].
  destruct (w <? e_weight e); constructor; auto.
Qed.

(** An edge of a kept row, between two nodes, with a small weight. *)
Definition edge_ok (h : zhalf) (x : point) (ps : list prow) (e : zedge) : Prop :=
  In (e_1 e) (nodes h x) /\ In (e_2 e) (nodes h x) /\
  - zZERO <= e_weight e /\ e_weight e < MAX_SLACK - zEPS /\
  match e_constr e with
  | None => True
  | Some i => exists p, nth_error ps i = Some p /\ p_del p = false
  end.
Lemma update_edge_ok h x ps j k w o i g :
  edge_ok h x ps (ZEdge j k o w i) -> Forall (edge_ok h x ps) g ->
  Forall (edge_ok h x ps) (update_edge j k w o i g).
Proof.
  intros H G. apply update_edge_inv; [exact H| |exact G].
  intros e (A & B & _) J. destruct H as (A' & B' & C & D & F). unfold edge_ok in *. cbn in *.
  repeat split; assumption.
Qed.

Lemma weak_columns_slack h x ov s vars s' a :
  a <= w_even_slack s -> a <= w_odd_slack s ->
  weak_columns (col_weak h x) ov s vars = Some s' -> a <= w_even_slack s' /\ a <= w_odd_slack s'.
Proof.
  revert s. induction vars as [|l vars IH]; intros s He Ho E; cbn [weak_columns] in E.
  - apply Some_inj in E; subst. split; assumption.
  - destruct (weak_column (col_weak h x) s l) as [s1|] eqn:E1; [|discriminate].
    destruct (ov && _); [discriminate|].
    apply (IH s1) in E; [exact E| |]; clear E IH; pose proof (col_weak_ok h x l) as W;
      unfold weak_column in E1; destruct (col_weak h x l) as [|t loss|t loss|te le to lo];
      try discriminate; cbv zeta in E1; apply Some_inj in E1; subst s1; cbn in W; cbn [w_even_slack w_odd_slack];
      try (destruct W as (_ & _ & W); lra); destruct W as (_ & _ & W1 & _ & _ & W2);
      match goal with |- context [if ?b then _ else _] => destruct b end; lra.
Qed.
Lemma best_weakening_slack h x vars o slack oo :
  - zZERO <= slack ->
  (forall s ts, fst (best_weakening (col_weak h x) true vars o slack oo) = Some (s, ts) -> - zZERO <= s) /\
  (forall s ts, snd (best_weakening (col_weak h x) true vars o slack oo) = Some (s, ts) -> - zZERO <= s).
Proof.
  intro H. unfold best_weakening. cbv zeta.
  set (s0 := if o then WState zINF slack [] else WState slack zINF []).
  assert (Zi : - zZERO <= zINF) by discriminate.
  destruct (weak_columns (col_weak h x) true s0 vars) as [st|] eqn:W; cbn [fst snd]; [|split; discriminate].
  destruct (weak_columns_slack h x true s0 vars st (- zZERO)) as [A B]; [| |exact W|];
    try (subst s0; destruct o; cbn [w_even_slack w_odd_slack]; assumption).
  split; intros s ts E.
  - destruct (negb oo && slack_fine true (w_even_slack st)); [|discriminate]. injection E as <- _. exact A.
  - destruct (slack_fine true (w_odd_slack st)); [|discriminate]. injection E as <- _. exact B.
Qed.

Lemma pairs_from_in pre l a b t :
  In (a, b, t) (pairs_from pre l) -> In a l /\ In b l.
Proof.
  revert pre. induction l as [|c l IH]; intros pre H; cbn [pairs_from] in H; [destruct H|].
  apply in_app_or in H as [H|H]; [|destruct (IH _ H); split; right; assumption].
  assert (G : forall mid rest, In (a, b, t)
     ((fix inner (mid rest : list nat) : list (nat * nat * list nat) :=
           match rest with
           | [] => []
           | b :: rest' => (c, b, pre ++ mid ++ rest') :: inner (mid ++ [b]) rest'
           end) mid rest) -> a = c /\ In b rest).
  { clear H IH. intros mid rest. revert mid. induction rest as [|d rest IH]; intros mid H; [destruct H|].
    destruct H as [E|H]; [injection E as -> -> _; split; [reflexivity|left; reflexivity]|].
    destruct (IH _ H) as [A B]. split; [exact A|right; exact B]. }
  destruct (G _ _ H) as [-> B]. split; [left; reflexivity|right; exact B].
Qed.

Lemma row_slack_ge x r : - zZERO <= row_slack x r.
Proof.
  unfold row_slack. cbv zeta. match goal with |- _ <= (if ?b then _ else _) => destruct b eqn:E end.
  - discriminate.
  - qb. exact E.
Qed.
Lemma special_in_nodes h x : In (special h) (nodes h x).
Proof. unfold nodes. apply in_or_app. right. left. reflexivity. Qed.
Lemma kept_in_nodes h x j : (j < h_mc h)%nat -> col_deleted h x j = false -> In j (nodes h x).
Proof.
  intros H D. unfold nodes. apply in_or_app. left. apply filter_In. split; [unfold cols; apply in_seq; lia|].
  rewrite D. reflexivity.
Qed.
Lemma p_odd_in_nodes h (icol : nat -> Prop) x r p j :
  entries_in h icol r -> prow_of h x r p -> In j (p_odd p) -> In j (nodes h x).
Proof.
  intros He (_ & _ & _ & -> & _) Hj. apply filter_In in Hj as [Hj Hd]. apply negb_true_iff in Hd.
  unfold odd_entries in Hj. apply in_map_iff in Hj as ([i a] & <- & Hi). apply filter_In in Hi as [Hi _].
  apply kept_in_nodes; [exact (proj1 (He i a Hi))|exact Hd].
Qed.

Lemma add_row_edges_ok h (icol : nat -> Prop) x ps g ip g' :
  entries_in h icol (fst (snd ip)) -> prow_of h x (fst (snd ip)) (snd (snd ip)) ->
  nth_error ps (fst ip) = Some (snd (snd ip)) ->
  Forall (edge_ok h x ps) g -> add_row_edges h x g ip = Done g' -> Forall (edge_ok h x ps) g'.
Proof.
  destruct ip as (i & r & p). cbn [fst snd]. intros He Hp Hn Hg E.
  unfold add_row_edges in E. cbn [fst snd] in E. cbv zeta in E.
  destruct (p_del p) eqn:Dp; [apply Done_inj in E; subst; exact Hg|].
  apply bind_done in E as (n & _ & E).
  destruct (_ && _); [apply Done_inj in E; subst; exact Hg|].
  destruct (_ && _); [apply Done_inj in E; subst; exact Hg|].
  apply Done_inj in E; subst g'.
  assert (Nd : forall j, In j (p_odd p) -> In j (nodes h x)) by (intros j; exact (p_odd_in_nodes h icol x r p j He Hp)).
  assert (Sl : - zZERO <= p_slack p) by (destruct Hp as (_ & _ & -> & _); apply row_slack_ge).
  assert (Mk : forall j k w o, In j (nodes h x) -> In k (nodes h x) -> - zZERO <= w ->
               (w <? MAX_SLACK - zEPS) = true -> edge_ok h x ps (ZEdge j k o w (Some i))).
  { intros j k w o Hj Hk Hw Hl. qb. unfold edge_ok. cbn. repeat split; try assumption.
    exists p. split; assumption. }
  assert (Pairs : forall l, (forall j, In j l -> In j (nodes h x)) ->
                  Forall (edge_ok h x ps) (fold_left (add_pair h x i p) (pairs_from [] l) g)).
  { intros l Hl. assert (Hin : forall t, In t (pairs_from [] l) -> In (fst (fst t)) l /\ In (snd (fst t)) l).
    { intros [[a b] t] H. exact (pairs_from_in _ _ _ _ _ H). }
    revert g Hg Hin. induction (pairs_from [] l) as [|t ts IH]; intros g Hg Hin; cbn [fold_left]; [exact Hg|].
    apply IH; [|intros; apply Hin; right; assumption].
    destruct (Hin t (or_introl eq_refl)) as [Ha Hb].
    unfold add_pair. cbv zeta.
    destruct (best_weakening_slack h x (snd t) (p_rhs p) (p_slack p) false Sl) as [S1 S2].
    set (r' := best_weakening _ _ _ _ _ _) in *.
    assert (G1 : Forall (edge_ok h x ps)
      match fst r' with
      | Some (s, _) => if s <? MAX_SLACK - zEPS then update_edge (fst (fst t)) (snd (fst t)) s false (Some i) g else g
      | None => g
      end).
    { destruct (fst r') as [[s ts']|] eqn:Er; [|exact Hg].
      destruct (s <? MAX_SLACK - zEPS) eqn:El; [|exact Hg].
      apply update_edge_ok; [|exact Hg]. apply Mk; auto. exact (S1 s ts' eq_refl). }
    destruct (snd r') as [[s ts']|] eqn:Er; [|exact G1].
    destruct (s <? MAX_SLACK - zEPS) eqn:El; [|exact G1].
    apply update_edge_ok; [|exact G1]. apply Mk; auto. exact (S2 s ts' eq_refl). }
  destruct (p_odd p) as [|j [|k [|l rest]]] eqn:Ep.
  - apply Pairs. exact Nd.
  - destruct (p_slack p <? MAX_SLACK - zEPS) eqn:El; [|exact Hg]. apply update_edge_ok; [|exact Hg].
    apply Mk; auto. apply Nd. left; reflexivity. apply special_in_nodes.
  - destruct (p_slack p <? MAX_SLACK - zEPS) eqn:El; [|exact Hg]. apply update_edge_ok; [|exact Hg].
    apply Mk; auto; apply Nd; [left|right; left]; reflexivity.
  - apply Pairs. exact Nd.
Qed.

Lemma kept_bounds h x j : col_deleted h x j = false ->
  0 < x j - inject_Z (h_lb h j) /\ 0 < inject_Z (h_ub h j) - x j.
Proof.
  unfold col_deleted, col_class, classify. assert (Zp : 0 < zZERO) by reflexivity.
  destruct (inject_Z (h_ub h j) - zZERO <? x j) eqn:A; [discriminate|].
  destruct (x j <? inject_Z (h_lb h j) + zZERO) eqn:B; [discriminate|]. intros _. qb. split; lra.
Qed.
Lemma add_bound_edges_ok h x ps g j :
  In j (cols h) -> Forall (edge_ok h x ps) g -> Forall (edge_ok h x ps) (add_bound_edges h x g j).
Proof.
  intros Hj Hg. unfold add_bound_edges. destruct (col_deleted h x j) eqn:D; [exact Hg|]. cbv zeta.
  destruct (kept_bounds h x j D) as [B1 B2]. assert (Zp : 0 < zZERO) by reflexivity.
  assert (Hn : In j (nodes h x)) by (apply kept_in_nodes; [unfold cols in Hj; apply in_seq in Hj; lia|exact D]).
  assert (Mk : forall w o, 0 < w -> (w <? MAX_SLACK - zEPS) = true ->
                edge_ok h x ps (ZEdge j (special h) o w None)).
  { intros w o Hw Hl. qb. unfold edge_ok. cbn. repeat split; auto using special_in_nodes. lra. }
  assert (G1 : Forall (edge_ok h x ps)
     (if x j - inject_Z (h_lb h j) <? MAX_SLACK - zEPS
      then update_edge j (special h) (x j - inject_Z (h_lb h j)) (Z.odd (h_lb h j)) None g else g)).
  { destruct (_ <? _) eqn:E; [|exact Hg]. apply update_edge_ok; [|exact Hg]. apply Mk; assumption. }
  destruct (inject_Z (h_ub h j) - x j <? MAX_SLACK - zEPS) eqn:E; [|exact G1].
  apply update_edge_ok; [|exact G1]. apply Mk; assumption.
Qed.

Lemma bound_edges_ok h x ps l g :
  (forall j, In j l -> In j (cols h)) -> Forall (edge_ok h x ps) g ->
  Forall (edge_ok h x ps) (fold_left (add_bound_edges h x) l g).
Proof.
  revert g. induction l as [|k l IH]; intros g Hc G; cbn [fold_left]; [exact G|].
  apply IH; [intros; apply Hc; right; assumption|].
  apply add_bound_edges_ok; [apply Hc; left; reflexivity|exact G].
Qed.
Lemma in_combine_seq {A} (l : list A) s i a :
  In (i, a) (combine (seq s (length l)) l) -> (s <= i)%nat /\ nth_error l (i - s) = Some a.
Proof.
  revert s. induction l as [|b l IH]; intros s H; cbn [length seq combine] in H; [destruct H|].
  destruct H as [E|H].
  - injection E as -> ->. split; [lia|]. rewrite Nat.sub_diag. reflexivity.
  - destruct (IH (S s) H) as [A1 A2]. split; [lia|]. replace (i - s)%nat with (S (i - S s)) by lia. exact A2.
Qed.
Lemma nth_combine {A B} (l : list A) (l' : list B) i a b :
  nth_error (combine l l') i = Some (a, b) -> nth_error l i = Some a /\ nth_error l' i = Some b.
Proof.
  revert l' i. induction l as [|c l IH]; intros [|d l'] [|i] H; cbn in *; try discriminate.
  - injection H as -> ->. split; reflexivity.
  - exact (IH l' i H).
Qed.
Lemma sep_graph_ok h (icol : nat -> Prop) x ps g :
  Forall2 (prow_of h x) (h_rows h) ps ->
  (forall r, In r (h_rows h) -> entries_in h icol r) ->
  sep_graph h x ps = Done g -> Forall (edge_ok h x ps) g.
Proof.
  intros Hp Hr E. unfold sep_graph in E. apply bind_done in E as (g0 & E0 & E).
  apply Done_inj in E; subst g.
  assert (G0 : Forall (edge_ok h x ps) g0).
  { refine (ofold_inv_in (Forall (edge_ok h x ps)) _ _ _ _ _ _ E0); [|constructor].
    intros a [i [r p]] b Hin Ha Eb.
    assert (L : length (h_rows h) = length (combine (h_rows h) ps)).
    { rewrite combine_length, <- (forall2_len _ _ _ Hp). lia. }
    rewrite L in Hin. apply in_combine_seq in Hin as [_ Hin]. rewrite Nat.sub_0_r in Hin.
    apply nth_combine in Hin as [H1 H2].
    refine (add_row_edges_ok h icol x ps a (i, (r, p)) b _ _ _ Ha Eb); cbn [fst snd].
    - apply Hr. exact (nth_error_In _ _ H1).
    - exact (forall2_nth _ _ _ _ _ _ Hp H1 H2).
    - exact H2. }
  apply bound_edges_ok; auto.
Qed.

(** ** Cycles and the search *)
Lemma arcs_edge_in ns g cancelled a z : In z (arcs ns g cancelled a) -> In (a_edge z) g.
Proof.
  unfold arcs. intro H. apply in_concat in H as (l & Hl & Hz). apply in_map_iff in Hl as (k & <- & _).
  unfold arcs_to in Hz. cbv zeta in Hz. destruct (Nat.eqb k (a / 2)); [destruct Hz|].
  apply in_app_or in Hz as [Hz|Hz].
  - destruct (find (joins (a / 2) k false) g) as [e|] eqn:F; [|destruct Hz].
    destruct Hz as [<-|[]]. exact (proj1 (find_some _ _ F)).
  - destruct (find (joins (a / 2) k true) g) as [e|] eqn:F; [|destruct Hz].
    destruct Hz as [<-|[]]. exact (proj1 (find_some _ _ F)).
Qed.
Lemma arc_edge_in ns g cancelled ba e : arc_edge ns g cancelled ba = Done e -> In e g.
Proof.
  unfold arc_edge. destruct (find _ _) as [z|] eqn:F; [|discriminate].
  intro E. apply Done_inj in E; subst. exact (arcs_edge_in _ _ _ _ _ (proj1 (find_some _ _ F))).
Qed.
Lemma omap_forall {A B} (f : A -> outcome B) (P : B -> Prop) l l' :
  (forall a b, f a = Done b -> P b) -> omap f l = Done l' -> Forall P l'.
Proof.
  intro H. revert l'. induction l as [|a l IH]; intros l' E; cbn [omap] in E.
  - apply Done_inj in E; subst. constructor.
  - apply bind_done in E as (b & E1 & E). apply bind_done in E as (bs & E2 & E).
    apply Done_inj in E; subst. constructor; eauto.
Qed.
Definition cycles_in (g : list zedge) (l : list (list zedge)) : Prop :=
  forall es e, In es l -> In e es -> In e g.
Lemma cycle_at_in ns g cancelled wrapv s j l kt l' :
  cycles_in g l -> cycle_at ns g cancelled wrapv s j l kt = Done l' -> cycles_in g l'.
Proof.
  intros Hl E. unfold cycle_at in E. cbv zeta in E. apply bind_done in E as (d & _ & E).
  destruct (_ <? _); [|apply Done_inj in E; subst; exact Hl].
  apply bind_done in E as (f & _ & E). destruct f as [fp|]; [|apply Done_inj in E; subst; exact Hl].
  apply bind_done in E as (b & _ & E). destruct b as [bp|]; [|apply Done_inj in E; subst; exact Hl].
  apply bind_done in E as (es & Ee & E). apply Done_inj in E; subst l'.
  unfold add_cycle. destruct (negb _); [exact Hl|]. destruct (existsb _ _); [exact Hl|].
  intros es' e H He. apply in_app_or in H as [H|[<-|[]]]; [exact (Hl _ _ H He)|].
  pose proof (omap_forall _ (fun e => In e g) _ _ (arc_edge_in ns g cancelled) Ee) as F.
  rewrite Forall_forall in F. exact (F e He).
Qed.
Lemma odd_cycles_in ns g cancelled pick wrapv j l :
  odd_cycles ns g cancelled pick wrapv j = Done l -> cycles_in g l.
Proof.
  unfold odd_cycles. cbv zeta. intro E.
  refine (ofold_inv_in (cycles_in g) _ _ _ _ _ _ E); [|intros es e []].
  intros a kt b _ Ha Eb. exact (cycle_at_in _ _ _ _ _ _ _ _ _ Ha Eb).
Qed.

(** Where a cut comes from. *)
Definition from_rows (h : zhalf) (x : point) (debug : bool) (ps : list prow) (k : zcut) : Prop :=
  exists es, get_cut h x debug ps es = Done (Cut k) /\
    (forall i, In (Some i) es -> exists p, nth_error ps i = Some p /\ p_del p = false) /\
    MIN_VIOLATION + zEPS < k_viol k.
Lemma cycle_loop_from env h x ps g j c cycles st st' :
  Forall (edge_ok h x ps) g -> cycles_in g cycles ->
  Forall (from_rows h x (v_debug env) ps) (q_cuts st) ->
  cycle_loop env h x ps j c cycles st = Done st' ->
  Forall (from_rows h x (v_debug env) ps) (q_cuts st').
Proof.
  intro Hg. revert c st. induction cycles as [|es cycles IH]; intros c st Hc Hs E; cbn [cycle_loop] in E.
  - apply Done_inj in E; subst. exact Hs.
  - destruct (v_late env j c); [apply Done_inj in E; subst; exact Hs|].
    assert (Hc' : cycles_in g cycles) by (intros a e Ha; apply Hc; right; exact Ha).
    apply bind_done in E as (r & Er & E). destruct r as [| |k].
    + destruct (q_error st); [apply Done_inj in E; subst; exact Hs|]. exact (IH _ _ Hc' Hs E).
    + apply Done_inj in E; subst. exact Hs.
    + destruct (MIN_VIOLATION + zEPS <? k_viol k) eqn:V; [|exact (IH _ _ Hc' Hs E)]. cbv zeta in E.
      assert (K : Forall (from_rows h x (v_debug env) ps) (add_cut_to_list k (q_cuts st))).
      { unfold add_cut_to_list. destruct (existsb _ _); [exact Hs|]. apply Forall_app. split; [exact Hs|].
        constructor; [|constructor]. exists (map e_constr es). split; [exact Er|]. split.
        - intros i Hi. apply in_map_iff in Hi as (e & Ee & He).
          rewrite Forall_forall in Hg. destruct (Hg e (Hc es e (or_introl eq_refl) He)) as (_ & _ & _ & _ & G).
          rewrite Ee in G. exact G.
        - qb. exact V. }
      destruct (_ <=? _)%Z; [apply Done_inj in E; subst; exact K|]. exact (IH _ (SepSt _ _ _) Hc' K E).
Qed.
Lemma node_loop_from env h x ps ns g done todo st st' :
  Forall (edge_ok h x ps) g ->
  Forall (from_rows h x (v_debug env) ps) (q_cuts st) ->
  node_loop env h x ps ns g done todo st = Done st' ->
  Forall (from_rows h x (v_debug env) ps) (q_cuts st').
Proof.
  intro Hg. revert done st. induction todo as [|j todo IH]; intros done st Hs E; cbn [node_loop] in E.
  - apply Done_inj in E; subst. exact Hs.
  - apply bind_done in E as (cycles & E1 & E). apply bind_done in E as (st1 & E2 & E).
    pose proof (cycle_loop_from _ _ _ _ _ _ _ _ _ _ Hg (odd_cycles_in _ _ _ _ _ _ _ E1) Hs E2) as H1.
    destruct (q_stop st1); [apply Done_inj in E; subst; exact H1|]. exact (IH _ _ H1 E).
Qed.
Lemma sep_from env h (icol : nat -> Prop) x ks k :
  (forall r, In r (h_rows h) -> entries_in h icol r) ->
  sep_012_cut env h x = Done ks -> In k ks ->
  exists ps, Forall2 (prow_of h x) (h_rows h) ps /\ from_rows h x (v_debug env) ps k.
Proof.
  intros Hr E Hk. unfold sep_012_cut in E.
  destruct (negb (h_loaded h)); [apply Done_inj in E; subst; destruct Hk|].
  apply bind_done in E as (ps & Ep & E).
  destruct (Nat.eqb _ 0); [apply Done_inj in E; subst; destruct Hk|].
  pose proof (get_parity_ilp_of h x ps Ep) as Hp. exists ps. split; [exact Hp|].
  unfold basic_separation in E. apply bind_done in E as (g & Eg & E).
  destruct (v_late0 env); [apply Done_inj in E; subst; destruct Hk|]. cbv zeta in E.
  apply bind_done in E as (st & Es & E). apply Done_inj in E; subst ks.
  pose proof (node_loop_from _ _ _ _ _ _ _ _ _ _ (sep_graph_ok h icol x ps g Hp Hr Eg)
                (Forall_nil _ : Forall (from_rows h x (v_debug env) ps) (q_cuts (SepSt false [] false))) Es) as F.
  rewrite Forall_forall in F. exact (F k Hk).
Qed.

(** ** Validity of the cuts of one call *)
Lemma kept_row_used h x ps i :
  Forall2 (prow_of h x) (h_rows h) ps ->
  (exists p, nth_error ps i = Some p /\ p_del p = false) -> row_used h i.
Proof.
  intros Hp (p & Ep & Dp) r Er N.
  destruct (forall2_nth _ _ _ _ _ _ Hp Er Ep) as (_ & _ & _ & O & K).
  apply (proj2 (K Dp)). rewrite O. unfold odd_entries. rewrite N. reflexivity.
Qed.
Lemma sep_valid env h (icol : nat -> Prop) x ks k y :
  (forall r, In r (h_rows h) -> entries_in h icol r /\ zrow_sat r y) ->
  near_bounds_hold h icol x y -> (forall j, icol j -> integral (y j)) ->
  sep_012_cut env h x = Done ks -> In k ks -> zvalue (k_form k) y <= inject_Z (k_rhs k).
Proof.
  intros Hr Hb Hi E Hk.
  destruct (sep_from env h icol x ks k (fun r H => proj1 (Hr r H)) E Hk) as (ps & Hp & es & Eg & Hu & _).
  refine (get_cut_valid h icol x _ ps es k y Hp Hr Hb Hi _ Eg).
  intros i Hin. exact (kept_row_used h x ps i Hp (Hu i Hin)).
Qed.
Lemma sep_shape env h (icol : nat -> Prop) x ks k :
  (forall r, In r (h_rows h) -> entries_in h icol r) ->
  sep_012_cut env h x = Done ks -> In k ks ->
  zcut_shape h icol x k /\ MIN_VIOLATION + zEPS < k_viol k.
Proof.
  intros Hr E Hk.
  destruct (sep_from env h icol x ks k Hr E Hk) as (ps & Hp & es & Eg & _ & V).
  split; [exact (get_cut_shape h icol x _ ps es k Hr Eg)|exact V].
Qed.

(** ** The state of the generator *)
Definition with_bounds (m b : mip) : mip :=
  Mip (m_ncols m) (m_rows m) (m_clo b) (m_chi b) (m_int m).

(** No integer column has a lower bound that becomes INT_MAX, the value that
    marks continuous columns. *)
Definition lower_fine (m b : mip) : Prop :=
  forall j, (j < m_ncols m)%nat -> m_int m j = true -> int_lower (m_clo b j) <> Done INT_MAX.

(** The rows come from the rows of [m] and the bounds of the integer columns
    from [b]. *)
Definition loaded_from (m b : mip) (h : zhalf) : Prop :=
  (h_loaded h = false \/ h_mnz h = 0%nat) \/
  (h_mc h = m_ncols m /\
   (exists lb0, h_rows h = concat (map (row_copies lb0) (m_rows m)) /\
      forall j, (j < m_ncols m)%nat -> m_int m j = false -> lb0 j = INT_MAX) /\
   bounds_of m b (h_lb h) (h_ub h) /\ lower_fine m b).

Lemma refresh_loaded debug h m h' :
  m_rows m <> [] -> lower_fine m m ->
  refreshSolver debug h (Some m) = Done h' -> loaded_from m m h'.
Proof.
  intros Hr Hl E. unfold refreshSolver in E.
  destruct (Nat.eqb (length (m_rows m)) 0) eqn:E0.
  { apply Nat.eqb_eq in E0. destruct (m_rows m); [contradiction|discriminate]. }
  apply bind_done in E as (b & Eb & E). cbv zeta in E.
  destruct (Nat.eqb (sum_nat _) 0); [apply Done_inj in E; subst; left; left; reflexivity|].
  destruct (debug && _); [discriminate|]. apply Done_inj in E; subst h'. right.
  cbn [h_mc h_rows h_lb h_ub]. pose proof (load_bounds_ok m _ _ _ Eb) as Hb.
  split; [reflexivity|]. split; [|split; [exact Hb|exact Hl]].
  exists (fst b). split; [reflexivity|]. intros j Hj Ij. specialize (Hb j Hj). rewrite Ij in Hb. exact (proj1 Hb).
Qed.

(** Every row kept is a copy of a row with integer columns and coefficients. *)
Lemma loaded_row m lb0 z :
  (forall j, (j < m_ncols m)%nat -> m_int m j = false -> lb0 j = INT_MAX) ->
  In z (concat (map (row_copies lb0) (m_rows m))) ->
  exists r, In r (m_rows m) /\ In z (copies r) /\
      forall j a, In (j, a) (r_form r) ->
        (j < m_ncols m)%nat -> m_int m j = true /\ near_int (1 # 1000000000000000) a = true.
Proof.
  intros Hb Hz. apply in_concat in Hz as (l & Hi & Hz). apply in_map_iff in Hi as (r & <- & Hi).
  exists r. split; [exact Hi|]. unfold row_copies in Hz.
  destruct (row_good lb0 r) eqn:G; [|destruct Hz]. split; [exact Hz|].
  intros j a Hj Hn. unfold row_good in G. apply andb_true_iff in G as [_ G].
  rewrite forallb_forall in G. specialize (G (j, a) Hj). unfold entry_good in G. cbn [fst snd] in G.
  apply andb_true_iff in G as [G1 G2]. apply andb_true_iff in G2 as [G2 _].
  split; [|exact G2]. specialize (Hb j Hn). destruct (m_int m j); [reflexivity|].
  rewrite (Hb eq_refl), Z.eqb_refl in G1. discriminate.
Qed.

Lemma redo_loaded m b h si h' :
  loaded_from m b h -> (m_ncols si = h_mc h \/ h_loaded h = false) -> lower_fine m si ->
  redo_bounds h si = Done h' -> loaded_from m si h'.
Proof.
  intros L Hc Hl E. unfold redo_bounds in E. apply bind_done in E as (p & Ep & E).
  apply Done_inj in E; subst h'. destruct L as [L|(L1 & L2 & L3 & L4)].
  { left. exact L. }
  destruct Hc as [Hc|Hc]; [|left; left; exact Hc].
  right. cbn [h_mc h_rows h_lb h_ub]. split; [exact L1|]. split; [exact L2|]. split; [|exact Hl].
  pose proof (redo_bounds_ok si _ _ _ Ep) as R. intros j Hj. specialize (R j). specialize (L3 j Hj).
  cbn [fst snd] in R. replace (j <? m_ncols si)%nat with true in R
    by (symmetry; apply Nat.ltb_lt; rewrite Hc, L1; exact Hj).
  destruct (m_int m j) eqn:Ej.
  - assert (N : (h_lb h j =? INT_MAX)%Z = false).
    { apply Z.eqb_neq. intro K. apply (L4 j Hj Ej). rewrite (proj1 L3), K. reflexivity. }
    rewrite N in R. exact R.
  - destruct L3 as [K1 K2]. rewrite K1, Z.eqb_refl in R. cbn in R. rewrite K2 in R. exact R.
Qed.

Definition coefs_exact (m : mip) : Prop :=
  forall r j a z, In r (m_rows m) -> In (j, a) (r_form r) ->
    Qabs (a - inject_Z z) <= (1 # 1000000000000000) -> a == inject_Z z.
Definition point_small (m : mip) (x : point) : Prop :=
  forall j, (j < m_ncols m)%nat -> m_int m j = true ->
    inject_Z (1 - INT_MAX) < x j /\ x j < inject_Z (INT_MAX - 1).
Definition icol_of (m : mip) (j : nat) : Prop := (j < m_ncols m)%nat /\ m_int m j = true.

Lemma loaded_entries m b h : wf_mip m -> loaded_from m b h -> h_loaded h = true -> h_mnz h <> 0%nat ->
  forall r, In r (h_rows h) -> entries_in h (icol_of m) r.
Proof.
  intros W [[L|L]|(L1 & (lb0 & L2 & L2') & _)] Hn Hm z Hz j a Hj; [congruence|congruence|].
  rewrite L2 in Hz. destruct (loaded_row m lb0 z L2' Hz) as (r & Hr & Hc & Hi). rewrite (copies_form r z Hc) in Hj.
  apply row_entries_in in Hj as (q & Hq & _ & _).
  assert (Hjn : (j < m_ncols m)%nat) by exact (proj2 (W r Hr) j q Hq).
  rewrite L1. split; [exact Hjn|]. split; [exact Hjn|]. exact (proj1 (Hi j q Hq Hjn)).
Qed.

Lemma sep_loaded env h x ks k : sep_012_cut env h x = Done ks -> In k ks -> h_loaded h = true.
Proof.
  unfold sep_012_cut. destruct (h_loaded h); [reflexivity|]. intros E Hk.
  apply Done_inj in E; subst. destruct Hk.
Qed.
Lemma sep_keeps m b env h x ks k :
  wf_mip m -> coefs_exact m -> point_small m x -> loaded_from m b h -> h_mnz h <> 0%nat ->
  sep_012_cut env h x = Done ks -> In k ks -> keeps_all (with_bounds m b) (to_row k).
Proof.
  intros W Ce Ps L Hm E Hk y (Fr & Fb & Fi). pose proof (sep_loaded env h x ks k E Hk) as Hn.
  split; [exact Logic.I|]. cbn [rc_form rc_ub to_row]. change (zvalue (k_form k) y <= inject_Z (k_rhs k)).
  pose proof (loaded_entries m b h W L Hn Hm) as En.
  destruct L as [[L|L]|(L1 & (lb0 & L2 & L2') & L3 & L4)]; [congruence|congruence|].
  refine (sep_valid env h (icol_of m) x ks k y _ _ _ E Hk).
  - intros z Hz. split; [exact (En z Hz)|]. rewrite L2 in Hz. destruct (loaded_row m lb0 z L2' Hz) as (r & Hr & Hc & Hi).
    refine (copies_ok r y z _ (Fr r Hr) Hc). intros j a Hj.
    assert (Hjn : (j < m_ncols m)%nat) by exact (proj2 (W r Hr) j a Hj).
    destruct (Hi j a Hj Hjn) as [I1 I2]. split; [|exact (Fi j Hjn I1)].
    exists (nearest a). exact (Ce r j a (nearest a) Hr Hj (near_int_ok _ _ I2)).
  - intros j t Hj [Hjn Ij] Nr. destruct (Ps j Hjn Ij) as [P1 P2].
    specialize (L3 j Hjn). rewrite Ij in L3. destruct L3 as [B1 B2]. destruct (Fb j Hjn) as [F1 F2].
    destruct t; cbn [bound_near] in Nr.
    + exact (int_lower_true _ _ _ _ B1 (Fi j Hjn Ij) F1 P1 Nr).
    + exact (int_upper_true _ _ _ _ B2 (Fi j Hjn Ij) F2 P2 Nr).
  - intros j [Hjn Ij]. exact (Fi j Hjn Ij).
Qed.

(** One call of generateCuts. *)
Lemma generate_parts env h si x cs h' out mark :
  generateCuts env h si x cs = Done (h', out, mark) ->
  mark = Z.odd (h_flags h) /\
  ((h_mnz h = 0%nat /\ h' = h /\ out = cs) \/
   (h_mnz h <> 0%nat /\ exists ks,
      (if Z.odd (h_flags h) then h' = h
       else (m_ncols si = h_mc h \/ h_loaded h = false) /\ redo_bounds h si = Done h') /\
      sep_012_cut env h' x = Done ks /\ out = fold_left insert_new (map to_row ks) cs)).
Proof.
  unfold generateCuts. cbv zeta. intro E.
  destruct (Nat.eqb (h_mnz h) 0) eqn:E0.
  { apply Done_inj in E. injection E as <- <- <-. apply Nat.eqb_eq in E0. split; [reflexivity|]. left. auto. }
  apply Nat.eqb_neq in E0.
  destruct (h_loaded h && (m_ncols si <? h_mc h)%nat) eqn:E1; [discriminate|].
  destruct (negb (Z.odd (h_flags h)) && (h_mc h <? m_ncols si)%nat) eqn:E2; [discriminate|].
  apply bind_done in E as (h1 & E3 & E). apply bind_done in E as (ks & E4 & E).
  apply Done_inj in E. injection E as <- <- <-. split; [reflexivity|]. right. split; [exact E0|].
  exists ks. split; [|split; [exact E4|reflexivity]].
  destruct (Z.odd (h_flags h)); [apply Done_inj in E3; congruence|].
  split; [|exact E3].
  destruct (h_loaded h) eqn:El; [|right; reflexivity]. left. cbn [negb andb] in E1, E2.
  apply Nat.ltb_ge in E1, E2. lia.
Qed.
Lemma fold_insert_in ks cs c :
  In c (fold_left insert_new (map to_row ks) cs) -> In c cs \/ exists k, In k ks /\ c = to_row k.
Proof.
  revert cs. induction ks as [|k ks IH]; intros cs H; cbn [map fold_left] in H; [left; exact H|].
  destruct (IH _ H) as [A|(k' & A & B)].
  - apply insert_new_in in A as [A|A]; [left; exact A|right; exists k; split; [left; reflexivity|exact A]].
  - right. exists k'. split; [right; exact A|exact B].
Qed.

Lemma redo_keeps h si h' :
  redo_bounds h si = Done h' ->
  h_mc h' = h_mc h /\ h_rows h' = h_rows h /\ h_loaded h' = h_loaded h /\ h_mnz h' = h_mnz h.
Proof.
  unfold redo_bounds. intro E. apply bind_done in E as (b & _ & E). apply Done_inj in E; subst. auto.
Qed.
