(** * Lemmas about CglPreProcess::makeInteger *)
From Verif Require Import Model_MakeInteger.
Local Open Scope Q_scope.

(** ** Numbers on a grid *)
Definition on_grid (N : Z) (q : Q) : Prop := exists k, q * inject_Z N == inject_Z k.
Lemma grid_near N q : (0 < N < 1000000000000)%Z -> on_grid N q ->
  dist_int q <= 1 # 1000000000000 -> integral q.
Proof.
  intros [N0 N1] [k K] D. unfold dist_int in D. set (f := Qfloor (q + (1 # 2))).
  unfold qfloor in D. fold f in D. exists f.
  apply Qabs_Qle_condition in D. destruct D as [D1 D2].
  assert (Np : 0 < inject_Z N) by (change 0 with (inject_Z 0); rewrite <- Zlt_Qlt; exact N0).
  assert (Nu : inject_Z N < 1000000000000 # 1).
  { change (1000000000000 # 1) with (inject_Z 1000000000000). rewrite <- Zlt_Qlt. exact N1. }
  assert (E : (q - inject_Z f) * inject_Z N == inject_Z (k - f * N)).
  { unfold Z.sub. rewrite inject_Z_plus, inject_Z_opp, inject_Z_mult, <- K. ring. }
  assert (A : -1 < inject_Z (k - f * N)).
  { rewrite <- E. assert (- (1 # 1000000000000) * inject_Z N <= (q - inject_Z f) * inject_Z N)
      by (apply Qmult_le_compat_r; [exact D1|lra]). lra. }
  assert (B : inject_Z (k - f * N) < 1).
  { rewrite <- E. assert ((q - inject_Z f) * inject_Z N <= (1 # 1000000000000) * inject_Z N)
      by (apply Qmult_le_compat_r; [exact D2|lra]). lra. }
  change (-1) with (inject_Z (-1)) in A. change 1 with (inject_Z 1) in B. rewrite <- Zlt_Qlt in A, B.
  assert (Z : (k - f * N = 0)%Z) by lia. rewrite Z in E.
  apply Qmult_integral in E. destruct E as [E|E]; [lra|].
  rewrite E in Np. exfalso. revert Np. apply Qlt_irrefl.
Qed.
Lemma grid_mul N M p q : on_grid N p -> on_grid M q -> on_grid (N * M) (p * q).
Proof. intros [k K] [l L]. exists (k * l)%Z. rewrite !inject_Z_mult, <- K, <- L. ring. Qed.
Lemma grid_up N M q : on_grid N q -> on_grid (N * M) q.
Proof. intros [k K]. exists (k * M)%Z. rewrite !inject_Z_mult, <- K. ring. Qed.
Lemma grid_plus N p q : on_grid N p -> on_grid N q -> on_grid N (p + q).
Proof. intros [k K] [l L]. exists (k + l)%Z. rewrite inject_Z_plus, <- K, <- L. ring. Qed.
Lemma grid_minus N p q : on_grid N p -> on_grid N q -> on_grid N (p - q).
Proof. intros [k K] [l L]. exists (k - l)%Z. unfold Z.sub. rewrite inject_Z_plus, inject_Z_opp, <- K, <- L. ring. Qed.

(** All coefficients, sides and bounds are multiples of 1/D for some D below a
    million; coefficients are at most a million. *)
Definition gridded (m : mip) : Prop := exists D : Z, (0 < D < 1000000)%Z /\
  (forall r j a, In r (m_rows m) -> In (j, a) (r_form r) ->
     on_grid D a /\ Qabs a <= 1000000 # 1) /\
  (forall r q, In r (m_rows m) -> r_lo r = Some q \/ r_hi r = Some q -> on_grid D q) /\
  (forall j q, m_clo m j = Some q \/ m_chi m j = Some q -> on_grid D q).

(** No equality row has two continuous columns of lower bound 0 with
    coefficients 1 and -1. *)
Definition no_pairs (m : mip) : Prop := forall r l u j1 a1 j2 a2,
  In r (m_rows m) -> r_lo r = Some l -> r_hi r = Some u -> l == u ->
  In (j1, a1) (r_form r) -> In (j2, a2) (r_form r) -> j1 <> j2 ->
  m_int m j1 = false -> m_int m j2 = false ->
  (exists q, m_clo m j1 = Some q /\ q == 0) -> (exists q, m_clo m j2 = Some q /\ q == 0) ->
  Qabs a1 == 1 -> a1 * a2 == -1 -> False.

Definition cost (n : nat) (obj : nat -> Q) (x : point) : Q :=
  value (map (fun j => (j, obj j)) (seq 0 n)) x.

Definition with_int (m : mip) (f : nat -> bool) : mip :=
  {| m_ncols := m_ncols m; m_rows := m_rows m; m_clo := m_clo m; m_chi := m_chi m; m_int := f |}.

Lemma value_split (p : nat * Q -> bool) v x :
  value v x == value (filter p v) x + value (filter (fun e => negb (p e)) v) x.
Proof.
  induction v as [|[j a] v IH]; cbn [filter value]; [reflexivity|].
  rewrite IH. destruct (p (j, a)); cbn [negb value]; ring.
Qed.
Lemma filter_filter {A} (p q : A -> bool) l : filter p (filter q l) = filter (fun a => q a && p a) l.
Proof.
  induction l as [|a l IH]; [reflexivity|]. cbn [filter]. destruct (q a); cbn [filter andb]; [|exact IH].
  destruct (p a); congruence.
Qed.
Lemma filter_ext_eq {A} (p q : A -> bool) l : (forall a, p a = q a) -> filter p l = filter q l.
Proof. intro H. induction l as [|a l IH]; [reflexivity|]. cbn. rewrite H, IH. reflexivity. Qed.

Section Problem.
Variable m : mip.
Variable obj : nat -> Q.
Variable dir : Q.
Hypothesis wf : wf_mip m.
Hypothesis gd : gridded m.

Lemma parts s v x : value v x == value (cont_part m s v) x + value (int_part m s v) x + value (fixed_part m v) x.
Proof.
  rewrite (value_split (fun e => loose m (fst e)) v x).
  rewrite (value_split (fun e => negb (mk_int s (fst e))) (filter (fun e => loose m (fst e)) v) x).
  rewrite !filter_filter. unfold cont_part, int_part, fixed_part.
  rewrite (filter_ext_eq (fun a => loose m (fst a) && negb (negb (mk_int s (fst a))))
    (fun e => loose m (fst e) && mk_int s (fst e))) by (intro a; now rewrite negb_involutive).
  ring.
Qed.
Lemma fixed_value v x : in_bounds m x -> (forall j a, In (j, a) v -> (j < m_ncols m)%nat) ->
  value (fixed_part m v) x == sum_fixed m v.
Proof.
  intros B R. unfold sum_fixed. apply value_ext. intros j a I. unfold fixed_part in I. apply filter_In in I.
  destruct I as [I L]. cbn [fst] in L. apply negb_true_iff in L. specialize (B j (R j a I)).
  unfold loose in L. unfold lower_of. destruct (m_clo m j) as [l|] eqn:El; [|discriminate L].
  destruct (m_chi m j) as [u|] eqn:Eu; [|discriminate L]. qb. destruct B as [B1 B2]. cbn in B1, B2.
  destruct gd as (D & DD & _ & _ & Gb).
  destruct (grid_minus D u l (Gb j u (or_intror Eu)) (Gb j l (or_introl El))) as [k K].
  assert (Dp : 0 < inject_Z D) by (change 0 with (inject_Z 0); rewrite <- Zlt_Qlt; lia).
  assert (Du : inject_Z D < 1000000 # 1).
  { change (1000000 # 1) with (inject_Z 1000000). rewrite <- Zlt_Qlt. lia. }
  assert (A : inject_Z k < 1).
  { rewrite <- K. assert ((u - l) * inject_Z D <= (1 # 100000000) * inject_Z D)
      by (apply Qmult_le_compat_r; lra). lra. }
  change 1 with (inject_Z 1) in A. rewrite <- Zlt_Qlt in A.
  assert (u - l <= 0); [|lra].
  apply Qnot_lt_le. intro C. assert (0 < (u - l) * inject_Z D) by (apply Qmult_lt_0_compat; assumption).
  rewrite K in H. change 0 with (inject_Z 0) in H. rewrite <- Zlt_Qlt in H. lia.
Qed.

Lemma row_in i : (i < length (m_rows m))%nat -> In (mk_row m i) (m_rows m).
Proof. intro L. unfold mk_row. now apply nth_In. Qed.
Lemma row_default i : ~ (i < length (m_rows m))%nat -> mk_row m i = Row [] None None.
Proof. intro L. unfold mk_row. apply nth_overflow. lia. Qed.

Lemma coef_integral r j a : In r (m_rows m) -> In (j, a) (r_form r) -> near a = true -> integral a.
Proof.
  intros R I N. destruct gd as (D & DD & G & _). destruct (G r j a R I) as [Ga _].
  unfold near in N. qb. apply (grid_near D); [lia|exact Ga|exact N].
Qed.
Lemma unit_integral r j a : In r (m_rows m) -> In (j, a) (r_form r) -> unit_like a = true ->
  ~ a == 0 /\ integral (/ a).
Proof.
  intros R I N. destruct gd as (D & DD & G & _). destruct (G r j a R I) as [[p P] Ba].
  unfold unit_like in N. qb.
  assert (Na : ~ a == 0). { intro E. rewrite E in H. change (Qabs 0) with 0 in H. lra. }
  split; [exact Na|].
  assert (Dp : 0 < inject_Z D) by (change 0 with (inject_Z 0); rewrite <- Zlt_Qlt; lia).
  assert (Du : inject_Z D <= 999999 # 1).
  { change (999999 # 1) with (inject_Z 999999). rewrite <- Zle_Qle. lia. }
  assert (Ap : inject_Z (Z.abs p) == Qabs a * inject_Z D).
  { change (inject_Z (Z.abs p)) with (Qabs (inject_Z p)). rewrite <- P, Qabs_Qmult.
    rewrite (Qabs_pos (inject_Z D)); [reflexivity|lra]. }
  apply (grid_near (Z.abs p)); [split| |lra].
  - rewrite Zlt_Qlt, Ap. change (inject_Z 0) with 0. apply Qmult_lt_0_compat; lra.
  - rewrite Zlt_Qlt, Ap. change (inject_Z 1000000000000) with (1000000000000 # 1).
    apply Qle_lt_trans with ((1000000 # 1) * inject_Z D).
    + apply Qmult_le_compat_r; lra.
    + lra.
  - exists (Z.sgn p * D)%Z.
    assert (E : inject_Z (Z.abs p) == inject_Z (Z.sgn p) * inject_Z p).
    { rewrite <- inject_Z_mult. replace (Z.abs p) with (Z.sgn p * p)%Z by lia. reflexivity. }
    rewrite E, inject_Z_mult, <- P. field. exact Na.
Qed.
Lemma sum_grid D v : (forall j q, m_clo m j = Some q -> on_grid D q) ->
  (forall j a, In (j, a) v -> on_grid D a) -> on_grid (D * D) (value v (lower_of m)).
Proof.
  intros B C. induction v as [|[j a] v IH]; cbn [value].
  - exists 0%Z. ring.
  - apply grid_plus; [|apply IH; intros k b I; apply (C k b); now right].
    apply grid_mul; [apply (C j a); now left|]. unfold lower_of. destruct (m_clo m j) eqn:E; [eauto|].
    exists 0%Z. ring.
Qed.
Lemma side_integral r q : In r (m_rows m) -> (r_lo r = Some q \/ r_hi r = Some q) ->
  near (q - sum_fixed m (r_form r)) = true -> integral (q - sum_fixed m (r_form r)).
Proof.
  intros R S N. destruct gd as (D & DD & G & Gs & Gb). unfold near in N. qb.
  apply (grid_near (D * D)); [nia| |exact N]. apply grid_minus.
  - apply grid_up. now apply (Gs r).
  - apply sum_grid; [intros j b E; apply (Gb j); now left|]. intros j a I. unfold fixed_part in I.
    apply filter_In in I. destruct I as [I _]. now apply (G r j a).
Qed.
Lemma bound_integral j q : m_clo m j = Some q \/ m_chi m j = Some q -> near q = true -> integral q.
Proof.
  intros S N. destruct gd as (D & DD & _ & _ & Gb). unfold near in N. qb.
  apply (grid_near D); [lia|now apply (Gb j)|exact N].
Qed.

(** ** The state *)
Definition safe (s : mk) (i : nat) : Prop :=
  (i < length (m_rows m))%nat -> all_integer m s (mk_row m i) = true /\
  exists j a, In (j, a) (r_form (mk_row m i)) /\ unit_like a = true /\ loose m j = true /\
  forall k b, In (k, b) (r_form (mk_row m i)) -> loose m k = true -> mk_int s k = false -> k = j.

(** A row that was safe and whose column has become integer: what is needed
    later is only that no other column is continuous, and integrality of what
    was integer then. *)
Definition frozen (s : mk) (i : nat) : Prop :=
  exists s0, safe s0 i /\ forall k, mk_int s0 k = true -> mk_int s k = true.

Definition covers (s s' : mk) : Prop :=
  (forall k, mk_int s k = true -> mk_int s' k = true) /\
  forall x, feasible (with_int m (mk_int s)) x ->
    exists y, feasible (with_int m (mk_int s')) y /\ dir * cost (m_ncols m) obj y <= dir * cost (m_ncols m) obj x.
Definition good (s : mk) : Prop :=
  (forall k, m_int m k = true -> mk_int s k = true) /\
  (forall i, mk_ignore s i = true -> frozen s i).
Lemma covers_refl s : covers s s.
Proof. split; [auto|]. intros x F. exists x. split; [exact F|apply Qle_refl]. Qed.
Lemma covers_trans s t u : covers s t -> covers t u -> covers s u.
Proof.
  intros [A1 A2] [B1 B2]. split; [auto|]. intros x F. destruct (A2 x F) as (y & Fy & Cy).
  destruct (B2 y Fy) as (z & Fz & Cz). exists z. split; [exact Fz|lra].
Qed.
Lemma frozen_mono s t i : (forall k, mk_int s k = true -> mk_int t k = true) -> frozen s i -> frozen t i.
Proof. intros H (s0 & S & K). exists s0. auto. Qed.
Lemma mark_done s j s' : mark m s j = Done s' ->
  (forall k, mk_int s' k = Nat.eqb k j || mk_int s k) /\ mk_ignore s' = mk_ignore s /\
  mk_changed s' = mk_changed s ++ [j].
Proof.
  unfold mark. destruct (Nat.ltb _ _); intro H; [|discriminate H]. apply Done_inj in H. subst s'. auto.
Qed.

Lemma int_value s r x : In r (m_rows m) -> all_integer m s r = true ->
  feasible (with_int m (mk_int s)) x -> integral (value (int_part m s (r_form r)) x).
Proof.
  intros R A (F & B & I). apply value_integral. intros j a Ij. unfold all_integer in A. qb.
  rewrite forallb_forall in H. pose proof (H (j, a) Ij) as Na. unfold int_part in Ij. apply filter_In in Ij.
  destruct Ij as [Ij Lj]. cbn [fst] in Lj. apply andb_true_iff in Lj. destruct Lj as [_ Mj]. split.
  - now apply (coef_integral r j a).
  - apply I; [|exact Mj]. cbn [m_ncols with_int]. destruct (wf r R) as [_ W]. now apply (W j a).
Qed.
Lemma unit_bounds a q x : ~ a == 0 -> integral (/ a) -> integral q -> a * x <= q ->
  a * qfloor x <= q /\ a * qceil x <= q.
Proof.
  intros Na Ia Iq L.
  assert (Iz : integral (q * / a)) by now apply integral_mult.
  assert (Eq : q == a * (q * / a)) by (field; exact Na).
  pose proof (qfloor_le x). pose proof (qceil_ge x).
  destruct (Qlt_le_dec 0 a) as [P|P].
  - assert (X : x <= q * / a).
    { apply Qmult_le_l with (z := a); [exact P|]. rewrite <- Eq. exact L. }
    pose proof (integral_ge_ceil _ _ Iz X) as C. split; rewrite Eq; apply Qmult_le_l; try assumption; lra.
  - assert (P' : 0 < - a) by (apply Qnot_le_lt; intro; apply Na; lra).
    assert (X : q * / a <= x).
    { apply Qmult_le_l with (z := - a); [exact P'|]. assert (- a * (q * / a) == - q) by (field; exact Na). lra. }
    pose proof (integral_le_floor _ _ Iz X) as C.
    assert (A1 : - a * (q * / a) <= - a * qfloor x) by (apply Qmult_le_l; assumption).
    assert (A2 : - a * (q * / a) <= - a * qceil x) by (apply Qmult_le_l; [assumption|lra]).
    assert (- a * (q * / a) == - q) by (field; exact Na). split; lra.
Qed.

(** Changing one column. *)
Definition upd_pt (x : point) (j : nat) (q : Q) : point := fun k => if Nat.eqb k j then q else x k.
Lemma value_upd v x j q : ~ In j (map fst v) -> value v (upd_pt x j q) == value v x.
Proof.
  intro N. apply value_ext. intros k a I. unfold upd_pt. destruct (Nat.eqb_spec k j) as [->|]; [|reflexivity].
  exfalso. apply N. apply in_map_iff. exists (j, a). auto.
Qed.
Lemma value_upd_in v x j a q : NoDup (map fst v) -> In (j, a) v ->
  value v (upd_pt x j q) == value v x + a * (q - x j).
Proof.
  induction v as [|[k b] v IH]; intros N I; [destruct I|]. cbn [map fst] in N. inversion N; subst.
  cbn [value]. destruct I as [E|I].
  - injection E as -> ->. rewrite value_upd by assumption. unfold upd_pt. rewrite Nat.eqb_refl. ring.
  - rewrite (IH H2 I). unfold upd_pt. destruct (Nat.eqb_spec k j) as [->|Ne]; [|ring].
    exfalso. apply H1. apply in_map_iff. exists (j, a). auto.
Qed.
Lemma cost_upd x j q : (j < m_ncols m)%nat ->
  cost (m_ncols m) obj (upd_pt x j q) == cost (m_ncols m) obj x + obj j * (q - x j).
Proof.
  intro L. unfold cost. apply value_upd_in.
  - rewrite map_map. cbn. rewrite map_id. apply seq_NoDup.
  - apply in_map_iff. exists j. split; [reflexivity|]. apply in_seq. lia.
Qed.

(** A frozen row stays satisfied when its continuous column is rounded. *)
Lemma frozen_round s i j x q : frozen s i -> (i < length (m_rows m))%nat ->
  feasible (with_int m (mk_int s)) x -> loose m j = true -> mk_int s j = false ->
  In j (map fst (r_form (mk_row m i))) -> q = qfloor (x j) \/ q = qceil (x j) ->
  row_sat (mk_row m i) (upd_pt x j q).
Proof.
  intros (s0 & S & Mono) L F Lj Mj Hj Q. destruct (S L) as (A & c & a & Ic & Ua & Lc & Uniq). clear S.
  pose proof (row_in i L) as R. set (r := mk_row m i) in *. apply in_map_iff in Hj.
  destruct Hj as ([j' b] & E & Ib). cbn in E. subst j'.
  assert (M0 : mk_int s0 j = false).
  { destruct (mk_int s0 j) eqn:Z; [|reflexivity]. apply Mono in Z. congruence. }
  assert (c = j) by (symmetry; now apply (Uniq j b)). subst c.
  destruct (wf r R) as [W1 W2].
  destruct (unit_integral r j a R Ic Ua) as [Na Ia].
  pose proof F as (Fr & Fb & Fi). cbn [m_rows with_int] in Fr.
  assert (F0 : feasible (with_int m (mk_int s0)) x).
  { split; [exact Fr|]. split; [exact Fb|]. intros k Lk Mk. apply Fi; [exact Lk|]. now apply Mono. }
  pose proof (int_value s0 r x R A F0) as Iv.
  pose proof (parts s0 (r_form r) x) as P. rewrite (fixed_value (r_form r) x) in P; [|exact Fb|exact W2].
  assert (Cp : cont_part m s0 (r_form r) = [(j, a)]).
  { unfold cont_part. assert (forall e, In e (r_form r) ->
      loose m (fst e) && negb (mk_int s0 (fst e)) = Nat.eqb (fst e) j).
    { intros [k d] Ik. cbn [fst]. destruct (Nat.eqb_spec k j) as [->|Ne]; [now rewrite Lj, M0|].
      destruct (loose m k) eqn:Lk; [|reflexivity]. destruct (mk_int s0 k) eqn:Mk; [reflexivity|].
      exfalso. apply Ne. now apply (Uniq k d). }
    rewrite (filter_ext_in _ (fun e => Nat.eqb (fst e) j)) by exact H.
    clear - W1 Ic. induction (r_form r) as [|[k d] v IH]; [destruct Ic|]. cbn [map fst] in W1.
    inversion W1; subst. cbn [filter fst]. destruct Ic as [E|Ic].
    - injection E as -> ->. rewrite Nat.eqb_refl. f_equal. clear - H1.
      induction v as [|[k b] v IH]; [reflexivity|]. cbn [filter fst]. cbn in H1.
      destruct (Nat.eqb_spec k j) as [->|]; [exfalso; apply H1; now left|]. apply IH. intro; apply H1; now right.
    - destruct (Nat.eqb_spec k j) as [->|]; [|now apply IH]. exfalso. apply H1. apply in_map_iff. exists (j, a). auto. }
  rewrite Cp in P. cbn [value] in P.
  specialize (Fr r R). destruct Fr as [Fl Fu].
  unfold all_integer in A. qb.
  split.
  - destruct (r_lo r) as [l|] eqn:El; [|exact Logic.I]. cbn [ge_opt_lo] in *.
    rewrite (value_upd_in (r_form r) x j a q W1 Ic).
    assert (Il : integral (l - sum_fixed m (r_form r))) by (apply side_integral; auto).
    assert (Iq : integral (- (l - sum_fixed m (r_form r) - value (int_part m s0 (r_form r)) x)))
      by (apply integral_opp; now apply integral_minus).
    assert (Na' : ~ - a == 0) by (intro; apply Na; lra).
    assert (Ia' : integral (/ - a)).
    { apply (integral_eq (- / a)); [field; exact Na|now apply integral_opp]. }
    destruct (unit_bounds (- a) _ (x j) Na' Ia' Iq) as [B1 B2]; [lra|].
    destruct Q; subst q; lra.
  - destruct (r_hi r) as [u|] eqn:Eu; [|exact Logic.I]. cbn [le_opt_hi] in *.
    rewrite (value_upd_in (r_form r) x j a q W1 Ic).
    assert (Il : integral (u - sum_fixed m (r_form r))) by (apply side_integral; auto).
    assert (Iq : integral (u - sum_fixed m (r_form r) - value (int_part m s0 (r_form r)) x))
      by now apply integral_minus.
    destruct (unit_bounds a _ (x j) Na Ia Iq) as [B1 B2]; [lra|].
    destruct Q; subst q; lra.
Qed.

Lemma good_step s s' : good s -> (forall k, mk_int s k = true -> mk_int s' k = true) ->
  mk_ignore s' = mk_ignore s -> good s'.
Proof.
  intros [G1 G2] Mo E. split; [auto|]. intros i H. rewrite E in H. apply (frozen_mono s); auto.
Qed.

Lemma row_step_ok s i s' : no_pairs m \/ length (cont_part m s (r_form (mk_row m i))) <> 2%nat ->
  good s -> (i < length (m_rows m))%nat ->
  row_step m obj dir s i = Done s' -> good s' /\ covers s s'.
Proof.
  intros NP G L E. unfold row_step in E. pose proof (row_in i L) as R. set (r := mk_row m i) in *.
  destruct (all_integer m s r) eqn:A; [|apply Done_inj in E; subst s'; split; [exact G|apply covers_refl]].
  assert (Dn : forall t, Done s = Done t -> good t /\ covers s t).
  { intros t H. apply Done_inj in H. subst t. split; [exact G|apply covers_refl]. }
  destruct (cont_part m s (r_form r)) as [|[j a] [|[j2 a2] [|]]] eqn:C; try (now apply Dn).
  - assert (Ij : In (j, a) (cont_part m s (r_form r))) by (rewrite C; now left).
    unfold cont_part in Ij. apply filter_In in Ij. destruct Ij as [Ij Lj]. cbn [fst] in Lj. qb.
    destruct (unit_like a) eqn:U; [|now apply Dn].
    destruct (equality r) eqn:Eq.
    + apply mark_done in E. destruct E as (M & Ig & _).
      assert (Mo : forall k, mk_int s k = true -> mk_int s' k = true) by (intros k H'; rewrite M, H'; apply orb_true_r).
      split; [now apply (good_step s)|]. split; [exact Mo|]. intros x F. exists x. split; [|apply Qle_refl].
      pose proof F as (Fr & Fb & Fi). split; [exact Fr|]. split; [exact Fb|]. intros k Lk Mk. cbn [m_int with_int] in Mk.
      rewrite M in Mk. destruct (Nat.eqb_spec k j) as [->|Ne]; [|now apply Fi].
      destruct (unit_integral r j a R Ij U) as [Na Ia]. pose proof (int_value s r x R A F) as Iv.
      destruct (wf r R) as [W1 W2].
      pose proof (parts s (r_form r) x) as P. rewrite (fixed_value (r_form r) x) in P; [|exact Fb|exact W2].
      rewrite C in P. cbn [value] in P. specialize (Fr r R). destruct Fr as [Fl Fu].
      unfold equality in Eq. destruct (r_lo r) as [l|] eqn:El; [|discriminate Eq].
      destruct (r_hi r) as [u|] eqn:Eu; [|discriminate Eq]. unfold all_integer in A. qb. cbn in Fl, Fu.
      assert (Il : integral (l - sum_fixed m (r_form r))).
      { apply side_integral; auto. rewrite El in *. assumption. }
      apply (integral_eq ((l - sum_fixed m (r_form r) - value (int_part m s (r_form r)) x) * / a)).
      * assert (X : l - sum_fixed m (r_form r) - value (int_part m s (r_form r)) x == a * x j) by lra.
        rewrite X. field. exact Na.
      * apply integral_mult; [|exact Ia]. now apply integral_minus.
    + apply Done_inj in E. subst s'. split; [|split; [auto|intros x F; exists x; split; [exact F|apply Qle_refl]]].
      destruct G as [G1 G2]. split; [exact G1|]. intros k Hk. cbn [mk_ignore] in Hk.
      apply orb_true_iff in Hk. destruct Hk as [Hk|Hk].
      * apply Nat.eqb_eq in Hk. subst k. exists s. split; [|auto]. intros _. fold r. split; [exact A|].
        exists j, a. split; [exact Ij|]. split; [exact U|]. split; [assumption|].
        intros k b Ik Lk Mk. assert (X : In (k, b) (cont_part m s (r_form r))).
        { unfold cont_part. apply filter_In. split; [exact Ik|]. cbn [fst]. now rewrite Lk, Mk. }
        rewrite C in X. destruct X as [X|[]]. now injection X.
      * destruct (G2 k Hk) as (s0 & S & Mo). exists s0. split; [exact S|exact Mo].
  - destruct NP as [NP|NP]; [|exfalso; apply NP; reflexivity].
    destruct (equality r && _ && _ && _ && _) eqn:T; [exfalso|now apply Dn]. qb.
    assert (I1 : In (j, a) (cont_part m s (r_form r))) by (rewrite C; now left).
    assert (I2 : In (j2, a2) (cont_part m s (r_form r))) by (rewrite C; right; now left).
    destruct (wf r R) as [W1 _].
    assert (Ne : j <> j2).
    { assert (N : NoDup (map fst (cont_part m s (r_form r)))).
      { clear - W1. unfold cont_part. induction (r_form r) as [|e v IH]; [constructor|].
        cbn [map] in W1. inversion W1; subst. cbn [filter]. destruct (_ && _); [|auto]. cbn [map]. constructor; [|auto].
        intro K. apply H1. apply in_map_iff in K. destruct K as (e' & E & K). apply filter_In in K.
        apply in_map_iff. exists e'. tauto. }
      rewrite C in N. inversion N; subst. intro K. subst. apply H6. now left. }
    unfold cont_part in I1, I2. apply filter_In in I1, I2. cbn [fst] in I1, I2.
    destruct I1 as [I1 K1], I2 as [I2 K2]. qb.
    unfold equality in H. destruct (r_lo r) as [l|] eqn:El; [|discriminate H].
    destruct (r_hi r) as [u|] eqn:Eu; [|discriminate H]. qb. destruct G as [G1 _].
    apply (NP r l u j a j2 a2); auto.
    + destruct (m_int m j) eqn:Z; [|reflexivity]. apply G1 in Z. congruence.
    + destruct (m_int m j2) eqn:Z; [|reflexivity]. apply G1 in Z. congruence.
    + unfold is_zero in *. destruct (m_clo m j) as [q|]; [|congruence]. exists q. split; [reflexivity|]. now qb.
    + unfold is_zero in *. destruct (m_clo m j2) as [q|]; [|congruence]. exists q. split; [reflexivity|]. now qb.
Qed.

Lemma col_step_ok s j s' : good s -> (j < m_ncols m)%nat -> col_step m s j = Done s' ->
  good s' /\ covers s s'.
Proof.
  intros G L E. unfold col_step in E.
  destruct (_ && _ && _ && _ && _) eqn:T.
  2:{ apply Done_inj in E. subst s'. split; [exact G|apply covers_refl]. }
  qb. apply mark_done in E. destruct E as (M & Ig & _).
  assert (Mo : forall k, mk_int s k = true -> mk_int s' k = true) by (intros k H'; rewrite M, H'; apply orb_true_r).
  split; [now apply (good_step s)|]. split; [exact Mo|]. intros x F.
  set (q := if 0 <=? dir * obj j then qfloor (x j) else qceil (x j)).
  assert (Q : q = qfloor (x j) \/ q = qceil (x j)) by (unfold q; destruct (_ <=? _); auto).
  exists (upd_pt x j q). pose proof F as (Fr & Fb & Fi). split; [split; [|split]|].
  - intros r R. cbn [m_rows with_int] in *. destruct (In_nth _ _ (Row [] None None) R) as (i & Li & Ei).
    fold (mk_row m i) in Ei. subst r. destruct (in_dec Nat.eq_dec j (map fst (r_form (mk_row m i)))) as [Hj|Hj].
    + apply (frozen_round s); auto. destruct G as [_ G2]. apply G2.
      rewrite forallb_forall in H0. specialize (H0 i). rewrite in_seq in H0.
      assert (X : has_column (mk_row m i) j = true).
      { unfold has_column. apply existsb_exists. apply in_map_iff in Hj. destruct Hj as (e & Ee & Ie).
        exists e. split; [exact Ie|]. now apply Nat.eqb_eq. }
      rewrite X in H0. cbn [negb orb] in H0. apply H0. lia.
    + specialize (Fr (mk_row m i) R). pose proof (value_upd (r_form (mk_row m i)) x j q Hj) as V.
      destruct Fr as [F1 F2]. split.
      * destruct (r_lo (mk_row m i)); [|exact Logic.I]. cbn in *. lra.
      * destruct (r_hi (mk_row m i)); [|exact Logic.I]. cbn in *. lra.
  - intros k Lk. cbn [m_ncols m_clo m_chi with_int] in *. specialize (Fb k Lk). cbn [m_clo m_chi with_int] in Fb.
    unfold upd_pt. destruct (Nat.eqb_spec k j) as [->|]; [|exact Fb]. destruct Fb as [B1 B2].
    pose proof (qfloor_le (x j)). pose proof (qceil_ge (x j)). split.
    + destruct (m_clo m j) as [l|] eqn:El; [|exact Logic.I]. cbn in *.
      assert (Il : integral l) by (apply (bound_integral j l); [now left|assumption]).
      pose proof (integral_le_floor _ _ Il B1). destruct Q as [Q|Q]; rewrite Q; lra.
    + destruct (m_chi m j) as [u|] eqn:Eu; [|exact Logic.I]. cbn in *.
      assert (Iu : integral u) by (apply (bound_integral j u); [now right|assumption]).
      pose proof (integral_ge_ceil _ _ Iu B2). destruct Q as [Q|Q]; rewrite Q; lra.
  - intros k Lk Mk. cbn [m_int m_ncols with_int] in *. rewrite M in Mk. unfold upd_pt.
    destruct (Nat.eqb_spec k j) as [->|].
    + destruct Q as [Q|Q]; rewrite Q; apply integral_inject.
    + now apply Fi.
  - rewrite (cost_upd x j q L). unfold q. pose proof (qfloor_le (x j)). pose proof (qceil_ge (x j)).
    destruct (0 <=? dir * obj j) eqn:S; qb.
    + assert (X : dir * obj j * (qfloor (x j) - x j) <= dir * obj j * 0).
      { rewrite !(Qmult_comm (dir * obj j)). apply Qmult_le_compat_r; lra. }
      lra.
    + assert (X : - (dir * obj j) * 0 <= - (dir * obj j) * (qceil (x j) - x j)).
      { rewrite !(Qmult_comm (- (dir * obj j))). apply Qmult_le_compat_r; lra. }
      lra.
Qed.

Lemma fold_ok {A} (f : mk -> A -> outcome mk) (l : list A) : forall s s',
  (forall t a t', In a l -> good t -> f t a = Done t' -> good t' /\ covers t t') ->
  good s -> ofold f l s = Done s' -> good s' /\ covers s s'.
Proof.
  induction l as [|a l IH]; intros s s' H G E; cbn [ofold] in E.
  - apply Done_inj in E. subst. split; [exact G|apply covers_refl].
  - destruct (f s a) as [t| | | |] eqn:F; try discriminate E. cbn [bind] in E.
    destruct (H s a t (or_introl eq_refl) G F) as [Gt Ct].
    destruct (IH t s') as [G' C']; auto.
    { intros u b u' I. apply H. now right. }
    split; [exact G'|]. eapply covers_trans; eauto.
Qed.
Lemma pass_ok s s' : no_pairs m -> good s -> one_pass m obj dir s = Done s' -> good s' /\ covers s s'.
Proof.
  intros NP G E. unfold one_pass in E.
  destruct (ofold (row_step m obj dir) _ s) as [t| | | |] eqn:F; try discriminate E. cbn [bind] in E.
  destruct (fold_ok (row_step m obj dir) (seq 0 (length (m_rows m))) s t) with (2 := G) (3 := F) as [Gt Ct].
  { intros u i u' I Gu Eu. apply in_seq in I. apply (row_step_ok u i u'); auto. lia. }
  destruct (fold_ok (col_step m) (seq 0 (m_ncols m)) t s') with (2 := Gt) (3 := E) as [G' C'].
  { intros u i u' I Gu Eu. apply in_seq in I. apply (col_step_ok u i u'); auto. lia. }
  split; [exact G'|]. eapply covers_trans; eauto.
Qed.
Lemma passes_ok : forall fuel s s', no_pairs m -> good s -> passes fuel m obj dir s = Done s' -> good s' /\ covers s s'.
Proof.
  induction fuel as [|f IH]; intros s s' NP G E; [discriminate E|]. cbn [passes] in E.
  destruct (one_pass m obj dir s) as [t| | | |] eqn:F; try discriminate E. cbn [bind] in E.
  destruct (pass_ok s t NP G F) as [Gt Ct].
  destruct (Nat.eqb _ _); [apply Done_inj in E; subst; auto|].
  destruct (IH t s' NP Gt E) as [G' C']. split; [exact G'|]. eapply covers_trans; eauto.
Qed.
End Problem.

(** ** Outcomes and markers *)
Section Outcome.
Variable m : mip.
Variable obj : nat -> Q.
Variable dir : Q.
Hypothesis wf : wf_mip m.

Definition tidy (s : mk) : Prop :=
  NoDup (mk_changed s) /\
  (forall j, In j (mk_changed s) -> (j < m_ncols m)%nat /\ loose m j = true) /\
  (forall j, mk_int s j = true <-> m_int m j = true \/ In j (mk_changed s)).
Lemma tidy_len s : tidy s -> (length (mk_changed s) <= m_ncols m)%nat.
Proof.
  intros (N & R & _). rewrite <- (seq_length (m_ncols m) 0). apply NoDup_incl_length; [exact N|].
  intros j I. apply in_seq. specialize (R j I). lia.
Qed.
(** One step goes on from what it finds. *)
Definition later (s s' : mk) : Prop :=
  (forall k, mk_int s k = true -> mk_int s' k = true) /\
  (forall i, mk_ignore s i = true -> mk_ignore s' i = true) /\
  (length (mk_changed s) <= length (mk_changed s'))%nat.
Lemma later_refl s : later s s.
Proof. repeat split; auto. Qed.
Lemma later_trans s t u : later s t -> later t u -> later s u.
Proof. intros (A & B & C) (A' & B' & C'). repeat split; auto. lia. Qed.
Lemma mark_ok s j : tidy s -> (j < m_ncols m)%nat -> loose m j = true -> mk_int s j = false ->
  exists s', mark m s j = Done s' /\ tidy s' /\ later s s' /\
    (forall k, mk_int s' k = Nat.eqb k j || mk_int s k).
Proof.
  intros (N & R & M) L Lo F.
  assert (Nj : ~ In j (mk_changed s)).
  { intro I. assert (mk_int s j = true) by (apply M; now right). congruence. }
  assert (Len : (length (j :: mk_changed s) <= m_ncols m)%nat).
  { rewrite <- (seq_length (m_ncols m) 0). apply NoDup_incl_length; [now constructor|].
    intros k [<-|I]; apply in_seq; [lia|]. specialize (R k I). lia. }
  cbn [length] in Len. unfold mark. replace (Nat.ltb _ _) with true by (symmetry; apply Nat.ltb_lt; lia).
  eexists. split; [reflexivity|]. split; [|split; [|intro k; reflexivity]].
  - split; [|split]; cbn [mk_changed mk_int].
    + apply NoDup_rev in N. rewrite <- (rev_involutive (mk_changed s ++ [j])). apply NoDup_rev.
      rewrite rev_app_distr. cbn. constructor; [|exact N]. intro I. apply Nj. now apply in_rev.
    + intros k I. apply in_app_or in I. destruct I as [I|[<-|[]]]; auto.
    + intro k. rewrite orb_true_iff, Nat.eqb_eq, in_app_iff, M. cbn [In]. clear. intuition.
  - split; [|split]; cbn [mk_changed mk_int mk_ignore].
    + intros k H. rewrite H. apply orb_true_r.
    + auto.
    + rewrite app_length. lia.
Qed.

Lemma column_entries_len i j : (length (column_entries m i j) <= length (m_rows m))%nat.
Proof.
  unfold column_entries. rewrite <- (seq_length (length (m_rows m)) 0) at 2.
  assert (R : forall k, In k (seq 0 (length (m_rows m))) -> (k < length (m_rows m))%nat)
    by (intros k I; apply in_seq in I; lia).
  revert R. generalize (seq 0 (length (m_rows m))). induction l as [|k l IH]; intro R; [apply le_n|].
  cbn [flat_map length]. rewrite app_length.
  assert (length (flat_map (fun k => if Nat.eqb k i then [] else
    map (fun e => (k, snd e)) (filter (fun e => Nat.eqb (fst e) j) (r_form (mk_row m k)))) l) <= length l)%nat
    by (apply IH; intros q I; apply R; now right).
  assert (length (if Nat.eqb k i then [] else
    map (fun e => (k, snd e)) (filter (fun e => Nat.eqb (fst e) j) (r_form (mk_row m k)))) <= 1)%nat; [|lia].
  destruct (Nat.eqb k i); [cbn; lia|]. rewrite map_length.
  assert (W : NoDup (map fst (r_form (mk_row m k)))).
  { apply wf. unfold mk_row. apply nth_In. apply R. now left. }
  clear - W. induction (r_form (mk_row m k)) as [|[q b] v IHv]; [cbn; lia|]. cbn [map fst] in W. inversion W; subst.
  cbn [filter fst]. destruct (Nat.eqb_spec q j) as [->|]; [|auto]. cbn [length].
  replace (filter (fun e => Nat.eqb (fst e) j) v) with (@nil (nat * Q)); [cbn; lia|].
  symmetry. clear - H1. induction v as [|[q b] v IHv]; [reflexivity|]. cbn [filter fst]. cbn in H1.
  destruct (Nat.eqb_spec q j) as [->|]; [exfalso; apply H1; now left|]. apply IHv. intro; apply H1; now right.
Qed.
Definition no_zeros : Prop := forall r j a, In r (m_rows m) -> In (j, a) (r_form r) -> ~ a == 0.
Lemma pair_done i j1 j2 : no_zeros -> exists b, pair_ok m obj dir i j1 j2 = Done b.
Proof.
  intro Z. unfold pair_ok. replace (Nat.ltb _ _) with false; [eauto|]. symmetry. apply Nat.ltb_ge.
  replace (filter (fun e => Qeq_bool (snd e) 0) (column_entries m i j1)) with (@nil (nat * Q)).
  { cbn [length]. rewrite Nat.add_0_r. apply column_entries_len. }
  symmetry. assert (A : forall e, In e (column_entries m i j1) -> Qeq_bool (snd e) 0 = false).
  { intros e I. unfold column_entries in I. apply in_flat_map in I. destruct I as (k & Ik & I).
    destruct (Nat.eqb k i); [destruct I|]. apply in_map_iff in I. destruct I as ([q b] & <- & I).
    apply filter_In in I. destruct I as [I _]. cbn [snd]. apply Qeqb_neq.
    apply (Z (mk_row m k) q b); [|exact I]. unfold mk_row. apply nth_In. apply in_seq in Ik. lia. }
  induction (column_entries m i j1) as [|e l IH]; [reflexivity|]. cbn [filter]. rewrite A by now left.
  apply IH. intros f I. apply A. now right.
Qed.

Lemma cont_in s r j a : In r (m_rows m) -> In (j, a) (cont_part m s (r_form r)) ->
  (j < m_ncols m)%nat /\ loose m j = true /\ mk_int s j = false.
Proof.
  intros R I. unfold cont_part in I. apply filter_In in I. cbn [fst] in I. destruct I as [I K]. qb.
  split; [|auto]. destruct (wf r R) as [_ W]. now apply (W j a).
Qed.
Lemma row_step_done s i : no_zeros \/ length (cont_part m s (r_form (mk_row m i))) <> 2%nat ->
  tidy s -> (i < length (m_rows m))%nat ->
  exists s', row_step m obj dir s i = Done s' /\ tidy s' /\ later s s'.
Proof.
  intros Z T L. unfold row_step. assert (R : In (mk_row m i) (m_rows m)) by (unfold mk_row; now apply nth_In).
  set (r := mk_row m i) in *.
  assert (Dn : exists s', Done s = Done s' /\ tidy s' /\ later s s').
  { exists s. split; [reflexivity|]. split; [exact T|apply later_refl]. }
  destruct (all_integer m s r); [|exact Dn].
  destruct (cont_part m s (r_form r)) as [|[j a] [|[j2 a2] [|]]] eqn:C; try exact Dn.
  - destruct (cont_in s r j a R) as (Lj & Lo & F); [rewrite C; now left|].
    destruct (unit_like a); [|exact Dn]. destruct (equality r).
    + destruct (mark_ok s j T Lj Lo F) as (s' & E & T' & La & _). eauto.
    + eexists. split; [reflexivity|]. split.
      * exact T.
      * split; [auto|]. split; [|cbn; lia]. cbn [mk_ignore]. intros k H. rewrite H. apply orb_true_r.
  - destruct (_ && _ && _ && _ && _); [|exact Dn].
    destruct Z as [Z|Z]; [|exfalso; apply Z; reflexivity].
    destruct (pair_done i j j2 Z) as [b Eb]. rewrite Eb. cbn [bind]. destruct b; [|exact Dn].
    destruct (cont_in s r j a R) as (Lj & Lo & F); [rewrite C; now left|].
    destruct (cont_in s r j2 a2 R) as (Lj2 & Lo2 & F2); [rewrite C; right; now left|].
    destruct (mark_ok s j T Lj Lo F) as (s1 & E1 & T1 & La1 & M1). rewrite E1. cbn [bind].
    assert (Ne : j <> j2).
    { destruct (wf r R) as [W1 _].
      assert (N : NoDup (map fst (cont_part m s (r_form r)))).
      { clear - W1. unfold cont_part. induction (r_form r) as [|e v IH]; [constructor|].
        cbn [map] in W1. inversion W1; subst. cbn [filter]. destruct (_ && _); [|auto]. cbn [map]. constructor; [|auto].
        intro K. apply H1. apply in_map_iff in K. destruct K as (e' & E & K). apply filter_In in K.
        apply in_map_iff. exists e'. tauto. }
      rewrite C in N. inversion N; subst. intro K. subst. apply H1. now left. }
    destruct (mark_ok s1 j2 T1 Lj2 Lo2) as (s2 & E2 & T2 & La2 & _).
    { rewrite M1, F2. destruct (Nat.eqb_spec j2 j); [congruence|reflexivity]. }
    rewrite E2. exists s2. split; [reflexivity|]. split; [exact T2|]. eapply later_trans; eauto.
Qed.
Lemma col_step_done s j : tidy s -> (j < m_ncols m)%nat ->
  exists s', col_step m s j = Done s' /\ tidy s' /\ later s s'.
Proof.
  intros T L. unfold col_step. destruct (_ && _ && _ && _ && _) eqn:E.
  - qb. destruct (mark_ok s j T L) as (s' & Es & T' & La & _); auto. eauto.
  - exists s. split; [reflexivity|]. split; [exact T|apply later_refl].
Qed.
Lemma fold_done {A} (f : mk -> A -> outcome mk) (l : list A) : forall s,
  (forall t a, In a l -> tidy t -> exists t', f t a = Done t' /\ tidy t' /\ later t t') ->
  tidy s -> exists s', ofold f l s = Done s' /\ tidy s' /\ later s s'.
Proof.
  induction l as [|a l IH]; intros s H T; cbn [ofold].
  - exists s. split; [reflexivity|]. split; [exact T|apply later_refl].
  - destruct (H s a (or_introl eq_refl) T) as (t & E & Tt & La). rewrite E. cbn [bind].
    destruct (IH t) as (s' & E' & T' & La'); auto.
    { intros u b I. apply H. now right. }
    exists s'. split; [exact E'|]. split; [exact T'|]. eapply later_trans; eauto.
Qed.
Lemma rows_done s : no_zeros -> tidy s -> exists s',
  ofold (row_step m obj dir) (seq 0 (length (m_rows m))) s = Done s' /\ tidy s' /\ later s s'.
Proof.
  intros Z T. apply fold_done; [|exact T]. intros t i I Tt. apply in_seq in I. apply row_step_done; auto. lia.
Qed.
Lemma cols_done s : tidy s -> exists s',
  ofold (col_step m) (seq 0 (m_ncols m)) s = Done s' /\ tidy s' /\ later s s'.
Proof.
  intros T. apply fold_done; [|exact T]. intros t i I Tt. apply in_seq in I. apply col_step_done; auto. lia.
Qed.
Lemma pass_done s : no_zeros -> tidy s -> exists s',
  one_pass m obj dir s = Done s' /\ tidy s' /\ later s s'.
Proof.
  intros Z T. unfold one_pass. destruct (rows_done s Z T) as (t & E & Tt & La). rewrite E. cbn [bind].
  destruct (cols_done t Tt) as (u & Eu & Tu & Lu). exists u. split; [exact Eu|]. split; [exact Tu|].
  eapply later_trans; eauto.
Qed.
Lemma passes_done : no_zeros -> forall fuel s, tidy s -> (m_ncols m < fuel + length (mk_changed s))%nat ->
  exists s1 s', one_pass m obj dir s = Done s1 /\ passes fuel m obj dir s = Done s' /\ tidy s' /\ later s1 s'.
Proof.
  intro Z. induction fuel as [|f IH]; intros s T L; [pose proof (tidy_len s T); lia|]. cbn [passes].
  destruct (pass_done s Z T) as (t & E & Tt & La). rewrite E. cbn [bind].
  destruct (Nat.eqb_spec (length (mk_changed t)) (length (mk_changed s))) as [Q|Q].
  - exists t, t. split; [reflexivity|]. split; [reflexivity|]. split; [exact Tt|apply later_refl].
  - destruct (IH t Tt) as (s1 & s' & E1 & E' & T' & L'); [destruct La as (_ & _ & La); lia|].
    exists t, s'. split; [reflexivity|]. split; [exact E'|]. split; [exact T'|].
    destruct (pass_done t Z Tt) as (t1 & Et1 & _ & Lt). rewrite E1 in Et1. apply Done_inj in Et1. subst t1.
    eapply later_trans; eauto.
Qed.
Definition start : mk := {| mk_int := m_int m; mk_changed := []; mk_ignore := fun _ => false |}.
Lemma start_tidy : tidy start.
Proof. split; [constructor|]. split; [intros j []|]. intro j. cbn. split; [now left|]. intros [H|[]]. exact H. Qed.

(** ** Columns that are found *)
Lemma dist_int_integral q : integral q -> dist_int q == 0.
Proof.
  intros [z E]. unfold dist_int, qfloor. assert (F : Qfloor (q + (1 # 2)) = z).
  { apply Qfloor_unique; rewrite E; lra. }
  rewrite F, E. setoid_replace (inject_Z z - inject_Z z) with 0 by ring. reflexivity.
Qed.
Lemma near_integral q : integral q -> near q = true.
Proof. intro I. unfold near. apply Qle_bool_iff. rewrite (dist_int_integral q I). discriminate. Qed.

(** A row whose columns are not fixed, all integer with integer coefficients but
    [j], with integer sides and a coefficient +-1/k of [j]. *)
Definition plain_row (r : row) (j : nat) : Prop :=
  (forall k b, In (k, b) (r_form r) -> loose m k = true) /\
  (forall k b, In (k, b) (r_form r) -> k <> j -> m_int m k = true) /\
  (forall k b, In (k, b) (r_form r) -> k <> j -> integral b) /\
  (forall q, r_lo r = Some q \/ r_hi r = Some q -> integral q) /\
  exists a, In (j, a) (r_form r) /\ (1 # 1000) < Qabs a /\ integral (/ a).
Lemma plain_step s i j s' : tidy s -> (i < length (m_rows m))%nat -> plain_row (mk_row m i) j ->
  row_step m obj dir s i = Done s' -> later s s' ->
  mk_int s' j = true \/ (mk_ignore s' i = true /\ equality (mk_row m i) = false).
Proof.
  intros T L (P1 & P2 & P3 & P4 & a & Ia & Ba & Ua) E La.
  destruct (mk_int s j) eqn:Mj; [left; now apply La|].
  assert (R : In (mk_row m i) (m_rows m)) by (unfold mk_row; now apply nth_In).
  unfold row_step in E. set (r := mk_row m i) in *. destruct (wf r R) as [W1 W2].
  assert (Sm : sum_fixed m (r_form r) == 0).
  { unfold sum_fixed, fixed_part. replace (filter _ (r_form r)) with (@nil (nat * Q)); [reflexivity|].
    symmetry. clear - P1. induction (r_form r) as [|[k b] v IH]; [reflexivity|]. cbn [filter fst].
    rewrite (P1 k b) by now left. cbn [negb]. apply IH. intros q c I. apply (P1 q c). now right. }
  assert (Sd : forall q, r_lo r = Some q \/ r_hi r = Some q -> near (q - sum_fixed m (r_form r)) = true).
  { intros q H. apply near_integral. apply (integral_eq q); [rewrite Sm; ring|now apply P4]. }
  assert (A : all_integer m s r = true).
  { unfold all_integer. rewrite !andb_true_iff. split; [split|].
    - apply forallb_forall. intros [k b] I. unfold int_part in I. apply filter_In in I. cbn [fst] in I.
      destruct I as [I K]. qb. cbn [snd]. apply near_integral. apply (P3 k b I). intro; subst; congruence.
    - unfold side_ok. destruct (r_lo r); [apply Sd; now left|reflexivity].
    - unfold side_ok. destruct (r_hi r); [apply Sd; now right|reflexivity]. }
  rewrite A in E.
  assert (C : cont_part m s (r_form r) = [(j, a)]).
  { unfold cont_part. assert (X : forall e, In e (r_form r) ->
      loose m (fst e) && negb (mk_int s (fst e)) = Nat.eqb (fst e) j).
    { intros [k d] Ik. cbn [fst]. rewrite (P1 k d Ik). destruct (Nat.eqb_spec k j) as [->|Ne]; [now rewrite Mj|].
      destruct T as (_ & _ & M). replace (mk_int s k) with true; [reflexivity|]. symmetry. apply M. left. now apply (P2 k d). }
    rewrite (filter_ext_in _ (fun e => Nat.eqb (fst e) j)) by exact X.
    clear - W1 Ia. induction (r_form r) as [|[k d] v IH]; [destruct Ia|]. cbn [map fst] in W1.
    inversion W1; subst. cbn [filter fst]. destruct Ia as [E|Ic].
    - injection E as -> ->. rewrite Nat.eqb_refl. f_equal. clear - H1.
      induction v as [|[k b] v IH]; [reflexivity|]. cbn [filter fst]. cbn in H1.
      destruct (Nat.eqb_spec k j) as [->|]; [exfalso; apply H1; now left|]. apply IH. intro; apply H1; now right.
    - destruct (Nat.eqb_spec k j) as [->|]; [|now apply IH]. exfalso. apply H1. apply in_map_iff. exists (j, a). auto. }
  rewrite C in E.
  assert (U : unit_like a = true).
  { unfold unit_like. apply andb_true_iff. split; [now apply Qltb_lt|]. apply Qltb_lt.
    rewrite (dist_int_integral _ Ua). reflexivity. }
  rewrite U in E. destruct (equality r) eqn:Eq.
  - left. apply mark_done in E. destruct E as (M & _). rewrite M, Nat.eqb_refl. reflexivity.
  - right. apply Done_inj in E. subst s'. cbn [mk_ignore]. now rewrite Nat.eqb_refl.
Qed.
Lemma fold_through {A} (f : mk -> A -> outcome mk) (l : list A) : forall s s' a,
  (forall t b, In b l -> tidy t -> exists t', f t b = Done t' /\ tidy t' /\ later t t') ->
  tidy s -> ofold f l s = Done s' -> In a l ->
  exists t t', tidy t /\ later s t /\ f t a = Done t' /\ later t t' /\ later t' s'.
Proof.
  induction l as [|b l IH]; intros s s' a H T E I; [destruct I|]. cbn [ofold] in E.
  destruct (H s b (or_introl eq_refl) T) as (t & Et & Tt & La). rewrite Et in E. cbn [bind] in E.
  assert (H' : forall u c, In c l -> tidy u -> exists t', f u c = Done t' /\ tidy t' /\ later u t').
  { intros u c J. apply H. now right. }
  destruct (fold_done f l t H' Tt) as (s2 & E2 & _ & L2). rewrite E in E2. apply Done_inj in E2. subst s2.
  destruct I as [->|I].
  - exists s, t. split; [exact T|]. split; [apply later_refl|]. split; [exact Et|]. split; [exact La|exact L2].
  - destruct (IH t s' a H' Tt E I) as (u & u' & A1 & A2 & A3 & A4 & A5). exists u, u'.
    split; [exact A1|]. split; [eapply later_trans; eauto|]. auto.
Qed.
Lemma found_row s s1 i j : no_zeros -> tidy s -> (i < length (m_rows m))%nat -> plain_row (mk_row m i) j ->
  ofold (row_step m obj dir) (seq 0 (length (m_rows m))) s = Done s1 ->
  mk_int s1 j = true \/ (mk_ignore s1 i = true /\ equality (mk_row m i) = false).
Proof.
  intros Z T L P E. destruct (fold_through (row_step m obj dir) (seq 0 (length (m_rows m))) s s1 i) with (3 := E) as (t & t' & Tt & _ & Et & La & Lb); auto.
  - intros u b I Tu. apply in_seq in I. apply row_step_done; auto. lia.
  - apply in_seq. lia.
  - destruct (plain_step t i j t' Tt L P Et La) as [H|[H K]]; [left|right].
    + now apply Lb.
    + split; [now apply Lb|exact K].
Qed.
Lemma found_pass s s1 j : no_zeros -> tidy s -> (j < m_ncols m)%nat -> loose m j = true ->
  (forall q, m_clo m j = Some q \/ m_chi m j = Some q -> integral q) ->
  (forall i, (i < length (m_rows m))%nat -> In j (map fst (r_form (mk_row m i))) -> plain_row (mk_row m i) j) ->
  one_pass m obj dir s = Done s1 -> mk_int s1 j = true.
Proof.
  intros Z T L Lo B P E. unfold one_pass in E.
  destruct (rows_done s Z T) as (t & Et & Tt & La). rewrite Et in E. cbn [bind] in E.
  destruct (fold_through (col_step m) (seq 0 (m_ncols m)) t s1 j) with (3 := E) as (u & u' & Tu & Lu & Eu & Lc & Ld); auto.
  { intros v b I Tv. apply in_seq in I. apply col_step_done; auto. lia. }
  { apply in_seq. lia. }
  apply Ld. destruct (mk_int u j) eqn:Mj; [now apply Lc|].
  unfold col_step in Eu. rewrite Lo, Mj in Eu. cbn [negb andb] in Eu.
  replace (bound_ok (m_chi m j)) with true in Eu.
  2:{ unfold bound_ok. destruct (m_chi m j) as [q|] eqn:Eq; [|reflexivity]. symmetry. apply near_integral. apply B. now right. }
  replace (bound_ok (m_clo m j)) with true in Eu.
  2:{ unfold bound_ok. destruct (m_clo m j) as [q|] eqn:Eq; [|reflexivity]. symmetry. apply near_integral. apply B. now left. }
  cbn [andb] in Eu. destruct (forallb _ _) eqn:F.
  - apply mark_done in Eu. destruct Eu as (M & _). rewrite M, Nat.eqb_refl. reflexivity.
  - exfalso. assert (X : forallb (fun i => negb (has_column (mk_row m i) j) || mk_ignore u i) (seq 0 (length (m_rows m))) = true).
    { apply forallb_forall. intros i I. apply in_seq in I. destruct (has_column (mk_row m i) j) eqn:H; [|reflexivity].
      cbn [negb orb]. unfold has_column in H. apply existsb_exists in H. destruct H as (e & Ie & Ee). apply Nat.eqb_eq in Ee.
      assert (Hj : In j (map fst (r_form (mk_row m i)))) by (apply in_map_iff; eauto).
      assert (Li : (i < length (m_rows m))%nat) by lia.
      destruct (found_row s t i j Z T Li (P i Li Hj) Et) as [K|[K _]].
      - apply Lu in K. congruence.
      - now apply Lu. }
    congruence.
Qed.
End Outcome.
