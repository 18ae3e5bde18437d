(** * Lemmas for CglTwomir *)

From Verif Require Import Spec Base Model_Twomir Proofs_TwomirCore.
From Coq Require Import Arith Qabs Lqa Lia.
Open Scope Q_scope.

(** A number that passes the integrality test is an integer. *)
Definition sharp (q : Q) : Prop := frac q <= 1 # 10000000000 -> integral q.
(** The rows hold no coefficient or bound just above an integer and no range
    that is positive but below the tolerance. *)
Definition sharp_rows (m : mip) : Prop :=
  forall r, In r (m_rows m) ->
    (forall j a, In (j, a) (r_form r) -> sharp a) /\
    (forall l, r_lo r = Some l -> sharp l) /\
    (forall h, r_hi r = Some h -> sharp h) /\
    (forall h l, r_hi r = Some h -> r_lo r = Some l -> Qabs (h - l) <= 1 # 1000000 -> h == l).
Definition nonneg_lower (m : mip) : Prop :=
  forall j, (j < m_ncols m)%nat -> exists l, m_clo m j = Some l /\ 0 <= l.
(** [M] bounds the coordinates of the point and its distances to the upper
    bounds of the columns and to the bounds of the rows. *)
Definition spread (m : mip) (M : Q) (z : point) : Prop :=
  (forall j, (j < m_ncols m)%nat -> Qabs (z j) <= M /\ forall u, m_chi m j = Some u -> u - z j <= M) /\
  (forall r, In r (m_rows m) ->
     (forall h, r_hi r = Some h -> h - value (r_form r) z <= M) /\
     (forall l, r_lo r = Some l -> value (r_form r) z - l <= M)).

Definition qn (n : nat) : Q := inject_Z (Z.of_nat n).
Lemma qn_S n : qn (S n) == qn n + 1.
Proof. unfold qn. rewrite Nat2Z.inj_succ, <- Z.add_1_r, inject_Z_plus. reflexivity. Qed.
Lemma qn_0 : qn 0 = 0.
Proof. reflexivity. Qed.
Lemma qn_le a b : (a <= b)%nat -> qn a <= qn b.
Proof. intros H. unfold qn. rewrite <- Zle_Qle. lia. Qed.
Lemma qn_nonneg n : 0 <= qn n.
Proof. change 0 with (qn 0). apply qn_le. lia. Qed.
Lemma abs_bounds a b : Qabs a <= b -> - b <= a /\ a <= b.
Proof. intros H. apply Qabs_Qle_condition in H. exact H. Qed.
Lemma bounds_abs a b : - b <= a -> a <= b -> Qabs a <= b.
Proof. intros. apply Qabs_Qle_condition. split; assumption. Qed.
Lemma sharp_near q : sharp q -> near_int q = true -> integral q.
Proof. intros S N. apply S. unfold near_int, integrality_thresh in N. qb. exact N. Qed.

(** Dense and sparse sums. *)
Lemma value_zero_out (j n k : nat) : (n + k <= j)%nat \/ (j < n)%nat ->
  forall b (z : point), value (map (fun i => (i, if (i =? j)%nat then b else 0 : Q)) (seq n k)) z == 0.
Proof.
  revert n. induction k as [|k IH]; intros n H b z; [reflexivity|].
  cbn [seq map value]. rewrite (IH (S n)) by lia.
  destruct (n =? j)%nat eqn:E; [apply Nat.eqb_eq in E; lia|]. ring.
Qed.
Lemma value_one j n k : (n <= j < n + k)%nat ->
  forall b (z : point), value (map (fun i => (i, if (i =? j)%nat then b else 0 : Q)) (seq n k)) z == b * z j.
Proof.
  revert n. induction k as [|k IH]; intros n H b z; [lia|].
  cbn [seq map value]. destruct (n =? j)%nat eqn:E.
  - apply Nat.eqb_eq in E. subst n. rewrite (value_zero_out j) by (right; lia). ring.
  - apply Nat.eqb_neq in E. rewrite IH by lia. ring.
Qed.
Lemma value_map_add (f g : nat -> Q) l z :
  value (map (fun i => (i, f i + g i)) l) z ==
  value (map (fun i => (i, f i)) l) z + value (map (fun i => (i, g i)) l) z.
Proof. induction l as [|i l IH]; cbn [map value]; [ring|]. rewrite IH. ring. Qed.
Lemma value_map_ext (f g : nat -> Q) l z : (forall i, f i == g i) ->
  value (map (fun i => (i, f i)) l) z == value (map (fun i => (i, g i)) l) z.
Proof. intros E. induction l as [|i l IH]; cbn [map value]; [reflexivity|]. rewrite IH, E. reflexivity. Qed.
Lemma coef_sum_cons k a v j :
  coef_sum j ((k, a) :: v) == (if (j =? k)%nat then a else 0) + coef_sum j v.
Proof. cbn [coef_sum]. rewrite (Nat.eqb_sym k j). destruct (j =? k)%nat; ring. Qed.
Lemma value_dense n v z : (forall e, In e v -> (fst e < n)%nat) ->
  value (map (fun j => (j, coef_sum j v)) (seq 0 n)) z == value v z.
Proof.
  induction v as [|[k a] v IH]; intros H.
  - induction (seq 0 n) as [|i l IHl]; cbn [map value coef_sum] in *; [reflexivity|]. rewrite IHl. ring.
  - rewrite (value_map_ext _ (fun j => (if (j =? k)%nat then a else 0) + coef_sum j v))
      by (intros; apply coef_sum_cons).
    rewrite value_map_add, IH by (intros; apply H; right; assumption).
    rewrite (value_one k 0 n) by (specialize (H (k, a) (or_introl eq_refl)); cbn [fst] in H; lia).
    cbn [value]. reflexivity.
Qed.
Lemma filter_small M v z : 0 <= M -> (forall e, In e v -> Qabs (z (fst e)) <= M) ->
  Qabs (value (filter keep_small v) z - value v z) <= qn (length v) * (min_tableau * M).
Proof.
  intros HM. induction v as [|[k a] v IH]; intros H.
  - cbn [filter value length]. rewrite qn_0. apply bounds_abs; lra.
  - assert (B : Qabs (value (filter keep_small v) z - value v z) <= qn (length v) * (min_tableau * M))
      by (apply IH; intros; apply H; right; assumption).
    specialize (H (k, a) (or_introl eq_refl)). cbn [fst] in H.
    assert (P : 0 <= min_tableau * M) by (apply Qmult_le_0_compat; [unfold min_tableau; lra|exact HM]).
    apply abs_bounds in B. cbn [length].
    assert (EQ : qn (S (length v)) * (min_tableau * M) == qn (length v) * (min_tableau * M) + min_tableau * M)
      by (rewrite qn_S; ring).
    rewrite EQ.
    cbn [filter]. unfold keep_small at 1. cbn [snd].
    set (X0 := qn (length v) * (min_tableau * M)) in *.
    destruct (Qltb min_tableau (Qabs a)) eqn:E; qb; cbn [value].
    + apply bounds_abs; lra.
    + assert (X : Qabs (a * z k) <= min_tableau * M).
      { rewrite Qabs_Qmult. apply Qle_trans with (min_tableau * Qabs (z k)).
        - apply Qmult_le_compat_r; [exact E|apply Qabs_nonneg].
        - rewrite !(Qmult_comm min_tableau). apply Qmult_le_compat_r; [exact H|unfold min_tableau; lra]. }
      apply abs_bounds in X. apply bounds_abs; lra.
Qed.

(** The unit point of a column, and the entry of a column in the combination
    of the rows with multipliers [l]. *)
Definition unit (j : nat) : point := fun i => if (i =? j)%nat then 1 else 0.
Definition entry (l : list Q) (rows : list row) (j : nat) : Q :=
  fold_right (fun lr s => fst lr * value (r_form (snd lr)) (unit j) + s) 0 (List.combine l rows).
(** What the factorisation returns: the combination of the rows with the
    multipliers for the basic integer column [k] has no other basic column,
    and uses no row that has no bound. *)
Definition fact_ok (p : lp) (f : nat -> list Q) : Prop :=
  forall k, (k < m_ncols (p_m p))%nat -> p_cbas p k = true -> m_int (p_m p) k = true ->
    (forall j, (j < m_ncols (p_m p))%nat -> p_cbas p j = true -> j <> k -> entry (f k) (m_rows (p_m p)) j == 0) /\
    (forall i r, nth_error (m_rows (p_m p)) i = Some r -> r_lo r = None -> r_hi r = None -> nth i (f k) 0 == 0).

Lemma coef_sum_app j v w : coef_sum j (v ++ w) == coef_sum j v + coef_sum j w.
Proof.
  induction v as [|[k a] v IH]; cbn [app coef_sum]; [ring|]. destruct (k =? j)%nat; rewrite IH; ring.
Qed.
Lemma coef_sum_unit j v : coef_sum j v == value v (unit j).
Proof.
  induction v as [|[k a] v IH]; cbn [coef_sum value]; [reflexivity|]. unfold unit at 1.
  destruct (k =? j)%nat; rewrite IH; ring.
Qed.
Lemma entry_coef l rows j : entry l rows j == coef_sum j (combine_rows l rows).
Proof.
  revert rows. induction l as [|a l IH]; intros rows; [reflexivity|].
  destruct rows as [|r rows]; [reflexivity|].
  unfold entry. cbn [List.combine fold_right combine_rows fst snd]. fold (entry l rows j).
  rewrite IH, coef_sum_app, (coef_sum_unit j (scale a (r_form r))), (value_scale a (r_form r) (unit j)). ring.
Qed.
Lemma combine_value l rows d z :
  fold_right (fun i s => nth i l 0 * value (r_form (nth i rows d)) z + s) 0 (seq 0 (length rows)) ==
  value (combine_rows l rows) z.
Proof.
  revert l. induction rows as [|r rows IH]; intros l.
  - destruct l; reflexivity.
  - cbn [length]. rewrite <- cons_seq, <- seq_shift.
    assert (FM : forall (f : nat -> Q -> Q) L a, fold_right f a (map S L) = fold_right (fun i => f (S i)) a L).
    { intros f L a. induction L as [|x L IHL]; cbn [map fold_right]; [reflexivity|]. rewrite IHL. reflexivity. }
    cbn [fold_right]. rewrite FM.
    destruct l as [|a l].
    + cbn [combine_rows value].
      assert (Z : forall L, fold_right (fun i s => nth (S i) [] 0 * value (r_form (nth (S i) (r :: rows) d)) z + s) 0 L == 0).
      { induction L as [|x L IHL]; cbn [fold_right]; [reflexivity|]. rewrite IHL. cbn [nth]. ring. }
      rewrite Z. cbn [nth]. ring.
    + cbn [nth combine_rows]. rewrite value_app, (value_scale a (r_form r) z), <- IH. reflexivity.
Qed.
Lemma combine_cols n l rows : (forall r, In r rows -> wf_row n r) ->
  forall e, In e (combine_rows l rows) -> (fst e < n)%nat.
Proof.
  revert rows. induction l as [|a l IH]; intros rows H e He; [destruct He|].
  destruct rows as [|r rows]; [destruct He|]. cbn [combine_rows] in He. apply in_app_or in He.
  destruct He as [He|He].
  - unfold scale in He. apply in_map_iff in He. destruct He as ([j b] & <- & He). cbn [fst].
    exact (proj2 (H r (or_introl eq_refl)) j b He).
  - eapply IH; [|exact He]. intros r' Hr'. apply H. right. exact Hr'.
Qed.
Lemma value_filter_zero (f : nat -> Q) (q : nat -> bool) L z :
  (forall j, In j L -> q j = false -> f j == 0) ->
  value (map (fun j => (j, f j)) (filter q L)) z == value (map (fun j => (j, f j)) L) z.
Proof.
  induction L as [|j L IH]; intros H; [reflexivity|].
  assert (H' : forall j, In j L -> q j = false -> f j == 0) by (intros; apply H; [right|]; assumption).
  cbn [filter]. destruct (q j) eqn:E; cbn [map value]; rewrite IH by exact H'; [reflexivity|].
  rewrite (H j (or_introl eq_refl) E). ring.
Qed.
Lemma filter_len {A} (f : A -> bool) l : (length (filter f l) <= length l)%nat.
Proof. induction l as [|a l IH]; cbn [filter length]; [lia|]. destruct (f a); cbn [length]; lia. Qed.
Lemma nodup_bound l n : NoDup l -> (forall j : nat, In j l -> (j < n)%nat) -> (length l <= n)%nat.
Proof.
  intros N H. rewrite <- (seq_length n 0). apply NoDup_incl_length; [exact N|].
  intros j Hj. apply in_seq. specialize (H j Hj). lia.
Qed.
Lemma zrange_in a b t : In t (zrange a b) -> (a <= t <= b)%Z.
Proof.
  unfold zrange. intros H. apply in_map_iff in H. destruct H as (i & <- & H). apply in_seq in H. lia.
Qed.

Section Run.
  Variables (p : lp) (cp : cparams) (z : point) (M : Q).
  Notation m := (p_m p).
  Notation n := (nc p).
  Notation k := (nr p).
  Hypothesis WF : wf_mip m.
  Hypothesis FZ : feasible m z.
  Hypothesis SH : sharp_rows m.
  Hypothesis NN : nonneg_lower m.
  Hypothesis SP : spread m M z.
  Hypothesis HM : 0 <= M.

  Notation w := (lift p z).
  Definition y (v : nat) : Q :=
    if fst (side p v) then snd (side p v) - w v else w v - snd (side p v).
  Definition live (v : nat) : Prop :=
    (v < n)%nat \/ exists i, v = (n + i)%nat /\ (i < k)%nat /\ above p i || below p i = true.

  Lemma row_in i : (i < k)%nat -> In (row_of p i) (m_rows m).
  Proof. intros H. apply nth_In. exact H. Qed.
  Lemma lift_col v : (v < n)%nat -> w v = z v.
  Proof. intros H. unfold lift. apply Nat.ltb_lt in H. rewrite H. reflexivity. Qed.
  Lemma lift_slack i : w (n + i)%nat = slack p i z.
  Proof.
    unfold lift. replace (n + i <? n)%nat with false by (symmetry; apply Nat.ltb_ge; lia).
    replace (n + i - n)%nat with i by lia. reflexivity.
  Qed.

  Lemma row_value_integral i : (i < k)%nat ->
    forallb (fun e => near_int (snd e) && m_int m (fst e)) (r_form (row_of p i)) = true ->
    integral (value (r_form (row_of p i)) z).
  Proof.
    intros Hi H. rewrite forallb_forall in H. apply value_integral. intros j a Ha.
    specialize (H _ Ha). apply andb_true_iff in H. destruct H as [H1 H2]. cbn [fst snd] in H1, H2.
    destruct (SH _ (row_in i Hi)) as (S1 & _). split.
    - apply sharp_near; [apply (S1 j a Ha)|exact H1].
    - apply FZ; [|exact H2]. apply (proj2 (WF _ (row_in i Hi)) j a Ha).
  Qed.

  (** The bounds of the lifted point. *)
  Lemma y_ok v : live v ->
    0 <= y v /\ (isint p v = true -> integral (y v)) /\
    (forall u, ub p v = Some u -> y v <= u) /\ y v <= M.
  Proof.
    intros [Hv|(i & -> & Hi & Hf)].
    - unfold y, side, isint. rewrite (lift_col v Hv).
      pose proof (proj1 (proj2 FZ) v Hv) as [B1 B2].
      destruct (NN v Hv) as (l & EL & L0).
      destruct (proj1 SP v Hv) as [A1 A2]. apply abs_bounds in A1.
      unfold lb, ub. assert (Hb := Hv). apply Nat.ltb_lt in Hb. rewrite Hb, EL.
      rewrite EL in B1. cbn [ge_opt_lo] in B1.
      assert (B3 : m_int m v = true -> integral (z v)) by (apply FZ; exact Hv).
      set (l' := if m_int m v then qceil l else l).
      assert (L1 : l' <= z v /\ 0 <= l' /\ (m_int m v = true -> integral l')).
      { unfold l'. destruct (m_int m v).
        - split; [apply integral_ge_ceil; [apply B3; reflexivity|exact B1]|].
          split; [pose proof (qceil_ge l); lra|intros _; apply integral_ceil].
        - split; [exact B1|]. split; [exact L0|discriminate]. }
      destruct L1 as (L1 & L2 & L3).
      destruct (m_chi m v) as [u|] eqn:EU.
      + cbn [le_opt_hi] in B2. specialize (A2 u eq_refl).
        set (u' := if m_int m v then qfloor u else u).
        assert (U1 : z v <= u' /\ u' <= u /\ (m_int m v = true -> integral u')).
        { unfold u'. destruct (m_int m v).
          - split; [apply integral_le_floor; [apply B3; reflexivity|exact B2]|].
            split; [apply qfloor_le|intros _; apply integral_floor].
          - split; [exact B2|]. split; [lra|discriminate]. }
        destruct U1 as (U1 & U2 & U3).
        destruct (Qltb (u' - dx p v) ((u' - l') / 2)); cbn [fst snd].
        * split; [lra|]. split; [intros X; apply integral_minus; auto|].
          split; [intros q Eq; apply Some_inj in Eq; subst q; lra|lra].
        * split; [lra|]. split; [intros X; apply integral_minus; auto|].
          split; [intros q Eq; apply Some_inj in Eq; subst q; lra|lra].
      + cbn [fst snd]. split; [lra|]. split; [intros X; apply integral_minus; auto|].
        split; [discriminate|lra].
    - unfold y, side. rewrite lift_slack.
      unfold lb, ub, isint. replace (n + i <? n)%nat with false by (symmetry; apply Nat.ltb_ge; lia).
      replace (n + i - n)%nat with i by lia.
      pose proof (row_in i Hi) as RI. pose proof (proj1 FZ _ RI) as [B1 B2].
      destruct (proj2 SP _ RI) as [A1 A2]. destruct (SH _ RI) as (S1 & S2 & S3 & _).
      pose proof (row_value_integral i Hi) as RV.
      unfold slack, slack_int, above, below in *.
      destruct (r_hi (row_of p i)) as [h|] eqn:EH; destruct (r_lo (row_of p i)) as [l|] eqn:EL;
        cbn [ge_opt_lo le_opt_hi] in *; cbn [some orb] in Hf; try discriminate.
      + specialize (A1 h eq_refl). specialize (A2 l eq_refl).
        assert (II : (near_int h && near_int l &&
            forallb (fun e => near_int (snd e) && m_int m (fst e)) (r_form (row_of p i))) = true ->
            integral h /\ integral l /\ integral (value (r_form (row_of p i)) z)).
        { intros X. apply andb_true_iff in X. destruct X as [X X3]. apply andb_true_iff in X. destruct X as [X1 X2].
          split; [apply sharp_near; [apply S3; reflexivity|exact X1]|].
          split; [apply sharp_near; [apply S2; reflexivity|exact X2]|]. apply RV. exact X3. }
        destruct (Qltb (h - l - dx p (n + i)) ((h - l - 0) / 2)); cbn [fst snd].
        * split; [lra|]. split.
          { intros X. destruct (II X) as (I1 & I2 & I3).
            apply (integral_eq (value (r_form (row_of p i)) z - l)); [ring|]. apply integral_minus; assumption. }
          split; [intros q Eq; apply Some_inj in Eq; subst q; lra|lra].
        * split; [lra|]. split.
          { intros X. destruct (II X) as (I1 & I2 & I3).
            apply integral_minus; [apply integral_minus; assumption|apply integral_0]. }
          split; [intros q Eq; apply Some_inj in Eq; subst q; lra|lra].
      + specialize (A1 h eq_refl). cbn [fst snd]. split; [lra|]. split.
        { intros X. apply andb_true_iff in X. destruct X as [X X3]. apply andb_true_iff in X. destruct X as [X1 _].
          apply integral_minus; [apply integral_minus|apply integral_0];
            [apply sharp_near; [apply S3; reflexivity|exact X1]|apply RV; exact X3]. }
        split; [discriminate|lra].
      + specialize (A2 l eq_refl). unfold rlow in *. rewrite EL in *. cbn [fst snd]. split; [lra|]. split.
        { intros X. apply andb_true_iff in X. destruct X as [X1 X3].
          apply integral_minus; [apply integral_minus|apply integral_0];
            [apply RV; exact X3|apply sharp_near; [apply S2; reflexivity|exact X1]]. }
        split; [discriminate|lra].
  Qed.

  (** The change of variables. *)
  Lemma transform_value t : value (map (flip p) t) y == value t w - shift_sum p t.
  Proof.
    induction t as [|[v a] t IH]; cbn [map value shift_sum fold_right]; [lra|].
    fold (shift_sum p t). unfold flip at 1. cbn [fst snd].
    rewrite IH. unfold y. destruct (fst (side p v)); ring.
  Qed.
  Lemma untransform_value t : value (map (flip p) t) w == value t y + un_sum p t.
  Proof.
    induction t as [|[v a] t IH]; cbn [map value un_sum fold_right]; [lra|].
    fold (un_sum p t). unfold flip at 1. cbn [fst snd].
    rewrite IH. unfold y. destruct (fst (side p v)); ring.
  Qed.
  Lemma flip_fst t : map fst (map (flip p) t) = map fst t.
  Proof. rewrite map_map. reflexivity. Qed.

  (** A base: it is an equation at the lifted point, up to [d]. *)
  Definition shape (t : vec) : Prop :=
    (forall v, In v (map fst t) -> live v) /\ (length t <= n + k)%nat.
  Definition base_ok (d : Q) (c : con) : Prop :=
    shape (c_t c) /\ c_rhs c - d <= value (c_t c) w /\ value (c_t c) w <= c_rhs c + d.
  Lemma shape_fst t t' : map fst t' = map fst t -> shape t -> shape t'.
  Proof.
    intros E [S1 S2]. split; [rewrite E; exact S1|].
    rewrite <- (map_length fst t'), E, map_length. exact S2.
  Qed.
  Lemma shape_vars t : shape t -> vars_ok p y t.
  Proof.
    intros [S1 _] e He. destruct (y_ok (fst e)) as (A & B & _); [apply S1, in_map, He|].
    split; assumption.
  Qed.

  Lemma nice1_ok v a : live v ->
    a * y v <= fst (nice1 p (v, a)) * y v + snd (nice1 p (v, a)) + min_abs * M.
  Proof.
    intros L. destruct (y_ok v L) as (Y0 & _ & YU & YM).
    assert (P : 0 <= min_abs * M) by (apply Qmult_le_0_compat; [unfold min_abs; lra|exact HM]).
    unfold nice1. cbn [fst snd].
    set (a0 := if Qltb (Qabs a) min_abs then 0 else a).
    assert (A0 : a * y v <= a0 * y v + min_abs * M).
    { unfold a0. destruct (Qltb (Qabs a) min_abs) eqn:E; qb; [|lra].
      assert (X : a * y v <= min_abs * M).
      { apply Qle_trans with (min_abs * y v).
        - apply Qmult_le_compat_r; [|exact Y0]. pose proof (Qle_Qabs a). lra.
        - rewrite !(Qmult_comm min_abs). apply Qmult_le_compat_r; [exact YM|unfold min_abs; lra]. }
      lra. }
    pose proof (frac_def a0) as FD. pose proof (frac_nonneg a0) as F0. pose proof (frac_lt1 a0) as F1.
    pose proof (qceil_ge a0) as CG0.
    assert (EA : a0 * y v == qfloor a0 * y v + frac a0 * y v) by (rewrite FD at 1; ring).
    assert (AC : a0 = a \/ a < min_abs).
    { unfold a0. destruct (Qltb (Qabs a) min_abs) eqn:E; qb; [right|left; reflexivity].
      pose proof (Qle_Qabs a). lra. }
    clearbody a0.
    destruct (isint p v).
    - destruct (Qltb (frac a0) min_fix) eqn:E1; qb.
      + destruct (ub p v) as [u|] eqn:EU.
        * specialize (YU u eq_refl). destruct (Qltb (frac a0 * u) max_padding) eqn:E2; qb; cbn [fst snd].
          -- assert (frac a0 * y v <= frac a0 * u) by (rewrite !(Qmult_comm (frac a0)); apply Qmult_le_compat_r; assumption). lra.
          -- assert (frac a0 * y v <= min_fix * y v) by (apply Qmult_le_compat_r; lra). lra.
        * destruct (Qeq_bool (frac a0) 0) eqn:E2; qb; cbn [fst snd].
          -- rewrite E2 in EA. lra.
          -- assert (frac a0 * y v <= min_fix * y v) by (apply Qmult_le_compat_r; lra). lra.
      + destruct (Qltb (1 - frac a0) min_fix); cbn [fst snd].
        * assert (a0 * y v <= qceil a0 * y v) by (apply Qmult_le_compat_r; lra). lra.
        * lra.
    - destruct (Qltb a0 min_abs) eqn:E1; qb; cbn [fst snd].
      + assert (N : a < min_abs) by (destruct AC as [<-|]; assumption).
        assert (a * y v <= min_abs * M); [|lra].
        apply Qle_trans with (min_abs * y v); [apply Qmult_le_compat_r; lra|].
        rewrite !(Qmult_comm min_abs). apply Qmult_le_compat_r; [exact YM|unfold min_abs; lra].
      + assert (A1 : 0 <= a0) by (unfold min_abs in E1; lra).
        destruct (Qltb a0 min_fix) eqn:E2; qb; cbn [fst snd]; [|lra].
        destruct (ub p v) as [u|] eqn:EU.
        * specialize (YU u eq_refl). destruct (Qltb (a0 * u) max_padding); cbn [fst snd].
          -- assert (a0 * y v <= a0 * u) by (rewrite !(Qmult_comm a0); apply Qmult_le_compat_r; assumption). lra.
          -- assert (a0 * y v <= min_fix * y v) by (apply Qmult_le_compat_r; lra). lra.
        * cbn [fst snd]. assert (a0 * y v <= min_fix * y v) by (apply Qmult_le_compat_r; lra). lra.
  Qed.

  (** Errors: of the tableau and of the substitution, and of the cleaning. *)
  Definition e_drop : Q := qn n * (min_tableau * M).
  Definition e_nice : Q := qn (n + k) * (min_abs * M).
  Lemma e_drop_pos : 0 <= e_drop.
  Proof.
    unfold e_drop. apply Qmult_le_0_compat; [apply qn_nonneg|].
    apply Qmult_le_0_compat; [unfold min_tableau; lra|exact HM].
  Qed.
  Lemma e_nice_pos : 0 <= e_nice.
  Proof.
    unfold e_nice. apply Qmult_le_0_compat; [apply qn_nonneg|].
    apply Qmult_le_0_compat; [unfold min_abs; lra|exact HM].
  Qed.

  (** A cut in the space of the transformed variables. *)
  Definition cut_ok (d : Q) (c : con) : Prop :=
    shape (c_t c) /\ holds y d c /\ c_s c = CG.

  Lemma nicefy_ok d c r : shape (c_t c) -> holds y d c -> nicefy p c = Some r -> cut_ok (d + e_nice) r.
  Proof.
    intros HS H NI. unfold nicefy in NI.
    assert (E : r = Con (map (fun e => (fst e, fst (nice1 p e))) (c_t c))
                     (c_rhs c - fold_right (fun e s => snd (nice1 p e) + s) 0 (c_t c)) CG).
    { destruct (c_s c); try discriminate; congruence. }
    subst r. split; [|split; [|reflexivity]].
    - cbn [c_t]. eapply shape_fst; [|exact HS]. rewrite map_map. reflexivity.
    - unfold holds in *. cbn [c_t c_rhs].
      assert (G : forall t, (forall v, In v (map fst t) -> live v) ->
        value t y <= value (map (fun e => (fst e, fst (nice1 p e))) t) y
                     + fold_right (fun e s => snd (nice1 p e) + s) 0 t + qn (length t) * (min_abs * M)).
      { induction t as [|[v a] t IH]; intros L; [cbn [map value fold_right length]; rewrite qn_0; lra|].
        assert (L1 : forall v, In v (map fst t) -> live v) by (intros; apply L; right; assumption).
        specialize (IH L1). pose proof (nice1_ok v a (L v (or_introl eq_refl))) as N1.
        cbn [map value fold_right length fst].
        assert (EQ : qn (S (length t)) * (min_abs * M) == qn (length t) * (min_abs * M) + min_abs * M)
          by (rewrite qn_S; ring).
        rewrite EQ. lra. }
      specialize (G (c_t c) (proj1 HS)).
      assert (LQ : qn (length (c_t c)) * (min_abs * M) <= e_nice).
      { unfold e_nice. apply Qmult_le_compat_r; [apply qn_le; exact (proj2 HS)|].
        apply Qmult_le_0_compat; [unfold min_abs; lra|exact HM]. }
      lra.
  Qed.

  Definition zq (t : Z) : Q := inject_Z (Z.abs t).
  Lemma zq_ge1 t : (t <> 0)%Z -> 1 <= zq t.
  Proof. intros H. unfold zq. change 1 with (inject_Z 1). rewrite <- Zle_Qle. lia. Qed.

  (** The bases met by the loops over the scale factors. *)
  Definition near_ok (d : Q) (c : con) : Prop :=
    shape (c_t c) /\ c_rhs c - d <= value (c_t c) y /\ value (c_t c) y <= c_rhs c + d.
  Lemma scale_fst q t : map fst (scale q t) = map fst t.
  Proof. unfold scale. rewrite map_map. reflexivity. Qed.
  Lemma scale_pos d t c : (0 < t)%Z -> shape (c_t c) -> holds y d c ->
    shape (c_t (scale_con t c)) /\ holds y (zq t * d) (scale_con t c).
  Proof.
    intros Ht HS H. split; [eapply shape_fst; [apply scale_fst|exact HS]|].
    unfold holds, scale_con in *. cbn [c_t c_rhs]. rewrite value_scale. unfold zq.
    rewrite Z.abs_eq by lia.
    assert (P : 0 <= inject_Z t) by (change 0 with (inject_Z 0); rewrite <- Zle_Qle; lia).
    assert (inject_Z t * (c_rhs c - d) <= inject_Z t * value (c_t c) y)
      by (rewrite !(Qmult_comm (inject_Z t)); apply Qmult_le_compat_r; assumption).
    lra.
  Qed.
  Lemma scale_any d t c : near_ok d c ->
    shape (c_t (scale_con t c)) /\ holds y (zq t * d) (scale_con t c).
  Proof.
    intros (HS & H1 & H2). split; [eapply shape_fst; [apply scale_fst|exact HS]|].
    unfold holds, scale_con. cbn [c_t c_rhs]. rewrite value_scale. unfold zq.
    destruct (Z.le_gt_cases 0 t) as [L|L].
    - rewrite Z.abs_eq by lia.
      assert (P : 0 <= inject_Z t) by (change 0 with (inject_Z 0); rewrite <- Zle_Qle; lia).
      assert (inject_Z t * (c_rhs c - d) <= inject_Z t * value (c_t c) y)
        by (rewrite !(Qmult_comm (inject_Z t)); apply Qmult_le_compat_r; assumption).
      lra.
    - rewrite Z.abs_neq by lia. rewrite inject_Z_opp.
      assert (P : 0 <= - inject_Z t).
      { rewrite <- inject_Z_opp. change 0 with (inject_Z 0). rewrite <- Zle_Qle. lia. }
      assert (- inject_Z t * value (c_t c) y <= - inject_Z t * (c_rhs c + d))
        by (rewrite !(Qmult_comm (- inject_Z t)); apply Qmult_le_compat_r; assumption).
      lra.
  Qed.

  (** A step that turns a base into cuts. *)
  Definition step_ok (add : con -> option (list con)) : Prop :=
    forall d b ds c, 0 <= d -> cut_ok d b -> add b = Some ds -> In c ds -> cut_ok d c.
  Definition step_total (add : con -> option (list con)) : Prop :=
    forall b, c_s b = CG -> c_t b <> [] -> add b <> None.
  Lemma addMir_ok : step_ok (addMir p).
  Proof.
    intros d b ds c Hd (HS & HB & _) A I. unfold addMir in A.
    destruct (buildMir p b) as [r|] eqn:E; [|discriminate]. apply Some_inj in A. subst ds.
    destruct I as [<-|[]].
    destruct (buildMir_ok p y d b r Hd (shape_vars _ HS) HB E) as (A1 & A2 & A3).
    split; [eapply shape_fst; eassumption|]. split; assumption.
  Qed.
  Lemma first_alpha_valid cutoff bht l a : first_alpha p cp cutoff bht l = Some a -> is2stepValid a bht = true.
  Proof.
    induction l as [|e l IH]; cbn [first_alpha]; [discriminate|].
    destruct (alpha_of p cp cutoff bht e) as [a'|] eqn:E; [|exact IH].
    intros X. apply Some_inj in X. subst a'. unfold alpha_of in E.
    destruct (negb (isint p (fst e))); [discriminate|].
    destruct (Qle_bool (Qabs (drc p (fst e))) cutoff); [discriminate|].
    destruct (Qle_bool bht (frac (snd e))); [discriminate|].
    destruct ((a_max cp =? 0)%Z || Qltb (frac (snd e)) (bht / inject_Z (a_max cp))); [discriminate|].
    destruct (is2stepValid (shrink cp 1000 1 (frac (snd e)) (frac (snd e)) bht) bht) eqn:V; [|discriminate].
    apply Some_inj in E. subst a. exact V.
  Qed.
  Lemma add2step_ok : step_ok (add2step p cp).
  Proof.
    intros d b ds c Hd (HS & HB & _) A I. unfold add2step in A.
    destruct (first_alpha p cp (best_rc p (c_t b) / 10) (frac (c_rhs b)) (c_t b)) as [a|] eqn:E1.
    - destruct (build2step p a b) as [r|] eqn:E2; [|discriminate]. apply Some_inj in A. subst ds.
      destruct I as [<-|[]].
      destruct (build2step_ok p y a d b r Hd (shape_vars _ HS) HB (first_alpha_valid _ _ _ _ E1) E2) as (A1 & A2 & A3).
      split; [eapply shape_fst; eassumption|]. split; assumption.
    - apply Some_inj in A. subst ds. destruct I.
  Qed.
  Lemma addMir_total : step_total (addMir p).
  Proof.
    intros b SB NB. unfold addMir, buildMir. rewrite SB. destruct (c_t b); [contradiction|discriminate].
  Qed.
  Lemma build2step_total a b : c_s b = CG -> c_t b <> [] -> is2stepValid a (frac (c_rhs b)) = true ->
    build2step p a b <> None.
  Proof.
    intros SB NB V. unfold build2step. rewrite SB. destruct (c_t b); [contradiction|].
    unfold is2stepValid in V. destruct (Qltb a min_alpha); [discriminate|].
    destruct (is_multiple a (frac (c_rhs b))) eqn:E; [discriminate|].
    apply andb_true_iff in V. destruct V as [V V3]. apply andb_true_iff in V. destruct V as [V1 V2].
    qb.
    replace (Qle_bool (frac (c_rhs b)) a) with false by (symmetry; apply Qleb_gt; exact V1).
    replace (Qle_bool a 0) with false by (symmetry; apply Qleb_gt; exact V2).
    unfold is_multiple in E. cbn [orb]. rewrite E. discriminate.
  Qed.
  Lemma add2step_total : step_total (add2step p cp).
  Proof.
    intros b SB NB. unfold add2step.
    destruct (first_alpha p cp (best_rc p (c_t b) / 10) (frac (c_rhs b)) (c_t b)) as [a|] eqn:E1; [|discriminate].
    destruct (build2step p a b) eqn:E2; [discriminate|].
    exfalso. revert E2. apply build2step_total; try assumption. eapply first_alpha_valid. exact E1.
  Qed.

  Lemma scales_ok add (nice : bool) orig d T :
    0 <= d -> step_ok add ->
    (if nice then shape (c_t orig) /\ holds y (d + e_nice) orig /\ c_s orig = CG else near_ok d orig) ->
    forall ts acc l err,
    (forall t, In t ts -> zq t <= T) -> (nice = true -> forall t, In t ts -> (0 < t)%Z) ->
    (forall c, In c acc -> cut_ok (T * (d + e_nice)) c) ->
    scales p cp add nice orig ts acc = (l, err) ->
    forall c, In c l -> cut_ok (T * (d + e_nice)) c.
  Proof.
    intros Hd SO HO. pose proof e_nice_pos as EN.
    assert (WK : forall a b c, a <= b -> cut_ok a c -> cut_ok b c).
    { intros a b c L (A1 & A2 & A3). split; [exact A1|]. split; [unfold holds in *; lra|exact A3]. }
    induction ts as [|t ts IH]; intros acc l err HT HP HA R; cbn [scales] in R.
    - injection R as <- _. exact HA.
    - assert (HT' : forall t, In t ts -> zq t <= T) by (intros; apply HT; right; assumption).
      assert (HP' : nice = true -> forall t, In t ts -> (0 < t)%Z) by (intros X u Hu; apply HP; [exact X|right; exact Hu]).
      destruct (t =? 0)%Z eqn:E0; [eapply IH; eassumption|].
      apply Z.eqb_neq in E0. pose proof (zq_ge1 t E0) as Z1.
      pose proof (HT t (or_introl eq_refl)) as ZT.
      assert (BO : forall b, (if nice then Some (scale_con t orig) else nicefy p (scale_con t orig)) = Some b ->
                   cut_ok (T * (d + e_nice)) b).
      { intros b Eb. assert (LE : zq t * (d + e_nice) <= T * (d + e_nice)) by (apply Qmult_le_compat_r; lra).
        destruct nice.
        - apply Some_inj in Eb. subst b. destruct HO as (O1 & O2 & O3).
          specialize (HP eq_refl t (or_introl eq_refl)).
          destruct (scale_pos (d + e_nice) t orig HP O1 O2) as [S1 S2].
          split; [exact S1|]. split; [unfold holds in *; lra|].
          unfold scale_con. cbn [c_s]. destruct (t <? 0)%Z eqn:TL; [apply Z.ltb_lt in TL; lia|exact O3].
        - destruct (scale_any d t orig HO) as [S1 S2].
          pose proof (nicefy_ok _ _ _ S1 S2 Eb) as N. eapply WK; [|exact N].
          assert (1 * e_nice <= zq t * e_nice) by (apply Qmult_le_compat_r; assumption).
          assert (zq t * (d + e_nice) == zq t * d + zq t * e_nice) by ring. lra. }
      destruct (if nice then Some (scale_con t orig) else nicefy p (scale_con t orig)) as [b|] eqn:Eb.
      + specialize (BO b eq_refl).
        destruct (c_t b) eqn:Et; [eapply IH; eassumption|].
        destruct (trivial cp b); [eapply IH; eassumption|].
        destruct (add b) as [ds|] eqn:Ea.
        * eapply IH; [exact HT'|exact HP'| |exact R].
          intros c Hc. apply in_app_or in Hc. destruct Hc as [Hc|Hc]; [apply HA; exact Hc|].
          eapply SO; [|exact BO|exact Ea|exact Hc].
          assert (0 <= T) by lra. apply Qmult_le_0_compat; lra.
        * injection R as <- _. exact HA.
      + injection R as <- _. exact HA.
  Qed.

  (** No step fails. *)
  Lemma scales_total add (nice : bool) orig :
    step_total add -> (if nice then c_s orig = CG else c_s orig = CE) ->
    forall ts acc, (nice = true -> forall t, In t ts -> (0 < t)%Z) ->
    snd (scales p cp add nice orig ts acc) = false.
  Proof.
    intros ST HO. induction ts as [|t ts IH]; intros acc HP; cbn [scales]; [reflexivity|].
    assert (HP' : nice = true -> forall t, In t ts -> (0 < t)%Z) by (intros X u Hu; apply HP; [exact X|right; exact Hu]).
    destruct (t =? 0)%Z; [apply IH; exact HP'|].
    assert (BO : exists b, (if nice then Some (scale_con t orig) else nicefy p (scale_con t orig)) = Some b /\ c_s b = CG).
    { destruct nice.
      - eexists; split; [reflexivity|]. specialize (HP eq_refl t (or_introl eq_refl)).
        unfold scale_con. cbn [c_s]. destruct (t <? 0)%Z eqn:TL; [apply Z.ltb_lt in TL; lia|exact HO].
      - unfold nicefy, scale_con. cbn [c_s]. rewrite HO.
        destruct (t <? 0)%Z; eexists; split; reflexivity. }
    destruct BO as (b & -> & SB).
    destruct (c_t b) eqn:Et; [apply IH; exact HP'|].
    destruct (trivial cp b); [apply IH; exact HP'|].
    destruct (add b) eqn:Ea; [apply IH; exact HP'|].
    exfalso. revert Ea. apply ST; [exact SB|]. rewrite Et. discriminate.
  Qed.

  (** Back to the columns. *)
  Lemma expand_value e : live (fst e) ->
    value (expand p e) z + slack_rhs p e == snd e * w (fst e).
  Proof.
    destruct e as [v a]. cbn [fst snd]. intros L. unfold expand, slack_rhs. cbn [fst snd].
    destruct L as [Hv|(i & -> & Hi & Hf)].
    - assert (Hb := Hv). apply Nat.ltb_lt in Hb. rewrite Hb. rewrite (lift_col v Hv). cbn [value]. ring.
    - replace (n + i <? n)%nat with false by (symmetry; apply Nat.ltb_ge; lia).
      replace (n + i - n)%nat with i by lia. rewrite lift_slack.
      assert (G : forall (b : bool) (t : vec), value (map (fun f => (fst f, (if b then - (1) * snd f else snd f) * a)) t) z ==
                  (if b then - (1) else 1) * a * value t z).
      { intros b. induction t as [|[j c] t IH]; cbn [map value fst snd]; [destruct b; ring|].
        rewrite IH. destruct b; ring. }
      rewrite G. unfold slack, above, origin in *.
      destruct (r_hi (row_of p i)) as [h|]; cbn [some]; ring.
  Qed.
  Lemma expand_cols e f : live (fst e) -> In f (expand p e) -> (fst f < n)%nat.
  Proof.
    destruct e as [v a]. cbn [fst]. intros L. unfold expand. cbn [fst snd].
    destruct L as [Hv|(i & -> & Hi & Hf)].
    - assert (Hb := Hv). apply Nat.ltb_lt in Hb. rewrite Hb. intros [<-|[]]. exact Hv.
    - replace (n + i <? n)%nat with false by (symmetry; apply Nat.ltb_ge; lia).
      replace (n + i - n)%nat with i by lia. intros X. apply in_map_iff in X.
      destruct X as ([j c] & <- & X). cbn [fst]. exact (proj2 (WF _ (row_in i Hi)) j c X).
  Qed.
  (** A finished cut: over the columns, valid at [z] up to [d], violated. *)
  Definition done_ok (d : Q) (c : con) : Prop :=
    (forall e, In e (c_t c) -> (fst e < n)%nat) /\ c_rhs c - d <= value (c_t c) z.
  Lemma col_abs j : (j < n)%nat -> Qabs (z j) <= M.
  Proof. intros H. apply (proj1 SP j H). Qed.
  Lemma substitute_ok d c : cut_ok d c -> done_ok (d + e_drop) (substitute p (untransform p c)).
  Proof.
    intros (HS & H & _). unfold substitute, untransform, done_ok. cbn [c_t c_rhs].
    set (t := map (flip p) (c_t c)).
    assert (LT : forall v, In v (map fst t) -> live v).
    { unfold t. rewrite flip_fst. apply HS. }
    assert (LE : forall e, In e t -> live (fst e)) by (intros e He; apply LT, in_map, He).
    assert (EV : value (flat_map (expand p) t) z + fold_right (fun e s => slack_rhs p e + s) 0 t == value t w).
    { clear - LE WF. induction t as [|e t IH]; cbn [flat_map fold_right value]; [lra|].
      rewrite value_app. specialize (IH (fun e' h => LE e' (or_intror h))).
      pose proof (expand_value e (LE e (or_introl eq_refl))).
      destruct e as [v a]. cbn [value]. cbn [fst snd] in *. lra. }
    split.
    - intros e He. apply filter_In in He. destruct He as [He _]. apply in_map_iff in He.
      destruct He as (j & <- & Hj). apply in_seq in Hj. cbn [fst]. lia.
    - set (ex := flat_map (expand p) t) in *.
      assert (D : value (map (fun j => (j, coef_sum j ex)) (seq 0 n)) z == value ex z).
      { apply value_dense. intros f Hf. unfold ex in Hf. apply in_flat_map in Hf.
        destruct Hf as (e & He & Hf). eapply expand_cols; [apply LE; exact He|exact Hf]. }
      pose proof (filter_small M (map (fun j => (j, coef_sum j ex)) (seq 0 n)) z HM) as FS.
      rewrite map_length, seq_length in FS.
      assert (X : Qabs (value (filter keep_small (map (fun j => (j, coef_sum j ex)) (seq 0 n))) z -
                 value (map (fun j => (j, coef_sum j ex)) (seq 0 n)) z) <= e_drop).
      { apply FS. intros e He. apply in_map_iff in He. destruct He as (j & <- & Hj).
        apply in_seq in Hj. cbn [fst]. apply col_abs. lia. }
      apply abs_bounds in X. rewrite D in X.
      pose proof (untransform_value (c_t c)) as UV. fold t in UV. unfold holds in H. lra.
  Qed.

  Lemma last_in {A} (l : list A) d : l <> [] -> In (last l d) l.
  Proof.
    induction l as [|a l IH]; intros H; [contradiction|]. destruct l as [|b l]; [left; reflexivity|].
    right. apply IH. discriminate.
  Qed.
  Lemma removelast_in {A} (l : list A) a : In a (removelast l) -> In a l.
  Proof.
    induction l as [|b l IH]; intros H; [exact H|]. destruct l as [|c l]; [destruct H|].
    destruct H as [<-|H]; [left; reflexivity|right; apply IH; exact H].
  Qed.
  Lemma polish_in l c : In c (polish p l) ->
    exists b, In b l /\ c = substitute p (untransform p b) /\ desirable p c = true.
  Proof.
    revert c. induction l as [|b l IH]; intros c H; [destruct H|]. cbn [polish] in H.
    destruct (desirable p (substitute p (untransform p b))) eqn:E.
    - destruct H as [<-|H]; [exists b; repeat split; [left; reflexivity|exact E]|].
      destruct (IH c H) as (b' & A & B & C). exists b'. repeat split; [right; exact A|exact B|exact C].
    - assert (IC : In c (polish p l)).
      { destruct (polish p l) as [|a l'] eqn:EP; [destruct H|].
        destruct H as [<-|H]; [apply last_in; discriminate|apply removelast_in; exact H]. }
      destruct (IH c IC) as (b' & A & B & C). exists b'. repeat split; [right; exact A|exact B|exact C].
  Qed.

  (** [T] bounds the scale factors. *)
  Variable T : Q.
  Hypothesis HT : forall t, ((t_min cp <= t <= t_max cp) \/ (q_min cp <= t <= q_max cp))%Z -> zq t <= T.
  Definition cut_good (d : Q) (c : con) : Prop :=
    done_ok (T * (d + e_nice) + e_drop) c /\ desirable p c = true.

  Lemma from_base_ok d c l err : 0 <= d -> base_ok d c -> from_base p cp c = (l, err) ->
    err = false /\ forall r, In r l -> cut_good d r.
  Proof.
    intros Hd (HS & H1 & H2) R. unfold from_base in R.
    assert (TR : near_ok d (transform p c)).
    { unfold near_ok, transform. cbn [c_t c_rhs]. rewrite transform_value.
      split; [eapply shape_fst; [apply flip_fst|exact HS]|]. split; lra. }
    assert (ST : c_s (transform p c) = c_s c) by reflexivity.
    set (tr := transform p c) in *. clearbody tr.
    assert (TRIV : ([], false) = (l, err) -> err = false /\ forall r, In r l -> cut_good d r).
    { intros X. injection X as <- <-. split; [reflexivity|intros r []]. }
    destruct (c_s c) eqn:ES; [| |]; [|exact (TRIV R)|].
    all: destruct (c_t c) as [|e0 t0]; [exact (TRIV R)|].
    all: destruct (Qltb (10000000000 # 1) (Qabs (c_rhs c))); [exact (TRIV R)|].
    all: destruct (Qltb (frac (c_rhs tr)) (threshold cp) || Qltb (1 - threshold cp) (frac (c_rhs tr))); [exact (TRIV R)|].
    all: match type of R with context [zrange ?a (t_max cp)] => set (mt := a) in * end.
    all: match type of R with context [zrange ?a (q_max cp)] => set (mq := a) in * end.
    all: assert (MT : (t_min cp <= mt)%Z) by (unfold mt; try destruct (t_min cp <? 1)%Z eqn:X; try apply Z.ltb_lt in X; lia).
    all: assert (MQ : (q_min cp <= mq)%Z) by (unfold mq; try destruct (q_min cp <? 1)%Z eqn:X; try apply Z.ltb_lt in X; lia).
    all: set (nice := ((0 <? mq) && (0 <? mt))%Z) in *.
    all: assert (NP : nice = true -> (0 < mq)%Z /\ (0 < mt)%Z)
      by (unfold nice; intros X; apply andb_true_iff in X; rewrite !Z.ltb_lt in X; exact X).
    all: assert (NC : c_s tr = CG -> nice = true)
      by (rewrite ST; try discriminate; intros _; unfold nice, mt, mq;
          destruct (q_min cp <? 1)%Z eqn:X1; destruct (t_min cp <? 1)%Z eqn:X2; cbn [andb]; try reflexivity;
          try apply Z.ltb_ge in X1; try apply Z.ltb_ge in X2; apply andb_true_iff; rewrite !Z.ltb_lt; lia).
    all: clearbody nice.
    all: assert (NB : exists base, (if nice then nicefy p tr else Some tr) = Some base /\
           (if nice then shape (c_t base) /\ holds y (d + e_nice) base /\ c_s base = CG else near_ok d base) /\
           (if nice then c_s base = CG else c_s base = CE))
      by (destruct nice;
          [destruct (nicefy p tr) as [b|] eqn:EN;
             [exists b; assert (CO : cut_ok (d + e_nice) b)
                by (apply (nicefy_ok d tr b); [exact (proj1 TR)|unfold holds; exact (proj1 (proj2 TR))|exact EN]);
              split; [reflexivity|split; [exact CO|exact (proj2 (proj2 CO))]]
             |unfold nicefy in EN; rewrite ST in EN; discriminate]
          |exists tr; split; [reflexivity|]; split; [exact TR|];
           rewrite ST; first [reflexivity|discriminate (NC ST)]]).
    all: destruct NB as (base & EB & OB & SB); rewrite EB in R.
    all: assert (T1 : forall t, In t (zrange mt (t_max cp)) -> zq t <= T)
      by (intros t Ht; apply zrange_in in Ht; apply HT; left; lia).
    all: assert (T2 : forall t, In t (zrange mq (q_max cp)) -> zq t <= T)
      by (intros t Ht; apply zrange_in in Ht; apply HT; right; lia).
    all: assert (P1 : nice = true -> forall t, In t (zrange mt (t_max cp)) -> (0 < t)%Z)
      by (intros X t Ht; apply zrange_in in Ht; specialize (NP X); lia).
    all: assert (P2 : nice = true -> forall t, In t (zrange mq (q_max cp)) -> (0 < t)%Z)
      by (intros X t Ht; apply zrange_in in Ht; specialize (NP X); lia).
    all: pose proof (scales_total (addMir p) nice base addMir_total SB (zrange mt (t_max cp)) [] P1) as E1.
    all: destruct (scales p cp (addMir p) nice base (zrange mt (t_max cp)) []) as [l1 e1] eqn:R1; cbn [snd] in E1; subst e1.
    all: pose proof (scales_total (add2step p cp) nice base add2step_total SB (zrange mq (q_max cp)) l1 P2) as E2.
    all: destruct (scales p cp (add2step p cp) nice base (zrange mq (q_max cp)) l1) as [l2 e2] eqn:R2; cbn [snd] in E2; subst e2.
    all: injection R as <- <-.
    all: split; [reflexivity|]; intros r Hr; apply polish_in in Hr; destruct Hr as (b & Hb & -> & Db);
      split; [|exact Db]; apply substitute_ok.
    all: eapply (scales_ok (add2step p cp) nice base d T Hd add2step_ok OB); [exact T2|exact P2| |exact R2|exact Hb].
    all: exact (scales_ok (addMir p) nice base d T Hd addMir_ok OB _ [] l1 false T1 P1 (fun c0 h => match h with end) R1).
  Qed.

  (** Bases taken from the rows. *)
  Lemma row_value_lift i : (i < k)%nat -> value (r_form (row_of p i)) w == value (r_form (row_of p i)) z.
  Proof.
    intros Hi. apply value_ext. intros j a Ha. rewrite lift_col; [reflexivity|].
    exact (proj2 (WF _ (row_in i Hi)) j a Ha).
  Qed.
  Lemma eq_row i : (i < k)%nat -> is_eq p i = true -> value (r_form (row_of p i)) z == origin p i.
  Proof.
    intros Hi E. unfold is_eq, origin in *. pose proof (row_in i Hi) as RI.
    destruct (proj1 FZ _ RI) as [B1 B2]. destruct (SH _ RI) as (_ & _ & _ & S4).
    destruct (r_hi (row_of p i)) as [h|]; [|discriminate]. destruct (r_lo (row_of p i)) as [l|]; [|discriminate].
    unfold bound_thresh in E. qb. cbn [ge_opt_lo le_opt_hi] in *.
    specialize (S4 h l eq_refl eq_refl E). lra.
  Qed.
  Lemma formula_ok i : (i < k)%nat -> above p i || below p i = true ->
    shape (c_t (formula p i)) /\ value (c_t (formula p i)) w == c_rhs (formula p i).
  Proof.
    intros Hi HF. pose proof (row_in i Hi) as RI. destruct (WF _ RI) as [ND IN].
    assert (LN : (length (r_form (row_of p i)) <= n)%nat).
    { rewrite <- (map_length fst). apply nodup_bound; [exact ND|].
      intros j Hj. apply in_map_iff in Hj. destruct Hj as ([j' a] & <- & Hj). exact (IN j' a Hj). }
    unfold formula. cbn [c_t c_rhs].
    split; [split|].
    - intros v Hv. rewrite map_app in Hv. apply in_app_or in Hv. destruct Hv as [Hv|Hv].
      + left. apply in_map_iff in Hv. destruct Hv as ([j a] & <- & Hj). exact (IN j a Hj).
      + destruct (is_eq p i); [destruct Hv|]. destruct Hv as [<-|[]]. right. exists i. auto.
    - rewrite app_length. destruct (is_eq p i); cbn [length]; lia.
    - rewrite value_app, (row_value_lift i Hi). destruct (is_eq p i) eqn:EQ.
      + cbn [value]. rewrite (eq_row i Hi EQ). ring.
      + cbn [value]. rewrite lift_slack. unfold slack, above, below, origin in *.
        destruct (r_hi (row_of p i)) as [h|]; cbn [some]; ring.
  Qed.
  Lemma divided_ok i q : (i < k)%nat -> above p i || below p i = true -> ~ q == 0 ->
    base_ok 0 (untransform p (divide q (transform p (formula p i)))).
  Proof.
    intros Hi HF Hq. destruct (formula_ok i Hi HF) as [HS HV].
    unfold base_ok, untransform, divide, transform. cbn [c_t c_rhs].
    set (t := map (flip p) (c_t (formula p i))).
    assert (E1 : value t y == c_rhs (formula p i) - shift_sum p (c_t (formula p i))).
    { unfold t. rewrite transform_value, HV. reflexivity. }
    assert (E2 : value (map (fun e => (fst e, snd e / q)) t) y == value t y / q).
    { clear - Hq. induction t as [|[v a] t IH]; cbn [map value fst snd]; [field; exact Hq|].
      rewrite IH. field. exact Hq. }
    rewrite untransform_value, E2, E1.
    split; [|split; lra].
    eapply shape_fst; [|exact HS]. rewrite flip_fst, map_map. cbn [fst]. unfold t. apply flip_fst.
  Qed.

  (** Bases taken from the tableau. *)
  Lemma tableau_ok f j : fact_ok p f -> (j < n)%nat -> p_cbas p j = true -> m_int m j = true ->
    base_ok e_drop (tableau p j (f j)).
  Proof.
    intros FO Hj Bj Ij. destruct (FO j Hj Bj Ij) as [F1 F2]. set (l := f j) in *.
    unfold base_ok, tableau. cbn [c_t c_rhs].
    set (cs := map (fun i => (i, coef_sum i (combine_rows l (m_rows m))))
        (filter (fun i => negb (p_cbas p i) || (i =? j)%nat) (seq 0 n))).
    assert (CL : (length cs <= n)%nat).
    { unfold cs. rewrite map_length. eapply Nat.le_trans; [apply filter_len|]. rewrite seq_length. lia. }
    assert (CI : forall e, In e cs -> (fst e < n)%nat).
    { intros e He. unfold cs in He. apply in_map_iff in He. destruct He as (i & <- & He).
      apply filter_In in He. destruct He as [He _]. apply in_seq in He. cbn [fst]. lia. }
    assert (FREE : forall i, (i < k)%nat -> Qeq_bool (nth i l 0) 0 = false -> above p i || below p i = true).
    { intros i Hi E. unfold above, below, row_of. qb.
      destruct (r_hi (nth i (m_rows m) (Row [] None None))) eqn:EH; [reflexivity|].
      destruct (r_lo (nth i (m_rows m) (Row [] None None))) eqn:EL; [reflexivity|].
      exfalso. apply E. eapply F2; [|exact EL|exact EH]. apply nth_error_nth'. exact Hi. }
    assert (SL : forall L, (forall i, In i L -> (i < k)%nat) ->
      (forall v, In v (map fst (flat_map (tab_slack p l) L)) -> live v) /\
      (length (flat_map (tab_slack p l) L) <= length L)%nat /\
      fold_right (fun i s => nth i l 0 * origin p i + s) 0 L ==
      fold_right (fun i s => nth i l 0 * value (r_form (nth i (m_rows m) (Row [] None None))) z + s) 0 L
      + value (flat_map (tab_slack p l) L) w).
    { induction L as [|i L IH]; intros HL; [cbn; repeat split; [intros v []|lia]|].
      destruct (IH (fun i' h => HL i' (or_intror h))) as (A & B & C).
      pose proof (HL i (or_introl eq_refl)) as Hi.
      assert (ONE : (forall v, In v (map fst (tab_slack p l i)) -> live v) /\ (length (tab_slack p l i) <= 1)%nat /\
        nth i l 0 * origin p i == nth i l 0 * value (r_form (nth i (m_rows m) (Row [] None None))) z + value (tab_slack p l i) w).
      { unfold tab_slack. destruct (Qeq_bool (nth i l 0) 0) eqn:E0.
        - split; [intros v []|]. split; [cbn [length]; lia|]. qb. cbn [value]. rewrite E0. ring.
        - pose proof (FREE i Hi E0) as FI. destruct (is_eq p i) eqn:EQ.
          + split; [intros v []|]. split; [cbn [length]; lia|]. cbn [value].
            pose proof (eq_row i Hi EQ) as X. unfold row_of in X. rewrite X. ring.
          + assert (LV : live (n + i)%nat) by (right; exists i; auto).
            pose proof (lift_slack i) as LS. unfold slack, origin, above, row_of in *.
            destruct (r_hi (nth i (m_rows m) (Row [] None None))) as [h|] eqn:EH; cbn [some].
            * split; [intros v [<-|[]]; exact LV|]. split; [cbn [length]; lia|]. cbn [value]. rewrite LS. ring.
            * split; [intros v [<-|[]]; exact LV|]. split; [cbn [length]; lia|]. cbn [value]. rewrite LS. ring. }
      destruct ONE as (A1 & B1 & C1). cbn [flat_map fold_right].
      split; [|split].
      - intros v Hv. rewrite map_app in Hv. apply in_app_or in Hv. destruct Hv; auto.
      - rewrite app_length. cbn [length]. lia.
      - rewrite value_app, C1, C. ring. }
    destruct (SL (seq 0 k)) as (SL1 & SL2 & SL3); [intros i Hi; apply in_seq in Hi; lia|].
    rewrite seq_length in SL2.
    unfold nr in SL3 at 2. rewrite combine_value in SL3. fold (nr p) in SL3.
    assert (CV : value cs z == value (combine_rows l (m_rows m)) z).
    { unfold cs. rewrite value_filter_zero.
      - apply value_dense. apply combine_cols. exact WF.
      - intros i Hi E. apply orb_false_iff in E. destruct E as [E1 E2]. apply negb_false_iff in E1.
        apply Nat.eqb_neq in E2. apply in_seq in Hi. rewrite <- entry_coef. apply F1; [apply Hi|exact E1|exact E2]. }
    pose proof (filter_small M cs z HM (fun e He => col_abs _ (CI e He))) as FS.
    assert (FD : qn (length cs) * (min_tableau * M) <= e_drop).
    { unfold e_drop. apply Qmult_le_compat_r; [apply qn_le; exact CL|].
      apply Qmult_le_0_compat; [unfold min_tableau; lra|exact HM]. }
    apply abs_bounds in FS.
    assert (TCE : tab_cols p j l = filter keep_small cs) by reflexivity. rewrite TCE.
    assert (TC : value (filter keep_small cs) w == value (filter keep_small cs) z).
    { apply value_ext. intros i a Ha. apply filter_In in Ha. rewrite lift_col; [reflexivity|].
      apply (CI (i, a)). apply Ha. }
    split; [split|].
    - intros v Hv. rewrite map_app in Hv. apply in_app_or in Hv. destruct Hv as [Hv|Hv]; [|apply SL1; exact Hv].
      left. apply in_map_iff in Hv. destruct Hv as (e & <- & He). apply filter_In in He. apply CI. apply He.
    - rewrite app_length. pose proof (filter_len keep_small cs). lia.
    - rewrite value_app, TC. unfold tab_rhs. rewrite SL3. lra.
  Qed.

  Lemma tab_loop_ok f : fact_ok p f -> forall ks acc,
    (forall j, In j ks -> (j < n)%nat) -> (forall c, In c acc -> cut_good e_drop c) ->
    forall c, In c (tab_loop p cp f ks acc) -> cut_good e_drop c.
  Proof.
    intros FO. induction ks as [|j ks IH]; intros acc HK HA c Hc; cbn [tab_loop] in Hc; [apply HA; exact Hc|].
    assert (HK' : forall j, In j ks -> (j < n)%nat) by (intros; apply HK; right; assumption).
    destruct (negb (p_cbas p j && m_int m j)) eqn:E1; [eapply IH; eassumption|].
    apply negb_false_iff, andb_true_iff in E1. destruct E1 as [E1 E1'].
    destruct (Qltb (frac (p_x p j)) (threshold cp) || Qltb (1 - threshold cp) (frac (p_x p j))); [eapply IH; eassumption|].
    destruct ((length (c_t (tableau p j (f j))) =? 0)%nat || (500 <? length (c_t (tableau p j (f j))))%nat);
      [eapply IH; eassumption|].
    destruct (from_base p cp (tableau p j (f j))) as [l err] eqn:FB.
    destruct (from_base_ok e_drop _ l err e_drop_pos (tableau_ok f j FO (HK j (or_introl eq_refl)) E1 E1') FB) as [-> G].
    eapply IH; [exact HK'| |exact Hc]. intros r Hr. apply in_app_or in Hr. destruct Hr; auto.
  Qed.

  Lemma cut_good_weaken d d' c : d <= d' -> 0 <= T -> cut_good d c -> cut_good d' c.
  Proof.
    intros L HT0 [[A B] C]. split; [split; [exact A|]|exact C].
    assert (T * (d + e_nice) <= T * (d' + e_nice)).
    { rewrite !(Qmult_comm T). apply Qmult_le_compat_r; lra. }
    lra.
  Qed.
  Lemma form_loop_ok rnd i sl prob free : (i < k)%nat ->
    (free = false -> above p i || below p i = true) ->
    forall es used sk acc r, (forall c, In c acc -> cut_good 0 c) ->
    form_loop p cp rnd (transform p (formula p i)) sl free prob es used sk acc = Done r ->
    snd r = false /\ forall c, In c (fst (fst r)) -> cut_good 0 c.
  Proof.
    intros Hi HF. induction es as [|e es IH]; intros used sk acc r HA R; cbn [form_loop] in R.
    - apply Done_inj in R. subst r. cbn [fst snd]. split; [reflexivity|exact HA].
    - destruct (negb (isint p (fst e))); [eapply IH; eassumption|].
      destruct (negb (Qltb (rnd used) prob)); [eapply IH; eassumption|].
      destruct (Qltb (px p (fst e)) (1 # 100)); [eapply IH; eassumption|].
      destruct (Qltb (Qabs (snd e)) (1 # 100)) eqn:ES; [eapply IH; eassumption|].
      destruct (free || Qltb (1 # 2) (Qabs (sl / Qabs (snd e)))) eqn:EF; [eapply IH; eassumption|].
      apply orb_false_iff in EF. destruct EF as [EF _]. qb.
      match type of R with context [trunc (_ * ?a)] => set (q := a) in * end.
      assert (Q0 : ~ q == 0).
      { unfold q. destruct (c_s (transform p (formula p i))); lra. }
      destruct (negb (int_range (trunc ((100 # 1) * q)))); [discriminate|].
      destruct (existsb (Z.eqb (trunc ((100 # 1) * q))) sk); [eapply IH; eassumption|].
      destruct (from_base p cp (untransform p (divide q (transform p (formula p i))))) as [l err] eqn:FB.
      destruct (from_base_ok 0 _ l err (Qle_refl 0) (divided_ok i q Hi (HF EF) Q0) FB) as [-> G].
      eapply IH; [|exact R]. intros c Hc. apply in_app_or in Hc. destruct Hc; auto.
  Qed.
  Lemma form_rows_ok rnd : forall is used acc r, (forall i, In i is -> (i < k)%nat) ->
    (forall c, In c acc -> cut_good 0 c) ->
    form_rows p cp rnd is used acc = Done r -> forall c, In c (fst r) -> cut_good 0 c.
  Proof.
    induction is as [|i is IH]; intros used acc r HI HA R; cbn [form_rows] in R.
    - apply Done_inj in R. subst r. exact HA.
    - apply bind_done in R. destruct R as ([[cs u] err] & R1 & R2).
      assert (G : err = false /\ forall c, In c cs -> cut_good 0 c).
      { unfold form_row in R1.
        destruct (length (filter (fun e => isint p (fst e)) (c_t (transform p (formula p i)))) =? 0)%nat.
        - apply Done_inj in R1. injection R1 as <- <- <-. split; [reflexivity|intros c []].
        - apply form_loop_ok in R1; [exact R1|apply HI; left; reflexivity| |intros c []].
          intros X. apply negb_false_iff in X. exact X. }
      destruct G as [-> G].
      eapply IH; [|  |exact R2]; [intros; apply HI; right; assumption|].
      intros c Hc. apply in_app_or in Hc. destruct Hc; auto.
  Qed.

  (** Writing the cuts. *)
  Definition col_fixed_at (x : point) : Prop :=
    forall j l u, (j < n)%nat -> m_clo m j = Some l -> m_chi m j = Some u -> l == u -> x j == l.
  Lemma feasible_fixed : col_fixed_at z.
  Proof.
    intros j l u Hj E1 E2 E. destruct (proj1 (proj2 FZ) j Hj) as [B1 B2].
    rewrite E1 in B1. rewrite E2 in B2. cbn [ge_opt_lo le_opt_hi] in *. lra.
  Qed.
  Lemma scan_ok x : col_fixed_at x -> forall t kept rhs lg sm kept' rhs' lg' sm',
    (forall e, In e t -> (fst e < n)%nat) ->
    scan p t kept rhs lg sm = Some (kept', rhs', lg', sm') ->
    value kept' x - rhs' == value kept x + value t x - rhs.
  Proof.
    intros FX. induction t as [|[j a] t IH]; intros kept rhs lg sm kept' rhs' lg' sm' HT' R; cbn [scan] in R.
    - apply Some_inj in R. injection R as <- <- <- <-. cbn [value]. ring.
    - destruct (Qltb (Qabs a) (1 # 1000000)); [discriminate|].
      assert (HT2 : forall e, In e t -> (fst e < n)%nat) by (intros; apply HT'; right; assumption).
      destruct (fixed p j) eqn:F.
      + rewrite (IH _ _ _ _ _ _ _ _ HT2 R). cbn [value].
        unfold fixed in F. pose proof (FX j) as FJ.
        destruct (m_clo m j) as [l|]; [|discriminate]. destruct (m_chi m j) as [u|]; [|discriminate].
        apply Qeq_bool_iff in F. rewrite (FJ l u (HT' (j, a) (or_introl eq_refl)) eq_refl eq_refl F). ring.
      + rewrite (IH _ _ _ _ _ _ _ _ HT2 R). rewrite value_app. cbn [value]. ring.
  Qed.
  Lemma scan_kept : forall t kept rhs lg sm kept' rhs' lg' sm',
    scan p t kept rhs lg sm = Some (kept', rhs', lg', sm') ->
    (forall e, In e kept -> sm <= Qabs (snd e) /\ Qabs (snd e) <= lg) ->
    kept' = kept ++ filter (fun e => negb (fixed p (fst e))) t /\
    (forall e, In e kept' -> sm' <= Qabs (snd e) /\ Qabs (snd e) <= lg').
  Proof.
    induction t as [|[j a] t IH]; intros kept rhs lg sm kept' rhs' lg' sm' R HK; cbn [scan] in R.
    - apply Some_inj in R. injection R as <- <- <- <-. cbn [filter]. rewrite app_nil_r. split; [reflexivity|exact HK].
    - destruct (Qltb (Qabs a) (1 # 1000000)); [discriminate|].
      cbn [filter fst]. destruct (fixed p j) eqn:F; cbn [negb].
      + eapply IH; eassumption.
      + destruct (IH _ _ _ _ _ _ _ _ R) as [-> G].
        * intros e He. apply in_app_or in He. destruct He as [He|[<-|[]]].
          -- specialize (HK e He). destruct (Qltb (Qabs a) sm) eqn:E1; destruct (Qltb lg (Qabs a)) eqn:E2; qb; split; lra.
          -- cbn [snd]. destruct (Qltb (Qabs a) sm) eqn:E1; destruct (Qltb lg (Qabs a)) eqn:E2; qb; split; lra.
        * split; [rewrite <- app_assoc; reflexivity|exact G].
  Qed.
  Lemma scan_sizes : forall t kept rhs lg sm r, scan p t kept rhs lg sm = Some r ->
    forall e, In e t -> 1 # 1000000 <= Qabs (snd e).
  Proof.
    induction t as [|[j a] t IH]; intros kept rhs lg sm r R e He; [destruct He|]. cbn [scan] in R.
    destruct (Qltb (Qabs a) (1 # 1000000)) eqn:E; [discriminate|].
    destruct He as [<-|He]; [cbn [snd]; qb; exact E|].
    destruct (fixed p j); eapply IH; eassumption.
  Qed.

  (** [E] is small enough for the cuts that become bounds. *)
  Definition emit_ok (E : Q) (x : emit) : Prop :=
    match x with
    | ERow c => exists f b, c = RowCut f (Some b) None /\ (2 <= length f)%nat /\ b - E <= value f z
    | ECol c => colcut_sat c z
    end.
  Lemma single_ok E j a rhs : (j < n)%nat -> 1 # 100000 < Qabs a -> 0 <= E -> E <= 1 # 1000000000 ->
    rhs - E <= a * z j -> forall x, In x (single p (j, a) rhs) -> emit_ok E x.
  Proof.
    intros Hj HA HE0 HE HV x Hx. unfold single in Hx.
    destruct (proj1 (proj2 FZ) j Hj) as [B1 B2]. pose proof (proj2 (proj2 FZ) j Hj) as BI.
    destruct (Qltb 0 a) eqn:EA; qb.
    - rewrite Qabs_pos in HA by lra.
      assert (LB : rhs / a - (1 # 10000) <= z j).
      { assert (rhs / a - (1 # 10000) == (rhs - (1 # 10000) * a) / a) as -> by (field; lra).
        apply Qle_shift_div_r; [lra|]. lra. }
      set (l := if m_int m j then qceil (rhs / a - (1 # 10000)) else rhs / a) in *.
      assert (L1 : l <= z j + (1 # 10000)).
      { unfold l. destruct (m_int m j); [|lra].
        pose proof (integral_ge_ceil (z j) (rhs / a - (1 # 10000)) (BI eq_refl) LB). lra. }
      assert (NI : match m_chi m j with Some u => Qltb (u + (1 # 10000)) l | None => false end = false).
      { destruct (m_chi m j) as [u|]; [|reflexivity]. apply Qltb_ge. cbn [le_opt_hi] in B2. lra. }
      rewrite NI in Hx. destruct (m_int m j) eqn:EI; cbn [andb] in Hx; [|destruct Hx].
      destruct (opt_gt_lo l (m_clo m j)); [|destruct Hx]. destruct Hx as [<-|[]].
      cbn [emit_ok]. unfold colcut_sat. cbn [cc_lbs cc_ubs]. split; [|intros ? ? []].
      intros j' l' [H|[]]. injection H as <- <-. unfold l.
      apply integral_ge_ceil; [exact (BI eq_refl)|exact LB].
    - assert (AN : a < 0).
      { destruct (Qlt_le_dec a 0) as [h|h]; [exact h|]. exfalso.
        assert (a == 0) by lra. rewrite H in HA. cbn in HA. discriminate HA. }
      rewrite Qabs_neg in HA by lra.
      assert (UB : z j <= rhs / a + (1 # 10000)).
      { assert (rhs / a + (1 # 10000) == (- rhs + (1 # 10000) * - a) / (- a)) as -> by (field; lra).
        apply Qle_shift_div_l; [lra|]. lra. }
      set (u := if m_int m j then qfloor (rhs / a + (1 # 10000)) else rhs / a) in *.
      assert (U1 : z j <= u + (1 # 10000)).
      { unfold u. destruct (m_int m j); [|lra].
        pose proof (integral_le_floor (z j) (rhs / a + (1 # 10000)) (BI eq_refl) UB). lra. }
      assert (NI : match m_clo m j with Some l => Qltb (u + (1 # 10000)) l | None => false end = false).
      { destruct (m_clo m j) as [l|]; [|reflexivity]. apply Qltb_ge. cbn [ge_opt_lo] in B1. lra. }
      rewrite NI in Hx. destruct (m_int m j) eqn:EI; cbn [andb] in Hx; [|destruct Hx].
      destruct (opt_lt_hi u (m_chi m j)); [|destruct Hx]. destruct Hx as [<-|[]].
      cbn [emit_ok]. unfold colcut_sat. cbn [cc_lbs cc_ubs]. split; [intros ? ? []|].
      intros j' u' [H|[]]. injection H as <- <-. unfold u.
      apply integral_le_floor; [exact (BI eq_refl)|exact UB].
  Qed.
  Lemma emit1_ok E mx c : 0 <= E -> E <= 1 # 1000000000 -> col_fixed_at (p_x p) ->
    done_ok E c -> desirable p c = true ->
    exists es, emit1 p mx c = Done es /\ forall x, In x es -> emit_ok E x.
  Proof.
    intros HE0 HE FX [DC DV] DE. unfold emit1.
    assert (TRIV : exists es : list emit, Done [] = Done es /\ forall x, In x es -> emit_ok E x)
      by (exists []; split; [reflexivity|intros x []]).
    destruct (negb (Z.of_nat (length (c_t c)) <? mx)%Z); [exact TRIV|].
    destruct (existsb (fun e => Qeq_bool (snd e) 0) (c_t c)); [exact TRIV|].
    destruct (scan p (c_t c) [] (c_rhs c) 0 (inject_Z (10 ^ 30))) as [[[[kept rhs] lg] sm]|] eqn:SC; [|exact TRIV].
    pose proof (scan_ok z feasible_fixed _ _ _ _ _ _ _ _ _ DC SC) as SZ.
    pose proof (scan_ok (p_x p) FX _ _ _ _ _ _ _ _ _ DC SC) as SX.
    cbn [value] in SZ, SX.
    destruct (scan_kept _ _ _ _ _ _ _ _ _ SC (fun e h => match h with end)) as [EK SK]. cbn [app] in EK.
    destruct (Qltb lg ((100000000 # 1) * sm) && Qltb (1 # 100000) sm) eqn:G; [|exact TRIV].
    apply andb_true_iff in G. destruct G as [G1 G2].
    unfold desirable, null_slack in DE. apply andb_true_iff in DE. destruct DE as [_ DE].
    apply negb_true_iff in DE. qb.
    destruct kept as [|e1 [|e2 kept]].
    - exfalso. cbn [value] in SZ, SX. lra.
    - eexists. split; [reflexivity|]. destruct e1 as [j a].
      assert (IK : In (j, a) (c_t c)).
      { assert (In (j, a) (filter (fun e => negb (fixed p (fst e))) (c_t c))) by (rewrite <- EK; left; reflexivity).
        apply filter_In in H. apply H. }
      apply single_ok; [exact (DC _ IK)| |exact HE0|exact HE|].
      + specialize (SK (j, a) (or_introl eq_refl)). cbn [snd] in SK. lra.
      + cbn [value] in SZ. lra.
    - eexists. split; [reflexivity|]. intros x [<-|[]]. cbn [emit_ok].
      exists (e1 :: e2 :: kept), rhs. split; [reflexivity|]. split; [cbn [length]; lia|]. lra.
  Qed.
  Lemma emits_ok E mx l : 0 <= E -> E <= 1 # 1000000000 -> col_fixed_at (p_x p) ->
    (forall c, In c l -> done_ok E c /\ desirable p c = true) ->
    exists es, emits p mx l = Done es /\ forall x, In x es -> emit_ok E x.
  Proof.
    intros HE0 HE FX. induction l as [|c l IH]; intros H; cbn [emits].
    - exists []. split; [reflexivity|intros x []].
    - destruct (H c (or_introl eq_refl)) as [H1 H2].
      destruct (emit1_ok E mx c HE0 HE FX H1 H2) as (a & -> & A).
      destruct IH as (b & -> & B); [intros; apply H; right; assumption|].
      cbn [bind]. exists (a ++ b). split; [reflexivity|].
      intros x Hx. apply in_app_or in Hx. destruct Hx; auto.
  Qed.
End Run.

(** ** The whole call *)

Section Call.
  Variable p : lp.
  Notation m := (p_m p).

  Inductive emit_shape (mx : Z) (c : con) : emit -> Prop :=
  | shape_row kept rhs lg sm : scan p (c_t c) [] (c_rhs c) 0 (inject_Z (10 ^ 30)) = Some (kept, rhs, lg, sm) ->
      (2 <= length kept)%nat -> (Z.of_nat (length (c_t c)) < mx)%Z ->
      1 # 100000 < sm -> lg < (100000000 # 1) * sm ->
      emit_shape mx c (ERow (RowCut kept (Some rhs) None))
  | shape_none : emit_shape mx c (ERow infeasible_cut)
  | shape_low j l a : In (j, a) (c_t c) -> m_int m j = true -> integral l -> opt_gt_lo l (m_clo m j) = true ->
      emit_shape mx c (ECol (ColCut [(j, l)] []))
  | shape_high j u a : In (j, a) (c_t c) -> m_int m j = true -> integral u -> opt_lt_hi u (m_chi m j) = true ->
      emit_shape mx c (ECol (ColCut [] [(j, u)])).
  Lemma single_shape mx c j a rhs x : In (j, a) (c_t c) -> In x (single p (j, a) rhs) -> emit_shape mx c x.
  Proof.
    intros IC H. unfold single in H. destruct (Qltb 0 a).
    - match type of H with context [if ?b then [ERow infeasible_cut] else _] => destruct b end.
      + destruct H as [<-|[]]. constructor.
      + destruct (m_int m j) eqn:EI; cbn [andb] in H; [|destruct H].
        destruct (opt_gt_lo (qceil (rhs / a - (1 # 10000))) (m_clo m j)) eqn:EO; [|destruct H].
        destruct H as [<-|[]]. eapply shape_low; [exact IC|exact EI|apply integral_inject|exact EO].
    - match type of H with context [if ?b then [ERow infeasible_cut] else _] => destruct b end.
      + destruct H as [<-|[]]. constructor.
      + destruct (m_int m j) eqn:EI; cbn [andb] in H; [|destruct H].
        destruct (opt_lt_hi (qfloor (rhs / a + (1 # 10000))) (m_chi m j)) eqn:EO; [|destruct H].
        destruct H as [<-|[]]. eapply shape_high; [exact IC|exact EI|apply integral_inject|exact EO].
  Qed.
  Lemma emit1_shape mx c es : emit1 p mx c = Done es -> forall x, In x es -> emit_shape mx c x.
  Proof.
    unfold emit1. intros R x Hx.
    assert (TRIV : Done [] = Done es -> emit_shape mx c x).
    { intros Y. apply Done_inj in Y. subst es. destruct Hx. }
    destruct (negb (Z.of_nat (length (c_t c)) <? mx)%Z) eqn:EM; [exact (TRIV R)|].
    apply negb_false_iff, Z.ltb_lt in EM.
    destruct (existsb (fun e => Qeq_bool (snd e) 0) (c_t c)); [exact (TRIV R)|].
    destruct (scan p (c_t c) [] (c_rhs c) 0 (inject_Z (10 ^ 30))) as [[[[kept rhs] lg] sm]|] eqn:SC; [|exact (TRIV R)].
    destruct (Qltb lg ((100000000 # 1) * sm) && Qltb (1 # 100000) sm) eqn:G; [|exact (TRIV R)].
    apply andb_true_iff in G. destruct G as [G1 G2]. qb.
    destruct (scan_kept p _ _ _ _ _ _ _ _ _ SC (fun e h => match h with end)) as [EK _]. cbn [app] in EK.
    destruct kept as [|e1 [|e2 kept]].
    - destruct (c_t c) as [|[j a] t] eqn:ET; [discriminate|]. apply Done_inj in R. subst es.
      eapply single_shape; [|exact Hx]. rewrite ET. left. reflexivity.
    - apply Done_inj in R. subst es. destruct e1 as [j a]. eapply single_shape; [|exact Hx].
      assert (H : In (j, a) (filter (fun e => negb (fixed p (fst e))) (c_t c))) by (rewrite <- EK; left; reflexivity).
      apply filter_In in H. apply H.
    - apply Done_inj in R. subst es. destruct Hx as [<-|[]].
      eapply shape_row; [exact SC|cbn [length]; lia|exact EM|exact G2|exact G1].
  Qed.
  Lemma emits_in mx l es : emits p mx l = Done es -> forall x, In x es ->
    exists c, In c l /\ emit_shape mx c x.
  Proof.
    revert es. induction l as [|c l IH]; intros es R x Hx; cbn [emits] in R.
    - apply Done_inj in R. subst es. destruct Hx.
    - apply bind_done in R. destruct R as (a & R1 & R). apply bind_done in R. destruct R as (b & R2 & R).
      apply Done_inj in R. subst es. apply in_app_or in Hx. destruct Hx as [Hx|Hx].
      + exists c. split; [left; reflexivity|]. eapply emit1_shape; eassumption.
      + destruct (IH b R2 x Hx) as (c' & A & B). exists c'. split; [right; exact A|exact B].
  Qed.

  Lemma put_ok dup : forall es rows cols, exists newr newc,
    put dup rows cols es = (rows ++ newr, cols ++ newc) /\
    (forall c g, In (c, g) newr -> g = false /\ In (ERow c) es) /\
    (forall c, In c newc -> In (ECol c) es).
  Proof.
    induction es as [|[c|c] es IH]; intros rows cols; cbn [put].
    - exists [], []. rewrite !app_nil_r. split; [reflexivity|]. split; [intros c g []|intros c []].
    - destruct (dup rows c).
      + destruct (IH rows cols) as (a & b & E & A & B). exists a, b. split; [exact E|]. split.
        * intros c' g H. destruct (A c' g H). split; [assumption|right; assumption].
        * intros c' H. right. exact (B c' H).
      + destruct (IH (rows ++ [(c, false)]) cols) as (a & b & E & A & B).
        exists ((c, false) :: a), b. split; [rewrite E, <- app_assoc; reflexivity|]. split.
        * intros c' g [H|H]; [injection H as <- <-; split; [reflexivity|left; reflexivity]|].
          destruct (A c' g H). split; [assumption|right; assumption].
        * intros c' H. right. exact (B c' H).
    - destruct (IH rows (cols ++ [c])) as (a & b & E & A & B).
      exists a, (c :: b). split; [rewrite E, <- app_assoc; reflexivity|]. split.
      + intros c' g H. destruct (A c' g H). split; [assumption|right; assumption].
      + intros c' [<-|H]; [left; reflexivity|right; exact (B c' H)].
  Qed.
  (** What a finished call adds. *)
  Definition globally (clp : bool) (o : twomir) (i : tinfo) (c : rowcut) : bool :=
    (negb (i_tree i) &&
      ((Z.land (i_options i) 4 =? 4)%Z || (bit (i_options i) 8 && (i_pass i =? 0)%Z)) &&
      (Z.of_nat (length (rc_form c)) <=? w_max o)%Z) || (clp && negb (i_tree i)).
  Lemma generate_new clp dup fact rnd o i rows cols rows' cols' u :
    generateCuts clp dup p fact rnd o i rows cols = Done (rows', cols', u) ->
    exists newr newc, rows' = rows ++ newr /\ cols' = cols ++ newc /\
      ((newr = [] /\ newc = []) \/
       exists r es, cut_list p fact rnd o i = Done r /\ emits p (max_of p o i) (fst r) = Done es /\
         (forall c g, In (c, g) newr -> In (ERow c) es /\ g = globally clp o i c) /\
         (forall c, In c newc -> In (ECol c) es)).
  Proof.
    unfold generateCuts. intros R.
    destruct (existsb (free_col m) (seq 0 (m_ncols m))).
    - apply Done_inj in R. injection R as <- <- _. exists [], []. rewrite !app_nil_r. auto.
    - apply bind_done in R. destruct R as (r & R1 & R). apply bind_done in R. destruct R as (es & R2 & R).
      destruct (put_ok dup es rows cols) as (a & b & E & A & B). rewrite E in R.
      apply Done_inj in R. injection R as <- <- _.
      unfold marks. rewrite firstn_app, Nat.sub_diag, firstn_O, app_nil_r, firstn_all.
      rewrite skipn_app, Nat.sub_diag, skipn_all, skipn_O. cbn [app].
      eexists _, b. split; [reflexivity|]. split; [reflexivity|]. right. exists r, es.
      split; [exact R1|]. split; [exact R2|]. split; [|exact B].
      intros c g H. apply in_map_iff in H. destruct H as ([c' g'] & H & HI). cbn [fst snd] in H.
      injection H as <- <-. destruct (A c' g' HI) as [-> HE]. split; [exact HE|]. reflexivity.
  Qed.

  Variables (z : point) (M T : Q) (o : twomir) (i : tinfo).
  Hypothesis WF : wf_mip m.
  Hypothesis FZ : feasible m z.
  Hypothesis SH : sharp_rows m.
  Hypothesis NN : nonneg_lower m.
  Hypothesis SP : spread m M z.
  Hypothesis HM : 0 <= M.
  Hypothesis HT0 : 0 <= T.
  Hypothesis HT : forall t, ((w_tmin o <= t <= w_tmax o) \/ (w_qmin o <= t <= w_qmax o))%Z -> zq t <= T.
  Definition slop : Q := T * (e_drop p M + e_nice p M) + e_drop p M.
  Lemma slop_pos : 0 <= slop.
  Proof.
    unfold slop. pose proof (e_drop_pos p M HM). pose proof (e_nice_pos p M HM).
    assert (0 <= T * (e_drop p M + e_nice p M)) by (apply Qmult_le_0_compat; lra). lra.
  Qed.
  Lemma scale_range : forall t, ((t_min (params_of o i) <= t <= t_max (params_of o i)) \/
      (q_min (params_of o i) <= t <= q_max (params_of o i)))%Z -> zq t <= T.
  Proof.
    intros t H. apply HT. unfold params_of in H. cbn [t_min t_max q_min q_max] in H.
    destruct (w_mir o); destruct (w_2mir o); lia.
  Qed.
  Lemma cut_list_ok fact rnd r : (forall f, fact = Some f -> fact_ok p f) ->
    cut_list p fact rnd o i = Done r -> forall c, In c (fst r) -> done_ok p z slop c /\ desirable p c = true.
  Proof.
    intros FO R c Hc. unfold cut_list in R.
    pose proof (e_drop_pos p M HM) as ED. pose proof scale_range as SR.
    set (cp := params_of o i) in *.
    assert (A1 : forall c, In c (if w_tab o && (i_level i <? 1)%Z && (i_pass i <? 6)%Z then tab_cuts p cp fact else []) ->
      cut_good p z M T (e_drop p M) c).
    { intros c' H. destruct (w_tab o && (i_level i <? 1)%Z && (i_pass i <? 6)%Z); [|destruct H].
      unfold tab_cuts in H. destruct fact as [f|]; [|destruct H].
      eapply (tab_loop_ok p cp z M WF FZ SH NN SP HM T SR f (FO f eq_refl)); [| |exact H].
      - intros j Hj. apply in_seq in Hj. lia.
      - intros ? []. }
    assert (G : cut_good p z M T (e_drop p M) c).
    { destruct (w_form o).
      - apply bind_done in R. destruct R as (r2 & R1 & R). apply Done_inj in R. subst r. cbn [fst] in Hc.
        apply in_app_or in Hc. destruct Hc as [Hc|Hc]; [exact (A1 c Hc)|].
        unfold form_cuts in R1.
        eapply cut_good_weaken; [exact ED|exact HT0|].
        eapply (form_rows_ok p cp z M WF FZ SH NN SP HM T SR rnd _ _ [] r2); [| |exact R1|exact Hc].
        + intros j Hj. apply in_seq in Hj. lia.
        + intros ? [].
      - apply Done_inj in R. subst r. exact (A1 c Hc). }
    exact G.
  Qed.
End Call.

(** ** No conversion leaves the range of int *)
Section Casts.
  Variables (p : lp) (cp : cparams).
  Definition small (a : Q) : Prop := Qabs a <= 20000000 # 1.
  Lemma trunc_range q : Qabs q <= 2000000000 # 1 -> int_range (trunc q) = true.
  Proof.
    intros H. apply abs_bounds in H. destruct H as [H1 H2]. unfold trunc, int_range.
    assert (N : forall q', 0 <= q' -> q' <= 2000000000 # 1 -> (0 <= Qfloor q' <= 2000000000)%Z).
    { intros q' A B. split.
      - assert (Z0 : (Qfloor 0 <= Qfloor q')%Z) by (apply Qfloor_resp_le; exact A). exact Z0.
      - assert (Z0 : (Qfloor q' <= Qfloor (2000000000 # 1))%Z) by (apply Qfloor_resp_le; exact B). exact Z0. }
    destruct (Qltb q 0) eqn:E; qb.
    - assert (X : (0 <= Qfloor (- q) <= 2000000000)%Z) by (apply N; lra).
      unfold INT_MIN, INT_MAX in *. apply andb_true_iff. rewrite !Z.leb_le. lia.
    - assert (X : (0 <= Qfloor q <= 2000000000)%Z) by (apply N; lra).
      unfold INT_MIN, INT_MAX in *. apply andb_true_iff. rewrite !Z.leb_le. lia.
  Qed.
  Lemma form_loop_total rnd base sl free prob : forall es used sk acc,
    (forall e, In e es -> small (snd e)) ->
    exists r, form_loop p cp rnd base sl free prob es used sk acc = Done r.
  Proof.
    induction es as [|e es IH]; intros used sk acc H; cbn [form_loop]; [eexists; reflexivity|].
    assert (H' : forall e, In e es -> small (snd e)) by (intros; apply H; right; assumption).
    destruct (negb (isint p (fst e))); [apply IH; exact H'|].
    destruct (negb (Qltb (rnd used) prob)); [apply IH; exact H'|].
    destruct (Qltb (px p (fst e)) (1 # 100)); [apply IH; exact H'|].
    destruct (Qltb (Qabs (snd e)) (1 # 100)); [apply IH; exact H'|].
    destruct (free || Qltb (1 # 2) (Qabs (sl / Qabs (snd e)))); [apply IH; exact H'|].
    match goal with |- context [trunc (_ * ?a)] => set (q := a) end.
    assert (QR : int_range (trunc ((100 # 1) * q)) = true).
    { apply trunc_range. specialize (H e (or_introl eq_refl)). unfold small in H.
      pose proof (Qabs_nonneg (snd e)). apply bounds_abs; unfold q; destruct (c_s base); lra. }
    rewrite QR. cbn [negb].
    destruct (existsb (Z.eqb (trunc ((100 # 1) * q))) sk); [apply IH; exact H'|].
    destruct (from_base p cp (untransform p (divide q base))) as [cs [|]]; [eexists; reflexivity|apply IH; exact H'].
  Qed.
  Lemma form_rows_total rnd :
    (forall r j a, In r (m_rows (p_m p)) -> In (j, a) (r_form r) -> small a) ->
    forall is used acc, (forall i, In i is -> (i < nr p)%nat) -> exists r, form_rows p cp rnd is used acc = Done r.
  Proof.
    intros SM. induction is as [|i is IH]; intros used acc HI; cbn [form_rows]; [eexists; reflexivity|].
    assert (RT : exists r, form_row p cp rnd i used = Done r).
    { unfold form_row. match goal with |- context [if ?b then _ else _] => destruct b end; [eexists; reflexivity|].
      apply form_loop_total. intros e He. unfold transform in He. cbn [c_t] in He.
      apply in_map_iff in He. destruct He as (e' & <- & He). unfold flip. cbn [snd].
      assert (small (snd e')).
      { unfold formula in He. cbn [c_t] in He. apply in_app_or in He. destruct He as [He|He].
        - destruct e' as [j a]. eapply SM; [|exact He]. apply nth_In. apply HI. left. reflexivity.
        - destruct (is_eq p i); [destruct He|]. destruct He as [<-|[]]. cbn [snd]. unfold small.
          destruct (above p i); vm_compute; discriminate. }
      unfold small in *. destruct (fst (side p (fst e'))); [|exact H].
      apply abs_bounds in H. apply bounds_abs; lra. }
    destruct RT as ([[cs u] [|]] & ->); cbn [bind]; [eexists; reflexivity|].
    apply IH. intros; apply HI; right; assumption.
  Qed.
  End Casts.

(** ** What holds of the cuts without any assumption *)
Section Plain.
  Variables (p : lp) (cp : cparams).
  Definition plain (c : con) : Prop := desirable p c = true /\ exists b, c = substitute p b.
  Lemma from_base_plain c l err : from_base p cp c = (l, err) -> err = false /\ forall r, In r l -> plain r.
  Proof.
    intros R. unfold from_base in R.
    assert (ST : c_s (transform p c) = c_s c) by reflexivity.
    set (tr := transform p c) in *. clearbody tr.
    assert (TRIV : ([], false) = (l, err) -> err = false /\ forall r, In r l -> plain r).
    { intros X. injection X as <- <-. split; [reflexivity|intros r []]. }
    destruct (c_s c) eqn:ES; [| |]; [|exact (TRIV R)|].
    all: destruct (c_t c) as [|e0 t0]; [exact (TRIV R)|].
    all: destruct (Qltb (10000000000 # 1) (Qabs (c_rhs c))); [exact (TRIV R)|].
    all: destruct (Qltb (frac (c_rhs tr)) (threshold cp) || Qltb (1 - threshold cp) (frac (c_rhs tr))); [exact (TRIV R)|].
    all: match type of R with context [zrange ?a (t_max cp)] => set (mt := a) in * end.
    all: match type of R with context [zrange ?a (q_max cp)] => set (mq := a) in * end.
    all: set (nice := ((0 <? mq) && (0 <? mt))%Z) in *.
    all: assert (NP : nice = true -> (0 < mq)%Z /\ (0 < mt)%Z)
      by (unfold nice; intros X; apply andb_true_iff in X; rewrite !Z.ltb_lt in X; exact X).
    all: assert (NC : c_s tr = CG -> nice = true)
      by (rewrite ST; try discriminate; intros _; unfold nice, mt, mq;
          destruct (q_min cp <? 1)%Z eqn:X1; destruct (t_min cp <? 1)%Z eqn:X2; cbn [andb]; try reflexivity;
          try apply Z.ltb_ge in X1; try apply Z.ltb_ge in X2; apply andb_true_iff; rewrite !Z.ltb_lt; lia).
    all: clearbody nice.
    all: assert (NB : exists base, (if nice then nicefy p tr else Some tr) = Some base /\
           (if nice then c_s base = CG else c_s base = CE))
      by (destruct nice;
          [unfold nicefy; rewrite ST; eexists; split; reflexivity
          |exists tr; split; [reflexivity|]; rewrite ST; first [reflexivity|discriminate (NC ST)]]).
    all: destruct NB as (base & EB & SB); rewrite EB in R.
    all: assert (P1 : nice = true -> forall t, In t (zrange mt (t_max cp)) -> (0 < t)%Z)
      by (intros X t Ht; apply zrange_in in Ht; specialize (NP X); lia).
    all: assert (P2 : nice = true -> forall t, In t (zrange mq (q_max cp)) -> (0 < t)%Z)
      by (intros X t Ht; apply zrange_in in Ht; specialize (NP X); lia).
    all: pose proof (scales_total p cp (addMir p) nice base (addMir_total p) SB (zrange mt (t_max cp)) [] P1) as E1.
    all: destruct (scales p cp (addMir p) nice base (zrange mt (t_max cp)) []) as [l1 e1] eqn:R1; cbn [snd] in E1; subst e1.
    all: pose proof (scales_total p cp (add2step p cp) nice base (add2step_total p cp) SB (zrange mq (q_max cp)) l1 P2) as E2.
    all: destruct (scales p cp (add2step p cp) nice base (zrange mq (q_max cp)) l1) as [l2 e2] eqn:R2; cbn [snd] in E2; subst e2.
    all: injection R as <- <-.
    all: split; [reflexivity|]; intros r Hr; apply polish_in in Hr; destruct Hr as (b & Hb & -> & Db);
      split; [exact Db|eexists; reflexivity].
  Qed.
  Lemma tab_loop_plain f : forall ks acc, (forall c, In c acc -> plain c) ->
    forall c, In c (tab_loop p cp f ks acc) -> plain c.
  Proof.
    induction ks as [|j ks IH]; intros acc HA c Hc; cbn [tab_loop] in Hc; [apply HA; exact Hc|].
    destruct (negb (p_cbas p j && m_int (p_m p) j)); [eapply IH; eassumption|].
    destruct (Qltb (frac (p_x p j)) (threshold cp) || Qltb (1 - threshold cp) (frac (p_x p j))); [eapply IH; eassumption|].
    destruct ((length (c_t (tableau p j (f j))) =? 0)%nat || (500 <? length (c_t (tableau p j (f j))))%nat);
      [eapply IH; eassumption|].
    destruct (from_base p cp (tableau p j (f j))) as [l err] eqn:FB.
    destruct (from_base_plain _ l err FB) as [-> G].
    eapply IH; [|exact Hc]. intros r Hr. apply in_app_or in Hr. destruct Hr; auto.
  Qed.
  Lemma form_loop_plain rnd base sl prob free :
    forall es used sk acc r, (forall c, In c acc -> plain c) ->
    form_loop p cp rnd base sl free prob es used sk acc = Done r ->
    snd r = false /\ forall c, In c (fst (fst r)) -> plain c.
  Proof.
    induction es as [|e es IH]; intros used sk acc r HA R; cbn [form_loop] in R.
    - apply Done_inj in R. subst r. cbn [fst snd]. split; [reflexivity|exact HA].
    - destruct (negb (isint p (fst e))); [eapply IH; eassumption|].
      destruct (negb (Qltb (rnd used) prob)); [eapply IH; eassumption|].
      destruct (Qltb (px p (fst e)) (1 # 100)); [eapply IH; eassumption|].
      destruct (Qltb (Qabs (snd e)) (1 # 100)); [eapply IH; eassumption|].
      destruct (free || Qltb (1 # 2) (Qabs (sl / Qabs (snd e)))); [eapply IH; eassumption|].
      match type of R with context [trunc (_ * ?a)] => set (q := a) in * end.
      destruct (negb (int_range (trunc ((100 # 1) * q)))); [discriminate|].
      destruct (existsb (Z.eqb (trunc ((100 # 1) * q))) sk); [eapply IH; eassumption|].
      destruct (from_base p cp (untransform p (divide q base))) as [l err] eqn:FB.
      destruct (from_base_plain _ l err FB) as [-> G].
      eapply IH; [|exact R]. intros c Hc. apply in_app_or in Hc. destruct Hc; auto.
  Qed.
  Lemma form_rows_plain rnd : forall is used acc r, (forall c, In c acc -> plain c) ->
    form_rows p cp rnd is used acc = Done r -> forall c, In c (fst r) -> plain c.
  Proof.
    induction is as [|i is IH]; intros used acc r HA R; cbn [form_rows] in R.
    - apply Done_inj in R. subst r. exact HA.
    - apply bind_done in R. destruct R as ([[cs u] err] & R1 & R2).
      assert (G : err = false /\ forall c, In c cs -> plain c).
      { unfold form_row in R1.
        destruct (length (filter (fun e => isint p (fst e)) (c_t (transform p (formula p i)))) =? 0)%nat.
        - apply Done_inj in R1. injection R1 as <- <- <-. split; [reflexivity|intros c []].
        - apply form_loop_plain in R1; [exact R1|intros c []]. }
      destruct G as [-> G].
      eapply IH; [|exact R2]. intros c Hc. apply in_app_or in Hc. destruct Hc; auto.
  Qed.
  Lemma substitute_shape b :
    NoDup (map fst (c_t (substitute p b))) /\ forall e, In e (c_t (substitute p b)) -> (fst e < nc p)%nat.
  Proof.
    unfold substitute. cbn [c_t]. set (g := fun j => coef_sum j (flat_map (expand p) (c_t b))).
    assert (I : forall L e, In e (filter keep_small (map (fun j => (j, g j)) L)) -> In (fst e) L).
    { intros L e He. apply filter_In in He. destruct He as [He _]. apply in_map_iff in He.
      destruct He as (j & <- & He). exact He. }
    split.
    - assert (N : forall L, NoDup L -> NoDup (map fst (filter keep_small (map (fun j => (j, g j)) L)))).
      { induction L as [|j L IH]; intros ND; [constructor|]. inversion ND; subst. cbn [map filter].
        destruct (keep_small (j, g j)); [|apply IH; assumption]. cbn [map fst]. constructor; [|apply IH; assumption].
        intros H. apply in_map_iff in H. destruct H as (e & E & He). apply I in He. rewrite E in He. contradiction. }
      apply N, seq_NoDup.
    - intros e He. apply I in He. apply in_seq in He. lia.
  Qed.
End Plain.
Lemma cut_list_plain p fact rnd o i r : cut_list p fact rnd o i = Done r -> forall c, In c (fst r) -> plain p c.
Proof.
  intros R. unfold cut_list in R.
  assert (A1 : forall c, In c (if w_tab o && (i_level i <? 1)%Z && (i_pass i <? 6)%Z then tab_cuts p (params_of o i) fact else []) -> plain p c).
  { intros c H. destruct (w_tab o && (i_level i <? 1)%Z && (i_pass i <? 6)%Z); [|destruct H].
    unfold tab_cuts in H. destruct fact as [f|]; [|destruct H].
    eapply tab_loop_plain; [|exact H]. intros ? []. }
  destruct (w_form o).
  - apply bind_done in R. destruct R as (r2 & R1 & R). apply Done_inj in R. subst r. cbn [fst].
    intros c Hc. apply in_app_or in Hc. destruct Hc as [Hc|Hc]; [exact (A1 c Hc)|].
    unfold form_cuts in R1. eapply form_rows_plain; [|exact R1|exact Hc]. intros ? [].
  - apply Done_inj in R. subst r. exact A1.
Qed.

(** ** Switches *)
Lemma zrange_nil a b : (b < a)%Z -> zrange a b = [].
Proof. intros H. unfold zrange. replace (Z.to_nat (b - a + 1)) with 0%nat by lia. reflexivity. Qed.
Lemma from_base_off p cp c : (t_max cp < t_min cp)%Z -> (q_max cp < q_min cp)%Z -> fst (from_base p cp c) = [].
Proof.
  intros H1 H2. unfold from_base.
  destruct (c_s c); [| |]; [|reflexivity|]; (destruct (c_t c); [reflexivity|]).
  all: destruct (Qltb (10000000000 # 1) (Qabs (c_rhs c))); [reflexivity|].
  all: match goal with |- context [if ?b then ([], false) else _] => destruct b end; [reflexivity|].
  all: match goal with |- context [match ?b with Some _ => _ | None => _ end] => destruct b as [base|] end; [|reflexivity].
  all: rewrite !zrange_nil by (try destruct (t_min cp <? 1)%Z eqn:X1; try destruct (q_min cp <? 1)%Z eqn:X2;
         try apply Z.ltb_lt in X1; try apply Z.ltb_lt in X2; lia); reflexivity.
Qed.
