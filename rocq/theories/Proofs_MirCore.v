(** * The mixed-integer rounding argument

    Independent of any particular generator: used for every family of cuts
    that rounds a single row. *)

From Verif Require Import Base Model_ResidualCapacity Proofs_ResidualCapacity.
Local Open Scope Q_scope.

(** The coefficient that mixed-integer rounding gives to an integer column
    with coefficient [d] when the right-hand side has fractional part [f]. *)
Definition mir_coef (f d : Q) : Q :=
  if frac d <=? f then qfloor d else qfloor d + (frac d - f) / (1 - f).

Lemma mir_basic w v b :
  integral w -> 0 <= v -> w <= b + v -> (1 - frac b) * (w - qfloor b) <= v.
Proof.
  intros W V H. pose proof (frac_nonneg b) as F0. pose proof (frac_lt1 b) as F1.
  assert (B : b == qfloor b + frac b) by (unfold frac; ring).
  destruct (Qlt_le_dec (qfloor b) w) as [L|L].
  - assert (X : qfloor b + 1 <= w) by (apply integral_lt_le1; [apply integral_inject|exact W|exact L]).
    assert (0 <= frac b * (w - qfloor b - 1)) by (apply Qmult_le_0_compat; lra). lra.
  - assert (0 <= (1 - frac b) * (qfloor b - w)) by (apply Qmult_le_0_compat; lra). lra.
Qed.

(** The integer part taken from each term: floor below the threshold, floor
    plus one above. *)
Definition up (f d : Q) : bool := negb (frac d <=? f).
Lemma mir_sum {A} (d z g : A -> Q) (l : list A) b s :
  (forall a, In a l ->
     (integral (z a) /\ 0 <= z a /\ g a <= mir_coef (frac b) (d a)) \/ (d a == 0 /\ g a == 0)) ->
  0 <= s -> sumq (map (fun a => d a * z a) l) <= b + s ->
  sumq (map (fun a => g a * z a) l) <= qfloor b + s / (1 - frac b).
Proof.
  intros G S H. pose proof (frac_nonneg b) as F0. pose proof (frac_lt1 b) as F1.
  set (f := frac b) in *.
  set (w := fun a => if Qeq_bool (d a) 0 then 0 else if up f (d a) then (qfloor (d a) + 1) * z a else qfloor (d a) * z a).
  set (v := fun a => if Qeq_bool (d a) 0 then 0 else if up f (d a) then (1 - frac (d a)) * z a else 0).
  assert (Gz : forall a, In a l -> ~ d a == 0 -> integral (z a) /\ 0 <= z a /\ g a <= mir_coef f (d a)).
  { intros a Ia N. destruct (G a Ia) as [X|(X & _)]; [exact X|contradiction]. }
  assert (W : integral (sumq (map w l))).
  { apply sumq_integral. intros a Ia. unfold w. destruct (Qeq_bool (d a) 0) eqn:Z; [apply integral_0|qb].
    destruct (Gz a Ia Z) as (I1 & _). destruct (up f (d a)); apply integral_mult; auto.
    - apply integral_plus; [apply integral_inject|apply integral_1].
    - apply integral_inject. }
  assert (V : 0 <= sumq (map v l)).
  { replace 0 with (0 * 1) by reflexivity. clear -Gz F1.
    induction l as [|a l IH]; simpl; [apply Qle_refl|].
    assert (0 <= v a).
    { unfold v. destruct (Qeq_bool (d a) 0) eqn:Z; [lra|qb].
      destruct (Gz a (or_introl eq_refl) Z) as (_ & P & _). destruct (up f (d a)); [|lra].
      pose proof (frac_lt1 (d a)). apply Qmult_le_0_compat; lra. }
    assert (0 <= sumq (map v l)) by (apply IH; intros; apply Gz; simpl; auto). lra. }
  assert (WV : sumq (map w l) <= sumq (map (fun a => d a * z a) l) + sumq (map v l)).
  { rewrite <- sumq_plus. apply sumq_le. intros a Ia. unfold w, v, frac.
    destruct (Qeq_bool (d a) 0) eqn:Z; qb; [rewrite Z; lra|].
    destruct (Gz a Ia Z) as (_ & P & _). pose proof (qfloor_le (d a)).
    destruct (up f (d a)); [lra|].
    assert (0 <= (d a - qfloor (d a)) * z a) by (apply Qmult_le_0_compat; lra). lra. }
  assert (B : (1 - f) * (sumq (map w l) - qfloor b) <= s + sumq (map v l)) by (apply mir_basic; [exact W|lra|lra]).
  assert (T : (1 - f) * sumq (map (fun a => g a * z a) l) <= (1 - f) * sumq (map w l) - sumq (map v l)).
  { rewrite <- !sumq_scale. 
    assert (E : sumq (map (fun a => (1 - f) * w a) l) - sumq (map v l)
                == sumq (map (fun a => (1 - f) * w a + - v a) l)) by (rewrite sumq_plus, sumq_opp; lra).
    rewrite E. apply sumq_le. intros a Ia. unfold w, v.
    destruct (G a Ia) as [(I1 & P & L)|(Z & Zg)].
    - destruct (Qeq_bool (d a) 0) eqn:Z; qb.
      + assert (mir_coef f (d a) <= 0).
        { unfold mir_coef, frac, qfloor. assert (Fz : Qfloor (d a) = 0%Z) by (apply Qfloor_unique; change (inject_Z 0) with 0; lra).
          rewrite Fz. change (inject_Z 0) with 0. destruct (_ <=? f) eqn:E1; qb; lra. }
        assert (0 <= (1 - f) * (- g a * z a)) by (apply Qmult_le_0_compat; [lra|apply Qmult_le_0_compat; lra]). lra.
      + unfold up. unfold mir_coef in L. destruct (frac (d a) <=? f) eqn:E1; cbn [negb]; qb.
        * assert (0 <= (1 - f) * ((qfloor (d a) - g a) * z a)) by (apply Qmult_le_0_compat; [lra|apply Qmult_le_0_compat; lra]). lra.
        * assert (Q1 : (1 - f) * (qfloor (d a) + (frac (d a) - f) / (1 - f)) == (1 - f) * (qfloor (d a) + 1) - (1 - frac (d a))) by (field; lra).
          set (k := qfloor (d a) + (frac (d a) - f) / (1 - f)) in *.
          assert (0 <= (1 - f) * ((k - g a) * z a)) by (apply Qmult_le_0_compat; [lra|apply Qmult_le_0_compat; lra]).
          assert ((1 - f) * k * z a == ((1 - f) * (qfloor (d a) + 1) - (1 - frac (d a))) * z a) by (rewrite Q1; reflexivity). lra.
    - rewrite (proj2 (Qeqb_eq _ _) Z), Zg. lra. }
  assert (Q2 : (1 - f) * (qfloor b + s / (1 - f)) == (1 - f) * qfloor b + s) by (field; lra).
  apply Qmult_le_l with (z := 1 - f); [lra|]. lra.
Qed.
