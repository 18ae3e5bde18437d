(** * CglTwomir: the one-step and the two-step rounding functions *)

From Verif Require Import Spec Base Model_Twomir.
From Coq Require Import Arith Qabs Lqa Lia.
Open Scope Q_scope.

Lemma frac_def q : q == qfloor q + frac q.
Proof. unfold frac. ring. Qed.
Lemma integral_floor q : integral (qfloor q).
Proof. apply integral_inject. Qed.
Lemma integral_ceil q : integral (qceil q).
Proof. apply integral_inject. Qed.
Lemma ceil_floor q : 0 < frac q -> qceil q == qfloor q + 1.
Proof.
  intros H.
  pose proof (qceil_ge q). pose proof (qceil_lt q). pose proof (qfloor_le q). pose proof (qfloor_lt q).
  pose proof (frac_def q).
  assert (qfloor q + 1 <= qceil q).
  { apply integral_lt_le1; [apply integral_floor|apply integral_ceil|lra]. }
  assert (qceil q <= qfloor q + 1).
  { apply integral_ge_ceil; [apply integral_plus; [apply integral_floor|apply integral_1]|lra]. }
  lra.
Qed.

(** One-step rounding of  w + c >= b  with w integer and c >= 0. *)
Lemma mir_core b w c d :
  integral w -> 0 <= c -> 0 <= d -> b - d <= w + c ->
  frac b * qceil b - d <= frac b * w + c.
Proof.
  intros Iw Hc Hd H.
  pose proof (frac_nonneg b) as F0. pose proof (frac_lt1 b) as F1.
  pose proof (frac_def b) as FD.
  destruct (Qlt_le_dec 0 (frac b)) as [P|P].
  - pose proof (ceil_floor b P) as CF. rewrite CF.
    destruct (Qlt_le_dec (qfloor b) w) as [L|L].
    + apply integral_lt_le1 in L; [|apply integral_floor|exact Iw]. nra.
    + nra.
  - assert (E : frac b == 0) by lra. rewrite E. lra.
Qed.

(** Two-step rounding of  w + alpha u + c >= b. *)
Lemma two_core b alpha w u c d :
  let tau := qceil (frac b / alpha) in
  let rho := frac b - alpha * qfloor (frac b / alpha) in
  0 < alpha -> alpha < frac b -> 0 < rho -> tau * alpha <= 1 ->
  integral w -> integral u -> 0 <= u -> 0 <= c -> 0 <= d ->
  b - d <= w + alpha * u + c ->
  qceil b * tau * rho - d <= tau * rho * w + rho * u + c.
Proof.
  intros tau rho Ha Hab Hr Ht Iw Iu Hu Hc Hd H.
  pose proof (frac_nonneg b) as F0. pose proof (frac_lt1 b) as F1. pose proof (frac_def b) as FD.
  set (f := frac b / alpha) in *.
  assert (Ef : frac b == alpha * f) by (unfold f; field; lra).
  assert (P : 0 < frac f).
  { pose proof (frac_def f). unfold rho in Hr. nra. }
  assert (CF : tau == qfloor f + 1) by (unfold tau; apply ceil_floor; exact P).
  assert (It : integral tau) by apply integral_ceil.
  assert (RA : rho < alpha).
  { pose proof (frac_def f). pose proof (frac_lt1 f). unfold rho. nra. }
  assert (EB : frac b == alpha * (tau - 1) + rho).
  { unfold rho. rewrite CF. ring. }
  assert (T1 : 1 <= tau).
  { assert (0 < tau). { pose proof (frac_def f); pose proof (frac_lt1 f). assert (0 < f) by nra. lra. }
    apply (integral_lt_le1 0) in H0; [lra|apply integral_0|exact It]. }
  assert (PB : 0 < frac b) by lra.
  pose proof (ceil_floor b PB) as CB. rewrite CB.
  destruct (Qlt_le_dec (qfloor b) w) as [L|L].
  - apply integral_lt_le1 in L; [|apply integral_floor|exact Iw].
    assert (0 <= tau * rho) by nra. assert (0 <= rho * u) by nra.
    assert ((qfloor b + 1) * (tau * rho) <= w * (tau * rho)) by (apply Qmult_le_compat_r; assumption).
    lra.
  - set (e := qfloor b - w).
    assert (He : 0 <= e) by (unfold e; lra).
    assert (Ie : integral e) by (apply integral_minus; [apply integral_floor|exact Iw]).
    assert (Ew : w == qfloor b - e) by (unfold e; ring).
    assert (K : frac b + e <= alpha * u + c + d) by lra.
    assert (G : tau * rho * (e + 1) <= rho * u + c + d).
    { destruct (Qlt_le_dec u (tau * (e + 1))) as [LU|LU].
      - apply integral_lt_le1 in LU;
          [|exact Iu|apply integral_mult; [exact It|apply integral_plus; [exact Ie|apply integral_1]]].
        assert (A : (alpha - rho) * u <= (alpha - rho) * (tau * (e + 1) - 1)).
        { apply Qmult_le_l; lra. }
        assert (B : 0 <= e * (1 - tau * alpha)) by nra.
        assert (C : frac b + e - (alpha - rho) * (tau * (e + 1) - 1) == tau * rho * (e + 1) + e * (1 - tau * alpha)).
        { rewrite EB. ring. }
        assert (D : rho * u == alpha * u - (alpha - rho) * u) by ring.
        lra.
      - assert (rho * (tau * (e + 1)) <= rho * u) by (apply Qmult_le_l; lra). lra. }
    assert (EE : tau * rho * w == tau * rho * (qfloor b) - tau * rho * e) by (rewrite Ew at 1; ring).
    assert (E2 : (qfloor b + 1) * tau * rho == tau * rho * qfloor b + tau * rho) by ring.
    assert (E3 : tau * rho * (e + 1) == tau * rho * e + tau * rho) by ring.
    lra.
Qed.

Lemma qmin_le_l a b : qmin a b <= a.
Proof. unfold qmin. destruct (Qltb a b) eqn:E; qb; lra. Qed.
Lemma qmin_le_r a b : qmin a b <= b.
Proof. unfold qmin. destruct (Qltb a b) eqn:E; qb; lra. Qed.
Lemma qmin_cases a b : (qmin a b = a /\ a <= b) \/ (qmin a b = b /\ b <= a).
Proof. unfold qmin. destruct (Qltb a b) eqn:E; qb; [left|right]; split; auto; lra. Qed.
Lemma integral_qmin a b : integral a -> integral b -> integral (qmin a b).
Proof. unfold qmin. destruct (Qltb a b); auto. Qed.

Section Entries.
  Variable p : lp.
  Variable y : point.

  (** What is known of the variables of a base. *)
  Definition var_ok (v : nat) : Prop := 0 <= y v /\ (isint p v = true -> integral (y v)).
  Definition vars_ok (t : vec) : Prop := forall e, In e t -> var_ok (fst e).

  Lemma mir_split bht t : 0 <= bht -> vars_ok t ->
    exists w c, integral w /\ 0 <= c /\ value t y <= w + c /\
      value (map (fun e => (fst e, mir1 p bht e)) t) y == bht * w + c.
  Proof.
    intros Hb. induction t as [|[j a] t IH]; intros V.
    - exists 0, 0. cbn [value map]. repeat split; try lra; try apply integral_0.
    - destruct IH as (w & c & Iw & Hc & H1 & H2); [intros e He; apply V; right; exact He|].
      destruct (V (j, a) (or_introl eq_refl)) as [Y0 YI]. cbn [fst] in Y0, YI.
      cbn [map value]. unfold mir1 at 1. cbn [fst snd].
      destruct (isint p j) eqn:EI.
      + specialize (YI eq_refl).
        pose proof (frac_def a) as FD. pose proof (frac_nonneg a). pose proof (frac_lt1 a).
        destruct (qmin_cases bht (frac a)) as [[-> L]|[-> L]].
        * exists ((qfloor a + 1) * y j + w), c. repeat split.
          -- apply integral_plus; [apply integral_mult; [apply integral_plus; [apply integral_floor|apply integral_1]|exact YI]|exact Iw].
          -- exact Hc.
          -- nra.
          -- rewrite H2. ring.
        * exists (qfloor a * y j + w), (frac a * y j + c). repeat split.
          -- apply integral_plus; [apply integral_mult; [apply integral_floor|exact YI]|exact Iw].
          -- nra.
          -- assert (a * y j == qfloor a * y j + frac a * y j) by (rewrite FD at 1; ring). lra.
          -- rewrite H2. ring.
      + destruct (Qltb 0 a) eqn:EA; qb.
        * exists w, (a * y j + c). repeat split; try assumption; try nra; try (rewrite H2; ring).
        * exists w, c. repeat split; try assumption; try nra; try (rewrite H2; ring).
  Qed.

  Lemma step_split alpha tau rho t :
    0 < alpha -> 0 < rho -> rho <= alpha -> integral tau -> 1 <= tau -> vars_ok t ->
    exists w u c, integral w /\ integral u /\ 0 <= u /\ 0 <= c /\
      value t y <= w + alpha * u + c /\
      value (map (fun e => (fst e, step1 p alpha tau rho e)) t) y == tau * rho * w + rho * u + c.
  Proof.
    intros Ha Hr Hra It Ht. induction t as [|[j a] t IH]; intros V.
    - exists 0, 0, 0. cbn [value map]. repeat split; try lra; try apply integral_0.
    - destruct IH as (w & u & c & Iw & Iu & Hu & Hc & H1 & H2); [intros e He; apply V; right; exact He|].
      destruct (V (j, a) (or_introl eq_refl)) as [Y0 YI]. cbn [fst] in Y0, YI.
      cbn [map value]. unfold step1 at 1. cbn [fst snd].
      destruct (isint p j) eqn:EI.
      + specialize (YI eq_refl).
        pose proof (frac_def a) as FD. pose proof (frac_nonneg a) as F0. pose proof (frac_lt1 a) as F1.
        assert (EA : a * y j == qfloor a * y j + frac a * y j) by (rewrite FD at 1; ring).
        set (k := qmin (tau - 1) (qfloor (frac a / alpha))) in *.
        assert (Ek : frac a == alpha * (frac a / alpha)) by (field; lra).
        assert (K0 : 0 <= k).
        { unfold k. destruct (qmin_cases (tau - 1) (qfloor (frac a / alpha))) as [[-> L]|[-> L]]; [lra|].
          apply (integral_le_floor 0); [apply integral_0|].
          apply Qle_shift_div_l; lra. }
        assert (Ik : integral k).
        { apply integral_qmin; [apply integral_minus; [exact It|apply integral_1]|apply integral_floor]. }
        assert (KA : k * alpha <= frac a).
        { pose proof (qfloor_le (frac a / alpha)). pose proof (qmin_le_r (tau - 1) (qfloor (frac a / alpha))).
          fold k in H0. rewrite Ek. assert (k <= frac a / alpha) by lra.
          rewrite (Qmult_comm k). apply Qmult_le_l; lra. }
        destruct (qmin_cases rho (frac a - k * alpha)) as [[-> L]|[-> L]].
        * destruct (qmin_cases (tau - 1) (qfloor (frac a / alpha))) as [[E L']|[E L']]; fold k in E.
          -- exists ((qfloor a + 1) * y j + w), u, c. repeat split; try assumption.
             ++ apply integral_plus; [apply integral_mult; [apply integral_plus; [apply integral_floor|apply integral_1]|exact YI]|exact Iw].
             ++ assert (frac a * y j <= 1 * y j) by (apply Qmult_le_compat_r; lra). lra.
             ++ rewrite H2, E. ring.
          -- exists (qfloor a * y j + w), ((k + 1) * y j + u), c. repeat split; try assumption.
             ++ apply integral_plus; [apply integral_mult; [apply integral_floor|exact YI]|exact Iw].
             ++ apply integral_plus; [apply integral_mult; [apply integral_plus; [exact Ik|apply integral_1]|exact YI]|exact Iu].
             ++ nra.
             ++ assert (frac a <= alpha * (k + 1)).
                { rewrite E. pose proof (qfloor_lt (frac a / alpha)). rewrite Ek at 1. apply Qmult_le_l; lra. }
                assert (frac a * y j <= alpha * (k + 1) * y j) by (apply Qmult_le_compat_r; lra). lra.
             ++ rewrite H2. ring.
        * exists (qfloor a * y j + w), (k * y j + u), ((frac a - k * alpha) * y j + c). repeat split.
          -- apply integral_plus; [apply integral_mult; [apply integral_floor|exact YI]|exact Iw].
          -- apply integral_plus; [apply integral_mult; [exact Ik|exact YI]|exact Iu].
          -- nra.
          -- assert (0 <= (frac a - k * alpha) * y j) by (apply Qmult_le_0_compat; lra). lra.
          -- assert (alpha * (k * y j + u) + ((frac a - k * alpha) * y j + c) == frac a * y j + alpha * u + c) by ring. lra.
          -- rewrite H2. ring.
      + destruct (Qltb 0 a) eqn:EA; qb.
        * exists w, u, (a * y j + c). repeat split; try assumption; try nra; try (rewrite H2; ring).
        * exists w, u, c. repeat split; try assumption; try nra; try (rewrite H2; ring).
  Qed.

  (** A constraint holds at [y] with error [d]. *)
  Definition holds (d : Q) (c : con) : Prop := c_rhs c - d <= value (c_t c) y.

  Lemma buildMir_ok d c r : 0 <= d -> vars_ok (c_t c) -> holds d c -> buildMir p c = Some r ->
    holds d r /\ map fst (c_t r) = map fst (c_t c) /\ c_s r = CG.
  Proof.
    intros Hd V H B. unfold buildMir in B.
    assert (E : r = Con (map (fun e => (fst e, mir1 p (frac (c_rhs c)) e)) (c_t c)) (frac (c_rhs c) * qceil (c_rhs c)) CG).
    { destruct (c_s c), (c_t c); try discriminate; congruence. }
    subst r. unfold holds. cbn [c_rhs c_t c_s].
    split; [|split; [rewrite map_map; reflexivity|reflexivity]].
    destruct (mir_split (frac (c_rhs c)) (c_t c) (frac_nonneg _) V) as (w & k & Iw & Hk & H1 & H2).
    rewrite H2. apply mir_core; try assumption. unfold holds in H. lra.
  Qed.

  Lemma build2step_ok alpha d c r : 0 <= d -> vars_ok (c_t c) -> holds d c ->
    is2stepValid alpha (frac (c_rhs c)) = true -> build2step p alpha c = Some r ->
    holds d r /\ map fst (c_t r) = map fst (c_t c) /\ c_s r = CG.
  Proof.
    intros Hd V H VA B. unfold build2step in B. unfold is2stepValid in VA.
    set (bht := frac (c_rhs c)) in *. set (tau := qceil (bht / alpha)) in *.
    set (rho := bht - alpha * qfloor (bht / alpha)) in *.
    destruct (Qltb alpha min_alpha) eqn:E1; [discriminate|].
    destruct (is_multiple alpha bht) eqn:E2; [discriminate|].
    apply andb_true_iff in VA. destruct VA as [VA V3]. apply andb_true_iff in VA. destruct VA as [V1 V2].
    qb.
    assert (E : Qltb rho min_rho = false /\
      r = Con (map (fun e => (fst e, step1 p alpha tau rho e)) (c_t c)) (qceil (c_rhs c) * tau * rho) CG).
    { destruct (c_s c), (c_t c); try discriminate;
        destruct (Qle_bool bht alpha || Qle_bool alpha 0); try discriminate;
        destruct (Qltb rho min_rho); try discriminate; split; congruence. }
    destruct E as [E3 ->]. qb. unfold min_rho in E3.
    assert (R : 0 < rho) by lra.
    unfold holds. cbn [c_rhs c_t c_s].
    split; [|split; [rewrite map_map; reflexivity|reflexivity]].
    assert (TA : tau * alpha <= 1).
    { setoid_replace 1 with ((1 / alpha) * alpha) by (field; lra). apply Qmult_le_compat_r; lra. }
    set (f := bht / alpha) in *.
    assert (Ef : bht == alpha * f) by (unfold f; field; lra).
    assert (RA : rho <= alpha).
    { unfold rho. pose proof (frac_def f). pose proof (frac_lt1 f). nra. }
    assert (T1 : 1 <= tau).
    { assert (0 < tau). { unfold tau. pose proof (qceil_ge f). assert (0 < f) by nra. lra. }
      apply (integral_lt_le1 0) in H0; [lra|apply integral_0|apply integral_ceil]. }
    destruct (step_split alpha tau rho (c_t c)) as (w & u & k & Iw & Iu & Hu & Hk & H1 & H2);
      try assumption; [apply integral_ceil|].
    rewrite H2. unfold tau, rho, f, bht in *. apply two_core; try assumption.
    unfold holds in H. lra.
  Qed.
End Entries.
