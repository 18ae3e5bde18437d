(** * CglGomory on integer data
    When the rows and the bounds are integers and the row of the basis inverse
    has a common denominator below 10^4, no tolerance of the generator matters. *)

From Coq Require Import Qabs Lqa Lia.
From Verif Require Import Base Model_GMI Proofs_GMI Model_Gomory Proofs_Gomory.
Local Open Scope Q_scope.

Lemma integral_clean q : integral q -> clean q.
Proof.
  intros (z & Z). unfold clean. rewrite (frac_of_integral q) by (exists z; exact Z). unfold above_integer.
  assert (N : nearest q == q).
  { pose proof (nearest_close q) as H. destruct (nearest_integral q) as (w & W). rewrite W, Z in H. rewrite W, Z.
    apply Qabs_Qle_condition in H. destruct H as (H1 & H2).
    assert (G : (- 1 < w - z < 1)%Z).
    { split; rewrite Zlt_Qlt; unfold Z.sub; rewrite inject_Z_plus, inject_Z_opp; [change (inject_Z (- 1)) with (- (1))|change (inject_Z 1) with 1]; lra. }
    replace w with z by lia. reflexivity. }
  destruct (_ <? _) eqn:E; [reflexivity|]. qb. exfalso.
  assert (A : Qabs (nearest q - q) == 0) by (rewrite N; setoid_replace (q - q) with 0 by ring; reflexivity).
  pose proof (Qabs_nonneg (nearest q)). assert (0 < ten (-9) * (Qabs (nearest q) + 1)) by (apply Qmult_lt_0_compat; [apply ten_pos|lra]). lra.
Qed.
Lemma grid_clean' D q : 1 <= D -> D <= ten 4 -> integral D -> integral (D * q) -> Qabs q + 2 <= ten 5 -> clean q.
Proof.
  intros D1 D2 Di H B. apply (grid_clean D); [lra|exact H|exact Di|].
  assert (N : Qabs (nearest q) <= Qabs q + 1).
  { pose proof (nearest_close q). pose proof (Qabs_triangle (nearest q - q) q) as T.
    setoid_replace (nearest q - q + q) with (nearest q) in T by ring. lra. }
  apply Qle_trans with (ten 4 * ten 5); [|vm_compute; discriminate].
  apply Qle_trans with (ten 4 * (Qabs (nearest q) + 1)).
  - apply Qmult_le_compat_r; [exact D2|]. pose proof (Qabs_nonneg (nearest q)). lra.
  - apply Qmult_le_l; [apply ten_pos|]. lra.
Qed.
Lemma grid_small D q : 1 <= D -> D <= ten 4 -> integral (D * q) -> Qabs q < ten (-16) -> q == 0.
Proof.
  intros D1 D2 (w & W) B.
  assert (A : D * Qabs q < 1).
  { apply Qle_lt_trans with (ten 4 * Qabs q); [apply Qmult_le_compat_r; [exact D2|apply Qabs_nonneg]|].
    apply Qlt_trans with (ten 4 * ten (-16)); [apply Qmult_lt_l; [apply ten_pos|exact B]|reflexivity]. }
  assert (E : D * Qabs q == Qabs (inject_Z w)) by (rewrite <- W, Qabs_Qmult, (Qabs_pos D) by lra; reflexivity).
  rewrite E in A. apply Qabs_Qlt_condition in A. destruct A as (A1 & A2).
  assert (G : (- 1 < w < 1)%Z).
  { split; rewrite Zlt_Qlt; [change (inject_Z (- 1)) with (- (1))|change (inject_Z 1) with 1]; assumption. }
  assert (w = 0%Z) by lia. subst w. destruct (Qeq_dec q 0) as [|N]; [assumption|exfalso].
  apply (Qmult_integral_l D) in W; [contradiction|lra].
Qed.

Section Data.
  Variable c : gcall.
  Notation m := (g_mip c).
  Notation n := (m_ncols m).
  Notation x := (g_x c).
  Notation rw i := (r_form (grow c i)).

  (** rows and finite bounds are integers *)
  Record integer_data : Prop := {
    id_row : forall i, (i < length (m_rows m))%nat ->
      (forall j a, In (j, a) (rw i) -> integral a) /\
      (forall l, r_lo (grow c i) = Some l -> integral l) /\ (forall u, r_hi (grow c i) = Some u -> integral u);
    id_col : forall j, (j < n)%nat ->
      (forall l, m_clo m j = Some l -> integral l) /\ (forall u, m_chi m j = Some u -> integral u)
  }.
  (** the row [rho] of the basis inverse has denominators dividing [D], and
      nothing in the tableau row is huge *)
  Record small_denominator (rho : vec) (k : nat) (D : Q) : Prop := {
    sd_int : integral D;
    sd_range : 1 <= D /\ D < ten 4;
    sd_rho : forall i a, In (i, a) rho -> integral (D * a) /\ Qabs a + 2 <= ten 5;
    sd_elem : forall j, (j < n)%nat -> Qabs (elem c rho j) + 2 <= ten 5;
    sd_x : integral (D * x k) /\ Qabs (x k) + 2 <= ten 5
  }.
  Hypothesis ID : integer_data.
  Variable rho : vec.
  Variable k : nat.
  Variable D : Q.
  Hypothesis VX : vertex c rho k.
  Hypothesis SD : small_denominator rho k D.

  Lemma coef_integral v j : (forall i a, In (i, a) v -> integral a) -> integral (coef v j).
  Proof.
    intro H. unfold coef. destruct (find _ v) as [[i a]|] eqn:E; [|apply integral_0].
    apply find_some in E. exact (H i a (proj1 E)).
  Qed.
  Lemma elem_grid j : integral (D * elem c rho j).
  Proof.
    unfold elem. assert (G : forall l s, incl l rho -> integral (D * s) ->
      integral (D * fold_left (fun s e => s + coef (rw (fst e)) j * snd e) l s)).
    { induction l as [|[i a] l IH]; intros s L S; cbn [fold_left]; [exact S|].
      assert (Hi : In (i, a) rho) by (apply L; left; reflexivity).
      apply IH; [intros e He; apply L; right; exact He|]. cbn [fst snd].
      apply integral_eq with (D * s + coef (rw i) j * (D * a)); [ring|]. apply integral_plus; [exact S|].
      apply integral_mult; [|apply (sd_rho _ _ _ SD i a Hi)]. apply coef_integral.
      intros i' a' H. exact (proj1 (id_row ID i (vx_rows _ _ _ VX i a Hi)) i' a' H). }
    apply G; [apply incl_refl|]. exists 0%Z. ring.
  Qed.
  Lemma D_ok : 1 <= D /\ D <= ten 4 /\ integral D.
  Proof. destruct (sd_range _ _ _ SD). conjs; [assumption|lra|apply SD]. Qed.
  Lemma opp_grid q : integral (D * q) -> integral (D * - q).
  Proof. intro H. apply integral_eq with (- (D * q)); [ring|]. apply integral_opp. exact H. Qed.
  Lemma scol_grid j : integral (D * scol c rho j).
  Proof. unfold scol. destruct (swap c j); [apply opp_grid|]; apply elem_grid. Qed.
  Lemma srow_grid i a : integral (D * a) -> integral (D * srow c i a).
  Proof. intro H. unfold srow. destruct (rowType c i) as [[[|] b]|]; try exact H. apply opp_grid; exact H. Qed.
  Lemma data_exact : exact c rho k.
  Proof.
    destruct D_ok as (D1 & D2 & D3). constructor.
    - destruct (sd_x _ _ _ SD). apply (grid_clean' D); assumption.
    - intros j _ H. apply (grid_small D); auto using elem_grid.
    - intros j L _ _. apply (grid_clean' D); auto using scol_grid. pose proof (sd_elem _ _ _ SD j L).
      unfold scol. destruct (swap c j); [rewrite Qabs_opp|]; assumption.
    - intros i a Hi H. apply (grid_small D); auto. apply (sd_rho _ _ _ SD i a Hi).
    - intros i a Hi _. destruct (sd_rho _ _ _ SD i a Hi) as (H1 & H2). apply (grid_clean' D); auto using srow_grid.
      unfold srow. destruct (rowType c i) as [[[|] b]|]; try rewrite Qabs_opp; assumption.
    - intros i a Hi _. destruct (id_row ID i (vx_rows _ _ _ VX i a Hi)) as (R1 & R2 & R3).
      conjs; intros; apply integral_clean; eauto.
  Qed.
  Notation f0 := (above_integer (x k)).
  Definition D' : Q := D * (D * (1 - f0)).
  Lemma f0_clean : f0 == frac (x k).
  Proof. exact (ex_x _ _ _ data_exact). Qed.
  Lemma frac_grid q : integral (D * q) -> integral (D * frac q).
  Proof.
    intro H. unfold frac. apply integral_eq with (D * q - D * qfloor q); [ring|]. apply integral_minus; [exact H|].
    apply integral_mult; [apply D_ok|apply integral_inject].
  Qed.
  Lemma f0_grid : integral (D * f0).
  Proof. apply integral_eq with (D * frac (x k)); [rewrite f0_clean; reflexivity|]. apply frac_grid. apply SD. Qed.
  Lemma f0_range : 0 <= f0 /\ f0 < 1.
  Proof. rewrite f0_clean. unfold frac. pose proof (qfloor_le (x k)). pose proof (qfloor_lt (x k)). split; lra. Qed.
  Lemma co_grid : integral (D * (1 - f0)).
  Proof. apply integral_eq with (D - D * f0); [ring|]. apply integral_minus; [apply D_ok|apply f0_grid]. Qed.
  Lemma D'_ok : integral D' /\ 0 < D' /\ D' < ten 8.
  Proof.
    unfold D'. destruct D_ok as (D1 & D2 & D3). destruct f0_range as (F1 & F2). destruct (sd_range _ _ _ SD) as (_ & D4). conjs.
    - apply integral_mult; [exact D3|apply co_grid].
    - repeat apply Qmult_lt_0_compat; lra.
    - apply Qle_lt_trans with (D * D).
      + apply Qmult_le_l; [lra|]. assert (0 <= D * f0) by (apply Qmult_le_0_compat; lra). lra.
      + apply Qlt_trans with (ten 4 * D); [apply Qmult_lt_r; lra|].
        assert (E : ten 8 == ten 4 * ten 4) by reflexivity. rewrite E. apply Qmult_lt_l; [apply ten_pos|exact D4].
  Qed.
  Lemma coefficient_grid b a : (b = true -> clean a) -> integral (D * a) -> integral (D' * coefficient f0 b a).
  Proof.
    intros Cl H. unfold coefficient. cbv zeta. destruct f0_range as (F1 & F2). unfold D'.
    destruct b.
    - specialize (Cl eq_refl). unfold clean in Cl. assert (Hf : integral (D * above_integer a)).
      { apply integral_eq with (D * frac a); [rewrite Cl; reflexivity|]. apply frac_grid. exact H. }
      destruct (f0 <? above_integer a).
      + apply integral_eq with ((D * f0) * (D - D * above_integer a)); [field; lra|].
        apply integral_mult; [apply f0_grid|apply integral_minus; [apply D_ok|exact Hf]].
      + apply integral_eq with ((D * (1 - f0)) * (D * above_integer a)); [ring|]. apply integral_mult; [apply co_grid|exact Hf].
    - destruct (0 <? a).
      + apply integral_eq with ((D * (1 - f0)) * (D * a)); [ring|]. apply integral_mult; [apply co_grid|exact H].
      + apply integral_eq with (- ((D * f0) * (D * a))); [field; lra|]. apply integral_opp. apply integral_mult; [apply f0_grid|exact H].
  Qed.
  Definition grid_state (s : gstate) : Prop := (forall j, integral (D' * s_el s j)) /\ integral (D' * s_rhs s).
  Lemma upd_grid (f : nat -> Q) j q : (forall i, integral (D' * f i)) -> integral (D' * q) -> forall i, integral (D' * upd f j q i).
  Proof. intros H Hq i. unfold upd. destruct (Nat.eqb i j); auto. Qed.
  Lemma col_grid s j : (j < n)%nat -> grid_state s -> grid_state (col_step c f0 rho s j).
  Proof.
    intros L (S1 & S2). unfold col_step. destruct (g_cbasic c j || _) eqn:Sk; [split; assumption|]. cbv zeta.
    destruct (Qabs (elem c rho j) <? ten (-16)) eqn:Sm; [split; assumption|].
    apply orb_false_iff in Sk. destruct Sk as (Nb & Sk). apply Qltb_ge in Sm.
    assert (NZ : ~ elem c rho j == 0).
    { intro Z. assert (Qabs (elem c rho j) == 0) by (rewrite Z; reflexivity). pose proof (ten_pos (-16)). lra. }
    set (q0 := coefficient _ _ _). set (q := if swap c j then - q0 else q0).
    assert (Q0 : integral (D' * q0)).
    { apply coefficient_grid.
      - intro Im. exact (ex_frac _ _ _ data_exact j L Nb Im).
      - exact (scol_grid j). }
    assert (Q1 : integral (D' * q)).
    { unfold q. destruct (swap c j); [|exact Q0]. apply integral_eq with (- (D' * q0)); [ring|]. apply integral_opp; exact Q0. }
    assert (B : integral (if swap c j then hi c j else lo c j)).
    { destruct (vx_col _ _ _ VX j L Nb) as [Z|H]; [contradiction|]. unfold skipped in H. rewrite Sk in H.
      destruct (id_col ID j L) as (I1 & I2). destruct (swap c j).
      - destruct H as (u & Eu & _). unfold hi. rewrite Eu. cbn [hi_of]. auto.
      - destruct H as (l & El & _). unfold lo. rewrite El. cbn [lo_of]. auto. }
    assert (R : integral (D' * (s_rhs s + (if swap c j then hi c j else lo c j) * q))).
    { apply integral_eq with (D' * s_rhs s + (if swap c j then hi c j else lo c j) * (D' * q)); [ring|].
      apply integral_plus; [exact S2|]. apply integral_mult; assumption. }
    destruct (Qeq_bool q 0); split; cbn [s_el s_rhs]; auto. apply upd_grid; assumption.
  Qed.
  Lemma quick_grid q s e : integral (D' * q) -> integral (snd e) -> grid_state s -> grid_state (quick_add q s e).
  Proof.
    intros Hq Ha (S1 & S2). destruct e as [j a]. cbn [snd] in Ha. unfold quick_add. cbv zeta.
    assert (Hd : integral (D' * - (q * a))).
    { apply integral_eq with (- ((D' * q) * a)); [ring|]. apply integral_opp. apply integral_mult; assumption. }
    destruct (existsb _ _); [|destruct (Qeq_bool _ _)]; split; cbn [s_el s_rhs]; auto; apply upd_grid; auto.
    apply integral_eq with (D' * s_el s j + D' * - (q * a)); [ring|]. apply integral_plus; auto.
  Qed.
  Lemma slack_grid s i a : In (i, a) rho -> grid_state s -> grid_state (slack_step c f0 s (i, a)).
  Proof.
    intros Hi (S1 & S2). unfold slack_step. destruct (rowType c i) as [[up b]|] eqn:Rt; [|split; assumption].
    destruct (Qabs a <? ten (-16)) eqn:Sm; [split; assumption|]. qb. cbv zeta.
    assert (NZ : ~ a == 0).
    { intro Z. assert (Qabs a == 0) by (rewrite Z; reflexivity). pose proof (ten_pos (-16)). lra. }
    pose proof (vx_rows _ _ _ VX i a Hi) as Li. destruct (id_row ID i Li) as (R1 & R2 & R3).
    set (q0 := coefficient _ _ _). set (q := if up then q0 else - q0).
    assert (Es : (if up then a else - a) = srow c i a) by (unfold srow; rewrite Rt; destruct up; reflexivity).
    assert (Q0 : integral (D' * q0)).
    { unfold q0. rewrite Es. apply coefficient_grid.
      - intro Im. apply (ex_slack _ _ _ data_exact i a Hi). unfold irowb. rewrite Rt. exact Im.
      - apply srow_grid. apply (sd_rho _ _ _ SD i a Hi). }
    assert (Q1 : integral (D' * q)).
    { unfold q. destruct up; [exact Q0|]. apply integral_eq with (- (D' * q0)); [ring|]. apply integral_opp; exact Q0. }
    assert (B : integral (if up then rhi c i else rlo c i)).
    { destruct (vx_row _ _ _ VX i a Hi) as [Z|H]; [contradiction|]. rewrite Rt in H. destruct up.
      - destruct H as (u & Eu & _). unfold rhi. rewrite Eu. cbn [hi_of]. auto.
      - destruct H as (l & El & _). unfold rlo. rewrite El. cbn [lo_of]. auto. }
    assert (G : forall v s0, (forall e, In e v -> integral (snd e)) -> grid_state s0 -> grid_state (fold_left (quick_add q) v s0)).
    { induction v as [|e v IH]; intros s0 Hv S0; [exact S0|]. cbn [fold_left]. apply IH; [intros; apply Hv; right; assumption|].
      apply quick_grid; [exact Q1|apply Hv; left; reflexivity|exact S0]. }
    apply G; [intros [j b0] He; exact (R1 j b0 He)|]. split; cbn [s_el s_rhs]; [exact S1|].
    apply integral_eq with (D' * s_rhs s - (D' * q) * (if up then rhi c i else rlo c i)); [ring|].
    apply integral_minus; [exact S2|apply integral_mult; assumption].
  Qed.
  Lemma raw_grid : grid_state (raw c f0 rho).
  Proof.
    unfold raw, col_part.
    assert (S0 : grid_state (GState (fun _ => 0) [] f0 0%nat)).
    { split; cbn [s_el s_rhs]; [intro; exists 0%Z; ring|]. unfold D'. apply integral_eq with ((D * (1 - f0)) * (D * f0)); [ring|].
      apply integral_mult; [apply co_grid|apply f0_grid]. }
    assert (G1 : forall l s, (forall j, In j l -> (j < n)%nat) -> grid_state s -> grid_state (fold_left (col_step c f0 rho) l s)).
    { induction l as [|j l IH]; intros s Hl S; [exact S|]. cbn [fold_left].
      apply IH; [intros; apply Hl; right; assumption|]. apply col_grid; [apply Hl; left; reflexivity|exact S]. }
    assert (G2 : forall l s, incl l rho -> grid_state s -> grid_state (fold_left (slack_step c f0) l s)).
    { induction l as [|[i a] l IH]; intros s Hl S; [exact S|]. cbn [fold_left].
      apply IH; [intros e He; apply Hl; right; exact He|]. apply slack_grid; [apply Hl; left; reflexivity|exact S]. }
    apply G2; [apply incl_refl|]. apply G1; [|exact S0]. intros j Hj. apply in_seq in Hj. lia.
  Qed.
  Lemma pack_grid l : forall v0 r0 w0 v r w, fold_left (pack_step c) l (v0, r0, w0) = (v, r, w) -> cols c l ->
    (forall e, In e v0 \/ In e l -> integral (D' * snd e)) -> integral (D' * r0) ->
    integral (D' * r) /\ forall e, In e v -> integral (D' * snd e).
  Proof.
    induction l as [|[j a] l IH]; intros v0 r0 w0 v r w E C Hl Hr; cbn [fold_left] in E.
    - injection E as <- <- _. split; [exact Hr|]. intros e He. apply Hl. auto.
    - assert (L : (j < n)%nat) by (eapply C; left; reflexivity).
      assert (C' : cols c l) by (intros i b Hi; eapply C; right; eauto).
      pose proof (Hl (j, a) (or_intror (or_introl eq_refl))) as Ha. cbn [snd] in Ha.
      assert (H1 : forall e, In e (v0 ++ [(j, a)]) \/ In e l -> integral (D' * snd e)).
      { intros e [H|H]; [|apply Hl; right; right; exact H]. apply in_app_or in H. destruct H as [H|[<-|[]]]; [apply Hl; auto|exact Ha]. }
      assert (H2 : forall e, In e v0 \/ In e l -> integral (D' * snd e)).
      { intros e [H|H]; apply Hl; [auto|right; right; exact H]. }
      destruct (id_col ID j L) as (I1 & I2).
      assert (H3 : forall b, integral b -> integral (D' * (r0 - a * b))).
      { intros b Hb. apply integral_eq with (D' * r0 - (D' * a) * b); [ring|]. apply integral_minus; [exact Hr|]. apply integral_mult; assumption. }
      unfold pack_step at 2 in E. destruct (ten (-8) <? Qabs a); [exact (IH _ _ _ _ _ _ E C' H1 Hr)|].
      destruct ((0 <? a) && (- ten 20 <? lo c j)) eqn:E2.
      { qb. destruct (lo_finite c j ltac:(assumption)) as (b & Eb & Lb). rewrite Lb in E. exact (IH _ _ _ _ _ _ E C' H2 (H3 b (I1 b Eb))). }
      destruct ((a <? 0) && (hi c j <? ten 20)) eqn:E3.
      { qb. destruct (hi_finite c j ltac:(assumption)) as (b & Eb & Lb). rewrite Lb in E. exact (IH _ _ _ _ _ _ E C' H2 (H3 b (I2 b Eb))). }
      destruct (ten (-13) <? Qabs a); [exact (IH _ _ _ _ _ _ E C' H1 Hr)|exact (IH _ _ _ _ _ _ E C' H2 Hr)].
  Qed.
  Lemma grid_lower q : integral (D' * q) -> q == 0 \/ ten (-13) < Qabs q.
  Proof.
    intros (w & W). destruct D'_ok as (_ & P & B). destruct (Qlt_le_dec (ten (-13)) (Qabs q)) as [H|H]; [auto|left].
    assert (A : D' * Qabs q < 1).
    { apply Qle_lt_trans with (D' * ten (-13)); [apply Qmult_le_l; assumption|].
      apply Qlt_trans with (ten 8 * ten (-13)); [apply Qmult_lt_r; [apply ten_pos|exact B]|reflexivity]. }
    assert (E : D' * Qabs q == Qabs (inject_Z w)) by (rewrite <- W, Qabs_Qmult, (Qabs_pos D') by lra; reflexivity).
    rewrite E in A. apply Qabs_Qlt_condition in A. destruct A as (A1 & A2).
    assert (G : (- 1 < w < 1)%Z).
    { split; rewrite Zlt_Qlt; [change (inject_Z (- 1)) with (- (1))|change (inject_Z 1) with 1]; assumption. }
    assert (w = 0%Z) by lia. subst w. destruct (Qeq_dec q 0) as [|N]; [assumption|exfalso].
    apply (Qmult_integral_l D') in W; [contradiction|lra].
  Qed.
  (** no tolerance of the later stages matters either *)
  Lemma data_ready : (forall j, In j (s_idx (raw c f0 rho)) -> (j < n)%nat) -> candidate_ready c rho k.
  Proof.
    intro Cn. unfold candidate_ready. cbv zeta. destruct raw_grid as (G1 & G2). split.
    - intros j _. unfold packable. assert (H : integral (D' * - s_el (raw c f0 rho) j)).
      { apply integral_eq with (- (D' * s_el (raw c f0 rho) j)); [ring|]. apply integral_opp. apply G1. }
      destruct (grid_lower _ H); auto.
    - destruct (pack c f0 (raw c f0 rho)) as [[v r] w] eqn:Pk. cbn [fst snd]. unfold pack in Pk.
      right. right. exists D'. destruct D'_ok as (P1 & P2 & P3).
      destruct (pack_grid _ _ _ _ _ _ _ Pk) as (H1 & H2).
      + intros j a Hj. unfold negated in Hj. apply in_map_iff in Hj. destruct Hj as (j' & Ej & Hj). injection Ej as <- _. auto.
      + intros e [[]|He]. unfold negated in He. apply in_map_iff in He. destruct He as (j' & <- & He). cbn [snd].
        apply integral_eq with (- (D' * s_el (raw c f0 rho) j')); [ring|]. apply integral_opp. apply G1.
      + apply integral_eq with (- (D' * s_rhs (raw c f0 rho))); [ring|]. apply integral_opp. exact G2.
      + unfold gridded. conjs; auto. intros j a Hj. exact (H2 _ Hj).
  Qed.
End Data.
