(** * Proofs about CglGomory *)

From Coq Require Import Qabs Lqa Lia Zquot.
From Verif Require Import Base Model_ResidualCapacity Proofs_Clique Proofs_ResidualCapacity Model_GMI Proofs_GMI Model_Gomory.
Local Open Scope Q_scope.

(** ** above_integer *)
(** [q] is an integer, or is not taken for one. *)
Definition clean (q : Q) : Prop := above_integer q == frac q.
Lemma ten_pos e : 0 < ten e.
Proof.
  unfold ten. destruct (e <? 0)%Z eqn:E.
  - unfold Qdiv. rewrite Qmult_1_l. apply Qinv_lt_0_compat. change 0 with (inject_Z 0). rewrite <- Zlt_Qlt. apply Z.pow_pos_nonneg; lia.
  - change 0 with (inject_Z 0). rewrite <- Zlt_Qlt. apply Z.pow_pos_nonneg; lia.
Qed.
Lemma nearest_integral q : integral (nearest q).
Proof. apply integral_inject. Qed.
Lemma nearest_close q : Qabs (nearest q - q) <= 1 # 2.
Proof.
  unfold nearest. pose proof (qfloor_le (q + (1 # 2))). pose proof (qfloor_lt (q + (1 # 2))).
  apply Qabs_Qle_condition. split; lra.
Qed.
Lemma integral_frac0 q : frac q == 0 -> integral q.
Proof. intro H. exists (Qfloor q). unfold frac, qfloor in H. lra. Qed.
Lemma frac_of_integral q : integral q -> frac q == 0.
Proof.
  intros (z & E). unfold frac, qfloor. assert (F : Qfloor q = z) by (apply Qfloor_unique; lra). rewrite F. lra.
Qed.
(** a number that passes for an integer *)
Lemma clean_int q : clean q -> above_integer q <= ten (-10) -> integral q.
Proof.
  unfold clean. intros C L. apply integral_frac0. rewrite <- C.
  assert (G : above_integer q = 0 \/ ten (-9) <= above_integer q); [|destruct G as [G|G]; [rewrite G; reflexivity|]].
  2: { exfalso. assert (ten (-10) < ten (-9)) by reflexivity. lra. }
  unfold above_integer. destruct (_ <? _) eqn:E; [auto|right]. qb.
  pose proof (ten_pos (-9)) as T. pose proof (Qabs_nonneg (nearest q)) as A.
  assert (B : ten (-9) * 1 <= ten (-9) * (Qabs (nearest q) + 1)).
  { apply Qmult_le_l; [exact T|lra]. }
  assert (G : ten (-9) <= Qabs (nearest q - q)) by lra. clear E B.
  pose proof (qfloor_le q) as F1. pose proof (qfloor_lt q) as F2.
  destruct (Qlt_le_dec (q - qfloor q) (1 # 2)) as [H|H].
  - assert (N : nearest q = qfloor q).
    { unfold nearest, qfloor at 1. rewrite (Qfloor_unique (q + (1 # 2)) (Qfloor q)); [reflexivity| |]; unfold qfloor in *; lra. }
    rewrite N in G. rewrite Qabs_neg in G by lra. lra.
  - assert (ten (-9) < 1 # 2) by reflexivity. lra.
Qed.
(** Numbers with a moderate denominator are clean. *)
Lemma grid_clean D q : 0 < D -> integral (D * q) -> integral D -> D * (Qabs (nearest q) + 1) <= ten 9 -> clean q.
Proof.
  intros HD (z & Z) (d & Hd) L. unfold clean, above_integer. destruct (_ <? _) eqn:E; [|reflexivity]. qb.
  symmetry. apply frac_of_integral.
  assert (G : D * Qabs (nearest q - q) < 1).
  { assert (X : D * Qabs (nearest q - q) < D * (ten (-9) * (Qabs (nearest q) + 1))) by (apply Qmult_lt_l; assumption).
    assert (Y : D * (ten (-9) * (Qabs (nearest q) + 1)) == ten (-9) * (D * (Qabs (nearest q) + 1))) by ring.
    assert (W : ten (-9) * (D * (Qabs (nearest q) + 1)) <= ten (-9) * ten 9) by (apply Qmult_le_l; [apply ten_pos|exact L]).
    assert (V : ten (-9) * ten 9 == 1) by reflexivity. lra. }
  destruct (nearest_integral q) as (r & R).
  assert (I : D * (nearest q - q) == inject_Z (d * r - z)).
  { unfold Z.sub. rewrite inject_Z_plus, inject_Z_opp, inject_Z_mult, <- Z, <- R, <- Hd. ring. }
  assert (A : D * Qabs (nearest q - q) == Qabs (D * (nearest q - q))).
  { rewrite Qabs_Qmult, (Qabs_pos D) by lra. reflexivity. }
  rewrite A, I in G. apply Qabs_Qlt_condition in G. destruct G as (G1 & G2).
  assert (G3 : (- 1 < d * r - z < 1)%Z).
  { split; rewrite Zlt_Qlt; [change (inject_Z (- 1)) with (- (1))|change (inject_Z 1) with 1]; assumption. }
  assert (G4 : (d * r - z = 0)%Z) by lia. rewrite G4 in I.
  assert (Q0 : nearest q - q == 0).
  { destruct (Qeq_dec (nearest q - q) 0) as [H|H]; [exact H|]. exfalso.
    apply (Qmult_integral_l D) in I; [contradiction|lra]. }
  exists r. lra.
Qed.

(** ** The coefficient is the negated one of CglGMI *)
Lemma coefficient_gmi f0 i a : (i = true -> clean a) -> coefficient f0 i a == - cutCoefficient f0 i a.
Proof.
  intro C. unfold coefficient, cutCoefficient. destruct i.
  - specialize (C eq_refl). unfold clean in C.
    destruct (f0 <? above_integer a) eqn:E1, (f0 <? frac a) eqn:E2; qb; try lra; rewrite C; ring.
  - destruct (0 <? a) eqn:E1, (a <? 0) eqn:E2; qb; try lra; try ring.
    assert (Z : a == 0) by lra. rewrite Z. ring.
Qed.

Definition sgap (n : nat) (s : gstate) (y : point) : Q := dval n (s_el s) y - s_rhs s.

Section Raw.
  Variable c : gcall.
  Notation m := (g_mip c).
  Notation n := (m_ncols m).
  Notation x := (g_x c).
  Notation rw i := (r_form (grow c i)).

  Definition skipped (j : nat) : bool := negb (lo c j + testFixed c <? hi c j).
  (** How far a nonbasic column, or the slack of a row, is from its bound. *)
  Definition gcol (y : point) (j : nat) : Q :=
    if skipped j then 0 else if swap c j then hi c j - y j else y j - lo c j.
  Definition grw (y : point) (i : nat) : Q :=
    match rowType c i with
    | None => 0
    | Some (true, _) => rhi c i - value (rw i) y
    | Some (false, _) => value (rw i) y - rlo c i
    end.
  Definition scol (rho : vec) (j : nat) : Q := if swap c j then - elem c rho j else elem c rho j.
  Definition srow (i : nat) (a : Q) : Q := match rowType c i with Some (false, _) => - a | _ => a end.
  Definition irowb (i : nat) : bool := match rowType c i with Some (_, b) => b | None => false end.

  (** The tableau row [rho] of basic column [k] is exact, and the solution is the
      basic solution: what is not basic and matters is exactly at a bound. *)
  Record vertex (rho : vec) (k : nat) : Prop := {
    vx_wf : wf_mip m;
    vx_k : (k < n)%nat;
    vx_kbasic : g_cbasic c k = true;
    vx_rows : forall i a, In (i, a) rho -> (i < length (m_rows m))%nat;
    vx_x : forall i a, In (i, a) rho -> row_sat (grow c i) x;
    vx_xb : in_bounds m x;
    vx_basic : forall j, (j < n)%nat -> g_cbasic c j = true -> elem c rho j == if Nat.eqb j k then 1 else 0;
    vx_col : forall j, (j < n)%nat -> g_cbasic c j = false ->
      elem c rho j == 0 \/
      (if skipped j then exists l u, m_clo m j = Some l /\ m_chi m j = Some u /\ l == u
       else if swap c j then exists u, m_chi m j = Some u /\ u == x j
       else exists l, m_clo m j = Some l /\ l == x j);
    vx_row : forall i a, In (i, a) rho ->
      a == 0 \/
      match rowType c i with
      | None => exists l u, r_lo (grow c i) = Some l /\ r_hi (grow c i) = Some u /\ l == u
      | Some (true, _) => exists u, r_hi (grow c i) = Some u /\ u == act c i
      | Some (false, _) => exists l, r_lo (grow c i) = Some l /\ l == act c i
      end
  }.
  (** No tolerance decides: what passes for zero is zero, what passes for an
      integer is one. *)
  Record exact (rho : vec) (k : nat) : Prop := {
    ex_x : clean (x k);
    ex_elem : forall j, (j < n)%nat -> Qabs (elem c rho j) < ten (-16) -> elem c rho j == 0;
    ex_frac : forall j, (j < n)%nat -> g_cbasic c j = false -> m_int m j = true -> clean (scol rho j);
    ex_rho : forall i a, In (i, a) rho -> Qabs a < ten (-16) -> a == 0;
    ex_slack : forall i a, In (i, a) rho -> irowb i = true -> clean (srow i a);
    ex_rows : forall i a, In (i, a) rho -> irowb i = true ->
      (forall j b, In (j, b) (rw i) -> clean b) /\
      (forall l, r_lo (grow c i) = Some l -> clean l) /\ (forall u, r_hi (grow c i) = Some u -> clean u)
  }.
  (** finite bounds of integer columns are integers *)
  Definition integer_bounds : Prop := forall j, (j < n)%nat -> m_int m j = true ->
    (forall l, m_clo m j = Some l -> integral l) /\ (forall u, m_chi m j = Some u -> integral u).

  Variable rho : vec.
  Variable k : nat.
  Hypothesis VX : vertex rho k.
  Hypothesis EX : exact rho k.
  Hypothesis IB : integer_bounds.
  Notation f0 := (above_integer (x k)).

  Lemma f0_frac : f0 == frac (x k).
  Proof. apply (ex_x _ _ EX). Qed.
  Lemma grow_in i : (i < length (m_rows m))%nat -> In (grow c i) (m_rows m).
  Proof. intro L. apply nth_In. exact L. Qed.

  Lemma slack_integer i : irowb i = true -> exists b rhs,
    rowType c i = Some (b, true) /\ integer_slack c i rhs = true /\ rhs = (if b then rhi c i else rlo c i).
  Proof.
    unfold irowb. destruct (rowType c i) as [[b f]|] eqn:E; [|discriminate]. intro H. subst f. exists b.
    unfold rowType in E. destruct (_ || _); [discriminate|].
    destruct (_ <=? act c i).
    - injection E as <- E. exists (rhi c i). conjs; auto.
    - destruct (act c i <=? _); [|discriminate]. injection E as <- E. exists (rlo c i). conjs; auto.
  Qed.

  Section Point.
    Variable y : point.
    Hypothesis Feas : feasible m y.

    Lemma z_col_ok j : (j < n)%nat -> g_cbasic c j = false -> ~ elem c rho j == 0 ->
      0 <= gcol y j /\ (m_int m j = true -> integral (gcol y j)).
    Proof.
      intros L NB NZ. unfold gcol. destruct (vx_col _ _ VX j L NB) as [C|C]; [contradiction|].
      destruct Feas as (_ & Bd & Ig). destruct (Bd j L) as (Bl & Bu).
      destruct (skipped j); [split; [lra|intro; apply integral_0]|].
      unfold hi, lo. destruct (swap c j).
      - destruct C as (u & E & Eu). rewrite E in *. cbn [hi_of]. simpl in Bu. split; [lra|]. intro H.
        apply integral_minus; [exact (proj2 (IB j L H) u E)|auto].
      - destruct C as (l & E & El). rewrite E in *. cbn [lo_of]. simpl in Bl. split; [lra|]. intro H.
        apply integral_minus; [auto|exact (proj1 (IB j L H) l E)].
    Qed.
    Lemma z_row_ok i a : In (i, a) rho -> ~ a == 0 -> 0 <= grw y i /\ (irowb i = true -> integral (grw y i)).
    Proof.
      intros Hi NZ. unfold grw. destruct (vx_row _ _ VX i a Hi) as [R|R]; [contradiction|].
      pose proof (vx_rows _ _ VX i a Hi) as Li. pose proof (grow_in i Li) as Ri.
      destruct Feas as (Rs & _ & Ig). destruct (Rs _ Ri) as (Rl & Ru).
      assert (Iv : irowb i = true -> integral (value (rw i) y)).
      { intro H. destruct (slack_integer i H) as (b & rhs & E & S & _). unfold integer_slack in S. qb.
        apply value_integral. intros j q Hj. destruct (vx_wf _ _ VX _ Ri) as (_ & Lt).
        assert (S2 : m_int m j && negb (ten (-10) <? above_integer q) = true).
        { match goal with H : forallb _ _ = true |- _ => exact (proj1 (forallb_forall _ _) H (j, q) Hj) end. }
        qb. split; [|apply Ig; [eapply Lt; eauto|auto]].
        apply clean_int; [apply (proj1 (ex_rows _ _ EX i a Hi H) j q Hj)|assumption]. }
      assert (Ib : irowb i = true -> forall b f, rowType c i = Some (b, f) -> integral (if b then rhi c i else rlo c i)).
      { intros H b f E. destruct (slack_integer i H) as (b' & rhs & E' & S & Er). rewrite E in E'. injection E' as <- _.
        unfold integer_slack in S. qb. subst rhs. rewrite E in R.
        apply clean_int; [|lra]. destruct (ex_rows _ _ EX i a Hi H) as (_ & C1 & C2).
        unfold rhi, rlo. destruct b; destruct R as (u & E1 & _); rewrite E1; cbn [hi_of lo_of]; auto. }
      destruct (rowType c i) as [[[|] f]|] eqn:E.
      - destruct R as (u & E1 & Eu). split.
        + unfold rhi. rewrite E1 in *. cbn [hi_of]. simpl in Ru. lra.
        + intro H. apply integral_minus; [exact (Ib H true f eq_refl)|auto].
      - destruct R as (l & E1 & El). split.
        + unfold rlo. rewrite E1 in *. cbn [lo_of]. simpl in Rl. lra.
        + intro H. apply integral_minus; [auto|exact (Ib H false f eq_refl)].
      - split; [lra|intro; apply integral_0].
    Qed.

    Lemma term_col j : (j < n)%nat -> g_cbasic c j = false -> elem c rho j * (y j - x j) == scol rho j * gcol y j.
    Proof.
      intros L NB. unfold scol, gcol. destruct Feas as (_ & Bd & _). destruct (Bd j L) as (Bl & Bu).
      destruct (vx_xb _ _ VX j L) as (Xl & Xu). unfold hi, lo.
      destruct (vx_col _ _ VX j L NB) as [C|C]; [destruct (swap c j); rewrite C; ring|].
      destruct (skipped j).
      - destruct C as (l & u & El & Eu & E). rewrite El in *. rewrite Eu in *. simpl in *.
        assert (Q0 : y j == x j) by lra. rewrite Q0. destruct (swap c j); ring.
      - destruct (swap c j).
        + destruct C as (u & E & Eu). rewrite E. cbn [hi_of]. rewrite Eu. ring.
        + destruct C as (l & E & El). rewrite E. cbn [lo_of]. rewrite El. ring.
    Qed.
    Lemma term_row i a : In (i, a) rho -> - (a * (value (rw i) y - act c i)) == srow i a * grw y i.
    Proof.
      intro Hi. unfold srow, grw. pose proof (vx_x _ _ VX i a Hi) as Xr. unfold act.
      pose proof (grow_in i (vx_rows _ _ VX i a Hi)) as Ri. destruct Feas as (Rs & _). destruct (Rs _ Ri) as (Rl & Ru).
      destruct Xr as (Xl & Xu).
      destruct (vx_row _ _ VX i a Hi) as [R|R].
      - destruct (rowType c i) as [[[|] f]|]; rewrite R; ring.
      - destruct (rowType c i) as [[[|] f]|] eqn:E.
        + destruct R as (u & E1 & Eu). unfold rhi. rewrite E1. cbn [hi_of]. unfold act in Eu. rewrite Eu. ring.
        + destruct R as (l & E1 & El). unfold rlo. rewrite E1. cbn [lo_of]. unfold act in El. rewrite El. ring.
        + destruct R as (l & u & E1 & E2 & Elu). rewrite E1, E2 in *. simpl in *.
          assert (Q0 : value (rw i) y == value (rw i) x) by lra. rewrite Q0. ring.
    Qed.

    Lemma elem_sum r j : elem c r j == sumq (map (fun e => coef (rw (fst e)) j * snd e) r).
    Proof.
      unfold elem. assert (G : forall l s, fold_left (fun s e => s + coef (rw (fst e)) j * snd e) l s
        == s + sumq (map (fun e : nat * Q => coef (rw (fst e)) j * snd e) l)).
      { induction l as [|e l IH]; intro s; cbn [fold_left map sumq fold_right]; [ring|].
        change (fold_right Qplus 0 ?l) with (sumq l). rewrite IH. ring. }
      rewrite G. ring.
    Qed.
    Lemma dval_elem r : (forall i a, In (i, a) r -> (i < length (m_rows m))%nat) -> forall w : point,
      dval n (elem c r) w == sumq (map (fun e => snd e * value (rw (fst e)) w) r).
    Proof.
      induction r as [|[i a] r IH]; intros L w.
      - unfold dval. cbn [map sumq fold_right]. transitivity (sumq (map (fun _ : nat => 0 * 0) (seq 0 n))).
        + apply sumq_ext. intros. rewrite elem_sum. cbn. ring.
        + rewrite (sumq_scale 0 (fun _ => 0)). ring.
      - cbn [map sumq fold_right fst snd]. change (fold_right Qplus 0 ?l) with (sumq l).
        rewrite <- IH by (intros; eapply L; simpl; eauto).
        destruct (vx_wf _ _ VX (grow c i)) as (ND & Lt); [apply grow_in; eapply L; simpl; eauto|].
        rewrite <- (dval_coef n _ w ND Lt). unfold dval. rewrite <- sumq_scale, <- sumq_plus.
        apply sumq_ext. intros j _. rewrite !elem_sum. cbn [map sumq fold_right fst snd].
        change (fold_right Qplus 0 ?l) with (sumq l). ring.
    Qed.

    (** The items of the tableau row with a nonzero entry. *)
    Definition nzb (q : Q) : bool := negb (Qeq_bool q 0).
    Definition pick (j : nat) : bool := negb (g_cbasic c j) && nzb (elem c rho j).
    Definition items : list (nat + nat * Q) :=
      map inl (filter pick (seq 0 n)) ++ map inr (filter (fun e => nzb (snd e)) rho).
    Definition iint (a : nat + nat * Q) : bool := match a with inl j => m_int m j | inr (i, _) => irowb i end.
    Definition ielem (a : nat + nat * Q) : Q := match a with inl j => scol rho j | inr (i, b) => srow i b end.
    Definition iz (a : nat + nat * Q) : Q := match a with inl j => gcol y j | inr (i, _) => grw y i end.
    Lemma nzb_ok q : nzb q = true -> ~ q == 0.
    Proof. unfold nzb. intro H. qb. exact H. Qed.
    Lemma nzb_no q : nzb q = false -> q == 0.
    Proof. unfold nzb. intro H. qb. exact H. Qed.
    Lemma srow_0 i a : a == 0 -> srow i a == 0.
    Proof. unfold srow. destruct (rowType c i) as [[[|] ?]|]; lra. Qed.

    Lemma tableau : y k + sumq (map (fun a => ielem a * iz a) items) == x k.
    Proof.
      unfold items. rewrite map_app, sumq_app, !map_map.
      assert (R : sumq (map (fun e => ielem (inr e) * iz (inr e)) (filter (fun e => nzb (snd e)) rho)) ==
                  - (dval n (elem c rho) y - dval n (elem c rho) x)).
      { rewrite !(dval_elem rho) by (intros; eapply (vx_rows _ _ VX); eauto).
        assert (X : forall u v, - (u - v) == - u + v) by (intros; ring). rewrite X, <- sumq_opp, <- sumq_plus.
        rewrite (sumq_sel (fun e => ielem (inr e) * iz (inr e))).
        apply sumq_ext. intros [i a] Hi. cbn [fst snd]. destruct (nzb a) eqn:Z.
        - unfold ielem, iz. rewrite <- term_row by exact Hi. unfold act. ring.
        - apply nzb_no in Z. rewrite Z. ring. }
      rewrite R. unfold dval.
      assert (X : forall u v, - (u - v) == - (u + - v)) by (intros; ring). rewrite X, <- sumq_opp, <- sumq_plus.
      rewrite (sumq_sel (fun j => ielem (inl j) * iz (inl j))).
      assert (K : y k - x k == sumq (map (fun i => if Nat.eqb i k then y i - x i else 0) (seq 0 n)))
        by (rewrite (sum_delta (fun i => y i - x i)); [reflexivity|apply (vx_k _ _ VX)]).
      enough (T : y k - x k + sumq (map (fun a => if pick a then ielem (inl a) * iz (inl a) else 0) (seq 0 n))
                 == sumq (map (fun a => elem c rho a * y a + - (elem c rho a * x a)) (seq 0 n))) by lra.
      rewrite K, <- sumq_plus. apply sumq_ext. intros j Hj. apply in_seq in Hj. unfold ielem, iz, pick.
      assert (L : (j < n)%nat) by lia.
      pose proof (vx_basic _ _ VX j L) as B. pose proof (term_col j L) as T.
      destruct (g_cbasic c j) eqn:Es; cbn [negb andb].
      - rewrite B by reflexivity. destruct (Nat.eqb j k); ring.
      - destruct (Nat.eqb_spec j k) as [->|NE]; [rewrite (vx_kbasic _ _ VX) in Es; discriminate|].
        destruct (nzb (elem c rho j)) eqn:Z; [rewrite <- T by reflexivity; ring|].
        apply nzb_no in Z. rewrite Z. ring.
    Qed.
    Lemma item_ok a : In a items -> 0 <= iz a /\ (iint a = true -> integral (iz a)).
    Proof.
      unfold items. intro H. apply in_app_or in H. destruct H as [H|H]; apply in_map_iff in H; destruct H as (e & <- & H);
        apply filter_In in H; destruct H as (H & P).
      - apply in_seq in H. unfold pick in P. qb. apply z_col_ok; [lia|auto|apply nzb_ok; auto].
      - destruct e as [i b]. apply (z_row_ok i b H). apply nzb_ok. exact P.
    Qed.

    (** ** What the loops compute *)
    Definition state_ok (s : gstate) : Prop :=
      NoDup (s_idx s) /\ (forall j, In j (s_idx s) -> (j < n)%nat) /\ (forall j, ~ In j (s_idx s) -> s_el s j == 0).
    Definition tcol (j : nat) : Q :=
      if pick j then cutCoefficient f0 (m_int m j) (scol rho j) * gcol y j else 0.
    Lemma small_nz a : (Qabs a < ten (-16) -> a == 0) -> Qabs a <? ten (-16) = negb (nzb a).
    Proof.
      intro H. unfold nzb. rewrite negb_involutive. destruct (Qabs a <? ten (-16)) eqn:E; qb.
      - symmetry. apply Qeqb_eq. auto.
      - symmetry. apply Qeqb_neq. intro Z. assert (Qabs a == 0) by (rewrite Z; reflexivity). pose proof (ten_pos (-16)). lra.
    Qed.
    Lemma col_step_gap s j : (j < n)%nat -> state_ok s -> ~ In j (s_idx s) ->
      sgap n (col_step c f0 rho s j) y == sgap n s y - tcol j /\ state_ok (col_step c f0 rho s j) /\
      (forall i, In i (s_idx (col_step c f0 rho s j)) -> In i (s_idx s) \/ i = j).
    Proof.
      intros L (S1 & S2 & S3) NI. unfold col_step, tcol, pick, state_ok. cbv zeta.
      assert (same : forall v, v == 0 -> sgap n s y == sgap n s y - v /\ (NoDup (s_idx s) /\ (forall j, In j (s_idx s) -> (j < n)%nat) /\ (forall j, ~ In j (s_idx s) -> s_el s j == 0)) /\
                     (forall i, In i (s_idx s) -> In i (s_idx s) \/ i = j))
        by (intros v V; conjs; [rewrite V; ring|exact S1|exact S2|exact S3|auto]).
      destruct (g_cbasic c j) eqn:Eb; cbn [orb negb andb]; [apply same; reflexivity|].
      fold (skipped j). destruct (skipped j) eqn:Sk.
      - apply same. unfold gcol. rewrite Sk. destruct (nzb _); ring.
      - rewrite (small_nz _ (ex_elem _ _ EX j L)). destruct (nzb (elem c rho j)) eqn:Nz; cbn [negb]; [|apply same; reflexivity].
        pose proof (nzb_ok _ Nz) as Nz'. destruct (vx_col _ _ VX j L Eb) as [C|C]; [contradiction|]. rewrite Sk in C.
        assert (Co : coefficient f0 (m_int m j) (scol rho j) == - cutCoefficient f0 (m_int m j) (scol rho j)).
        { apply coefficient_gmi. intro H. apply (ex_frac _ _ EX j L Eb H). }
        fold (scol rho j).
        set (q := if swap c j then - coefficient f0 (m_int m j) (scol rho j) else coefficient f0 (m_int m j) (scol rho j)) in *.
        assert (G : q * y j - (if swap c j then hi c j else lo c j) * q == - (cutCoefficient f0 (m_int m j) (scol rho j) * gcol y j)).
        { unfold gcol, q. rewrite Sk. destruct (swap c j); rewrite Co; ring. }
        destruct (Qeq_bool q 0) eqn:Q0.
        + qb. unfold sgap. cbn [s_el s_rhs s_idx]. conjs; [|exact S1|exact S2|exact S3|auto]. rewrite Q0 in *. lra.
        + unfold sgap. cbn [s_el s_rhs s_idx]. rewrite dval_upd by (auto). conjs.
          * lra.
          * cbn [s_idx]. apply Proofs_Clique.nodup_app; [exact S1|constructor; [intros []|constructor]|]. intros i Hi [<-|[]]. contradiction.
          * cbn [s_idx]. intros i Hi. apply in_app_or in Hi. destruct Hi as [Hi|[<-|[]]]; auto.
          * cbn [s_idx s_el]. intros i Hi. unfold upd. destruct (Nat.eqb_spec i j) as [->|].
            -- exfalso. apply Hi. apply in_or_app. right. left. reflexivity.
            -- apply S3. intro. apply Hi. apply in_or_app. auto.
          * intros i Hi. apply in_app_or in Hi. destruct Hi as [Hi|[<-|[]]]; auto.
    Qed.
    Lemma cols_gap l s : NoDup l -> (forall j, In j l -> (j < n)%nat /\ ~ In j (s_idx s)) -> state_ok s ->
      sgap n (fold_left (col_step c f0 rho) l s) y == sgap n s y - sumq (map tcol l) /\
      state_ok (fold_left (col_step c f0 rho) l s).
    Proof.
      revert s. induction l as [|j l IH]; intros s ND H S; cbn [fold_left map sumq fold_right]; [split; [ring|exact S]|].
      change (fold_right Qplus 0 ?l) with (sumq l). inversion ND as [|? ? N1 N2]; subst.
      destruct (H j) as (L & Z); [simpl; auto|]. destruct (col_step_gap s j L S Z) as (G & S' & Ix).
      destruct (IH (col_step c f0 rho s j)) as (G1 & G2); [exact N2| |exact S'|].
      - intros i Hi. destruct (H i) as (Li & Ni); [simpl; auto|]. split; [exact Li|].
        intro Q0. apply Ix in Q0. destruct Q0 as [Q0|Q0]; [contradiction|subst; contradiction].
      - split; [rewrite G1, G; ring|exact G2].
    Qed.

    Lemma dval_add cut j d (w : point) : (j < n)%nat -> dval n (upd cut j (cut j + d)) w == dval n cut w + d * w j.
    Proof.
      intro L. unfold dval. rewrite <- (sum_delta (fun i => d * w i) n j L), <- sumq_plus.
      apply sumq_ext. intros i _. unfold upd. destruct (Nat.eqb_spec i j) as [->|]; ring.
    Qed.
    Lemma quick_add_gap q s j a : (j < n)%nat -> state_ok s ->
      sgap n (quick_add q s (j, a)) y == sgap n s y - q * a * y j /\ state_ok (quick_add q s (j, a)).
    Proof.
      intros L (S1 & S2 & S3). unfold quick_add, state_ok. cbv zeta. destruct (existsb (Nat.eqb j) (s_idx s)) eqn:E.
      - apply existsb_exists in E. destruct E as (j' & Hj & E). apply Nat.eqb_eq in E. subst j'.
        unfold sgap. cbn [s_el s_rhs]. rewrite dval_add by exact L. conjs; cbn [s_idx s_el]; auto; [ring|].
        intros i Hi. unfold upd. destruct (Nat.eqb_spec i j) as [->|]; [contradiction|auto].
      - assert (NI : ~ In j (s_idx s)).
        { intro Hj. assert (T : existsb (Nat.eqb j) (s_idx s) = true) by (apply existsb_exists; exists j; split; [exact Hj|apply Nat.eqb_refl]). congruence. }
        destruct (Qeq_bool (- (q * a)) 0) eqn:Z; unfold sgap; cbn [s_el s_rhs].
        + qb. conjs; cbn [s_idx s_el]; auto. assert (Z' : q * a == 0) by lra. rewrite Z'. ring.
        + rewrite dval_upd by auto. conjs; cbn [s_idx s_el].
          * ring.
          * apply Proofs_Clique.nodup_app; [exact S1|constructor; [intros []|constructor]|]. intros i Hi [<-|[]]. contradiction.
          * intros i Hi. apply in_app_or in Hi. destruct Hi as [Hi|[<-|[]]]; auto.
          * intros i Hi. unfold upd. destruct (Nat.eqb_spec i j) as [->|].
            -- exfalso. apply Hi. apply in_or_app. right. left. reflexivity.
            -- apply S3. intro. apply Hi. apply in_or_app. auto.
    Qed.
    Lemma quick_adds_gap q v s : (forall j a, In (j, a) v -> (j < n)%nat) -> state_ok s ->
      sgap n (fold_left (quick_add q) v s) y == sgap n s y - q * value v y /\ state_ok (fold_left (quick_add q) v s).
    Proof.
      revert s. induction v as [|[j a] v IH]; intros s L S; cbn [fold_left value]; [split; [ring|exact S]|].
      destruct (quick_add_gap q s j a) as (G & S'); [eapply L; left; reflexivity|exact S|].
      destruct (IH (quick_add q s (j, a))) as (G1 & G2); [intros; eapply L; right; eauto|exact S'|].
      split; [rewrite G1, G; ring|exact G2].
    Qed.
    Definition trow (e : nat * Q) : Q :=
      if nzb (snd e) then cutCoefficient f0 (irowb (fst e)) (srow (fst e) (snd e)) * grw y (fst e) else 0.
    Lemma slack_step_gap s i a : In (i, a) rho -> state_ok s ->
      sgap n (slack_step c f0 s (i, a)) y == sgap n s y - trow (i, a) /\ state_ok (slack_step c f0 s (i, a)).
    Proof.
      intros Hi S. unfold slack_step, trow. cbv zeta. cbn [fst snd].
      pose proof (ex_slack _ _ EX i a Hi) as Cl. pose proof (vx_rows _ _ VX i a Hi) as L.
      destruct (vx_wf _ _ VX (grow c i) (grow_in i L)) as (_ & Lt).
      unfold irowb, srow, grw in *. destruct (rowType c i) as [[up f]|] eqn:E.
      - rewrite (small_nz a (ex_rho _ _ EX i a Hi)). destruct (nzb a) eqn:Nz; cbn [negb]; [|split; [ring|exact S]].
        match goal with |- context [fold_left (quick_add ?q) ?v ?s0] =>
          destruct (quick_adds_gap q v s0 Lt) as (G1 & G2) end.
        + destruct S as (S1 & S2 & S3). unfold state_ok. conjs; cbn [s_idx s_el]; assumption.
        + split; [|exact G2]. rewrite G1. unfold sgap. cbn [s_el s_rhs].
          destruct up; rewrite coefficient_gmi by exact Cl; ring.
      - split; [destruct (nzb a); ring|exact S].
    Qed.
    Lemma slacks_gap l s : incl l rho -> state_ok s ->
      sgap n (fold_left (slack_step c f0) l s) y == sgap n s y - sumq (map trow l) /\ state_ok (fold_left (slack_step c f0) l s).
    Proof.
      revert s. induction l as [|[i a] l IH]; intros s H S; cbn [fold_left map sumq fold_right]; [split; [ring|exact S]|].
      change (fold_right Qplus 0 ?l) with (sumq l).
      destruct (slack_step_gap s i a) as (G & S'); [apply H; simpl; auto|exact S|].
      destruct (IH (slack_step c f0 s (i, a))) as (G1 & G2); [intros e He; apply H; simpl; auto|exact S'|].
      split; [rewrite G1, G; ring|exact G2].
    Qed.

    Lemma raw_gap : sgap n (raw c f0 rho) y ==
      - f0 - sumq (map (fun a => cutCoefficient f0 (iint a) (ielem a) * iz a) items) /\ state_ok (raw c f0 rho).
    Proof.
      unfold raw, col_part.
      assert (S0 : state_ok (GState (fun _ => 0) [] f0 0%nat)).
      { unfold state_ok. conjs; cbn [s_idx s_el]; [constructor|intros j []|reflexivity]. }
      destruct (cols_gap (seq 0 n) (GState (fun _ => 0) [] f0 0%nat)) as (G1 & S1); [apply seq_NoDup| |exact S0|].
      { intros j Hj. apply in_seq in Hj. split; [lia|intros []]. }
      destruct (slacks_gap rho _ (incl_refl _) S1) as (G2 & S2). split; [|exact S2]. rewrite G2, G1.
      unfold items. rewrite map_app, sumq_app, !map_map.
      rewrite (sumq_sel (fun j => cutCoefficient f0 (iint (inl j)) (ielem (inl j)) * iz (inl j))).
      rewrite (sumq_sel (fun e => cutCoefficient f0 (iint (inr e)) (ielem (inr e)) * iz (inr e))).
      assert (E2 : sumq (map trow rho) == sumq (map (fun e : nat * Q => if nzb (snd e) then
         cutCoefficient f0 (iint (inr e)) (ielem (inr e)) * iz (inr e) else 0) rho)).
      { apply sumq_ext. intros [i a] _. reflexivity. }
      rewrite E2. unfold tcol. unfold sgap at 1. cbn [s_el s_rhs iint ielem iz].
      assert (D : dval n (fun _ => 0) y == 0) by (unfold dval; rewrite (sumq_scale 0 y); ring).
      rewrite D. ring.
    Qed.
    Lemma cutCoefficient_eq f f' b a : f == f' -> cutCoefficient f b a == cutCoefficient f' b a.
    Proof.
      intro E. unfold cutCoefficient. destruct b.
      - destruct (f <? frac a) eqn:E1, (f' <? frac a) eqn:E2; qb; try lra. rewrite E. reflexivity.
      - destruct (a <? 0); [rewrite E|]; reflexivity.
    Qed.
    Lemma raw_valid : m_int m k = true -> 0 <= sgap n (raw c f0 rho) y.
    Proof.
      intro Ik. destruct Feas as (_ & _ & Ig). pose proof (Ig k (vx_k _ _ VX) Ik) as Yk. rewrite (proj1 raw_gap).
      pose proof (gmi_sum iint ielem iz items (x k) (y k) item_ok Yk tableau) as G.
      assert (E : sumq (map (fun a => cutCoefficient f0 (iint a) (ielem a) * iz a) items) ==
                  sumq (map (fun a => cutCoefficient (frac (x k)) (iint a) (ielem a) * iz a) items)).
      { apply sumq_ext. intros a _. rewrite (cutCoefficient_eq f0 (frac (x k)) _ _ f0_frac). reflexivity. }
      rewrite E, f0_frac. lra.
    Qed.
  End Point.
End Raw.

(** ** Greatest common divisors *)
Lemma euclid_gcd' fuel : forall a b, (0 <= a)%Z -> (0 <= b)%Z -> (Z.abs_nat a < fuel)%nat -> euclid fuel a b = Z.gcd a b.
Proof.
  induction fuel as [|f IH]; intros a b A B L; [lia|]. cbn [euclid]. destruct (Z.eqb_spec a 0) as [->|N].
  - rewrite Z.gcd_0_l. lia.
  - pose proof (Z.rem_bound_pos b a B ltac:(lia)) as R. rewrite IH by lia. apply Z.gcd_rem. exact N.
Qed.
Lemma computeGcd_pos a b : (0 <= a)%Z -> (0 <= b)%Z -> (0 < a + b)%Z -> computeGcd a b = Done (Z.gcd a b).
Proof.
  intros A B P. unfold computeGcd. cbv zeta. destruct (Z.eqb_spec (Z.min a b) 0) as [E|E].
  - destruct (Z.eqb_spec (Z.max a b) 0) as [F|F]; [lia|]. f_equal.
    destruct (Z.le_ge_cases a b); [rewrite Z.min_l in E by lia; rewrite Z.max_r by lia|rewrite Z.min_r in E by lia; rewrite Z.max_l by lia];
      subst; rewrite ?Z.gcd_0_l, ?Z.gcd_0_r; lia.
  - rewrite euclid_gcd' by lia. f_equal.
    destruct (Z.le_ge_cases a b); [rewrite Z.min_l, Z.max_r by lia; reflexivity|].
    rewrite Z.min_r, Z.max_l by lia. apply Z.gcd_comm.
Qed.
Lemma gcd_fold rest : forall g, (0 < g)%Z -> Forall (fun z => (0 <= z)%Z) rest ->
  exists h, ofold (fun g z => if (z =? 0)%Z then Done g else computeGcd g z) rest g = Done h /\
    (0 < h)%Z /\ (h | g)%Z /\ Forall (fun z => (h | z)%Z) rest.
Proof.
  induction rest as [|z rest IH]; intros g G F; cbn [ofold].
  - exists g. conjs; [reflexivity|exact G|apply Z.divide_refl|constructor].
  - inversion F as [|? ? F1 F2]; subst. destruct (Z.eqb_spec z 0) as [->|N].
    + cbn [bind]. destruct (IH g G F2) as (h & E & H1 & H2 & H3). exists h. conjs; auto. constructor; [apply Z.divide_0_r|exact H3].
    + rewrite computeGcd_pos by lia. cbn [bind].
      assert (P : (0 < Z.gcd g z)%Z).
      { pose proof (Z.gcd_nonneg g z). destruct (Z.eq_dec (Z.gcd g z) 0) as [Q0|]; [|lia]. apply Z.gcd_eq_0_l in Q0. lia. }
      destruct (IH _ P F2) as (h & E & H1 & H2 & H3). exists h. conjs; auto.
      * eapply Z.divide_trans; [exact H2|apply Z.gcd_divide_l].
      * constructor; [eapply Z.divide_trans; [exact H2|apply Z.gcd_divide_r]|exact H3].
Qed.
Lemma from_nonzero_spec xs : Forall (fun z => (0 <= z)%Z) xs ->
  match from_nonzero xs with
  | None => Forall (fun z => z = 0%Z) xs
  | Some (z, rest) => (0 < z)%Z /\ exists pre, xs = pre ++ z :: rest /\ Forall (fun z => z = 0%Z) pre
  end.
Proof.
  induction 1 as [|z xs Hz F IH]; cbn [from_nonzero]; [constructor|]. destruct (Z.eqb_spec z 0) as [->|N].
  - destruct (from_nonzero xs) as [[z' rest]|].
    + destruct IH as (P & pre & E & Z0). split; [exact P|]. exists (0%Z :: pre). split; [rewrite E; reflexivity|constructor; auto].
    + constructor; auto.
  - split; [lia|]. exists []. split; [reflexivity|constructor].
Qed.
(** the divisor found, unless only the last number is nonzero *)
Lemma gcd_all_spec stale xs : Forall (fun z => (0 <= z)%Z) xs ->
  match from_nonzero xs with
  | None => gcd_all stale xs = Undef OutOfBounds
  | Some (z, []) => True
  | Some (z, _) => exists g, gcd_all stale xs = Done g /\ (0 < g)%Z /\ Forall (fun z => (g | z)%Z) xs
  end.
Proof.
  intro F. pose proof (from_nonzero_spec xs F) as S. unfold gcd_all.
  destruct (from_nonzero xs) as [[z rest]|]; [|reflexivity]. destruct S as (P & pre & E & Z0).
  destruct rest as [|z' rest]; [exact Logic.I|].
  assert (F' : Forall (fun z => (0 <= z)%Z) (z' :: rest)).
  { rewrite E in F. apply Forall_app in F. destruct F as (_ & F). inversion F; assumption. }
  assert (Z' : (0 <= z')%Z) by (inversion F'; assumption).
  rewrite computeGcd_pos by lia. cbn [bind].
  assert (G : (0 < Z.gcd z z')%Z).
  { pose proof (Z.gcd_nonneg z z'). destruct (Z.eq_dec (Z.gcd z z') 0) as [Q0|]; [|lia]. apply Z.gcd_eq_0_l in Q0. lia. }
  destruct (gcd_fold (z' :: rest) _ G F') as (h & E1 & H1 & H2 & H3). exists h. conjs; [exact E1|exact H1|].
  rewrite E. apply Forall_app. split.
  - eapply Forall_impl; [|exact Z0]. intros ? ->. apply Z.divide_0_r.
  - constructor; [|exact H3]. eapply Z.divide_trans; [exact H2|apply Z.gcd_divide_l].
Qed.

(** ** Rounding to integers *)
Definition close_int (l : Z) (a : Q) (xi : Z) : Prop := (0 <= xi)%Z /\ Qabs (Qabs a * inject_Z l - inject_Z xi) <= ten (-8).
Lemma to_ints_spec l as_ : (0 <= l)%Z -> forall xs, to_ints l as_ = Some xs -> Forall2 (close_int l) as_ xs.
Proof.
  intro L. induction as_ as [|a as_ IH]; intros xs E; cbn [to_ints] in E; cbv zeta in E.
  - apply Some_inj in E. subst. constructor.
  - destruct (ten 9 <? _); [discriminate|]. destruct (ten (-8) <? _) eqn:C; [discriminate|].
    destruct (to_ints l as_) as [xs'|]; [|discriminate]. apply Some_inj in E. subst. constructor; [|auto]. split.
    + assert (0 <= Qabs a * inject_Z l).
      { apply Qmult_le_0_compat; [apply Qabs_nonneg|]. change 0 with (inject_Z 0). rewrite <- Zle_Qle. exact L. }
      assert (X : inject_Z 0 <= Qabs a * inject_Z l + (1 # 2)) by (change (inject_Z 0) with 0; lra).
      apply int_le_floor in X. unfold qfloor in X. rewrite <- Zle_Qle in X. exact X.
    + qb. exact C.
Qed.
Definition signed (a : Q) (z : Z) : Z := if 0 <? a then z else (- z)%Z.
Lemma signed_close l a xi : close_int l a xi -> Qabs (inject_Z l * a - inject_Z (signed a xi)) <= ten (-8).
Proof.
  intros (_ & H). unfold signed. destruct (0 <? a) eqn:E; qb.
  - rewrite (Qabs_pos a) in H by lra. assert (X : inject_Z l * a - inject_Z xi == a * inject_Z l - inject_Z xi) by ring. rewrite X. exact H.
  - rewrite (Qabs_neg a) in H by lra. rewrite inject_Z_opp.
    assert (X : inject_Z l * a - - inject_Z xi == - (- a * inject_Z l - inject_Z xi)) by ring. rewrite X, Qabs_opp. exact H.
Qed.
Lemma new_coef_signed g a xi : (0 < g)%Z -> (g | xi)%Z -> inject_Z g * new_coef g a xi == inject_Z (signed a xi).
Proof.
  intros G D. unfold new_coef, signed. assert (E : (g * Z.quot xi g)%Z = xi).
  { destruct D as (q & ->). rewrite Z.quot_mul by lia. lia. }
  destruct (0 <? a); [|rewrite inject_Z_opp]; rewrite <- E at 2; rewrite inject_Z_mult; ring.
Qed.
(** the mass of a point on the columns of a cut *)
Definition onmass (v : vec) (y : point) : Q := fold_right (fun e s => Qabs (y (fst e)) + s) 0 v.
Definition renew (v : vec) (news : list Q) : vec := map (fun en => (fst (fst en), snd en)) (combine v news).
Lemma renew_value g l v : forall xs y, (0 < g)%Z -> Forall2 (close_int l) (map snd v) xs -> Forall (fun z => (g | z)%Z) xs ->
  let w := renew v (map (fun ax => new_coef g (fst ax) (snd ax)) (combine (map snd v) xs)) in
  exists t, inject_Z g * value w y == t /\ Qabs (t - inject_Z l * value v y) <= ten (-8) * onmass v y /\
   ((forall j a, In (j, a) v -> integral (y j)) -> integral t).
Proof.
  induction v as [|[j a] v IH]; intros xs y G F D; cbn [map] in F; inversion F as [|? xi ? xs' C F']; subst.
  - unfold renew. cbn [map combine value onmass fold_right]. exists 0. conjs.
    + ring.
    + assert (X : 0 - inject_Z l * 0 == 0) by ring. rewrite X. change (Qabs 0) with 0. lra.
    + intros _. apply integral_0.
  - inversion D as [|? ? D1 D2]; subst. destruct (IH xs' y G F' D2) as (t & E1 & E2 & E3).
    exists (inject_Z (signed a xi) * y j + t). unfold renew in *. cbn [map combine fst snd value onmass fold_right]. conjs.
    + rewrite <- E1, <- (new_coef_signed g a xi G D1). ring.
    + change (fold_right (fun e s => Qabs (y (fst e)) + s) 0 v) with (onmass v y).
      pose proof (signed_close l a xi C) as S.
      assert (X : inject_Z (signed a xi) * y j + t - inject_Z l * (a * y j + value v y) ==
                  - ((inject_Z l * a - inject_Z (signed a xi)) * y j) + (t - inject_Z l * value v y)) by ring.
      rewrite X. eapply Qle_trans; [apply Qabs_triangle|]. rewrite Qabs_opp, Qabs_Qmult.
      assert (B : Qabs (inject_Z l * a - inject_Z (signed a xi)) * Qabs (y j) <= ten (-8) * Qabs (y j)).
      { apply Qmult_le_compat_r; [exact S|apply Qabs_nonneg]. }
      lra.
    + intro H. apply integral_plus; [apply integral_mult; [apply integral_inject|eapply H; left; reflexivity]|].
      apply E3. intros. eapply H; right; eauto.
Qed.
(** with exact products the equation is exact *)
Lemma renew_exact g l v : forall xs y, (0 < g)%Z -> Forall2 (close_int l) (map snd v) xs -> Forall (fun z => (g | z)%Z) xs ->
  (forall j a, In (j, a) v -> integral (Qabs a * inject_Z l) ) ->
  inject_Z g * value (renew v (map (fun ax => new_coef g (fst ax) (snd ax)) (combine (map snd v) xs))) y
  == inject_Z l * value v y.
Proof.
  induction v as [|[j a] v IH]; intros xs y G F D X; cbn [map] in F; inversion F as [|? xi ? xs' C F']; subst.
  - unfold renew. cbn [map combine value]. ring.
  - inversion D as [|? ? D1 D2]; subst. unfold renew in *. cbn [map combine fst snd value].
    rewrite Qmult_plus_distr_r, IH by (auto; intros; eapply X; right; eauto).
    rewrite Qmult_assoc, (new_coef_signed g a xi G D1).
    assert (E : inject_Z (signed a xi) == inject_Z l * a); [|rewrite E; ring].
    pose proof (signed_close l a xi C) as S. destruct (X j a (or_introl eq_refl)) as (z & Z0).
    assert (I : integral (inject_Z l * a)).
    { destruct (Qlt_le_dec a 0) as [N|N].
      - rewrite (Qabs_neg a) in Z0 by lra. exists (- z)%Z. rewrite inject_Z_opp, <- Z0. ring.
      - rewrite (Qabs_pos a) in Z0 by lra. exists z. rewrite <- Z0. ring. }
    destruct I as (w & W). rewrite W in *. clear -S.
    assert (T : ten (-8) < 1) by reflexivity.
    assert (Q0 : inject_Z w - inject_Z (signed a xi) == inject_Z (w - signed a xi)) by (unfold Z.sub; rewrite inject_Z_plus, inject_Z_opp; reflexivity).
    rewrite Q0 in S. apply Qabs_Qle_condition in S. destruct S as (S1 & S2).
    assert (G3 : (- 1 < w - signed a xi < 1)%Z).
    { split; rewrite Zlt_Qlt; [change (inject_Z (- 1)) with (- (1))|change (inject_Z 1) with 1]; lra. }
    assert (w = signed a xi) by lia. subst. reflexivity.
Qed.

(** ** Cleaning *)
Lemma sumq_sub (f : nat -> Q) n l : NoDup l -> (forall j, In j l -> (j < n)%nat) ->
  sumq (map f l) == sumq (map (fun j => if existsb (Nat.eqb j) l then f j else 0) (seq 0 n)).
Proof.
  intros ND L. induction l as [|a l IH]; cbn [map sumq fold_right].
  - cbn [existsb]. transitivity (sumq (map (fun j => 0 * f j) (seq 0 n))); [rewrite sumq_scale; ring|apply sumq_ext; intros; ring].
  - change (fold_right Qplus 0 ?l) with (sumq l). inversion ND as [|? ? N1 N2]; subst.
    rewrite IH by (auto; intros; apply L; right; assumption).
    rewrite <- (sum_delta f n a) by (apply L; left; reflexivity). rewrite <- sumq_plus. apply sumq_ext. intros j _.
    cbn [existsb]. destruct (Nat.eqb_spec j a) as [->|]; cbn [orb]; [|ring].
    destruct (existsb (Nat.eqb a) l) eqn:E; [|ring]. exfalso. apply existsb_exists in E. destruct E as (b & Hb & Eb).
    apply Nat.eqb_eq in Eb. subst. contradiction.
Qed.
Lemma sub_sum (f : nat -> Q) n l : NoDup l -> (forall j, In j l -> (j < n)%nat) -> (forall j, (j < n)%nat -> 0 <= f j) ->
  sumq (map f l) <= sumq (map f (seq 0 n)).
Proof.
  intros ND L P. rewrite (sumq_sub f n l ND L). apply sumq_le. intros j Hj. apply in_seq in Hj. pose proof (P j ltac:(lia)).
  destruct (existsb _ _); lra.
Qed.
Lemma onmass_sum v y : onmass v y == sumq (map (fun j => Qabs (y j)) (map fst v)).
Proof. induction v as [|[j a] v IH]; cbn; [reflexivity|]. unfold onmass in IH. rewrite IH. reflexivity. Qed.

Section Clean.
  Variable sqrt : Q -> Q.
  Variable stale : Z.
  Variable c : gcall.
  Notation m := (g_mip c).
  Notation n := (m_ncols m).
  Notation x := (g_x c).

  Definition below (j : nat) : Prop := (j < n)%nat.
  Definition cols (v : vec) : Prop := forall j a, In (j, a) v -> (j < n)%nat.
  (** a coefficient that packing may remove: zero, or with a finite bound to
      replace its column *)
  Definition packable (j : nat) (a : Q) : Prop :=
    ten (-13) < Qabs a \/ a == 0 \/ ((0 < a -> - ten 20 < lo c j) /\ (a < 0 -> hi c j < ten 20)).
  (** finite bounds are not close to the largest double *)
  Definition sane_bounds : Prop := forall j, (j < n)%nat ->
    (forall l, m_clo m j = Some l -> Qabs l <= ten 300) /\ (forall u, m_chi m j = Some u -> Qabs u <= ten 300).
  Hypothesis SB : sane_bounds.
  Hypothesis IB : integer_bounds c.
  Hypothesis SQ : forall q, 0 < q -> 0 < sqrt q.

  Lemma big : ten 20 + ten 300 + ten 300 < coin_max.
  Proof. reflexivity. Qed.
  Lemma lo_finite j : - ten 20 < lo c j -> exists l, m_clo m j = Some l /\ lo c j = l.
  Proof.
    unfold lo. destruct (m_clo m j) as [l|]; cbn [lo_of]; [eauto|]. intro H. exfalso.
    pose proof big. pose proof (ten_pos 300). lra.
  Qed.
  Lemma hi_finite j : hi c j < ten 20 -> exists u, m_chi m j = Some u /\ hi c j = u.
  Proof.
    unfold hi. destruct (m_chi m j) as [l|]; cbn [hi_of]; [eauto|]. intro H. exfalso.
    pose proof big. pose proof (ten_pos 300). lra.
  Qed.
  Lemma sane j : (j < n)%nat ->
    (m_clo m j <> None -> - ten 300 <= lo c j <= ten 300) /\ (m_chi m j <> None -> - ten 300 <= hi c j <= ten 300).
  Proof.
    intro L. destruct (SB j L) as (S1 & S2). unfold lo, hi. split; intro N.
    - destruct (m_clo m j) as [l|] eqn:E; [|congruence]. cbn [lo_of]. apply Qabs_Qle_condition. auto.
    - destruct (m_chi m j) as [l|] eqn:E; [|congruence]. cbn [hi_of]. apply Qabs_Qle_condition. auto.
  Qed.
  Lemma narrow j : (j < n)%nat -> hi c j - lo c j < ten 20 -> m_clo m j <> None /\ m_chi m j <> None.
  Proof.
    intros L H. destruct (sane j L) as (S1 & S2). pose proof big as B. pose proof (ten_pos 300) as T. pose proof (ten_pos 20) as T2.
    unfold lo, hi in *. destruct (m_clo m j) as [l|], (m_chi m j) as [u|]; cbn [lo_of hi_of] in *;
      split; try congruence; intros _; try (specialize (S1 ltac:(congruence))); try (specialize (S2 ltac:(congruence))); lra.
  Qed.

  Section Point.
    Variable y : point.
    Hypothesis YB : in_bounds m y.
    Hypothesis YI : integer_ok m y.
    Lemma lo_le j : (j < n)%nat -> m_clo m j <> None -> lo c j <= y j.
    Proof. intros L N. destruct (YB j L) as (A & _). unfold lo. destruct (m_clo m j); [exact A|congruence]. Qed.
    Lemma hi_ge j : (j < n)%nat -> m_chi m j <> None -> y j <= hi c j.
    Proof. intros L N. destruct (YB j L) as (_ & A). unfold hi. destruct (m_chi m j); [exact A|congruence]. Qed.
    Lemma lo_hi j : (j < n)%nat -> lo c j <= hi c j.
    Proof.
      intro L. pose proof (lo_le j L) as A. pose proof (hi_ge j L) as B. destruct (sane j L) as (S1 & S2).
      pose proof big as Bg. pose proof (ten_pos 300) as T. pose proof (ten_pos 20) as T2.
      unfold lo, hi in *. destruct (m_clo m j) as [l|], (m_chi m j) as [u|]; cbn [lo_of hi_of] in *;
      try (specialize (A ltac:(congruence))); try (specialize (B ltac:(congruence)));
      try (specialize (S1 ltac:(congruence))); try (specialize (S2 ltac:(congruence))); lra.
    Qed.

    Lemma pack_fold l : forall v0 r0 w0 v r w, fold_left (pack_step c) l (v0, r0, w0) = (v, r, w) ->
      cols l -> (forall j a, In (j, a) l -> packable j a) ->
      value v0 y + value l y <= r0 -> value v y <= r.
    Proof.
      induction l as [|[j a] l IH]; intros v0 r0 w0 v r w E C P V; cbn [fold_left] in E.
      - injection E as <- <- _. cbn [value] in V. lra.
      - assert (L : (j < n)%nat) by (eapply C; left; reflexivity).
        assert (C' : cols l) by (intros i b Hi; eapply C; right; eauto).
        assert (P' : forall i b, In (i, b) l -> packable i b) by (intros; apply P; right; assumption).
        pose proof (P j a (or_introl eq_refl)) as Pj. cbn [value] in V. unfold pack_step at 2 in E.
        destruct (ten (-8) <? Qabs a) eqn:E1.
        { apply (IH _ _ _ _ _ _ E C' P'). rewrite value_app. cbn [value]. lra. }
        destruct ((0 <? a) && (- ten 20 <? lo c j)) eqn:E2.
        { qb. destruct (lo_finite j ltac:(assumption)) as (l0 & El & _).
          apply (IH _ _ _ _ _ _ E C' P').
          assert (a * lo c j <= a * y j) by (apply Qmult_le_l; [assumption|apply lo_le; [exact L|congruence]]). lra. }
        destruct ((a <? 0) && (hi c j <? ten 20)) eqn:E3.
        { qb. destruct (hi_finite j ltac:(assumption)) as (l0 & El & _).
          apply (IH _ _ _ _ _ _ E C' P').
          assert (0 <= - a * (hi c j - y j)).
          { apply Qmult_le_0_compat; [lra|]. pose proof (hi_ge j L ltac:(congruence)). lra. }
          assert (- a * (hi c j - y j) == a * y j - a * hi c j) by ring. lra. }
        destruct (ten (-13) <? Qabs a) eqn:E4.
        { apply (IH _ _ _ _ _ _ E C' P'). rewrite value_app. cbn [value]. lra. }
        apply (IH _ _ _ _ _ _ E C' P'). qb.
        assert (Z : a == 0); [|rewrite Z in V; lra].
        destruct Pj as [Pj|[Pj|(P1 & P2)]]; [lra|exact Pj|].
        destruct (Qlt_le_dec 0 a) as [H|H]; [exfalso|destruct (Qlt_le_dec a 0) as [H2|H2]; [exfalso|lra]].
        + specialize (P1 H). apply andb_false_iff in E2. destruct E2; qb; lra.
        + specialize (P2 H2). apply andb_false_iff in E3. destruct E3; qb; lra.
    Qed.
    Lemma tiny_none l : fold_left (tiny_step c) l None = None.
    Proof. induction l; [reflexivity|exact IHl]. Qed.
    Definition kept (e : nat * Q) : Prop := ten (-12) <= Qabs (snd e) /\ (~ hi c (fst e) == lo c (fst e) \/ g_global c = true).
    Lemma tiny_fold l : forall v0 r0 n0 v r n', fold_left (tiny_step c) l (Some (v0, r0, n0)) = Some (v, r, n') ->
      cols l ->
      (value v0 y + value l y <= r0 -> value v y <= r) /\
      (forall e, In e v -> In e v0 \/ (In e l /\ kept e)) /\
      (NoDup (map fst v0 ++ map fst l) -> NoDup (map fst v)).
    Proof.
      induction l as [|[j a] l IH]; intros v0 r0 n0 v r n' E C; cbn [fold_left] in E.
      - apply Some_inj in E. injection E as <- <- _. cbn [value map]. conjs; [intro; lra|auto|rewrite app_nil_r; auto].
      - assert (L : (j < n)%nat) by (eapply C; left; reflexivity).
        assert (C' : cols l) by (intros i b Hi; eapply C; right; eauto). cbn [value map].
        unfold tiny_step at 2 in E. cbv zeta in E.
        destruct (Qabs a <? ten (-12)) eqn:E1.
        { destruct (hi c j - lo c j <? ten 20) eqn:E2; [|rewrite tiny_none in E; discriminate]. qb.
          destruct (narrow j L E2) as (Nl & Nu). pose proof (lo_le j L Nl). pose proof (hi_ge j L Nu).
          destruct (IH _ _ _ _ _ _ E C') as (G1 & G2 & G3). conjs.
          - intro V. apply G1. destruct (0 <? a) eqn:E3; qb.
            + rewrite Qabs_pos by lra. assert (a * lo c j <= a * y j) by (apply Qmult_le_l; assumption). lra.
            + rewrite Qabs_neg by lra.
              assert (0 <= - a * (hi c j - y j)) by (apply Qmult_le_0_compat; lra).
              assert (- a * (hi c j - y j) == a * y j - a * hi c j) by ring. lra.
          - intros e He. destruct (G2 e He) as [|(I1 & I2)]; [auto|right; split; [right; exact I1|exact I2]].
          - intro ND. apply G3. apply NoDup_remove_1 in ND. exact ND. }
        destruct (negb (Qeq_bool (hi c j) (lo c j)) || g_global c) eqn:E2.
        { destruct (IH _ _ _ _ _ _ E C') as (G1 & G2 & G3). conjs.
          - intro V. apply G1. rewrite value_app. cbn [value]. lra.
          - intros e He. destruct (G2 e He) as [I1|(I1 & I2)]; [|right; split; [right; exact I1|exact I2]].
            apply in_app_or in I1. destruct I1 as [I1|[<-|[]]]; [auto|right]. split; [left; reflexivity|].
            unfold kept. cbn [fst snd]. qb. split; [exact E1|]. apply orb_prop in E2. destruct E2 as [E2|E2]; [left; qb; exact E2|auto].
          - intro ND. apply G3. rewrite map_app. cbn [map fst]. rewrite <- app_assoc. exact ND. }
        qb. destruct (narrow j L) as (Nl & Nu).
        { match goal with H : hi c j == lo c j |- _ => rewrite H end. pose proof (ten_pos 20). lra. }
        pose proof (lo_le j L Nl). pose proof (hi_ge j L Nu).
        destruct (IH _ _ _ _ _ _ E C') as (G1 & G2 & G3). conjs.
        + intro V. apply G1. assert (Q0 : y j == lo c j) by lra. rewrite Q0 in V. lra.
        + intros e He. destruct (G2 e He) as [|(I1 & I2)]; [auto|right; split; [right; exact I1|exact I2]].
        + intro ND. apply G3. apply NoDup_remove_1 in ND. exact ND.
    Qed.
    Lemma tiny_zero l r0 n0 v r n' : (forall e, In e l -> snd e == 0) ->
      fold_left (tiny_step c) l (Some ([], r0, n0)) = Some (v, r, n') -> v = [].
    Proof.
      revert r0 n0. induction l as [|[j a] l IH]; intros r0 n0 Z E; cbn [fold_left] in E.
      - apply Some_inj in E. injection E as <- _ _. reflexivity.
      - unfold tiny_step at 2 in E. cbv zeta in E.
        assert (Za : Qabs a == 0) by (rewrite (Z (j, a) (or_introl eq_refl)); reflexivity).
        destruct (Qabs a <? ten (-12)) eqn:E1; [|qb; pose proof (ten_pos (-12)); lra].
        destruct (hi c j - lo c j <? ten 20); [|rewrite tiny_none in E; discriminate].
        apply (IH _ _ (fun e He => Z e (or_intror He)) E).
    Qed.

    (** ** The rational stage *)
    Definition gridded (D : Q) (v : vec) (rhs : Q) : Prop :=
      integral D /\ 0 < D /\ D < ten 8 /\ integral (D * rhs) /\ forall j a, In (j, a) v -> integral (D * a).
    (** what the rational stage needs: whole columns, or a common denominator *)
    Definition rational_ready (v : vec) (rhs : Q) : Prop :=
      nonInteger c v = 0%nat \/ (6 <= length v)%nat \/ exists D, gridded D v rhs.
    Lemma nonInteger_0 v : nonInteger c v = 0%nat -> forall j a, In (j, a) v -> m_int m j = true.
    Proof.
      unfold nonInteger. intros H j a Hj. destruct (m_int m j) eqn:E; [reflexivity|]. exfalso.
      assert (X : In (j, a) (filter (fun e => negb (m_int m (fst e))) v)) by (apply filter_In; cbn [fst]; rewrite E; auto).
      destruct (filter _ v); [destruct X|discriminate].
    Qed.
    Lemma combine_short {A B} (l : list A) (l1 l2 : list B) : length l = length l1 -> combine l (l1 ++ l2) = combine l l1.
    Proof. revert l1. induction l as [|a l IH]; intros [|b l1] E; simpl in *; try reflexivity; try discriminate. f_equal. apply IH. lia. Qed.
    Lemma combine_snoc {A B} (l : list A) (l1 : list B) a b : length l = length l1 -> combine (l ++ [a]) (l1 ++ [b]) = combine l l1 ++ [(a, b)].
    Proof. revert l1. induction l as [|x0 l IH]; intros [|y0 l1] E; simpl in *; try reflexivity; try discriminate. f_equal. apply IH. lia. Qed.
    Lemma renew_zero g v : forall xs, Forall (fun z => z = 0%Z) xs ->
      forall e, In e (renew v (map (fun ax => new_coef g (fst ax) (snd ax)) (combine (map snd v) xs))) -> snd e == 0.
    Proof.
      induction v as [|[j a] v IH]; intros xs Z e He; [destruct He|].
      destruct xs as [|z xs]; [destruct He|]. inversion Z as [|? ? Z1 Z2]; subst. unfold renew in *. cbn [map combine fst snd] in He.
      destruct He as [<-|He]; [|apply (IH xs Z2 e He)]. cbn [snd]. unfold new_coef. rewrite Zquot_0_l. destruct (0 <? a); reflexivity.
    Qed.
    Lemma renew_fst v l : length v = length l -> map fst (renew v l) = map fst v.
    Proof. unfold renew. revert l. induction v as [|e v IH]; intros [|b l] E; simpl in *; try reflexivity; try discriminate. f_equal. apply IH. lia. Qed.

    Lemma rationalize_ok v rhs k1 : rationalize stale c v rhs = Done k1 -> cols v ->
      rational_ready v rhs -> (nonInteger c v = 0%nat -> onmass v y + 1 < ten 8) ->
      value v y <= rhs ->
      (value (k_v k1) y <= k_rhs k1 \/ (forall e, In e (k_v k1) -> snd e == 0)) /\
      map fst (k_v k1) = map fst v /\ (k_clean k1 = false -> nonInteger c v = 0%nat).
    Proof.
      intros E C RR MS V. unfold rationalize in E. cbv zeta in E.
      assert (cl : forall (b : bool), b = Nat.ltb 0 (nonInteger c v) -> b = false -> nonInteger c v = 0%nat).
      { intros b -> H. apply Nat.ltb_ge in H. lia. }
      destruct ((Nat.eqb (nonInteger c v) 0 || Nat.ltb (length v) 6) && Nat.ltb 0 (length v)) eqn:St.
      2: { apply Done_inj in E. subst k1. cbn [k_v k_rhs k_clean]. conjs; eauto. }
      apply bind_done in E. destruct E as (r & _ & E). destruct r as [[l|] [|ns]];
        try (apply Done_inj in E; subst k1; cbn [k_v k_rhs k_clean]; conjs; eauto; fail).
      destruct (Z.ltb_spec 0 l) as [Lp|Lp]; [|apply Done_inj in E; subst k1; cbn [k_v k_rhs k_clean]; conjs; eauto].
      destruct (to_ints l (map snd v ++ [rhs])) as [xs|] eqn:T;
        [|apply Done_inj in E; subst k1; cbn [k_v k_rhs k_clean]; conjs; [auto|reflexivity|discriminate]].
      apply bind_done in E. destruct E as (g & Eg & E). destruct (ratios_ok _ _); [|discriminate].
      apply Done_inj in E. subst k1. cbn [k_v k_rhs k_clean].
      apply to_ints_spec in T; [|lia]. apply Forall2_app_inv_l in T. destruct T as (xv & xr & F1 & F2 & ->).
      inversion F2 as [|? xb ? ? CB F3]; subst. inversion F3; subst. clear F2 F3.
      pose proof (forall2_len _ _ _ F1) as Ln. rewrite map_length in Ln.
      rewrite combine_snoc by (rewrite map_length; exact Ln). rewrite map_app. cbn [map fst snd].
      rewrite last_last. rewrite combine_short by (rewrite map_length, combine_length, map_length; lia).
      change (map (fun en : nat * Q * Q => (fst (fst en), snd en)) (combine v ?l)) with (renew v l).
      assert (NN : Forall (fun z => (0 <= z)%Z) (xv ++ [xb])).
      { apply Forall_app. split.
        - clear -F1. revert F1. generalize (map snd v). intros l0 F. induction F as [|a z l1 l2 (H & _) F IH]; constructor; auto.
        - constructor; [apply CB|constructor]. }
      split; [|split; [apply renew_fst; rewrite map_length, combine_length, map_length; lia|discriminate]].
      pose proof (gcd_all_spec stale _ NN) as GS. pose proof (from_nonzero_spec _ NN) as FS.
      destruct (from_nonzero (xv ++ [xb])) as [[z rest]|]; [|rewrite GS in Eg; discriminate].
      destruct FS as (Zp & pre & Epre & Zpre). destruct rest as [|z' rest].
      { right. apply app_inj_tail in Epre. destruct Epre as (-> & _). apply renew_zero. exact Zpre. }
      left. destruct GS as (g' & Eg' & Gp & Gd). rewrite Eg in Eg'. apply Done_inj in Eg'. subst g'.
      apply Forall_app in Gd. destruct Gd as (Gv & Gb). assert (Gb' : (g | xb)%Z) by (inversion Gb; assumption).
      assert (Gq : 0 < inject_Z g) by (change 0 with (inject_Z 0); rewrite <- Zlt_Qlt; exact Gp).
      assert (Lq : 0 < inject_Z l) by (change 0 with (inject_Z 0); rewrite <- Zlt_Qlt; exact Lp).
      pose proof (new_coef_signed g rhs xb Gp Gb') as NB. pose proof (signed_close l rhs xb CB) as SC.
      set (w := renew v _). set (nb := new_coef g rhs xb) in *.
      enough (G : inject_Z g * value w y <= inject_Z g * nb) by (apply Qmult_le_l in G; assumption).
      assert (Vl : inject_Z l * value v y <= inject_Z l * rhs) by (apply Qmult_le_l; assumption).
      assert (RC : nonInteger c v = 0%nat \/ exists D, gridded D v rhs).
      { destruct RR as [RR|[RR|RR]]; auto. left. apply andb_prop in St. destruct St as (St & _). apply orb_prop in St.
        destruct St as [St|St]; [apply Nat.eqb_eq in St; exact St|]. apply Nat.ltb_lt in St. lia. }
      destruct RC as [N0|(D & D1 & D2 & D3 & D4 & D5)].
      - destruct (renew_value g l v xv y Gp F1 Gv) as (t & T1 & T2 & T3). fold w in T1.
        specialize (T3 (fun j a Hj => YI j (C j a Hj) (nonInteger_0 v N0 j a Hj))). specialize (MS N0).
        rewrite NB. rewrite T1.
        apply Qabs_Qle_condition in T2. apply Qabs_Qle_condition in SC.
        assert (M1 : ten (-8) * (onmass v y + 1) < ten (-8) * ten 8) by (apply Qmult_lt_l; [apply ten_pos|exact MS]).
        assert (M2 : ten (-8) * ten 8 == 1) by reflexivity.
        apply Qnot_lt_le. intro B. apply integral_lt_le1 in B; [|apply integral_inject|exact T3]. lra.
      - assert (pr : forall a z1, integral (D * a) -> close_int l a z1 -> integral (Qabs a * inject_Z l)).
        { intros a z1 (za & Za) (_ & Hz). assert (Ia : integral (D * Qabs a)).
          { destruct (Qlt_le_dec a 0) as [N|N].
            - exists (- za)%Z. rewrite (Qabs_neg a) by lra. rewrite inject_Z_opp, <- Za. ring.
            - exists za. rewrite (Qabs_pos a) by lra. exact Za. }
          assert (I : integral (D * (Qabs a * inject_Z l - inject_Z z1))).
          { apply integral_eq with (D * Qabs a * inject_Z l - D * inject_Z z1); [ring|].
            apply integral_minus; apply integral_mult; auto using integral_inject. }
          exists z1. destruct I as (w0 & W).
          assert (B : D * Qabs (Qabs a * inject_Z l - inject_Z z1) < 1).
          { assert (X1 : D * Qabs (Qabs a * inject_Z l - inject_Z z1) <= D * ten (-8)) by (apply Qmult_le_l; assumption).
            assert (X2 : ten (-8) * D < ten (-8) * ten 8) by (apply Qmult_lt_l; [apply ten_pos|exact D3]).
            assert (X3 : ten (-8) * ten 8 == 1) by reflexivity. lra. }
          assert (A : D * Qabs (Qabs a * inject_Z l - inject_Z z1) == Qabs (D * (Qabs a * inject_Z l - inject_Z z1))).
          { rewrite (Qabs_Qmult D), (Qabs_pos D) by lra. reflexivity. }
          rewrite A, W in B. apply Qabs_Qlt_condition in B. destruct B as (B1 & B2).
          assert (G3 : (- 1 < w0 < 1)%Z).
          { split; rewrite Zlt_Qlt; [change (inject_Z (- 1)) with (- (1))|change (inject_Z 1) with 1]; assumption. }
          assert (w0 = 0%Z) by lia. subst w0.
          destruct (Qeq_dec (Qabs a * inject_Z l - inject_Z z1) 0) as [H|H]; [lra|]. exfalso.
          apply (Qmult_integral_l D) in W; [contradiction|lra]. }
        pose proof (renew_exact g l v xv y Gp F1 Gv) as RE. fold w in RE. rewrite RE.
        + assert (Er : inject_Z l * rhs == inject_Z (signed rhs xb)).
          { pose proof (renew_exact g l [(0%nat, rhs)] [xb] (fun _ => 1) Gp) as R1. unfold renew in R1. cbn [map combine fst snd value] in R1.
            rewrite <- NB. unfold nb. assert (X : inject_Z l * (rhs * 1 + 0) == inject_Z l * rhs) by ring. rewrite <- X, <- R1.
            - ring.
            - constructor; [exact CB|constructor].
            - constructor; [exact Gb'|constructor].
            - intros j a [Hj|[]]. injection Hj as _ <-. apply (pr rhs xb); assumption. }
          rewrite NB, <- Er. exact Vl.
        + intros j a Hj. clear -F1 Hj D5 pr. revert xv F1. induction v as [|[i b] v IH]; intros xv F1; [destruct Hj|].
          cbn [map snd] in F1. inversion F1 as [|? z ? ? C1 C2]; subst. destruct Hj as [Hj|Hj].
          * injection Hj as -> ->. apply (pr a z); [eapply D5; left; reflexivity|exact C1].
          * eapply IH; [intros; eapply D5; right; eauto|exact Hj|exact C2].
    Qed.

    (** ** Scaling and weakening *)
    Lemma largest_pos (v : vec) : forall s, 0 <= s -> (0 < s \/ exists e, In e v /\ 0 < Qabs (snd e)) ->
      0 < fold_left (fun s e => Qmax s (Qabs (snd e))) v s.
    Proof.
      induction v as [|e v IH]; intros s S H; cbn [fold_left].
      - destruct H as [H|(e & [] & _)]; exact H.
      - pose proof (Qmax_le1 s (Qabs (snd e))) as M. apply IH; [lra|]. destruct H as [H|(e' & [->|He] & P)].
        + left. lra.
        + left. unfold Qmax. destruct (s <? Qabs (snd e')) eqn:E; qb; lra.
        + right. eauto.
    Qed.
    Lemma smallest_pos (v : vec) : forall s, 0 < s -> (forall e, In e v -> 0 < Qabs (snd e)) ->
      0 < fold_left (fun s e => Qminq s (Qabs (snd e))) v s.
    Proof.
      induction v as [|e v IH]; intros s S H; cbn [fold_left]; [exact S|]. apply IH; [|intros; apply H; right; assumption].
      unfold Qminq. destruct (_ <? _); [apply H; left; reflexivity|exact S].
    Qed.
    Lemma rescale_ok v b v' b' : rescale sqrt v b = (v', b') -> v <> [] -> (forall e, In e v -> 0 < Qabs (snd e)) ->
      (value v y <= b -> value v' y <= b') /\ map fst v' = map fst v.
    Proof.
      unfold rescale. intros E NE P. destruct (_ && _); [injection E as <- <-; split; auto|].
      unfold scale_by in E. cbn [fst snd] in E. injection E as <- <-. split.
      - intro V. rewrite value_map_mult.
        assert (S : 0 < sqrt (largest v * smallest v)).
        { apply SQ. apply Qmult_lt_0_compat.
          - apply largest_pos; [lra|right]. destruct v as [|e v]; [congruence|]. exists e. split; [left; reflexivity|apply P; left; reflexivity].
          - apply smallest_pos; [apply ten_pos|exact P]. }
        assert (R : 0 < 1 / sqrt (largest v * smallest v)) by (unfold Qdiv; rewrite Qmult_1_l; apply Qinv_lt_0_compat; exact S).
        rewrite (Qmult_comm b). apply Qmult_le_l; assumption.
      - rewrite map_map. cbn [fst]. reflexivity.
    Qed.
    Lemma weaken_ok rho v b nni : b <= weaken c rho v b nni.
    Proof.
      unfold weaken. cbv zeta.
      assert (T6 : 0 < tolerance6 c) by (unfold tolerance6; destruct (g_first c); apply ten_pos).
      assert (T9 : 0 < tolerance9 c) by (unfold tolerance9; destruct (g_first c); apply ten_pos).
      assert (A : 0 <= ten (-8) * Qabs b) by (apply Qmult_le_0_compat; [apply Qlt_le_weak, ten_pos|apply Qabs_nonneg]).
      set (b1 := if _ || _ then b + tolerance6 c + ten (-8) * Qabs b else b).
      assert (B1 : b <= b1) by (unfold b1; destruct (_ || _); lra).
      set (b2 := if (b1 <? nearest b1) && _ then nearest b1 else b1).
      assert (B2 : b1 <= b2).
      { unfold b2. destruct ((b1 <? nearest b1) && _) eqn:E; [|lra]. qb. lra. }
      set (t := Qminq (largestFactor c rho * g_factor c) (g_relaxation c)).
      destruct (_ && (ten (-20) <? t)) eqn:E; [|lra]. qb. pose proof (ten_pos (-20)) as T.
      assert (A2 : 0 <= t * Qabs b) by (apply Qmult_le_0_compat; [lra|apply Qabs_nonneg]).
      unfold Qminq. destruct (tolerance9 c <? t * Qabs b); lra.
    Qed.

    (** ** Tidying *)
    Definition width (j : nat) : Q := Qminq (hi c j - lo c j) 1000.
    Lemma range_sum v : range c v == sumq (map (fun e => width (fst e)) v).
    Proof.
      unfold range. assert (G : forall l s, fold_left (fun s e => s + Qminq (hi c (fst e) - lo c (fst e)) 1000) l s
        == s + sumq (map (fun e : nat * Q => width (fst e)) l)).
      { induction l as [|e l IH]; intro s; cbn [fold_left map sumq fold_right]; [ring|].
        change (fold_right Qplus 0 ?l) with (sumq l). rewrite IH. unfold width. ring. }
      rewrite G. ring.
    Qed.
    Lemma width_ge1 j : (j < n)%nat -> m_int m j = true -> ~ hi c j == lo c j -> 1 <= width j.
    Proof.
      intros L I N. pose proof (lo_hi j L) as LH. assert (LT : lo c j < hi c j) by (destruct (Qlt_le_dec (lo c j) (hi c j)); [assumption|exfalso; apply N; lra]).
      destruct (IB j L I) as (I1 & I2). destruct (sane j L) as (S1 & S2). pose proof big as B. pose proof (ten_pos 300) as T.
      assert (T2 : 1 <= ten 20) by (vm_compute; discriminate).
      assert (G : 1 <= hi c j - lo c j).
      { unfold lo, hi in *. destruct (m_clo m j) as [l|], (m_chi m j) as [u|]; cbn [lo_of hi_of] in *;
        try (specialize (S1 ltac:(congruence))); try (specialize (S2 ltac:(congruence))); try lra.
        pose proof (integral_lt_le1 l u (I1 _ eq_refl) (I2 _ eq_refl) LT). lra. }
      unfold width, Qminq. destruct (1000 <? _); [vm_compute; discriminate|exact G].
    Qed.
    Definition tidy_col (j : nat) : Prop := m_int m j = true /\ integral (y j) /\ 1 <= width j.
    Lemma rounded_value v R : 1 <= R -> (forall e, In e v -> Qabs (snd e - nearest (snd e)) * R <= ten (-6)) ->
      (value (map (fun e => (fst e, nearest (snd e))) v) y - value v y) * R <= ten (-6) * onmass v y.
    Proof.
      intros R1 H. induction v as [|[j a] v IH]; unfold onmass; cbn [map value fold_right fst snd].
      - lra.
      - change (fold_right _ 0 v) with (onmass v y).
        assert (IH' : (value (map (fun e => (fst e, nearest (snd e))) v) y - value v y) * R <= ten (-6) * onmass v y).
        { apply IH; intros; apply H; right; assumption. }
        assert (P : (nearest a * y j - a * y j) * R <= ten (-6) * Qabs (y j)).
        { pose proof (H (j, a) (or_introl eq_refl)) as Ha. cbn [snd] in Ha.
          eapply Qle_trans; [apply Qle_Qabs|].
          assert (X : (nearest a * y j - a * y j) * R == - ((a - nearest a) * R * y j)) by ring. rewrite X, Qabs_opp, Qabs_Qmult, Qabs_Qmult, (Qabs_pos R) by lra.
          apply Qmult_le_compat_r; [exact Ha|apply Qabs_nonneg]. }
        lra.
    Qed.
    Lemma tidy_ok cl v b v' b' : tidy c cl v b = (v', b') -> v <> [] ->
      (cl = false -> onmass v y + 1 <= ten 6 /\ forall e, In e v -> tidy_col (fst e)) ->
      value v y <= b -> value v' y <= b'.
    Proof.
      unfold tidy. intros E NE T V. destruct cl; [injection E as <- <-; exact V|]. destruct (T eq_refl) as (OM & T'). clear T.
      destruct (_ && _) eqn:Cl; [|injection E as <- <-; exact V]. injection E as <- <-. qb.
      match goal with H : forallb _ v = true |- _ => rename H into Fb end.
      assert (R1 : 1 <= range c v).
      { rewrite range_sum. destruct v as [|e v]; [congruence|]. cbn [map sumq fold_right]. change (fold_right Qplus 0 ?l) with (sumq l).
        destruct (T' e (or_introl eq_refl)) as (_ & _ & W).
        assert (0 <= sumq (map (fun e => width (fst e)) v)); [|lra].
        assert (G : forall l : vec, (forall e, In e l -> tidy_col (fst e)) -> 0 <= sumq (map (fun e => width (fst e)) l)).
        { clear. induction l as [|e l IH]; intro H; cbn [map sumq fold_right]; [lra|]. change (fold_right Qplus 0 ?l) with (sumq l).
          destruct (H e (or_introl eq_refl)) as (_ & _ & W). specialize (IH (fun e He => H e (or_intror He))). lra. }
        apply G. intros; apply T'; right; assumption. }
      pose proof (rounded_value v (range c v) R1) as RV. set (R := range c v) in *.
      set (v' := map (fun e => (fst e, nearest (snd e))) v) in *.
      assert (D : (value v' y - value v y) * R <= ten (-6) * onmass v y).
      { apply RV. intros e He. apply (proj1 (forallb_forall _ _) Fb) in He. qb. exact He. }
      assert (Db : (b - nearest b) * R < ten (-6)).
      { match goal with H : _ * R < _ |- _ => rename H into Hb end. eapply Qle_lt_trans; [|exact Hb].
        apply Qmult_le_compat_r; [apply Qle_Qabs|lra]. }
      assert (VR : 0 <= (b - value v y) * R) by (apply Qmult_le_0_compat; lra).
      assert (S6 : ten (-6) * (onmass v y + 1) <= 1).
      { apply Qle_trans with (ten (-6) * ten 6); [apply Qmult_le_l; [apply ten_pos|exact OM]|vm_compute; discriminate]. }
      assert (X : (value v' y - nearest b) * R < R) by lra.
      assert (B1 : value v' y - nearest b < 1).
      { apply (Qmult_lt_r _ _ R); [lra|]. rewrite Qmult_1_l. exact X. }
      apply Qnot_lt_le. intro B. apply integral_lt_le1 in B; [lra|apply integral_inject|].
      apply value_integral. intros j a Hj. unfold v' in Hj. apply in_map_iff in Hj. destruct Hj as ([j' a'] & Ej & Hj). injection Ej as <- <-.
      split; [apply integral_inject|]. destruct (T' _ Hj) as (_ & I & _). exact I.
    Qed.

    (** ** Emitting *)
    Definition made_ok (r : made) : Prop :=
      match r with
      | MNothing => True
      | MRow d | MSecond d => rowcut_sat d y
      | MCol d => colcut_sat d y
      | MInfeasible => False
      end.
    Lemma single_ok j a b : (j < n)%nat -> Qabs (y j) <= coin_max -> value [(j, a)] y <= b -> made_ok (single c j a b).
    Proof.
      intros L R V. cbn [value] in V. unfold single. cbv zeta. apply Qabs_Qle_condition in R.
      destruct (Qeq_bool a 0) eqn:Z.
      { qb. destruct (b <? 0) eqn:B; [|exact Logic.I]. qb. rewrite Z in V. cbn [made_ok]. lra. }
      qb. pose proof (ten_pos (-4)) as T4.
      assert (Lo : lo c j <= y j) by (destruct (m_clo m j) eqn:E; [apply lo_le; [exact L|congruence]|unfold lo; rewrite E; cbn [lo_of]; lra]).
      assert (Hi : y j <= hi c j) by (destruct (m_chi m j) eqn:E; [apply hi_ge; [exact L|congruence]|unfold hi; rewrite E; cbn [hi_of]; lra]).
      assert (K : forall l u, l <= y j -> y j <= u ->
         made_ok (if u + ten (-4) <? l then MInfeasible
                  else if (lo c j <? l) || (u <? hi c j) then
                    if m_int m j then MCol (ColCut (if lo c j <? l then [(j, l)] else []) (if u <? hi c j then [(j, u)] else [])) else MNothing
                  else MNothing)).
      { intros l u Hl Hu. destruct (u + ten (-4) <? l) eqn:E1; [qb; cbn [made_ok]; lra|].
        destruct (_ || _); [|exact Logic.I]. destruct (m_int m j); [|exact Logic.I].
        unfold made_ok, colcut_sat. cbn [cc_lbs cc_ubs]. split.
        - intros i b0 Hi0. destruct (lo c j <? l); [|destruct Hi0]. destruct Hi0 as [Hi0|[]]. injection Hi0 as <- <-. exact Hl.
        - intros i b0 Hi0. destruct (u <? hi c j); [|destruct Hi0]. destruct Hi0 as [Hi0|[]]. injection Hi0 as <- <-. exact Hu. }
      destruct (a <? 0) eqn:An; qb; apply K; try assumption.
      - assert (Q0 : b / a <= y j).
        { setoid_replace (b / a) with (- b / - a) by (field; lra). apply Qle_shift_div_r; lra. }
        destruct (m_int m j) eqn:Im; [|exact Q0]. apply integral_ge_ceil; [apply YI; assumption|lra].
      - assert (Ap : 0 < a) by lra. assert (Q0 : y j <= b / a) by (apply Qle_shift_div_l; lra).
        destruct (m_int m j) eqn:Im; [|exact Q0]. apply integral_le_floor; [apply YI; assumption|lra].
    Qed.
    Lemma row_ok v b : value v y <= b -> rowcut_sat (RowCut v None (Some b)) y.
    Proof. intro V. unfold rowcut_sat. cbn. split; [exact Logic.I|exact V]. Qed.
    Lemma emit_ok acc acc2 cl v b : v <> [] -> cols v -> (forall j, (j < n)%nat -> Qabs (y j) <= coin_max) ->
      (cl = false -> onmass v y + 1 <= ten 6 /\ forall e, In e v -> tidy_col (fst e)) -> value v y <= b -> made_ok (emit c acc acc2 cl v b).
    Proof.
      intros NE C R T V. unfold emit. destruct acc.
      - destruct (tidy c cl v b) as [v' b'] eqn:E. pose proof (tidy_ok cl v b v' b' E NE T V) as V'.
        assert (C' : cols v').
        { unfold tidy in E. destruct cl; [injection E as <- <-; exact C|]. destruct (_ && _); [|injection E as <- <-; exact C].
          injection E as <- <-. intros j a Hj. apply in_map_iff in Hj. destruct Hj as ([j' a'] & Ej & Hj). injection Ej as <- <-. exact (C _ _ Hj). }
        destruct v' as [|[j a] [|e2 v']].
        + destruct (_ <? _); [exact Logic.I|apply row_ok; exact V'].
        + assert (L : (j < n)%nat) by (eapply C'; left; reflexivity). apply single_ok; auto.
        + destruct (_ <? _); [exact Logic.I|apply row_ok; exact V'].
      - destruct acc2; [apply row_ok; exact V|exact Logic.I].
    Qed.

    (** ** A candidate *)
    Lemma pack_in l : forall v0 r0 w0 v r w, fold_left (pack_step c) l (v0, r0, w0) = (v, r, w) ->
      (forall e, In e v -> In e v0 \/ In e l) /\ (NoDup (map fst v0 ++ map fst l) -> NoDup (map fst v)).
    Proof.
      induction l as [|[j a] l IH]; intros v0 r0 w0 v r w E; cbn [fold_left] in E.
      - injection E as <- _ _. cbn [map]. rewrite app_nil_r. auto.
      - assert (G1 : forall r1 w1, fold_left (pack_step c) l (v0 ++ [(j, a)], r1, w1) = (v, r, w) ->
          (forall e, In e v -> In e v0 \/ In e ((j, a) :: l)) /\ (NoDup (map fst v0 ++ map fst ((j, a) :: l)) -> NoDup (map fst v))).
        { intros r1 w1 E1. destruct (IH _ _ _ _ _ _ E1) as (H1 & H2). split.
          - intros e He. destruct (H1 e He) as [H|H]; [|right; right; exact H]. apply in_app_or in H. destruct H as [H|[<-|[]]]; [auto|right; left; reflexivity].
          - cbn [map fst]. intro ND. apply H2. rewrite map_app. cbn [map fst]. rewrite <- app_assoc. exact ND. }
        assert (G2 : forall r1 w1, fold_left (pack_step c) l (v0, r1, w1) = (v, r, w) ->
          (forall e, In e v -> In e v0 \/ In e ((j, a) :: l)) /\ (NoDup (map fst v0 ++ map fst ((j, a) :: l)) -> NoDup (map fst v))).
        { intros r1 w1 E1. destruct (IH _ _ _ _ _ _ E1) as (H1 & H2). split.
          - intros e He. destruct (H1 e He) as [H|H]; [auto|right; right; exact H].
          - cbn [map fst]. intro ND. apply H2. apply NoDup_remove_1 in ND. exact ND. }
        unfold pack_step at 2 in E. destruct (ten (-8) <? Qabs a); [eauto|]. destruct ((0 <? a) && _); [eauto|].
        destruct ((a <? 0) && _); [eauto|]. destruct (ten (-13) <? Qabs a); eauto.
    Qed.
    Lemma value_list (f : nat -> Q) l : value (map (fun j => (j, - f j)) l) y == - sumq (map (fun j => f j * y j) l).
    Proof. induction l as [|j l IH]; cbn [map value sumq fold_right]; [reflexivity|]. change (fold_right Qplus 0 ?l) with (sumq l). rewrite IH. ring. Qed.
    Lemma negated_value s : state_ok c s -> value (negated s) y == - dval n (s_el s) y.
    Proof.
      intros (ND & L & Z). unfold negated, dval. rewrite value_list.
      assert (G : sumq (map (fun j => s_el s j * y j) (s_idx s)) == sumq (map (fun j => s_el s j * y j) (seq 0 n))); [|rewrite G; reflexivity].
      rewrite (sumq_sub _ n _ ND L). apply sumq_ext. intros j _.
      destruct (existsb (Nat.eqb j) (s_idx s)) eqn:E; [reflexivity|]. rewrite Z; [ring|].
      intro H. apply Bool.not_true_iff_false in E. apply E. apply existsb_exists. exists j. split; [exact H|apply Nat.eqb_refl].
    Qed.
    Lemma relax_ge s k1 : k_rhs k1 <= relax c s k1.
    Proof.
      unfold relax. destruct (k_exact k1); [lra|].
      assert (S : 0 <= sumCoefficients c s).
      { unfold sumCoefficients. generalize (negated s). intro l.
        assert (G : forall t, 0 <= t -> 0 <= fold_left (fun t e => t + Qabs (snd e) + (if 10 <? Qabs (x (fst e)) then 2 * Qabs (snd e) else 0)) l t).
        { induction l as [|e l IH]; intros t T; cbn [fold_left]; [exact T|]. apply IH. pose proof (Qabs_nonneg (snd e)). destruct (_ <? _); lra. }
        apply G. lra. }
      assert (N : 0 <= inject_Z (Z.of_nat (s_nc s))) by (change 0 with (inject_Z 0); rewrite <- Zle_Qle; lia).
      pose proof (ten_pos (-7)) as T7. pose proof (ten_pos (-8)) as T8.
      assert (0 <= ten (-7) * sumCoefficients c s) by (apply Qmult_le_0_compat; lra).
      assert (0 <= ten (-8) * inject_Z (Z.of_nat (s_nc s))) by (apply Qmult_le_0_compat; lra). lra.
    Qed.
    (** the points for which the roundings of the generator are harmless *)
    Definition moderate : Prop :=
      sumq (map (fun j => if m_int m j then Qabs (y j) else 0) (seq 0 n)) + 1 <= ten 6 /\
      (forall j, (j < n)%nat -> Qabs (y j) <= coin_max).
    (** columns whose range is used when rounding do have one *)
    Definition ranges_ok : Prop := g_global c = true -> forall j, (j < n)%nat -> m_int m j = true -> ~ hi c j == lo c j.
    Definition candidate_ready (rho : vec) (k : nat) : Prop :=
      let f0 := above_integer (x k) in let s := raw c f0 rho in
      (forall j, In j (s_idx s) -> packable j (- s_el s j)) /\
      rational_ready (fst (fst (pack c f0 s))) (snd (fst (pack c f0 s))).
    Lemma make_ok rho k r : make sqrt stale c rho k = Done r ->
      state_ok c (raw c (above_integer (x k)) rho) -> 0 <= sgap n (raw c (above_integer (x k)) rho) y ->
      candidate_ready rho k -> ranges_ok -> moderate -> made_ok r.
    Proof.
      intros E SO G (PK & RR) M3 (M1 & M2). unfold make in E. cbv zeta in E.
      set (f0 := above_integer (x k)) in *. set (s := raw c f0 rho) in *.
      destruct (Nat.ltb _ _); [apply Done_inj in E; subst r; exact Logic.I|].
      destruct (Nat.ltb _ _); [apply Done_inj in E; subst r; exact Logic.I|].
      destruct (pack c f0 s) as [[v rhs] w] eqn:Pk. cbn [fst snd] in RR.
      destruct (_ && _); [|apply Done_inj in E; subst r; exact Logic.I].
      apply bind_done in E. destruct E as (k1 & Ek & E).
      unfold pack in Pk. destruct SO as (SO1 & SO2 & SO3).
      assert (Cn : cols (negated s)).
      { intros j a Hj. unfold negated in Hj. apply in_map_iff in Hj. destruct Hj as (j' & Ej & Hj). injection Ej as <- _. auto. }
      destruct (pack_in _ _ _ _ _ _ _ Pk) as (I1 & I2).
      assert (Cv : cols v) by (intros j a Hj; destruct (I1 _ Hj) as [[]|H]; exact (Cn _ _ H)).
      assert (NDv : NoDup (map fst v)).
      { apply I2. cbn [map app]. unfold negated. rewrite map_map. cbn [fst]. rewrite map_id. exact SO1. }
      assert (V : value v y <= rhs).
      { apply (pack_fold _ _ _ _ _ _ _ Pk Cn).
        - intros j a Hj. unfold negated in Hj. apply in_map_iff in Hj. destruct Hj as (j' & Ej & Hj). injection Ej as <- <-. apply PK; exact Hj.
        - cbn [value]. rewrite negated_value by (unfold state_ok; auto). unfold sgap in G. lra. }
      assert (Om : forall w, NoDup (map fst w) -> cols w -> (forall e, In e w -> m_int m (fst e) = true) -> onmass w y + 1 <= ten 6).
      { intros w0 ND Cw Iw. eapply Qle_trans; [|exact M1]. apply Qplus_le_compat; [|lra]. rewrite onmass_sum.
        apply Qle_trans with (sumq (map (fun j => if m_int m j then Qabs (y j) else 0) (map fst w0))).
        - apply sumq_le. intros j Hj. apply in_map_iff in Hj. destruct Hj as ([j' a'] & <- & Hj). rewrite (Iw _ Hj). lra.
        - apply sub_sum; [exact ND| |].
          + intros j Hj. apply in_map_iff in Hj. destruct Hj as ([j' a'] & <- & Hj). exact (Cw _ _ Hj).
          + intros j _. destruct (m_int m j); [apply Qabs_nonneg|lra]. }
      assert (Ms : nonInteger c v = 0%nat -> onmass v y + 1 < ten 8).
      { intro N0. eapply Qle_lt_trans; [apply Om; [exact NDv|exact Cv|]|reflexivity].
        intros [j a] Hj. exact (nonInteger_0 v N0 _ _ Hj). }
      destruct (rationalize_ok v rhs k1 Ek Cv RR Ms V) as (R1 & R2 & R3).
      destruct (tiny c (k_v k1) (relax c s k1) (k_nni k1)) as [[[v1 rhs1] nni]|] eqn:Et; [|apply Done_inj in E; subst r; exact Logic.I].
      destruct (reject c v1 nni) eqn:Rj; [apply Done_inj in E; subst r; exact Logic.I|].
      assert (NE : v1 <> []).
      { intros ->. unfold reject in Rj. cbn [length Nat.eqb] in Rj. rewrite orb_true_r in Rj. discriminate. }
      unfold tiny in Et.
      assert (Ck : cols (k_v k1)).
      { intros j a Hj. assert (H : In j (map fst v)) by (rewrite <- R2; change j with (fst (j, a)); apply in_map; exact Hj).
        apply in_map_iff in H. destruct H as ([j' a'] & <- & H). exact (Cv _ _ H). }
      destruct (tiny_fold _ _ _ _ _ _ _ Et Ck) as (T1 & T2 & T3).
      assert (V1 : value v1 y <= rhs1).
      { apply T1. cbn [value]. pose proof (relax_ge s k1). destruct R1 as [R1|R1]; [lra|].
        exfalso. apply NE. exact (tiny_zero _ _ _ _ _ _ R1 Et). }
      assert (P1 : forall e, In e v1 -> 0 < Qabs (snd e)).
      { intros e He. destruct (T2 e He) as [[]|(_ & (H & _))]. pose proof (ten_pos (-12)). lra. }
      destruct (rescale sqrt v1 rhs1) as [v2 rhs2] eqn:Er. destruct (rescale_ok _ _ _ _ Er NE P1) as (V2 & F2). specialize (V2 V1).
      destruct (_ || _); apply Done_inj in E; subst r; [|exact Logic.I].
      assert (In2 : forall j a, In (j, a) v2 -> exists a', In (j, a') v1).
      { intros j a Hj. assert (H : In j (map fst v1)) by (rewrite <- F2; change j with (fst (j, a)); apply in_map; exact Hj).
        apply in_map_iff in H. destruct H as ([j' a'] & <- & H). eauto. }
      apply emit_ok.
      - intros ->. cbn [map] in F2. destruct v1; [congruence|discriminate].
      - intros j a Hj. destruct (In2 j a Hj) as (a' & H). destruct (T2 _ H) as [[]|(H2 & _)]. exact (Ck _ _ H2).
      - exact M2.
      - intros Cl. assert (Ti : forall e, In e v2 -> tidy_col (fst e)).
        { intros [j a] Hj. destruct (In2 j a Hj) as (a' & H). destruct (T2 _ H) as [[]|(H2 & (_ & H3))].
          cbn [fst] in H3 |- *. pose proof (Ck _ _ H2) as L.
          assert (Im : m_int m j = true).
          { assert (H4 : In j (map fst v)) by (rewrite <- R2; change j with (fst (j, a')); apply in_map; exact H2).
            apply in_map_iff in H4. destruct H4 as ([j' b] & <- & H4). exact (nonInteger_0 v (R3 Cl) _ _ H4). }
          assert (NQ : ~ hi c j == lo c j) by (destruct H3 as [H3|H3]; [exact H3|exact (M3 H3 j L Im)]).
          unfold tidy_col. conjs; [exact Im|apply YI; assumption|apply width_ge1; assumption]. }
        split; [|exact Ti]. apply Om.
        + rewrite F2. apply T3. cbn [map app]. rewrite R2. exact NDv.
        + intros j a Hj. destruct (In2 j a Hj) as (a' & H). destruct (T2 _ H) as [[]|(H2 & _)]. exact (Ck _ _ H2).
        + intros e He. apply (Ti e He).
      - pose proof (weaken_ok rho v2 rhs2 nni). lra.
    Qed.
  End Point.
End Clean.
