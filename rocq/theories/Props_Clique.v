(** * CglClique: properties C06, C07, C08, C09 *)

From Coq Require Import Sorted Permutation.
From Verif Require Import Base Model_Clique Proofs_Clique.
Local Open Scope Q_scope.

(** ** Specification *)

(** Columns with a positive coefficient in a row with right-hand side 1 cannot
    be negative. *)
Definition packing_columns_nonneg (m : mip) : Prop :=
  forall r j a u, In r (m_rows m) -> r_hi r = Some u -> u == 1 -> In (j, a) (r_form r) -> 0 < a ->
    exists l, m_clo m j = Some l /\ 0 <= l.
(** What the setPacking flag promises (CglClique.hpp lines 33-41). *)
Definition set_packing_model (m : mip) : Prop :=
  (forall j, (j < m_ncols m)%nat -> m_int m j = true /\
     exists l h, m_clo m j = Some l /\ m_chi m j = Some h /\ l == 0 /\ h == 1) /\
  (forall r, In r (m_rows m) -> (exists u, r_hi r = Some u /\ u == 1) /\
     forall j a, In (j, a) (r_form r) -> a == 1).
(** A point satisfying rows and bounds (LP relaxation). *)
Definition lp_feasible (m : mip) (x : point) : Prop :=
  (forall r, In r (m_rows m) -> row_sat r x) /\ in_bounds m x.
(** sum of x over C <= 1 *)
Definition clique_form (C : list nat) : rowcut := RowCut (map (fun j => (j, 1)) C) None (Some 1).
Definition sum_over (x : nat -> Q) (C : list nat) : Q := fold_right (fun j s => x j + s) 0 C.
Definition tolerance_in_force (g : clq) (ptol : Q) : Q :=
  if Qeq_bool (getMinViolation g) (-1) then ptol else getMinViolation g.

(** ** Structure of the generator *)
Definition sel_cols (g : clq) (e : clq_env) : list nat :=
  if cq_setPacking g then selectFractionals (ce_mip e) (ce_x e) (ce_ptol e)
  else selectFractionalBinaries (ce_mip e) (ce_x e) (ce_ptol e) (tolerance_in_force g (ce_ptol e)) (cq_maxNumber g).
Definition sel_rows (g : clq) (e : clq_env) : list nat :=
  let nor := if ce_inTree e && cq_justOriginal g then ce_formulationRows e else length (m_rows (ce_mip e)) in
  let rows0 := if cq_setPacking g then seq 0 nor else selectRowCliques (ce_mip e) (sel_cols g e) nor in
  if cq_justOriginal g && ce_inTree e then firstn (ce_formulationRows e) rows0 else rows0.
Definition early_exit (g : clq) (e : clq_env) : bool :=
  (MAX_CGLCLIQUE_ROWS <? Z.of_nat (length (sel_rows g e)))%Z || (Z.of_nat (length (sel_cols g e)) <? 2)%Z
     || (MAX_CGLCLIQUE_COLS <? Z.of_nat (length (sel_cols g e)))%Z.

Lemma generate_unfold sorter g e cs :
  generateCuts sorter g e cs =
  let m := ce_mip e in
  let petol := tolerance_in_force g (ce_ptol e) in
  let cols := sel_cols g e in let rows := sel_rows g e in
  if early_exit g e then Done (cs, with_petol g petol)
  else if existsb (fun r => negb (Nat.ltb r (length (m_rows m)))) rows then Undef OutOfBounds
  else
    let nn := node_node (col_ind m cols rows) in
    let val := fun j => ce_x e (nth j cols 0%nat) in
    let orig := fun j => nth j cols 0%nat in
    let n := length cols in
    do cs1 <- (if cq_doRow g
               then find_rcl nn val orig petol n sorter (cq_rclThr g)
                      (map (row_ind m cols rows) (seq 0 (length rows))) cs
               else Done cs);
    do cs2 <- (if cq_doStar g
               then find_scl nn val orig petol n sorter (cq_rule g) (cq_sclThr g) cs1
               else Done cs1);
    Done (cs2, with_petol g (if Qeq_bool (getMinViolation g) (-1) then -1 else petol)).
Proof.
  unfold generateCuts, early_exit, sel_rows, sel_cols, tolerance_in_force, getMinViolation. cbv zeta.
  destruct (Qeq_bool (cq_petol g) (-1)); reflexivity.
Qed.

Lemma generate_spec sorter g e cs :
  (forall l, Permutation (sorter l) l) ->
  (forall r, In r (sel_rows g e) -> (r < length (m_rows (ce_mip e)))%nat) ->
  exists cs' g', generateCuts sorter g e cs = Done (cs', g') /\
   forall c, In c cs' -> In c cs \/ (early_exit g e = false /\ exists l,
      let cols := sel_cols g e in
      let nn := node_node (col_ind (ce_mip e) cols (sel_rows g e)) in
      NoDup l /\ pairwise nn l /\ (forall i, In i l -> (i < length cols)%nat) /\
      1 + tolerance_in_force g (ce_ptol e) <= sum_over (fun j => ce_x e (nth j cols 0%nat)) l /\ (2 <= length l)%nat /\
      c = clique_form (sort_nat (map (fun j => nth j cols 0%nat) l))).
Proof.
  intros SP R. rewrite generate_unfold. cbv zeta.
  destruct (early_exit g e) eqn:EE; [eexists _, _; split; [reflexivity|]; auto|].
  assert (X : existsb (fun r => negb (Nat.ltb r (length (m_rows (ce_mip e))))) (sel_rows g e) = false).
  { destruct (existsb _ _) eqn:E; [|reflexivity]. apply existsb_exists in E as (r & Hr & E).
    apply negb_true_iff, Nat.ltb_ge in E. specialize (R r Hr). lia. }
  rewrite X. set (cols := sel_cols g e). set (rows := sel_rows g e).
  set (nn := node_node (col_ind (ce_mip e) cols rows)).
  set (val := fun j => ce_x e (nth j cols 0%nat)). set (orig := fun j => nth j cols 0%nat).
  set (petol := tolerance_in_force g (ce_ptol e)).
  assert (S1 : exists c1, (if cq_doRow g then find_rcl nn val orig petol (length cols) sorter (cq_rclThr g)
                      (map (row_ind (ce_mip e) cols rows) (seq 0 (length rows))) cs else Done cs) = Done c1 /\
     grown nn val orig petol (length cols) cs c1).
  { destruct (cq_doRow g); [|exists cs; split; [reflexivity|apply grown_refl]].
    apply find_rcl_spec; auto; [apply node_node_sym|apply node_node_irrefl|].
    intros r Hr. apply in_map_iff in Hr as (i & <- & Hi). apply in_seq in Hi. apply row_ind_ok. lia. }
  destruct S1 as (c1 & -> & G1). cbn [bind].
  assert (S2 : exists c2, (if cq_doStar g then find_scl nn val orig petol (length cols) sorter (cq_rule g) (cq_sclThr g) c1
                           else Done c1) = Done c2 /\ grown nn val orig petol (length cols) c1 c2).
  { destruct (cq_doStar g); [|exists c1; split; [reflexivity|apply grown_refl]].
    apply find_scl_spec; auto; [apply node_node_sym|apply node_node_irrefl]. }
  destruct S2 as (c2 & -> & G2). cbn [bind].
  eexists _, _. split; [reflexivity|]. intros c Hc.
  destruct (grown_trans _ _ _ _ _ _ _ _ G1 G2 c Hc) as [H|(l & (H1 & H2 & H3 & H4 & H5) & H6)]; [auto|right].
  split; [reflexivity|]. exists l. conjs; auto.
Qed.

Lemma sel_rows_general g e r : cq_setPacking g = false -> In r (sel_rows g e) ->
  (r < length (m_rows (ce_mip e)))%nat /\
  exists k, is_clique_row (ce_mip e) (sel_cols g e) k r = true.
Proof.
  intros SP H. unfold sel_rows in H. rewrite SP in H. cbv zeta in H.
  set (k := if ce_inTree e && cq_justOriginal g then ce_formulationRows e else length (m_rows (ce_mip e))) in *.
  assert (H' : In r (selectRowCliques (ce_mip e) (sel_cols g e) k)).
  { destruct (cq_justOriginal g && ce_inTree e); [|exact H].
    rewrite <- (firstn_skipn (ce_formulationRows e)). apply in_or_app. left. exact H. }
  apply filter_In in H' as [H1 H2]. apply in_seq in H1. split; [lia|]. exists k. exact H2.
Qed.
Lemma sel_cols_nodup g e : NoDup (sel_cols g e).
Proof. unfold sel_cols. destruct (cq_setPacking g); apply NoDup_filter, seq_NoDup. Qed.
Lemma sel_cols_lt g e j : In j (sel_cols g e) -> (j < m_ncols (ce_mip e))%nat.
Proof.
  unfold sel_cols. intro H. destruct (cq_setPacking g); apply filter_In in H as [H _]; apply in_seq in H; lia.
Qed.
Lemma sel_cols_binary g e j : cq_setPacking g = false -> In j (sel_cols g e) -> is_binary (ce_mip e) j = true.
Proof.
  unfold sel_cols. intros SP H. rewrite SP in H. apply filter_In in H as [_ H].
  apply andb_true_iff in H as [H _]. apply andb_true_iff in H as [H _]. exact H.
Qed.

Lemma binary_value m x j : is_binary m j = true -> (j < m_ncols m)%nat -> in_bounds m x -> integer_ok m x ->
  x j == 0 \/ x j == 1.
Proof.
  intros B L IB IO. unfold is_binary in B. apply andb_true_iff in B as [B Bh]. apply andb_true_iff in B as [Bi Bl].
  destruct (IB j L) as [I1 I2]. destruct (IO j L Bi) as [z Hz].
  unfold zero_one in *. destruct (m_clo m j) as [l|]; [|discriminate]. destruct (m_chi m j) as [h|]; [|discriminate].
  simpl in I1, I2.
  assert (0 <= x j) by (apply orb_true_iff in Bl as [E|E]; qb; lra).
  assert (x j <= 1) by (apply orb_true_iff in Bh as [E|E]; qb; lra).
  rewrite Hz in *. change 0 with (inject_Z 0) in *. change 1 with (inject_Z 1) in *.
  rewrite <- Zle_Qle in *. assert (z = 0 \/ z = 1)%Z as [->| ->] by lia; [left|right]; reflexivity.
Qed.

Lemma has_entry_in r j : has_entry r j = true -> exists a, In (j, a) (r_form r).
Proof.
  unfold has_entry. rewrite mem_in, in_map_iff. intros ([k a] & E & H). simpl in E. subst. eauto.
Qed.

(** Adjacent columns cannot both be 1 in a point of the relaxation. *)
Lemma conflict_general g e i j x :
  cq_setPacking g = false -> packing_columns_nonneg (ce_mip e) -> wf_mip (ce_mip e) ->
  lp_feasible (ce_mip e) x ->
  (i < length (sel_cols g e))%nat -> (j < length (sel_cols g e))%nat ->
  node_node (col_ind (ce_mip e) (sel_cols g e) (sel_rows g e)) i j = true ->
  x (nth i (sel_cols g e) 0%nat) + x (nth j (sel_cols g e) 0%nat) <= 1.
Proof.
  intros SP NN WF [F1 F2] Hi Hj E. apply node_node_spec in E as (D & k & K1 & K2 & K3).
  set (cols := sel_cols g e) in *. set (rows := sel_rows g e) in *. set (m := ce_mip e) in *.
  destruct (sel_rows_general g e (nth k rows 0%nat) SP) as (R1 & nor & R2); [apply nth_In; exact K1|].
  fold m cols in R1, R2. unfold is_clique_row in R2. cbv zeta in R2.
  set (r := row_at m (nth k rows 0%nat)) in *.
  assert (Hr : In r (m_rows m)) by (unfold r, row_at; apply nth_In; exact R1).
  apply andb_true_iff in R2 as [R2 R5]. apply andb_true_iff in R2 as [R2 _]. apply andb_true_iff in R2 as [R2 R3].
  rewrite forallb_forall in R2, R5.
  destruct (r_hi r) as [u|] eqn:Hu; [|discriminate]. apply Qeq_bool_iff in R3.
  apply has_entry_in in K2 as (a & Ha), K3 as (b & Hb).
  assert (Ci : In (nth i cols 0%nat) cols) by (apply nth_In; exact Hi).
  assert (Cj : In (nth j cols 0%nat) cols) by (apply nth_In; exact Hj).
  assert (Ea : a == 1).
  { specialize (R2 _ Ha). simpl in R2. apply mem_in in Ci. rewrite Ci in R2. simpl in R2. apply Qeq_bool_iff. exact R2. }
  assert (Eb : b == 1).
  { specialize (R2 _ Hb). simpl in R2. apply mem_in in Cj. rewrite Cj in R2. simpl in R2. apply Qeq_bool_iff. exact R2. }
  assert (Nij : nth i cols 0%nat <> nth j cols 0%nat).
  { intro H. apply D. apply (NoDup_nth cols 0%nat); auto. apply sel_cols_nodup. }
  assert (V : value (r_form r) x <= 1).
  { destruct (F1 r Hr) as [_ H]. rewrite Hu in H. simpl in H. lra. }
  assert (T : a * x (nth i cols 0%nat) + b * x (nth j cols 0%nat) <= value (r_form r) x).
  { apply value_two; auto. intros q c Hq. specialize (R5 _ Hq). simpl in R5. qb.
    destruct (Qlt_le_dec 0 c) as [Hc|Hc]; [|assert (c == 0) by lra; nra].
    destruct (NN r q c u Hr Hu R3 Hq Hc) as (l & Hl & Hl0).
    assert (Hq' : (q < m_ncols m)%nat) by (destruct (WF r Hr) as [_ W]; eapply W; exact Hq).
    destruct (F2 q Hq') as [I1 _]. rewrite Hl in I1. simpl in I1. nra. }
  rewrite Ea, Eb in T. lra.
Qed.

(** ** C06 *)
Theorem C06_clique_cuts_valid :
  forall sorter g e cs cs' g',
    (forall l, Permutation (sorter l) l) -> wf_mip (ce_mip e) ->
    cq_setPacking g = false -> packing_columns_nonneg (ce_mip e) ->
    generateCuts sorter g e cs = Done (cs', g') ->
    forall c, In c cs' -> In c cs \/ keeps_all (ce_mip e) c.
Proof.
  intros sorter g e cs cs' g' SP WF NS NN E c Hc.
  destruct (generate_spec sorter g e cs SP) as (c2 & g2 & E2 & G).
  { intros r Hr. apply (sel_rows_general g e r NS Hr). }
  rewrite E in E2. apply Done_inj in E2. injection E2 as <- <-.
  destruct (G c Hc) as [H|(_ & l & H1 & H2 & H3 & _ & _ & ->)]; [auto|right].
  intros x (F1 & F2 & F3). split; [exact I|]. simpl.
  set (cols := sel_cols g e) in *.
  rewrite value_ones, (sum_perm x _ _ (sort_nat_perm _)).
  assert (M : fold_right (fun j s => x j + s) 0 (map (fun j => nth j cols 0%nat) l)
              = fold_right (fun j s => x (nth j cols 0%nat) + s) 0 l).
  { clear. induction l; simpl; [reflexivity|]. rewrite IHl. reflexivity. }
  rewrite M. apply (sum_binary_clique (fun j => x (nth j cols 0%nat))); auto.
  - intros i Hi. assert (Hin : In (nth i cols 0%nat) cols) by (apply nth_In; auto).
    apply binary_value with (m := ce_mip e); auto; [eapply sel_cols_binary; eauto|eapply sel_cols_lt; eauto].
  - intros i j Hi Hj D. apply (conflict_general g e); auto. split; assumption.
Qed.
Print Assumptions C06_clique_cuts_valid.

(** The generator never fails on a model without the set-packing promise. *)
Theorem C06_clique_total :
  forall sorter g e cs, (forall l, Permutation (sorter l) l) -> cq_setPacking g = false ->
    exists cs' g', generateCuts sorter g e cs = Done (cs', g').
Proof.
  intros sorter g e cs SP NS.
  destruct (generate_spec sorter g e cs SP) as (c2 & g2 & E2 & _); [|eauto].
  intros r Hr. apply (sel_rows_general g e r NS Hr).
Qed.
Print Assumptions C06_clique_total.

Lemma sel_rows_packing g e r : cq_setPacking g = true -> In r (sel_rows g e) ->
  (ce_inTree e && cq_justOriginal g = true -> (ce_formulationRows e <= length (m_rows (ce_mip e)))%nat) ->
  (r < length (m_rows (ce_mip e)))%nat.
Proof.
  intros SP H F. unfold sel_rows in H. rewrite SP in H. cbv zeta in H. rewrite (andb_comm (cq_justOriginal g)) in H.
  destruct (ce_inTree e && cq_justOriginal g).
  - specialize (F eq_refl). rewrite <- (seq_length (ce_formulationRows e) 0) in H at 1. rewrite firstn_all in H.
    apply in_seq in H. lia.
  - apply in_seq in H. lia.
Qed.

(** With the set-packing flag, for set-packing models. *)
Theorem C06_set_packing_cuts_valid :
  forall sorter g e cs,
    (forall l, Permutation (sorter l) l) -> wf_mip (ce_mip e) ->
    cq_setPacking g = true -> set_packing_model (ce_mip e) ->
    (ce_inTree e && cq_justOriginal g = true -> (ce_formulationRows e <= length (m_rows (ce_mip e)))%nat) ->
    exists cs' g', generateCuts sorter g e cs = Done (cs', g') /\
      forall c, In c cs' -> In c cs \/ keeps_all (ce_mip e) c.
Proof.
  intros sorter g e cs SP WF PS [PM1 PM2] FR.
  assert (RR : forall r, In r (sel_rows g e) -> (r < length (m_rows (ce_mip e)))%nat)
    by (intros r Hr; apply (sel_rows_packing g e r PS Hr FR)).
  destruct (generate_spec sorter g e cs SP RR) as (c2 & g2 & E2 & G).
  exists c2, g2. split; [exact E2|]. intros c Hc.
  destruct (G c Hc) as [H|(_ & l & H1 & H2 & H3 & _ & _ & ->)]; [auto|right].
  intros x (F1 & F2 & F3). split; [exact I|]. simpl.
  set (cols := sel_cols g e) in *.
  assert (BB : forall q, (q < m_ncols (ce_mip e))%nat -> x q == 0 \/ x q == 1).
  { intros q Hq. destruct (PM1 q Hq) as (Hi & lo & hi & L1 & L2 & L3 & L4).
    apply binary_value with (m := ce_mip e); auto. unfold is_binary, zero_one. rewrite Hi, L1, L2.
    apply Qeq_bool_iff in L3, L4. rewrite L3, L4. simpl. rewrite orb_true_r. reflexivity. }
  rewrite value_ones, (sum_perm x _ _ (sort_nat_perm _)).
  assert (M : fold_right (fun j s => x j + s) 0 (map (fun j => nth j cols 0%nat) l)
              = fold_right (fun j s => x (nth j cols 0%nat) + s) 0 l).
  { clear. induction l; simpl; [reflexivity|]. rewrite IHl. reflexivity. }
  rewrite M. apply (sum_binary_clique (fun j => x (nth j cols 0%nat))); auto.
  - intros i Hi. apply BB. apply (sel_cols_lt g e). apply nth_In. auto.
  - intros i j Hi Hj D.
    pose proof (H2 i j Hi Hj D) as E. apply node_node_spec in E as (_ & k & K1 & K2 & K3).
    assert (Hr : In (row_at (ce_mip e) (nth k (sel_rows g e) 0%nat)) (m_rows (ce_mip e))).
    { unfold row_at. apply nth_In. apply RR. apply nth_In. exact K1. }
    apply has_entry_in in K2 as (a & Ha), K3 as (b & Hb).
    destruct (PM2 _ Hr) as ((u & Hu & U1) & Co).
    destruct (F1 _ Hr) as [_ V]. rewrite Hu in V. simpl in V.
    assert (T : a * x (nth i cols 0%nat) + b * x (nth j cols 0%nat) <= value (r_form (row_at (ce_mip e) (nth k (sel_rows g e) 0%nat))) x).
    { apply value_two; auto.
      - intros q c Hq. rewrite (Co _ _ Hq). destruct (WF _ Hr) as [_ W]. destruct (BB q (W _ _ Hq)) as [Z|Z]; rewrite Z; lra.
      - intro H. apply D. apply (NoDup_nth cols 0%nat); auto. apply sel_cols_nodup. }
    rewrite (Co _ _ Ha), (Co _ _ Hb) in T. lra.
Qed.
Print Assumptions C06_set_packing_cuts_valid.

(** Triangle x0+x1<=1, x1+x2<=1, x0+x2<=1 at (1/2,1/2,1/2). *)
Definition triangle : mip :=
  Mip 3 [Row [(0%nat, 1); (1%nat, 1)] None (Some 1); Row [(1%nat, 1); (2%nat, 1)] None (Some 1);
         Row [(0%nat, 1); (2%nat, 1)] None (Some 1)]
      (fun _ => Some 0) (fun _ => Some 1) (fun _ => true).
Definition half (_ : nat) : Q := 1 # 2.
Definition ptol7 : Q := 1 # 10000000.
Example C06_example :
  packing_columns_nonneg triangle /\ wf_mip triangle /\
  exists g', generateCuts (fun l => l) (clq_new false false) (ClqEnv triangle half ptol7 false 0) [] =
    Done ([clique_form [0; 1; 2]%nat], g').
Proof.
  conjs.
  - intros r j a u Hr Hu _ _ _. exists 0. split; [reflexivity|lra].
  - intros r Hr. simpl in Hr. destruct Hr as [<-|[<-|[<-|[]]]]; (split; [repeat constructor; simpl; intuition lia|]);
      intros j a Hin; simpl in Hin; destruct Hin as [H|[H|[]]]; injection H as <- <-; simpl; lia.
  - eexists. vm_compute. reflexivity.
Qed.

(** Without the proviso a cut may remove feasible points: a column in [-1,0]
    in every row. *)
Definition triangle_y : mip :=
  Mip 4 [Row [(0%nat, 1); (1%nat, 1); (3%nat, 1)] None (Some 1); Row [(1%nat, 1); (2%nat, 1); (3%nat, 1)] None (Some 1);
         Row [(0%nat, 1); (2%nat, 1); (3%nat, 1)] None (Some 1)]
      (fun j => if Nat.eqb j 3 then Some (-1) else Some 0) (fun j => if Nat.eqb j 3 then Some 0 else Some 1) (fun _ => true).
Theorem C06_negative_column_refuted :
  exists m x cs' g' c, wf_mip m /\ lp_feasible m x /\
    generateCuts (fun l => l) (clq_new false false) (ClqEnv m x ptol7 false 0) [] = Done (cs', g') /\
    In c cs' /\ ~ keeps_all m c.
Proof.
  exists triangle_y, (fun j => if Nat.eqb j 3 then 0 else 1 # 2).
  eexists _, _, (clique_form [0; 1; 2]%nat). conjs.
  - intros r Hr. simpl in Hr. destruct Hr as [<-|[<-|[<-|[]]]]; (split; [repeat constructor; simpl; intuition lia|]);
      intros j a Hin; simpl in Hin; destruct Hin as [H|[H|[H|[]]]]; injection H as <- <-; simpl; lia.
  - split.
    + intros r Hr. simpl in Hr. destruct Hr as [<-|[<-|[<-|[]]]]; split; vm_compute; auto; discriminate.
    + intros j Hj. simpl in Hj. destruct j as [|[|[|[|j]]]]; try lia; split; vm_compute; discriminate.
  - vm_compute. reflexivity.
  - left. reflexivity.
  - intro K. specialize (K (fun j => if Nat.eqb j 3 then -1 else if Nat.eqb j 2 then 0 else 1)).
    assert (F : feasible triangle_y (fun j => if Nat.eqb j 3 then -1 else if Nat.eqb j 2 then 0 else 1)).
    { unfold feasible; conjs.
      - intros r Hr. simpl in Hr. destruct Hr as [<-|[<-|[<-|[]]]]; split; vm_compute; auto; discriminate.
      - intros j Hj. simpl in Hj. destruct j as [|[|[|[|j]]]]; try lia; split; vm_compute; discriminate.
      - intros j Hj _. simpl in Hj. destruct j as [|[|[|[|j]]]]; try lia; [exists 1%Z|exists 1%Z|exists 0%Z|exists (-1)%Z]; reflexivity. }
    apply K in F as [_ F]. vm_compute in F. apply F. reflexivity.
Qed.
Print Assumptions C06_negative_column_refuted.

(** ** C07 *)
Definition tol_ok (g : clq) (e : clq_env) : Prop :=
  0 <= ce_ptol e /\ 0 <= tolerance_in_force g (ce_ptol e).

Theorem C07_shape_of_clique_cuts :
  forall sorter g e cs cs' g',
    (forall l, Permutation (sorter l) l) -> cq_setPacking g = false ->
    generateCuts sorter g e cs = Done (cs', g') ->
    forall c, In c cs' -> In c cs \/
      exists C, c = clique_form C /\ StronglySorted lt C /\ (2 <= length C)%nat /\
        (forall j, In j C -> (j < m_ncols (ce_mip e))%nat /\ is_binary (ce_mip e) j = true) /\
        1 + tolerance_in_force g (ce_ptol e) <= sum_over (ce_x e) C /\
        (0 <= tolerance_in_force g (ce_ptol e) ->
           forall j, In j C -> ce_ptol e < ce_x e j /\ ce_x e j < 1 - tolerance_in_force g (ce_ptol e)) /\
        (* at least three members when the LP solution is feasible *)
        (wf_mip (ce_mip e) -> packing_columns_nonneg (ce_mip e) -> lp_feasible (ce_mip e) (ce_x e) ->
           0 < tolerance_in_force g (ce_ptol e) -> (3 <= length C)%nat).
Proof.
  intros sorter g e cs cs' g' SP NS E c Hc.
  destruct (generate_spec sorter g e cs SP) as (c2 & g2 & E2 & G).
  { intros r Hr. apply (sel_rows_general g e r NS Hr). }
  rewrite E in E2. apply Done_inj in E2. injection E2 as <- <-.
  destruct (G c Hc) as [H|(_ & l & H1 & H2 & H3 & H4 & H5 & ->)]; [auto|right].
  cbv zeta in *. set (cols := sel_cols g e) in *. set (C := sort_nat (map (fun j => nth j cols 0%nat) l)).
  assert (P : Permutation C (map (fun j => nth j cols 0%nat) l)) by apply sort_nat_perm.
  assert (ND : NoDup (map (fun j => nth j cols 0%nat) l)).
  { clear - H1 H3. induction l as [|a l IH]; simpl; [constructor|]. inversion H1; subst. constructor.
    - intro H. apply in_map_iff in H as (b & Eb & Hb). apply H2. replace a with b; [exact Hb|].
      apply (NoDup_nth cols 0%nat); auto; [apply sel_cols_nodup|apply H3; right; exact Hb|apply H3; left; reflexivity].
    - apply IH; auto. intros i Hi. apply H3. right. exact Hi. }
  assert (In_C : forall j, In j C -> In j cols).
  { intros j Hj. apply (Permutation_in _ P) in Hj. apply in_map_iff in Hj as (i & <- & Hi). apply nth_In. auto. }
  assert (SS : sum_over (ce_x e) C == sum_over (fun j => ce_x e (nth j cols 0%nat)) l).
  { unfold sum_over. rewrite (sum_perm (ce_x e) _ _ P). clear. induction l; simpl; [reflexivity|]. rewrite IHl. reflexivity. }
  assert (LC : length C = length l) by (rewrite (Permutation_length P), map_length; reflexivity).
  exists C. conjs.
  - reflexivity.
  - apply sorted_nodup_lt; [apply sort_nat_sorted|]. apply (Permutation_NoDup (Permutation_sym P)). exact ND.
  - rewrite LC. exact H5.
  - intros j Hj. apply In_C in Hj. split; [eapply sel_cols_lt; eauto|eapply sel_cols_binary; eauto].
  - rewrite SS. exact H4.
  - intros T j Hj. apply In_C in Hj. unfold cols, sel_cols, selectFractionalBinaries in Hj. rewrite NS in Hj.
    apply filter_In in Hj as [_ Hj]. apply andb_true_iff in Hj as [Hj Hj2]. apply andb_true_iff in Hj as [_ Hj].
    destruct (_ <? 0) eqn:E0 in Hj; [qb; lra|]. simpl in Hj. qb. split; assumption.
  - intros WF NN LF Tpos. rewrite LC. destruct (Nat.eq_dec (length l) 2) as [L2|]; [exfalso|lia].
    destruct l as [|a [|b [|? ?]]]; simpl in L2; try lia. unfold sum_over in H4. simpl in H4.
    assert (x1 : ce_x e (nth a cols 0%nat) + ce_x e (nth b cols 0%nat) <= 1).
    { inversion H1; subst. apply (conflict_general g e); auto; try (apply H3; simpl; auto).
      apply H2; simpl; auto. intro; subst; simpl in *; tauto. }
    lra.
Qed.
Print Assumptions C07_shape_of_clique_cuts.
Example C07_example :
  lp_feasible triangle half /\ 0 < tolerance_in_force (clq_new false false) ptol7 /\
  sum_over half [0; 1; 2]%nat == 3 # 2.
Proof.
  conjs; try (vm_compute; reflexivity). split.
  - intros r Hr. simpl in Hr. destruct Hr as [<-|[<-|[<-|[]]]]; split; vm_compute; auto; discriminate.
  - intros j Hj. simpl in Hj. destruct j as [|[|[|j]]]; try lia; split; vm_compute; discriminate.
Qed.

(** The violation may equal the minimum violation in force: "more than" is
    false in the enumeration path. *)
Theorem C07_strict_violation_refuted :
  exists m x v cs' g' C, lp_feasible m x /\ 0 < v /\
    generateCuts (fun l => l) (setMinViolation (clq_new false false) v) (ClqEnv m x ptol7 false 0) [] = Done (cs', g') /\
    In (clique_form C) cs' /\ sum_over x C - 1 == v.
Proof.
  exists triangle, (fun _ => 11 # 30), (1 # 10). eexists _, _, [0; 1; 2]%nat. conjs.
  - split.
    + intros r Hr. simpl in Hr. destruct Hr as [<-|[<-|[<-|[]]]]; split; vm_compute; auto; discriminate.
    + intros j Hj. simpl in Hj. destruct j as [|[|[|j]]]; try lia; split; vm_compute; discriminate.
  - vm_compute. reflexivity.
  - vm_compute. reflexivity.
  - left. reflexivity.
  - vm_compute. reflexivity.
Qed.
Print Assumptions C07_strict_violation_refuted.

(** ** C08 *)
(** [K] is a maximal clique among the candidates [cl] for the relation [nn]. *)
Definition maximal_clique (nn : nat -> nat -> bool) (cl K : list nat) : Prop :=
  NoDup K /\ (forall v, In v K -> In v cl) /\
  (forall a b, In a K -> In b K -> a <> b -> nn a b = true) /\
  (forall v, In v cl -> ~ In v K -> exists w, In w K /\ nn v w = false).

Lemma ff_maximal nn l acc v : (forall i j, nn i j = nn j i) -> In v l -> ~ In v (fold_left (greedy_step nn) l acc) ->
  exists w, In w (fold_left (greedy_step nn) l acc) /\ nn v w = false.
Proof.
  intro sym. revert acc. induction l as [|a l IH]; intros acc Hv N; [destruct Hv|].
  simpl in *. destruct Hv as [->|Hv]; [|apply IH; assumption].
  assert (E : exists w, In w acc /\ nn v w = false).
  { destruct (forallb (nn v) (rev acc)) eqn:F.
    - exfalso. apply N. apply ff_keeps. unfold greedy_step at 1. rewrite F. apply in_or_app. right. left. reflexivity.
    - rewrite forallb_rev in F. clear - F. induction acc as [|w acc IH]; simpl in F; [discriminate|].
      destruct (nn v w) eqn:X; [|exists w; split; [left; reflexivity|exact X]].
      destruct (IH F) as (u & U1 & U2). exists u. split; [right; exact U1|exact U2]. }
  destruct E as (w & W1 & W2). exists w. split; [|exact W2]. apply ff_keeps. unfold greedy_step.
  destruct (forallb _ _); [apply in_or_app; left|]; exact W1.
Qed.

(** The search over a candidate list always ends; it examines one maximal
    clique of the candidates (the first-fit one, which contains the first
    candidate) and records it exactly when it has the required value and
    no discarded node extends it.  The statement of C08 asks for every
    maximal clique; that is refuted below. *)
Theorem C08_enumeration_partial :
  forall nn val orig petol perm c cl del cs,
    (forall i j, nn i j = nn j i) -> NoDup (c :: cl) ->
    exists K, maximal_clique nn (c :: cl) K /\ In c K /\
      enumerate_all nn val orig petol perm (c :: cl) del cs =
      Done (if (1 + petol <=? lhs val (K ++ perm)) && negb (existsb (fun d => forallb (nn d) (K ++ perm)) del)
            then insert_new cs (clique_form (sort_nat (map orig (K ++ perm)))) else cs).
Proof.
  intros nn val orig petol perm c cl del cs sym ND.
  exists (rev (fold_left (greedy_step nn) (c :: cl) [])). unfold maximal_clique. conjs.
  - apply NoDup_rev. apply ff_nodup. exact ND.
  - intros v Hv. apply in_rev in Hv. apply ff_incl in Hv as [[]|Hv]. exact Hv.
  - intros a b Ha Hb D. apply in_rev in Ha, Hb. revert D. apply (ff_pairwise nn sym [] (c :: cl)); auto.
    intros ? ? [].
  - intros v Hv N. rewrite <- in_rev in N. destruct (ff_maximal nn (c :: cl) [] v sym Hv N) as (w & W1 & W2).
    exists w. split; [apply -> in_rev; exact W1|exact W2].
  - apply -> in_rev. simpl. apply ff_keeps. left. reflexivity.
  - rewrite enumerate_all_spec by discriminate. unfold first_fit_result. cbv zeta. f_equal.
    set (coef := rev _ ++ perm).
    destruct (1 + petol <=? lhs val coef) eqn:E; cbn [negb andb].
    + replace (lhs val coef <? 1 + petol) with false by (symmetry; unfold Qltb; rewrite E; reflexivity).
      destruct (existsb _ del); reflexivity.
    + replace (lhs val coef <? 1 + petol) with true by (symmetry; unfold Qltb; rewrite E; reflexivity). reflexivity.
Qed.
Print Assumptions C08_enumeration_partial.
Example C08_example :
  enumerate_all (fun i j => negb (Nat.eqb i j)) half (fun j => j) (1 # 10) [0]%nat [1; 2]%nat [] [] =
  Done [clique_form [0; 1; 2]%nat].
Proof. vm_compute. reflexivity. Qed.

Lemma rowcut_eqb_refl c : rowcut_eqb c c = true.
Proof.
  unfold rowcut_eqb. rewrite !andb_true_iff. conjs.
  - induction (rc_form c) as [|p v IH]; [reflexivity|]. simpl. rewrite IH. unfold entry_eqb.
    rewrite Nat.eqb_refl, Qeq_bool_refl. reflexivity.
  - destruct (rc_lb c); simpl; [apply Qeq_bool_refl|reflexivity].
  - destruct (rc_ub c); simpl; [apply Qeq_bool_refl|reflexivity].
Qed.
Lemma insert_new_has cs c : exists d, In d (insert_new cs c) /\ rowcut_eqb c d = true.
Proof.
  unfold insert_new. destruct (existsb _ _) eqn:E.
  - apply existsb_exists in E as (d & D1 & D2). eauto.
  - exists c. split; [apply in_or_app; right; left; reflexivity|apply rowcut_eqb_refl].
Qed.
Lemma insert_keeps cs c d : In d cs -> In d (insert_new cs c).
Proof. intro H. apply insert_new_incl. exact H. Qed.

(** The row method looks at every row: for each row whose set of common
    neighbours is within the threshold, a maximal extension is recorded
    whenever it has the required value. *)
Theorem C08_every_row_is_extended_partial :
  forall nn val orig petol n sorter thr rows cs cs' row,
    (forall i j, nn i j = nn j i) -> (forall l, Permutation (sorter l) l) ->
    find_rcl nn val orig petol n sorter thr rows cs = Done cs' ->
    In row rows -> row <> [] ->
    forall cand, cand = filter (fun k => forallb (fun i => nn i k) row) (seq 0 n) ->
    cand <> [] -> (Z.of_nat (length cand) <= thr)%Z ->
    exists K, maximal_clique nn cand K /\
      (1 + petol <= lhs val (K ++ row) ->
       exists c, In c cs' /\ rowcut_eqb (clique_form (sort_nat (map orig (K ++ row)))) c = true).
Proof.
  intros nn val orig petol n sorter thr rows cs cs' row sym SP E Hin NE cand Hc NC T.
  assert (Mono : forall rs a b, find_rcl nn val orig petol n sorter thr rs a = Done b -> forall c, In c a -> In c b).
  { unfold find_rcl. induction rs as [|r rs IH]; intros a b H c Ha; simpl in H; [apply Done_inj in H; subst; exact Ha|].
    destruct (rcl_row _ _ _ _ _ _ _ r a) as [a'| | | |] eqn:R; try discriminate. simpl in H.
    apply (IH _ _ H). clear - R Ha. unfold rcl_row in R. destruct r; [apply Done_inj in R; subst; exact Ha|].
    destruct (filter _ _) as [|k l]; [apply Done_inj in R; subst; exact Ha|]. cbv zeta in R.
    destruct (_ <=? _)%Z.
    - rewrite enumerate_all_spec in R by discriminate. apply Done_inj in R. subst. unfold first_fit_result. cbv zeta.
      destruct (_ <? _); [exact Ha|]. destruct (existsb _ _); [exact Ha|]. apply insert_keeps. exact Ha.
    - unfold greedy in R. destruct (by_degree _ _ _); [discriminate|]. apply Done_inj in R. subst.
      destruct (Nat.ltb _ _); [exact Ha|]. destruct (_ <? _); [apply insert_keeps|]; exact Ha. }
  apply in_split in Hin as (r1 & r2 & ->).
  unfold find_rcl in *. revert cs E. induction r1 as [|r r1 IH]; intros cs E; simpl in E.
  2:{ destruct (rcl_row _ _ _ _ _ _ _ r cs) as [a'| | | |] eqn:R; try discriminate. simpl in E. apply (IH _ E). }
  destruct (rcl_row _ _ _ _ _ _ _ row cs) as [a'| | | |] eqn:R; try discriminate. simpl in E.
  unfold rcl_row in R. destruct row as [|v row]; [congruence|]. cbv zeta in R. rewrite <- Hc in R.
  destruct cand as [|c cand]; [congruence|]. replace (Z.of_nat _ <=? thr)%Z with true in R by (symmetry; apply Z.leb_le; exact T).
  destruct (C08_enumeration_partial nn val orig petol (v :: row) c cand [] cs sym) as (K & K1 & _ & K3).
  { rewrite Hc. apply NoDup_filter, seq_NoDup. }
  exists K. split; [exact K1|]. intro V. rewrite K3 in R. apply Done_inj in R. subst a'.
  replace (1 + petol <=? lhs val (K ++ v :: row)) with true in E by (symmetry; apply Qle_bool_iff; exact V).
  simpl andb in E.
  destruct (insert_new_has cs (clique_form (sort_nat (map orig (K ++ v :: row))))) as (d & D1 & D2).
  exists d. split; [|exact D2]. apply (Mono r2 _ _ E). exact D1.
Qed.
Print Assumptions C08_every_row_is_extended_partial.

(** The star of column 3 has three members, well below the enumeration
    threshold of 12; the violated clique {1,2,3} (value 3/2) is missed
    because the first-fit clique is {3,0}. *)
Definition missed : mip :=
  Mip 4 [Row [(0%nat, 1); (3%nat, 1)] None (Some 1); Row [(1%nat, 1); (3%nat, 1)] None (Some 1);
         Row [(2%nat, 1); (3%nat, 1)] None (Some 1); Row [(1%nat, 1); (2%nat, 1)] None (Some 1)]
      (fun _ => Some 0) (fun _ => Some 1) (fun _ => true).
Definition missed_x (j : nat) : Q := if Nat.eqb j 0 then 3 # 10 else 1 # 2.
Definition star_only (g : clq) : clq :=
  Clq (cq_setPacking g) (cq_justOriginal g) (cq_petol g) (cq_maxNumber g) false true (cq_rule g) (cq_sclThr g) (cq_rclThr g).
Theorem C08_maximal_clique_missed_refuted :
  exists g', generateCuts (fun l => l) (star_only (clq_new false false)) (ClqEnv missed missed_x ptol7 false 0) [] =
               Done ([], g') /\
    lp_feasible missed missed_x /\
    (forall i j, In i [1; 2; 3]%nat -> In j [1; 2; 3]%nat -> i <> j ->
       exists r, In r (m_rows missed) /\ has_entry r i = true /\ has_entry r j = true) /\
    1 + ptol7 < sum_over missed_x [1; 2; 3]%nat.
Proof.
  eexists. conjs.
  - vm_compute. reflexivity.
  - split.
    + intros r Hr. simpl in Hr. destruct Hr as [<-|[<-|[<-|[<-|[]]]]]; split; vm_compute; auto; discriminate.
    + intros j Hj. simpl in Hj. destruct j as [|[|[|[|j]]]]; try lia; split; vm_compute; discriminate.
  - intros i j Hi Hj D. simpl in Hi, Hj.
    destruct Hi as [<-|[<-|[<-|[]]]]; destruct Hj as [<-|[<-|[<-|[]]]]; try congruence;
      first [exists (nth 1 (m_rows missed) (Row [] None None)); conjs; [simpl; auto|vm_compute; reflexivity|vm_compute; reflexivity]
            |exists (nth 2 (m_rows missed) (Row [] None None)); conjs; [simpl; auto|vm_compute; reflexivity|vm_compute; reflexivity]
            |exists (nth 3 (m_rows missed) (Row [] None None)); conjs; [simpl; auto|vm_compute; reflexivity|vm_compute; reflexivity]].
  - vm_compute. reflexivity.
Qed.
Print Assumptions C08_maximal_clique_missed_refuted.

(** ** C09 *)
(** The minimum violation reported after generateCuts is the one reported
    before, except when it was unset and the search was not started. *)
Theorem C09_min_violation_unchanged :
  forall sorter g e cs cs' g',
    generateCuts sorter g e cs = Done (cs', g') ->
    (~ getMinViolation g == -1 \/ early_exit g e = false \/ ce_ptol e == -1) ->
    getMinViolation g' == getMinViolation g.
Proof.
  intros sorter g e cs cs' g' E H. rewrite generate_unfold in E. cbv zeta in E.
  assert (T : ~ getMinViolation g == -1 \/ ce_ptol e == -1 -> tolerance_in_force g (ce_ptol e) == getMinViolation g).
  { unfold tolerance_in_force. intro X. destruct (Qeq_bool (getMinViolation g) (-1)) eqn:Q; [|reflexivity].
    apply Qeq_bool_iff in Q. destruct X as [X|X]; [contradiction|lra]. }
  destruct (early_exit g e) eqn:EE.
  - apply Done_inj in E. injection E as <- <-. simpl. apply T. destruct H as [H|[H|H]]; [auto|discriminate|auto].
  - destruct (existsb _ _); [discriminate|].
    apply bind_done in E as (c1 & _ & E). apply bind_done in E as (c2 & _ & E).
    apply Done_inj in E. injection E as <- <-. simpl.
    destruct (Qeq_bool (getMinViolation g) (-1)) eqn:Q; [apply Qeq_bool_iff in Q; rewrite Q; reflexivity|].
    apply T. left. intro X. apply Qeq_bool_iff in X. congruence.
Qed.
Print Assumptions C09_min_violation_unchanged.
Theorem C09_nothing_else_changes :
  forall sorter g e cs cs' g',
    generateCuts sorter g e cs = Done (cs', g') -> g' = setMinViolation g (getMinViolation g').
Proof.
  intros sorter g e cs cs' g' E. rewrite generate_unfold in E. cbv zeta in E.
  destruct (early_exit g e).
  - apply Done_inj in E. injection E as <- <-. reflexivity.
  - destruct (existsb _ _); [discriminate|].
    apply bind_done in E as (c1 & _ & E). apply bind_done in E as (c2 & _ & E).
    apply Done_inj in E. injection E as <- <-. reflexivity.
Qed.
Print Assumptions C09_nothing_else_changes.
Example C09_example :
  early_exit (clq_new false false) (ClqEnv triangle half ptol7 false 0) = false /\
  ~ getMinViolation (setMinViolation (clq_new false false) (1 # 10)) == -1.
Proof. split; [vm_compute; reflexivity|vm_compute; discriminate]. Qed.
(** At an integral LP solution the generator keeps the solver's tolerance as
    if the user had set it. *)
Theorem C09_early_exit_refuted :
  exists g', generateCuts (fun l => l) (clq_new false false) (ClqEnv triangle (fun _ => 0) ptol7 false 0) [] = Done ([], g') /\
    getMinViolation (clq_new false false) == -1 /\ getMinViolation g' == ptol7.
Proof. eexists. conjs; veq. Qed.
Print Assumptions C09_early_exit_refuted.
