(** * Properties of CglOddWheel (C72 - C74) *)

From Verif Require Import Spec Base Decide Spec_Literals Model_BKClique Proofs_BKClique Model_OddWheel Proofs_OddWheel.
From Coq Require Import Lia Lqa Arith Permutation.
Open Scope Q_scope.

(** ** C72: the cuts keep every feasible point *)

Lemma built_valid m adj w c y : graph_sound m adj -> wheel_ok (m_ncols m) adj w ->
  built_from (m_ncols m) w c -> feasible m y -> rowcut_sat c y.
Proof.
  intros GS (L5 & CW & RH & NC & CC & CH) (LB & u & UB & k & K & V) F. set (n := m_ncols m) in *.
  unfold rowcut_sat. rewrite LB, UB. cbn [ge_opt_lo le_opt_hi]. split; [exact Logic.I|].
  specialize (V y). pose proof (hole_bound m adj GS y _ F CW) as HB. fold n in HB. rewrite <- RH in HB.
  assert (CV : forall a, In a (w_center w) -> exists b, adj a b).
  { intros a A. destruct (w_hole w) as [|h t]; [cbn in L5; lia|]. exists h. apply CH; [exact A|left; reflexivity]. }
  (* either no centre literal is at one, or the rim is at zero and exactly one is *)
  assert (C01 : lits_sum n (w_center w) y == 0 \/
                lits_sum n (w_center w) y == 1 /\ lits_sum n (w_hole w) y <= 0).
  { assert (LE : lits_sum n (w_center w) y <= 1).
    { apply lits_sum_le1; [exact NC| |].
      - intros l L. apply (vertex_01 m adj GS y l F (CV l L)).
      - intros a b A B AB. apply (GS a b (CC a b A B AB)). exact F. }
    assert (Z : (forall a, In a (w_center w) -> lit_val n a y == 0) \/ exists a, In a (w_center w) /\ lit_val n a y == 1).
    { clear - GS F CV. subst n. induction (w_center w) as [|a l IH]; [left; intros a []|].
      destruct (vertex_01 m adj GS y a F (CV a (or_introl eq_refl))) as [E|E].
      - destruct IH as [Z|(b & B1 & B2)]; [intros; apply CV; right; assumption| |].
        + left. intros b [<-|B]; [exact E|apply Z; exact B].
        + right. exists b. split; [right; exact B1|exact B2].
      - right. exists a. split; [left; reflexivity|exact E]. }
    destruct Z as [Z|(a & A1 & A2)].
    - left. clear - Z. induction (w_center w) as [|a l IH]; cbn [lits_sum]; [reflexivity|].
      rewrite (Z a (or_introl eq_refl)), IH; [ring|intros; apply Z; right; assumption].
    - right. split.
      + assert (lit_val n a y <= lits_sum n (w_center w) y); [|lra].
        apply lits_sum_ge1; [|exact A1]. intros l L.
        destruct (vertex_01 m adj GS y l F (CV l L)) as [E|E]; fold n in E; rewrite E; lra.
      + apply (rim_zero m adj GS y a _ F A2). intros b B. apply CH; [exact A1|exact B]. }
  assert (NN : 0 <= inject_Z (Z.of_nat (negs n (w_hole w)))).
  { change 0 with (inject_Z 0). rewrite <- Zle_Qle. lia. }
  assert (R0 : 0 <= w_rhs w). { rewrite RH. change 0 with (inject_Z 0). rewrite <- Zle_Qle. lia. }
  assert (KL : k <= w_rhs w).
  { destruct K as [K|[K _]]; rewrite K; [unfold centre_coef; lra|exact R0]. }
  destruct C01 as [C|[C H0]].
  - assert (k * lits_sum n (w_center w) y == 0) by (rewrite C; ring). lra.
  - assert (k * lits_sum n (w_center w) y == k) by (rewrite C; ring). lra.
Qed.

(** The collection only grows, every cut added keeps all points of any
    program about which the conflict graph is right, and the marks are those
    of C68. *)
Theorem C72_valid : forall e adj m i nr gs x o cs cs',
  wenv_ok (m_ncols m) adj e -> graph_sound m adj ->
  generateCuts e i (m_ncols m) nr gs x o cs = Done cs' ->
  exists new, cs' = cs ++ new /\
    forall c g, In (c, g) new -> keeps_all m c /\ (g = true <-> global_mark i).
Proof.
  intros e adj m i nr gs x o cs cs' EK GS H.
  destruct (generate_ok e adj i _ nr gs x o cs cs' EK H) as (new & E & N).
  eexists. split; [exact E|]. intros c g C. apply in_map_iff in C. destruct C as (c' & P & C).
  inversion P; subst. split; [|apply mark_ok].
  destruct (N c C) as (w & _ & WK & BF). intros y F. apply (built_valid m adj w c y GS WK BF F).
Qed.
Print Assumptions C72_valid.

(** ** C73: how much the LP solution violates them *)

(** Amount by which the odd-hole inequality of a structure is violated. *)
Definition hole_violation (n : nat) (w : wheel) (x : point) : Q :=
  lits_sum n (w_hole w) x - inject_Z (Z.of_nat (List.length (w_hole w) / 2)).

(** Each cut comes from a structure the separator found at this point, and,
    if at most half of the rim is complemented, it is violated by at least as
    much as the plain odd-hole inequality: putting centres in never costs
    anything then.  Missing for the full statement: rims of which more than
    half is complemented, for which it fails. *)
Theorem C73_violated_partial : forall e adj m i nr gs x o cs cs',
  wenv_ok (m_ncols m) adj e -> graph_sound m adj -> in_bounds m x ->
  generateCuts e i (m_ncols m) nr gs x o cs = Done cs' ->
  exists new, cs' = cs ++ new /\
    forall c g, In (c, g) new -> exists w t, In w (w_search e (lval (m_ncols m) x) (o_ext o) t) /\
      ((negs (m_ncols m) (w_hole w) <= List.length (w_hole w) / 2)%nat ->
       hole_violation (m_ncols m) w x <= rowcut_violation c x).
Proof.
  intros e adj m i nr gs x o cs cs' EK GS B H.
  destruct (generate_ok e adj i _ nr gs x o cs cs' EK H) as (new & E & N).
  eexists. split; [exact E|]. intros c g C. apply in_map_iff in C. destruct C as (c' & P & C).
  inversion P; subst. destruct (N c C) as (w & W & WK & (LB & u & UB & k & K & V)).
  exists w. eexists. split; [exact W|]. intros NG. specialize (V x).
  destruct WK as (L5 & CW & RH & NC & CC & CH). unfold hole_violation. rewrite <- RH.
  assert (K0 : 0 <= k).
  { destruct K as [K|[K _]]; rewrite K; [|lra]. unfold centre_coef. rewrite RH.
    assert (inject_Z (Z.of_nat (negs (m_ncols m) (w_hole w))) <= inject_Z (Z.of_nat (List.length (w_hole w) / 2))); [|lra].
    rewrite <- Zle_Qle. lia. }
  assert (C0 : 0 <= lits_sum (m_ncols m) (w_center w) x).
  { apply lits_sum_nonneg. intros l L. apply (vertex_box m adj GS x l B).
    destruct (w_hole w) as [|h t]; [cbn in L5; lia|]. exists h. apply CH; [exact L|left; reflexivity]. }
  assert (0 <= k * lits_sum (m_ncols m) (w_center w) x) by (apply Qmult_le_0_compat; assumption).
  assert (LW : lits_sum (m_ncols m) (w_hole w) x - w_rhs w <= value (rc_form c) x - u) by lra.
  unfold rowcut_violation. rewrite LB, UB.
  destruct (Qle_bool 0 (value (rc_form c) x - u)) eqn:E0.
  - destruct (Qle_bool (value (rc_form c) x - u) 0) eqn:E1; [apply Qleb_le in E1|]; lra.
  - apply Qleb_gt in E0. replace (Qle_bool 0 0) with true by reflexivity. lra.
Qed.
Print Assumptions C73_violated_partial.

(** ** Cases *)

Definition zero : nat -> option Q := fun _ => Some 0.
Definition one : nat -> option Q := fun _ => Some 1.
Definition ints : nat -> bool := fun _ => true.
Definition half : point := fun _ => 1 # 2.
Definition root : info := Info false 4 0.
Lemma zero_one_bin n rows j : bin_col (Mip n rows zero one ints) j.
Proof. unfold bin_col. cbn. conjs; [reflexivity|exists 0; split; [reflexivity|lra]|exists 1; split; [reflexivity|lra]]. Qed.

(** Six columns.  The row of an edge between literals [a] and [b] says that
    they are not both one. *)
Definition edge_row (a b : nat) : row :=
  Row [if (a <? 6)%nat then (a, 1) else ((a - 6)%nat, -(1)); if (b <? 6)%nat then (b, 1) else ((b - 6)%nat, -(1))]
      None (Some ((if (a <? 6)%nat then 1 else 0) + (if (b <? 6)%nat then 0 else -(1)))).
Lemma edge_row_ok a b y : (a < 12)%nat -> (b < 12)%nat -> row_sat (edge_row a b) y -> lit_val 6 a y + lit_val 6 b y <= 1.
Proof.
  intros A B [_ R]. unfold edge_row in R. cbn [r_form r_hi le_opt_hi] in R. unfold lit_val.
  destruct (a <? 6)%nat, (b <? 6)%nat; cbn [value] in R; lra.
Qed.

Definition prog (es : list (nat * nat)) : mip := Mip 6 (map (fun p => edge_row (fst p) (snd p)) es) zero one ints.
Definition adj_of (es : list (nat * nat)) (a b : nat) : Prop := In (a, b) es \/ In (b, a) es.
Lemma prog_sound es : (forall a b, In (a, b) es -> (a < 12)%nat /\ (b < 12)%nat) -> graph_sound (prog es) (adj_of es).
Proof.
  intros L a b AB. assert (LL : (a < 12)%nat /\ (b < 12)%nat) by (destruct AB as [K|K]; specialize (L _ _ K); tauto).
  conjs; try (cbn; lia); try apply zero_one_bin.
  intros y (F & _) [VA VB]. cbn [prog m_ncols] in VA, VB.
  assert (lit_val 6 a y + lit_val 6 b y <= 1); [|lra].
  assert (P : forall r, In r (m_rows (prog es)) -> row_sat r y) by exact F.
  destruct AB as [K|K].
  - apply edge_row_ok; [tauto|tauto|]. apply P. apply in_map_iff. exists (a, b). split; [reflexivity|exact K].
  - assert (lit_val 6 b y + lit_val 6 a y <= 1); [|lra].
    apply edge_row_ok; [tauto|tauto|]. apply P. apply in_map_iff. exists (b, a). split; [reflexivity|exact K].
Qed.
Definition same (cs : list (vec * Q)) : list (vec * Q) := cs.
Lemma same_pool : pool_ok same.
Proof. intros cs c C. exists c. conjs; [exact C|apply Permutation_refl|reflexivity]. Qed.

(** A five-hole on columns 0..4 with column 5 in conflict with all of it. *)
Definition es1 : list (nat * nat) :=
  [(0, 1); (1, 2); (2, 3); (3, 4); (4, 0); (5, 0); (5, 1); (5, 2); (5, 3); (5, 4)]%nat.
Definition wheel1 : wheel := Wheel [0; 1; 2; 3; 4]%nat 2 [5]%nat.
Definition env1 : wenv := WEnv (fun _ k _ => [Wheel (w_hole wheel1) 2 (if (k =? 0)%nat then [] else [5]%nat)]) same (fun _ _ => false).
Lemma env1_ok : wenv_ok 6 (adj_of es1) env1.
Proof.
  split; [|exact same_pool]. intros xv k t w [<-|[]]. unfold wheel_ok. cbn [w_hole w_center w_rhs wheel1].
  assert (A : forall a b, In a (if (k =? 0)%nat then [] else [5]%nat) -> In b [0; 1; 2; 3; 4]%nat -> adj_of es1 a b).
  { intros a b A. destruct (k =? 0)%nat; [destruct A|]. destruct A as [<-|[]].
    intros [<-|[<-|[<-|[<-|[<-|[]]]]]]; unfold adj_of; cbn; tauto. }
  conjs.
  - cbn. lia.
  - cbn. unfold adj_of. cbn. tauto.
  - reflexivity.
  - destruct (k =? 0)%nat; repeat constructor. intros [].
  - intros a b HA HB N. destruct (k =? 0)%nat; [destruct HA|]. destruct HA as [<-|[]]. destruct HB as [<-|[]]. contradiction.
  - exact A.
Qed.

(** C72, C73: x0 + .. + x4 + 2 x5 <= 2 is added, and the half point violates it
    by 3/2 where the hole alone is violated by 1/2. *)
Example C72_case : generateCuts env1 root 6 10 12 half (ow_new 2) [] =
  Done [(RowCut [(0%nat, 1); (1%nat, 1); (2%nat, 1); (3%nat, 1); (4%nat, 1); (5%nat, 2)] None (Some 2), true)].
Proof. vm_compute. reflexivity. Qed.
Example C73_case : in_bounds (prog es1) half /\ graph_sound (prog es1) (adj_of es1) /\
  hole_violation 6 wheel1 half == 1 # 2 /\
  rowcut_violation (RowCut [(0%nat, 1); (1%nat, 1); (2%nat, 1); (3%nat, 1); (4%nat, 1); (5%nat, 2)] None (Some 2)) half == 3 # 2.
Proof.
  conjs.
  - intros j J. cbn. unfold half. split; lra.
  - apply prog_sound. intros a b K. cbn in K.
    repeat (destruct K as [K|K]; [inversion K; subst; lia|]). destruct K.
  - vm_compute. reflexivity.
  - vm_compute. reflexivity.
Qed.

(** The same with the rim complemented.  The centre then gets the coefficient
    2 - 5 = -3: at the half point the hole is violated by 1/2, and so would be
    the hole lifted with coefficient 2, but the cut that is added is not
    violated at all. *)
Definition es2 : list (nat * nat) :=
  [(6, 7); (7, 8); (8, 9); (9, 10); (10, 6); (5, 6); (5, 7); (5, 8); (5, 9); (5, 10)]%nat.
Definition wheel2 : wheel := Wheel [6; 7; 8; 9; 10]%nat 2 [5]%nat.
Definition env2 : wenv := WEnv (fun _ _ _ => [wheel2]) same (fun _ _ => false).
Lemma env2_ok : wenv_ok 6 (adj_of es2) env2.
Proof.
  split; [|exact same_pool]. intros xv k t w [<-|[]]. unfold wheel_ok. cbn [w_hole w_center w_rhs wheel2]. conjs.
  - cbn. lia.
  - cbn. unfold adj_of. cbn. tauto.
  - reflexivity.
  - repeat constructor. intros [].
  - intros a b [<-|[]] [<-|[]] N. contradiction.
  - intros a b [<-|[]] [<-|[<-|[<-|[<-|[<-|[]]]]]]; unfold adj_of; cbn; tauto.
Qed.
Theorem C73_lifting_refuted : exists e adj m x c w,
  wenv_ok (m_ncols m) adj e /\ graph_sound m adj /\ in_bounds m x /\
  generateCuts e root (m_ncols m) 10 12 x (ow_new 2) [] = Done [(c, true)] /\
  (forall xv k t, w_search e xv k t = [w]) /\
  rowcut_violation c x == 0 /\ 0 < hole_violation (m_ncols m) w x.
Proof.
  exists env2, (adj_of es2), (prog es2), half,
    (RowCut [(0%nat, -(1) * 1); (1%nat, -(1) * 1); (2%nat, -(1) * 1); (3%nat, -(1) * 1); (4%nat, -(1) * 1); (5%nat, 2 - 1 - 1 - 1 - 1 - 1)] None (Some (-3))), wheel2.
  conjs.
  - exact env2_ok.
  - apply prog_sound. intros a b K. cbn in K.
    repeat (destruct K as [K|K]; [inversion K; subst; lia|]). destruct K.
  - intros j J. cbn. unfold half. split; lra.
  - vm_compute. reflexivity.
  - reflexivity.
  - vm_compute. reflexivity.
  - vm_compute. reflexivity.
Qed.
Print Assumptions C73_lifting_refuted.

(** ** C74: the call returns; parameters and clones *)

Theorem C74_returns : forall e adj m i nr gs x o cs,
  wenv_ok (m_ncols m) adj e -> graph_sound m adj -> (gs / 2 = m_ncols m)%nat ->
  exists cs', generateCuts e i (m_ncols m) nr gs x o cs = Done cs'.
Proof. intros. eapply generate_done; eassumption. Qed.
Print Assumptions C74_returns.

Theorem C74_wrong_graph : forall e i n nr gs x o cs, n <> 0%nat -> nr <> 0%nat -> (gs / 2 <> n)%nat ->
  generateCuts e i n nr gs x o cs = Aborts.
Proof.
  intros e i n nr gs x o cs N R G. unfold generateCuts.
  destruct (Nat.eqb_spec n 0); [contradiction|]. destruct (Nat.eqb_spec nr 0); [contradiction|].
  destruct (Nat.eqb_spec n (gs / 2)); [congruence|]. reflexivity.
Qed.
Print Assumptions C74_wrong_graph.

(** The extension method: what was set last, kept by clones; numbers above
    two stop the program. *)
Fixpoint last_ext (l : list ow_set) (d : nat) : nat :=
  match l with [] => d | WSetExt k :: l' => last_ext l' k | _ :: l' => last_ext l' d end.
Theorem C74_extension : forall l o, 
  ((forall k, In (WSetExt k) l -> (k <= 2)%nat) ->
   exists o', ofold ow_apply l o = Done o' /\ o_ext o' = last_ext l (o_ext o) /\ o_ext (ow_copy o') = last_ext l (o_ext o)) /\
  (forall k, (2 < k)%nat -> ow_apply o (WSetExt k) = Aborts).
Proof.
  intros l o. split.
  - revert o. induction l as [|s l IH]; intros o K.
    + exists o. conjs; reflexivity.
    + assert (X : exists o1, ow_apply o s = Done o1 /\ last_ext (s :: l) (o_ext o) = last_ext l (o_ext o1)).
      { destruct s as [k|q|z|b]; cbn [ow_apply]; try (eexists; split; reflexivity).
        specialize (K k (or_introl eq_refl)). destruct (Nat.ltb_spec 2 k); [lia|eexists; split; reflexivity]. }
      destruct X as (o1 & E & ->). cbn [ofold]. rewrite E. cbn [bind]. apply IH. intros k H. apply K. right. exact H.
  - intros k H. cbn [ow_apply]. destruct (Nat.ltb_spec 2 k); [reflexivity|lia].
Qed.
Print Assumptions C74_extension.

(** A clone does not keep the time limit, the aggressiveness or the
    global-cuts flag: a separator that respects its time limit finds the
    structure when called by the clone, and not when called by the
    original. *)
Definition env3 : wenv :=
  WEnv (fun _ _ t => if Qeq_bool t 0 then [wheel1] else []) same (fun _ _ => false).
Theorem C74_clone_refuted : exists e adj m o,
  wenv_ok (m_ncols m) adj e /\ graph_sound m adj /\
  ofold ow_apply [WSetSecs 1; WSetAggr 100; WSetGlobal true] (ow_new 2) = Done o /\
  o_secs (ow_copy o) <> o_secs o /\ o_aggr (ow_copy o) <> o_aggr o /\ o_global (ow_copy o) <> o_global o /\
  generateCuts e root (m_ncols m) 10 12 half o [] <> generateCuts e root (m_ncols m) 10 12 half (ow_copy o) [].
Proof.
  exists env3, (adj_of es1), (prog es1). eexists. conjs.
  - split; [|exact same_pool]. intros xv k t w W. cbn [env3 w_search] in W.
    destruct (Qeq_bool t 0); [|destruct W]. destruct W as [<-|[]].
    apply (proj1 env1_ok xv 1%nat t). left. reflexivity.
  - apply prog_sound. intros a b K. cbn in K.
    repeat (destruct K as [K|K]; [inversion K; subst; lia|]). destruct K.
  - reflexivity.
  - discriminate.
  - discriminate.
  - discriminate.
  - vm_compute. discriminate.
Qed.
Print Assumptions C74_clone_refuted.
Example C74_case : exists o, ofold ow_apply [WSetExt 1; WSetSecs 5; WSetExt 2; WSetExt 0] (ow_new 2) = Done o /\ o_ext (ow_copy o) = 0%nat.
Proof. eexists. split; reflexivity. Qed.
