(** * Properties of CglMixedIntegerRounding2: C98 to C102 *)

From Coq Require Import Qabs Permutation.
From Verif Require Import Base.
From Verif Require Import Proofs_MirCore Model_MIR Proofs_MIR Proofs_MIRTotal Props_MIR Model_MIR2 Proofs_MIR2.
Local Open Scope Q_scope.

(** ** Specification *)
(** The calls a user can make.  A call that throws leaves the generator with
    its settings. *)
Inductive op2 :=
  | O2MaxAggr (v : Z) | O2Multiply (b : bool) | O2Criterion (v : Z) | O2Mode (v : Z)
  | O2Refresh (c : call) | O2Copy | O2Generate (q : call2).
(** The negated copy of the solver is used in this call. *)
Definition swaps (clp : bool) (q : call2) : bool :=
  clp && negb (q_inTree q) && q_clpmin q && (0 <=? q_level q)%Z && existsb no_upper (m_rows (c_mip (q_call q))).
(** The object after a call of generateCuts ([C101_object_after]) *)
Definition object_after (clp : bool) (g : mir2) (q : call2) : mir2 :=
  match eff_aggr (m2_maxaggr g) (q_inTree q) (q_pass q) with
  | None => g
  | Some v =>
      let g1 := prepared2 (with_aggr g v) (q_call q) in
      if swaps clp q then prepared2 g1 (neg_call (q_call q)) else with_aggr g1 (m2_maxaggr g)
  end.
Definition step2 (clp : bool) (g : mir2) (o : op2) : mir2 :=
  match o with
  | O2MaxAggr v => or_same g (setMAXAGGR2 g v)
  | O2Multiply b => setMULTIPLY2 g b
  | O2Criterion v => or_same g (setCRITERION2 g v)
  | O2Mode v => or_same g (setDoPreproc2 g v)
  | O2Refresh c => refreshSolver2 g c
  | O2Copy => m2_copy g
  | O2Generate q => object_after clp g q
  end.
Definition run2 (clp : bool) (g : mir2) (ops : list op2) : mir2 := fold_left (step2 clp) ops g.
(** Earlier calls are made on models with clear rows that [m] extends, and do
    not use a negated copy. *)
Definition op_ok2 (clp : bool) (m : mip) (o : op2) : Prop :=
  match o with
  | O2Generate q => swaps clp q = false /\ extends (c_mip (q_call q)) m /\ clear_rows (c_mip (q_call q))
  | O2Refresh c => extends (c_mip c) m /\ clear_rows (c_mip c)
  | _ => True
  end.

(** ** Preprocessing *)
Lemma row_prep2_type m act r :
  rp_type (row_prep2 m act r) = RUndefined \/ rp_type (row_prep2 m act r) = rp_type (row_prep m act r).
Proof.
  unfold row_prep2. cbn [rp_type]. unfold determineRowType2.
  change (rp_type (row_prep m act r)) with (determineRowType m (r_form r) (rp_sense (row_prep m act r)) (rp_rhs (row_prep m act r))).
  destruct (r_form r); [auto|]. destruct (rp_sense (row_prep m act r)); auto; destruct (_ <? _); auto.
Qed.
Lemma prep2_len c : length (p_rows (preprocess2 c)) = length (m_rows (c_mip c)).
Proof. unfold preprocess2. simpl. rewrite map_length, len_combine_seq. reflexivity. Qed.
Lemma prep2_row c i : (i < length (m_rows (c_mip c)))%nat ->
  rowp_at (preprocess2 c) i = row_prep2 (c_mip c) (c_act c i) (nth i (m_rows (c_mip c)) no_row).
Proof.
  intro H. unfold rowp_at, preprocess2. cbn [p_rows].
  set (f := fun ir : nat * row => row_prep2 (c_mip c) (c_act c (fst ir)) (snd ir)).
  rewrite (nth_indep _ _ (f (0%nat, no_row))) by (rewrite map_length, len_combine_seq; exact H).
  rewrite map_nth, nth_combine_seq by exact H. reflexivity.
Qed.
Lemma in_prep2_rows c rr :
  In rr (combine (map (fun ir => row_prep2 (c_mip c) (c_act c (fst ir)) (snd ir)) (combine (seq 0 (length (m_rows (c_mip c)))) (m_rows (c_mip c)))) (m_rows (c_mip c))) ->
  In (snd rr) (m_rows (c_mip c)) /\ exists act, fst rr = row_prep2 (c_mip c) act (snd rr).
Proof.
  assert (X : forall (l : list row) s rr,
    In rr (combine (map (fun ir => row_prep2 (c_mip c) (c_act c (fst ir)) (snd ir)) (combine (seq s (length l)) l)) l) ->
    In (snd rr) l /\ exists act, fst rr = row_prep2 (c_mip c) act (snd rr)).
  { induction l as [|r l IH]; simpl; intros s rr0 H; [destruct H|]. destruct H as [<-|H]; [simpl; eauto|].
    apply IH in H as (H & G). auto. }
  apply X.
Qed.
Lemma prep2_start c i : In i (p_start (preprocess2 c)) ->
  (i < length (m_rows (c_mip c)))%nat /\
  (rp_type (rowp_at (preprocess2 c) i) = RMix \/ rp_type (rowp_at (preprocess2 c) i) = RCont \/ rp_type (rowp_at (preprocess2 c) i) = RInt).
Proof.
  intro H. unfold preprocess2 in H. cbn [p_start] in H.
  set (rps := map _ (combine (seq 0 _) _)) in H.
  assert (Lr : length rps = length (m_rows (c_mip c))) by (unfold rps; rewrite map_length, len_combine_seq; reflexivity).
  assert (G : forall f, In i (positions f (combine rps (m_rows (c_mip c)))) ->
          (i < length (m_rows (c_mip c)))%nat /\ exists rr, f rr = true /\ fst rr = rowp_at (preprocess2 c) i).
  { intros f F. apply positions_bound in F as (F1 & rr & F2 & F3). rewrite combine_length, Lr, Nat.min_id in F1.
    split; [exact F1|]. exists rr. split; [exact F3|].
    assert (X : forall A B (u : list A) (v : list B) k ab d, nth_error (combine u v) k = Some ab -> fst ab = nth k u d).
    { induction u as [|a1 u IHu]; intros [|b1 v] [|k] ab d E; simpl in *; try discriminate.
      - injection E as <-. reflexivity.
      - apply (IHu v). exact E. }
    apply (X _ _ _ _ _ _ (RowP RUndefined SenseN 0) F2). }
  apply in_app_iff in H as [H|H]; [|apply in_app_iff in H as [H|H]]; apply G in H as (L & rr & F & <-); (split; [exact L|]).
  - destruct (rp_type (fst rr)); try discriminate; auto.
  - apply andb_true_iff in F as (F & _). destruct (rp_type (fst rr)); try discriminate; auto.
  - destruct (rp_type (fst rr)); try discriminate; auto.
Qed.
Lemma prep2_vb c0 upper j b :
  (if upper : bool then p_vub (preprocess2 c0) j else p_vlb (preprocess2 c0) j) = Some b ->
  exists r act, In r (m_rows (c_mip c0)) /\ var_bound (c_mip c0) (r_form r) = (j, b) /\
    (rp_type (row_prep (c_mip c0) act r) = (if upper then RVarUB else RVarLB) \/ rp_type (row_prep (c_mip c0) act r) = RVarEQ).
Proof.
  intro H.
  assert (F : exists rr, In rr (combine (map (fun ir => row_prep2 (c_mip c0) (c_act c0 (fst ir)) (snd ir)) (combine (seq 0 (length (m_rows (c_mip c0)))) (m_rows (c_mip c0)))) (m_rows (c_mip c0))) /\
    var_bound (c_mip c0) (r_form (snd rr)) = (j, b) /\
    (rp_type (fst rr) = (if upper then RVarUB else RVarLB) \/ rp_type (fst rr) = RVarEQ)).
  { destruct upper; apply vb_fold in H as [H|H]; try discriminate; exact H. }
  destruct F as (rr & I1 & V & T). apply in_prep2_rows in I1 as (I1 & act & E). rewrite E in T.
  exists (snd rr), act. conjs; [exact I1|exact V|].
  destruct (row_prep2_type (c_mip c0) act (snd rr)) as [U|U]; rewrite U in T; [|exact T].
  destruct upper, T; discriminate.
Qed.
Lemma preprocess2_ok c0 m y :
  extends (c_mip c0) m -> clear_rows (c_mip c0) -> wf_mip m -> feasible m y -> prep_ok (preprocess2 c0) m y.
Proof.
  intros X C W (Rs & _ & _). assert (X' := X). destruct X' as (X1 & (ex & X2) & X3).
  assert (Row : forall i, (i < length (m_rows (c_mip c0)))%nat ->
    used_sense (rp_sense (rowp_at (preprocess2 c0) i)) \/
    rp_type (rowp_at (preprocess2 c0) i) = RUndefined \/ rp_type (rowp_at (preprocess2 c0) i) = ROther).
  { intros i L. rewrite prep2_row by exact L. set (r := nth i _ _).
    destruct (row_prep2_type (c_mip c0) (c_act c0 i) r) as [U|U]; [auto|]. rewrite U.
    destruct (row_prep_type (c_mip c0) (c_act c0 i) r) as [T|[T|T]]; [auto|auto|left; exact T]. }
  assert (VB : forall upper j b,
     (if upper : bool then p_vub (preprocess2 c0) j else p_vlb (preprocess2 c0) j) = Some b ->
     vb_ok (preprocess2 c0) m b /\
     if upper then y j <= vb_val b * y (vb_var b) else vb_val b * y (vb_var b) <= y j).
  { intros upper j b H. apply prep2_vb in H as (r & act & I1 & V & T).
    assert (Im : In r (m_rows m)) by (rewrite X2; apply in_app_iff; auto).
    destruct (C _ I1) as (Ca & Cl & Ch).
    destruct (var_bound_ok (c_mip c0) act r y Ca Cl Ch (Rs _ Im)) as (A1 & A2 & A3).
    rewrite V in *. cbn [fst snd] in *. split.
    - assert (A : In (vb_var b) (map fst (r_form r)) /\ m_int (c_mip c0) (vb_var b) = true) by (apply A1; destruct upper; tauto).
      destruct A as (A & B). split; [|rewrite X3; exact B]. simpl. rewrite <- X1.
      apply in_map_iff in A as ((k, q) & <- & A). apply (proj2 (W _ Im) k q A).
    - destruct upper; [apply A2; tauto|apply A3; tauto]. }
  constructor.
  - simpl. symmetry. exact X1.
  - intros i L. rewrite prep2_len in L. destruct (extends_row _ m i X L) as (E1 & E2).
    destruct (W _ E2) as (W1 & W2). rewrite E1. conjs; [exact W1| | |].
    + intros j Hj. apply in_map_iff in Hj as ((k, q) & <- & Hj). simpl. rewrite <- X1. apply (W2 k q Hj).
    + rewrite prep2_row by exact L. unfold row_prep2. cbn [rp_sense rp_rhs]. apply row_prep_side. apply Rs. exact E2.
    + intros T. destruct (Row i L) as [U|[U|U]]; [exact U|rewrite U in T; destruct T; discriminate..].
  - intros i H. apply prep2_start in H as (L & T). split; [rewrite prep2_len; exact L|].
    destruct (Row i L) as [U|[U|U]]; [exact U|rewrite U in T; destruct T as [T|[T|T]]; discriminate..].
  - intros j b. apply (VB true).
  - intros j b. apply (VB false).
Qed.

(** ** Histories *)
Definition cache_ok2 (m : mip) (g : mir2) : Prop :=
  m2_done g = true -> exists c0, m2_prep g = preprocess2 c0 /\ extends (c_mip c0) m /\ clear_rows (c_mip c0).
Lemma must_not2 g c : must_preprocess2 g c = false -> m2_done g = true.
Proof.
  unfold must_preprocess2. destruct (_ && _); [intro H; qb; exact H|].
  destruct (_ =? _)%Z; [discriminate|intro H; qb; exact H].
Qed.
Lemma prepared2_ok m g c : extends (c_mip c) m -> clear_rows (c_mip c) -> cache_ok2 m g ->
  exists c0, m2_prep (prepared2 g c) = preprocess2 c0 /\ extends (c_mip c0) m /\ clear_rows (c_mip c0).
Proof.
  intros X C K. unfold prepared2. destruct (must_preprocess2 g c) eqn:M; simpl; [eauto|]. apply K, (must_not2 g c M).
Qed.
Lemma step2_ok clp m g o : op_ok2 clp m o -> cache_ok2 m g -> cache_ok2 m (step2 clp g o).
Proof.
  intros O K. destruct o; simpl in *.
  - unfold setMAXAGGR2. destruct (_ || _); exact K.
  - exact K.
  - unfold setCRITERION2. destruct (_ && _); exact K.
  - unfold setDoPreproc2. destruct (_ && _ && _); exact K.
  - unfold refreshSolver2. destruct (m_rows (c_mip c)); [discriminate|]. intros _. exists c. tauto.
  - exact K.
  - unfold object_after. destruct (eff_aggr _ _ _) as [v|]; [|exact K]. cbv zeta. destruct O as (-> & X & C).
    intros _. simpl. apply (prepared2_ok m (with_aggr g v)); auto.
Qed.
Lemma run2_ok clp m ops : forall g, Forall (op_ok2 clp m) ops -> cache_ok2 m g -> cache_ok2 m (run2 clp g ops).
Proof.
  induction ops as [|o ops IH]; simpl; intros g F K; [exact K|].
  inversion F; subst. apply IH; [assumption|]. apply step2_ok; assumption.
Qed.
Lemma construct2_fresh maxaggr mult crit mode g : m2_construct maxaggr mult crit mode = Done g ->
  g = Mir2 maxaggr mult crit mode false p_none true.
Proof.
  unfold m2_construct. intro Cn.
  destruct (negb _) in Cn; [discriminate|]. destruct (negb _) in Cn; [discriminate|]. destruct (negb _) in Cn; [discriminate|].
  apply Done_inj in Cn. auto.
Qed.

(** The object and the model that the cuts come from *)
Definition working (clp : bool) (g : mir2) (q : call2) (v : Z) : mir2 * call :=
  let g1 := prepared2 (with_aggr g v) (q_call q) in
  if swaps clp q then (prepared2 g1 (neg_call (q_call q)), neg_call (q_call q)) else (g1, q_call q).
Lemma generate_working sqrt srt keep ins clp g q cs :
  generateCuts2 sqrt srt keep ins clp g q cs =
  match eff_aggr (m2_maxaggr g) (q_inTree q) (q_pass q) with
  | None => Done (g, cs, false)
  | Some v => do cs' <- from_object sqrt srt keep ins (fst (working clp g q v)) q (snd (working clp g q v)) cs;
              Done (object_after clp g q, cs', marks q)
  end.
Proof.
  unfold generateCuts2, working, object_after. cbv zeta. destruct (eff_aggr _ _ _) as [v|]; [|reflexivity].
  fold (swaps clp q). destruct (swaps clp q); reflexivity.
Qed.
(** No tolerance test misjudges an aggregated row (see C24); here a coefficient
    of an aggregated row may be below the tolerance but not equal to it. *)
Definition run_clear2 (keep : nat * Q -> bool) (clp : bool) (g : mir2) (q : call2) : Prop :=
  forall v i a, eff_aggr (m2_maxaggr g) (q_inTree q) (q_pass q) = Some v ->
  let h := fst (working clp g q v) in let c := snd (working clp g q v) in
  In i (p_start (m2_prep h)) ->
  In a (fst (more2 keep (m2_prep h) (c_mip c) (c_x c) (c_act c) (Z.to_nat v - 1) [] (start (m2_prep h) (c_mip c) (c_act c) i))) ->
  agg_clear2 (m2_criterion h) (m2_prep h) (c_mip c) (c_x c) a.

Lemma prepared2_aggr g c : m2_maxaggr (prepared2 g c) = m2_maxaggr g.
Proof. unfold prepared2. destruct (must_preprocess2 g c); reflexivity. Qed.
Lemma working_aggr clp g q v : m2_maxaggr (fst (working clp g q v)) = v.
Proof. unfold working. cbv zeta. destruct (swaps clp q); cbn [fst]; rewrite !prepared2_aggr; reflexivity. Qed.
Lemma must_one g c : m2_mode g = 1%Z -> must_preprocess2 g c = true.
Proof. intro M. unfold must_preprocess2. rewrite M. simpl. rewrite andb_false_r. reflexivity. Qed.
Lemma prepared2_mode g c : m2_mode (prepared2 g c) = m2_mode g.
Proof. unfold prepared2. destruct (must_preprocess2 g c); reflexivity. Qed.

(** the negated copy has the same feasible points *)
Lemma neg_row_sat r y : row_sat r y -> row_sat (neg_row r) y.
Proof.
  unfold neg_row. destruct (no_upper r) eqn:N; [|auto]. unfold row_sat. cbn [r_form r_lo r_hi].
  intros (A & B). split; [exact I|]. pose proof (value_scale (- (1)) (r_form r) y). destruct (r_lo r); simpl in *; [|exact I]. lra.
Qed.
Lemma neg_feasible c y : feasible (c_mip c) y -> feasible (c_mip (neg_call c)) y.
Proof.
  intros (A & B & C). unfold feasible. conjs; [|exact B|exact C].
  intros r H. simpl in H. apply in_map_iff in H as (r0 & <- & H). apply neg_row_sat. apply A. exact H.
Qed.
Lemma neg_clear c : clear_rows (c_mip c) -> clear_rows (c_mip (neg_call c)).
Proof.
  intros C r H. simpl in H. apply in_map_iff in H as (r0 & <- & H). destruct (C r0 H) as (A & B & D).
  unfold neg_row. destruct (no_upper r0); [|conjs; assumption]. cbn [r_form r_lo r_hi]. conjs.
  - intros j a Hj. unfold scale in Hj. apply in_map_iff in Hj as ((k, q) & E & Hj). injection E as <- <-. cbn [fst snd].
    apply clear_opp. apply (A k q Hj).
  - exact I.
  - unfold clear_side, neg_opt in *. destruct (r_lo r0) as [l|]; [|exact I].
    destruct B as [B|B]; [left; rewrite B; reflexivity|right; rewrite Qabs_opp; exact B].
Qed.
Lemma neg_wf c : wf_mip (c_mip c) -> wf_mip (c_mip (neg_call c)).
Proof.
  intros W r H. simpl in H. apply in_map_iff in H as (r0 & <- & H). destruct (W r0 H) as (A & B).
  unfold neg_row. destruct (no_upper r0); [|split; assumption]. cbn [r_form]. split; cbn [r_form]; [rewrite scale_fst; exact A|].
  intros j a Hj. unfold scale in Hj. apply in_map_iff in Hj as ((k, q) & E & Hj). injection E as <- <-. cbn [fst]. apply (B k q Hj).
Qed.
(** Either no negated copy is used, or everything is preprocessed in each call *)
Definition sound_case (clp : bool) (g : mir2) (ops : list op2) (q : call2) : Prop :=
  m2_mode g = 1%Z \/ (swaps clp q = false /\ Forall (op_ok2 clp (c_mip (q_call q))) ops).
Lemma working_ok clp maxaggr mult crit mode g0 ops q v y :
  m2_construct maxaggr mult crit mode = Done g0 -> sound_case clp (run2 clp g0 ops) ops q ->
  wf_mip (c_mip (q_call q)) -> clear_rows (c_mip (q_call q)) -> feasible (c_mip (q_call q)) y ->
  let h := fst (working clp (run2 clp g0 ops) q v) in let c := snd (working clp (run2 clp g0 ops) q v) in
  prep_ok (m2_prep h) (c_mip c) y /\ feasible (c_mip c) y.
Proof.
  intros Cn S W C Fy. cbv zeta. unfold working. cbv zeta.
  destruct (swaps clp q) eqn:Sw; cbn [fst snd].
  - destruct S as [S|(S & _)]; [|congruence]. split; [|apply neg_feasible; exact Fy].
    unfold prepared2 at 1. rewrite must_one by (rewrite prepared2_mode; exact S). cbn [m2_prep].
    apply preprocess2_ok; [apply extends_refl|apply neg_clear; exact C|apply neg_wf; exact W|apply neg_feasible; exact Fy].
  - split; [|exact Fy]. destruct S as [S|(_ & F)].
    + unfold prepared2. rewrite must_one by exact S. cbn [m2_prep]. apply preprocess2_ok; auto using extends_refl.
    + destruct (prepared2_ok (c_mip (q_call q)) (with_aggr (run2 clp g0 ops) v) (q_call q)) as (c0 & P & X & C0);
        [apply extends_refl|exact C| |rewrite P; apply preprocess2_ok; assumption].
      assert (K : cache_ok2 (c_mip (q_call q)) (run2 clp g0 ops)).
      { apply run2_ok; [exact F|]. unfold cache_ok2. rewrite (construct2_fresh _ _ _ _ _ Cn). discriminate. }
      exact K.
Qed.
Lemma cuts_valid2_at sqrt srt keep ins clp maxaggr mult crit mode g0 ops q cs g' cs' mk cut y :
  lib_ok srt keep -> ins_adds ins -> m2_construct maxaggr mult crit mode = Done g0 ->
  sound_case clp (run2 clp g0 ops) ops q ->
  wf_mip (c_mip (q_call q)) -> clear_rows (c_mip (q_call q)) -> integral_uppers (c_mip (q_call q)) ->
  feasible (c_mip (q_call q)) y ->
  ((forall v, let h := fst (working clp (run2 clp g0 ops) q v) in let c := snd (working clp (run2 clp g0 ops) q v) in
     prep_ok (m2_prep h) (c_mip c) y) -> run_clear2 keep clp (run2 clp g0 ops) q) ->
  generateCuts2 sqrt srt keep ins clp (run2 clp g0 ops) q cs = Done (g', cs', mk) ->
  In cut cs' -> In cut cs \/ rowcut_sat cut y.
Proof.
  intros (Ls & Lk) Ia Cn S W C U Fy R G H. rewrite generate_working in G.
  assert (Wk := fun v => working_ok clp maxaggr mult crit mode g0 ops q v y Cn S W C Fy). cbv zeta in Wk.
  specialize (R (fun v => proj1 (Wk v))). unfold run_clear2 in R. cbv zeta in R.
  destruct (eff_aggr _ _ _) as [v|] eqn:Ev; [|apply Done_inj in G; injection G as _ <- _; auto].
  specialize (Wk v). specialize (R v). pose proof (working_aggr clp (run2 clp g0 ops) q v) as Ag.
  assert (Um : integral_uppers (c_mip (snd (working clp (run2 clp g0 ops) q v)))) by (unfold working; cbv zeta; destruct (swaps clp q); exact U).
  set (w := working clp (run2 clp g0 ops) q v) in *. clearbody w. destruct w as (h, c). cbn [fst snd] in *.
  apply bind_done in G as (cs1 & G & E). apply Done_inj in E. injection E as _ <- _.
  unfold from_object in G. destruct (_ <? _)%nat; [discriminate|]. destruct Wk as (Pk & Fc). rewrite Ag in G.
  refine (generate2_ok sqrt srt keep ins (m2_criterion h) (m2_prep h) (c_mip c) (c_x c) (c_act c) y
    Ls Lk Pk _ _ _ Ia _ _ _ _ _ _ _ _ G H).
  - apply Fc.
  - apply Fc.
  - exact Um.
  - intros i a Hi Ha. apply (R i a eq_refl Hi Ha).
Qed.

(** ** C98 *)
Theorem C98_cuts_valid sqrt srt keep ins clp maxaggr mult crit mode g0 ops q cs g' cs' mk cut :
  lib_ok srt keep -> ins_adds ins -> m2_construct maxaggr mult crit mode = Done g0 ->
  sound_case clp (run2 clp g0 ops) ops q ->
  wf_mip (c_mip (q_call q)) -> clear_rows (c_mip (q_call q)) -> integral_uppers (c_mip (q_call q)) ->
  run_clear2 keep clp (run2 clp g0 ops) q ->
  generateCuts2 sqrt srt keep ins clp (run2 clp g0 ops) q cs = Done (g', cs', mk) ->
  In cut cs' -> In cut cs \/ keeps_all (c_mip (q_call q)) cut.
Proof.
  intros L Ia Cn S W C U R G H. destruct (in_dec rowcut_dec cut cs) as [I1|N1]; [left; exact I1|right].
  intros y Fy. destruct (cuts_valid2_at _ _ _ _ _ _ _ _ _ _ _ _ _ _ _ _ _ y L Ia Cn S W C U Fy (fun _ => R) G H); [contradiction|assumption].
Qed.
Print Assumptions C98_cuts_valid.

(** The hypothesis on the run follows from the data when integer columns are
    nonnegative and no coefficient of an aggregated row is at the tolerance. *)
Lemma nonneg_agg_clear2 keep crit p m x act y k i a :
  (forall e, keep e = false -> snd e == 0) -> prep_ok p m y -> in_bounds m y -> nonneg_ints m ->
  In i (p_start p) -> In a (fst (more2 keep p m x act k [] (start p m act i))) ->
  (forall j c, In (j, c) (ag_row a) -> off_eps c) -> agg_clear2 crit p m x a.
Proof.
  intros Lk P B N Hi Ha C. split; [exact C|]. intros neg kn E j q Hj.
  assert (A : agg_ok p m y a) by (apply (more2_ok keep p m x act y Lk P k [] (start p m act i) a (start_ok p m act y P i Hi) Ha)).
  apply (boundSubstitution2_ok crit p m x y P B a) in E; auto.
  - destruct (ko_idx _ _ _ _ _ _ _ _ E) as (_ & K).
    destruct (K j (in_map fst _ _ Hj)) as (K1 & K2). right. right.
    rewrite (po_cols _ _ _ P) in K1. specialize (N j K1 K2).
    destruct (m_clo m j); [|contradiction]. assert (0 < eps) by reflexivity. lra.
  - intros i' Hi'. apply (ao_idx _ _ _ _ A). destruct neg; [rewrite scale_fst in Hi'|]; exact Hi'.
  - destruct neg; rewrite ?scale_fst; apply A.
  - intros (i', r) He. destruct neg; [|apply (C i'); exact He].
    unfold scale in He. apply in_map_iff in He as ((i2, q') & Eq & He). injection Eq as <- <-. simpl.
    apply off_opp. apply (C i2). exact He.
  - pose proof (ao_eq _ _ _ _ A) as V. destruct neg; [rewrite value_scale|]; rewrite V; lra.
Qed.
Lemma clear_off q : clear_of eps q -> off_eps q.
Proof.
  unfold off_eps. assert (0 < eps) by reflexivity. intros [E|E] X; [rewrite E in X; change (Qabs 0) with 0 in X|]; lra.
Qed.
(** One row at a time: everything is a hypothesis on the data. *)
Theorem C98_single_row_valid sqrt srt keep ins clp maxaggr mult crit mode g0 ops q cs g' cs' mk cut :
  lib_ok srt keep -> ins_adds ins -> m2_construct maxaggr mult crit mode = Done g0 ->
  sound_case clp (run2 clp g0 ops) ops q ->
  eff_aggr (m2_maxaggr (run2 clp g0 ops)) (q_inTree q) (q_pass q) = Some 1%Z ->
  wf_mip (c_mip (q_call q)) -> clear_rows (c_mip (q_call q)) -> integral_uppers (c_mip (q_call q)) -> nonneg_ints (c_mip (q_call q)) ->
  generateCuts2 sqrt srt keep ins clp (run2 clp g0 ops) q cs = Done (g', cs', mk) ->
  In cut cs' -> In cut cs \/ keeps_all (c_mip (q_call q)) cut.
Proof.
  intros L Ia Cn S Ag W C U N G H. destruct (in_dec rowcut_dec cut cs) as [I1|N1]; [left; exact I1|right].
  intros y Fy.
  assert (Cl : (forall v, let h := fst (working clp (run2 clp g0 ops) q v) in let c := snd (working clp (run2 clp g0 ops) q v) in
     prep_ok (m2_prep h) (c_mip c) y) -> run_clear2 keep clp (run2 clp g0 ops) q);
    [|destruct (cuts_valid2_at _ _ _ _ _ _ _ _ _ _ _ _ _ _ _ _ _ y L Ia Cn S W C U Fy Cl G H); [contradiction|assumption]].
  intros P v i a Ev. rewrite Ag in Ev. apply Some_inj in Ev. subst v. specialize (P 1%Z). cbv zeta in P |- *.
  assert (Cc : clear_rows (c_mip (snd (working clp (run2 clp g0 ops) q 1)))) by
    (unfold working; cbv zeta; destruct (swaps clp q); [apply neg_clear|]; exact C).
  assert (Nc : nonneg_ints (c_mip (snd (working clp (run2 clp g0 ops) q 1)))) by
    (unfold working; cbv zeta; destruct (swaps clp q); exact N).
  assert (Bc : in_bounds (c_mip (snd (working clp (run2 clp g0 ops) q 1))) y) by
    (unfold working; cbv zeta; destruct (swaps clp q); apply Fy).
  set (w := working clp (run2 clp g0 ops) q 1) in *. clearbody w. destruct w as (h, c). cbn [fst snd] in *.
  intros Hi Ha. apply (nonneg_agg_clear2 keep) with (2 := P) (5 := Hi) (6 := Ha); auto; [apply L|].
  intros j r Hj. apply clear_off. destruct Ha as [<-|[]]. unfold start in Hj. cbn [ag_row] in Hj. cbv zeta in Hj.
  apply copyRow_in in Hj as [Hj|(_ & [-> | ->])]; [|apply clear_one|apply clear_mone]. eapply row_at_clear; eauto.
Qed.
Print Assumptions C98_single_row_valid.

(** Any number of aggregated rows of flow conservation form (see C24) *)
Lemma select_small2 p m x used hid (l : vec) : forall s j i,
  (forall j i, snd s = Some (j, i) -> (j < p_ncols p)%nat /\ m_int m j = false /\ usable_row p m used j i = true) ->
  snd (fold_left (select_step2 p m x used hid) l s) = Some (j, i) ->
  (j < p_ncols p)%nat /\ m_int m j = false /\ usable_row p m used j i = true.
Proof.
  induction l as [|e l IH]; cbn [fold_left]; intros s j i Hs H; [auto|].
  apply IH in H; [exact H|]. intros j' i' E. unfold select_step2 in E. cbv zeta in E.
  destruct (Nat.leb (p_ncols p) (fst e)) eqn:E1; [auto|]. cbn [orb] in E. apply Nat.leb_gt in E1.
  destruct (m_int m (fst e)) eqn:E2; [auto|]. cbn [orb] in E. destruct (_ <? _); [auto|].
  destruct (exceeds _ _); [|auto]. destruct (find _ _) as [i0|] eqn:Fd; [|auto].
  cbn [snd] in E. apply Some_inj in E. injection E as <- <-. apply find_some in Fd as (_ & Fd).
  unfold usable_row2 in Fd. apply andb_true_iff in Fd as (Fd & _). auto.
Qed.
Lemma more2_integral keep p m x act : network_rows m -> forall k hid a b, all_integral (ag_row a) ->
  In b (fst (more2 keep p m x act k hid a)) -> all_integral (ag_row b).
Proof.
  intro N. induction k as [|k IH]; cbn [more2]; intros hid a b A H; [destruct H as [<-|[]]; exact A|].
  destruct (selectRow2 p m x hid a) as [(j, i)|] eqn:S; [|destruct H as [<-|[]]; exact A].
  cbn [fst] in H. destruct H as [<-|H]; [exact A|].
  unfold selectRow2 in S. apply (select_small2 p m x) in S as (S1 & S2 & S3); [|discriminate].
  apply IH in H; [exact H|]. apply aggregate_integral; assumption.
Qed.
Lemma neg_network c : network_rows (c_mip c) -> network_rows (c_mip (neg_call c)).
Proof.
  intros N r j a H Hj. simpl in H. apply in_map_iff in H as (r0 & <- & H). unfold neg_row in Hj.
  destruct (no_upper r0); [|apply (N r0 j a H Hj)]. cbn [r_form] in Hj. unfold scale in Hj.
  apply in_map_iff in Hj as ((k, q) & E & Hj). injection E as <- <-. cbn [fst snd]. destruct (N r0 k q H Hj) as (A & B). split.
  - apply integral_mult; [exists (-1)%Z; reflexivity|exact A].
  - intro I1. simpl in I1. destruct (B I1) as [E|[E|E]]; rewrite E; [left|right; right|right; left]; reflexivity.
Qed.
Theorem C98_network_valid sqrt srt keep ins clp maxaggr mult crit mode g0 ops q cs g' cs' mk cut :
  lib_ok srt keep -> ins_adds ins -> m2_construct maxaggr mult crit mode = Done g0 ->
  sound_case clp (run2 clp g0 ops) ops q ->
  wf_mip (c_mip (q_call q)) -> network_rows (c_mip (q_call q)) -> clear_rows (c_mip (q_call q)) ->
  integral_uppers (c_mip (q_call q)) -> nonneg_ints (c_mip (q_call q)) ->
  generateCuts2 sqrt srt keep ins clp (run2 clp g0 ops) q cs = Done (g', cs', mk) ->
  In cut cs' -> In cut cs \/ keeps_all (c_mip (q_call q)) cut.
Proof.
  intros L Ia Cn S W Nw C U N G H. destruct (in_dec rowcut_dec cut cs) as [I1|N1]; [left; exact I1|right].
  intros y Fy.
  assert (Cl : (forall v, let h := fst (working clp (run2 clp g0 ops) q v) in let c := snd (working clp (run2 clp g0 ops) q v) in
     prep_ok (m2_prep h) (c_mip c) y) -> run_clear2 keep clp (run2 clp g0 ops) q);
    [|destruct (cuts_valid2_at _ _ _ _ _ _ _ _ _ _ _ _ _ _ _ _ _ y L Ia Cn S W C U Fy Cl G H); [contradiction|assumption]].
  intros P v i a Ev. specialize (P v). cbv zeta in P |- *.
  assert (Cc : network_rows (c_mip (snd (working clp (run2 clp g0 ops) q v)))) by
    (unfold working; cbv zeta; destruct (swaps clp q); [apply neg_network|]; exact Nw).
  assert (Nc : nonneg_ints (c_mip (snd (working clp (run2 clp g0 ops) q v)))) by
    (unfold working; cbv zeta; destruct (swaps clp q); exact N).
  assert (Bc : in_bounds (c_mip (snd (working clp (run2 clp g0 ops) q v))) y) by
    (unfold working; cbv zeta; destruct (swaps clp q); apply Fy).
  set (w := working clp (run2 clp g0 ops) q v) in *. clearbody w. destruct w as (h, c). cbn [fst snd] in *.
  intros Hi Ha. apply (nonneg_agg_clear2 keep) with (2 := P) (5 := Hi) (6 := Ha); auto; [apply L|].
  intros j r Hj. apply clear_off, integral_clear.
  apply more2_integral in Ha; [apply (Ha j r Hj)|exact Cc|]. unfold start. cbn [ag_row]. cbv zeta. apply copyRow_integral. exact Cc.
Qed.
Print Assumptions C98_network_valid.

(** ** C99: outcomes of a call *)
(** earlier calls saw a model that [m] extends *)
Definition grown2 (clp : bool) (m : mip) (o : op2) : Prop :=
  match o with
  | O2Generate q => swaps clp q = false /\ extends (c_mip (q_call q)) m
  | O2Refresh c => extends (c_mip c) m
  | _ => True
  end.
Definition cache_of2 (m : mip) (g : mir2) : Prop :=
  m2_done g = true -> exists c0, m2_prep g = preprocess2 c0 /\ extends (c_mip c0) m.
Lemma prepared2_of m g c : extends (c_mip c) m -> cache_of2 m g ->
  exists c0, m2_prep (prepared2 g c) = preprocess2 c0 /\ extends (c_mip c0) m.
Proof.
  intros X K. unfold prepared2. destruct (must_preprocess2 g c) eqn:M; simpl; [eauto|]. apply K, (must_not2 g c M).
Qed.
Lemma run2_of clp m ops : forall g, Forall (grown2 clp m) ops -> cache_of2 m g -> cache_of2 m (run2 clp g ops).
Proof.
  induction ops as [|o ops IH]; simpl; intros g F K; [exact K|]. inversion F as [|? ? O F']; subst. apply IH; [assumption|].
  destruct o; simpl in *.
  - unfold setMAXAGGR2. destruct (_ || _); exact K.
  - exact K.
  - unfold setCRITERION2. destruct (_ && _); exact K.
  - unfold setDoPreproc2. destruct (_ && _ && _); exact K.
  - unfold refreshSolver2. destruct (m_rows (c_mip c)); [discriminate|]. intros _. exists c. tauto.
  - exact K.
  - unfold object_after. destruct (eff_aggr _ _ _) as [v|]; [|exact K]. cbv zeta. destruct O as (-> & X).
    intros _. simpl. apply (prepared2_of m (with_aggr g v)); auto.
Qed.
Lemma neg_rows_len c : length (m_rows (c_mip (neg_call c))) = length (m_rows (c_mip c)).
Proof. simpl. apply map_length. Qed.
(** what the object knows fits the model that is used *)
Definition fits (h : mir2) (c : call) : Prop :=
  exists c0, m2_prep h = preprocess2 c0 /\ m_ncols (c_mip c0) = m_ncols (c_mip c) /\
    (length (m_rows (c_mip c0)) <= length (m_rows (c_mip c)))%nat /\ forall j, m_int (c_mip c) j = m_int (c_mip c0) j.
Lemma prepared2_fits m g c : cache_of2 m g -> extends m (c_mip c) -> fits (prepared2 g c) c.
Proof.
  intros K X. unfold prepared2. destruct (must_preprocess2 g c) eqn:M.
  - exists c. conjs; auto.
  - destruct (K (must_not2 g c M)) as (c0 & P & Y1 & (ex & Y2) & Y3). destruct X as (X1 & (ex' & X2) & X3).
    exists c0. conjs; [exact P|congruence|rewrite X2, Y2, !app_length; lia|]. intro j. rewrite X3. apply Y3.
Qed.
Lemma working_fits clp maxaggr mult crit mode g0 ops q v :
  m2_construct maxaggr mult crit mode = Done g0 -> Forall (grown2 clp (c_mip (q_call q))) ops ->
  fits (fst (working clp (run2 clp g0 ops) q v)) (snd (working clp (run2 clp g0 ops) q v)).
Proof.
  intros Cn F. unfold working. cbv zeta.
  assert (K : cache_of2 (c_mip (q_call q)) (with_aggr (run2 clp g0 ops) v)).
  { apply (run2_of clp _ ops g0); [exact F|]. unfold cache_of2. rewrite (construct2_fresh _ _ _ _ _ Cn). discriminate. }
  pose proof (prepared2_fits _ _ (q_call q) K (extends_refl _)) as Ft. destruct (swaps clp q); cbn [fst snd]; [|exact Ft].
  unfold prepared2 at 1. destruct (must_preprocess2 _ _).
  - exists (neg_call (q_call q)). conjs; auto.
  - destruct Ft as (c0 & P & A & B & D). exists c0. rewrite neg_rows_len. conjs; auto.
Qed.
Lemma vb_integer2 c0 upper j b :
  (if upper : bool then p_vub (preprocess2 c0) j else p_vlb (preprocess2 c0) j) = Some b -> m_int (c_mip c0) (vb_var b) = true.
Proof.
  intro H. apply prep2_vb in H as (r & act & _ & V & T).
  assert (T1 : rp_type (row_prep (c_mip c0) act r) = RVarUB \/ rp_type (row_prep (c_mip c0) act r) = RVarLB \/
    rp_type (row_prep (c_mip c0) act r) = RVarEQ) by (destruct upper; tauto). clear T.
  unfold row_prep in T1. cbn [rp_type] in T1. set (m := c_mip c0) in *. set (v := r_form r) in *.
  revert T1. match goal with |- context [determineRowType m v ?s ?r] => generalize s, r end. intros s rhs T1.
  assert (One : count (big_int m) v = 1%nat).
  { unfold determineRowType in T1. destruct v as [|e0 v0] eqn:Ef; [destruct T1 as [T|[T|T]]; discriminate|]. rewrite <- Ef in *.
    cbv zeta in T1. fold (big_int m) in T1. fold (big_cont m) in T1. clear Ef e0 v0.
    destruct s; try (destruct T1 as [T|[T|T]]; discriminate);
      (destruct (_ && _) in T1; [|destruct (Nat.eqb _ 0) in T1; destruct T1 as [T|[T|T]]; discriminate]);
      (destruct (_ && _ && _) eqn:E2 in T1; [|destruct T1 as [T|[T|T]]; discriminate]);
      apply andb_true_iff in E2 as (E2 & _); apply andb_true_iff in E2 as (E2 & _); apply Nat.eqb_eq in E2; exact E2. }
  apply one_entry in One. unfold var_bound in V. fold (big_int m) in V. fold (big_cont m) in V. injection V as _ V. subst b. cbn [vb_var].
  assert (I1 : In (last_entry (big_int m) v) (filter (big_int m) v)) by (rewrite One; simpl; auto).
  apply filter_In in I1 as (_ & I2). unfold big_int in I2 at 1. apply andb_true_iff in I2 as (_ & I2). exact I2.
Qed.
Lemma rows_wf m : wf_mip m -> forall i, NoDup (map fst (row_at m i)) /\ forall j, In j (map fst (row_at m i)) -> (j < m_ncols m)%nat.
Proof.
  intros W i. unfold row_at. fold no_row. destruct (nth_in_or_default i (m_rows m) no_row) as [I1|E].
  - destruct (W _ I1) as (W1 & W2). split; [exact W1|]. intros j Hj. apply in_map_iff in Hj as ((k, q) & <- & Hj). apply (W2 k q Hj).
  - rewrite E. split; [constructor|intros j []].
Qed.
(** The slack of an aggregated row that has a coefficient below the tolerance *)
Definition tiny_slack (keep : nat * Q -> bool) (h : mir2) (c : call) (v : Z) : Prop :=
  exists i a j s, In i (p_start (m2_prep h)) /\
    In a (fst (more2 keep (m2_prep h) (c_mip c) (c_x c) (c_act c) (Z.to_nat v - 1) [] (start (m2_prep h) (c_mip c) (c_act c) i))) /\
    In (j, s) (ag_row a) /\ (m_ncols (c_mip c) <= j)%nat /\ Qabs s < eps.
(** Rows are aggregated in this call *)
Definition aggregates_rows (keep : nat * Q -> bool) (h : mir2) (c : call) (v : Z) : Prop :=
  exists i, In i (p_start (m2_prep h)) /\
    snd (more2 keep (m2_prep h) (c_mip c) (c_x c) (c_act c) (Z.to_nat v - 1) [] (start (m2_prep h) (c_mip c) (c_act c) i)) <> [].
Lemma slacks_dec p a : slacks_big p a \/ exists j s, In (j, s) (ag_row a) /\ (p_ncols p <= j)%nat /\ Qabs s < eps.
Proof.
  unfold slacks_big. induction (ag_row a) as [|(j, c) l IH]; [left; intros ? ? []|].
  destruct IH as [IH|(j' & c' & I1 & A)]; [|right; exists j', c'; simpl; auto].
  destruct (Nat.ltb_spec j (p_ncols p)) as [L|L].
  - left. intros j' c' [E|E] H; [injection E as <- <-; lia|eauto].
  - destruct (Qlt_le_dec (Qabs c) eps) as [S|S].
    + right. exists j, c. simpl. auto.
    + left. intros j' c' [E|E] H; [injection E as <- <-; exact S|eauto].
Qed.
Lemma from_object_cases sqrt srt keep ins h q c cs :
  fits h c -> wf_mip (c_mip c) ->
  (exists cs', from_object sqrt srt keep ins h q c cs = Done cs') \/
  (from_object sqrt srt keep ins h q c cs = Undef OutOfBounds /\ tiny_slack keep h c (m2_maxaggr h)) \/
  (from_object sqrt srt keep ins h q c cs = Undef Uninitialised /\ m2_saved h = false /\ aggregates_rows keep h c (m2_maxaggr h)).
Proof.
  intros (c0 & P & Nc & Ln & It) W. unfold from_object.
  destruct (Nat.ltb_spec (length (m_rows (c_mip c))) (length (p_rows (m2_prep h)))) as [L|_].
  { exfalso. rewrite P, prep2_len in L. lia. }
  pose proof (rows_wf _ W) as Rw.
  assert (Pn : p_ncols (m2_prep h) = m_ncols (c_mip c)) by (rewrite P; exact Nc).
  match goal with |- context [generateMirCuts2 sqrt srt keep ins ?cr ?pp ?mm ?xx ?aa ?l0 ?s0 ?n0 ?mu0 cs] =>
    destruct (generate2_cases sqrt srt keep ins cr pp mm xx aa) with (late := l0) (saved := s0) (n := n0) (mult := mu0) (cs := cs)
      as [(cs' & E)|[(E & i & a0 & Hi & Ha & B)|(E & S & i & Hi & B)]] end.
  - intros i j Hj. rewrite Pn. apply (Rw i). exact Hj.
  - intro i. apply (Rw i).
  - intros j b Hb. rewrite P in Hb. rewrite It. apply (vb_integer2 c0 true j b Hb).
  - intros j b Hb. rewrite P in Hb. rewrite It. apply (vb_integer2 c0 false j b Hb).
  - left. eauto.
  - right. left. split; [exact E|]. destruct (slacks_dec (m2_prep h) a0) as [X|(j & s & X1 & X2 & X3)]; [contradiction|].
    exists i, a0, j, s. rewrite <- Pn. conjs; auto.
  - right. right. conjs; auto. exists i. auto.
Qed.
Theorem C99_outcomes sqrt srt keep ins clp maxaggr mult crit mode g0 ops q cs :
  m2_construct maxaggr mult crit mode = Done g0 -> Forall (grown2 clp (c_mip (q_call q))) ops -> wf_mip (c_mip (q_call q)) ->
  let g := run2 clp g0 ops in
  (exists g' cs' mk, generateCuts2 sqrt srt keep ins clp g q cs = Done (g', cs', mk)) \/
  exists v, eff_aggr (m2_maxaggr g) (q_inTree q) (q_pass q) = Some v /\
    let h := fst (working clp g q v) in let c := snd (working clp g q v) in
    (generateCuts2 sqrt srt keep ins clp g q cs = Undef OutOfBounds /\ tiny_slack keep h c v) \/
    (generateCuts2 sqrt srt keep ins clp g q cs = Undef Uninitialised /\ m2_saved h = false /\ aggregates_rows keep h c v).
Proof.
  intros Cn F W. cbv zeta. rewrite generate_working. destruct (eff_aggr _ _ _) as [v|]; [|left; eauto].
  pose proof (working_fits clp maxaggr mult crit mode g0 ops q v Cn F) as Ft. pose proof (working_aggr clp (run2 clp g0 ops) q v) as Ag.
  assert (Wc : wf_mip (c_mip (snd (working clp (run2 clp g0 ops) q v)))) by
    (unfold working; cbv zeta; destruct (swaps clp q); [apply neg_wf|]; exact W).
  destruct (from_object_cases sqrt srt keep ins _ q _ cs Ft Wc) as [(cs' & E)|[(E & T)|(E & S & T)]]; rewrite E; cbn [bind]; rewrite ?Ag in *.
  - left. eauto.
  - right. exists v. split; [reflexivity|]. left. auto.
  - right. exists v. split; [reflexivity|]. right. auto.
Qed.
Print Assumptions C99_outcomes.
(** One row at a time: a call always comes to an end with a result. *)
Theorem C99_single_row_done sqrt srt keep ins clp maxaggr mult crit mode g0 ops q cs :
  m2_construct maxaggr mult crit mode = Done g0 -> Forall (grown2 clp (c_mip (q_call q))) ops -> wf_mip (c_mip (q_call q)) ->
  (eff_aggr (m2_maxaggr (run2 clp g0 ops)) (q_inTree q) (q_pass q) = Some 1%Z \/
   eff_aggr (m2_maxaggr (run2 clp g0 ops)) (q_inTree q) (q_pass q) = None) ->
  exists g' cs' mk, generateCuts2 sqrt srt keep ins clp (run2 clp g0 ops) q cs = Done (g', cs', mk).
Proof.
  intros Cn F W A.
  destruct (C99_outcomes sqrt srt keep ins clp maxaggr mult crit mode g0 ops q cs Cn F W) as [H|(v & E & H)]; [exact H|exfalso].
  destruct A as [A|A]; rewrite A in E; [|discriminate]. apply Some_inj in E. subst v. cbv zeta in H.
  pose proof (working_fits clp maxaggr mult crit mode g0 ops q 1 Cn F) as (c0 & P & Nc & _ & _).
  assert (Wc : wf_mip (c_mip (snd (working clp (run2 clp g0 ops) q 1)))) by
    (unfold working; cbv zeta; destruct (swaps clp q); [apply neg_wf|]; exact W).
  destruct H as [(_ & i & a & j & s & Hi & Ha & Hj & L & S)|(_ & _ & i & Hi & X)]; [|apply X; reflexivity].
  destruct Ha as [<-|[]]. unfold start in Hj. cbn [ag_row] in Hj. cbv zeta in Hj. apply copyRow_in in Hj as [Hj|(_ & [-> | ->])].
  - apply (in_map fst) in Hj. apply (rows_wf _ Wc) in Hj. simpl in Hj. lia.
  - vm_compute in S. discriminate.
  - vm_compute in S. discriminate.
Qed.
Print Assumptions C99_single_row_done.
(** Without copies the saved row types are there. *)
Lemma saved_run clp ops : forall g, ~ In O2Copy ops -> m2_saved g = true -> m2_saved (run2 clp g ops) = true.
Proof.
  assert (Pr : forall g c, m2_saved g = true -> m2_saved (prepared2 g c) = true).
  { intros g c S. unfold prepared2. destruct (must_preprocess2 g c); auto. }
  induction ops as [|o ops IH]; simpl; intros g N S; [exact S|]. apply IH; [tauto|]. destruct o; simpl.
  - unfold setMAXAGGR2. destruct (_ || _); exact S.
  - exact S.
  - unfold setCRITERION2. destruct (_ && _); exact S.
  - unfold setDoPreproc2. destruct (_ && _ && _); exact S.
  - unfold refreshSolver2. destruct (m_rows (c_mip c)); [exact S|reflexivity].
  - exfalso. apply N. auto.
  - unfold object_after. destruct (eff_aggr _ _ _) as [v|]; [|exact S]. cbv zeta. destruct (swaps clp q).
    + apply Pr, Pr. exact S.
    + apply Pr. exact S.
Qed.
(** The slack of an aggregated row never cancels. *)
Definition slacks_live (p : prep) (a : agg) : Prop :=
  NoDup (map fst (ag_row a)) /\
  forall j s, In (j, s) (ag_row a) -> (p_ncols p <= j)%nat -> (j < p_ncols p + length (ag_rows a))%nat /\ ~ s == 0.
Lemma select_big2 p m x used hid (v : vec) (l : vec) : forall s j i,
  (forall e, In e l -> In e v) ->
  (forall j i, snd s = Some (j, i) -> exists q, In (j, q) v /\ eps <= Qabs q) ->
  snd (fold_left (select_step2 p m x used hid) l s) = Some (j, i) -> exists q, In (j, q) v /\ eps <= Qabs q.
Proof.
  induction l as [|e l IH]; cbn [fold_left]; intros s j i Hl Hs H; [eauto|].
  apply IH in H; [exact H|intros; apply Hl; simpl; auto|]. intros j' i' E. unfold select_step2 in E. cbv zeta in E.
  destruct (Nat.leb (p_ncols p) (fst e)) eqn:E1; [eauto|]. cbn [orb] in E.
  destruct (m_int m (fst e)) eqn:E2; [eauto|]. cbn [orb] in E. destruct (_ <? _) eqn:E3; [eauto|].
  destruct (exceeds _ _); [|eauto]. destruct (find _ _) as [i0|] eqn:Fd; [|eauto].
  cbn [snd] in E. apply Some_inj in E. injection E as <- <-. qb. destruct e as (j0, q0). exists q0. split; [apply Hl; simpl; auto|exact E3].
Qed.
Lemma more2_live keep p m x act :
  (forall i j, In j (map fst (row_at m i)) -> (j < p_ncols p)%nat) -> (forall i, NoDup (map fst (row_at m i))) ->
  forall k hid a b, slacks_live p a -> In b (fst (more2 keep p m x act k hid a)) -> slacks_live p b.
Proof.
  intros Rows RowsN. induction k as [|k IH]; cbn [more2]; intros hid a b A H; [destruct H as [<-|[]]; exact A|].
  destruct (selectRow2 p m x hid a) as [(j, i)|] eqn:S; [|destruct H as [<-|[]]; exact A].
  cbn [fst] in H. destruct H as [<-|H]; [exact A|]. apply IH in H; [exact H|]. clear H IH.
  assert (Big : exists q, In (j, q) (ag_row a) /\ eps <= Qabs q).
  { unfold selectRow2 in S. apply (select_big2 p m x _ _ (ag_row a)) in S; auto. discriminate. }
  assert (Sm : (j < p_ncols p)%nat /\ usable_row p m (ag_rows a) j i = true).
  { unfold selectRow2 in S. apply (select_small2 p m x) in S as (S1 & _ & S3); [auto|discriminate]. }
  destruct Sm as (Lj & Us). destruct Big as (q & Hq & Bq). destruct A as (An & Al).
  assert (Ep : 0 < eps) by reflexivity.
  assert (Cq : coef (ag_row a) j == q) by (rewrite (coef_in _ _ _ An Hq); reflexivity).
  assert (Qn : ~ q == 0) by (intro Z; rewrite Z in Bq; change (Qabs 0) with 0 in Bq; lra).
  assert (Dn : ~ coef (fst (copyRow p m act (length (ag_rows a)) i)) j == 0).
  { rewrite coef_copy by exact Lj. unfold usable_row in Us. apply andb_true_iff in Us as (_ & U4). qb.
    intro Z. rewrite Z in U4. change (Qabs 0) with 0 in U4. lra. }
  set (w := scale (- (1)) (scale (coef (ag_row a) j / coef (fst (copyRow p m act (length (ag_rows a)) i)) j) (fst (copyRow p m act (length (ag_rows a)) i)))).
  assert (Wi : forall k r, In (k, r) w -> (p_ncols p <= k)%nat -> k = (p_ncols p + length (ag_rows a))%nat /\ ~ r == 0).
  { intros k0 r Hk Lk. unfold w, scale in Hk. rewrite map_map in Hk. apply in_map_iff in Hk as ((k1, r1) & E & Hk).
    cbn [fst snd] in E. injection E as <- <-.
    assert (K : k1 = (p_ncols p + length (ag_rows a))%nat /\ (r1 = 1 \/ r1 = - (1))).
    { unfold copyRow in Hk. cbv zeta in Hk. destruct (rp_sense (rowp_at p i)); cbn [fst] in Hk;
        try (apply in_app_iff in Hk as [Hk|[Hk|[]]]; [|injection Hk as <- <-; auto]);
        apply (in_map fst) in Hk; apply Rows in Hk; simpl in Hk; lia. }
    destruct K as (K1 & K2). split; [exact K1|].
    assert (T : ~ coef (ag_row a) j / coef (fst (copyRow p m act (length (ag_rows a)) i)) j == 0).
    { intro Z. apply Qn. rewrite <- Cq. setoid_replace (coef (ag_row a) j) with
        (coef (ag_row a) j / coef (fst (copyRow p m act (length (ag_rows a)) i)) j * coef (fst (copyRow p m act (length (ag_rows a)) i)) j) by (field; exact Dn).
      rewrite Z. ring. }
    intro Z. apply T. destruct K2 as [-> | ->]; lra. }
  assert (Wn : NoDup (map fst w)).
  { unfold w. rewrite !scale_fst. apply (copy_nodup p m act Rows RowsN). }
  split.
  - unfold aggregate. cbn [ag_row]. cbv zeta. unfold vminus. fold w. apply nodup_vplus; assumption.
  - unfold aggregate. cbn [ag_row ag_rows]. cbv zeta. unfold vminus. fold w. rewrite app_length. cbn [length].
    intros k0 s Hk Lk. unfold vplus in Hk. apply in_app_iff in Hk as [Hk|Hk]; apply filter_In in Hk as (Hk & _).
    + apply in_map_iff in Hk as ((k1, r1) & E & Hk). cbn [fst snd] in E. injection E as <- <-.
      destruct (Al _ _ Hk Lk) as (L1 & L2). split; [lia|].
      assert (Z : coef w k1 == 0).
      { unfold coef. destruct (find _ w) as [(k2, r2)|] eqn:Fd; [|reflexivity]. exfalso.
        apply find_some in Fd as (Fd & E). cbn [fst] in E. apply Nat.eqb_eq in E. subst k2. destruct (Wi _ _ Fd Lk). lia. }
      rewrite Z. intro Y. apply L2. lra.
    + apply filter_In in Hk as (Hk & _). destruct (Wi _ _ Hk Lk) as (-> & B). split; [lia|exact B].
Qed.
Lemma start_live p m act i :
  (forall i j, In j (map fst (row_at m i)) -> (j < p_ncols p)%nat) -> (forall i, NoDup (map fst (row_at m i))) ->
  slacks_live p (start p m act i).
Proof.
  intros Rows RowsN. split; [unfold start; cbn [ag_row]; apply (copy_nodup p m act Rows RowsN)|].
  intros j s Hj L. unfold start in *. cbn [ag_row ag_rows length] in *. unfold copyRow in Hj. cbv zeta in Hj.
  destruct (rp_sense (rowp_at p i)); cbn [fst] in Hj;
    try (apply in_app_iff in Hj as [Hj|[Hj|[]]]; [|injection Hj as <- <-; split; [lia|vm_compute; discriminate]]);
    apply (in_map fst) in Hj; apply Rows in Hj; simpl in Hj; lia.
Qed.
(** Flow conservation rows and no copies: a call always comes to an end with a
    result, whatever the number of aggregated rows. *)
Theorem C99_network_done sqrt srt keep ins clp maxaggr mult crit mode g0 ops q cs :
  m2_construct maxaggr mult crit mode = Done g0 -> Forall (grown2 clp (c_mip (q_call q))) ops -> ~ In O2Copy ops ->
  wf_mip (c_mip (q_call q)) -> network_rows (c_mip (q_call q)) ->
  exists g' cs' mk, generateCuts2 sqrt srt keep ins clp (run2 clp g0 ops) q cs = Done (g', cs', mk).
Proof.
  intros Cn F Nc W Nw.
  destruct (C99_outcomes sqrt srt keep ins clp maxaggr mult crit mode g0 ops q cs Cn F W) as [H|(v & E & H)]; [exact H|exfalso].
  cbv zeta in H. destruct H as [(_ & i & a & j & s & Hi & Ha & Hj & L & S)|(_ & X & _)].
  - assert (Cc : network_rows (c_mip (snd (working clp (run2 clp g0 ops) q v)))) by
      (unfold working; cbv zeta; destruct (swaps clp q); [apply neg_network|]; exact Nw).
    assert (Wc : wf_mip (c_mip (snd (working clp (run2 clp g0 ops) q v)))) by
      (unfold working; cbv zeta; destruct (swaps clp q); [apply neg_wf|]; exact W).
    destruct (working_fits clp maxaggr mult crit mode g0 ops q v Cn F) as (c0 & P & Nc0 & _ & _).
    set (w := working clp (run2 clp g0 ops) q v) in *. clearbody w. destruct w as (h, c). cbn [fst snd] in *.
    assert (Pn : p_ncols (m2_prep h) = m_ncols (c_mip c)) by (rewrite P; exact Nc0).
    assert (A : all_integral (ag_row a)).
    { apply more2_integral in Ha; [exact Ha|exact Cc|]. unfold start. cbn [ag_row]. cbv zeta. apply copyRow_integral. exact Cc. }
    assert (Lv : slacks_live (m2_prep h) a).
    { apply more2_live in Ha; [exact Ha| | |].
      - intros i0 j0 H0. rewrite Pn. apply (rows_wf _ Wc i0). exact H0.
      - intro i0. apply (rows_wf _ Wc i0).
      - apply start_live; [intros i0 j0 H0; rewrite Pn; apply (rows_wf _ Wc i0); exact H0|intro i0; apply (rows_wf _ Wc i0)]. }
    destruct (integral_clear _ (A j s Hj)) as [Z|Z]; [|lra].
    apply (proj2 Lv j s Hj); [rewrite Pn; exact L|exact Z].
  - assert (S : m2_saved (run2 clp g0 ops) = true).
    { apply saved_run; [exact Nc|]. rewrite (construct2_fresh _ _ _ _ _ Cn). reflexivity. }
    revert X. unfold working. cbv zeta. unfold prepared2. destruct (swaps clp q); cbn [fst];
      destruct (must_preprocess2 _ (q_call q)); try destruct (must_preprocess2 _ (neg_call (q_call q))); cbn [m2_saved with_aggr]; congruence.
Qed.
Print Assumptions C99_network_done.

(** ** C100: form of the new cuts *)
Lemma working_call clp g q v :
  m_ncols (c_mip (snd (working clp g q v))) = m_ncols (c_mip (q_call q)) /\ c_x (snd (working clp g q v)) = c_x (q_call q).
Proof. unfold working. cbv zeta. destruct (swaps clp q); split; reflexivity. Qed.
(** No hypothesis on the data, the object or the history *)
Theorem C100_form sqrt srt keep ins clp g q cs g' cs' mk cut :
  (forall cs d e, In e (ins cs d) -> In e cs \/ e = d) ->
  generateCuts2 sqrt srt keep ins clp g q cs = Done (g', cs', mk) -> In cut cs' ->
  In cut cs \/
  (rc_lb cut = None /\ increasing (map fst (rc_form cut)) /\
   (forall j a, In (j, a) (rc_form cut) -> (j < m_ncols (c_mip (q_call q)))%nat /\ (1 # 100000) <= Qabs a <= 10000000) /\
   (forall j a k b, In (j, a) (rc_form cut) -> In (k, b) (rc_form cut) -> Qabs a <= 100000000 * Qabs b) /\
   exists u, rc_ub cut = Some u /\ u + (1 # 1000000) <= value (rc_form cut) (c_x (q_call q))).
Proof.
  intros Ia G H. rewrite generate_working in G.
  destruct (eff_aggr _ _ _) as [v|]; [|apply Done_inj in G; injection G as _ <- _; auto].
  apply bind_done in G as (cs1 & G & E). apply Done_inj in E. injection E as _ <- _.
  unfold from_object in G. destruct (_ <? _)%nat; [discriminate|]. destruct (working_call clp g q v) as (E1 & E2).
  apply (generate2_form _ _ _ _ _ _ _ _ _ Ia _ _ _ _ _ _ cut) in G; [|exact H].
  destruct G as [G|(A & B & C & D & _ & F)]; [auto|right]. rewrite E1 in C. rewrite E2 in F. conjs; auto.
Qed.
Print Assumptions C100_form.
(** In the tree and after the first pass a cut has at most four fifths of the columns. *)
Theorem C100_length sqrt srt keep ins clp maxaggr mult crit mode g0 ops q cs g' cs' mk cut :
  (forall cs d e, In e (ins cs d) -> In e cs \/ e = d) ->
  m2_construct maxaggr mult crit mode = Done g0 -> Forall (grown2 clp (c_mip (q_call q))) ops ->
  generateCuts2 sqrt srt keep ins clp (run2 clp g0 ops) q cs = Done (g', cs', mk) -> In cut cs' ->
  q_inTree q = true \/ q_pass q <> 0%Z ->
  In cut cs \/ (10 * Z.of_nat (length (rc_form cut)) <= 8 * Z.of_nat (m_ncols (c_mip (q_call q))))%Z.
Proof.
  intros Ia Cn F G H Lt. rewrite generate_working in G.
  destruct (eff_aggr _ _ _) as [v|]; [|apply Done_inj in G; injection G as _ <- _; auto].
  apply bind_done in G as (cs1 & G & E). apply Done_inj in E. injection E as _ <- _.
  unfold from_object in G. destruct (_ <? _)%nat; [discriminate|]. destruct (working_call clp (run2 clp g0 ops) q v) as (E1 & E2).
  destruct (working_fits clp maxaggr mult crit mode g0 ops q v Cn F) as (c0 & P & Nc & _ & _).
  apply (generate2_form _ _ _ _ _ _ _ _ _ Ia _ _ _ _ _ _ cut) in G; [|exact H].
  destruct G as [G|(_ & _ & _ & _ & B & _)]; [auto|right]. rewrite <- E1, <- Nc.
  change (m_ncols (c_mip c0)) with (p_ncols (preprocess2 c0)). rewrite <- P. apply B.
  destruct Lt as [-> |Lt]; [apply orb_true_r|]. apply Z.eqb_neq in Lt. rewrite Lt. reflexivity.
Qed.
Print Assumptions C100_length.

(** ** C101: settings *)
Definition settings (g : mir2) : Z * bool * Z * Z := (m2_maxaggr g, m2_multiply g, m2_criterion g, m2_mode g).
Theorem C101_constructor maxaggr mult crit mode :
  ((0 < maxaggr /\ 1 <= crit <= 3 /\ -1 <= mode <= 2)%Z /\
   exists g, m2_construct maxaggr mult crit mode = Done g /\ settings g = (maxaggr, mult, crit, mode)) \/
  (~ (0 < maxaggr /\ 1 <= crit <= 3 /\ -1 <= mode <= 2)%Z /\ m2_construct maxaggr mult crit mode = Throws).
Proof.
  unfold m2_construct.
  destruct (Z.ltb_spec 0 maxaggr), (Z.leb_spec 1 crit), (Z.leb_spec crit 3), (Z.leb_spec (-1) mode), (Z.leb_spec mode 2);
    cbn [negb andb]; try (right; split; [lia|reflexivity]). left. split; [lia|]. eexists. split; reflexivity.
Qed.
Print Assumptions C101_constructor.
(** What the setters accept, and what the settings are after any history of
    calls in which no negated copy is used *)
Definition set_step (s : Z * bool * Z * Z) (o : op2) : Z * bool * Z * Z :=
  let '(a, b, c, d) := s in
  match o with
  | O2MaxAggr v => if ((0 <? v) || existsb (Z.eqb v) [-1; -2])%Z then (v, b, c, d) else s
  | O2Multiply v => (a, v, c, d)
  | O2Criterion v => if existsb (Z.eqb v) [1; 2; 3]%Z then (a, b, v, d) else s
  | O2Mode v => if existsb (Z.eqb v) [-1; 0; 1]%Z then (a, b, c, v) else s
  | _ => s
  end.
Lemma prepared2_settings g c : settings (prepared2 g c) = settings g.
Proof. unfold prepared2. destruct (must_preprocess2 g c); reflexivity. Qed.
Theorem C101_settings_history clp maxaggr mult crit mode g0 ops :
  m2_construct maxaggr mult crit mode = Done g0 ->
  (forall q, In (O2Generate q) ops -> swaps clp q = false) ->
  settings (run2 clp g0 ops) = fold_left set_step ops (maxaggr, mult, crit, mode).
Proof.
  intros Cn N. assert (E : settings g0 = (maxaggr, mult, crit, mode)) by (rewrite (construct2_fresh _ _ _ _ _ Cn); reflexivity).
  rewrite <- E. clear E Cn. revert g0 N. induction ops as [|o ops IH]; intros g N; [reflexivity|]. simpl.
  rewrite IH by (intros; apply N; simpl; auto). f_equal. destruct o; simpl.
  - unfold setMAXAGGR2. rewrite orb_false_r, !orb_assoc. destruct (_ || _); reflexivity.
  - reflexivity.
  - unfold setCRITERION2. destruct (Z.leb_spec 1 v), (Z.leb_spec v 3), (Z.eqb_spec v 1), (Z.eqb_spec v 2), (Z.eqb_spec v 3); try lia; reflexivity.
  - unfold setDoPreproc2. destruct (Z.eqb_spec v (-1)), (Z.eqb_spec v 0), (Z.eqb_spec v 1); try lia; reflexivity.
  - unfold refreshSolver2. destruct (m_rows (c_mip c)); reflexivity.
  - reflexivity.
  - unfold object_after. destruct (eff_aggr _ _ _) as [v|]; [|reflexivity]. cbv zeta. rewrite (N q) by (simpl; auto).
    pose proof (prepared2_settings (with_aggr g v) (q_call q)) as S. unfold settings in *. cbn in S |- *.
    injection S as _ -> -> ->. reflexivity.
Qed.
Print Assumptions C101_settings_history.
(** The object that a call returns *)
Theorem C101_object_after sqrt srt keep ins clp g q cs g' cs' mk :
  generateCuts2 sqrt srt keep ins clp g q cs = Done (g', cs', mk) ->
  g' = object_after clp g q /\
  (swaps clp q = false \/ (0 < m2_maxaggr g)%Z -> settings g' = settings g).
Proof.
  intro G. rewrite generate_working in G.
  assert (E : g' = object_after clp g q).
  { unfold object_after in *. destruct (eff_aggr _ _ _) as [v|].
    - apply bind_done in G as (? & _ & G). apply Done_inj in G. injection G as <- _ _. reflexivity.
    - apply Done_inj in G. injection G as <- _ _. reflexivity. }
  split; [exact E|]. intro H. rewrite E. unfold object_after. destruct (eff_aggr _ _ _) as [v|] eqn:Ev; [|reflexivity]. cbv zeta.
  destruct (swaps clp q) eqn:Sw.
  - destruct H as [H|H]; [discriminate|]. rewrite !prepared2_settings. unfold eff_aggr in Ev.
    destruct (Z.ltb_spec (m2_maxaggr g) 0); [lia|]. apply Some_inj in Ev. subst v. reflexivity.
  - pose proof (prepared2_settings (with_aggr g v) (q_call q)) as S. unfold settings in *. cbn in S |- *.
    injection S as _ -> -> ->. reflexivity.
Qed.
Print Assumptions C101_object_after.
(** With -2 nothing happens in the tree or from pass 1000 on; new cuts are
    marked globally valid only outside the tree, when the options ask for it. *)
Theorem C101_minus_two sqrt srt keep ins clp g q cs :
  m2_maxaggr g = (-2)%Z -> q_inTree q = true \/ (1000 <= q_pass q)%Z ->
  generateCuts2 sqrt srt keep ins clp g q cs = Done (g, cs, false).
Proof.
  intros M H. rewrite generate_working. unfold eff_aggr. rewrite M. cbn [Z.ltb Z.compare Z.eqb].
  destruct H as [-> |H]; [reflexivity|]. destruct (Z.ltb_spec (q_pass q) 1000); [lia|]. rewrite andb_false_r. reflexivity.
Qed.
Print Assumptions C101_minus_two.
Theorem C101_marks sqrt srt keep ins clp g q cs g' cs' :
  generateCuts2 sqrt srt keep ins clp g q cs = Done (g', cs', true) ->
  q_inTree q = false /\ (Z.testbit (q_options q) 2 = true \/ (Z.testbit (q_options q) 3 = true /\ q_pass q = 0%Z)).
Proof.
  intro G. rewrite generate_working in G. destruct (eff_aggr _ _ _) as [v|]; [|discriminate].
  apply bind_done in G as (? & _ & G). apply Done_inj in G. injection G as _ _ M. unfold marks in M.
  apply andb_true_iff in M as (M1 & M2). qb. split; [exact M1|]. apply orb_true_iff in M2 as [M2|M2]; [auto|].
  apply andb_true_iff in M2 as (M2 & M3). apply Z.eqb_eq in M3. auto.
Qed.
Print Assumptions C101_marks.

(** ** C102: copies *)
Definition cuts_of2 (o : outcome (mir2 * list rowcut * bool)) : outcome (list rowcut * bool) :=
  do r <- o; Done (snd (fst r), snd r).
Lemma generate2_saved sqrt srt keep ins crit p m x act late s n mult cs r :
  generateMirCuts2 sqrt srt keep ins crit p m x act late false n mult cs = Done r ->
  generateMirCuts2 sqrt srt keep ins crit p m x act late s n mult cs = Done r.
Proof.
  unfold generateMirCuts2. revert cs. induction (p_start p) as [|i l IH]; cbn [ofold]; intros cs H; [exact H|].
  apply bind_done in H as (cs1 & H1 & H2).
  assert (E : from_row sqrt srt keep ins crit p m x act late s n mult cs i = Done cs1).
  { revert H1. unfold from_row. cbv zeta. destruct (ofold _ _ cs) as [c1| | | |]; cbn [bind]; auto. destruct (snd _); [auto|]. discriminate. }
  rewrite E. cbn [bind]. apply IH. exact H2.
Qed.
Lemma generate2_saved_one sqrt srt keep ins crit p m x act late s s' n mult cs : (n <= 1)%nat ->
  generateMirCuts2 sqrt srt keep ins crit p m x act late s n mult cs =
  generateMirCuts2 sqrt srt keep ins crit p m x act late s' n mult cs.
Proof.
  intro L. unfold generateMirCuts2. revert cs. induction (p_start p) as [|i l IH]; cbn [ofold]; intros cs; [reflexivity|].
  assert (E : from_row sqrt srt keep ins crit p m x act late s n mult cs i = from_row sqrt srt keep ins crit p m x act late s' n mult cs i).
  { unfold from_row. cbv zeta. rewrite (more2_one keep p m x act n [] _ L). reflexivity. }
  rewrite E. destruct (from_row _ _ _ _ _ _ _ _ _ _ s' _ _ _ _); cbn [bind]; auto.
Qed.
Definition with_saved (g : mir2) (s : bool) : mir2 :=
  Mir2 (m2_maxaggr g) (m2_multiply g) (m2_criterion g) (m2_mode g) (m2_done g) (m2_prep g) s.
Lemma prepared2_saved g c s : prepared2 (with_saved g s) c = prepared2 g c /\ must_preprocess2 g c = true \/
  prepared2 (with_saved g s) c = with_saved (prepared2 g c) s /\ must_preprocess2 g c = false.
Proof.
  unfold prepared2. change (must_preprocess2 (with_saved g s) c) with (must_preprocess2 g c).
  destruct (must_preprocess2 g c); auto.
Qed.
Lemma working_saved clp g q v s : exists s', fst (working clp (with_saved g s) q v) = with_saved (fst (working clp g q v)) s' /\
  snd (working clp (with_saved g s) q v) = snd (working clp g q v) /\
  (s' = s \/ s' = m2_saved (fst (working clp g q v))) /\
  (must_preprocess2 g (q_call q) = true -> s' = m2_saved (fst (working clp g q v))).
Proof.
  assert (Id : forall h, h = with_saved h (m2_saved h)) by (intros []; reflexivity).
  unfold working. cbv zeta. change (with_aggr (with_saved g s) v) with (with_saved (with_aggr g v) s).
  change (must_preprocess2 g (q_call q)) with (must_preprocess2 (with_aggr g v) (q_call q)).
  destruct (prepared2_saved (with_aggr g v) (q_call q) s) as [(-> & M)|(-> & M)]; rewrite M.
  - eexists. conjs; [|reflexivity|right; reflexivity|reflexivity]. apply Id.
  - destruct (swaps clp q); cbn [fst snd].
    + destruct (prepared2_saved (prepared2 (with_aggr g v) (q_call q)) (neg_call (q_call q)) s) as [(-> & M')|(-> & M')].
      * eexists. conjs; [|reflexivity|right; reflexivity|reflexivity]. apply Id.
      * exists s. conjs; auto. discriminate.
    + exists s. conjs; auto. discriminate.
Qed.
Lemma copy_saved g : exists s, m2_copy g = with_saved g s.
Proof. eexists. reflexivity. Qed.
Theorem C102_copy_same sqrt srt keep ins clp maxaggr mult crit mode g0 ops q cs :
  m2_construct maxaggr mult crit mode = Done g0 -> ~ In O2Copy ops ->
  let g := run2 clp g0 ops in
  (* the settings and the preprocessed data are those of the original *)
  (settings (m2_copy g) = settings g /\ m2_done (m2_copy g) = m2_done g /\ m2_prep (m2_copy g) = m2_prep g) /\
  (* a result of the copy is that of the original *)
  (forall r, cuts_of2 (generateCuts2 sqrt srt keep ins clp (m2_copy g) q cs) = Done r ->
     cuts_of2 (generateCuts2 sqrt srt keep ins clp g q cs) = Done r) /\
  (* one row at a time, no call on the original, or preprocessing in every
     call: no difference *)
  (eff_aggr (m2_maxaggr g) (q_inTree q) (q_pass q) = Some 1%Z \/ m2_done g = false \/ m2_mode g = 1%Z ->
     cuts_of2 (generateCuts2 sqrt srt keep ins clp (m2_copy g) q cs) = cuts_of2 (generateCuts2 sqrt srt keep ins clp g q cs)).
Proof.
  intros Cn N. cbv zeta.
  assert (Sv : m2_saved (run2 clp g0 ops) = true).
  { apply saved_run; [exact N|]. rewrite (construct2_fresh _ _ _ _ _ Cn). reflexivity. }
  set (g := run2 clp g0 ops) in *. clearbody g. split; [conjs; reflexivity|].
  destruct (copy_saved g) as (s & Es). rewrite Es. rewrite !generate_working.
  change (m2_maxaggr (with_saved g s)) with (m2_maxaggr g). destruct (eff_aggr _ _ _) as [v|] eqn:Ev;
    [|split; [auto|reflexivity]].
  destruct (working_saved clp g q v s) as (s' & E1 & E2 & _ & E4). rewrite E1, E2.
  assert (Hs : m2_saved (fst (working clp g q v)) = true).
  { unfold working. cbv zeta. unfold prepared2. destruct (swaps clp q); cbn [fst];
      destruct (must_preprocess2 _ (q_call q)); try destruct (must_preprocess2 _ (neg_call (q_call q))); cbn [m2_saved with_aggr]; auto. }
  pose proof (working_aggr clp g q v) as Ag.
  set (w := working clp g q v) in *. clearbody w. destruct w as (h, c). cbn [fst snd] in *.
  assert (Id : h = with_saved h true) by (destruct h; cbn in Hs; subst; reflexivity).
  assert (Cut : forall g1 g2 o o', o = o' ->
    cuts_of2 (do cs' <- o; Done (g1, cs', marks q)) = cuts_of2 (do cs' <- o'; Done (g2, cs', marks q))).
  { intros g1 g2 o o' ->. destruct o'; reflexivity. }
  split.
  - intros r H. destruct s'; [rewrite Id; rewrite <- H; apply Cut; reflexivity|].
    unfold cuts_of2 in H. apply bind_done in H as (((g1, cs1), mk) & H & Er). apply bind_done in H as (cs2 & H & E). apply Done_inj in E.
    injection E as <- <- <-. apply Done_inj in Er. subst r. cbn [fst snd].
    assert (G : from_object sqrt srt keep ins h q c cs = Done cs2); [|rewrite G; reflexivity].
    revert H. unfold from_object. cbn [m2_prep with_saved m2_criterion m2_saved m2_maxaggr m2_multiply].
    destruct (_ <? _)%nat; [auto|]. apply generate2_saved.
  - intro H. apply Cut. destruct H as [H|H].
    + apply Some_inj in H. subst v. unfold from_object. cbn [m2_prep with_saved m2_criterion m2_saved m2_maxaggr m2_multiply].
      rewrite H. destruct (_ <? _)%nat; [reflexivity|]. apply generate2_saved_one. reflexivity.
    + assert (M : must_preprocess2 g (q_call q) = true).
      { destruct H as [H|H]; [|apply must_one; exact H]. unfold must_preprocess2. rewrite H. destruct (_ && _); [reflexivity|].
        destruct (_ =? _)%Z; reflexivity. }
      rewrite (E4 M), Hs, <- Id. reflexivity.
Qed.
Print Assumptions C102_copy_same.

(** ** Examples and refutations *)
Lemma ins_adds_new : ins_adds insert_new.
Proof. intros cs d e H. apply insert_new_in in H as [H| ->]; auto. Qed.
Definition at_root (c : call) : call2 := Call2 c false 0 0 4 true.
Definition in_tree (c : call) : call2 := Call2 c true 1 0 4 true.
Definition gen2 := generateCuts2 rsqrt (fun v => v) nonzero insert_new.
(** As in C24: two calls, the second with two rows aggregated; the cut is
    y <= 2 + 2 t. *)
Example C98_example :
  let q := at_root (ex_call (3 # 2) ex_x) in
  let ops := [O2Generate (at_root (ex_call (3 # 2) (fun _ => 0))); O2MaxAggr 2; O2Criterion 3; O2MaxAggr 0] in
  lib_ok (fun v => v) nonzero /\ sound_case true (run2 true m2_new ops) ops q /\
  Forall (grown2 true (c_mip (q_call q))) ops /\ ~ In O2Copy ops /\
  wf_mip (c_mip (q_call q)) /\ network_rows (c_mip (q_call q)) /\ clear_rows (c_mip (q_call q)) /\
  integral_uppers (c_mip (q_call q)) /\ nonneg_ints (c_mip (q_call q)) /\
  match gen2 true (run2 true m2_new ops) q [] with
  | Done (_, [RowCut form None (Some ub)], true) =>
      ub == 2 /\ map fst form = [0; 2]%nat /\ coef form 0 == 1 /\ coef form 2 == - (2) /\ value form ex_x == (5 # 2)
  | _ => False
  end.
Proof.
  cbv zeta. destruct (ex_clear (3 # 2) eq_refl) as (A & B & C). destruct (ex_bounds (3 # 2)) as (D & E).
  conjs; auto.
  - split; [intro v; apply Permutation_refl|]. intros e H. unfold nonzero in H. qb. exact H.
  - right. split; [reflexivity|]. constructor; [split; [reflexivity|split; [apply extends_refl|exact A]]|repeat constructor].
  - constructor; [split; [reflexivity|apply extends_refl]|repeat constructor].
  - simpl. intuition discriminate.
  - vm_compute. conjs; reflexivity.
Qed.
(** y + s >= 5/2, y integer: one row at a time gives y + 2 s >= 3, whether
    the row is used as it is or negated. *)
Definition ge_mip : mip :=
  Mip 2 [Row [(0%nat, 1); (1%nat, 1)] (Some (5 # 2)) None] (fun _ => Some 0) (fun _ => Some 10) (fun j => Nat.eqb j 0).
Definition ge_call : call := Call ge_mip one_x (fun _ => 5 # 2) false false.
Definition gives2 (o : outcome (mir2 * list rowcut * bool)) (c : rowcut) : Prop :=
  match o with
  | Done (_, [d], _) => forall y, rowcut_sat d y <-> rowcut_sat c y
  | _ => False
  end.
Definition ge_cut : rowcut := RowCut [(0%nat, - (1)); (1%nat, - (2))] None (Some (- (3))).
Lemma ge_data : wf_mip ge_mip /\ clear_rows ge_mip /\ integral_uppers ge_mip /\ nonneg_ints ge_mip.
Proof.
  conjs.
  - intros r [<-|[]]; split; simpl; [repeat constructor; simpl; intuition discriminate|]. intros j a H. rows_of H; lia.
  - intros r [<-|[]]; simpl; conjs; auto; [intros j a H; rows_of H; apply clear_one|]. right. vm_compute. reflexivity.
  - intros j u _ _ H. simpl in H. injection H as <-. exists 10%Z. reflexivity.
  - intros j _ _. simpl. lra.
Qed.
Example C98_negated_example :
  let ops := [O2Mode 1] in
  swaps true (at_root ge_call) = true /\ sound_case true (run2 true m2_new ops) ops (at_root ge_call) /\
  eff_aggr (m2_maxaggr (run2 true m2_new ops)) false 0 = Some 1%Z /\
  gives2 (gen2 true (run2 true m2_new ops) (at_root ge_call) []) ge_cut /\
  gives2 (gen2 false m2_new (at_root ge_call) []) ge_cut.
Proof.
  cbv zeta. conjs; [reflexivity|left; reflexivity|reflexivity| |]; unfold gives2.
  - destruct (gen2 true _ _ _) as [((g, cs), mk)| | | |] eqn:E; try (vm_compute in E; discriminate).
    vm_compute in E. inversion E; subst. apply sat_iff. intro y. simpl. ring.
  - destruct (gen2 false _ _ _) as [((g, cs), mk)| | | |] eqn:E; try (vm_compute in E; discriminate).
    vm_compute in E. inversion E; subst. apply sat_iff. intro y. simpl. ring.
Qed.
(** With Clp and the default settings the senses and right-hand sides of the
    original rows are used with the negated matrix: the very first call gives a
    cut that cuts off every feasible point. *)
Definition gg_mip : mip :=
  Mip 3 [Row [(0%nat, 1); (1%nat, - (1)); (2%nat, 1)] (Some (5 # 2)) None] (fun _ => Some 0)
    (fun j => match j with 2%nat => Some 1 | _ => Some 10 end) (fun j => Nat.ltb j 2).
Definition gg_call : call :=
  Call gg_mip (fun j => match j with 0%nat => 3 | 1%nat => 1 # 2 | _ => 0 end) (fun _ => 5 # 2) false false.
Theorem C98_clp_default_refuted :
  exists q g' cs' mk cut,
    wf_mip (c_mip (q_call q)) /\ clear_rows (c_mip (q_call q)) /\ integral_uppers (c_mip (q_call q)) /\ nonneg_ints (c_mip (q_call q)) /\
    (exists y, feasible (c_mip (q_call q)) y) /\
    gen2 true m2_new q [] = Done (g', cs', mk) /\ In cut cs' /\ forall y, feasible (c_mip (q_call q)) y -> ~ rowcut_sat cut y.
Proof.
  destruct (gen2 true m2_new (at_root gg_call) []) as [((g, cs), mk)| | | |] eqn:E; try (vm_compute in E; discriminate).
  exists (at_root gg_call), g, cs, mk. assert (E0 := E). vm_compute in E. inversion E; subst. clear E. eexists.
  conjs; [| | | | |exact E0|left; reflexivity|].
  - clear E0. intros r [<-|[]]; split; simpl; [repeat constructor; simpl; intuition discriminate|]. intros j a H. rows_of H; lia.
  - clear E0. intros r [<-|[]]; simpl; conjs; auto; [intros j a H; rows_of H; solve [apply clear_one|apply clear_mone]|].
    right. vm_compute. reflexivity.
  - clear E0. intros j u _ H K. simpl in *. destruct j as [|[|j]]; try discriminate H; injection K as <-; exists 10%Z; reflexivity.
  - clear E0. intros j _ _. simpl. lra.
  - clear E0. exists (fun j => match j with 0%nat => 3 | _ => 0 end). unfold feasible. conjs.
    + intros r [<-|[]]. split; simpl; [|exact I]. apply Qle_bool_iff. vm_compute. reflexivity.
    + intros j Hj. simpl in Hj. destruct j as [|[|[|j]]]; simpl; split; try (apply Qle_bool_iff; vm_compute; reflexivity). all: lia.
    + intros j _ H. destruct j as [|[|j]]; [exists 3%Z; reflexivity|exists 0%Z; reflexivity|discriminate].
  - clear E0. intros y (Rs & Bd & _) (_ & K). simpl in K.
    specialize (Rs _ (or_introl eq_refl)). destruct Rs as (Rs & _). simpl in Rs.
    pose proof (Bd 2%nat ltac:(simpl; lia)) as (_ & B2). simpl in B2. lra.
Qed.
Print Assumptions C98_clp_default_refuted.

(** y - s/1000 <= 1, 10000 s - t <= 1.5 with both rows aggregated: the second
    slack has the coefficient 1e-7 and is looked up as a column. *)
Definition slack_mip : mip :=
  Mip 3 [Row [(0%nat, 1); (1%nat, - (1 # 1000))] None (Some 1); Row [(1%nat, 10000); (2%nat, - (1))] None (Some (3 # 2))]
    (fun _ => Some 0) (fun _ => Some 10000) (fun j => Nat.eqb j 0).
Theorem C99_small_slack_refuted :
  exists q, wf_mip (c_mip (q_call q)) /\ clear_rows (c_mip (q_call q)) /\
    gen2 false (run2 false m2_new [O2MaxAggr 2]) q [] = Undef OutOfBounds.
Proof.
  exists (at_root (Call slack_mip (fun _ => 3) (fun _ => 1) false false)). conjs.
  - intros r [<-|[<-|[]]]; (split; simpl; [repeat constructor; simpl; intuition discriminate|]); intros j a H; rows_of H; lia.
  - intros r [<-|[<-|[]]]; simpl; conjs; auto; try (intros j a H; rows_of H); right; vm_compute; reflexivity.
  - vm_compute. reflexivity.
Qed.
Print Assumptions C99_small_slack_refuted.
(** A solver that has lost a row since the preprocessing *)
Theorem C99_fewer_rows_refuted :
  exists q1 q2, wf_mip (c_mip (q_call q1)) /\ wf_mip (c_mip (q_call q2)) /\
    gen2 false (run2 false m2_new [O2Generate q1]) q2 [] = Undef OutOfBounds.
Proof.
  exists (at_root (ex_call (3 # 2) ex_x)), (at_root (one_call (5 # 2))).
  conjs; [apply (ex_clear (3 # 2) eq_refl)| |vm_compute; reflexivity].
  intros r [<-|[]]; split; simpl; [repeat constructor; simpl; intuition discriminate|]. intros j a H. rows_of H; lia.
Qed.
Print Assumptions C99_fewer_rows_refuted.
Example C99_example :
  Forall (grown2 true (c_mip ge_call)) [O2Generate (in_tree ge_call); O2Copy; O2MaxAggr (-1)] /\ wf_mip (c_mip ge_call) /\
  eff_aggr (m2_maxaggr (run2 true m2_new [O2Generate (in_tree ge_call); O2Copy; O2MaxAggr (-1)])) true 1 = Some 1%Z.
Proof.
  conjs; [|apply ge_data|reflexivity]. constructor; [split; [reflexivity|apply extends_refl]|repeat constructor].
Qed.

(** In the tree the cut of the first example, with two of three columns, is
    short enough; y + 2 s >= 3, with both columns of two, is not. *)
Example C100_example :
  (match gen2 false (run2 false m2_new [O2MaxAggr 2]) (in_tree (ex_call (3 # 2) ex_x)) [] with
   | Done (_, [d], false) => length (rc_form d) = 2%nat | _ => False end) /\
  match gen2 false m2_new (in_tree ge_call) [] with Done (_, [], false) => True | _ => False end.
Proof. split; vm_compute; auto. Qed.

(** The setting -1 (as many as 5 rows at the root, one in the tree) is lost in
    a call that uses a negated copy: 5 rows are aggregated in the tree as well. *)
Theorem C101_clp_loses_setting_refuted :
  exists q g' cs' mk,
    gen2 true (run2 true m2_new [O2MaxAggr (-1)]) q [] = Done (g', cs', mk) /\
    m2_maxaggr g' = 5%Z /\ eff_aggr (-1) true 1 = Some 1%Z /\ eff_aggr (m2_maxaggr g') true 1 = Some 5%Z.
Proof.
  destruct (gen2 true (run2 true m2_new [O2MaxAggr (-1)]) (at_root ge_call) []) as [((g, cs), mk)| | | |] eqn:E; try (vm_compute in E; discriminate).
  exists (at_root ge_call), g, cs, mk. split; [exact E|]. vm_compute in E. inversion E; subst. conjs; reflexivity.
Qed.
Print Assumptions C101_clp_loses_setting_refuted.
Example C101_example :
  settings (run2 false m2_new [O2MaxAggr 0; O2MaxAggr (-2); O2Generate (at_root ge_call); O2Criterion 4; O2Mode 2; O2Mode 0; O2Copy; O2Multiply false])
    = ((-2)%Z, false, 1%Z, 0%Z) /\
  (exists g, m2_construct 3 false 2 2 = Done g) /\ setDoPreproc2 m2_new 2 = Throws /\
  match gen2 false m2_new (at_root ge_call) [] with Done (_, [_], true) => True | _ => False end.
Proof. split; [vm_compute; reflexivity|]. split; [eexists; reflexivity|]. split; [reflexivity|vm_compute; exact I]. Qed.

(** A copy of an object that has been used, several rows: row types are put
    back from memory that was never written. *)
Theorem C102_used_copy_refuted :
  exists q r, let g := run2 false m2_new [O2Generate q; O2MaxAggr 2] in
    wf_mip (c_mip (q_call q)) /\ network_rows (c_mip (q_call q)) /\
    cuts_of2 (gen2 false g q []) = Done r /\ gen2 false (m2_copy g) q [] = Undef Uninitialised.
Proof.
  exists (at_root (ex_call (3 # 2) ex_x)). eexists. cbv zeta. destruct (ex_clear (3 # 2) eq_refl) as (A & B & C).
  conjs; auto; vm_compute; reflexivity.
Qed.
Print Assumptions C102_used_copy_refuted.
Example C102_example :
  let g := run2 false m2_new [O2Generate (in_tree ge_call)] in
  eff_aggr (m2_maxaggr g) false 0 = Some 1%Z /\
  match cuts_of2 (gen2 false (m2_copy g) (at_root ge_call) []) with Done ([_], _) => True | _ => False end.
Proof. split; vm_compute; auto. Qed.
