(** * Properties of CglTwomir (C76 - C79) *)

From Verif Require Import Spec Base Decide Model_Twomir Proofs_TwomirCore Proofs_Twomir.
From Coq Require Import Lia Lqa Arith Qabs.
Open Scope Q_scope.

(** ** C76: the cuts keep every feasible point, within a tolerance *)

(** What dropping coefficients below 1e-12 and 1e-13 can cost at a point whose
    coordinates and distances to bounds are at most [M], when the rows are
    multiplied by at most [T]. *)
Definition tolerance (n k : nat) (M T : Q) : Q :=
  (T * (qn n * (1 # 1000000000000) + qn (n + k) * (1 # 10000000000000)) + qn n * (1 # 1000000000000)) * M.
(** The point satisfies the row cut but for [E]. *)
Definition within (E : Q) (c : rowcut) (z : point) : Prop :=
  (forall b, rc_lb c = Some b -> b - E <= value (rc_form c) z) /\
  (forall b, rc_ub c = Some b -> value (rc_form c) z <= b + E).
(** [T] bounds the scale factors the generator was given. *)
Definition scale_limit (o : twomir) (T : Q) : Prop :=
  0 <= T /\ forall t, ((w_tmin o <= t <= w_tmax o) \/ (w_qmin o <= t <= w_qmax o))%Z -> inject_Z (Z.abs t) <= T.
(** The LP point has fixed columns at their value. *)
Definition at_fixed (p : lp) : Prop :=
  forall j l u, (j < m_ncols (p_m p))%nat -> m_clo (p_m p) j = Some l -> m_chi (p_m p) j = Some u ->
    l == u -> p_x p j == l.

Lemma slop_eq p M T : slop p M T == tolerance (m_ncols (p_m p)) (length (m_rows (p_m p))) M T.
Proof.
  unfold slop, tolerance, e_drop, e_nice, nc, nr, min_tableau, min_abs. ring.
Qed.

(** A row cut left with two columns or more is satisfied within the
    tolerance by every feasible point. *)
Theorem C76_rows : forall clp dup p fact rnd o i rows cols rows' cols' u z M T,
  wf_mip (p_m p) -> sharp_rows (p_m p) -> nonneg_lower (p_m p) ->
  (forall f, fact = Some f -> fact_ok p f) -> scale_limit o T ->
  feasible (p_m p) z -> spread (p_m p) M z -> 0 <= M ->
  generateCuts clp dup p fact rnd o i rows cols = Done (rows', cols', u) ->
  exists new, rows' = rows ++ new /\
    forall c g, In (c, g) new -> rc_form c <> [] ->
      within (tolerance (m_ncols (p_m p)) (length (m_rows (p_m p))) M T) c z.
Proof.
  intros clp dup p fact rnd o i rows cols rows' cols' u z M T WF SH NN FO [HT0 HT] FZ SP HM R.
  destruct (generate_new p clp dup fact rnd o i rows cols rows' cols' u R) as (newr & newc & -> & _ & [[-> _]|(r & es & R1 & R2 & A & _)]).
  - exists []. split; [reflexivity|intros c g []].
  - exists newr. split; [reflexivity|]. intros c g H NE.
    destruct (A c g H) as [HE _]. destruct (emits_in p _ _ _ R2 _ HE) as (d & Hd & SHP).
    destruct (cut_list_ok p z M T o i WF FZ SH NN SP HM HT0 HT fact rnd r FO R1 d Hd) as [[D1 D2] _].
    inversion SHP as [kept rhs lg sm SC L2 LM S1 S2 E|E|j l a IC IJ IL OG E|j h a IC IJ IL OG E]; subst c.
    + pose proof (scan_ok p z (feasible_fixed p z FZ) _ _ _ _ _ _ _ _ _ D1 SC) as SZ. cbn [value] in SZ.
      rewrite slop_eq in D2. split; intros b Eb; cbn [rc_lb rc_ub rc_form] in *; [|discriminate].
      apply Some_inj in Eb. subst b. lra.
    + contradiction NE. reflexivity.
Qed.
Print Assumptions C76_rows.

(** When the tolerance is at most 1e-9 the new column bounds hold exactly at
    every feasible point and the empty cut that says "infeasible" is not
    issued if there is a feasible point. *)
Theorem C76_bounds : forall clp dup p fact rnd o i rows cols rows' cols' u z M T,
  wf_mip (p_m p) -> sharp_rows (p_m p) -> nonneg_lower (p_m p) -> at_fixed p ->
  (forall f, fact = Some f -> fact_ok p f) -> scale_limit o T ->
  feasible (p_m p) z -> spread (p_m p) M z -> 0 <= M ->
  tolerance (m_ncols (p_m p)) (length (m_rows (p_m p))) M T <= 1 # 1000000000 ->
  generateCuts clp dup p fact rnd o i rows cols = Done (rows', cols', u) ->
  exists newr newc, rows' = rows ++ newr /\ cols' = cols ++ newc /\
    (forall c g, In (c, g) newr -> (2 <= length (rc_form c))%nat) /\
    (forall c, In c newc -> colcut_sat c z).
Proof.
  intros clp dup p fact rnd o i rows cols rows' cols' u z M T WF SH NN FX FO [HT0 HT] FZ SP HM TL R.
  destruct (generate_new p clp dup fact rnd o i rows cols rows' cols' u R) as (newr & newc & -> & -> & [[-> ->]|(r & es & R1 & R2 & A & B)]).
  - exists [], []. rewrite !app_nil_r. split; [reflexivity|]. split; [reflexivity|]. split; [intros c g []|intros c []].
  - pose proof (cut_list_ok p z M T o i WF FZ SH NN SP HM HT0 HT fact rnd r FO R1) as G.
    rewrite <- slop_eq in TL.
    destruct (emits_ok p z FZ (slop p M T) (max_of p o i) (fst r) (slop_pos p M T HM HT0) TL FX G) as (es' & R2' & EO).
    rewrite R2 in R2'. apply Done_inj in R2'. subst es'.
    exists newr, newc. split; [reflexivity|]. split; [reflexivity|]. split.
    + intros c g H. destruct (A c g H) as [HE _]. specialize (EO _ HE). cbn [emit_ok] in EO.
      destruct EO as (f & b & -> & L & _). exact L.
    + intros c H. exact (EO _ (B c H)).
Qed.
Print Assumptions C76_bounds.

(** ** C77: the form of the cuts *)

(** Every row cut is either the empty cut that says "infeasible" or a cut of
    the form [a x >= b] with two columns or more, no repeated and no fixed
    column, coefficients of absolute value above 1e-5 whose ratio is below
    1e8, no longer than the limits, and violated by the LP point by at least
    1e-5.  Every column cut gives one integer column a strictly tighter
    integer bound. *)
Theorem C77_form : forall clp dup p fact rnd o i rows cols rows' cols' u,
  at_fixed p -> generateCuts clp dup p fact rnd o i rows cols = Done (rows', cols', u) ->
  exists newr newc, rows' = rows ++ newr /\ cols' = cols ++ newc /\
    (forall c g, In (c, g) newr ->
      c = RowCut [] (Some 1) (Some 0) \/
      exists f b, c = RowCut f (Some b) None /\ value f (p_x p) <= b - (1 # 100000) /\
        NoDup (map fst f) /\ (2 <= length f <= 500)%nat /\
        (i_tree i = true -> Z.of_nat (length f) < w_max o)%Z /\
        (i_tree i = false -> i_pass i = 0%Z -> length f < m_ncols (p_m p))%nat /\
        (i_tree i = false -> i_pass i <> 0%Z -> Z.land (i_options i) 32 = 0%Z -> Z.of_nat (length f) < w_max_root o)%Z /\
        forall j a, In (j, a) f -> (j < m_ncols (p_m p))%nat /\ 1 # 100000 < Qabs a /\
          (forall j' a', In (j', a') f -> Qabs a < (100000000 # 1) * Qabs a') /\
          (forall l h, m_clo (p_m p) j = Some l -> m_chi (p_m p) j = Some h -> ~ l == h)) /\
    (forall c, In c newc -> exists j b, (j < m_ncols (p_m p))%nat /\ m_int (p_m p) j = true /\ integral b /\
      ((c = ColCut [(j, b)] [] /\ forall l, m_clo (p_m p) j = Some l -> l < b) \/
       (c = ColCut [] [(j, b)] /\ forall h, m_chi (p_m p) j = Some h -> b < h))).
Proof.
  intros clp dup p fact rnd o i rows cols rows' cols' u FX R.
  destruct (generate_new p clp dup fact rnd o i rows cols rows' cols' u R) as (newr & newc & -> & -> & [[-> ->]|(r & es & R1 & R2 & A & B)]).
  - exists [], []. rewrite !app_nil_r. split; [reflexivity|]. split; [reflexivity|]. split; [intros c g []|intros c []].
  - pose proof (cut_list_plain p fact rnd o i r R1) as PL.
    exists newr, newc. split; [reflexivity|]. split; [reflexivity|]. split.
    + intros c g H. destruct (A c g H) as [HE _]. destruct (emits_in p _ _ _ R2 _ HE) as (d & Hd & SHP).
      destruct (PL d Hd) as [DE (b0 & EB)].
      assert (SS := substitute_shape p b0). rewrite <- EB in SS. destruct SS as [ND IN].
      inversion SHP as [kept rhs lg sm SC L2 LM S1 S2 E|E|j l a IC IJ IL OG E|j h a IC IJ IL OG E]; subst c.
      * right. exists kept, rhs. split; [reflexivity|].
        pose proof (scan_ok p (p_x p) FX _ _ _ _ _ _ _ _ _ IN SC) as SX. cbn [value] in SX.
        destruct (scan_kept p _ _ _ _ _ _ _ _ _ SC (fun e h => match h with end)) as [EK SK]. cbn [app] in EK.
        unfold desirable, null_slack in DE. apply andb_true_iff in DE. destruct DE as [DL DE].
        apply Nat.leb_le in DL. apply negb_true_iff in DE. qb.
        assert (LK : (length kept <= length (c_t d))%nat) by (rewrite EK; apply filter_len).
        split; [lra|]. split.
        { clear - EK ND. rewrite EK. clear EK kept. induction (c_t d) as [|e t IH]; [constructor|].
          cbn [map] in ND. inversion ND; subst. cbn [filter]. destruct (negb (fixed p (fst e))); [|apply IH; assumption].
          cbn [map]. constructor; [|apply IH; assumption]. intros H. apply H1.
          apply in_map_iff in H. destruct H as (e' & E & He). apply filter_In in He.
          rewrite <- E. apply in_map. apply He. }
        split; [lia|]. unfold max_of in LM.
        split; [intros X; rewrite X in LM; lia|].
        split; [intros X Y; rewrite X, Y in LM; cbn [Z.eqb orb] in LM; lia|].
        split.
        { intros X Y Z0. rewrite X in LM. apply Z.eqb_neq in Y. rewrite Y in LM. unfold bit in LM. rewrite Z0 in LM.
          cbn [Z.eqb negb orb] in LM. lia. }
        intros j a Ha.
        assert (IT : In (j, a) (c_t d) /\ negb (fixed p j) = true).
        { rewrite EK in Ha. apply filter_In in Ha. exact Ha. }
        split; [exact (IN _ (proj1 IT))|]. pose proof (SK _ Ha) as K1. cbn [snd] in K1.
        split; [lra|]. split.
        { intros j' a' Ha'. pose proof (SK _ Ha') as K2. cbn [snd] in K2. lra. }
        intros l h E1 E2 E3. destruct IT as [_ IT]. unfold fixed in IT. rewrite E1, E2 in IT.
        apply Qeq_bool_iff in E3. rewrite E3 in IT. discriminate.
      * left. reflexivity.
    + intros c H. specialize (B c H). destruct (emits_in p _ _ _ R2 _ B) as (d & Hd & SHP).
      destruct (PL d Hd) as [DE (b0 & EB)].
      assert (SS := substitute_shape p b0). rewrite <- EB in SS. destruct SS as [ND IN].
      inversion SHP as [kept rhs lg sm SC L2 LM S1 S2 E|E|j l a IC IJ IL OG E|j h a IC IJ IL OG E]; subst c.
      * exists j, l. split; [exact (IN _ IC)|]. split; [exact IJ|]. split; [exact IL|]. left. split; [reflexivity|].
        intros l0 E0. rewrite E0 in OG. cbn [opt_gt_lo] in OG. qb. exact OG.
      * exists j, h. split; [exact (IN _ IC)|]. split; [exact IJ|]. split; [exact IL|]. right. split; [reflexivity|].
        intros l0 E0. rewrite E0 in OG. cbn [opt_lt_hi] in OG. qb. exact OG.
Qed.
Print Assumptions C77_form.

(** ** C78: the call returns *)

(** With a feasible point, and with coefficients of absolute value at most
    2e7, the call finishes: no conversion to int overflows and no null array
    is read. *)
Theorem C78_returns : forall clp dup p fact rnd o i rows cols z M T,
  wf_mip (p_m p) -> sharp_rows (p_m p) -> nonneg_lower (p_m p) -> at_fixed p ->
  (forall f, fact = Some f -> fact_ok p f) -> scale_limit o T ->
  feasible (p_m p) z -> spread (p_m p) M z -> 0 <= M ->
  tolerance (m_ncols (p_m p)) (length (m_rows (p_m p))) M T <= 1 # 1000000000 ->
  (forall r j a, In r (m_rows (p_m p)) -> In (j, a) (r_form r) -> Qabs a <= 20000000 # 1) ->
  exists res, generateCuts clp dup p fact rnd o i rows cols = Done res.
Proof.
  intros clp dup p fact rnd o i rows cols z M T WF SH NN FX FO [HT0 HT] FZ SP HM TL SM.
  unfold generateCuts. destruct (existsb (free_col (p_m p)) (seq 0 (m_ncols (p_m p)))); [eexists; reflexivity|].
  assert (CL : exists r, cut_list p fact rnd o i = Done r).
  { unfold cut_list. destruct (w_form o); [|eexists; reflexivity].
    destruct (form_rows_total p (params_of o i) rnd SM (seq 0 (Nat.min (nr p) (Z.to_nat (i_rows i)))) (w_used o) []) as (r & E).
    - intros j Hj. apply in_seq in Hj. lia.
    - unfold form_cuts. rewrite E. cbn [bind]. eexists. reflexivity. }
  destruct CL as (r & CL). rewrite CL. cbn [bind].
  pose proof (cut_list_ok p z M T o i WF FZ SH NN SP HM HT0 HT fact rnd r FO CL) as G.
  rewrite <- slop_eq in TL.
  destruct (emits_ok p z FZ (slop p M T) (max_of p o i) (fst r) (slop_pos p M T HM HT0) TL FX G) as (es & -> & _).
  cbn [bind]. destruct (put dup rows cols es) as [a b]. eexists. reflexivity.
Qed.
Print Assumptions C78_returns.

(** ** C79: the settings *)

(** The number given to setFormulationRows is never read. *)
Theorem C79_formulation_rows_ignored : forall clp dup p fact rnd o n i rows cols,
  generateCuts clp dup p fact rnd (tm_apply o (SFormulationRows n)) i rows cols =
  generateCuts clp dup p fact rnd o i rows cols.
Proof. intros clp dup p fact rnd [] n i rows cols. reflexivity. Qed.
Print Assumptions C79_formulation_rows_ignored.

Lemma tab_loop_nil p cp f : (forall c, from_base p cp c = ([], false)) -> forall ks, tab_loop p cp f ks [] = [].
Proof.
  intros H. induction ks as [|j ks IH]; cbn [tab_loop]; [reflexivity|].
  destruct (negb (p_cbas p j && m_int (p_m p) j)); [exact IH|].
  destruct (Qltb (frac (p_x p j)) (threshold cp) || Qltb (1 - threshold cp) (frac (p_x p j))); [exact IH|].
  match goal with |- context [if ?b then _ else _] => destruct b end; [exact IH|].
  rewrite H. cbn [app]. exact IH.
Qed.
Lemma form_loop_nil p cp rnd base sl free prob : (forall c, from_base p cp c = ([], false)) ->
  forall es used sk r, form_loop p cp rnd base sl free prob es used sk [] = Done r -> fst (fst r) = [] /\ snd r = false.
Proof.
  intros H. induction es as [|e es IH]; intros used sk r R; cbn [form_loop] in R.
  - apply Done_inj in R. subst r. split; reflexivity.
  - destruct (negb (isint p (fst e))); [eapply IH; eassumption|].
    destruct (negb (Qltb (rnd used) prob)); [eapply IH; eassumption|].
    destruct (Qltb (px p (fst e)) (1 # 100)); [eapply IH; eassumption|].
    destruct (Qltb (Qabs (snd e)) (1 # 100)); [eapply IH; eassumption|].
    destruct (free || Qltb (1 # 2) (Qabs (sl / Qabs (snd e)))); [eapply IH; eassumption|].
    match type of R with context [if negb ?b then _ else _] => destruct (negb b) end; [discriminate|].
    match type of R with context [if existsb ?f ?b then _ else _] => destruct (existsb f b) end; [eapply IH; eassumption|].
    rewrite H in R. cbn [app] in R. eapply IH; exact R.
Qed.
Lemma form_rows_nil p cp rnd : (forall c, from_base p cp c = ([], false)) ->
  forall is used r, form_rows p cp rnd is used [] = Done r -> fst r = [].
Proof.
  intros H. induction is as [|j is IH]; intros used r R; cbn [form_rows] in R.
  - apply Done_inj in R. subst r. reflexivity.
  - apply bind_done in R. destruct R as ([[cs u] err] & R1 & R2).
    assert (G : cs = [] /\ err = false).
    { unfold form_row in R1. match type of R1 with context [if ?b then _ else _] => destruct b end.
      - apply Done_inj in R1. injection R1 as <- <- <-. split; reflexivity.
      - apply (form_loop_nil _ _ _ _ _ _ _ H) in R1. exact R1. }
    destruct G as [-> ->]. cbn [app] in R2. eapply IH; exact R2.
Qed.

(** Nothing is added when a column has no bound within 1e20 on either side;
    nor when both kinds of inequality are switched off; nor when the tableau
    source is off (or the call is below the root or in pass six or later) and
    the formulation source is off or the tree information gives no
    formulation rows - as it does unless the caller sets it. *)
Theorem C79_nothing : forall clp dup p fact rnd o i rows cols rows' cols' u,
  (exists j, (j < m_ncols (p_m p))%nat /\
     (forall l, m_clo (p_m p) j = Some l -> l < - inject_Z (10 ^ 20)) /\
     (forall h, m_chi (p_m p) j = Some h -> inject_Z (10 ^ 20) < h)) \/
  (w_mir o = false /\ w_2mir o = false) \/
  ((w_tab o = false \/ (1 <= i_level i)%Z \/ (6 <= i_pass i)%Z) /\ (w_form o = false \/ (i_rows i <= 0)%Z)) ->
  generateCuts clp dup p fact rnd o i rows cols = Done (rows', cols', u) ->
  rows' = rows /\ cols' = cols.
Proof.
  intros clp dup p fact rnd o i rows cols rows' cols' u H R.
  assert (K : forall r, cut_list p fact rnd o i = Done r -> fst r = [] \/
     existsb (free_col (p_m p)) (seq 0 (m_ncols (p_m p))) = true).
  { intros r CL. destruct H as [(j & Hj & H1 & H2)|[[H1 H2]|[H1 H2]]].
    - right. apply existsb_exists. exists j. split; [apply in_seq; lia|].
      unfold free_col. apply andb_true_iff. split.
      + destruct (m_clo (p_m p) j) as [l|]; [|reflexivity]. apply Qltb_lt. apply H1. reflexivity.
      + destruct (m_chi (p_m p) j) as [l|]; [|reflexivity]. apply Qltb_lt. apply H2. reflexivity.
    - left. assert (FB : forall c, from_base p (params_of o i) c = ([], false)).
      { intros c. destruct (from_base p (params_of o i) c) as [l err] eqn:E.
        destruct (from_base_plain _ _ _ _ _ E) as [-> _].
        pose proof (from_base_off p (params_of o i) c) as Z0. rewrite E in Z0. cbn [fst] in Z0.
        rewrite Z0; [reflexivity| |]; unfold params_of; cbn [t_max t_min q_max q_min]; rewrite ?H1, ?H2; lia. }
      unfold cut_list in CL.
      assert (T0 : (if w_tab o && (i_level i <? 1)%Z && (i_pass i <? 6)%Z then tab_cuts p (params_of o i) fact else []) = []).
      { destruct (w_tab o && (i_level i <? 1)%Z && (i_pass i <? 6)%Z); [|reflexivity]. unfold tab_cuts.
        destruct fact as [f|]; [|reflexivity]. apply tab_loop_nil. exact FB. }
      rewrite T0 in CL. destruct (w_form o); [|apply Done_inj in CL; subst r; reflexivity].
      apply bind_done in CL. destruct CL as (r2 & CL & E). apply Done_inj in E. subst r. cbn [fst app].
      eapply form_rows_nil; [exact FB|exact CL].
    - left. unfold cut_list in CL.
      assert (T0 : w_tab o && (i_level i <? 1)%Z && (i_pass i <? 6)%Z = false).
      { destruct H1 as [->|[H1|H1]]; [reflexivity| |].
        - replace (i_level i <? 1)%Z with false by (symmetry; apply Z.ltb_ge; exact H1).
          rewrite andb_false_r. reflexivity.
        - replace (i_pass i <? 6)%Z with false by (symmetry; apply Z.ltb_ge; exact H1).
          rewrite andb_false_r. reflexivity. }
      rewrite T0 in CL. destruct (w_form o); [|apply Done_inj in CL; subst r; reflexivity].
      destruct H2 as [H2|H2]; [discriminate|].
      unfold form_cuts in CL. replace (Z.to_nat (i_rows i)) with 0%nat in CL by lia.
      rewrite Nat.min_0_r in CL. cbn [seq form_rows bind] in CL. apply Done_inj in CL. subst r. reflexivity. }
  unfold generateCuts in R.
  destruct (existsb (free_col (p_m p)) (seq 0 (m_ncols (p_m p)))) eqn:FC.
  - apply Done_inj in R. injection R as <- <- _. auto.
  - apply bind_done in R. destruct R as (r & R1 & R). destruct (K r R1) as [E|E]; [|discriminate].
    rewrite E in R. cbn [emits bind put] in R. apply Done_inj in R. injection R as <- <- _.
    unfold marks. rewrite skipn_all, firstn_all. cbn [map]. rewrite app_nil_r. auto.
Qed.
Print Assumptions C79_nothing.

(** Cuts are never marked as globally valid inside the tree; outside, in a
    build with Clp all of them are, and in a build without Clp those not
    longer than the limit of the tree, with option bit 2, or with option bit
    3 in the first pass. *)
Theorem C79_global : forall clp dup p fact rnd o i rows cols rows' cols' u,
  generateCuts clp dup p fact rnd o i rows cols = Done (rows', cols', u) ->
  exists new, rows' = rows ++ new /\ forall c g, In (c, g) new ->
    (g = true <-> i_tree i = false /\
      (clp = true \/
       ((Z.testbit (i_options i) 2 = true \/ (Z.testbit (i_options i) 3 = true /\ i_pass i = 0%Z)) /\
        (Z.of_nat (length (rc_form c)) <= w_max o)%Z))).
Proof.
  intros clp dup p fact rnd o i rows cols rows' cols' u R.
  destruct (generate_new p clp dup fact rnd o i rows cols rows' cols' u R) as (newr & newc & -> & _ & [[-> _]|(r & es & _ & _ & A & _)]).
  - exists []. split; [reflexivity|intros c g []].
  - exists newr. split; [reflexivity|]. intros c g H. destruct (A c g H) as [_ ->]. unfold globally.
    assert (B2 : (Z.land (i_options i) 4 =? 4)%Z = Z.testbit (i_options i) 2).
    { change 4%Z with (2 ^ 2)%Z. apply Bool.eq_iff_eq_true. rewrite Z.eqb_eq. split; intros X.
      - assert (Y : Z.testbit (Z.land (i_options i) (2 ^ 2)) 2 = true) by (rewrite X; reflexivity).
        rewrite Z.land_spec in Y. apply andb_true_iff in Y. apply Y.
      - apply Z.bits_inj'. intros k Hk. rewrite Z.land_spec, Z.pow2_bits_eqb by lia.
        destruct (2 =? k)%Z eqn:E; [apply Z.eqb_eq in E; subst k; rewrite X; reflexivity|apply andb_false_r]. }
    assert (B3 : bit (i_options i) 8 = Z.testbit (i_options i) 3).
    { unfold bit. change 8%Z with (2 ^ 3)%Z. apply Bool.eq_iff_eq_true. rewrite negb_true_iff, Z.eqb_neq. split; intros X.
      - destruct (Z.testbit (i_options i) 3) eqn:E; [reflexivity|]. exfalso. apply X.
        apply Z.bits_inj'. intros k Hk. rewrite Z.land_spec, Z.pow2_bits_eqb, Z.bits_0 by lia.
        destruct (3 =? k)%Z eqn:E'; [apply Z.eqb_eq in E'; subst k; rewrite E; reflexivity|apply andb_false_r].
      - intros Y. assert (W : Z.testbit (Z.land (i_options i) (2 ^ 3)) 3 = false) by (rewrite Y; reflexivity).
        rewrite Z.land_spec, X in W. discriminate. }
    rewrite B2, B3. rewrite orb_true_iff, !andb_true_iff, orb_true_iff, andb_true_iff, negb_true_iff, Z.eqb_eq, Z.leb_le.
    tauto.
Qed.
Print Assumptions C79_global.

(** Whatever the sequence of setters, both distances stay in (0, 1/2], and
    each is the last accepted value. *)
Theorem C79_away : forall l,
  let o := fold_left tm_apply l tm_new in
  0 < w_away o <= 1 # 2 /\ 0 < w_away_root o <= 1 # 2 /\
  forall q, (0 < q <= 1 # 2 -> w_away (tm_apply o (SAway q)) = q /\ w_away_root (tm_apply o (SAwayAtRoot q)) = q) /\
            (~ 0 < q <= 1 # 2 -> tm_apply o (SAway q) = o /\ tm_apply o (SAwayAtRoot q) = o).
Proof.
  intros l.
  assert (IN : forall l o, 0 < w_away o <= 1 # 2 -> 0 < w_away_root o <= 1 # 2 ->
    0 < w_away (fold_left tm_apply l o) <= 1 # 2 /\ 0 < w_away_root (fold_left tm_apply l o) <= 1 # 2).
  { clear l. induction l as [|s l IH]; intros o A B; [split; assumption|]. cbn [fold_left]. apply IH.
    - destruct o as [aw ar m1 m2 tb fm tn tx qa qx am mx mr fr u]; destruct s; cbn [tm_apply w_away w_away_root] in *; try exact A.
      + destruct (ok_away q) eqn:E; [|exact A]. unfold ok_away in E. apply andb_true_iff in E. destruct E. qb. split; assumption.
      + destruct (ok_away q); exact A.
    - destruct o as [aw ar m1 m2 tb fm tn tx qa qx am mx mr fr u]; destruct s; cbn [tm_apply w_away w_away_root] in *; try exact B.
      + destruct (ok_away q); exact B.
      + destruct (ok_away q) eqn:E; [|exact B]. unfold ok_away in E. apply andb_true_iff in E. destruct E. qb. split; assumption. }
  destruct (IN l tm_new) as [A B]; [vm_compute; split; [reflexivity|discriminate]|vm_compute; split; [reflexivity|discriminate]|].
  cbv zeta. split; [exact A|]. split; [exact B|]. intros q. split; intros H.
  - assert (E : ok_away q = true) by (unfold ok_away; apply andb_true_iff; split; [apply Qltb_lt|apply Qleb_le]; apply H).
    destruct (fold_left tm_apply l tm_new). cbn [tm_apply]. rewrite E. split; reflexivity.
  - assert (E : ok_away q = false).
    { destruct (ok_away q) eqn:E; [|reflexivity]. unfold ok_away in E. apply andb_true_iff in E. destruct E. qb.
      contradiction H. split; assumption. }
    destruct (fold_left tm_apply l tm_new). cbn [tm_apply]. rewrite E. split; reflexivity.
Qed.
Print Assumptions C79_away.

(** ** Cases *)

(** Three integer columns in [0, 10], the rows 2x + 2y <= 3 and 2w <= 3, the
    LP point (3/2, 0, 3/2). *)
Definition never (l : list (rowcut * bool)) (c : rowcut) : bool := false.
Definition rnd0 (k : nat) : Q := 0.
Definition box (n : nat) (rows : list row) : mip :=
  Mip n rows (fun _ => Some 0) (fun _ => Some (10 # 1)) (fun _ => true).
Definition ex_mip : mip := box 3 [Row [(0%nat, 2); (1%nat, 2)] None (Some 3); Row [(2%nat, 2)] None (Some 3)].
Definition ex_x (j : nat) : Q := if (j =? 1)%nat then 0 else 3 # 2.
Definition ex_lp : lp := LP ex_mip ex_x (fun _ => 0) (fun _ => 0) (fun j => negb (j =? 1)%nat) (fun _ => false).
Definition ex_fact (j : nat) : list Q := if (j =? 0)%nat then [1 # 2; 0] else [0; 1 # 2].
Definition ex_info : tinfo := TInfo false 0 1 4 2.
Definition ex_z (j : nat) : Q := if (j =? 1)%nat then 0 else 1.

Lemma sharp_int q : integral q -> sharp q.
Proof. intros H _. exact H. Qed.
Lemma box_sharp n rows :
  (forall r, In r rows -> (forall j a, In (j, a) (r_form r) -> integral a) /\
     (forall b, r_lo r = Some b -> integral b) /\ (forall b, r_hi r = Some b -> integral b)) ->
  sharp_rows (box n rows).
Proof.
  intros H r Hr. destruct (H r Hr) as (A & B & C). repeat split.
  - intros j a Ha. apply sharp_int, (A j a Ha).
  - intros l E. apply sharp_int, (B l E).
  - intros h E. apply sharp_int, (C h E).
  - intros h l E1 E2 E. destruct (C h E1) as [zh Hh]. destruct (B l E2) as [zl Hl]. rewrite Hh, Hl in *.
    destruct (Z.eq_dec zh zl) as [->|NE]; [reflexivity|]. exfalso.
    apply abs_bounds in E.
    assert (D : (zh + 1 <= zl)%Z \/ (zl + 1 <= zh)%Z) by lia.
    destruct D as [D|D]; rewrite Zle_Qle in D; rewrite inject_Z_plus in D; change (inject_Z 1) with 1 in D; lra.
Qed.
Lemma box_nonneg n rows : nonneg_lower (box n rows).
Proof. intros j _. exists 0. split; [reflexivity|lra]. Qed.
Lemma box_not_fixed n rows x rc pi cb rb : at_fixed (LP (box n rows) x rc pi cb rb).
Proof.
  intros j l u _ E1 E2 E. apply Some_inj in E1. apply Some_inj in E2. subst. vm_compute in E. discriminate.
Qed.
Lemma new_scale : scale_limit tm_new 1.
Proof.
  split; [lra|]. intros t [H|H]; cbn [w_tmin w_tmax w_qmin w_qmax tm_new] in H; replace t with 1%Z by lia; vm_compute; discriminate.
Qed.

(** The hypotheses of C76, C77 and C78 hold together and the call adds row
    cuts and column cuts. *)
Example C76_case : wf_mip ex_mip /\ sharp_rows ex_mip /\ nonneg_lower ex_mip /\ at_fixed ex_lp /\
  (forall f, Some ex_fact = Some f -> fact_ok ex_lp f) /\ scale_limit tm_new 1 /\
  feasible ex_mip ex_z /\ spread ex_mip (10 # 1) ex_z /\
  tolerance (m_ncols ex_mip) (length (m_rows ex_mip)) (10 # 1) 1 <= 1 # 1000000000 /\
  (forall r j a, In r (m_rows ex_mip) -> In (j, a) (r_form r) -> Qabs a <= 20000000 # 1).
Proof.
  assert (R : forall r, In r (m_rows ex_mip) -> (forall j a, In (j, a) (r_form r) -> a = 2) /\
     (forall b, r_lo r = Some b -> b = 3) /\ (forall b, r_hi r = Some b -> b = 3)).
  { intros r [<-|[<-|[]]]; repeat split; cbn [r_form r_lo r_hi]; try discriminate;
      try (intros b E; apply Some_inj in E; congruence); intros j a Ha; cbn [In] in Ha;
      repeat destruct Ha as [Ha|Ha]; try contradiction; congruence. }
  split; [apply wfb_ok; vm_compute; reflexivity|].
  split.
  { apply box_sharp. intros r Hr. destruct (R r Hr) as (A & B & C).
    split; [|split]; intros; [erewrite (A _ _ H)|erewrite (B _ H)|erewrite (C _ H)]; [exists 2%Z|exists 3%Z|exists 3%Z]; reflexivity. }
  split; [apply box_nonneg|]. split; [apply box_not_fixed|].
  split.
  { intros f E. apply Some_inj in E. subst f. intros k Hk Bk _. cbn [p_m m_ncols ex_lp ex_mip box] in Hk.
    destruct k as [|[|[|k]]]; [|vm_compute in Bk; discriminate| |lia].
    - split.
      + intros j Hj Bj NE. cbn [p_m m_ncols ex_lp ex_mip box] in Hj.
        destruct j as [|[|[|j]]]; [contradiction NE; reflexivity|vm_compute in Bj; discriminate|vm_compute; reflexivity|lia].
      + intros i r Hr Lo Hi. destruct (R r (nth_error_In _ _ Hr)) as (_ & _ & _).
        destruct i as [|[|i]]; cbn in Hr; [| |destruct i; discriminate]; apply Some_inj in Hr; subst r; discriminate.
    - split.
      + intros j Hj Bj NE. cbn [p_m m_ncols ex_lp ex_mip box] in Hj.
        destruct j as [|[|[|j]]]; [vm_compute; reflexivity|vm_compute in Bj; discriminate|contradiction NE; reflexivity|lia].
      + intros i r Hr Lo Hi.
        destruct i as [|[|i]]; cbn in Hr; [| |destruct i; discriminate]; apply Some_inj in Hr; subst r; discriminate. }
  split; [exact new_scale|]. split; [apply feasible_b_ok; vm_compute; reflexivity|].
  split.
  { split.
    - intros j _. unfold ex_z. destruct (j =? 1)%nat; (split; [vm_compute; discriminate|]);
        intros u E; apply Some_inj in E; subst u; vm_compute; discriminate.
    - intros r [<-|[<-|[]]]; split; cbn [r_hi r_lo]; try discriminate;
        intros h E; apply Some_inj in E; subst h; vm_compute; discriminate. }
  split; [vm_compute; discriminate|].
  intros r j a Hr Ha. destruct (R r Hr) as (A & _). rewrite (A j a Ha). vm_compute. discriminate.
Qed.
Example C77_case : exists a b c d u,
  generateCuts false never ex_lp (Some ex_fact) rnd0 tm_new ex_info [] [] = Done ([a; b], [c; d], u) /\
  snd a = true /\ length (rc_form (fst a)) = 2%nat.
Proof. do 5 eexists. split; [vm_compute; reflexivity|]. split; reflexivity. Qed.
Example C78_case : generateCuts false never ex_lp (Some ex_fact) rnd0 tm_new ex_info [] [] <> Done ([], [], 0%nat).
Proof. vm_compute. discriminate. Qed.
Example C79_case :
  generateCuts false never ex_lp (Some ex_fact) rnd0 (tm_apply tm_new (SCutTypes false false true true)) ex_info [] [] =
  Done ([], [], 5%nat) /\
  generateCuts false never ex_lp (Some ex_fact) rnd0 tm_new (TInfo true 1 0 0 (-1)) [] [] = Done ([], [], 0%nat).
Proof. split; vm_compute; reflexivity. Qed.

(** ** What fails *)

(** A negative lower bound: a small coefficient of a continuous column is
    dropped against its upper bound, not against the distance between its
    bounds.  x integer in [0, 10], y in [-1e9, 0], the row
    x - 9e-8 y >= 1/2, the LP point (1/2, 0): the bound x >= 1 cuts off
    (0, -1e9). *)
Definition neg_mip : mip :=
  Mip 2 [Row [(0%nat, 1); (1%nat, - (9 # 100000000))] (Some (1 # 2)) None]
      (fun j => if (j =? 0)%nat then Some 0 else Some (- inject_Z (10 ^ 9)))
      (fun j => if (j =? 0)%nat then Some (10 # 1) else Some 0) (fun j => (j =? 0)%nat).
Definition half0 (j : nat) : Q := if (j =? 0)%nat then 1 # 2 else 0.
Definition neg_lp : lp := LP neg_mip half0 (fun _ => 0) (fun _ => 0) (fun j => (j =? 0)%nat) (fun _ => false).
Theorem C76_negative_bound_refuted : exists p fact o i z c,
  wf_mip (p_m p) /\ sharp_rows (p_m p) /\ at_fixed p /\ fact_ok p fact /\ feasible (p_m p) z /\
  generateCuts true never p (Some fact) rnd0 o i [] [] = Done ([], [c; c], 1%nat) /\ ~ colcut_sat c z.
Proof.
  exists neg_lp, (fun _ => [1]), tm_new, (TInfo false 0 0 0 1), (fun j => if (j =? 0)%nat then 0 else - inject_Z (10 ^ 9)), (ColCut [(0%nat, 1)] []).
  split; [apply wfb_ok; vm_compute; reflexivity|].
  split.
  { intros r [<-|[]]. cbn [r_form r_lo r_hi]. split; [|split; [|split]]; try discriminate.
    - intros j a [H|[H|[]]]; injection H as <- <-; unfold sharp; intros H; [exists 1%Z; reflexivity|vm_compute in H; contradiction H; reflexivity].
    - intros l E. apply Some_inj in E. subst l. intros H. vm_compute in H. contradiction H. reflexivity. }
  split.
  { intros j l u _ E1 E2 E. cbn [p_m neg_lp neg_mip m_clo m_chi] in *. destruct (j =? 0)%nat;
      apply Some_inj in E1; apply Some_inj in E2; subst; vm_compute in E; discriminate. }
  split.
  { intros k Hk Bk _. split.
    - intros j _ Bj NE. cbn [p_cbas neg_lp] in *. apply Nat.eqb_eq in Bk, Bj. congruence.
    - intros i r Hr Lo _. destruct i as [|i]; cbn in Hr; [|destruct i; discriminate]. apply Some_inj in Hr. subst r. discriminate. }
  split; [apply feasible_b_ok; vm_compute; reflexivity|].
  split; [vm_compute; reflexivity|].
  intros [H _]. specialize (H 0%nat 1 (or_introl eq_refl)). vm_compute in H. apply H. reflexivity.
Qed.
Print Assumptions C76_negative_bound_refuted.

(** A coefficient just above an integer is taken for the integer.  x, y
    integer in [0, 10], the row 1e-11 x + 1.5e-11 y <= 5e-12, the LP point
    (1/2, 0): the slack is taken for an integer and the bound y >= 1 cuts off
    the origin. *)
Definition tiny_mip : mip :=
  box 2 [Row [(0%nat, 1 # 100000000000); (1%nat, 15 # 1000000000000)] None (Some (5 # 1000000000000))].
Definition tiny_lp : lp := LP tiny_mip half0 (fun _ => 0) (fun _ => 0) (fun j => (j =? 0)%nat) (fun _ => false).
Definition tiny_fact (j : nat) : list Q := [inject_Z (10 ^ 11)].
Theorem C76_near_integer_refuted : exists p fact o i z c,
  wf_mip (p_m p) /\ nonneg_lower (p_m p) /\ at_fixed p /\ fact_ok p fact /\ feasible (p_m p) z /\
  generateCuts true never p (Some fact) rnd0 o i [] [] = Done ([], [c], 0%nat) /\ ~ colcut_sat c z.
Proof.
  exists tiny_lp, tiny_fact, tm_new, (TInfo false 0 0 0 (-1)), (fun _ => 0), (ColCut [(1%nat, 1)] []).
  split; [apply wfb_ok; vm_compute; reflexivity|]. split; [apply box_nonneg|]. split; [apply box_not_fixed|].
  split.
  { intros k Hk Bk _. split.
    - intros j _ Bj NE. cbn [p_cbas tiny_lp] in *. apply Nat.eqb_eq in Bk, Bj. congruence.
    - intros i r Hr Lo Hi. destruct i as [|i]; cbn in Hr; [|destruct i; discriminate]. apply Some_inj in Hr. subst r. discriminate. }
  split; [apply feasible_b_ok; vm_compute; reflexivity|].
  split; [vm_compute; reflexivity|].
  intros [H _]. specialize (H 1%nat 1 (or_introl eq_refl)). vm_compute in H. apply H. reflexivity.
Qed.
Print Assumptions C76_near_integer_refuted.

(** A row whose range is below the tolerance is taken for an equation.  x
    integer in [0, 10], another column, the row -5e-7 <= 1e-6 x <= 5e-7, the
    LP point 1/2: the bound x >= 1 cuts off x = 0. *)
Definition range_mip : mip := box 2 [Row [(0%nat, 1 # 1000000)] (Some (- (1 # 2000000))) (Some (1 # 2000000))].
Definition range_lp : lp := LP range_mip half0 (fun _ => 0) (fun _ => 0) (fun j => (j =? 0)%nat) (fun _ => false).
Theorem C76_small_range_refuted : exists p fact o i z c,
  wf_mip (p_m p) /\ nonneg_lower (p_m p) /\ at_fixed p /\ fact_ok p fact /\ feasible (p_m p) z /\
  generateCuts true never p (Some fact) rnd0 o i [] [] = Done ([], [c], 0%nat) /\ ~ colcut_sat c z.
Proof.
  exists range_lp, (fun _ => [inject_Z (10 ^ 6)]), tm_new, (TInfo false 0 0 0 (-1)), (fun _ => 0), (ColCut [(0%nat, 1)] []).
  split; [apply wfb_ok; vm_compute; reflexivity|]. split; [apply box_nonneg|]. split; [apply box_not_fixed|].
  split.
  { intros k Hk Bk _. split.
    - intros j _ Bj NE. cbn [p_cbas range_lp] in *. apply Nat.eqb_eq in Bk, Bj. congruence.
    - intros i r Hr Lo Hi. destruct i as [|i]; cbn in Hr; [|destruct i; discriminate]. apply Some_inj in Hr. subst r. discriminate. }
  split; [apply feasible_b_ok; vm_compute; reflexivity|].
  split; [vm_compute; reflexivity|].
  intros [H _]. specialize (H 0%nat 1 (or_introl eq_refl)). vm_compute in H. apply H. reflexivity.
Qed.
Print Assumptions C76_small_range_refuted.

(** A coefficient above 21474836.47 in a formulation row makes the
    conversion of 100 times the coefficient to int undefined: the row
    1e8 x <= 5e7 with x = 1/2. *)
Definition large_lp : lp :=
  LP (box 1 [Row [(0%nat, inject_Z (10 ^ 8))] None (Some (inject_Z (5 * 10 ^ 7)))]) half0
     (fun _ => 0) (fun _ => 0) (fun _ => true) (fun _ => false).
Theorem C78_large_coefficient_refuted : exists p z i,
  wf_mip (p_m p) /\ sharp_rows (p_m p) /\ nonneg_lower (p_m p) /\ at_fixed p /\ feasible (p_m p) z /\
  generateCuts true never p None rnd0 tm_new i [] [] = Undef FloatCast.
Proof.
  exists large_lp, (fun _ => 0), (TInfo false 0 0 0 1).
  split; [apply wfb_ok; vm_compute; reflexivity|].
  split.
  { apply box_sharp. intros r [<-|[]]. cbn [r_form r_lo r_hi]. split; [|split]; try discriminate.
    - intros j a [H|[]]. injection H as <- <-. apply integral_inject.
    - intros b E. apply Some_inj in E. subst b. apply integral_inject. }
  split; [apply box_nonneg|]. split; [apply box_not_fixed|].
  split; [apply feasible_b_ok; vm_compute; reflexivity|]. vm_compute. reflexivity.
Qed.
Print Assumptions C78_large_coefficient_refuted.

(** A cut left without any column has no arrays, and their first entry is
    read: the row 1e-11 x <= 5e-12 with x = 1/2. *)
Definition empty_lp : lp :=
  LP (box 1 [Row [(0%nat, 1 # 100000000000)] None (Some (5 # 1000000000000))]) half0
     (fun _ => 0) (fun _ => 0) (fun _ => true) (fun _ => false).
Theorem C78_empty_cut_refuted : exists p fact z i,
  wf_mip (p_m p) /\ nonneg_lower (p_m p) /\ at_fixed p /\ fact_ok p fact /\ feasible (p_m p) z /\
  generateCuts true never p (Some fact) rnd0 tm_new i [] [] = Undef NullDeref.
Proof.
  exists empty_lp, tiny_fact, (fun _ => 0), (TInfo false 0 0 0 (-1)).
  split; [apply wfb_ok; vm_compute; reflexivity|].
  split; [apply box_nonneg|]. split; [apply box_not_fixed|].
  split.
  { intros k Hk _ _. split.
    - intros j Hj _ NE. cbn [p_m empty_lp box m_ncols] in *. lia.
    - intros i r Hr Lo Hi. destruct i as [|i]; cbn in Hr; [|destruct i; discriminate]. apply Some_inj in Hr. subst r. discriminate. }
  split; [apply feasible_b_ok; vm_compute; reflexivity|]. vm_compute. reflexivity.
Qed.
Print Assumptions C78_empty_cut_refuted.
