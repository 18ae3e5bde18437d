(** * Properties of CglLandP *)

From Coq Require Import Qabs Permutation Sorted.
From Verif Require Import Base Decide Model_LandP Proofs_LandP Proofs_LandPCut Proofs_LandPLoop Proofs_LandPGen Proofs_LandPSafe.
Local Open Scope Q_scope.

(** the problem whose tableau a call works on: the first call turns range rows
    into equations with an added column *)
Definition turns (g : gen) (c : call) : bool :=
  match g_rows g with None => negb (Nat.eqb (num_ranges (c_si c)) 0) | Some _ => false end.
Definition worked_on (g : gen) (c : call) : mip := if turns g c then converted (c_si c) (c_act c) else c_si c.

(** ** Auxiliary *)
Lemma generate_inv ins g c cs g' cs' : generateCuts ins g c cs = Done (g', cs') ->
  (g_rows g <> None /\ (p_maxLen (g_par g) < 0)%Z /\ g' = g /\ cs' = cs) \/
  ((g_rows g = None \/ (0 <= p_maxLen (g_par g))%Z) /\ c_avail c = true /\
   exists b0 tm nr, cached_basis (worked_on g c) c = Done b0 /\
     separate ins c (worked_on g c) (turns g c) (local_par (g_par g) (c_inTree c) nr) (p_pivotLimit (g_par g)) (g_val g) b0
       (s_x (c_solver c) b0) cs = Done cs' /\
     nr = match g_rows g with None => length (m_rows (c_si c)) | Some k => k end /\
     g' = Gen (set_len (g_par g) (if turns g c then - p_maxLen (g_par g) else p_maxLen (g_par g))%Z tm) (g_val g) (Some nr)).
Proof.
  unfold generateCuts. destruct (match g_rows g with Some _ => (p_maxLen (g_par g) <? 0)%Z | None => false end) eqn:X; intro E.
  - apply Done_inj in E. injection E as <- <-. left. destruct (g_rows g); [|discriminate]. apply Z.ltb_lt in X. conjs; auto. discriminate.
  - right. split.
    { destruct (g_rows g); [right; apply Z.ltb_ge in X; exact X|left; reflexivity]. }
    destruct (c_avail c); [|discriminate]. split; [reflexivity|].
    set (nr := match g_rows g with None => _ | Some k => k end) in *.
    assert (TR : (match g_rows g with None => true | Some _ => false end) && negb (Nat.eqb (num_ranges (c_si c)) 0) = turns g c).
    { unfold turns. destruct (g_rows g); reflexivity. }
    rewrite TR in E. apply bind_done in E. destruct E as (b0 & Eb & E).
    destruct (match p_norm _ with WeightRHS => _ | _ => _ end); [discriminate|].
    apply bind_done in E. destruct E as (cs1 & Es & E). apply Done_inj in E. injection E as <- <-.
    eexists b0, _, nr. conjs; auto; reflexivity.
Qed.

(** the conditions on the parameters under which the cuts are right *)
Record params_ok (p : lpar) : Prop := {
  pa_tol : - p_pivotTol p <= 10;
  pa_rule : p_rule p <> InitialReducedCosts;
  pa_extra : p_extra p <> WhenEnteringBasis
}.
(** the range rows are turned into equations, or there is none, or the call
    returns at once *)
Definition ranges_ok (g : gen) (c : call) : Prop :=
  g_rows g = None \/ num_ranges (c_si c) = 0%nat \/ (p_maxLen (g_par g) < 0)%Z.
(** the simplex interface is exact in the bases that can be reached *)
Definition exact_solver (g : gen) (c : call) : Prop :=
  exists good, exact (worked_on g c) (c_solver c) good /\
    forall b0, cached_basis (worked_on g c) c = Done b0 -> good b0.

Lemma worked_data g c : problem_ok (c_si c) -> ranges_ok g c -> (g_rows g = None \/ (0 <= p_maxLen (g_par g))%Z) -> data_ok (worked_on g c).
Proof.
  intros P R H. unfold worked_on, turns. destruct (g_rows g) as [k|] eqn:G.
  - apply plain_data; [exact P|]. destruct R as [R|[R|R]]; [congruence|exact R|]. destruct H as [H|H]; [discriminate|lia].
  - destruct (Nat.eqb_spec (num_ranges (c_si c)) 0) as [Z|Z]; cbn [negb]; [apply plain_data; assumption|apply converted_data; exact P].
Qed.
(** a feasible point gives one of the problem worked on, with the same values in
    the columns of the problem *)
Lemma worked_point g c y p : problem_ok (c_si c) -> ranges_ok g c -> (g_rows g = None \/ (0 <= p_maxLen (g_par g))%Z) ->
  feasible (c_si c) y -> point_ok (c_si c) p y ->
  exists z, feasible (worked_on g c) z /\ moderate (worked_on g c) p z /\ forall j, (j < m_ncols (c_si c))%nat -> z j == y j.
Proof.
  intros P R H F M. unfold worked_on, turns. destruct (g_rows g) as [k|] eqn:G.
  - exists y. conjs; [exact F| |reflexivity]. apply plain_moderate; [|exact M].
    destruct R as [R|[R|R]]; [congruence|exact R|]. destruct H as [H|H]; [discriminate|lia].
  - destruct (Nat.eqb_spec (num_ranges (c_si c)) 0) as [Z|Z]; cbn [negb].
    + exists y. conjs; [exact F| |reflexivity]. apply plain_moderate; assumption.
    + exists (extend (c_si c) (c_act c) y). conjs; [apply extend_feasible; assumption|apply extend_moderate; assumption|].
      apply extend_agree.
Qed.
Lemma span_nonneg m y : feasible m y -> 0 <= span m y.
Proof.
  intros (F1 & F2 & _). unfold span.
  assert (Z : forall k f, (forall i, (i < k)%nat -> 0 <= f i) -> 0 <= qsum k f).
  { intros k f H. apply Qle_trans with (qsum k (fun _ => 0)); [|apply qsum_le; exact H]. clear. induction k; cbn [qsum]; lra. }
  assert (0 <= qsum (m_ncols m) (fun j => od (m_clo m j) (fun l => y j - l) + od (m_chi m j) (fun u => u - y j))).
  { apply Z. intros j L. destruct (F2 j L) as (A & B). destruct (m_clo m j), (m_chi m j); cbn in *; lra. }
  assert (0 <= qsum (length (m_rows m)) (fun i => od (r_lo (row_of m i)) (fun l => value (r_form (row_of m i)) y - l) +
                od (r_hi (row_of m i)) (fun u => u - value (r_form (row_of m i)) y))).
  { apply Z. intros i L. destruct (F1 (row_of m i) (row_in m i L)) as (A & B). destruct (r_lo (row_of m i)), (r_hi (row_of m i)); cbn in *; lra. }
  lra.
Qed.
Lemma turns_ncols g c : turns g c = false -> worked_on g c = c_si c.
Proof. unfold worked_on. intros ->. reflexivity. Qed.

(** ** C90: the cuts are valid *)
Theorem C90_cuts_valid ins g c cs g' cs' :
  ins_ok ins -> problem_ok (c_si c) -> params_ok (g_par g) -> ranges_ok g c -> exact_solver g c ->
  generateCuts ins g c cs = Done (g', cs') ->
  forall rc, In rc cs' -> In rc cs \/
    ((forall j a, In (j, a) (rc_form rc) -> (j < m_ncols (c_si c))%nat) ->
     forall y, feasible (c_si c) y -> point_ok (c_si c) (g_par g) y -> rowcut_sat rc y).
Proof.
  intros INS P [PT PR PE] R (good & EX & G0) E rc I.
  destruct (generate_inv _ _ _ _ _ _ E) as [(_ & _ & _ & ->)|(H & _ & b0 & tm & nr & Eb & Es & _ & _)]; [left; exact I|].
  pose proof (worked_data g c P R H) as D. specialize (G0 b0 Eb). set (t := worked_on g c) in *.
  set (p := local_par (g_par g) (c_inTree c) nr) in *.
  destruct (separate_made ins INS c t (turns g c) p (p_pivotLimit (g_par g)) (g_val g) b0 (s_x (c_solver c) b0) (near_valid t p) (fine t p)) with (cs := cs) (cs' := cs') (rc := rc) as [K|K]; auto.
  - intros row r Ir Er. destruct r as (t', f). destruct (frac_row_inv _ _ _ _ _ Ir) as (R1 & R2 & R3 & _).
    eapply generateMig_near; eassumption.
  - intros run lim row extra f e Ir X Eo. destruct (frac_row_inv _ _ _ _ _ Ir) as (R1 & R2 & R3 & _).
    apply (optimize_near t (c_solver c) (c_choices c) p (g_val g) _ PT good EX D) in Eo; auto.
  - right. intros RG y F M. destruct K as [->|(f & f' & Ev & -> & K)]; [split; exact Logic.I|].
    destruct (worked_point g c y p P R H F M) as (z & Fz & Mz & AG). fold t in Fz, Mz.
    assert (S : sat f' z).
    { assert (KB : forall v, (forall j a, In (j, a) v -> True) -> keeps_bounds (m_ncols (c_si c)) (m_clo (c_si c)) (m_chi (c_si c)) z v).
      { intros v _ j a _ L. destruct F as (_ & F & _). destruct (F j L) as (F1 & F2). pose proof (AG j L) as A.
        unfold ge_opt_lo, le_opt_hi in *. destruct (m_clo (c_si c) j), (m_chi (c_si c) j); rewrite ?A; auto. }
      destruct K as [(NV & _)|(GF & K)].
      - eapply (cleaned_valid t p); [exact NV|apply KB; auto|exact Ev|exact Fz|exact Mz].
      - specialize (K z Fz Mz). unfold validate in Ev. apply (cleanCut_weaker _ _ _ _ _ _ _ _ _ z) in Ev; [|apply KB; auto].
        unfold sat in *. destruct GF as (G1 & G2). pose proof (labs_sabs t _ z G1 G2) as L. unfold moderate in Mz.
        assert (c1e20 * labs (fst f) z <= c1e20 * sabs t z) by (apply Qmult_le_l; [reflexivity|exact L]).
        assert ((2 # 100000000000000000000) * sabs t z == c1e20 * sabs t z + c1e20 * sabs t z) by (unfold c1e20; ring).
        pose proof (sabs_nonneg t z). assert (0 <= c1e20 * sabs t z) by (apply Qmult_le_0_compat; [discriminate|assumption]).
        pose proof (span_nonneg t z Fz) as SN.
        destruct (p_strengthen p || p_modularize p); [lra|]. assert (0 <= c1e10 * span t z) by (apply Qmult_le_0_compat; [discriminate|exact SN]). lra. }
    unfold rowcut_sat. cbn [as_cut rc_form rc_lb rc_ub ge_opt_lo le_opt_hi]. split; [|exact Logic.I].
    unfold sat in S. cbn [as_cut rc_form] in RG. rewrite (value_ext (fst f') y z); [exact S|]. intros j a Ij. symmetry. apply AG. eapply RG. exact Ij.
Qed.
Print Assumptions C90_cuts_valid.
(** every column of a cut exists, when no range row was turned into an equation
    or no extra cuts are asked for *)
Theorem C90_columns_exist ins g c cs g' cs' :
  ins_ok ins -> turns g c = false \/ p_extra (g_par g) = NoExtra -> generateCuts ins g c cs = Done (g', cs') ->
  forall rc, In rc cs' -> In rc cs \/
    (NoDup (map fst (rc_form rc)) /\ forall j a, In (j, a) (rc_form rc) -> (j < m_ncols (c_si c))%nat).
Proof.
  intros INS H E rc I.
  destruct (generate_inv _ _ _ _ _ _ E) as [(_ & _ & _ & ->)|(_ & _ & b0 & tm & nr & Eb & Es & _ & _)]; [left; exact I|].
  set (t := worked_on g c) in *. set (p := local_par (g_par g) (c_inTree c) nr) in *.
  destruct (separate_made ins INS c t (turns g c) p (p_pivotLimit (g_par g)) (g_val g) b0 (s_x (c_solver c) b0)
              (fun f => good_form t (fst f)) (extra_shape t p)) with (cs := cs) (cs' := cs') (rc := rc) as [K|K]; auto.
  - intros row r _ Er. destruct r as (t', f). unfold generateMig in Er. apply bind_done in Er. destruct Er as (t0 & _ & Er).
    eapply create_shape. exact Er.
  - intros run lim row extra f e _ X Eo. apply (optimize_shape t (c_solver c) (c_choices c) p (g_val g)) in Eo; auto.
  - right. destruct K as [->|(f & f' & Ev & -> & K)]; [split; [constructor|intros j a []]|]. cbn [as_cut rc_form].
    pose proof (cc_sub _ _ _ _ _ _ (cleanCut_accepts _ _ _ _ _ _ _ _ _ Ev)) as SB.
    assert (GF : good_form t (fst f)) by (destruct K as [(K & _)|(K & _)]; exact K). pose proof (sub_form _ _ _ SB GF) as (G1 & G2).
    split; [exact G1|]. intros j a Ij. destruct (turns g c) eqn:T.
    + destruct H as [H|H]; [discriminate|]. destruct K as [(_ & K)|(_ & K)]; [apply (K eq_refl j a Ij)|]. exfalso. apply K. exact H.
    + specialize (G2 j a Ij). unfold t in G2. rewrite (turns_ncols g c T) in G2. exact G2.
Qed.
Print Assumptions C90_columns_exist.

(** ** C91: the form of the cuts *)
Theorem C91_cut_form ins g c cs g' cs' :
  ins_ok ins -> generateCuts ins g c cs = Done (g', cs') ->
  forall rc, In rc cs' -> In rc cs \/ rc = RowCut [] None None \/
    exists b0 lb z, cached_basis (worked_on g c) c = Done b0 /\ rc = RowCut (rc_form rc) (Some lb) None /\
      rc_form rc <> [] /\ NoDup (map fst (rc_form rc)) /\
      (forall j a, In (j, a) (rc_form rc) -> p_eps (g_par g) < Qabs a) /\
      (forall i a j b, 0 <= v_ratio (g_val g) -> In (i, a) (rc_form rc) -> In (j, b) (rc_form rc) -> Qabs a <= v_ratio (g_val g) * Qabs b) /\
      max_nnz (g_val g) (m_ncols (c_si c)) = Done z /\ (Z.of_nat (length (rc_form rc)) <= z)%Z /\
      (0 < v_minviol (g_val g) -> value (rc_form rc) (s_x (c_solver c) b0) + v_minviol (g_val g) <= lb).
Proof.
  intros INS E rc I.
  destruct (generate_inv _ _ _ _ _ _ E) as [(_ & _ & _ & ->)|(_ & _ & b0 & tm & nr & Eb & Es & _ & _)]; [left; exact I|].
  set (t := worked_on g c) in *. set (p := local_par (g_par g) (c_inTree c) nr) in *.
  destruct (separate_made ins INS c t (turns g c) p (p_pivotLimit (g_par g)) (g_val g) b0 (s_x (c_solver c) b0)
              (fun f => good_form t (fst f)) (extra_shape t p)) with (cs := cs) (cs' := cs') (rc := rc) as [K|K]; auto.
  - intros row r _ Er. destruct r as (t', f). unfold generateMig in Er. apply bind_done in Er. destruct Er as (t0 & _ & Er).
    eapply create_shape. exact Er.
  - intros run lim row extra f e _ X Eo. apply (optimize_shape t (c_solver c) (c_choices c) p (g_val g)) in Eo; auto.
  - right. destruct K as [->|(f & f' & Ev & -> & K)]; [left; reflexivity|]. right.
    destruct (cleanCut_accepts _ _ _ _ _ _ _ _ _ Ev) as [C1 C2 C3 C4 (z & C5 & C6) C7]. exists b0, (snd f'), z. cbn [as_cut rc_form].
    assert (GF : good_form t (fst f)) by (destruct K as [(K & _)|(K & _)]; exact K). destruct (sub_form _ _ _ C1 GF) as (G1 & G2).
    conjs; auto.
    + intros i a j b V I1 I2. apply (C4 i a j b I1 I2 V).
    + intro V. unfold violated in C7. destruct (value (fst f') (s_x (c_solver c) b0) <? snd f') eqn:L; lra.
Qed.
Print Assumptions C91_cut_form.

(** a cut without columns is inserted only when a row of the tableau is longer
    than maximumCutLength, or a range row was turned into an equation *)
Section NoEmpty.
  Variable ins : list rowcut -> rowcut -> list rowcut.
  Hypothesis INS : ins_ok ins.
  Variable c : call.
  Variable t : mip.
  Variable p : lpar.
  Variable userLimit : Z.
  Variable v_ : validator.
  Variable b0 : basis.
  Variable x0 : nat -> Q.
  Hypothesis LEN : forall row, In row (frac_rows t p b0 x0) -> (s_len (c_solver c) b0 row <= p_maxLen p)%Z.
  Definition built (cs : list rowcut) (rc : rowcut) : Prop := In rc cs \/ rc_lb rc <> None.
  Lemma ins_built cs l f : (forall r, In r l -> built cs r) -> forall r, In r (ins l (as_cut f)) -> built cs r.
  Proof.
    intros H r I. destruct (INS l (as_cut f)) as [E|E]; rewrite E in I; [auto|]. apply in_app_or in I. destruct I as [I|[<-|[]]]; auto.
    right. discriminate.
  Qed.
  Lemma pull_len r tr : pull t (c_solver c) b0 r = Done tr -> t_len tr = s_len (c_solver c) b0 r.
  Proof.
    unfold pull. destruct (nth_error (b_basics b0) r); [|discriminate]. destruct (forallb _ _); [|discriminate].
    destruct (basic_value _ _ _ _); [|discriminate]. intro E. apply Done_inj in E. subst tr. reflexivity.
  Qed.
  Lemma optimize_zero run row extra f e : In row (frac_rows t p b0 x0) ->
    optimize t (c_solver c) (c_choices c) p v_ x0 run b0 0 row extra = Done (f, e) -> f <> None.
  Proof.
    intros IR E. unfold optimize in E. apply bind_done in E. destruct E as (tr & Et & E). pose proof (pull_len _ _ Et) as L. specialize (LEN row IR).
    destruct (p_maxLen p <? t_len tr)%Z eqn:B; [apply Z.ltb_lt in B; lia|]. cbn [Z.to_nat loop o_piv Z.ltb Z.compare bind] in E.
    change (0 <? 0)%Z with false in E. cbn iota in E. cbn [bind o_k] in E.
    assert (B2 : (p_maxLen p <? t_len (if p_modularize p then modularize t (center tr) else center tr))%Z = false)
      by (destruct (p_modularize p); exact B).
    rewrite B2 in E. apply bind_done in E. destruct E as (cc & _ & E).
    destruct (mode_eqb _ _); [apply bind_done in E; destruct E as (s' & _ & E)|]; apply Done_inj in E; injection E as <- <-; discriminate.
  Qed.
  Lemma one_row_built cs i row s s' : In row (frac_rows t p b0 x0) -> (forall r, In r (l_cs s) -> built cs r) ->
    one_row ins c t false p userLimit v_ b0 x0 i row s = Done s' -> forall r, In r (l_cs s') -> built cs r.
  Proof.
    intros IR H E. unfold one_row in E. apply bind_done in E. destruct E as ((g, e) & Eg & E).
    apply bind_done in E. destruct E as ((k, cut) & Ek & E). cbn [fst snd] in *.
    apply bind_done in E. destruct E as ((((k2, cut2), e2), lim2) & E2 & E).
    assert (C2 : cut2 <> None).
    { destruct (_ && _) eqn:B.
      - apply bind_done in E2. destruct E2 as ((g2, e3) & Eo & E2). apply optimize_zero in Eo; [|exact IR]. cbn [fst snd] in E2.
        destruct g2 as [f|]; [|congruence]. apply bind_done in E2. destruct E2 as (r & _ & E2). apply Done_inj in E2. injection E2 as <- <- <- <-. discriminate.
      - apply Done_inj in E2. injection E2 as <- <- <- <-.
        destruct g as [f|].
        + apply bind_done in Ek. destruct Ek as (r & _ & Ek). apply Done_inj in Ek. injection Ek as <- <-. discriminate.
        + cbn [andb] in B. apply negb_false_iff in B. rewrite B in Eg. apply bind_done in Eg. destruct Eg as (r & _ & Eg).
          apply Done_inj in Eg. discriminate. }
    destruct (accepted k2); apply Done_inj in E; subst s'; cbn [l_cs]; [|exact H]. destruct cut2 as [f|]; [|congruence]. cbn [andb]. apply ins_built. exact H.
  Qed.
  Lemma separate_built cs cs' : separate ins c t false p userLimit v_ b0 x0 cs = Done cs' -> forall r, In r cs' -> built cs r.
  Proof.
    intro E. unfold separate in E. apply bind_done in E. destruct E as (u & _ & E). apply bind_done in E. destruct E as (s & Es & E).
    assert (RL : forall rows, (forall r, In r rows -> In r (frac_rows t p b0 x0)) -> forall i s s', (forall r, In r (l_cs s) -> built cs r) ->
      rows_loop ins c t false p userLimit v_ b0 x0 i rows s = Done s' -> forall r, In r (l_cs s') -> built cs r).
    { clear - INS LEN. induction rows as [|r rows IH]; intros IR i s s' L E; cbn [rows_loop] in E; [apply Done_inj in E; subst s'; exact L|].
      destruct (_ && _); [|apply Done_inj in E; subst s'; exact L]. apply bind_done in E. destruct E as (s1 & E1 & E).
      eapply IH; [intros; apply IR; right; assumption| |exact E]. eapply one_row_built; [apply IR; left; reflexivity|exact L|exact E1]. }
    pose proof (RL _ (candidate_in t p b0 x0) _ (LS (p_pivotLimit p) cs 0 []) _ (fun r Ir => or_introl Ir) Es) as Es'.
    refine (ofold_inv (fun l => forall rc, In rc l -> built cs rc) _ _ _ _ _ Es' E).
    intros l j l' _ H Ea. unfold add_extra in Ea. destruct (extra_of (l_extra s) j) as [f|]; [|apply Done_inj in Ea; subst l'; exact H].
    apply bind_done in Ea. destruct Ea as ((k, f') & _ & Ea). cbn [fst snd] in Ea. apply Done_inj in Ea. subst l'.
    destruct (accepted k); [|exact H]. apply ins_built. exact H.
  Qed.
End NoEmpty.
Theorem C91_no_empty_cut ins g c cs g' cs' :
  ins_ok ins -> turns g c = false ->
  (forall b0 row, cached_basis (worked_on g c) c = Done b0 -> (row < length (m_rows (c_si c)))%nat ->
     (s_len (c_solver c) b0 row <= p_maxLen (g_par g))%Z) ->
  generateCuts ins g c cs = Done (g', cs') ->
  forall rc, In rc cs' -> In rc cs \/ rc <> RowCut [] None None.
Proof.
  intros INS T LEN E rc I.
  destruct (generate_inv _ _ _ _ _ _ E) as [(_ & _ & _ & ->)|(_ & _ & b0 & tm & nr & Eb & Es & _ & _)]; [left; exact I|].
  rewrite T in Es. destruct (separate_built ins INS c (worked_on g c) (local_par (g_par g) (c_inTree c) nr) (p_pivotLimit (g_par g)) (g_val g) b0 (s_x (c_solver c) b0)) with (cs := cs) (cs' := cs') (r := rc) as [B|B]; auto.
  - intros row Ir. apply frac_row_inv in Ir. destruct Ir as (R & _). rewrite (turns_ncols g c T) in R. apply (LEN b0 row Eb R).
  - right. intro K. rewrite K in B. apply B. reflexivity.
Qed.
Print Assumptions C91_no_empty_cut.

(** ** C92: the search ends, and the limits hold *)
Theorem C92_terminates ins g c cs : ins_ok ins -> generateCuts ins g c cs <> OutOfFuel.
Proof.
  intro INS. assert (H : ends True (fun _ => True) (generateCuts ins g c cs)).
  { unfold generateCuts. destruct (match g_rows g with Some _ => (p_maxLen (g_par g) <? 0)%Z | None => false end); [exact I|].
    destruct (c_avail c); [|exact I]. eapply ends_bind with (P := fun _ => True).
    - unfold cached_basis. destruct (_ <? _)%nat; [exact I|]. destruct (_ <? _)%nat; exact I.
    - intros b0 _ _. destruct (match p_norm _ with WeightRHS => _ | _ => _ end); [exact I|].
      eapply ends_bind with (P := fun _ => True); [|intros; exact I]. apply separate_ends; auto; left; exact I. }
  intro E. rewrite E in H. exact H.
Qed.
Print Assumptions C92_terminates.
Theorem C92_limits ins g c cs g' cs' :
  ins_ok ins -> generateCuts ins g c cs = Done (g', cs') ->
  (length cs' <= length cs + Nat.min (Z.to_nat (p_maxCuts (g_par g))) (length (m_rows (c_si c))) + Z.to_nat (p_extraLimit (g_par g)))%nat /\
  ((0 <= p_maxCand (g_par g))%Z ->
   (length cs' <= length cs + Z.to_nat (p_maxCand (g_par g)) + Z.to_nat (p_extraLimit (g_par g)))%nat).
Proof.
  intros INS E. destruct (generate_inv _ _ _ _ _ _ E) as [(_ & _ & _ & ->)|(_ & _ & b0 & tm & nr & Eb & Es & _ & _)]; [lia|].
  apply separate_count in Es; [|exact INS]. set (t := worked_on g c) in *. cbn [local_par p_maxCuts p_extraLimit] in Es.
  assert (LR : length (m_rows t) = length (m_rows (c_si c))).
  { unfold t, worked_on. destruct (turns g c); [cbn [converted m_rows]; apply conv_len|reflexivity]. }
  rewrite LR in Es. split; [lia|]. intro K.
  assert (LC : (length (candidate_rows (local_par (g_par g) (c_inTree c) nr) (sorted_rows t (local_par (g_par g) (c_inTree c) nr) b0 (s_x (c_solver c) b0)))
                <= Z.to_nat (p_maxCand (g_par g)))%nat).
  { unfold candidate_rows. cbn [local_par p_maxCand]. destruct (p_maxCand (g_par g) <? 0)%Z eqn:B; [apply Z.ltb_lt in B; lia|].
    rewrite firstn_length. lia. }
  lia.
Qed.
Print Assumptions C92_limits.

(** ** C93: no undefined behaviour *)
Theorem C93_safe ins g c cs k :
  ins_ok ins -> turns g c = false ->
  careful (c_si c) (c_solver c) (c_choices c) (g_par g) (g_val g) ->
  p_extra (g_par g) <> AllViolatedMigs ->
  length (c_basics c) = length (m_rows (c_si c)) -> (exists b0, cached_basis (c_si c) c = Done b0) ->
  generateCuts ins g c cs <> Undef k.
Proof.
  intros INS T CA AM LB (b0 & Eb). unfold generateCuts.
  destruct (match g_rows g with Some _ => (p_maxLen (g_par g) <? 0)%Z | None => false end); [discriminate|].
  destruct (c_avail c); [|discriminate].
  assert (TR : (match g_rows g with None => true | Some _ => false end) && negb (Nat.eqb (num_ranges (c_si c)) 0) = false).
  { unfold turns in T. destruct (g_rows g); [reflexivity|exact T]. }
  rewrite TR. rewrite Eb. cbn [bind]. destruct (match p_norm _ with WeightRHS => _ | _ => _ end); [discriminate|].
  set (nr := match g_rows g with None => _ | Some k => k end). set (p := local_par (g_par g) (c_inTree c) nr).
  assert (H : ends False (fun _ => True) (separate ins c (c_si c) false p (p_pivotLimit (g_par g)) (g_val g) b0 (s_x (c_solver c) b0) cs)).
  { apply separate_ends; auto.
    - right. split; [|reflexivity]. destruct CA as [C1 C2 C3 C4 C5]. constructor; assumption.
    - right. unfold cached_basis in Eb. destruct (m_ncols (c_si c) <? _)%nat eqn:B1; [discriminate|].
      destruct (_ <? m_ncols (c_si c))%nat eqn:B2; [discriminate|]. apply Done_inj in Eb. subst b0. cbn [b_basics b_nonbasics].
      apply Nat.ltb_ge in B1. apply Nat.ltb_ge in B2. split; [exact LB|lia]. }
  destruct (separate _ _ _ _ _ _ _ _ _ _); cbn in *; congruence.
Qed.
Print Assumptions C93_safe.

(** ** C94: cuts kept, parameters kept, silence after range rows *)
Section Kept.
  Variable ins : list rowcut -> rowcut -> list rowcut.
  Hypothesis INS : ins_ok ins.
  Lemma ins_prefix cs l rc : (exists k, l = cs ++ k) -> exists k, ins l rc = cs ++ k.
  Proof.
    intros (k & ->). destruct (INS (cs ++ k) rc) as [E|E]; rewrite E; [exists k; reflexivity|]. exists (k ++ [rc]). rewrite app_assoc. reflexivity.
  Qed.
  Lemma separate_prefix c t ranges p ul v_ b0 x0 cs cs' : separate ins c t ranges p ul v_ b0 x0 cs = Done cs' -> exists k, cs' = cs ++ k.
  Proof.
    intro E. unfold separate in E. apply bind_done in E. destruct E as (u & _ & E). apply bind_done in E. destruct E as (s & Es & E).
    assert (RL : forall rows i s s', (exists k, l_cs s = cs ++ k) -> rows_loop ins c t ranges p ul v_ b0 x0 i rows s = Done s' -> exists k, l_cs s' = cs ++ k).
    { clear - INS. induction rows as [|r rows IH]; intros i s s' L E; cbn [rows_loop] in E; [apply Done_inj in E; subst s'; exact L|].
      destruct (_ && _); [|apply Done_inj in E; subst s'; exact L]. apply bind_done in E. destruct E as (s1 & E1 & E).
      eapply IH; [|exact E]. unfold one_row in E1. apply bind_done in E1. destruct E1 as ((g, e) & _ & E1).
      apply bind_done in E1. destruct E1 as ((k, cut) & _ & E1). apply bind_done in E1. destruct E1 as ((((k2, cut2), e2), lim2) & _ & E1).
      destruct (accepted k2); apply Done_inj in E1; subst s1; cbn [l_cs]; [|exact L]. apply ins_prefix. exact L. }
    apply RL in Es; [|exists []; cbn [l_cs]; rewrite app_nil_r; reflexivity].
    refine (ofold_inv (fun l => exists k, l = cs ++ k) _ _ _ _ _ Es E).
    intros l j l' _ H Ea. unfold add_extra in Ea. destruct (extra_of (l_extra s) j) as [f|]; [|apply Done_inj in Ea; subst l'; exact H].
    apply bind_done in Ea. destruct Ea as (r & _ & Ea). apply Done_inj in Ea. subst l'. destruct (accepted (fst r)); [|exact H]. apply ins_prefix. exact H.
  Qed.
End Kept.
Theorem C94_old_cuts_kept ins g c cs g' cs' : ins_ok ins -> generateCuts ins g c cs = Done (g', cs') -> exists k, cs' = cs ++ k.
Proof.
  intros INS E. destruct (generate_inv _ _ _ _ _ _ E) as [(_ & _ & _ & ->)|(_ & _ & b0 & tm & nr & _ & Es & _ & _)]; [exists []; rewrite app_nil_r; reflexivity|].
  eapply separate_prefix; eassumption.
Qed.
Print Assumptions C94_old_cuts_kept.
(** the parameters that a call changes: maximumCutLength is negated by a call that
    turns range rows, and the time limit runs down *)
Theorem C94_parameters_kept ins g c cs g' cs' : generateCuts ins g c cs = Done (g', cs') ->
  g_val g' = g_val g /\
  g_par g' = set_len (g_par g) (p_maxLen (g_par g')) (p_time (g_par g')) /\
  p_maxLen (g_par g') = (if turns g c then - p_maxLen (g_par g) else p_maxLen (g_par g))%Z /\
  g_rows g' = Some (match g_rows g with Some k => k | None => length (m_rows (c_si c)) end).
Proof.
  intro E. destruct (generate_inv _ _ _ _ _ _ E) as [(G & _ & -> & _)|(_ & _ & b0 & tm & nr & _ & _ & -> & ->)].
  - destruct (g_rows g) as [k|] eqn:R; [|congruence]. unfold turns. rewrite R. destruct g as [[] v r]. cbn in *. auto.
  - destruct g as [[] v [k|]]; cbn; auto.
Qed.
Print Assumptions C94_parameters_kept.
Theorem C94_silent_after_ranges ins g c cs g' cs' : turns g c = true -> (0 < p_maxLen (g_par g))%Z ->
  generateCuts ins g c cs = Done (g', cs') ->
  forall c2 cs2, generateCuts ins g' c2 cs2 = Done (g', cs2).
Proof.
  intros T L E c2 cs2. destruct (C94_parameters_kept _ _ _ _ _ _ E) as (_ & _ & ML & RW). rewrite T in ML.
  unfold generateCuts. rewrite RW. assert (B : (p_maxLen (g_par g') <? 0)%Z = true) by (apply Z.ltb_lt; lia). rewrite B. reflexivity.
Qed.
Print Assumptions C94_silent_after_ranges.

(** ** C95: copies *)
Theorem C95_copy o : gen_copy o = o.
Proof. destruct o as [[] v r]. reflexivity. Qed.
Print Assumptions C95_copy.
Theorem C95_assign this o :
  g_val (gen_assign this o) = g_val o /\
  (p_degLimit (g_par o) = p_failedLimit (g_par o) -> g_par (gen_assign this o) = g_par o) /\
  (g_rows this = g_rows o -> p_degLimit (g_par o) = p_failedLimit (g_par o) -> gen_assign this o = o).
Proof.
  destruct o as [[] v r]. unfold gen_assign, par_assign. cbn. conjs; auto; intros; subst; cbn in *; subst; reflexivity.
Qed.
Print Assumptions C95_assign.

(** ** C96: the validator *)
(** an accepted cut is weaker than the one given, up to coefficients below 1e-20,
    and by at least 1e-7 *)
Theorem C96_weaker eps v ncols nb lo up x c c' y :
  (forall j a, In (j, a) (fst c) -> (j < nb)%nat -> ge_opt_lo (y j) (lo j) /\ le_opt_hi (y j) (up j)) ->
  cleanCut eps v ncols nb lo up x c = Done (NoneAccepted, c') ->
  value (fst c) y - snd c + (1 # 10000000) <= value (fst c') y - snd c' + (1 # 100000000000000000000) * labs (fst c) y.
Proof. intros K E. apply (cleanCut_weaker _ _ _ _ _ _ _ _ _ y K E). Qed.
Print Assumptions C96_weaker.
Theorem C96_form eps v ncols nb lo up x c c' :
  cleanCut eps v ncols nb lo up x c = Done (NoneAccepted, c') ->
  sub (fst c') (fst c) /\ fst c' <> [] /\
  (forall j a, In (j, a) (fst c') -> eps < Qabs a) /\
  (0 <= v_ratio v -> forall j a i b, In (j, a) (fst c') -> In (i, b) (fst c') -> Qabs a <= v_ratio v * Qabs b) /\
  (0 <= v_fill v -> inject_Z (Z.of_nat (length (fst c'))) <= v_fill v * inject_Z (Z.of_nat ncols)) /\
  (0 < v_minviol v -> value (fst c') x + v_minviol v <= snd c').
Proof.
  intro E. destruct (cleanCut_accepts _ _ _ _ _ _ _ _ _ E) as [C1 C2 C3 C4 (z & C5 & C6) C7]. conjs; auto.
  - intros V j a i b I1 I2. apply (C4 j a i b I1 I2 V).
  - intro V. unfold max_nnz in C5. set (q := v_fill v * inject_Z (Z.of_nat ncols)) in *.
    assert (0 <= q). { apply Qmult_le_0_compat; [exact V|]. change 0 with (inject_Z 0). rewrite <- Zle_Qle. lia. }
    destruct (q <? 0) eqn:B; [qb; lra|]. destruct (int_range (Qfloor q)); [|discriminate]. apply Done_inj in C5. subst z.
    apply Qle_trans with (inject_Z (Qfloor q)); [rewrite <- Zle_Qle; exact C6|apply Qfloor_le].
  - intro V. unfold violated in C7. destruct (value (fst c') x <? snd c') eqn:L; lra.
Qed.
Print Assumptions C96_form.
(** cleanCut2 scales the cut as well *)
Theorem C96_weaker2 v ncols nb lo up x c c' y : 0 <= v_rhsscale v ->
  (forall j a, In (j, a) (fst c) -> (j < nb)%nat -> ge_opt_lo (y j) (lo j) /\ le_opt_hi (y j) (up j)) ->
  (1 # 100000000000000000000) * labs (fst c) y <= 1 # 10000000000 ->
  cleanCut2 v ncols nb lo up x c = Done (NoneAccepted, c') ->
  snd c <= value (fst c) y -> snd c' <= value (fst c') y.
Proof.
  intros V K M E S. apply (cleanCut2_weaker _ _ _ _ _ _ _ _ y V K) in E.
  assert (0 <= scale2 v c * (value (fst c) y - snd c + (1 # 10000000000) - c1e20 * labs (fst c) y)).
  { apply Qmult_le_0_compat; [apply scale2_nonneg; exact V|]. unfold c1e20. lra. }
  pose proof (Qle_trans _ _ _ H E). lra.
Qed.
Print Assumptions C96_weaker2.

(** ** C97: the rows tried *)
(** the rows whose basic variable is an integer column with a value further than
    [away] from the integers, by decreasing distance, then by column *)
Lemma before_insert b x i l :
  let le a k := infeas (x (basic_at b k)) < infeas (x (basic_at b a)) \/
                (infeas (x (basic_at b a)) == infeas (x (basic_at b k)) /\ (basic_at b a <= basic_at b k)%nat) in
  Sorted le l -> Sorted le (insert_row b x i l).
Proof.
  intros le S. assert (T : forall a k, before b x a k = true -> le a k).
  { intros a k B. unfold before in B. apply orb_true_iff in B. destruct B as [B|B]; [left; qb; exact B|].
    apply andb_prop in B. destruct B as (B1 & B2). right. apply Nat.ltb_lt in B2. split; [apply Qeq_bool_iff; exact B1|lia]. }
  assert (F : forall a k, before b x a k = false -> le k a).
  { intros a k B. unfold before in B. apply orb_false_elim in B. destruct B as (B1 & B2). qb.
    destruct (Qlt_le_dec (infeas (x (basic_at b a))) (infeas (x (basic_at b k)))) as [L|L]; [left; exact L|right].
    assert (EQ : infeas (x (basic_at b k)) == infeas (x (basic_at b a))) by lra. split; [exact EQ|].
    apply andb_false_iff in B2. destruct B2 as [B2|B2]; [|apply Nat.ltb_ge in B2; exact B2].
    exfalso. symmetry in EQ. apply Qeq_bool_iff in EQ. congruence. }
  assert (HD : forall a l, HdRel le a l -> le a i -> HdRel le a (insert_row b x i l)).
  { intros a [|k l'] H A; cbn [insert_row]; [constructor; exact A|]. destruct (before b x k i); constructor; [inversion H; assumption|exact A]. }
  induction l as [|k l IH]; cbn [insert_row]; [repeat constructor|]. inversion S; subst. destruct (before b x k i) eqn:B.
  - constructor; [apply IH; assumption|]. apply HD; [assumption|apply T; exact B].
  - constructor; [exact S|]. constructor. apply F. exact B.
Qed.
Theorem C97_rows t p b x :
  NoDup (sorted_rows t p b x) /\
  (forall i, In i (sorted_rows t p b x) <->
     (i < length (m_rows t))%nat /\ (i < length (b_basics b))%nat /\ (basic_at b i < m_ncols t)%nat /\ m_int t (basic_at b i) = true /\
     p_away p < infeas (x (basic_at b i))) /\
  Sorted (fun i k => infeas (x (basic_at b k)) < infeas (x (basic_at b i)) \/
                     (infeas (x (basic_at b i)) == infeas (x (basic_at b k)) /\ (basic_at b i <= basic_at b k)%nat)) (sorted_rows t p b x) /\
  (exists l, sorted_rows t p b x = candidate_rows p (sorted_rows t p b x) ++ l) /\
  ((0 <= p_maxCand p)%Z -> (Z.of_nat (length (candidate_rows p (sorted_rows t p b x))) <= p_maxCand p)%Z).
Proof.
  conjs.
  - eapply Permutation_NoDup; [apply Permutation_sym, sorted_perm|]. apply NoDup_filter, seq_NoDup.
  - intro i. split; intro H.
    + apply (Permutation_in i (sorted_perm t p b x)) in H. destruct (frac_row_inv _ _ _ _ _ H) as (A & B & C & D). conjs; auto.
      unfold frac_rows in H. apply filter_In in H. destruct H as (_ & H). destruct (nth_error (b_basics b) i) eqn:N; [|discriminate].
      apply nth_error_Some. congruence.
    + destruct H as (A & B & C & D & E). apply (Permutation_in i (Permutation_sym (sorted_perm t p b x))). apply filter_In. split; [apply in_seq; lia|].
      rewrite (nth_error_nth' (b_basics b) 0%nat B). fold (basic_at b i). apply Nat.ltb_lt in C. rewrite C, D. cbn [andb].
      apply negb_true_iff. apply Qleb_gt. exact E.
  - unfold sorted_rows. induction (frac_rows t p b x) as [|i l IH]; cbn [fold_right]; [constructor|]. apply before_insert. exact IH.
  - unfold candidate_rows. destruct (p_maxCand p <? 0)%Z; [exists []; rewrite app_nil_r; reflexivity|].
    eexists. symmetry. apply firstn_skipn.
  - intro K. unfold candidate_rows. destruct (p_maxCand p <? 0)%Z eqn:B; [apply Z.ltb_lt in B; lia|]. rewrite firstn_length. lia.
Qed.
Print Assumptions C97_rows.

(** ** Examples *)
(** a simplex interface that answers from a table: for each list of basic variables
    the rows of the tableau, the solution and the row activities *)
Record face := Face { fc_basics : list nat; fc_tab : list (list Q); fc_x : list Q; fc_act : list Q }.
Fixpoint same_list (l k : list nat) : bool :=
  match l, k with [], [] => true | a :: l', b :: k' => Nat.eqb a b && same_list l' k' | _, _ => false end.
Definition face_of (l : list face) (b : basis) : face :=
  match find (fun f => same_list (fc_basics f) (b_basics b)) l with Some f => f | None => Face [] [] [] [] end.
(** [pivots]: basic variables, incoming, leaving, direction and the new order *)
Definition toy (l : list face) (len : Z) (pivots : list (list nat * nat * nat * Z * list nat)) : solver :=
  Solver true (fun b r v => nth v (nth r (fc_tab (face_of l b)) []) 0) (fun _ _ => len)
    (fun b j => nth j (fc_x (face_of l b)) 0) (fun b i => nth i (fc_act (face_of l b)) 0)
    (fun b vin vout dir =>
       match find (fun '(bs, i, o, d, _) => same_list bs (b_basics b) && Nat.eqb i vin && Nat.eqb o vout && Z.eqb d dir) pivots with
       | Some (_, order) => Some order | None => None end).
Definition lin (l : list Q) : vec := combine (seq 0 (length l)) l.
Definition bin (n : nat) (rows : list row) : mip := Mip n rows (fun _ => Some 0) (fun _ => Some 1) (fun _ => true).
(** the reduced costs before the first pivot, and no improvement after it *)
Definition calm (red : Q * Q * Q * Q) : choices :=
  Choices (fun _ => true) (fun _ => false) (fun s _ => if (o_piv s =? 0)%Z then red else (10, 10, 10, 10))
    (fun _ _ _ _ => Col 0) (fun _ => false) (fun _ _ => None) (fun _ => false) (fun _ _ => true).
Definition idle : choices := calm (10, 10, 10, 10).
Definition stats (l : list stat) (i : nat) : stat := nth i l Basic.
(** the default parameters but for four *)
Definition with_ (e : extra_mode) (r : rule) (lim len : Z) : lpar :=
  LPar 0 (1 # 100000000) (1 # 100000) INT_MAX lim 10 5000 1 0 5 1000000 len
       (1 # 10000) (5 # 10000) None None 1 true false true false Fractional true Unweighted Fixed L1 e r.
Definition fresh (p : lpar) : gen := Gen p v_default None.
Definition usual : gen := fresh (with_ NoExtra MostNegativeRc 20 10000).
Example usual_default : usual = Gen p_default v_default None.
Proof. reflexivity. Qed.
Definition point_of (l : list Q) : point := fun j => nth j l 0.
(** what a call gives: the new cuts, coefficients reduced *)
Definition cuts_of (o : outcome (gen * list rowcut)) : outcome (list (vec * option Q * option Q)) :=
  do r <- o; Done (map (fun c => (map (fun e => (fst e, Qred (snd e))) (rc_form c), option_map Qred (rc_lb c), rc_ub c)) (snd r)).
Lemma cuts_of_done o l : cuts_of o = Done l -> exists g cs, o = Done (g, cs) /\
  map (fun c => (map (fun e => (fst e, Qred (snd e))) (rc_form c), option_map Qred (rc_lb c), rc_ub c)) cs = l.
Proof. destruct o as [(g, cs)| | | |]; cbn; try discriminate. intro E. apply Done_inj in E. eauto. Qed.
Lemma insert_new_ok : ins_ok insert_new.
Proof. intros cs rc. unfold insert_new. destruct (existsb _ _); auto. Qed.

(** max x0 + x2 over 2 x0 + 2 x1 + x2 <= 2, x0 - x1 + x2 >= 1, binary, from the
    optimal solution (1/2, 0, 1) *)
Definition ex_mip : mip := bin 3 [Row (lin [2; 2; 1]) None (Some 2); Row (lin [1; -1; 1]) (Some 1) None].
Definition ex_faces : list face :=
  [Face [0; 4]%nat [[1; 1; 1#2; 1#2; 0]; [0; -2; 1#2; -(1#2); 1]] [1#2; 0; 1] [2; 3#2];
   Face [0; 1]%nat [[1; 0; 3#4; 1#4; 1#2]; [0; 1; -(1#4); 1#4; -(1#2)]] [1#4; 1#4; 1] [2; 1]].
Definition ex_solver : solver := toy ex_faces 4 [([0; 4], 1, 4, 1%Z, [0; 1])%nat].
Definition ex_call : call :=
  Call ex_mip true (fun _ => 0) false ex_solver (calm (10, 10, -1, 10)) [0; 4]%nat (stats [Basic; Lower; Upper]) (stats [Lower; Basic]) 0.
Definition ex_b0 : basis := Bs [0; 4]%nat [1; 2; 3]%nat (stats [Basic; Lower; Upper]) (stats [Lower; Basic]).
Definition ex_b1 : basis := moved_basis ex_mip ex_b0 0 1 1 [0; 1]%nat.

Ltac small_cases H := match type of H with (?v < _)%nat => repeat (destruct v as [|v]; [|try (exfalso; lia)]) end.
Ltac basis_check :=
  constructor;
  [ reflexivity
  | apply nodupb_ok; reflexivity
  | intros v I; cbn in I; repeat (destruct I as [<-|I]; [cbn; lia|]); destruct I
  | intros v I; cbn in I; repeat (destruct I as [<-|I]; [cbn; eexists; split; reflexivity|]); destruct I
  | intros i L; cbn in L; small_cases L; vm_compute; reflexivity
  | intros r L; cbn in L; small_cases L; (split; [cbn; lia|split; [cbn; intuition discriminate|split; [reflexivity|split;
      [ intros v Lv NE NI; cbn in Lv, NE, NI; small_cases Lv; try reflexivity; exfalso; (lia || intuition congruence)
      | intro y; cbn; ring ]]]]) ].
Lemma ex_b0_ok : basis_ok ex_mip ex_solver ex_b0.
Proof. basis_check. Qed.
Lemma ex_b1_ok : basis_ok ex_mip ex_solver ex_b1.
Proof. basis_check. Qed.
Lemma ex_exact : exact_solver usual ex_call.
Proof.
  exists (fun b => b = ex_b0 \/ b = ex_b1). split.
  - constructor.
    + intros b [->| ->]; [apply ex_b0_ok|apply ex_b1_ok].
    + intros b jin lv dir order [->| ->] J L _; cbn in J, L; small_cases J; small_cases L; cbn; try discriminate;
        destruct dir as [|[| |]|]; cbn; try discriminate.
      intro E. injection E as <-. split; [right; reflexivity|reflexivity].
  - intros b0 E. vm_compute in E. apply Done_inj in E. subst b0. left. reflexivity.
Qed.
Ltac integral_here := exists 0%Z; reflexivity || (exists 1%Z; reflexivity).
Lemma integral_Z z : integral (inject_Z z).
Proof. exists z. reflexivity. Qed.
Ltac problem_check :=
  constructor;
  [ apply wfb_ok; reflexivity
  | intros r l u I El Eu; cbn in I; repeat (destruct I as [<-|I]; [cbn in El, Eu; try discriminate; injection El as <-; injection Eu as <-; vm_compute; intuition discriminate|]); destruct I
  | intros j L _; cbn; split; intros q E; injection E as <-; apply integralb_ok; reflexivity
  | intros r I _; cbn in I; repeat (destruct I as [<-|I]; [cbn; conjs; intros; repeat match goal with
       | H : Some _ = Some _ |- _ => injection H as <-
       | H : None = Some _ |- _ => discriminate H
       | H : _ \/ _ |- _ => destruct H
       | H : False |- _ => destruct H
       | H : (_, _) = (_, _) |- _ => injection H; clear H; intros; subst end; apply integralb_ok; reflexivity|]); destruct I ].
Lemma ex_problem : problem_ok ex_mip.
Proof. problem_check. Qed.
Lemma usual_params : params_ok (g_par usual).
Proof. constructor; [vm_compute; discriminate|discriminate|discriminate]. Qed.

(** one pivot, then the cut x0 + 2 x1 + x2 <= 1, off by 1e-7 *)
Example C90_example :
  ins_ok insert_new /\ problem_ok (c_si ex_call) /\ params_ok (g_par usual) /\ ranges_ok usual ex_call /\ exact_solver usual ex_call /\
  cuts_of (generateCuts insert_new usual ex_call []) =
    Done [([(0%nat, -(1 # 4)); (1%nat, -(1 # 2)); (2%nat, -(1 # 4))], Some (-(2500001 # 10000000)), None)] /\
  feasible ex_mip (point_of [1; 0; 0]) /\ point_ok ex_mip (g_par usual) (point_of [1; 0; 0]).
Proof.
  conjs; [exact insert_new_ok|exact ex_problem|exact usual_params|left; reflexivity|exact ex_exact|vm_compute; reflexivity| |].
  - apply feasible_b_ok. vm_compute. reflexivity.
  - vm_compute. discriminate.
Qed.
(** a range row, -5 <= 2 x0 + 2 x1 + x2 <= 2: the equation has the added column 3 *)
Definition rx_mip : mip := bin 3 [Row (lin [2; 2; 1]) (Some (-5)) (Some 2); Row (lin [1; -1; 1]) (Some 1) None].
Definition rx_call : call :=
  Call rx_mip true (fun i => nth i [2; 3#2] 0) false
    (toy [Face [0; 5]%nat [[1; 1; 1#2; 1#2; 1#2; 0]; [0; -2; 1#2; -(1#2); -(1#2); 1]] [1#2; 0; 1; 0] [2; 3#2]] 5 [])
    idle [0; 5]%nat (stats [Basic; Lower; Upper; Lower]) (stats [Lower; Basic]) 0.
Definition rx_b0 : basis := Bs [0; 5]%nat [1; 2; 3; 4]%nat (stats [Basic; Lower; Upper; Lower]) (stats [Lower; Basic]).
Lemma rx_b0_ok : basis_ok (worked_on usual rx_call) (c_solver rx_call) rx_b0.
Proof. basis_check. Qed.
Example C90_range_example :
  problem_ok (c_si rx_call) /\ turns usual rx_call = true /\ ranges_ok usual rx_call /\ exact_solver usual rx_call /\
  cuts_of (generateCuts insert_new usual rx_call []) =
    Done [([(0%nat, -(1 # 2)); (1%nat, -(1 # 2)); (2%nat, -(1 # 2))], Some (-(5000001 # 10000000)), None)].
Proof.
  conjs; [problem_check|reflexivity|left; reflexivity| |vm_compute; reflexivity].
  exists (fun b => b = rx_b0). split.
  - constructor; [intros b ->; apply rx_b0_ok|]. intros b jin lv dir order _ _ _ _ E. discriminate.
  - intros b0 E. vm_compute in E. apply Done_inj in E. subst b0. reflexivity.
Qed.
Example C90_columns_example :
  turns usual ex_call = false /\ turns usual rx_call = true /\ p_extra (g_par usual) = NoExtra.
Proof. repeat split. Qed.

(** *** What goes wrong with other inputs *)
(** Extra cuts made when a variable enters the basis overwrite the row from which
    the cut is made, and its elements at upper bounds change sign twice. *)
Theorem C90_when_entering_refuted :
  exists g c y rc, problem_ok (c_si c) /\ ranges_ok g c /\ exact_solver g c /\ p_extra (g_par g) = WhenEnteringBasis /\
    feasible (c_si c) y /\ (exists g' cs', generateCuts insert_new g c [] = Done (g', cs') /\ In rc cs') /\ ~ rowcut_sat rc y.
Proof.
  set (g := fresh (with_ WhenEnteringBasis MostNegativeRc 1 10000)).
  destruct (generateCuts insert_new g ex_call []) as [(g', cs')| | | |] eqn:E; [|vm_compute in E; discriminate..].
  exists g, ex_call, (point_of [1; 0; 0]), (hd empty_cut cs').
  assert (Q : match generateCuts insert_new g ex_call [] with Done (_, rc :: _) => negb (rowcut_b rc (point_of [1; 0; 0])) | _ => false end = true)
    by (vm_compute; reflexivity).
  rewrite E in Q. destruct cs' as [|rc cs']; [discriminate Q|].
  conjs; [exact ex_problem|left; reflexivity|exact ex_exact|reflexivity|apply feasible_b_ok; vm_compute; reflexivity| |].
  - exists g', (rc :: cs'). split; [exact E|left; reflexivity].
  - cbn [hd]. apply rowcut_b_no. apply negb_true_iff. exact Q.
Qed.
Print Assumptions C90_when_entering_refuted.
(** A range row met after the first call is not turned into an equation, and the
    slack of a row at its lower side enters the cut with the wrong sign. *)
Definition rg_mip : mip := bin 2 [Row (lin [2; 2]) (Some 1) (Some 3)].
Definition rg_call : call :=
  Call rg_mip true (fun _ => 1) false (toy [Face [0]%nat [[1; 1; 1#2]] [1#2; 0] [1]] 3 []) idle
    [0]%nat (stats [Basic; Lower]) (stats [Upper]) 0.
Definition rg_b0 : basis := Bs [0]%nat [1; 2]%nat (stats [Basic; Lower]) (stats [Upper]).
Lemma rg_b0_ok : basis_ok rg_mip (c_solver rg_call) rg_b0.
Proof. basis_check. Qed.
Lemma rg_problem : problem_ok rg_mip.
Proof. problem_check. Qed.
Theorem C90_later_range_refuted :
  exists g c y rc, problem_ok (c_si c) /\ params_ok (g_par g) /\ exact_solver g c /\ g_rows g = Some 1%nat /\
    feasible (c_si c) y /\ (exists g' cs', generateCuts insert_new g c [] = Done (g', cs') /\ In rc cs') /\ ~ rowcut_sat rc y.
Proof.
  set (g := Gen (g_par usual) v_default (Some 1%nat)).
  destruct (generateCuts insert_new g rg_call []) as [(g', cs')| | | |] eqn:E; [|vm_compute in E; discriminate..].
  exists g, rg_call, (point_of [1; 0]), (hd empty_cut cs').
  assert (Q : match generateCuts insert_new g rg_call [] with Done (_, rc :: _) => negb (rowcut_b rc (point_of [1; 0])) | _ => false end = true)
    by (vm_compute; reflexivity).
  rewrite E in Q. destruct cs' as [|rc cs']; [discriminate Q|].
  conjs; [exact rg_problem|exact usual_params| |reflexivity|apply feasible_b_ok; vm_compute; reflexivity| |].
  - exists (fun b => b = rg_b0). split.
    + constructor; [intros b ->; apply rg_b0_ok|]. intros b jin lv dir order _ _ _ _ X. discriminate.
    + intros b0 X. vm_compute in X. apply Done_inj in X. subst b0. reflexivity.
  - exists g', (rc :: cs'). split; [exact E|left; reflexivity].
  - cbn [hd]. apply rowcut_b_no. apply negb_true_iff. exact Q.
Qed.
Print Assumptions C90_later_range_refuted.
(** An integer column may have a fractional bound, which the code takes for an
    integer: 2 x0 + 2 x1 <= 2 with x1 <= 1/2. *)
Definition fb_mip : mip :=
  Mip 2 [Row (lin [2; 2]) None (Some 2)] (fun _ => Some 0) (fun j => if Nat.eqb j 1 then Some (1#2) else Some 1) (fun _ => true).
Definition fb_call : call :=
  Call fb_mip true (fun _ => 1) false (toy [Face [0]%nat [[1; 1; 1#2]] [1#2; 1#2] [2]] 3 []) idle
    [0]%nat (stats [Basic; Upper]) (stats [Lower]) 0.
Definition fb_b0 : basis := Bs [0]%nat [1; 2]%nat (stats [Basic; Upper]) (stats [Lower]).
Lemma fb_b0_ok : basis_ok fb_mip (c_solver fb_call) fb_b0.
Proof. basis_check. Qed.
Theorem C90_fractional_bound_refuted :
  exists g c y rc, wf_mip (c_si c) /\ params_ok (g_par g) /\ ranges_ok g c /\ exact_solver g c /\
    feasible (c_si c) y /\ (exists g' cs', generateCuts insert_new g c [] = Done (g', cs') /\ In rc cs') /\ ~ rowcut_sat rc y.
Proof.
  destruct (generateCuts insert_new usual fb_call []) as [(g', cs')| | | |] eqn:E; [|vm_compute in E; discriminate..].
  exists usual, fb_call, (point_of [1; 0]), (hd empty_cut cs').
  assert (Q : match generateCuts insert_new usual fb_call [] with Done (_, rc :: _) => negb (rowcut_b rc (point_of [1; 0])) | _ => false end = true)
    by (vm_compute; reflexivity).
  rewrite E in Q. destruct cs' as [|rc cs']; [discriminate Q|].
  conjs; [apply wfb_ok; reflexivity|exact usual_params|left; reflexivity| |apply feasible_b_ok; vm_compute; reflexivity| |].
  - exists (fun b => b = fb_b0). split.
    + constructor; [intros b ->; apply fb_b0_ok|]. intros b jin lv dir order _ _ _ _ X. discriminate.
    + intros b0 X. vm_compute in X. apply Done_inj in X. subst b0. reflexivity.
  - exists g', (rc :: cs'). split; [exact E|left; reflexivity].
  - cbn [hd]. apply rowcut_b_no. apply negb_true_iff. exact Q.
Qed.
Print Assumptions C90_fractional_bound_refuted.
(** With extra cuts and range rows, a cut may have a column that does not exist;
    the cut proper with such a column is replaced by one without columns. *)
Definition rh_mip : mip := bin 3 [Row (lin [2; 2]) (Some 1) (Some 3)].
Definition rh_call : call :=
  Call rh_mip true (fun _ => 1) false (toy [Face [0]%nat [[1; 1; 0; -(1#2); 1#2]] [1#2; 0; 0; 0] [1]] 3 []) idle
    [0]%nat (stats [Basic; Lower; Lower; Lower]) (stats [Lower]) 0.
Theorem C90_columns_exist_refuted :
  m_ncols (c_si rh_call) = 3%nat /\
  cuts_of (generateCuts insert_new (fresh (with_ AtOptimalBasis MostNegativeRc 20 10000)) rh_call []) =
    Done [([], None, None); ([(0%nat, -(1#2)); (1%nat, -(1#2)); (3%nat, 1#2)], Some (-(1#5000000)), None)].
Proof. split; [reflexivity|vm_compute; reflexivity]. Qed.
Print Assumptions C90_columns_exist_refuted.

Example C91_example :
  (forall b0 row, cached_basis (worked_on usual ex_call) ex_call = Done b0 -> (row < length (m_rows (c_si ex_call)))%nat ->
     (s_len (c_solver ex_call) b0 row <= p_maxLen (g_par usual))%Z) /\ turns usual ex_call = false /\
  exists g' cs', generateCuts insert_new usual ex_call [] = Done (g', cs') /\ length cs' = 1%nat.
Proof.
  conjs; [intros b0 row _ _; vm_compute; discriminate|reflexivity|]. eexists _, _. split; [vm_compute; reflexivity|reflexivity].
Qed.
(** When the row of the tableau is longer than maximumCutLength, a cut without
    columns is inserted. *)
Theorem C91_empty_cut_refuted :
  cuts_of (generateCuts insert_new (fresh (with_ NoExtra MostNegativeRc 20 3)) ex_call []) = Done [([], None, None)].
Proof. vm_compute. reflexivity. Qed.
Print Assumptions C91_empty_cut_refuted.
(** minViolation is 0 by default, and after a pivot a cut may be inserted that the
    solution satisfies: 2 x0 + 2 x1 <= 3, x0 - x1 <= 1 at (1/2, 1). *)
Definition uv_call : call :=
  Call (bin 2 [Row (lin [2; 2]) None (Some 3); Row (lin [1; -1]) None (Some 1)]) true (fun _ => 0) false
    (toy [Face [0; 3]%nat [[1; 1; 1#2; 0]; [0; -2; -(1#2); 1]] [1#2; 1] [3; -(1#2)];
          Face [0; 1]%nat [[1; 0; 1#4; 1#2]; [0; 1; 1#4; -(1#2)]] [5#4; 1#4] [3; 1]] 3
         [([0; 3], 1, 3, (-1)%Z, [0; 1])%nat])
    (calm (-1, 10, 10, 10)) [0; 3]%nat (stats [Basic; Upper]) (stats [Lower; Basic]) 0.
Theorem C91_not_violated_refuted :
  exists rc g', generateCuts insert_new usual uv_call [] = Done (g', [rc]) /\
    rowcut_sat rc (point_of [1#2; 1]) /\ forall b0, cached_basis (c_si uv_call) uv_call = Done b0 ->
      forall j, (j < 2)%nat -> s_x (c_solver uv_call) b0 j = point_of [1#2; 1] j.
Proof.
  destruct (generateCuts insert_new usual uv_call []) as [(g', cs')| | | |] eqn:E; [|vm_compute in E; discriminate..].
  assert (Q : match generateCuts insert_new usual uv_call [] with Done (_, [rc]) => rowcut_b rc (point_of [1#2; 1]) | _ => false end = true)
    by (vm_compute; reflexivity).
  rewrite E in Q. destruct cs' as [|rc [|]]; [discriminate Q| |discriminate Q]. exists rc, g'. conjs; [reflexivity|apply rowcut_b_ok; exact Q|].
  intros b0 X. vm_compute in X. apply Done_inj in X. subst b0. intros j L. small_cases L; reflexivity.
Qed.
Print Assumptions C91_not_violated_refuted.

Example C92_example :
  let g := fresh (with_ AtOptimalBasis MostNegativeRc 20 10000) in
  exists g' cs', generateCuts insert_new g ex_call [] = Done (g', cs') /\ length cs' = 2%nat.
Proof. eexists _, _. split; [vm_compute; reflexivity|reflexivity]. Qed.

Lemma ex_careful : careful ex_mip ex_solver (calm (10, 10, -1, 10)) (g_par usual) v_default.
Proof.
  constructor.
  - discriminate.
  - intros s lv dir g j E. cbn in E. injection E as <-. cbn. lia.
  - intros s l k j E. discriminate.
  - intros b i o dir order L E. cbn in E. destruct (_ && _); [|discriminate]. injection E as <-. reflexivity.
  - eexists. vm_compute. reflexivity.
Qed.
Example C93_example :
  turns usual ex_call = false /\ careful (c_si ex_call) (c_solver ex_call) (c_choices ex_call) (g_par usual) (g_val usual) /\
  p_extra (g_par usual) <> AllViolatedMigs /\ length (c_basics ex_call) = length (m_rows (c_si ex_call)) /\
  exists b0, cached_basis (c_si ex_call) ex_call = Done b0.
Proof. conjs; [reflexivity|exact ex_careful|discriminate|reflexivity|eexists; vm_compute; reflexivity]. Qed.
(** The rule initialReducedCosts writes rowFlags_[-1] when no row is left after a
    pivot. *)
Theorem C93_initial_rule_refuted :
  generateCuts insert_new (fresh (with_ NoExtra InitialReducedCosts 20 10000)) ex_call [] = Undef OutOfBounds.
Proof. vm_compute. reflexivity. Qed.
Print Assumptions C93_initial_rule_refuted.
(** AllViolatedMigs reads ncols_ before it is set, whenever there is a row. *)
Theorem C93_all_violated_refuted ins g c cs b0 :
  p_extra (g_par g) = AllViolatedMigs -> g_rows g = None -> c_avail c = true -> c_inTree c = false -> m_rows (c_si c) <> [] ->
  p_pivotLimit (g_par g) <> 0%Z -> p_time (g_par g) = None -> p_norm (g_par g) = Unweighted -> cached_basis (worked_on g c) c = Done b0 ->
  generateCuts ins g c cs = Undef Uninitialised.
Proof.
  intros PE GR AV TR RW PL PT PN CB. unfold generateCuts. rewrite GR, AV. cbn [andb].
  unfold worked_on, turns in CB. rewrite GR in CB. rewrite CB. cbn [bind local_par p_norm]. rewrite PN.
  unfold separate, first_migs. cbn [local_par p_extra p_pivotLimit]. rewrite PE, TR, PT.
  assert (L : Nat.eqb (length (m_rows (if negb (Nat.eqb (num_ranges (c_si c)) 0) then converted (c_si c) (c_act c) else c_si c))) 0 = false).
  { apply Nat.eqb_neq. destruct (negb _); [cbn [converted m_rows]; rewrite conv_len|]; destruct (m_rows (c_si c)); cbn; congruence. }
  rewrite L. apply Z.eqb_neq in PL. rewrite PL. reflexivity.
Qed.
Print Assumptions C93_all_violated_refuted.
Example C93_all_violated_example :
  generateCuts insert_new (fresh (with_ AllViolatedMigs MostNegativeRc 20 10000)) ex_call [] = Undef Uninitialised.
Proof. vm_compute. reflexivity. Qed.
(** With range rows, the validator reads the bounds of an added column with a
    small coefficient past the end of the arrays. *)
Definition rb_call : call :=
  Call (bin 3 [Row (lin [2000000000; 2000000000]) (Some 1000000000) (Some 3000000000)]) true (fun _ => 1000000000) false
    (toy [Face [0]%nat [[1; 1; 0; -(1#2000000000); 1#2000000000]] [1#2; 0; 0; 0] [1000000000]] 3 []) idle
    [0]%nat (stats [Basic; Lower; Lower; Lower]) (stats [Lower]) 0.
Theorem C93_added_column_refuted : generateCuts insert_new usual rb_call [] = Undef OutOfBounds.
Proof. vm_compute. reflexivity. Qed.
Print Assumptions C93_added_column_refuted.
(** An extra cut for a basic integer column with a value of 1 or more fails an
    assertion: 2 x0 + 2 x1 <= 3 at (3/2, 0). *)
Definition ab_call : call :=
  Call (Mip 2 [Row (lin [2; 2]) None (Some 3)] (fun _ => Some 0) (fun _ => Some 5) (fun _ => true)) true (fun _ => 0) false
    (toy [Face [0]%nat [[1; 1; 1#2]] [3#2; 0] [3]] 3 []) idle [0]%nat (stats [Basic; Lower]) (stats [Lower]) 0.
Theorem C93_extra_cut_refuted :
  generateCuts insert_new (fresh (with_ AtOptimalBasis MostNegativeRc 20 10000)) ab_call [] = Aborts.
Proof. vm_compute. reflexivity. Qed.
Print Assumptions C93_extra_cut_refuted.

Example C94_example :
  turns usual rx_call = true /\ (0 < p_maxLen (g_par usual))%Z /\
  exists g' cs', generateCuts insert_new usual rx_call [] = Done (g', cs') /\ length cs' = 1%nat /\ p_maxLen (g_par g') = (-10000)%Z.
Proof. conjs; [reflexivity|reflexivity|]. eexists _, _. conjs; [vm_compute; reflexivity|reflexivity|reflexivity]. Qed.

(** operator= sets degeneratePivotLimit to failedPivotLimit *)
Theorem C95_assign_refuted : exists this o, gen_assign this o <> o /\ p_degLimit (g_par (gen_assign this o)) <> p_degLimit (g_par o).
Proof. exists usual, usual. split; [intro E; apply (f_equal (fun g => p_degLimit (g_par g))) in E; discriminate|discriminate]. Qed.
Print Assumptions C95_assign_refuted.
(** and does not copy the number of rows: an object assigned from one that has met
    range rows does not return at once, and inserts cuts without columns *)
Theorem C95_assigned_object_refuted :
  exists this o c1 c2 g1 cs1, generateCuts insert_new o c1 [] = Done (g1, cs1) /\
    (forall cs, generateCuts insert_new g1 c2 cs = Done (g1, cs)) /\
    cuts_of (generateCuts insert_new (gen_assign this g1) c2 []) = Done [([], None, None)].
Proof.
  exists usual, usual, rx_call, ex_call. eexists _, _. conjs.
  - vm_compute. reflexivity.
  - intro cs. reflexivity.
  - vm_compute. reflexivity.
Qed.
Print Assumptions C95_assigned_object_refuted.
Example C95_example : p_degLimit (g_par usual) <> p_failedLimit (g_par usual) /\ gen_copy usual = usual.
Proof. split; [discriminate|reflexivity]. Qed.

(** an element below EPS is replaced by its bound: 1e-9 x1 with x1 <= 1 *)
Example C96_example :
  let c := ([(0%nat, -(1#2)); (1%nat, 1#1000000000); (2%nat, -(1#4))], -(1#8)) in
  let y := point_of [0; 1; 1#2] in
  (forall j a, In (j, a) (fst c) -> (j < 3)%nat -> ge_opt_lo (y j) (m_clo ex_mip j) /\ le_opt_hi (y j) (m_chi ex_mip j)) /\
  (do r <- cleanCut (1 # 100000000) v_default 3 3 (m_clo ex_mip) (m_chi ex_mip) (point_of [1; 0; 1]) c;
   Done (fst r, fst (snd r), Qred (snd (snd r)))) = Done (NoneAccepted, [(0%nat, -(1#2)); (2%nat, -(1#4))], -(125000101#1000000000)).
Proof.
  split; [|vm_compute; reflexivity]. intros j a _ L. small_cases L; vm_compute; intuition discriminate.
Qed.
Example C96_example2 :
  let c := ([(0%nat, -(1#2)); (2%nat, -(1#4))], -(1#8)) in
  let y := point_of [0; 1; 1#2] in
  (1 # 100000000000000000000) * labs (fst c) y <= 1 # 10000000000 /\
  (do r <- cleanCut2 v_default 3 3 (m_clo ex_mip) (m_chi ex_mip) (point_of [1; 0; 1]) c;
   Done (fst r, map (fun e => (fst e, Qred (snd e))) (fst (snd r)))) = Done (NoneAccepted, [(0%nat, -(1)); (2%nat, -(1#2))]).
Proof. split; [vm_compute; discriminate|vm_compute; reflexivity]. Qed.
Example C97_example :
  sorted_rows (bin 3 [Row [] None None; Row [] None None; Row [] None None]) p_default
    (Bs [2; 0; 1]%nat [] (fun _ => Basic) (fun _ => Basic)) (point_of [1#4; 1#2; 3#4]) = [2; 1; 0]%nat.
Proof. vm_compute. reflexivity. Qed.
