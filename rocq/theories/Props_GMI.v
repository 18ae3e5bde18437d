(** * Properties of CglGMI *)

From Coq Require Import Qabs Lqa Lia.
From Verif Require Import Base Decide Model_ResidualCapacity Proofs_ResidualCapacity Model_GMI Proofs_GMI.
Local Open Scope Q_scope.

(** OsiCuts::insertIfNotDuplicateAndClean keeps what was there and adds nothing
    that excludes more than the new cut does. *)
Definition ins_ok (ins : list rowcut -> rowcut -> list rowcut) : Prop :=
  forall cs d e, In e (ins cs d) -> In e cs \/ (forall y, rowcut_sat d y -> rowcut_sat e y).
Lemma insert_new_ok : ins_ok insert_new.
Proof. intros cs d e H. apply insert_new_in in H. destruct H as [H| ->]; auto. Qed.

(** The raw cut of basic column [k], as handed to the cleaning procedure. *)
Definition handed (p : gparam) (c : call) (binv : nat -> vec) (k : nat) : vec * Q :=
  let raw := rawCut p c (frac (c_x c k)) (binv k) in (packRow c (fst raw), snd raw).

(** ** C25 *)
Section Valid.
  Variable sqrt : Q -> Q.
  Variable rat : Q -> Z * Z.
  Variable ins : list rowcut -> rowcut -> list rowcut.
  Variable p : gparam.
  Variable c : call.
  Variable binv : nat -> vec.
  Notation m := (c_mip c).
  Hypothesis INS : ins_ok ins.
  Hypothesis PO : params_ok p.
  Hypothesis XB : in_bounds m (c_x c).
  Hypothesis IB : int_bounds c.

  Lemma pack_in cut j a : In (j, a) (packRow c cut) -> (j < m_ncols m)%nat /\ ezero < Qabs a.
  Proof.
    unfold packRow. intro H. apply filter_In in H. destruct H as (H & Z). apply in_map_iff in H.
    destruct H as (i & E & H). inversion E; subst. apply in_seq in H. split; [lia|].
    cbn [snd] in Z. apply negb_true_iff in Z. unfold isZero in Z. qb. exact Z.
  Qed.
  Lemma fractional_int k : fractional p c k = true -> isInteger p c k = true.
  Proof. unfold fractional. destruct (c_cstat c k); try discriminate. intro H. apply andb_prop in H. apply H. Qed.

  Lemma cut_of_valid cs k cs' :
    fractional p c k = true -> basis_ok c (binv k) k -> clear_ok p c (frac (c_x c k)) (binv k) ->
    run_ok sqrt rat p c (steps (gp_proc p)) (handed p c binv k) ->
    cut_of sqrt rat ins p c binv cs k = Done cs' ->
    forall d, In d cs' -> In d cs \/ keeps_all m d.
  Proof.
    intros Fr BO CO R E d Hd. unfold cut_of in E. cbv zeta in E.
    destruct (_ || _); [apply Done_inj in E; subst; auto|].
    destruct (packRow c (fst (rawCut p c (frac (c_x c k)) (binv k)))) as [|e0 v0] eqn:Pk;
      [apply Done_inj in E; subst; auto|].
    apply bind_done in E. destruct E as (r & E1 & E2). apply Done_inj in E2. subst cs'.
    destruct r as [[[|e w] b]|]; auto. apply INS in Hd. destruct Hd as [Hd|Hd]; [auto|right].
    intros y Fy. apply Hd. unfold rowcut_sat. cbn [rc_form rc_lb rc_ub]. split; [exact Logic.I|].
    unfold handed in R. cbv zeta in R. rewrite Pk in R. unfold cleanCut in E1.
    assert (V : ok_at y (e0 :: v0, snd (rawCut p c (frac (c_x c k)) (binv k)))).
    { unfold ok_at. cbn [fst snd]. rewrite <- Pk, (pack_value c _ y (co_pack _ _ _ _ CO)).
      pose proof (raw_valid p c (binv k) k BO CO IB XB y Fy (fractional_int k Fr)) as G. unfold gap in G. lra. }
    assert (Cl : cols_in c (fst (e0 :: v0, snd (rawCut p c (frac (c_x c k)) (binv k))))).
    { intros j a Hj. cbn [fst] in Hj. rewrite <- Pk in Hj. apply (pack_in _ _ _ Hj). }
    destruct (clean_ok sqrt rat p c PO y _ _ _ (proj1 (proj2 Fy)) (steps_shape _) R Cl V E1) as (G1 & G2).
    unfold ok_at in G1. cbn [fst snd] in G1. unfold le_opt_hi.
    destruct (fold_left (relax_large p c) (e :: w) (Some b)) as [u|] eqn:Eu; [|exact Logic.I].
    apply (relax_large_ok p c (value (e :: w) y) (e :: w) (Some b)) with (u := u); [|exact Eu].
    intros u' Eu'. apply Some_inj in Eu'. subst. exact G1.
  Qed.

  Theorem C25_cuts_valid cs cs' :
    (forall k, (k < m_ncols m)%nat -> fractional p c k = true ->
       basis_ok c (binv k) k /\ clear_ok p c (frac (c_x c k)) (binv k) /\
       run_ok sqrt rat p c (steps (gp_proc p)) (handed p c binv k)) ->
    generateCuts sqrt rat ins p c (Some binv) cs = Done cs' ->
    forall d, In d cs' -> In d cs \/ keeps_all m d.
  Proof.
    intros H E. unfold generateCuts in E.
    destruct (filter (fractional p c) (seq 0 (m_ncols m))) as [|k0 l0] eqn:Fl; [apply Done_inj in E; subst; auto|].
    rewrite <- Fl in E. revert E. apply (ofold_inv (fun cs' => forall d, In d cs' -> In d cs \/ keeps_all m d)); [|auto].
    intros s k s' Hk P E d Hd. apply filter_In in Hk. destruct Hk as (Hk & Fr). apply in_seq in Hk.
    destruct (H k ltac:(lia) Fr) as (BO & CO & R).
    destruct (cut_of_valid s k s' Fr BO CO R E d Hd) as [G|G]; auto.
  Qed.

  (** With the default cleaning procedure nothing has to be assumed about the
      run: it is enough that no coefficient can be removed, or that the columns
      are bounded. *)
  Theorem C25_default_cleaning_valid cs cs' :
    gp_proc p = LandP1 ->
    (forall j, (j < m_ncols m)%nat -> m_clo m j <> None /\ m_chi m j <> None) \/ gp_eps_coeff p <= 1 # 100000000000000000000 ->
    (forall k, (k < m_ncols m)%nat -> fractional p c k = true ->
       basis_ok c (binv k) k /\ clear_ok p c (frac (c_x c k)) (binv k)) ->
    generateCuts sqrt rat ins p c (Some binv) cs = Done cs' ->
    forall d, In d cs' -> In d cs \/ keeps_all m d.
  Proof.
    intros Pr Bd H. apply C25_cuts_valid. intros k L Fr. destruct (H k L Fr) as (BO & CO). conjs; auto.
    rewrite Pr. cbn [steps run_ok]. split; [exact Logic.I|]. intros s1 E1. split; [exact Logic.I|]. intros s2 E2. split.
    - cbn [step_ok]. intros j a Hj La.
      assert (S1 : fst s2 = packRow c (fst (rawCut p c (frac (c_x c k)) (binv k)))).
      { cbn [do_step] in E1, E2. unfold test in E1. destruct (checkViolation _ _ _); [|discriminate].
        apply Done_inj, Some_inj in E1. apply Done_inj, Some_inj in E2. subst. reflexivity. }
      rewrite S1 in Hj. destruct (pack_in _ _ _ Hj) as (Lj & Za). right.
      destruct Bd as [Bd|Bd]; [|unfold ezero in Za; lra]. destruct (Bd j Lj). split; [exact Za|split; auto].
    - intros s3 E3. split; [exact Logic.I|]. intros. split; [exact Logic.I|]. intros. split; [exact Logic.I|]. intros. exact Logic.I.
  Qed.
End Valid.

(** ** C42: violation *)
Section Violated.
  Variable sqrt : Q -> Q.
  Variable rat : Q -> Z * Z.
  Variable p : gparam.
  Variable c : call.
  Notation m := (c_mip c).
  Notation x := (c_x c).

  (** violated by [e], relative to the right-hand side when that exceeds one *)
  Definition violated_by (e : Q) (d : rowcut) : Prop :=
    match rc_ub d with
    | Some b => e <= value (rc_form d) x - b \/ (1 < Qabs b /\ e * Qabs b <= value (rc_form d) x - b)
    | None => False
    end.
  Lemma check_violated s : checkViolation p c s = true ->
    gp_minviol p <= value (fst s) x - snd s \/ (1 < Qabs (snd s) /\ gp_minviol p * Qabs (snd s) <= value (fst s) x - snd s).
  Proof.
    unfold checkViolation. cbv zeta. intro H. destruct (1 <? Qabs (snd s)) eqn:E; apply Qle_bool_iff in H; [|auto].
    right. apply Qltb_lt in E. split; [exact E|].
    assert (X : value (fst s) x - snd s == (value (fst s) x - snd s) / Qabs (snd s) * Qabs (snd s)) by (field; lra).
    rewrite X. apply Qmult_le_compat_r; lra.
  Qed.
  Lemma last_check l s s' : do_steps sqrt rat p c (l ++ [CheckViol]) s = Done (Some s') -> checkViolation p c s' = true.
  Proof.
    revert s. induction l as [|t l IH]; intros s E.
    - cbn [app do_steps do_step] in E. unfold test in E. cbn [bind] in E.
      destruct (checkViolation p c s) eqn:V; [|discriminate]. cbn in E. apply Done_inj, Some_inj in E. subst. exact V.
    - cbn [app do_steps] in E. apply bind_done in E. destruct E as (r & _ & E). destruct r; [eauto|discriminate].
  Qed.
  Lemma steps_last q : q <> RedSplit -> exists l, steps q = l ++ [CheckViol].
  Proof.
    destruct q; intro N; try congruence; cbn [steps];
    [exists [CheckViol; Relax; Remove; CheckSupp; CheckDyn]|exists [CheckViol; Relax; CheckDyn; Scale 1; Remove; CheckSupp]
    |exists [Remove; CheckSupp; CheckDyn; Scale 0]|exists [CheckViol; Remove; CheckSupp; CheckDyn; ScaleOrRelax]
    |exists [CheckViol; Scale 1; Relax; Remove; CheckSupp; CheckDyn]|exists [CheckViol; Scale 2; Relax; Remove; CheckSupp; CheckDyn]];
    reflexivity.
  Qed.
  Lemma relax_small v b : cols_in c v ->
    (forall j, (j < m_ncols m)%nat -> isInteger p c j = true -> exists l u, m_clo m j = Some l /\ m_chi m j = Some u /\ u - l <= 10) ->
    fold_left (relax_large p c) v (Some b) = Some b.
  Proof.
    intros C H. induction v as [|[j a] v IH]; [reflexivity|]. cbn [fold_left]. unfold relax_large at 2. cbn [fst].
    assert (IH' : fold_left (relax_large p c) v (Some b) = Some b) by (apply IH; intros i q Hi; eapply C; right; eauto).
    destruct (isInteger p c j) eqn:Ie; [|exact IH'].
    destruct (H j) as (l & u & El & Eu & W); [eapply C; left; reflexivity|exact Ie|]. rewrite El, Eu.
    destruct (10 <? u - l) eqn:T; [qb; lra|]. exact IH'.
  Qed.
  Lemma cols_kept t s s' : do_step sqrt rat p c t s = Done (Some s') -> cols_in c (fst s) -> cols_in c (fst s').
  Proof.
    intros E C.
    assert (Sc : forall k s2, scaleCut sqrt rat p c k s = Done (Some s2) -> cols_in c (fst s2)).
    { intros k s2 E0. destruct k as [|[|[|[|k]]]].
      - destruct (scale_int _ _ _ _ _ _ E0) as (q & ->). apply (cols_in_map c (fun a => a * q)). exact C.
      - unfold scaleCut in E0. cbv zeta in E0. destruct (_ || _); [discriminate|]. apply Done_inj, Some_inj in E0. subst.
        apply (cols_in_map c (fun a => a / max_abs (fst s) (Qabs (snd s)))). exact C.
      - unfold scaleCut in E0. cbv zeta in E0. destruct (_ || _); [discriminate|]. apply Done_inj, Some_inj in E0. subst.
        apply (cols_in_map c (fun a => a / Qabs (snd s))). exact C.
      - unfold scaleCut in E0. cbv zeta in E0. destruct (_ || _); [discriminate|]. apply Done_inj, Some_inj in E0. subst.
        unfold div_by. cbn [fst]. match goal with |- context [_ / ?q] => apply (cols_in_map c (fun a => a / q)) end. exact C.
      - discriminate. }
    destruct t as [| | | | |k|]; cbn [do_step] in E; unfold test in E.
    - destruct (checkViolation p c s); [|discriminate]. apply Done_inj, Some_inj in E. subst. exact C.
    - destruct (checkDynamism p s); [|discriminate]. apply Done_inj, Some_inj in E. subst. exact C.
    - destruct (checkSupport p c s); [|discriminate]. apply Done_inj, Some_inj in E. subst. exact C.
    - apply Done_inj, Some_inj in E. subst. exact C.
    - apply Done_inj, Some_inj in E. subst. unfold removeSmall.
      assert (G : forall l st, cols_in c l -> cols_in c (fst st) -> cols_in c (fst (fold_left (remove_step p c) l st))).
      { induction l as [|[j a] l IH]; intros st Cl Cs; [exact Cs|]. cbn [fold_left].
        apply IH; [intros i q Hi; eapply Cl; right; eauto|]. destruct st as [v b]. unfold remove_step. cbn [fst] in Cs.
        destruct (small p a); [destruct (0 <? a); exact Cs|]. destruct (gp_eps_coeff p <? Qabs a); [|exact Cs].
        cbn [fst]. intros i q Hi. apply in_app_or in Hi. destruct Hi as [Hi|[Hi|[]]]; [eapply Cs; eauto|].
        inversion Hi; subst. eapply Cl; left; reflexivity. }
      apply G; [exact C|intros j a []].
    - apply bind_done in E. destruct E as (r & E0 & E). apply Done_inj in E. destruct r as [s2|].
      + apply Some_inj in E. subst. eauto.
      + destruct (gp_enforce p); [discriminate|]. apply Some_inj in E. subst. exact C.
    - apply bind_done in E. destruct E as (r & E0 & E). apply Done_inj in E. destruct r as [s2|].
      + apply Some_inj in E. subst. eauto.
      + destruct (gp_enforce p); [discriminate|]. apply Some_inj in E. subst. exact C.
  Qed.
  Lemma cols_kept_all l s s' : do_steps sqrt rat p c l s = Done (Some s') -> cols_in c (fst s) -> cols_in c (fst s').
  Proof.
    revert s. induction l as [|t l IH]; intros s E C; cbn [do_steps] in E.
    - apply Done_inj, Some_inj in E. subst. exact C.
    - apply bind_done in E. destruct E as (r & E0 & E). destruct r as [s1|]; [|discriminate].
      apply (IH s1 E). apply (cols_kept t s s1 E0 C).
  Qed.

  (** When no integer column ranges over more than 10, each new cut is violated
      by the solution by at least the parameter. *)
  Theorem C42_cuts_violated ins binv cs cs' :
    (forall cs d e, In e (ins cs d) -> In e cs \/ e = d) ->
    gp_proc p <> RedSplit ->
    (forall j, (j < m_ncols m)%nat -> isInteger p c j = true ->
       exists l u, m_clo m j = Some l /\ m_chi m j = Some u /\ u - l <= 10) ->
    generateCuts sqrt rat ins p c binv cs = Done cs' ->
    forall d, In d cs' -> In d cs \/ violated_by (gp_minviol p) d.
  Proof.
    intros INS NR Rg E. unfold generateCuts in E. destruct (steps_last _ NR) as (sl & Hsl).
    destruct (filter (fractional p c) (seq 0 (m_ncols m))) as [|k0 l0] eqn:Fl; [apply Done_inj in E; subst; auto|].
    destruct binv as [binv|]; [|apply Done_inj in E; subst; auto]. rewrite <- Fl in E. revert E.
    apply (ofold_inv (fun cs' => forall d, In d cs' -> In d cs \/ violated_by (gp_minviol p) d)); [|auto].
    intros s k s' _ P E d Hd. unfold cut_of in E. cbv zeta in E. destruct (_ || _); [apply Done_inj in E; subst; auto|].
    destruct (packRow c (fst (rawCut p c (frac (x k)) (binv k)))) as [|e0 v0] eqn:Pk; [apply Done_inj in E; subst; auto|].
    apply bind_done in E. destruct E as (r & E1 & E2). apply Done_inj in E2. subst s'.
    destruct r as [[[|e w] b]|]; auto. apply INS in Hd. destruct Hd as [Hd| ->]; [auto|right].
    unfold cleanCut in E1. assert (Ck : cols_in c (fst (e :: w, b))).
    { apply (cols_kept_all _ _ _ E1). cbn [fst]. rewrite <- Pk. intros j a Hj. apply (pack_in _ _ _ _ Hj). }
    rewrite Hsl in E1. apply last_check in E1.
    unfold violated_by. cbn [rc_form rc_ub]. rewrite relax_small by assumption.
    apply (check_violated (e :: w, b) E1).
  Qed.

  (** A cut with a coefficient on an integer column without a finite lower or
      upper bound is relaxed until it says nothing. *)
  Theorem C42_unbounded_integer_vacuous v b :
    (exists j a, In (j, a) v /\ m_int m j = true /\ (m_clo m j = None \/ m_chi m j = None)) ->
    fold_left (relax_large p c) v (Some b) = None.
  Proof.
    intros (j & a & Hj & Ij & N). assert (G : forall l, fold_left (relax_large p c) l None = None).
    { induction l as [|e l IH]; [reflexivity|]. cbn [fold_left]. unfold relax_large at 2.
      destruct (isInteger p c (fst e)); exact IH. }
    generalize (Some b). induction v as [|e v IH]; [destruct Hj|]. intro o. cbn [fold_left].
    destruct Hj as [-> |Hj]; [|apply IH; exact Hj]. unfold relax_large at 2. unfold isInteger. cbn [fst]. rewrite Ij. cbn [orb].
    destruct o as [r|]; [|apply G]. destruct N as [N|N]; rewrite N; [apply G|]. destruct (m_clo m j); apply G.
  Qed.
End Violated.

(** ** C43: integral scaling neither loops nor ends the process *)
Lemma euclid_gcd fuel : forall a b, (Z.abs_nat a < fuel)%nat -> Z.abs (euclid fuel a b) = Z.gcd a b.
Proof.
  induction fuel as [|f IH]; intros a b L; [lia|]. cbn [euclid]. destruct (Z.eqb_spec a 0) as [->|N].
  - symmetry. apply Z.gcd_0_l.
  - rewrite IH.
    + apply Z.gcd_rem. exact N.
    + pose proof (Z.rem_bound_abs b a N). lia.
Qed.
(** The result is the greatest common divisor up to sign; the process ends only
    when both arguments are zero. *)
Theorem C43_gcd a b : (a <> 0 \/ b <> 0)%Z -> exists g, computeGcd a b = Done g /\ (Z.abs g = Z.gcd a b)%Z.
Proof.
  intro N. unfold computeGcd. cbv zeta. destruct (Z.eqb_spec (Z.min a b) 0) as [E|E].
  - destruct (Z.eqb_spec (Z.max a b) 0) as [F|F]; [lia|]. exists (Z.max a b). split; [reflexivity|].
    destruct (Z.le_ge_cases a b); [rewrite Z.min_l in E by lia; rewrite Z.max_r by lia|rewrite Z.min_r in E by lia; rewrite Z.max_l by lia];
      subst; rewrite ?Z.gcd_0_l, ?Z.gcd_0_r; reflexivity.
  - eexists. split; [reflexivity|]. rewrite euclid_gcd by lia.
    destruct (Z.le_ge_cases a b); [rewrite Z.min_l, Z.max_r by lia; reflexivity|].
    rewrite Z.min_r, Z.max_l by lia. apply Z.gcd_comm.
Qed.

Section Total.
  Variable sqrt : Q -> Q.
  Variable rat : Q -> Z * Z.
  Variable ins : list rowcut -> rowcut -> list rowcut.
  Variable p : gparam.
  Variable c : call.
  Definition fine {A} (o : outcome A) : Prop := (exists a, o = Done a) \/ o = Undef IntOverflow.
  Lemma ofold_fine {A S} (I : S -> Prop) (f : S -> A -> outcome S) l s :
    (forall s a, I s -> (exists s', f s a = Done s' /\ I s') \/ f s a = Undef IntOverflow) -> I s ->
    (exists s', ofold f l s = Done s' /\ I s') \/ ofold f l s = Undef IntOverflow.
  Proof.
    intro H. revert s. induction l as [|a l IH]; intros s Is; [left; exists s; auto|]. cbn [ofold].
    destruct (H s a Is) as [(s' & E & Is')|E]; rewrite E; cbn [bind]; [auto|right; reflexivity].
  Qed.
  Hypothesis RAT : forall q, (0 < snd (rat q))%Z.
  Lemma gcd_steps v g l : (g <> 0)%Z -> (l <> 0)%Z ->
    fine (ofold (gcd_step rat p c) v (Some (g, l))).
  Proof.
    intros G L. destruct (ofold_fine (fun s : option (Z * Z) => match s with Some (g, l) => (g <> 0 /\ l <> 0)%Z | None => True end)
      (gcd_step rat p c) v (Some (g, l))) as [(s' & E & _)|E]; [| |left; eauto|right; auto].
    2: auto.
    intros s a Is. unfold gcd_step. destruct s as [[g' l']|]; [|left; exists None; auto]. destruct Is as (G' & L').
    destruct (_ && _); [left; exists (Some (g', l')); auto|]. pose proof (RAT (snd a)) as R. destruct (rat (snd a)) as [nu d]. cbn [snd] in R.
    destruct (Z.eqb_spec nu 0); [left; exists None; auto|].
    destruct (C43_gcd g' nu) as (g1 & -> & A1); [auto|]. destruct (C43_gcd l' d) as (h & -> & A2); [auto|]. cbn [bind].
    destruct (int64 _); [|right; reflexivity]. left. eexists. split; [reflexivity|]. split.
    - intros ->. simpl in A1. symmetry in A1. apply Z.gcd_eq_0 in A1. lia.
    - assert (D : (h | d)%Z).
      { apply Z.divide_abs_l. rewrite A2. apply Z.gcd_divide_r. }
      destruct D as (q & ->). assert (h <> 0)%Z by (intros ->; lia). rewrite Z.quot_mul by assumption.
      intro E. apply Z.mul_eq_0 in E. destruct E as [E|E]; [auto|]. subst. lia.
  Qed.
  Lemma scaleCut_fine t s : fine (scaleCut sqrt rat p c t s) /\ (t <> 0%nat -> exists r, scaleCut sqrt rat p c t s = Done r).
  Proof.
    destruct t as [|[|[|[|t]]]].
    - split; [|congruence]. unfold scaleCut, scaleCutIntegral. pose proof (RAT (snd s)) as R. destruct (rat (snd s)) as [nu d].
      cbn [snd] in R. destruct (Z.eqb_spec nu 0); [left; eauto|].
      destruct (gcd_steps (fst s) (Z.abs nu) d) as [(r & ->)| ->]; [lia|lia| |right; reflexivity].
      cbn [bind]. destruct r as [[g l]|]; [|left; eauto]. cbv zeta. destruct (1000 <? _); left; eauto.
    - unfold scaleCut. cbv zeta. destruct (_ || _); split; try left; eauto.
    - unfold scaleCut. cbv zeta. destruct (_ || _); split; try left; eauto.
    - unfold scaleCut. cbv zeta. destruct (_ || _); split; try left; eauto.
    - split; [left|]; cbn; eauto.
  Qed.
  Lemma do_step_fine t s : fine (do_step sqrt rat p c t s) /\ (int_step t = false -> exists r, do_step sqrt rat p c t s = Done r).
  Proof.
    destruct t as [| | | | |k|]; cbn [do_step]; unfold test; try (split; [left|]; eauto; fail).
    - destruct (scaleCut_fine k s) as (F & T). split.
      + destruct F as [(r & ->)| ->]; [left|right]; cbn [bind]; eauto.
      + intro N. destruct T as (r & ->); [intros ->; discriminate N|]. cbn [bind]. eauto.
    - destruct (scaleCut_fine 0 s) as (F & T). split; [|discriminate].
      destruct F as [(r & ->)| ->]; [left|right]; cbn [bind]; eauto.
  Qed.
  Lemma do_steps_fine l s : fine (do_steps sqrt rat p c l s) /\
    (forallb (fun t => negb (int_step t)) l = true -> exists r, do_steps sqrt rat p c l s = Done r).
  Proof.
    revert s. induction l as [|t l IH]; intro s; [split; [left|]; cbn; eauto|]. cbn [do_steps forallb].
    destruct (do_step_fine t s) as (F & T). split.
    - destruct F as [(r & ->)| ->]; [|right; reflexivity]. cbn [bind]. destruct r as [s'|]; [apply IH|left; eauto].
    - intro H. apply andb_prop in H. destruct H as (H1 & H2). destruct T as (r & ->); [apply negb_true_iff; exact H1|]. cbn [bind].
      destruct r as [s'|]; [apply IH; exact H2|eauto].
  Qed.

  (** For every solver state, basis inverse (exact or not) and parameter setting
      the generator finishes; the only other outcome is an overflowing product of
      denominators, and only when the cuts are to be scaled to integers. *)
  Theorem C43_finishes binv cs :
    (exists cs', generateCuts sqrt rat ins p c binv cs = Done cs') \/
    (generateCuts sqrt rat ins p c binv cs = Undef IntOverflow /\ (gp_proc p = IntegralCuts \/ gp_proc p = LandP1_Int)).
  Proof.
    unfold generateCuts. destruct (filter (fractional p c) (seq 0 (m_ncols (c_mip c)))) as [|k0 l0] eqn:Fl; [left; eauto|].
    destruct binv as [binv|]; [|left; eauto]. generalize (k0 :: l0) as l. intro l. revert cs.
    induction l as [|k l IH]; intro cs; [left; cbn; eauto|]. cbn [ofold].
    assert (G : (exists cs', cut_of sqrt rat ins p c binv cs k = Done cs') \/
                (cut_of sqrt rat ins p c binv cs k = Undef IntOverflow /\ (gp_proc p = IntegralCuts \/ gp_proc p = LandP1_Int))).
    { unfold cut_of. cbv zeta. destruct (_ || _); [left; eauto|]. destruct (packRow c _) as [|e0 v0]; [left; eauto|].
      unfold cleanCut.
      destruct (do_steps_fine (steps (gp_proc p)) (e0 :: v0, snd (rawCut p c (frac (c_x c k)) (binv k)))) as (F & T).
      destruct F as [(r & ->)|F]; cbn [bind]; [left; eauto|].
      destruct (gp_proc p) eqn:Pr; try (right; rewrite F; cbn [bind]; split; [reflexivity|auto]; fail);
        exfalso; destruct T as (r & T); try reflexivity; congruence. }
    destruct G as [(cs1 & ->)|(-> & G)]; cbn [bind]; [apply IH|right; auto].
  Qed.
End Total.
(** ** Examples and refutations *)
Definition tb {A} (d : A) (l : list A) (j : nat) : A := nth j l d.
Definition exact_rat (q : Q) : Z * Z := (Qnum (Qred q), Zpos (Qden (Qred q))).
Definition root (q : Q) : Q := q.
Ltac upto := repeat match goal with
  | H : (?j < 0)%nat |- _ => exfalso; inversion H
  | H : (?j < _)%nat |- _ => destruct j as [|j]; [clear H|apply Nat.succ_lt_mono in H]
  end.
Ltac clr := first [left; vm_compute; reflexivity | right; vm_compute; reflexivity].
(** Two integer columns and a continuous one at its upper bound, an integer one
    at its lower bound; both rows tight. *)
Definition ex_m : mip :=
  Mip 4 [Row [(0%nat, 2); (1%nat, 1); (2%nat, 1); (3%nat, 1)] None (Some 9);
         Row [(0%nat, 1); (1%nat, 3); (2%nat, -1); (3%nat, 2)] None (Some 10);
         Row [(0%nat, 1); (1%nat, -1)] (Some (-5)) (Some 5)]
    (tb None [Some 0; Some 0; Some 0; Some 1]) (tb None [Some 4; Some 4; Some 2; Some 3])
    (tb false [true; true; false; true]).
Definition ex_x : nat -> Q := tb 0 [16 # 10; 28 # 10; 2; 1].
Definition ex_c : call :=
  Call ex_m ex_x (tb 0 [9; 10; -12 # 10]) (tb Lower [Basic; Basic; Upper; Lower]) (tb Lower [Lower; Lower; Basic]).
Definition ex_binv (k : nat) : vec :=
  tb [] [[(0%nat, 3 # 5); (1%nat, -1 # 5)]; [(0%nat, -1 # 5); (1%nat, 2 # 5)]] k.

Ltac entries := repeat match goal with
  | H : _ \/ _ |- _ => destruct H as [H|H]
  | H : False |- _ => destruct H
  | H : (_, _) = (_, _) |- _ => inversion H; subst; clear H
  end.
Lemma ex_basis k : (k < 2)%nat -> basis_ok ex_c (ex_binv k) k.
Proof.
  intro L. upto.
  all: constructor;
    [apply wfb_ok; vm_compute; reflexivity
    |cbn; lia|reflexivity
    |intros i a Hi; cbn in Hi |- *; entries; lia
    |intros i a Hi; cbn in Hi; entries; vm_compute; reflexivity
    |intros j Hj Bj; cbn in Hj; upto; first [discriminate Bj|vm_compute; reflexivity]
    |intros j Hj; cbn in Hj; upto; try exact Logic.I; eexists; split; reflexivity
    |intros i a Hi; cbn in Hi; entries; eexists; split; reflexivity].
Qed.
Ltac far := match goal with H : near _ _ _ |- _ =>
  exfalso; destruct H as [H|[H|H]]; vm_compute in H; apply H; reflexivity end.
Lemma ex_clear k : (k < 2)%nat -> clear_ok gp_default ex_c (frac (c_x ex_c k)) (ex_binv k).
Proof.
  intro L. upto.
  all: constructor;
    [vm_compute; discriminate
    |intros j l u Hj El Eu N; cbn in Hj; upto; cbn in El, Eu; inversion El; inversion Eu; subst; far
    |intros i l u Hi El Eu N; cbn in Hi; upto; cbn in El, Eu; try discriminate; inversion El; inversion Eu; subst; far
    |intros j Hj; cbn in Hj; upto; clr
    |intros j Hj; cbn in Hj; upto; clr
    |intros i a Hi; cbn in Hi; entries; clr
    |intros i a Hi; cbn in Hi; entries; (split; clr)
    |intros j Hj; cbn in Hj; upto; clr].
Qed.
Lemma default_params : params_ok gp_default.
Proof. constructor; vm_compute; congruence || reflexivity. Qed.
Lemma ex_in_bounds : in_bounds ex_m ex_x.
Proof. intros j Hj. cbn in Hj. upto; (split; vm_compute; discriminate). Qed.
Lemma ex_int_bounds : int_bounds ex_c.
Proof.
  intros j Hj. cbn in Hj. upto; (split; [intro Hi; split; intros b Eb; vm_compute in Hi, Eb; try discriminate; inversion Eb|
    intros l u El Eu E _; vm_compute in El, Eu; inversion El; inversion Eu; subst; vm_compute in E; discriminate]).
  all: match goal with |- integral (?n # 1) => exists n; reflexivity end.
Qed.
(** Both basic columns are fractional and both give a cut; the cuts keep every
    feasible point, and there are such points. *)
Definition ex_point : point := tb 0 [1; 2; 1; 1].
Example C25_example :
  exists d1 d2, generateCuts root exact_rat insert_new gp_default ex_c (Some ex_binv) [] = Done [d1; d2] /\
    keeps_all ex_m d1 /\ keeps_all ex_m d2 /\ feasible ex_m ex_point /\
    ~ rowcut_sat d1 ex_x /\ ~ rowcut_sat d2 ex_x.
Proof.
  destruct (generateCuts root exact_rat insert_new gp_default ex_c (Some ex_binv) []) as [l| | | |] eqn:E;
    try (vm_compute in E; discriminate).
  assert (V : forall d, In d l -> keeps_all ex_m d).
  { intros d Hd. destruct (C25_default_cleaning_valid root exact_rat insert_new gp_default ex_c ex_binv insert_new_ok
      default_params ex_in_bounds ex_int_bounds [] l eq_refl) with (d := d) as [[]|G]; auto.
    - left. intros j Hj. cbn in Hj. upto; (split; vm_compute; discriminate).
    - intros k Hk Fr. cbn in Hk. assert (k < 2)%nat by (upto; try lia; vm_compute in Fr; discriminate).
      split; [apply ex_basis|apply ex_clear]; assumption. }
  vm_compute in E. apply Done_inj in E. subst l. do 2 eexists. split; [reflexivity|].
  split; [apply V; left; reflexivity|]. split; [apply V; right; left; reflexivity|].
  split; [apply feasible_b_ok; vm_compute; reflexivity|]. split; apply rowcut_b_no; vm_compute; reflexivity.
Qed.

(** *** What the hypotheses exclude *)
(** A nonbasic free column is treated as if it could not fall below its value:
    2 x0 + x1 <= 1 with x1 free gives x0 <= 0, although (1, -1) is feasible. *)
Definition free_c : call :=
  Call (Mip 2 [Row [(0%nat, 2); (1%nat, 1)] None (Some 1)] (tb None [Some 0; None]) (tb None [Some 5; None]) (tb false [true; false]))
    (tb 0 [1 # 2; 0]) (tb 0 [1]) (tb Lower [Basic; Free]) (tb Lower [Lower]).
Definition free_binv (k : nat) : vec := [(0%nat, 1 # 2)].
Theorem C25_nonbasic_free_refuted :
  exists c binv cs d y,
    in_bounds (c_mip c) (c_x c) /\ int_bounds c /\
    (forall j, (j < m_ncols (c_mip c))%nat -> c_cstat c j = Basic -> rowElem c (binv 0%nat) j == if Nat.eqb j 0 then 1 else 0) /\
    generateCuts root exact_rat insert_new gp_default c (Some binv) [] = Done cs /\
    In d cs /\ feasible (c_mip c) y /\ ~ rowcut_sat d y.
Proof.
  exists free_c, free_binv.
  destruct (generateCuts root exact_rat insert_new gp_default free_c (Some free_binv) []) as [l| | | |] eqn:E;
    try (vm_compute in E; discriminate). vm_compute in E. apply Done_inj in E. subst l.
  do 2 eexists. exists (tb 0 [1; -1]). split; [apply bounds_b_ok; vm_compute; reflexivity|]. split.
  { intros j Hj. cbn in Hj. upto; (split; [intro Hi; split; intros b Eb; vm_compute in Hi, Eb; try discriminate; inversion Eb; subst|
      intros l u El Eu Eq _; vm_compute in El, Eu; try discriminate; inversion El; inversion Eu; subst; vm_compute in Eq; discriminate]);
      match goal with |- integral (?n # 1) => exists n; reflexivity end. }
  split; [intros j Hj Bj; cbn in Hj; upto; [vm_compute; reflexivity|discriminate Bj]|].
  split; [reflexivity|]. split; [left; reflexivity|]. split; [apply feasible_b_ok; vm_compute; reflexivity|].
  apply rowcut_b_no. vm_compute. reflexivity.
Qed.

(** x1 has a coefficient of 1e-12; its row caps it at 1e11, where it sits. *)
Definition small_c (eps b0 : Q) (lo : option Q) : call :=
  Call (Mip 2 [Row [(0%nat, -2); (1%nat, eps)] None (Some b0); Row [(1%nat, 1)] None (Some 100000000000)]
         (tb None [Some 0; lo]) (tb None [Some 5; Some 200000000000]) (tb false [true; false]))
    (tb 0 [1 # 2; 100000000000]) (tb 0 [b0; 100000000000]) (tb Lower [Basic; Basic]) (tb Lower [Lower; Lower]).
Definition small_binv (eps : Q) (k : nat) : vec :=
  tb [] [[(0%nat, -1 # 2); (1%nat, eps / 2)]; [(1%nat, 1)]] k.
Lemma small_ok p eps b0 lo :
  gp_eps p = 1 # 1000000000000 -> gp_eps_elim p = 0 ->
  ((eps, b0) = (1 # 1000000000000, -9 # 10) \/ (eps, b0) = (6 # 1000000000000, -4 # 10)) ->
  lo = None \/ lo = Some 0 ->
  let c := small_c eps b0 lo in let binv := small_binv eps in
  in_bounds (c_mip c) (c_x c) /\ int_bounds c /\
  basis_ok c (binv 0%nat) 0 /\ clear_ok p c (frac (c_x c 0%nat)) (binv 0%nat).
Proof.
  intros P1 P2 H L c binv. subst c binv. destruct p as [ep aw ec ee ra rr md mv sa sr pr sc en]. cbn in P1, P2. subst ep ee.
  destruct H as [H|H]; apply pair_equal_spec in H; destruct H; subst; destruct L; subst;
    (split; [apply bounds_b_ok; vm_compute; reflexivity|]);
    (split; [intros j Hj; cbn in Hj; upto; (split; [intro Hi; split; intros b Eb; vm_compute in Hi, Eb; try discriminate; inversion Eb; subst|
      intros l u El Eu Eq _; vm_compute in El, Eu; try discriminate; inversion El; inversion Eu; subst; vm_compute in Eq; discriminate]);
      match goal with |- integral (?n # 1) => exists n; reflexivity end|]);
    (split; [constructor;
    [apply wfb_ok; vm_compute; reflexivity
    |cbn; lia|reflexivity
    |intros i a Hi; cbn in Hi |- *; entries; lia
    |intros i a Hi; cbn in Hi; entries; vm_compute; reflexivity
    |intros j Hj Bj; cbn in Hj; upto; first [discriminate Bj|vm_compute; reflexivity]
    |intros j Hj; cbn in Hj; upto; try exact Logic.I; eexists; split; reflexivity
    |intros i a Hi; cbn in Hi; entries; eexists; split; reflexivity]|]);
    (constructor;
    [vm_compute; discriminate
    |intros j l u Hj El Eu N; cbn in Hj; upto; cbn in El, Eu; inversion El; inversion Eu; subst; far
    |intros i l u Hi El Eu N; cbn in Hi; upto; cbn in El, Eu; try discriminate; inversion El; inversion Eu; subst; far
    |intros j Hj; cbn in Hj; upto; clr
    |intros j Hj; cbn in Hj; upto; clr
    |intros i a Hi; cbn in Hi; entries; clr
    |intros i a Hi; cbn in Hi; entries; (split; clr)
    |intros j Hj; cbn in Hj; upto; clr]).
Qed.
(** When the column of a removed coefficient has no lower bound the coefficient
    is dropped with nothing in its place. *)
Theorem C25_unbounded_small_refuted :
  exists c binv cs d y,
    in_bounds (c_mip c) (c_x c) /\ int_bounds c /\
    (forall k, (k < m_ncols (c_mip c))%nat -> fractional gp_default c k = true ->
       basis_ok c (binv k) k /\ clear_ok gp_default c (frac (c_x c k)) (binv k)) /\
    generateCuts root exact_rat insert_new gp_default c (Some binv) [] = Done cs /\
    In d cs /\ feasible (c_mip c) y /\ ~ rowcut_sat d y.
Proof.
  exists (small_c (1 # 1000000000000) (-9 # 10) None), (small_binv (1 # 1000000000000)).
  destruct (small_ok gp_default (1 # 1000000000000) (-9 # 10) None eq_refl eq_refl (or_introl eq_refl) (or_introl eq_refl)) as (H1 & H2 & H3 & H4).
  destruct (generateCuts root exact_rat insert_new gp_default (small_c (1 # 1000000000000) (-9 # 10) None)
     (Some (small_binv (1 # 1000000000000))) []) as [l| | | |] eqn:E;
    try (vm_compute in E; discriminate). vm_compute in E. apply Done_inj in E. subst l.
  do 2 eexists. exists (tb 0 [0; -1000000000000]). split; [exact H1|]. split; [exact H2|]. split.
  { intros k Hk Fr. cbn in Hk. upto; [split; assumption|vm_compute in Fr; discriminate]. }
  split; [reflexivity|]. split; [left; reflexivity|]. split; [apply feasible_b_ok; vm_compute; reflexivity|].
  apply rowcut_b_no. vm_compute. reflexivity.
Qed.
(** All columns bounded, default tolerances, integral cuts: removing the small
    coefficient leaves -x0 <= -2/5, which the solution satisfies; the greatest
    common divisor of 2 and -1 comes out as -1, so the cut is multiplied by -5 and
    becomes 5 x0 <= 2, which the solution violates and the feasible x0 = 1 too. *)
Definition gp_integral : gparam :=
  GP (1 # 1000000000000) (5 # 1000) (1 # 100000000000) 0 (1 # 100000000000) (1 # 10000000000000) 1000000 (1 # 10000)
     1000 (1 # 10) IntegralCuts false true.
Theorem C25_negative_scale_refuted :
  exists c binv cs d y,
    in_bounds (c_mip c) (c_x c) /\ int_bounds c /\
    (forall j, (j < m_ncols (c_mip c))%nat -> m_clo (c_mip c) j <> None /\ m_chi (c_mip c) j <> None) /\
    (forall k, (k < m_ncols (c_mip c))%nat -> fractional gp_integral c k = true ->
       basis_ok c (binv k) k /\ clear_ok gp_integral c (frac (c_x c k)) (binv k)) /\
    generateCuts root exact_rat insert_new gp_integral c (Some binv) [] = Done cs /\
    In d cs /\ feasible (c_mip c) y /\ ~ rowcut_sat d y.
Proof.
  exists (small_c (6 # 1000000000000) (-4 # 10) (Some 0)), (small_binv (6 # 1000000000000)).
  destruct (small_ok gp_integral (6 # 1000000000000) (-4 # 10) (Some 0) eq_refl eq_refl (or_intror eq_refl) (or_intror eq_refl)) as (H1 & H2 & H3 & H4).
  destruct (generateCuts root exact_rat insert_new gp_integral (small_c (6 # 1000000000000) (-4 # 10) (Some 0))
     (Some (small_binv (6 # 1000000000000))) []) as [l| | | |] eqn:E;
    try (vm_compute in E; discriminate). vm_compute in E. apply Done_inj in E. subst l.
  do 2 eexists. exists (tb 0 [1; 0]). split; [exact H1|]. split; [exact H2|]. split.
  { intros j Hj. cbn in Hj. upto; (split; discriminate). } split.
  { intros k Hk Fr. cbn in Hk. upto; [split; assumption|vm_compute in Fr; discriminate]. }
  split; [reflexivity|]. split; [left; reflexivity|]. split; [apply feasible_b_ok; vm_compute; reflexivity|].
  apply rowcut_b_no. vm_compute. reflexivity.
Qed.
(** The integral cleaning where the theorem applies: the run of the first example
    meets its conditions step by step. *)
Example C25_integral_example :
  (forall k, (k < 2)%nat -> run_ok root exact_rat gp_integral ex_c (steps IntegralCuts) (handed gp_integral ex_c ex_binv k)) /\
  exists d1 d2, generateCuts root exact_rat insert_new gp_integral ex_c (Some ex_binv) [] = Done [d1; d2].
Proof.
  split; [|do 2 eexists; vm_compute; reflexivity].
  intros k Hk. upto.
  all: cbn [steps run_ok]; (split; [intros j a Hj La; vm_compute in Hj; entries; vm_compute in La; exfalso; apply La; reflexivity|]);
    intros s1 E1; vm_compute in E1; apply Done_inj, Some_inj in E1; subst s1;
    (split; [exact Logic.I|]); intros s1 E1; vm_compute in E1; apply Done_inj, Some_inj in E1; subst s1;
    (split; [exact Logic.I|]); intros s1 E1; vm_compute in E1; apply Done_inj, Some_inj in E1; subst s1;
    (split; [vm_compute; reflexivity|]); intros s1 E1; (split; [exact Logic.I|]); intros; exact Logic.I.
Qed.

(** *** Violation *)
Example C42_example :
  exists d1 d2, generateCuts root exact_rat insert_new gp_default ex_c (Some ex_binv) [] = Done [d1; d2] /\
    violated_by ex_c (1 # 10000) d1 /\ violated_by ex_c (1 # 10000) d2.
Proof.
  destruct (generateCuts root exact_rat insert_new gp_default ex_c (Some ex_binv) []) as [l| | | |] eqn:E;
    try (vm_compute in E; discriminate).
  assert (V : forall d, In d l -> violated_by ex_c (1 # 10000) d).
  { intros d Hd. destruct (C42_cuts_violated root exact_rat gp_default ex_c insert_new (Some ex_binv) [] l) with (d := d) as [[]|G]; auto.
    - intros cs d' e He. apply insert_new_in in He. tauto.
    - discriminate.
    - intros j Hj Ij. clear -Hj Ij. cbn in Hj. upto.
      + exists 0, 4. repeat split. discriminate.
      + exists 0, 4. repeat split. discriminate.
      + exists 0, 2. repeat split. discriminate.
      + exists 1, 3. repeat split. discriminate. }
  vm_compute in E. apply Done_inj in E. subst l. do 2 eexists. split; [reflexivity|].
  split; apply V; [left|right; left]; reflexivity.
Qed.
(** An integer column over a wide range, or over all non-negative integers:
    2 x0 - x1 <= 1 and x1 >= 0 at (1/2, 0). *)
Definition wide_c (u : option Q) : call :=
  Call (Mip 2 [Row [(0%nat, 2); (1%nat, -1)] None (Some 1)] (tb None [Some 0; Some 0]) (tb None [Some 5; u]) (tb false [true; true]))
    (tb 0 [1 # 2; 0]) (tb 0 [1]) (tb Lower [Basic; Lower]) (tb Lower [Lower]).
Definition wide_binv (k : nat) : vec := [(0%nat, 1 # 2)].
Theorem C42_wide_integer_refuted :
  exists c binv d,
    generateCuts root exact_rat insert_new gp_default c (Some binv) [] = Done [d] /\
    (forall j, (j < m_ncols (c_mip c))%nat -> m_clo (c_mip c) j <> None /\ m_chi (c_mip c) j <> None) /\
    ~ violated_by c (gp_minviol gp_default) d /\ rowcut_sat d (c_x c).
Proof.
  exists (wide_c (Some 100000000)), wide_binv.
  destruct (generateCuts root exact_rat insert_new gp_default (wide_c (Some 100000000)) (Some wide_binv) []) as [l| | | |] eqn:E;
    try (vm_compute in E; discriminate). vm_compute in E. apply Done_inj in E. subst l.
  eexists. split; [reflexivity|]. split; [|split].
  - intros j Hj. cbn in Hj. upto; (split; discriminate).
  - intros [H|[_ H]]; vm_compute in H; apply H; reflexivity.
  - apply rowcut_b_ok. vm_compute. reflexivity.
Qed.
Theorem C42_unbounded_integer_refuted :
  exists c binv d, generateCuts root exact_rat insert_new gp_default c (Some binv) [] = Done [d] /\
    (forall y, rowcut_sat d y).
Proof.
  exists (wide_c None), wide_binv.
  destruct (generateCuts root exact_rat insert_new gp_default (wide_c None) (Some wide_binv) []) as [l| | | |] eqn:E;
    try (vm_compute in E; discriminate). vm_compute in E. apply Done_inj in E. subst l.
  eexists. split; [reflexivity|]. intro y. split; exact Logic.I.
Qed.

(** *** Overflow of the product of denominators *)
(** Coefficients -2/p for seven primes below 1000, the bound on denominators. *)
Definition primes : list positive := [997; 991; 983; 977; 971; 967; 953]%positive.
Definition lcm_c : call :=
  Call (Mip 8 [Row ((0%nat, 1) :: combine (seq 1 7) (map (fun q => -1 # q) primes)) None (Some (3 # 2))]
         (fun _ => Some 0) (fun _ => Some 5) (fun _ => true))
    (tb 0 [3 # 2]) (tb 0 [3 # 2]) (tb Lower [Basic]) (tb Lower [Lower]).
Theorem C43_overflow_refuted :
  generateCuts root exact_rat insert_new gp_integral lcm_c (Some (fun _ => [(0%nat, 1)])) [] = Undef IntOverflow /\
  (forall q, (0 < snd (exact_rat q))%Z).
Proof. split; [vm_compute; reflexivity|intro q; reflexivity]. Qed.
Example C43_example :
  generateCuts root exact_rat insert_new gp_integral ex_c (Some ex_binv) [] <> Undef IntOverflow.
Proof. vm_compute. discriminate. Qed.

(** Before cleaning, the cut of a fractional basic column is violated by exactly
    the fractional part. *)
Theorem C42_violation_before_cleaning p c binv k :
  in_bounds (c_mip c) (c_x c) -> (forall r, In r (m_rows (c_mip c)) -> row_sat r (c_x c)) ->
  basis_ok c (binv k) k -> clear_ok p c (frac (c_x c k)) (binv k) ->
  value (fst (handed p c binv k)) (c_x c) - snd (handed p c binv k) == frac (c_x c k).
Proof.
  intros XB Rx BO CO. unfold handed. cbv zeta. cbn [fst snd].
  rewrite (pack_value c _ (c_x c) (co_pack _ _ _ _ CO)).
  apply (raw_at_x p c (binv k) k BO CO). intros i L. apply Rx. apply nth_In. exact L.
Qed.

Print Assumptions C42_violation_before_cleaning.
Print Assumptions C25_cuts_valid.
Print Assumptions C25_default_cleaning_valid.
Print Assumptions C25_nonbasic_free_refuted.
Print Assumptions C25_unbounded_small_refuted.
Print Assumptions C25_negative_scale_refuted.
Print Assumptions C42_cuts_violated.
Print Assumptions C42_unbounded_integer_vacuous.
Print Assumptions C42_wide_integer_refuted.
Print Assumptions C42_unbounded_integer_refuted.
Print Assumptions C43_gcd.
Print Assumptions C43_finishes.
Print Assumptions C43_overflow_refuted.
