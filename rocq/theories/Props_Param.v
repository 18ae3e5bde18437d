(** * Properties of the parameter classes (C05, C32, C33, C34) *)

From Verif Require Import Base Model_Param.
Local Open Scope Z_scope.

(** ** What a double stands for *)
Inductive ext := NaN | MInf | Fin (q : Q) | PInf.
(** Numerator over 2^1074 of a finite double. *)
Definition dnum (d : double) : Z :=
  match d with
  | S754_finite s m e => if s then - (Zpos m * 2 ^ (e + 1074)) else Zpos m * 2 ^ (e + 1074)
  | _ => 0
  end.
Definition dval (d : double) : ext :=
  match d with
  | S754_nan => NaN
  | S754_infinity true => MInf
  | S754_infinity false => PInf
  | _ => Fin (Qmake (dnum d) (2 ^ 1074)%positive)
  end.
(** Bit patterns that are doubles (canonical mantissa, exponent in range). *)
Definition is_double (d : double) : Prop := valid_binary 53 1024 d = true.
Definition ext_lt (a b : ext) : Prop :=
  match a, b with
  | Fin p, Fin q => (p < q)%Q
  | MInf, Fin _ | MInf, PInf | Fin _, PInf => True
  | _, _ => False
  end.
Definition ext_le (a b : ext) : Prop :=
  match a, b with
  | Fin p, Fin q => (p <= q)%Q
  | MInf, Fin _ | MInf, PInf | Fin _, PInf | MInf, MInf | PInf, PInf => True
  | _, _ => False
  end.

Lemma digits_spec m : 2 ^ (Zpos (digits2_pos m) - 1) <= Zpos m < 2 ^ Zpos (digits2_pos m).
Proof.
  induction m as [m IH|m IH|]; cbn [digits2_pos].
  - rewrite Pos2Z.inj_succ. replace (Z.succ (Zpos (digits2_pos m)) - 1) with (Z.succ (Zpos (digits2_pos m) - 1)) by lia.
    rewrite !Z.pow_succ_r by lia. lia.
  - rewrite Pos2Z.inj_succ. replace (Z.succ (Zpos (digits2_pos m)) - 1) with (Z.succ (Zpos (digits2_pos m) - 1)) by lia.
    rewrite !Z.pow_succ_r by lia. lia.
  - simpl. lia.
Qed.

Lemma canonical_cases m e : bounded 53 1024 m e = true ->
  -1074 <= e /\ Zpos m < 2 ^ 53 /\ (-1074 < e -> 2 ^ 52 <= Zpos m).
Proof.
  unfold bounded, canonical_mantissa, fexp, SpecFloat.emin. intro H.
  apply andb_true_iff in H as [H _]. apply Zeq_bool_eq in H.
  pose proof (digits_spec m) as [D1 D2]. set (d := Zpos (digits2_pos m)) in *.
  split; [lia|]. split.
  - assert (d <= 53) by lia. eapply Z.lt_le_trans; [exact D2|]. apply Z.pow_le_mono_r; lia.
  - intro He. assert (E : d = 53) by lia. rewrite E in D1. exact D1.
Qed.

Lemma mag_lt m1 e1 m2 e2 : bounded 53 1024 m1 e1 = true -> bounded 53 1024 m2 e2 = true -> e1 < e2 ->
  Zpos m1 * 2 ^ (e1 + 1074) < Zpos m2 * 2 ^ (e2 + 1074).
Proof.
  intros B1 B2 H. apply canonical_cases in B1 as (A1 & A2 & _). apply canonical_cases in B2 as (C1 & C2 & C3).
  assert (C4 : 2 ^ 52 <= Zpos m2) by (apply C3; lia).
  assert (P : 0 < 2 ^ (e1 + 1074)) by (apply Z.pow_pos_nonneg; lia).
  assert (E : 2 ^ (e2 + 1074) = 2 ^ (e2 - e1 - 1) * (2 * 2 ^ (e1 + 1074))).
  { rewrite <- Z.pow_succ_r, <- Z.pow_add_r by lia. f_equal. lia. }
  assert (P2 : 1 <= 2 ^ (e2 - e1 - 1)) by (pose proof (Z.pow_pos_nonneg 2 (e2 - e1 - 1)); lia).
  rewrite E. change (2 ^ 53) with (2 * 2 ^ 52) in A2.
  set (a := 2 ^ (e1 + 1074)) in *. set (k := 2 ^ (e2 - e1 - 1)) in *. set (b := 2 ^ 52) in *.
  assert (Zpos m1 * a < 2 * b * a) by (apply Z.mul_lt_mono_pos_r; lia).
  assert (2 * b * a <= Zpos m2 * (k * (2 * a))).
  { replace (Zpos m2 * (k * (2 * a))) with (2 * (Zpos m2 * k) * a) by ring.
    apply Z.mul_le_mono_nonneg_r; [lia|]. assert (b * 1 <= Zpos m2 * k) by (apply Z.mul_le_mono_nonneg; unfold b in *; lia). lia. }
  lia.
Qed.

(** Comparing two canonical finite doubles of the same sign. *)
Lemma mag_compare m1 e1 m2 e2 : bounded 53 1024 m1 e1 = true -> bounded 53 1024 m2 e2 = true ->
  (match e1 ?= e2 with Eq => Pos.compare_cont Eq m1 m2 | c => c end)
  = (Zpos m1 * 2 ^ (e1 + 1074) ?= Zpos m2 * 2 ^ (e2 + 1074)).
Proof.
  intros B1 B2. destruct (Z.compare_spec e1 e2) as [E|E|E].
  - subst e2. apply canonical_cases in B1 as (A1 & _).
    assert (P : 0 < 2 ^ (e1 + 1074)) by (apply Z.pow_pos_nonneg; lia).
    rewrite <- (Zmult_compare_compat_r (Zpos m1) (Zpos m2)) by lia. reflexivity.
  - symmetry. apply Z.compare_lt_iff. apply mag_lt; auto.
  - symmetry. apply Z.compare_gt_iff. apply mag_lt; auto.
Qed.

Lemma mag_pos m e : bounded 53 1024 m e = true -> 0 < Zpos m * 2 ^ (e + 1074).
Proof.
  intro B. apply canonical_cases in B as (A & _). pose proof (Z.pow_pos_nonneg 2 (e + 1074)). nia.
Qed.

Definition qcmp_scaled (a b : Z) : (Qmake a (2 ^ 1074) ?= Qmake b (2 ^ 1074))%Q = (a ?= b).
Proof.
  unfold Qcompare. cbn [Qnum Qden]. symmetry. apply Zmult_compare_compat_r. apply Z.lt_gt. reflexivity.
Qed.

(** The IEEE comparison is the comparison of the values. *)
Lemma sfcompare_val a b : is_double a -> is_double b ->
  match dval a, dval b with
  | Fin p, Fin q => SFcompare a b = Some (p ?= q)%Q
  | NaN, _ | _, NaN => SFcompare a b = None
  | MInf, MInf | PInf, PInf => SFcompare a b = Some Eq
  | MInf, _ | _, PInf => SFcompare a b = Some Lt
  | PInf, _ | _, MInf => SFcompare a b = Some Gt
  end.
Proof.
  intros Ha Hb. destruct a as [sa|sa| |sa ma ea], b as [sb|sb| |sb mb eb];
    unfold is_double in Ha, Hb; cbn [valid_binary] in Ha, Hb;
    cbn [dval]; try rewrite qcmp_scaled; cbn [SFcompare dnum]; try reflexivity;
    try (destruct sa; reflexivity); try (destruct sb; reflexivity).
  - pose proof (mag_pos _ _ Hb). f_equal. symmetry. destruct sb; [apply Z.compare_gt_iff|apply Z.compare_lt_iff]; lia.
  - destruct sa, sb; reflexivity.
  - pose proof (mag_pos _ _ Ha). f_equal. symmetry. destruct sa; [apply Z.compare_lt_iff|apply Z.compare_gt_iff]; lia.
  - pose proof (mag_pos _ _ Ha). pose proof (mag_pos _ _ Hb). f_equal.
    pose proof (mag_compare ma ea mb eb Ha Hb) as M. destruct sa, sb.
    + rewrite Z.compare_opp, (Z.compare_antisym (Zpos ma * 2 ^ (ea + 1074))), <- M. destruct (ea ?= eb); reflexivity.
    + symmetry. apply Z.compare_lt_iff. lia.
    + symmetry. apply Z.compare_gt_iff. lia.
    + rewrite <- M. destruct (ea ?= eb); reflexivity.
Qed.
Lemma sfltb_val a b : is_double a -> is_double b -> (SFltb a b = true <-> ext_lt (dval a) (dval b)).
Proof.
  intros Ha Hb. pose proof (sfcompare_val a b Ha Hb) as H. unfold SFltb, ext_lt.
  destruct (dval a) as [| |p|], (dval b) as [| |q|]; rewrite H; try tauto; try (split; [discriminate|tauto]).
  rewrite Qlt_alt. destruct (p ?= q)%Q; split; congruence.
Qed.
Lemma sfleb_val a b : is_double a -> is_double b -> (SFleb a b = true <-> ext_le (dval a) (dval b)).
Proof.
  intros Ha Hb. pose proof (sfcompare_val a b Ha Hb) as H. unfold SFleb, ext_le.
  destruct (dval a) as [| |p|], (dval b) as [| |q|]; rewrite H; try tauto; try (split; [discriminate|tauto]).
  rewrite Qle_alt. destruct (p ?= q)%Q; split; congruence.
Qed.

(** ** "The getter returns the last acceptable value passed" *)

(** [acc o v]: call [o] passes the acceptable value [v] for the parameter in
    question.  [holds_last acc d h v]: after the calls [h] on an object whose
    parameter was [d], the parameter is [v]. *)
Inductive holds_last {O V : Type} (acc : O -> V -> Prop) (d : V) : list O -> V -> Prop :=
  | hl_none : holds_last acc d [] d
  | hl_set h o v : acc o v -> holds_last acc d (h ++ [o]) v
  | hl_keep h o v : (forall w, ~ acc o w) -> holds_last acc d h v -> holds_last acc d (h ++ [o]) v.

Lemma holds_last_run {S O V : Type} (stp : S -> O -> S) (get : S -> V) (acc : O -> V -> Prop)
  (ok : O -> Prop) :
  (forall s o, ok o -> (exists v, acc o v /\ get (stp s o) = v) \/
                       ((forall w, ~ acc o w) /\ get (stp s o) = get s)) ->
  forall h s0, (forall o, In o h -> ok o) -> holds_last acc (get s0) h (get (fold_left stp h s0)).
Proof.
  intros H h s0. induction h as [|o h IH] using rev_ind; intro Hok; [constructor|].
  rewrite fold_left_app. cbn [fold_left].
  assert (Hh : forall o0, In o0 h -> ok o0) by (intros; apply Hok, in_or_app; auto).
  assert (Ho : ok o) by (apply Hok, in_or_app; right; left; reflexivity).
  destruct (H (fold_left stp h s0) o Ho) as [(v & A & B)|(A & B)].
  - rewrite B. apply hl_set. exact A.
  - rewrite B. apply hl_keep; [exact A|]. apply IH, Hh.
Qed.

(** Every value a getter returns is the default or was acceptable. *)
Lemma holds_last_inv {O V} (acc : O -> V -> Prop) (P : V -> Prop) d h v :
  holds_last acc d h v -> P d -> (forall o w, acc o w -> P w) -> P v.
Proof. induction 1; eauto. Qed.

(** Documented ranges, as conditions on the value of a double. *)
Definition d_pos (v : double) : Prop := ext_lt (Fin 0) (dval v).
Definition d_nonneg (v : double) : Prop := ext_le (Fin 0) (dval v).
Definition d_above (q : Q) (v : double) : Prop := ext_lt (Fin q) (dval v).
Definition d_from (q : Q) (v : double) : Prop := ext_le (Fin q) (dval v).
Definition d_upto (q : Q) (v : double) : Prop := ext_le (dval v) (Fin q).
(** The double literal 0.1. *)
Definition tenth : Q := 3602879701896397 # 36028797018963968.

Lemma ext_lt_eq_l p q x : (p == q)%Q -> ext_lt (Fin p) x <-> ext_lt (Fin q) x.
Proof. intro E. destruct x; simpl; try tauto. rewrite E. tauto. Qed.
Lemma ext_le_eq_l p q x : (p == q)%Q -> ext_le (Fin p) x <-> ext_le (Fin q) x.
Proof. intro E. destruct x; simpl; try tauto. rewrite E. tauto. Qed.
Lemma ext_le_eq_r p q x : (p == q)%Q -> ext_le x (Fin p) <-> ext_le x (Fin q).
Proof. intro E. destruct x; simpl; try tauto. rewrite E. tauto. Qed.

Lemma dgt_spec c q v : is_double c -> is_double v -> (exists p, dval c = Fin p /\ p == q)%Q ->
  dgt v c = true <-> d_above q v.
Proof.
  intros Hc Hv (p & E & Eq). unfold dgt, d_above. rewrite (sfltb_val c v Hc Hv), E. apply ext_lt_eq_l, Eq.
Qed.
Lemma dge_spec c q v : is_double c -> is_double v -> (exists p, dval c = Fin p /\ p == q)%Q ->
  dge v c = true <-> d_from q v.
Proof.
  intros Hc Hv (p & E & Eq). unfold dge, d_from. rewrite (sfleb_val c v Hc Hv), E. apply ext_le_eq_l, Eq.
Qed.
Lemma dle_spec c q v : is_double c -> is_double v -> (exists p, dval c = Fin p /\ p == q)%Q ->
  dle v c = true <-> d_upto q v.
Proof.
  intros Hc Hv (p & E & Eq). unfold dle, d_upto. rewrite (sfleb_val v c Hv Hc), E. apply ext_le_eq_r, Eq.
Qed.
Ltac lit := solve [vm_compute; reflexivity | eexists; split; [vm_compute; reflexivity | vm_compute; reflexivity] | assumption].
Lemma gt0 v : is_double v -> dgt v (dint 0) = true <-> d_pos v.
Proof. intro H. apply (dgt_spec _ 0); lit. Qed.
Lemma ge0 v : is_double v -> dge v (dint 0) = true <-> d_nonneg v.
Proof. intro H. apply (dge_spec _ 0); lit. Qed.
Lemma gt1 v : is_double v -> dgt v (dint 1) = true <-> d_above 1 v.
Proof. intro H. apply (dgt_spec _ 1); lit. Qed.
Lemma ge1 v : is_double v -> dge v (dint 1) = true <-> d_from 1 v.
Proof. intro H. apply (dge_spec _ 1); lit. Qed.
Lemma gt10 v : is_double v -> dgt v (dint 10) = true <-> d_above 10 v.
Proof. intro H. apply (dgt_spec _ 10); lit. Qed.
Lemma le_half v : is_double v -> dle v (dlit 1 2) = true <-> d_upto (1#2) v.
Proof. intro H. apply (dle_spec _ (1#2)); lit. Qed.
Lemma le_one v : is_double v -> dle v (dint 1) = true <-> d_upto 1 v.
Proof. intro H. apply (dle_spec _ 1); lit. Qed.
Lemma le_tenth v : is_double v -> dle v (dlit 1 10) = true <-> d_upto tenth v.
Proof. intro H. apply (dle_spec _ tenth); lit. Qed.

(** ** C05: CglParam *)
Inductive cop := CInf (v : double) | CEps (v : double) | CCoef (v : double) | CSupp (n : Z).
Definition cdo (p : cparam) (o : cop) : cparam :=
  match o with
  | CInf v => setINFINIT p v | CEps v => setEPS p v | CCoef v => setEPS_COEFF p v
  | CSupp n => setMAX_SUPPORT p n
  end.
Definition cop_ok (o : cop) : Prop :=
  match o with CInf v | CEps v | CCoef v => is_double v | CSupp _ => True end.
(** Acceptable calls. *)
Definition acc_inf (o : cop) (v : double) : Prop := o = CInf v /\ d_pos v.
Definition acc_eps (o : cop) (v : double) : Prop := o = CEps v /\ d_nonneg v.
Definition acc_coef (o : cop) (v : double) : Prop := o = CCoef v /\ d_nonneg v.
Definition acc_supp (o : cop) (n : Z) : Prop := o = CSupp n /\ 0 < n.


(** One parameter, one call: either the call is the parameter's own setter
    with an acceptable value, or the getter is unchanged. *)
Ltac tobool :=
  repeat first
    [ rewrite <- gt0 in * by assumption | rewrite <- ge0 in * by assumption
    | rewrite <- gt1 in * by assumption | rewrite <- ge1 in * by assumption
    | rewrite <- gt10 in * by assumption | rewrite <- le_half in * by assumption
    | rewrite <- le_one in * by assumption | rewrite <- le_tenth in * by assumption ].
Ltac finish_step :=
  first
    [ right; split; [intros w [W _]; discriminate W | reflexivity]
    | left; eexists; split; [split; [reflexivity|] | reflexivity]; tobool;
      first [assumption | apply andb_true_iff; assumption | apply Z.ltb_lt; assumption | exact I ]
    | right; split; [|reflexivity];
      let w := fresh in let W := fresh in let P := fresh in
      intros w [W P]; injection W as <-; tobool;
      first [ congruence
            | apply andb_true_iff in P; congruence
            | apply Z.ltb_lt in P; congruence ] ].
Ltac step_by unf :=
  intros s o Ho; destruct o; cbn in Ho |- *; unf;
  repeat match goal with
  | |- context [if ?b then _ else _] => let E := fresh "E" in destruct b eqn:E
  end; cbn; finish_step.

Definition step_ok {S O V} (stp : S -> O -> S) (get : S -> V) (acc : O -> V -> Prop) (ok : O -> Prop) : Prop :=
  forall s o, ok o -> (exists v, acc o v /\ get (stp s o) = v) \/
                      ((forall w, ~ acc o w) /\ get (stp s o) = get s).
Ltac unf_c := unfold setINFINIT, setEPS, setEPS_COEFF, setMAX_SUPPORT.
Lemma c_inf_step : step_ok cdo INFINIT acc_inf cop_ok.
Proof. step_by unf_c. Qed.
Lemma c_eps_step : step_ok cdo EPS acc_eps cop_ok.
Proof. step_by unf_c. Qed.
Lemma c_coef_step : step_ok cdo EPS_COEFF acc_coef cop_ok.
Proof. step_by unf_c. Qed.
Lemma c_supp_step : step_ok cdo MAX_SUPPORT acc_supp cop_ok.
Proof. step_by unf_c. Qed.

(** For every history of setter calls with arbitrary doubles (including NaN
    and infinities) and ints, each getter returns the last acceptable value
    passed to its own setter, and the documented ranges hold. *)
Theorem C05_param_setters :
  forall h : list cop, (forall o, In o h -> cop_ok o) ->
    let p := fold_left cdo h cparam_default in
    holds_last acc_inf (INFINIT cparam_default) h (INFINIT p) /\
    holds_last acc_eps (EPS cparam_default) h (EPS p) /\
    holds_last acc_coef (EPS_COEFF cparam_default) h (EPS_COEFF p) /\
    holds_last acc_supp (MAX_SUPPORT cparam_default) h (MAX_SUPPORT p) /\
    d_pos (INFINIT p) /\ d_nonneg (EPS p) /\ d_nonneg (EPS_COEFF p) /\ 0 < MAX_SUPPORT p.
Proof.
  intros h Hok p.
  pose proof (holds_last_run cdo INFINIT acc_inf cop_ok c_inf_step h cparam_default Hok) as A.
  pose proof (holds_last_run cdo EPS acc_eps cop_ok c_eps_step h cparam_default Hok) as B.
  pose proof (holds_last_run cdo EPS_COEFF acc_coef cop_ok c_coef_step h cparam_default Hok) as C.
  pose proof (holds_last_run cdo MAX_SUPPORT acc_supp cop_ok c_supp_step h cparam_default Hok) as D.
  conjs; auto.
  - apply (holds_last_inv _ d_pos _ _ _ A); [vm_compute; reflexivity|intros o w [_ H]; exact H].
  - apply (holds_last_inv _ d_nonneg _ _ _ B); [vm_compute; discriminate|intros o w [_ H]; exact H].
  - apply (holds_last_inv _ d_nonneg _ _ _ C); [vm_compute; discriminate|intros o w [_ H]; exact H].
  - apply (holds_last_inv _ (fun n => 0 < n) _ _ _ D); [vm_compute; reflexivity|intros o w [_ H]; exact H].
Qed.
Print Assumptions C05_param_setters.
Example C05_example :
  let p := fold_left cdo [CInf S754_nan; CEps (dlit 1 4); CEps (dneg (dint 1)); CSupp 7; CSupp 0;
                          CInf (S754_infinity false)] cparam_default in
  INFINIT p = S754_infinity false /\ EPS p = dlit 1 4 /\ MAX_SUPPORT p = 7.
Proof. vm_compute. auto. Qed.

(** The constructor does not check its arguments. *)
Theorem C05_constructor_unchecked_refuted :
  exists inf eps eps_c n, is_double eps /\ ~ d_nonneg (EPS (cparam_ctor inf eps eps_c n)).
Proof. exists DBL_MAX, (dneg (dint 1)), (dint 0), 1. split; [reflexivity|]. vm_compute. auto. Qed.
Print Assumptions C05_constructor_unchecked_refuted.

(** ** C32: CglGMIParam *)
Inductive gop :=
  | GBase (o : cop) | GAway (v : double) | GElim (v : double) | GAbs (v : double) | GRel (v : double)
  | GDyn (v : double) | GViol (v : double) | GSupp (v : double)
  | GClean (n : nat) | GSlacks (b : bool) | GDupl (b : bool) | GCont (b : bool) | GEnf (b : bool).
Definition gdo (p : gparam) (o : gop) : gparam :=
  match o with
  | GBase o => g_set_base p (cdo (g_base p) o)
  | GAway v => g_setAway p v | GElim v => g_setEPS_ELIM p v | GAbs v => g_setRELAX_ABS p v
  | GRel v => g_setRELAX_REL p v | GDyn v => g_setMAXDYN p v | GViol v => g_setMINVIOL p v
  | GSupp v => g_setSUPP_REL p v
  | GClean n => g_setCLEAN p n | GSlacks b => g_setINTSLACKS p b | GDupl b => g_setDUPL p b
  | GCont b => g_setSCALE_CONT p b | GEnf b => g_setENFORCE p b
  end.
Definition gop_ok (o : gop) : Prop :=
  match o with
  | GBase o => cop_ok o
  | GAway v | GElim v | GAbs v | GRel v | GDyn v | GViol v | GSupp v => is_double v
  | _ => True
  end.
Ltac unf_g := unfold g_setAway, g_setEPS_ELIM, g_setRELAX_ABS, g_setRELAX_REL, g_setMAXDYN, g_setMINVIOL, g_setSUPP_REL.
Definition acc_gAway o v := o = GAway v /\ (d_pos v /\ d_upto (1#2) v).
Definition acc_gElim o v := o = GElim v /\ d_nonneg v.
Definition acc_gAbs o v := o = GAbs v /\ d_nonneg v.
Definition acc_gRel o v := o = GRel v /\ d_nonneg v.
Definition acc_gDyn o v := o = GDyn v /\ d_from 1 v.
Definition acc_gViol o v := o = GViol v /\ d_nonneg v.
Definition acc_gSupp o v := o = GSupp v /\ (d_nonneg v /\ d_upto 1 v).
Definition acc_gClean o n := o = GClean n /\ True.
Definition acc_gSlacks o b := o = GSlacks b /\ True.
Definition acc_gDupl o b := o = GDupl b /\ True.
Definition acc_gCont o b := o = GCont b /\ True.
Definition acc_gEnf o b := o = GEnf b /\ True.
Definition acc_gEps o v := o = GBase (CEps v) /\ d_nonneg v.
Lemma g_away_step : step_ok gdo g_AWAY acc_gAway gop_ok. Proof. step_by unf_g. Qed.
Lemma g_elim_step : step_ok gdo g_EPS_ELIM acc_gElim gop_ok. Proof. step_by unf_g. Qed.
Lemma g_abs_step : step_ok gdo g_RELAX_ABS acc_gAbs gop_ok. Proof. step_by unf_g. Qed.
Lemma g_rel_step : step_ok gdo g_RELAX_REL acc_gRel gop_ok. Proof. step_by unf_g. Qed.
Lemma g_dyn_step : step_ok gdo g_MAXDYN acc_gDyn gop_ok. Proof. step_by unf_g. Qed.
Lemma g_viol_step : step_ok gdo g_MINVIOL acc_gViol gop_ok. Proof. step_by unf_g. Qed.
Lemma g_supp_step : step_ok gdo g_SUPP_REL acc_gSupp gop_ok. Proof. step_by unf_g. Qed.
Lemma g_clean_step : step_ok gdo g_CLEAN acc_gClean gop_ok. Proof. step_by unf_g. Qed.
Lemma g_slacks_step : step_ok gdo g_INTSLACKS acc_gSlacks gop_ok. Proof. step_by unf_g. Qed.
Lemma g_dupl_step : step_ok gdo g_DUPL acc_gDupl gop_ok. Proof. step_by unf_g. Qed.
Lemma g_cont_step : step_ok gdo g_SCALE_CONT acc_gCont gop_ok. Proof. step_by unf_g. Qed.
Lemma g_enf_step : step_ok gdo g_ENFORCE acc_gEnf gop_ok. Proof. step_by unf_g. Qed.

(** Same claim for the Gomory parameter object, all of its setters and those
    inherited. *)
Theorem C32_gmi_param_setters :
  forall h : list gop, (forall o, In o h -> gop_ok o) ->
    let p := fold_left gdo h gparam_default in let p0 := gparam_default in
    holds_last acc_gAway (g_AWAY p0) h (g_AWAY p) /\
    holds_last acc_gElim (g_EPS_ELIM p0) h (g_EPS_ELIM p) /\
    holds_last acc_gAbs (g_RELAX_ABS p0) h (g_RELAX_ABS p) /\
    holds_last acc_gRel (g_RELAX_REL p0) h (g_RELAX_REL p) /\
    holds_last acc_gDyn (g_MAXDYN p0) h (g_MAXDYN p) /\
    holds_last acc_gViol (g_MINVIOL p0) h (g_MINVIOL p) /\
    holds_last acc_gSupp (g_SUPP_REL p0) h (g_SUPP_REL p) /\
    holds_last acc_gClean (g_CLEAN p0) h (g_CLEAN p) /\
    holds_last acc_gSlacks (g_INTSLACKS p0) h (g_INTSLACKS p) /\
    holds_last acc_gDupl (g_DUPL p0) h (g_DUPL p) /\
    holds_last acc_gCont (g_SCALE_CONT p0) h (g_SCALE_CONT p) /\
    holds_last acc_gEnf (g_ENFORCE p0) h (g_ENFORCE p) /\
    d_pos (g_AWAY p) /\ d_upto (1#2) (g_AWAY p) /\ d_from 1 (g_MAXDYN p) /\ d_nonneg (g_MINVIOL p) /\
    d_nonneg (g_SUPP_REL p) /\ d_upto 1 (g_SUPP_REL p).
Proof.
  intros h Hok p p0.
  pose proof (holds_last_run gdo _ _ _ g_away_step h p0 Hok) as A.
  pose proof (holds_last_run gdo _ _ _ g_dyn_step h p0 Hok) as B.
  pose proof (holds_last_run gdo _ _ _ g_viol_step h p0 Hok) as C.
  pose proof (holds_last_run gdo _ _ _ g_supp_step h p0 Hok) as D.
  conjs;
  first [ exact A | exact B | exact C | exact D
        | apply (holds_last_run gdo _ _ _ g_elim_step h p0 Hok) | apply (holds_last_run gdo _ _ _ g_abs_step h p0 Hok)
        | apply (holds_last_run gdo _ _ _ g_rel_step h p0 Hok) | apply (holds_last_run gdo _ _ _ g_clean_step h p0 Hok)
        | apply (holds_last_run gdo _ _ _ g_slacks_step h p0 Hok) | apply (holds_last_run gdo _ _ _ g_dupl_step h p0 Hok)
        | apply (holds_last_run gdo _ _ _ g_cont_step h p0 Hok) | apply (holds_last_run gdo _ _ _ g_enf_step h p0 Hok)
        | idtac ].
  - apply (holds_last_inv _ d_pos _ _ _ A); [vm_compute; reflexivity|intros o w [_ H]; apply H].
  - apply (holds_last_inv _ (d_upto (1#2)) _ _ _ A); [vm_compute; discriminate|intros o w [_ H]; apply H].
  - apply (holds_last_inv _ (d_from 1) _ _ _ B); [vm_compute; discriminate|intros o w [_ H]; apply H].
  - apply (holds_last_inv _ d_nonneg _ _ _ C); [vm_compute; discriminate|intros o w [_ H]; apply H].
  - apply (holds_last_inv _ d_nonneg _ _ _ D); [vm_compute; discriminate|intros o w [_ H]; apply H].
  - apply (holds_last_inv _ (d_upto 1) _ _ _ D); [vm_compute; discriminate|intros o w [_ H]; apply H].
Qed.
Print Assumptions C32_gmi_param_setters.
Example C32_example :
  let p := fold_left gdo [GAway (dlit 1 4); GAway (dint 1); GDyn (dint 5); GDyn S754_nan; GClean 3] gparam_default in
  g_AWAY p = dlit 1 4 /\ g_MAXDYN p = dint 5 /\ g_CLEAN p = 3%nat.
Proof. vm_compute. auto. Qed.

(** ** C33: CglRedSplitParam *)
Inductive rop :=
  | RBase (o : cop) | RLub (v : double) | RElim (v : double) | RAbs (v : double) | RRel (v : double)
  | RDyn (v : double) | RDynLub (v : double) | RCoef (v : double) | RViol (v : double)
  | RSlacks (n : Z) | RCg2 (n : Z) | RNorm0 (v : double) | RReduc (v : double) | RAway (v : double) | RMaxTab (v : double).
Definition rdo (p : rparam) (o : rop) : rparam :=
  match o with
  | RBase o => r_set_base p (cdo (r_base p) o)
  | RLub v => r_setLUB p v | RElim v => r_setEPS_ELIM p v | RAbs v => r_setRELAX_ABS p v | RRel v => r_setRELAX_REL p v
  | RDyn v => r_setMAXDYN p v | RDynLub v => r_setMAXDYN_LUB p v | RCoef v => r_setCOEFF_LUB p v
  | RViol v => r_setMINVIOL p v | RSlacks n => r_setINTSLACKS p n | RCg2 n => r_setCG2 p n
  | RNorm0 v => r_setNorm0 p v | RReduc v => r_setMinReduc p v | RAway v => r_setAway p v | RMaxTab v => r_setMaxTab p v
  end.
Definition rop_ok (o : rop) : Prop :=
  match o with
  | RBase o => cop_ok o
  | RLub v | RElim v | RAbs v | RRel v | RDyn v | RDynLub v | RCoef v | RViol v | RNorm0 v | RReduc v
  | RAway v | RMaxTab v => is_double v
  | _ => True
  end.
Ltac unf_r := unfold r_setLUB, r_setEPS_ELIM, r_setRELAX_ABS, r_setRELAX_REL, r_setMAXDYN, r_setMAXDYN_LUB,
  r_setCOEFF_LUB, r_setMINVIOL, r_setNorm0, r_setMinReduc, r_setAway, r_setMaxTab.
Definition acc_rLub o v := o = RLub v /\ d_pos v.
Definition acc_rElim o v := o = RElim v /\ d_nonneg v.
Definition acc_rAbs o v := o = RAbs v /\ d_nonneg v.
Definition acc_rRel o v := o = RRel v /\ d_nonneg v.
Definition acc_rDyn o v := o = RDyn v /\ d_above 1 v.
Definition acc_rDynLub o v := o = RDynLub v /\ d_above 1 v.
Definition acc_rCoef o v := o = RCoef v /\ (d_pos v /\ d_upto tenth v).
Definition acc_rViol o v := o = RViol v /\ (d_pos v /\ d_upto tenth v).
Definition acc_rSlacks o n := o = RSlacks n /\ True.
Definition acc_rCg2 o n := o = RCg2 n /\ True.
Definition acc_rNorm0 o v := o = RNorm0 v /\ (d_pos v /\ d_upto 1 v).
Definition acc_rReduc o v := o = RReduc v /\ (d_pos v /\ d_upto 1 v).
Definition acc_rAway o v := o = RAway v /\ (d_pos v /\ d_upto (1#2) v).
Definition acc_rMaxTab o v := o = RMaxTab v /\ d_above 10 v.
Lemma r_lub_step : step_ok rdo r_LUB acc_rLub rop_ok. Proof. step_by unf_r. Qed.
Lemma r_elim_step : step_ok rdo r_EPS_ELIM acc_rElim rop_ok. Proof. step_by unf_r. Qed.
Lemma r_abs_step : step_ok rdo r_RELAX_ABS acc_rAbs rop_ok. Proof. step_by unf_r. Qed.
Lemma r_rel_step : step_ok rdo r_RELAX_REL acc_rRel rop_ok. Proof. step_by unf_r. Qed.
Lemma r_dynlub_step : step_ok rdo r_getMAXDYN_LUB acc_rDynLub rop_ok. Proof. unfold r_getMAXDYN_LUB. step_by unf_r. Qed.
Lemma r_dyn_step : step_ok rdo r_MAXDYN acc_rDyn rop_ok. Proof. step_by unf_r. Qed.
Lemma r_coef_step : step_ok rdo r_COEFF_LUB acc_rCoef rop_ok. Proof. step_by unf_r. Qed.
Lemma r_viol_step : step_ok rdo r_MINVIOL acc_rViol rop_ok. Proof. step_by unf_r. Qed.
Lemma r_slacks_step : step_ok rdo r_INTSLACKS acc_rSlacks rop_ok. Proof. step_by unf_r. Qed.
Lemma r_cg2_step : step_ok rdo r_CG2 acc_rCg2 rop_ok. Proof. step_by unf_r. Qed.
Lemma r_norm0_step : step_ok rdo r_norm0 acc_rNorm0 rop_ok. Proof. step_by unf_r. Qed.
Lemma r_reduc_step : step_ok rdo r_reduc acc_rReduc rop_ok. Proof. step_by unf_r. Qed.
Lemma r_away_step : step_ok rdo r_away acc_rAway rop_ok. Proof. step_by unf_r. Qed.
Lemma r_maxtab_step : step_ok rdo r_maxTab acc_rMaxTab rop_ok. Proof. step_by unf_r. Qed.

(** All getters except getMAXDYN. *)
Theorem C33_redsplit_param_setters_partial :
  forall h : list rop, (forall o, In o h -> rop_ok o) ->
    let p := fold_left rdo h rparam_default in let p0 := rparam_default in
    holds_last acc_rLub (r_LUB p0) h (r_LUB p) /\
    holds_last acc_rElim (r_EPS_ELIM p0) h (r_EPS_ELIM p) /\
    holds_last acc_rAbs (r_RELAX_ABS p0) h (r_RELAX_ABS p) /\
    holds_last acc_rRel (r_RELAX_REL p0) h (r_RELAX_REL p) /\
    holds_last acc_rDynLub (r_getMAXDYN_LUB p0) h (r_getMAXDYN_LUB p) /\
    holds_last acc_rCoef (r_COEFF_LUB p0) h (r_COEFF_LUB p) /\
    holds_last acc_rViol (r_MINVIOL p0) h (r_MINVIOL p) /\
    holds_last acc_rSlacks (r_INTSLACKS p0) h (r_INTSLACKS p) /\
    holds_last acc_rCg2 (r_CG2 p0) h (r_CG2 p) /\
    holds_last acc_rNorm0 (r_norm0 p0) h (r_norm0 p) /\
    holds_last acc_rReduc (r_reduc p0) h (r_reduc p) /\
    holds_last acc_rAway (r_away p0) h (r_away p) /\
    holds_last acc_rMaxTab (r_maxTab p0) h (r_maxTab p) /\
    (* the stored MAXDYN itself *)
    holds_last acc_rDyn (r_MAXDYN p0) h (r_MAXDYN p).
Proof.
  intros h Hok p p0. conjs.
  - apply (holds_last_run rdo _ _ _ r_lub_step h p0 Hok).
  - apply (holds_last_run rdo _ _ _ r_elim_step h p0 Hok).
  - apply (holds_last_run rdo _ _ _ r_abs_step h p0 Hok).
  - apply (holds_last_run rdo _ _ _ r_rel_step h p0 Hok).
  - apply (holds_last_run rdo _ _ _ r_dynlub_step h p0 Hok).
  - apply (holds_last_run rdo _ _ _ r_coef_step h p0 Hok).
  - apply (holds_last_run rdo _ _ _ r_viol_step h p0 Hok).
  - apply (holds_last_run rdo _ _ _ r_slacks_step h p0 Hok).
  - apply (holds_last_run rdo _ _ _ r_cg2_step h p0 Hok).
  - apply (holds_last_run rdo _ _ _ r_norm0_step h p0 Hok).
  - apply (holds_last_run rdo _ _ _ r_reduc_step h p0 Hok).
  - apply (holds_last_run rdo _ _ _ r_away_step h p0 Hok).
  - apply (holds_last_run rdo _ _ _ r_maxtab_step h p0 Hok).
  - apply (holds_last_run rdo _ _ _ r_dyn_step h p0 Hok).
Qed.
Print Assumptions C33_redsplit_param_setters_partial.
Example C33_example :
  let p := fold_left rdo [RAway (dlit 1 4); RMaxTab (dint 5); RMaxTab (dint 11); RCg2 1] rparam_default in
  r_away p = dlit 1 4 /\ r_maxTab p = dint 11 /\ r_CG2 p = 1.
Proof. vm_compute. auto. Qed.
(** getMAXDYN returns the value of the other parameter. *)
Theorem C33_getMAXDYN_refuted :
  exists v, is_double v /\ d_above 1 v /\ r_getMAXDYN (rdo rparam_default (RDyn v)) <> v /\
    r_MAXDYN (rdo rparam_default (RDyn v)) = v.
Proof. exists (dint 2). split; [reflexivity|]. split; [vm_compute; reflexivity|]. split; [vm_compute; discriminate|vm_compute; reflexivity]. Qed.
Print Assumptions C33_getMAXDYN_refuted.

(** ** C34: CglRedSplit2Param *)
Inductive qop :=
  | QBase (o : cop) | QD (i : q_id) (v : double) | QI (i : q_iid) (n : Z)
  | QNumRows (n : Z) | QNumRowsLAP (n : Z) | QCol (n : nat) | QRow (n : nat) | QColLAP (n : nat) | QRowLAP (n : nat)
  | QResetNumRows | QResetCol | QResetRow | QResetNumRowsLAP | QResetColLAP | QResetRowLAP.
(** The reset functions, CglRedSplit2Param.hpp lines 251-292. *)
Definition qdo (p : r2param) (o : qop) : r2param :=
  match o with
  | QBase o => R2Param (cdo (q_base p) o) (q_EPS_ELIM p) (q_RELAX_ABS p) (q_RELAX_REL p) (q_MAXDYN p) (q_MINVIOL p)
    (q_SUPP_REL p) (q_INTSLACKS p) (q_norm0 p) (q_minNorm p) (q_maxSum p) (q_normaliz p) (q_away p)
    (q_scaleBound p) (q_time p) (q_maxCuts p) (q_maxComp p) (q_maxNz p) (q_skip p)
    (q_numRows p) (q_numRowsLAP p) (q_col p) (q_row p) (q_colLAP p) (q_rowLAP p)
  | QD i v => q_setd p i v | QI i n => q_seti p i n
  | QNumRows n => q_addNumRows p n | QNumRowsLAP n => q_addNumRowsLAP p n
  | QCol n => q_addCol p n | QRow n => q_addRow p n | QColLAP n => q_addColLAP p n | QRowLAP n => q_addRowLAP p n
  | QResetNumRows => q_lists p [] (q_numRowsLAP p) (q_col p) (q_row p) (q_colLAP p) (q_rowLAP p)
  | QResetNumRowsLAP => q_lists p (q_numRows p) [] (q_col p) (q_row p) (q_colLAP p) (q_rowLAP p)
  | QResetCol => q_lists p (q_numRows p) (q_numRowsLAP p) [] (q_row p) (q_colLAP p) (q_rowLAP p)
  | QResetRow => q_lists p (q_numRows p) (q_numRowsLAP p) (q_col p) [] (q_colLAP p) (q_rowLAP p)
  | QResetColLAP => q_lists p (q_numRows p) (q_numRowsLAP p) (q_col p) (q_row p) [] (q_rowLAP p)
  | QResetRowLAP => q_lists p (q_numRows p) (q_numRowsLAP p) (q_col p) (q_row p) (q_colLAP p) []
  end.
Definition qop_ok (o : qop) : Prop :=
  match o with QBase o => cop_ok o | QD _ v => is_double v | _ => True end.
(** Documented ranges. *)
Definition q_range (i : q_id) (v : double) : Prop :=
  match i with
  | QAway => d_pos v /\ d_upto (1#2) v
  | QElim | QAbs | QRel | QNormaliz | QScale => d_nonneg v
  | QMaxDyn => d_above 1 v
  | QMinViol | QSuppRel => d_pos v /\ d_upto tenth v
  | QNorm0 | QMinNorm => d_pos v /\ d_upto 1 v
  | QTime => True
  end.
(** What a call stores: the time limit is clipped at zero (NaN gives zero). *)
Definition q_stored (i : q_id) (a v : double) : Prop :=
  match i with
  | QTime => (d_nonneg a /\ v = a) \/ (~ d_nonneg a /\ v = dint 0)
  | _ => v = a
  end.
Definition acc_qd (i : q_id) (o : qop) (v : double) : Prop :=
  exists a, o = QD i a /\ q_range i a /\ q_stored i a v.
Definition acc_qi (i : q_iid) (o : qop) (n : Z) : Prop :=
  o = QI i n /\ match i with
                | QIntSlacks => True
                | QMaxSum => 1 < n
                | QMaxCuts | QMaxComp | QMaxNz => 0 <= n
                | QSkip => 0 <= n <= 1
                end.
Definition q_id_eq (i j : q_id) : {i = j} + {i <> j}.
Proof. decide equality. Defined.

Lemma qd_step (i : q_id) : i <> QSuppRel -> i <> QMinViol ->
  step_ok qdo (fun p => q_getd p i) (acc_qd i) qop_ok.
Proof.
  intros N1 N2 s o Ho. destruct o as [c|j v|j n|n|n|n|n|n|n| | | | | | ];
    try (right; split; [intros w (a & W & _); discriminate W|];
         destruct i; cbn [qdo q_seti q_addNumRows q_addNumRowsLAP q_addCol q_addRow q_addColLAP q_addRowLAP];
         unfold q_addNumRows, q_addNumRowsLAP, q_addCol, q_addRow, q_addColLAP, q_addRowLAP;
         try destruct j; cbn [q_seti];
         repeat match goal with |- context [if ?b then _ else _] => destruct b end; reflexivity).
  cbn in Ho. destruct (q_id_eq j i) as [->|Nij].
  - destruct i; try congruence; cbn [qdo q_setd];
    match goal with |- context [if ?b then _ else _] => destruct b eqn:E end;
    try (left; eexists; split; [exists v; split; [reflexivity|]; split|reflexivity]; cbn [q_range q_stored];
         tobool; first [assumption | reflexivity | apply andb_true_iff; assumption | exact I | left; split; [assumption|reflexivity]]);
    try (right; split; [|reflexivity]; intros w (a & W & P & _); injection W as <-; cbn [q_range] in P; tobool;
         first [congruence | apply andb_true_iff in P; congruence]).
    left. eexists. split; [exists v; split; [reflexivity|]; split; [exact I|]|reflexivity].
    right. split; [|reflexivity]. rewrite <- ge0 by assumption. congruence.
  - right. split; [intros w (a & W & _); injection W; congruence|].
    destruct j, i; try congruence; cbn [qdo q_setd];
    match goal with |- context [if ?b then _ else _] => destruct b end; reflexivity.
Qed.
Lemma qi_step (i : q_iid) : step_ok qdo (fun p => q_geti p i) (acc_qi i) qop_ok.
Proof.
  intros s o Ho. destruct o as [c|j v|j n|n|n|n|n|n|n| | | | | | ];
    try (right; split; [intros w (W & _); discriminate W|];
         destruct i; cbn [qdo q_setd q_addNumRows q_addNumRowsLAP q_addCol q_addRow q_addColLAP q_addRowLAP];
         unfold q_addNumRows, q_addNumRowsLAP, q_addCol, q_addRow, q_addColLAP, q_addRowLAP;
         try destruct j; cbn [q_setd];
         repeat match goal with |- context [if ?b then _ else _] => destruct b end; reflexivity).
  assert (D : j = i \/ j <> i) by (destruct i, j; auto; right; discriminate).
  destruct D as [->|Nij].
  - destruct i; cbn [qdo q_seti];
    try (match goal with |- context [if ?b then _ else _] => destruct b eqn:E end);
    try (left; exists n; split; [split; [reflexivity|]|reflexivity];
         first [exact I | apply Z.ltb_lt; assumption | apply Z.leb_le; assumption
               | apply andb_true_iff in E as [E1 E2]; apply Z.leb_le in E1; apply Z.leb_le in E2; split; assumption ]);
    (right; split; [|reflexivity]; intros w [W P]; injection W as <-;
     try (apply andb_false_iff in E as [E|E]); try apply Z.ltb_ge in E; try apply Z.leb_gt in E; lia).
  - right. split; [intros w (W & _); injection W; congruence|].
    destruct j, i; try congruence; cbn [qdo q_seti];
    try (match goal with |- context [if ?b then _ else _] => destruct b end); reflexivity.
Qed.

Theorem C34_redsplit2_param_setters_partial :
  forall h : list qop, (forall o, In o h -> qop_ok o) ->
    let p := fold_left qdo h r2param_default in let p0 := r2param_default in
    (forall i, i <> QSuppRel -> i <> QMinViol -> holds_last (acc_qd i) (q_getd p0 i) h (q_getd p i)) /\
    (forall i, holds_last (acc_qi i) (q_geti p0 i) h (q_geti p i)).
Proof.
  intros h Hok p p0. split.
  - intros i N1 N2. apply (holds_last_run qdo _ _ _ (qd_step i N1 N2) h p0 Hok).
  - intros i. apply (holds_last_run qdo _ _ _ (qi_step i) h p0 Hok).
Qed.
Print Assumptions C34_redsplit2_param_setters_partial.
Example C34_example :
  let p := fold_left qdo [QD QAway (dlit 1 4); QD QTime (dneg (dint 3)); QI QSkip 2; QI QMaxCuts 9] r2param_default in
  q_getd p QAway = dlit 1 4 /\ q_getd p QTime = dint 0 /\ q_geti p QSkip = 1 /\ q_geti p QMaxCuts = 9.
Proof. vm_compute. auto. Qed.

(** setMAX_SUPP_REL never changes the relative support limit, whatever the
    history, and overwrites the minimum violation instead. *)
Theorem C34_setMAX_SUPP_REL_has_no_effect_refuted :
  (forall h, q_getd (fold_left qdo h r2param_default) QSuppRel = q_getd r2param_default QSuppRel) /\
  exists v, is_double v /\ q_range QSuppRel v /\
    q_getd (qdo r2param_default (QD QSuppRel v)) QSuppRel <> v /\
    q_getd (qdo r2param_default (QD QSuppRel v)) QMinViol = v /\
    q_getd r2param_default QMinViol <> v.
Proof.
  split.
  - intro h. induction h as [|o h IH] using rev_ind; [reflexivity|].
    rewrite fold_left_app. cbn [fold_left]. rewrite <- IH. generalize (fold_left qdo h r2param_default). intro s.
    destruct o as [c|j v|j n|n|n|n|n|n|n| | | | | | ]; try reflexivity; try (destruct j);
    cbn [qdo q_setd q_seti]; unfold q_addNumRows, q_addNumRowsLAP, q_addCol, q_addRow, q_addColLAP, q_addRowLAP;
    repeat match goal with |- context [if ?b then _ else _] => destruct b end; reflexivity.
  - exists (dlit 1 16). conjs; try (vm_compute; reflexivity); try (vm_compute; discriminate).
    split; vm_compute; [reflexivity|discriminate].
Qed.
Print Assumptions C34_setMAX_SUPP_REL_has_no_effect_refuted.

(** Reading the strategies: nothing but real strategies ever gets into the
    lists (no CS_ALL, CS_BEST, RS_ALL, RS_BEST), for enumeration values in
    range; the row counts are never negative. *)
Theorem C34_strategy_lists_hold_strategies :
  forall h : list qop,
    (forall n, In (QCol n) h \/ In (QColLAP n) h -> (n <= 24)%nat) ->
    (forall n, In (QRow n) h \/ In (QRowLAP n) h -> (n <= 9)%nat) ->
    let p := fold_left qdo h r2param_default in
    (forall k, In k (q_numRows p ++ q_numRowsLAP p) -> 0 <= k) /\
    (forall k, In k (q_col p) -> (k <= 20 \/ k = 23)%nat) /\
    (forall k, In k (q_colLAP p) -> (k <= 20 \/ k = 23 \/ k = 24)%nat) /\
    (forall k, In k (q_row p ++ q_rowLAP p) -> (k <= 7)%nat).
Proof.
  intros h Hc Hr p. subst p. revert Hc Hr. induction h as [|o h IH] using rev_ind; intros Hc Hr.
  - conjs; intros k H; vm_compute in H; repeat (destruct H as [<-|H]; [lia|]); contradiction.
  - assert (Hc' : forall n, In (QCol n) h \/ In (QColLAP n) h -> (n <= 24)%nat)
      by (intros n [H|H]; apply Hc; [left|right]; apply in_or_app; auto).
    assert (Hr' : forall n, In (QRow n) h \/ In (QRowLAP n) h -> (n <= 9)%nat)
      by (intros n [H|H]; apply Hr; [left|right]; apply in_or_app; auto).
    assert (Hlast : In o (h ++ [o])) by (apply in_or_app; right; left; reflexivity).
    specialize (IH Hc' Hr'). rewrite fold_left_app. cbn [fold_left].
    generalize dependent (fold_left qdo h r2param_default). intros s (I1 & I2 & I3 & I4).
    destruct o as [c|j v|j n|n|n|n|n|n|n| | | | | | ]; cbn [qdo].
    + cbn. auto.
    + destruct j; cbn [q_setd]; repeat match goal with |- context [if ?b then _ else _] => destruct b end; cbn; auto.
    + destruct j; cbn [q_seti]; repeat match goal with |- context [if ?b then _ else _] => destruct b end; cbn; auto.
    + unfold q_addNumRows. destruct (Z.leb_spec 0 n); [|auto]. cbn. split; [|auto].
      intros k Hk. rewrite <- app_assoc in Hk. apply in_app_or in Hk as [Hk|[<-|Hk]]; [apply I1, in_or_app; auto|lia|apply I1, in_or_app; auto].
    + unfold q_addNumRowsLAP. destruct (Z.leb_spec 0 n); [|auto]. cbn. split; [|auto].
      intros k Hk. rewrite app_assoc in Hk. apply in_app_or in Hk as [Hk|[<-|[]]]; [apply I1; exact Hk|lia].
    + assert (n <= 24)%nat by (apply Hc; auto). unfold q_addCol, CS_ALL, CS_BEST, CS_LAP_NONBASICS.
      destruct (Nat.eqb_spec n 21), (Nat.eqb_spec n 22), (Nat.eqb_spec n 24); cbn [negb andb]; try lia;
      cbn [q_lists q_numRows q_numRowsLAP q_col q_colLAP q_row q_rowLAP]; conjs; auto; intros k Hk;
      apply in_app_or in Hk as [Hk|Hk]; auto.
      * left. apply in_seq in Hk. lia.
      * left. vm_compute in Hk. repeat (destruct Hk as [<-|Hk]; [lia|]). contradiction.
      * destruct Hk as [<-|[]]. lia.
    + assert (n <= 9)%nat by (apply Hr; auto). unfold q_addRow, RS_ALL, RS_BEST.
      destruct (Nat.eqb_spec n 8), (Nat.eqb_spec n 9); cbn [negb andb]; try lia;
      cbn [q_lists q_numRows q_numRowsLAP q_col q_colLAP q_row q_rowLAP]; conjs; auto; intros k Hk;
      rewrite <- app_assoc in Hk; apply in_app_or in Hk as [Hk|Hk]; try (apply I4, in_or_app; auto; fail);
      apply in_app_or in Hk as [Hk|Hk]; try (apply I4, in_or_app; auto; fail).
      * apply in_seq in Hk. lia.
      * destruct Hk as [<-|[<-|[]]]; lia.
      * destruct Hk as [<-|[]]. lia.
    + assert (n <= 24)%nat by (apply Hc; auto). unfold q_addColLAP, CS_ALL, CS_BEST.
      destruct (Nat.eqb_spec n 21), (Nat.eqb_spec n 22); cbn [negb andb]; try lia; auto;
      cbn [q_lists q_numRows q_numRowsLAP q_col q_colLAP q_row q_rowLAP]; conjs; auto; intros k Hk;
      apply in_app_or in Hk as [Hk|[<-|[]]]; auto; lia.
    + assert (n <= 9)%nat by (apply Hr; auto). unfold q_addRowLAP, RS_ALL, RS_BEST.
      destruct (Nat.eqb_spec n 8), (Nat.eqb_spec n 9); cbn [negb andb]; try lia; auto;
      cbn [q_lists q_numRows q_numRowsLAP q_col q_colLAP q_row q_rowLAP]; conjs; auto; intros k Hk;
      rewrite app_assoc in Hk; apply in_app_or in Hk as [Hk|[<-|[]]]; auto; lia.
    + cbn. conjs; auto. intros k Hk. apply I1, in_or_app. auto.
    + cbn. conjs; auto. intros k [].
    + cbn. conjs; auto. intros k Hk. apply I4, in_or_app. auto.
    + cbn. conjs; auto. intros k Hk. rewrite app_nil_r in Hk. apply I1, in_or_app. auto.
    + cbn. conjs; auto. intros k [].
    + cbn. conjs; auto. intros k Hk. rewrite app_nil_r in Hk. apply I4, in_or_app. auto.
Qed.
Print Assumptions C34_strategy_lists_hold_strategies.
