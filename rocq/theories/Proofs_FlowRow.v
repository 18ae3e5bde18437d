(** * Variable bounds, items and rows of the flow cover model *)

From Verif Require Import Base Model_FlowCover Proofs_FlowCover Proofs_FlowCut Proofs_FlowBack.
From Coq Require Import Lia Lqa Qabs.
Local Open Scope Q_scope.

Definition rows_ok (m : mip) (p : point) : Prop := forall r, In r (m_rows m) -> row_sat r p.

(** ** The type of a row *)
Definition negc (s : sense) (c : Q) : bool :=
  match s with SenseG => - c <? - fEPS | _ => c <? - fEPS end.

Lemma type_len m v s rhs :
  match determineOneRowType m v s rhs with FVarUB | FVarLB | FVarEQ => length v = 2%nat | _ => True end.
Proof.
  unfold determineOneRowType. destruct v as [|e v]; [exact Logic.I|].
  set (w := e :: v).
  assert (L : forall u, (u = w \/ u = negv w) -> length u = length w).
  { intros u [->| ->]; [reflexivity|apply map_length]. }
  destruct s; cbv zeta.
  all: try exact Logic.I.
  all: match goal with |- context [Nat.eqb (length ?u) 2] => destruct (Nat.eqb (length u) 2) eqn:E2 end.
  all: repeat match goal with
       | |- context [if ?b then _ else _] => destruct b
       end; try exact Logic.I.
  all: apply Nat.eqb_eq in E2; rewrite <- E2; symmetry; apply L; auto.
Qed.

Lemma type_two m i0 c0 i1 c1 s rhs :
  let b0 := is_bin m i0 in
  let xc := if b0 then c0 else c1 in
  let yc := if b0 then c1 else c0 in
  let common := xorb b0 (is_bin m i1) = true /\ Qabs rhs <= fEPS /\ s <> SenseR in
  match determineOneRowType m [(i0, c0); (i1, c1)] s rhs with
  | FVarUB => common /\ (s = SenseL \/ s = SenseG) /\ negc s xc = true /\ negc s yc = false
  | FVarLB => common /\ (s = SenseL \/ s = SenseG) /\ negc s xc = false /\ negc s yc = true
  | FVarEQ => common /\ (s = SenseE \/ s = SenseN)
  | _ => True
  end.
Proof.
  cbv zeta.
  assert (R : forall q, (q <? - fEPS) = false -> (fEPS <? q) = false -> Qabs q <= fEPS).
  { intros q H1 H2. qb. apply Qabs_le_iff. split; assumption. }
  assert (R' : (- rhs <? - fEPS) = false -> (fEPS <? - rhs) = false -> Qabs rhs <= fEPS).
  { intros H1 H2. rewrite <- Qabs_opp. now apply R. }
  specialize (R rhs).
  unfold determineOneRowType, fcount, negv, negc.
  destruct s; cbn [map fst snd filter length]; try exact Logic.I;
  destruct (is_bin m i0), (is_bin m i1); cbn [andb negb];
  destruct (c0 <? - fEPS), (c1 <? - fEPS), (- c0 <? - fEPS), (- c1 <? - fEPS).
  all: cbn [andb negb filter length Nat.add Nat.eqb orb].
  all: try exact Logic.I.
  all: try (destruct (rhs <? - fEPS); cbn [orb]; [exact Logic.I|]; destruct (fEPS <? rhs); cbn [orb]; [exact Logic.I|]).
  all: try (destruct (- rhs <? - fEPS); cbn [orb]; [exact Logic.I|]; destruct (fEPS <? - rhs); cbn [orb]; [exact Logic.I|]).
  all: try exact Logic.I.
  all: repeat split; auto; discriminate.
Qed.

(** ** What is assumed of the rows that give variable bounds *)
Definition vb_rows_ok (m : mip) : Prop :=
  forall r i a k b, In r (m_rows m) -> r_form r = [(i, a); (k, b)] ->
    xorb (is_bin m i) (is_bin m k) = true -> Qabs (row_rhs r) <= fEPS -> row_sense r <> SenseR ->
    row_sense r <> SenseN /\ row_rhs r == 0 /\ fEPS < Qabs a /\ fEPS < Qabs b /\
    (row_sense r = SenseE -> a * b < 0).
Definition lows_ok (m : mip) : Prop :=
  forall j l, is_bin m j = false -> m_clo m j = Some l -> 0 <= l \/ l < - fEPS.

Lemma sense_le r p : row_sat r p -> row_sense r = SenseL \/ row_sense r = SenseE ->
  value (r_form r) p <= row_rhs r.
Proof.
  unfold row_sat, row_sense, row_rhs. destruct (r_lo r) as [l|], (r_hi r) as [h|]; simpl; intros [H1 H2] [E|E];
    try discriminate; try destruct (Qeq_bool _ _); try discriminate; lra.
Qed.
Lemma sense_ge r p : row_sat r p -> row_sense r = SenseG \/ row_sense r = SenseE ->
  row_rhs r <= value (r_form r) p.
Proof.
  unfold row_sat, row_sense, row_rhs. destruct (r_lo r) as [l|], (r_hi r) as [h|]; simpl; intros [H1 H2] [E|E];
    try discriminate; try (destruct (Qeq_bool l h) eqn:Q1; try discriminate; apply Qeq_bool_iff in Q1);
    lra.
Qed.

Section Tables.
  Variable m : mip.
  Hypothesis Hwf : wf_mip m.
  Hypothesis Hvb : vb_rows_ok m.
  (** a property of the ratios *)
  Variable R : Q -> Prop.
  Definition ratios_ok : Prop :=
    forall r i a k b, In r (m_rows m) -> r_form r = [(i, a); (k, b)] ->
      (is_bin m i = true -> is_bin m k = false -> R (- a / b)) /\
      (is_bin m i = false -> is_bin m k = true -> R (- b / a)).
  Hypothesis HR : ratios_ok.

  Definition vb_ok (j : nat) (b : vbound) : Prop :=
    is_bin m (v_var b) = true /\ (v_var b < m_ncols m)%nat /\ is_bin m j = false /\
    0 < v_val b /\ R (v_val b).
  Definition tabs_ok (t : vtab * vtab) : Prop :=
    (forall j b, fst t j = Some b -> vb_ok j b /\ forall p, rows_ok m p -> p j <= v_val b * p (v_var b)) /\
    (forall j b, snd t j = Some b -> vb_ok j b /\ forall p, rows_ok m p -> v_val b * p (v_var b) <= p j).

  Lemma div_le xc yc x y : 0 < yc -> xc * x + yc * y <= 0 -> y <= - xc / yc * x.
  Proof.
    intros Hy H. setoid_replace (- xc / yc * x) with ((- (xc * x)) / yc) by (field; lra).
    apply Qle_shift_div_l; [exact Hy|]. lra.
  Qed.
  Lemma div_ge xc yc x y : 0 < yc -> 0 <= xc * x + yc * y -> - xc / yc * x <= y.
  Proof.
    intros Hy H. setoid_replace (- xc / yc * x) with ((- (xc * x)) / yc) by (field; lra).
    apply Qle_shift_div_r; [exact Hy|]. lra.
  Qed.
  Lemma div_opp xc yc : ~ yc == 0 -> - (- xc) / (- yc) == - xc / yc.
  Proof. intros H. field. exact H. Qed.
  Lemma div_pos xc yc : xc * yc < 0 -> ~ yc == 0 -> 0 < - xc / yc.
  Proof.
    intros H N. destruct (Qlt_le_dec 0 yc) as [P|P].
    - apply Qlt_shift_div_l; [exact P|]. rewrite Qmult_0_l.
      destruct (Qlt_le_dec xc 0) as [X|X]; [lra|]. assert (0 <= xc * yc) by (apply Qmult_le_0_compat; lra). lra.
    - rewrite <- (div_opp xc yc N). apply Qlt_shift_div_l; [lra|]. rewrite Qmult_0_l.
      destruct (Qlt_le_dec 0 xc) as [X|X]; [lra|].
      assert (0 <= (- xc) * (- yc)) by (apply Qmult_le_0_compat; lra).
      assert ((- xc) * (- yc) == xc * yc) by ring. lra.
  Qed.

  (** One row: the binary column, the other one, the bound. *)
  Lemma var_row r : In r (m_rows m) ->
    match row_type m r with
    | FVarUB => exists yi b, var_bound m (r_form r) = Done (yi, b) /\ vb_ok yi b /\
                  forall p, rows_ok m p -> p yi <= v_val b * p (v_var b)
    | FVarLB => exists yi b, var_bound m (r_form r) = Done (yi, b) /\ vb_ok yi b /\
                  forall p, rows_ok m p -> v_val b * p (v_var b) <= p yi
    | FVarEQ => exists yi b, var_bound m (r_form r) = Done (yi, b) /\ vb_ok yi b /\
                  (forall p, rows_ok m p -> p yi <= v_val b * p (v_var b)) /\
                  forall p, rows_ok m p -> v_val b * p (v_var b) <= p yi
    | _ => True
    end.
  Proof.
    intros Hr. unfold row_type.
    pose proof (type_len m (r_form r) (row_sense r) (row_rhs r)) as TL.
    destruct (determineOneRowType m (r_form r) (row_sense r) (row_rhs r)) eqn:T; try exact Logic.I;
    destruct (r_form r) as [|[i0 c0] [|[i1 c1] [|? ?]]] eqn:F; try discriminate TL; clear TL;
    pose proof (type_two m i0 c0 i1 c1 (row_sense r) (row_rhs r)) as TT; cbv zeta in TT; rewrite T in TT;
    destruct TT as ((X1 & X2 & X3) & TT);
    destruct (Hvb r i0 c0 i1 c1 Hr F X1 X2 X3) as (S1 & S2 & S3 & S4 & S5);
    destruct (Hwf r Hr) as [_ Hj]; rewrite F in Hj;
    pose proof (Hj i0 c0 (or_introl eq_refl)) as J0; pose proof (Hj i1 c1 (or_intror (or_introl eq_refl))) as J1;
    destruct (HR r i0 c0 i1 c1 Hr F) as [RA RB];
    assert (Le : forall p, rows_ok m p -> row_sense r = SenseL \/ row_sense r = SenseE -> c0 * p i0 + c1 * p i1 <= 0)
      by (intros p Hp HS; pose proof (sense_le r p (Hp r Hr) HS) as Q1; rewrite F in Q1; cbn [value] in Q1; lra);
    assert (Ge : forall p, rows_ok m p -> row_sense r = SenseG \/ row_sense r = SenseE -> 0 <= c0 * p i0 + c1 * p i1)
      by (intros p Hp HS; pose proof (sense_ge r p (Hp r Hr) HS) as Q1; rewrite F in Q1; cbn [value] in Q1; lra);
    clear T Hj; unfold var_bound;
    assert (N0 : ~ c0 == 0) by (intros E; assert (Qabs c0 == 0) by (rewrite E; reflexivity); pose proof fEPS_pos; lra);
    assert (N1 : ~ c1 == 0) by (intros E; assert (Qabs c1 == 0) by (rewrite E; reflexivity); pose proof fEPS_pos; lra);
    destruct (Qeq_bool c0 0) eqn:Z0; try (apply Qeq_bool_iff in Z0; contradiction);
    destruct (Qeq_bool c1 0) eqn:Z1; try (apply Qeq_bool_iff in Z1; contradiction);
    assert (Abs : forall c, fEPS < Qabs c -> (c < - fEPS \/ fEPS < c))
      by (intros c Hc; destruct (Qlt_le_dec c 0) as [Hn|Hn];
          [rewrite Qabs_neg in Hc by lra; left; lra|rewrite Qabs_pos in Hc by lra; right; lra]);
    pose proof (Abs c0 S3) as A0; pose proof (Abs c1 S4) as A1; clear Abs S3 S4;
    pose proof fEPS_pos as EP;
    destruct (is_bin m i0) eqn:B0, (is_bin m i1) eqn:B1; try discriminate X1;
    cbn [v_var v_val].
    (* FVarUB, two cases *)
    1-2: destruct TT as (SS & T1 & T2).
    3-4: destruct TT as (SS & T1 & T2).
    5-6: assert (SE : row_sense r = SenseE) by (destruct TT as [E|E]; [exact E|contradiction]);
      specialize (S5 SE).
    - exists i1, (VBound i0 (- c0 / c1)). cbn [v_var v_val].
      split; [rewrite ?Z0, ?Z1; reflexivity|]. destruct SS as [E|E]; rewrite E in T1, T2; unfold negc in T1, T2; qb.
      + split; [unfold vb_ok; cbn [v_var v_val]; repeat split; auto; apply div_pos; [|lra]; assert (0 < (- c0) * c1) by (apply Qmult_lt_0_compat; lra); lra|].
        intros p Hp. apply div_le; [lra|]. apply Le; auto.
      + split; [unfold vb_ok; cbn [v_var v_val]; repeat split; auto; apply div_pos; [|lra]; assert (0 < c0 * (- c1)) by (apply Qmult_lt_0_compat; lra); lra|].
        intros p Hp. rewrite <- (div_opp c0 c1 N1). apply div_le; [lra|]. specialize (Ge p Hp (or_introl E)). lra.
    - exists i0, (VBound i1 (- c1 / c0)). cbn [v_var v_val].
      split; [rewrite ?Z0, ?Z1; reflexivity|]. destruct SS as [E|E]; rewrite E in T1, T2; unfold negc in T1, T2; qb.
      + split; [unfold vb_ok; cbn [v_var v_val]; repeat split; auto; apply div_pos; [|lra]; assert (0 < (- c1) * c0) by (apply Qmult_lt_0_compat; lra); lra|].
        intros p Hp. apply div_le; [lra|]. specialize (Le p Hp (or_introl E)). lra.
      + split; [unfold vb_ok; cbn [v_var v_val]; repeat split; auto; apply div_pos; [|lra]; assert (0 < c1 * (- c0)) by (apply Qmult_lt_0_compat; lra); lra|].
        intros p Hp. rewrite <- (div_opp c1 c0 N0). apply div_le; [lra|]. specialize (Ge p Hp (or_introl E)). lra.
    - exists i1, (VBound i0 (- c0 / c1)). cbn [v_var v_val].
      split; [rewrite ?Z0, ?Z1; reflexivity|]. destruct SS as [E|E]; rewrite E in T1, T2; unfold negc in T1, T2; qb.
      + split; [unfold vb_ok; cbn [v_var v_val]; repeat split; auto; apply div_pos; [|lra]; assert (0 < c0 * (- c1)) by (apply Qmult_lt_0_compat; lra); lra|].
        intros p Hp. rewrite <- (div_opp c0 c1 N1). apply div_ge; [lra|]. specialize (Le p Hp (or_introl E)). lra.
      + split; [unfold vb_ok; cbn [v_var v_val]; repeat split; auto; apply div_pos; [|lra]; assert (0 < (- c0) * c1) by (apply Qmult_lt_0_compat; lra); lra|].
        intros p Hp. apply div_ge; [lra|]. specialize (Ge p Hp (or_introl E)). lra.
    - exists i0, (VBound i1 (- c1 / c0)). cbn [v_var v_val].
      split; [rewrite ?Z0, ?Z1; reflexivity|]. destruct SS as [E|E]; rewrite E in T1, T2; unfold negc in T1, T2; qb.
      + split; [unfold vb_ok; cbn [v_var v_val]; repeat split; auto; apply div_pos; [|lra]; assert (0 < c1 * (- c0)) by (apply Qmult_lt_0_compat; lra); lra|].
        intros p Hp. rewrite <- (div_opp c1 c0 N0). apply div_ge; [lra|]. specialize (Le p Hp (or_introl E)). lra.
      + split; [unfold vb_ok; cbn [v_var v_val]; repeat split; auto; apply div_pos; [|lra]; assert (0 < (- c1) * c0) by (apply Qmult_lt_0_compat; lra); lra|].
        intros p Hp. apply div_ge; [lra|]. specialize (Ge p Hp (or_introl E)). lra.
    - exists i1, (VBound i0 (- c0 / c1)). cbn [v_var v_val].
      split; [rewrite ?Z0, ?Z1; reflexivity|]. split; [unfold vb_ok; cbn [v_var v_val]; repeat split; auto; apply div_pos; [exact S5|lra]|].
      split; intros p Hp; specialize (Le p Hp (or_intror SE)); specialize (Ge p Hp (or_intror SE)).
      + destruct (Qlt_le_dec 0 c1); [apply div_le; lra|]. rewrite <- (div_opp c0 c1 N1). apply div_le; lra.
      + destruct (Qlt_le_dec 0 c1); [apply div_ge; lra|]. rewrite <- (div_opp c0 c1 N1). apply div_ge; lra.
    - exists i0, (VBound i1 (- c1 / c0)). cbn [v_var v_val].
      split; [rewrite ?Z0, ?Z1; reflexivity|]. split; [unfold vb_ok; cbn [v_var v_val]; repeat split; auto; apply div_pos; [|lra]; rewrite Qmult_comm; exact S5|].
      split; intros p Hp; specialize (Le p Hp (or_intror SE)); specialize (Ge p Hp (or_intror SE)).
      + destruct (Qlt_le_dec 0 c0); [apply div_le; lra|]. rewrite <- (div_opp c1 c0 N0). apply div_le; lra.
      + destruct (Qlt_le_dec 0 c0); [apply div_ge; lra|]. rewrite <- (div_opp c1 c0 N0). apply div_ge; lra.
  Qed.

  Lemma prep_row_ok t r : In r (m_rows m) -> tabs_ok t -> exists t', prep_row m t r = Done t' /\ tabs_ok t'.
  Proof.
    intros Hr [T1 T2]. pose proof (var_row r Hr) as V. unfold prep_row.
    destruct (row_type m r); try (exists t; split; [reflexivity|split; assumption]).
    - destruct V as (yi & b & E & V1 & V2). rewrite E. cbn [bind fst snd]. eexists. split; [reflexivity|].
      split; cbn [fst snd]; [|exact T2]. intros j c. unfold fput. destruct (Nat.eqb j yi) eqn:Ej; [|apply T1].
      apply Nat.eqb_eq in Ej. subst j. intros Ec. injection Ec as <-. auto.
    - destruct V as (yi & b & E & V1 & V2). rewrite E. cbn [bind fst snd]. eexists. split; [reflexivity|].
      split; cbn [fst snd]; [exact T1|]. intros j c. unfold fput. destruct (Nat.eqb j yi) eqn:Ej; [|apply T2].
      apply Nat.eqb_eq in Ej. subst j. intros Ec. injection Ec as <-. auto.
    - destruct V as (yi & b & E & V1 & V2 & V3). rewrite E. cbn [bind fst snd]. eexists. split; [reflexivity|].
      split; cbn [fst snd]; intros j c; unfold fput; destruct (Nat.eqb j yi) eqn:Ej;
        try apply T1; try apply T2; apply Nat.eqb_eq in Ej; subst j; intros Ec; injection Ec as <-; auto.
  Qed.

  Lemma preprocess_ok : exists t, flowPreprocess m = Done t /\ tabs_ok t.
  Proof.
    unfold flowPreprocess.
    assert (H : forall l t, (forall r, In r l -> In r (m_rows m)) -> tabs_ok t ->
              exists t', ofold (prep_row m) l t = Done t' /\ tabs_ok t').
    { induction l as [|r l IH]; intros t Sub Ht; cbn [ofold]; [eauto|].
      destruct (prep_row_ok t r (Sub r (or_introl eq_refl)) Ht) as (t1 & E & Ht1).
      rewrite E. cbn [bind]. apply IH; [intros; apply Sub; now right|exact Ht1]. }
    apply H; [auto|]. split; intros j b E; discriminate.
  Qed.
End Tables.
