(** * Properties of CglMixedIntegerRounding: C24, C16 and C41 *)

From Coq Require Import Qabs Permutation.
From Verif Require Import Base.
From Verif Require Model_ResidualCapacity Proofs_ResidualCapacity Props_ResidualCapacity.
From Verif Require Import Proofs_MirCore Model_MIR Proofs_MIR Proofs_MIRTotal.
Local Open Scope Q_scope.

(** ** Specification *)
(** [m] has the rows of [root], possibly followed by more (added cuts), and the
    same integer columns.  Nothing is said about the column bounds. *)
Definition extends (root m : mip) : Prop :=
  m_ncols m = m_ncols root /\ (exists more, m_rows m = m_rows root ++ more) /\
  forall j, m_int m j = m_int root j.
(** No row datum is nonzero and within the tolerance. *)
Definition clear_side (o : option Q) : Prop := match o with Some q => clear_of eps q | None => True end.
Definition clear_rows (m : mip) : Prop :=
  forall r, In r (m_rows m) ->
    (forall j a, In (j, a) (r_form r) -> clear_of eps a) /\ clear_side (r_lo r) /\ clear_side (r_hi r).
(** Integer columns have integral upper bounds. *)
Definition integral_uppers (m : mip) : Prop :=
  forall j u, (j < m_ncols m)%nat -> m_int m j = true -> m_chi m j = Some u -> integral u.
Definition nonneg_ints (m : mip) : Prop :=
  forall j, (j < m_ncols m)%nat -> m_int m j = true ->
    match m_clo m j with Some l => 0 <= l | None => False end.
(** What is assumed of the packed vector library. *)
Definition lib_ok (srt : vec -> vec) (keep : nat * Q -> bool) : Prop :=
  (forall v, Permutation (srt v) v) /\ (forall e, keep e = false -> snd e == 0).

(** The calls a user can make; a call that throws leaves the generator with
    its settings. *)
Inductive op :=
  | OpMaxAggr (v : Z) | OpMultiply (b : bool) | OpCriterion (v : Z) | OpMode (v : Z)
  | OpRefresh | OpGenerate (c : call).
Definition or_same {A} (g : A) (o : outcome A) : A := match o with Done g' => g' | _ => g end.
Definition step (g : mirgen) (o : op) : mirgen :=
  match o with
  | OpMaxAggr v => or_same g (setMAXAGGR g v)
  | OpMultiply b => setMULTIPLY g b
  | OpCriterion v => or_same g (setCRITERION g v)
  | OpMode v => or_same g (setDoPreproc g v)
  | OpRefresh => refreshSolver g
  | OpGenerate c => prepared g c
  end.
Definition run (g : mirgen) (ops : list op) : mirgen := fold_left step ops g.
(** Earlier calls are made on models with clear rows that [m] extends. *)
Definition op_ok (m : mip) (o : op) : Prop :=
  match o with OpGenerate c => extends (c_mip c) m /\ clear_rows (c_mip c) | _ => True end.

(** ** Preprocessing *)
Lemma nth_combine_seq {A} (d : A) (l : list A) : forall s i, (i < length l)%nat ->
  nth i (combine (seq s (length l)) l) (0%nat, d) = ((s + i)%nat, nth i l d).
Proof.
  induction l as [|a l IH]; simpl; intros s i H; [lia|]. destruct i as [|i].
  - rewrite Nat.add_0_r. reflexivity.
  - rewrite IH by lia. f_equal. lia.
Qed.
Lemma len_combine_seq {A} (l : list A) s : length (combine (seq s (length l)) l) = length l.
Proof. rewrite combine_length, seq_length. lia. Qed.
Definition no_row : row := Row [] None None.
Lemma prep_len c : length (p_rows (preprocess c)) = length (m_rows (c_mip c)).
Proof. unfold preprocess. simpl. rewrite map_length, len_combine_seq. reflexivity. Qed.
Lemma prep_row c i : (i < length (m_rows (c_mip c)))%nat ->
  rowp_at (preprocess c) i = row_prep (c_mip c) (c_act c i) (nth i (m_rows (c_mip c)) no_row).
Proof.
  intro H. unfold rowp_at, preprocess. simpl.
  set (f := fun ir : nat * row => row_prep (c_mip c) (c_act c (fst ir)) (snd ir)).
  rewrite (nth_indep _ _ (f (0%nat, no_row))) by (rewrite map_length, len_combine_seq; exact H).
  rewrite map_nth, nth_combine_seq by exact H. reflexivity.
Qed.
Lemma row_prep_side m act r y : row_sat r y ->
  side_sat y (rp_sense (row_prep m act r)) (r_form r) (rp_rhs (row_prep m act r)).
Proof.
  unfold row_sat, row_prep, row_sense, row_rhs. destruct (r_lo r) as [l|], (r_hi r) as [u|]; simpl; intros (A & B); auto.
  destruct (Qeq_bool l u) eqn:E; simpl; [qb; lra|]. destruct (_ <? _); simpl; assumption.
Qed.
Lemma row_prep_type m act r :
  rp_type (row_prep m act r) = RUndefined \/ rp_type (row_prep m act r) = ROther \/
  used_sense (rp_sense (row_prep m act r)).
Proof.
  unfold row_prep. cbn [rp_type rp_sense]. set (s := match row_sense r with SenseR => _ | s => s end).
  unfold determineRowType. destruct (r_form r); [auto|]. unfold used_sense.
  assert (S : s <> SenseR).
  { unfold s. destruct (row_sense r); try discriminate. destruct (_ <? _); discriminate. }
  destruct s; auto; congruence.
Qed.

Lemma last_any {A} (l : list A) : forall e a b, last (e :: l) a = last (e :: l) b.
Proof. induction l as [|e' l IH]; intros e a b; [reflexivity|]. apply (IH e'). Qed.
Lemma last_entry_filter f (v : vec) : last_entry f v = last (filter f v) (0%nat, 0).
Proof.
  unfold last_entry. assert (X : forall v s, fold_left (fun s e => if f e then e else s) v s = last (filter f v) s).
  { induction v0 as [|e v0 IH]; simpl; intro s; [reflexivity|]. rewrite IH. destruct (f e); [|reflexivity].
    destruct (filter f v0) as [|e1 l]; [reflexivity|]. apply (last_any l e1 e s). }
  apply X.
Qed.
Lemma one_entry f (v : vec) : count f v = 1%nat -> filter f v = [last_entry f v].
Proof.
  rewrite last_entry_filter. unfold count. destruct (filter f v) as [|e [|e' l]]; simpl; try discriminate. reflexivity.
Qed.
Definition big_int (m : mip) (e : nat * Q) : bool := (eps <? Qabs (snd e)) && m_int m (fst e).
Definition big_cont (m : mip) (e : nat * Q) : bool := (eps <? Qabs (snd e)) && negb (m_int m (fst e)).
Lemma two_entries m (v : vec) y :
  (forall j a, In (j, a) v -> clear_of eps a) ->
  value v y == value (filter (big_int m) v) y + value (filter (big_cont m) v) y.
Proof.
  intro C. induction v as [|(j, a) v IH]; [simpl; ring|].
  assert (B1 : big_int m (j, a) = (eps <? Qabs a) && m_int m j) by reflexivity.
  assert (B2 : big_cont m (j, a) = (eps <? Qabs a) && negb (m_int m j)) by reflexivity.
  cbn [filter]. rewrite B1, B2. cbn [value]. rewrite IH by (intros; eapply C; simpl; eauto). destruct (C j a (or_introl eq_refl)) as [Z|Z].
  - assert (E : (eps <? Qabs a) = false).
    { destruct (eps <? Qabs a) eqn:E; [|reflexivity]. qb. rewrite Z in E. exfalso. revert E. unfold eps. simpl. lra. }
    rewrite E. cbn [andb]. rewrite Z. ring.
  - assert (E : (eps <? Qabs a) = true) by (destruct (eps <? Qabs a) eqn:E; [reflexivity|qb; lra]).
    rewrite E. destruct (m_int m j); cbn [andb negb value]; ring.
Qed.
Lemma pos_count m (v : vec) e :
  filter (big_cont m) v = [e] ->
  count (fun e => (eps <? snd e) && negb (m_int m (fst e))) v = if eps <? snd e then 1%nat else 0%nat.
Proof.
  intro F. unfold count.
  assert (X : filter (fun e => (eps <? snd e) && negb (m_int m (fst e))) v = filter (fun e => eps <? snd e) (filter (big_cont m) v)).
  { clear F. induction v as [|(j, a) v IH]; [reflexivity|].
    assert (B2 : big_cont m (j, a) = (eps <? Qabs a) && negb (m_int m j)) by reflexivity.
    cbn [filter]. rewrite B2, IH. cbn [fst snd].
    destruct (eps <? a) eqn:E.
    - assert (E' : (eps <? Qabs a) = true).
      { destruct (eps <? Qabs a) eqn:E'; [reflexivity|]. qb. pose proof (Qle_Qabs a). lra. }
      rewrite E'. cbn [andb]. destruct (negb (m_int m j)); cbn [filter snd]; rewrite ?E; reflexivity.
    - cbn [andb]. destruct (_ && _); cbn [filter snd]; rewrite ?E; reflexivity. }
  rewrite X, F. simpl. destruct (eps <? snd e); reflexivity.
Qed.
Lemma opp_div_mult a c q : ~ c == 0 -> c * (- a / c * q) == - a * q.
Proof. intro H. field. exact H. Qed.

(** the variable bound read off a row is implied by the row *)
Lemma var_bound_ok m act r y :
  (forall j a, In (j, a) (r_form r) -> clear_of eps a) -> clear_side (r_lo r) -> clear_side (r_hi r) -> row_sat r y ->
  let t := rp_type (row_prep m act r) in
  let b := var_bound m (r_form r) in
  (t = RVarUB \/ t = RVarLB \/ t = RVarEQ -> In (vb_var (snd b)) (map fst (r_form r)) /\ m_int m (vb_var (snd b)) = true) /\
  (t = RVarUB \/ t = RVarEQ -> y (fst b) <= vb_val (snd b) * y (vb_var (snd b))) /\
  (t = RVarLB \/ t = RVarEQ -> vb_val (snd b) * y (vb_var (snd b)) <= y (fst b)).
Proof.
  intros C C1 C2 Sat. cbv zeta.
  assert (Hyp : rp_type (row_prep m act r) = RVarUB \/ rp_type (row_prep m act r) = RVarLB \/ rp_type (row_prep m act r) = RVarEQ ->
    let s := rp_sense (row_prep m act r) in let rhs := rp_rhs (row_prep m act r) in
    exists ye xe, filter (big_int m) (r_form r) = [ye] /\ filter (big_cont m) (r_form r) = [xe] /\
      var_bound m (r_form r) = (fst xe, VB (fst ye) (- snd ye / snd xe)) /\ rhs == 0 /\
      rp_type (row_prep m act r) =
        match s with SenseL => if eps <? snd xe then RVarUB else RVarLB
                   | SenseG => if eps <? snd xe then RVarLB else RVarUB
                   | SenseE => RVarEQ | _ => RUndefined end).
  { intros T. cbv zeta. pose proof T as T0. revert T.
    assert (Cr : clear_of eps (rp_rhs (row_prep m act r))).
    { unfold row_prep. simpl. unfold row_sense, row_rhs. unfold clear_side in *.
      destruct (r_lo r), (r_hi r); simpl; auto; try (destruct (Qeq_bool _ _); simpl; auto; destruct (_ <? _); auto).
      left. reflexivity. }
    change (rp_type (row_prep m act r)) with
      (determineRowType m (r_form r) (rp_sense (row_prep m act r)) (rp_rhs (row_prep m act r))).
    set (s := rp_sense (row_prep m act r)) in *. set (rhs := rp_rhs (row_prep m act r)) in *. clearbody s rhs.
    intro T. unfold determineRowType in T.
    destruct (r_form r) as [|e0 v0] eqn:Ef; [destruct T as [T|[T|T]]; discriminate|]. rewrite <- Ef in *.
    assert (Ns : s <> SenseN) by (intros ->; destruct T as [T|[T|T]]; discriminate).
    cbv zeta in T. fold (big_int m) in T. fold (big_cont m) in T.
    assert (Cnd : (Nat.ltb 0 (count (big_int m) (r_form r)) && Nat.ltb 0 (count (big_cont m) (r_form r)) = true) /\
                  (Nat.eqb (count (big_int m) (r_form r)) 1 && Nat.eqb (count (big_cont m) (r_form r)) 1 && (Qabs rhs <=? eps) = true)).
    { destruct (_ && _) eqn:E1; [|destruct (Nat.eqb _ 0); destruct s; destruct T as [T|[T|T]]; discriminate].
      split; [reflexivity|]. destruct (_ && _ && _) eqn:E2; [reflexivity|].
      destruct s; destruct T as [T|[T|T]]; discriminate. }
    destruct Cnd as (Cn1 & Cn2).
    assert (Cn3 := Cn2). apply andb_true_iff in Cn3 as (Cn3 & Hr). apply andb_true_iff in Cn3 as (N1 & N2).
    apply Nat.eqb_eq in N1, N2. apply one_entry in N1, N2. apply Qle_bool_iff in Hr.
    set (ye := last_entry (big_int m) (r_form r)) in *. set (xe := last_entry (big_cont m) (r_form r)) in *.
    exists ye, xe. conjs; auto.
    - destruct Cr as [Cr|Cr]; [exact Cr|lra].
    - unfold determineRowType. rewrite Ef at 1. cbv zeta. fold (big_int m). fold (big_cont m).
      rewrite (pos_count m _ xe N2). rewrite Ef in *. rewrite Cn1, Cn2. destruct s; try congruence;
        destruct (eps <? snd xe); reflexivity. }
  pose proof (row_prep_side m act r y Sat) as Side.
  assert (Big : forall xe, filter (big_cont m) (r_form r) = [xe] -> eps < Qabs (snd xe)).
  { intros xe F. assert (I1 : In xe (filter (big_cont m) (r_form r))) by (rewrite F; simpl; auto).
    apply filter_In in I1 as (_ & I1). unfold big_cont in I1. apply andb_true_iff in I1 as (I1 & _). qb. exact I1. }
  assert (Ep : 0 < eps) by reflexivity.
  assert (Val : forall ye xe, filter (big_int m) (r_form r) = [ye] -> filter (big_cont m) (r_form r) = [xe] ->
            value (r_form r) y == snd ye * y (fst ye) + snd xe * y (fst xe)).
  { intros ye xe F1 F2. rewrite (two_entries m _ _ C), F1, F2. destruct ye, xe. simpl. ring. }
  conjs.
  - intro T. destruct (Hyp T) as (ye & xe & F1 & F2 & -> & _ & _). simpl.
    assert (I1 : In ye (filter (big_int m) (r_form r))) by (rewrite F1; simpl; auto).
    apply filter_In in I1 as (I1 & I2). unfold big_int in I2. apply andb_true_iff in I2 as (_ & I2).
    split; [apply in_map; exact I1|exact I2].
  - intro T. destruct (Hyp ltac:(tauto)) as (ye & xe & F1 & F2 & -> & R0 & Ty). simpl.
    rewrite Ty in T. specialize (Val ye xe F1 F2). specialize (Big xe F2).
    assert (Nz : ~ snd xe == 0) by (intro Z; rewrite Z in Big; revert Big; simpl; lra).
    pose proof (opp_div_mult (snd ye) (snd xe) (y (fst ye)) Nz) as D. set (t := - snd ye / snd xe * y (fst ye)) in *.
    destruct (rp_sense (row_prep m act r)); try (destruct T; discriminate); cbn [side_sat] in Side;
      destruct (eps <? snd xe) eqn:S; qb; try (destruct T; discriminate).
    + apply Qmult_le_l with (z := snd xe); lra.
    + apply Qmult_le_l with (z := - snd xe); [revert Big; apply Qabs_case; intros; lra|lra].
    + apply Qmult_le_l with (z := snd xe); lra.
    + apply Qmult_le_l with (z := - snd xe); [revert Big; apply Qabs_case; intros; lra|lra].
  - intro T. destruct (Hyp ltac:(tauto)) as (ye & xe & F1 & F2 & -> & R0 & Ty). simpl.
    rewrite Ty in T. specialize (Val ye xe F1 F2). specialize (Big xe F2).
    assert (Nz : ~ snd xe == 0) by (intro Z; rewrite Z in Big; revert Big; simpl; lra).
    pose proof (opp_div_mult (snd ye) (snd xe) (y (fst ye)) Nz) as D. set (t := - snd ye / snd xe * y (fst ye)) in *.
    destruct (rp_sense (row_prep m act r)); try (destruct T; discriminate); cbn [side_sat] in Side;
      destruct (eps <? snd xe) eqn:S; qb; try (destruct T; discriminate).
    + apply Qmult_le_l with (z := snd xe); lra.
    + apply Qmult_le_l with (z := - snd xe); [revert Big; apply Qabs_case; intros; lra|lra].
    + apply Qmult_le_l with (z := - snd xe); [revert Big; apply Qabs_case; intros; lra|lra].
    + apply Qmult_le_l with (z := snd xe); lra.
Qed.
Lemma vb_fold m upper : forall rrs f j b, fold_left (vb_step m upper) rrs f j = Some b ->
  f j = Some b \/ exists rr, In rr rrs /\ var_bound m (r_form (snd rr)) = (j, b) /\
    (rp_type (fst rr) = (if upper : bool then RVarUB else RVarLB) \/ rp_type (fst rr) = RVarEQ).
Proof.
  induction rrs as [|rr rrs IH]; simpl; intros f j b H; [auto|].
  apply IH in H as [H|(rr' & I1 & H)]; [|right; exists rr'; auto].
  unfold vb_step in H. destruct (var_bound m (r_form (snd rr))) as (j', b') eqn:V. cbn [fst snd] in H.
  assert (G : updf f j' (Some b') j = Some b -> f j = Some b \/ (j' = j /\ b' = b)).
  { unfold updf. destruct (Nat.eqb_spec j j'); [subst; intro E; apply Some_inj in E; auto|auto]. }
  destruct (rp_type (fst rr)) eqn:T, upper; auto; (apply G in H as [H|(-> & ->)]; [auto|right; exists rr; rewrite V, T; auto]).
Qed.
Lemma in_prep_rows c rr :
  In rr (combine (map (fun ir => row_prep (c_mip c) (c_act c (fst ir)) (snd ir)) (combine (seq 0 (length (m_rows (c_mip c)))) (m_rows (c_mip c)))) (m_rows (c_mip c))) ->
  In (snd rr) (m_rows (c_mip c)) /\ exists act, fst rr = row_prep (c_mip c) act (snd rr).
Proof.
  assert (X : forall (l : list row) s rr,
    In rr (combine (map (fun ir => row_prep (c_mip c) (c_act c (fst ir)) (snd ir)) (combine (seq s (length l)) l)) l) ->
    In (snd rr) l /\ exists act, fst rr = row_prep (c_mip c) act (snd rr)).
  { induction l as [|r l IH]; simpl; intros s rr0 H; [destruct H|]. destruct H as [<-|H]; [simpl; eauto|].
    apply IH in H as (H & G). auto. }
  apply X.
Qed.
Lemma positions_bound f l i : In i (positions f l) -> (i < length l)%nat /\ exists rr, nth_error l i = Some rr /\ f rr = true.
Proof.
  unfold positions. intro H. apply in_map_iff in H as ((i', rr) & E & H). simpl in E. subst i'.
  apply filter_In in H as (H & F). simpl in F.
  assert (X : forall (l : list (rowp * row)) s i rr, In (i, rr) (combine (seq s (length l)) l) -> (s <= i)%nat /\ nth_error l (i - s) = Some rr).
  { induction l0 as [|r l0 IH]; simpl; intros s k r0 G; [destruct G|]. destruct G as [G|G].
    - injection G as -> ->. rewrite Nat.sub_diag. auto.
    - apply IH in G as (G1 & G2). split; [lia|]. replace (k - s)%nat with (S (k - S s)) by lia. exact G2. }
  apply X in H as (_ & H). rewrite Nat.sub_0_r in H. split; [apply nth_error_Some; congruence|eauto].
Qed.

Lemma prep_start c i : In i (p_start (preprocess c)) ->
  (i < length (m_rows (c_mip c)))%nat /\
  (rp_type (rowp_at (preprocess c) i) = RMix \/ rp_type (rowp_at (preprocess c) i) = RCont \/ rp_type (rowp_at (preprocess c) i) = RInt).
Proof.
  intro H. unfold preprocess in H. cbn [p_start] in H.
  set (rps := map _ (combine (seq 0 _) _)) in H.
  assert (Lr : length rps = length (m_rows (c_mip c))) by (unfold rps; rewrite map_length, len_combine_seq; reflexivity).
  assert (G : forall f, In i (positions f (combine rps (m_rows (c_mip c)))) ->
          (i < length (m_rows (c_mip c)))%nat /\ exists rr, f rr = true /\ fst rr = rowp_at (preprocess c) i).
  { intros f F. apply positions_bound in F as (F1 & rr & F2 & F3). rewrite combine_length, Lr, Nat.min_id in F1.
    split; [exact F1|]. exists rr. split; [exact F3|].
    assert (X : forall A B (u : list A) (v : list B) k ab d, nth_error (combine u v) k = Some ab -> fst ab = nth k u d).
    { induction u as [|a1 u IHu]; intros [|b1 v] [|k] ab d E; simpl in *; try discriminate.
      - injection E as <-. reflexivity.
      - apply (IHu v). exact E. }
    apply (X _ _ _ _ _ _ (RowP RUndefined SenseN 0) F2). }
  apply in_app_iff in H as [H|H]; [|apply in_app_iff in H as [H|H]]; apply G in H as (L & rr & F & <-); (split; [exact L|]).
  - destruct (rp_type (fst rr)); try discriminate; auto.
  - apply andb_true_iff in F as (F & _). destruct (rp_type (fst rr)); try discriminate; auto.
  - destruct (rp_type (fst rr)); try discriminate; auto.
Qed.
Lemma extends_row root m i : extends root m -> (i < length (m_rows root))%nat ->
  row_at m i = r_form (nth i (m_rows root) no_row) /\ In (nth i (m_rows root) no_row) (m_rows m).
Proof.
  intros (_ & (ex & E) & _) L. unfold row_at. rewrite E. fold no_row. rewrite app_nth1 by exact L.
  split; [reflexivity|]. apply in_app_iff. left. apply nth_In. exact L.
Qed.
Lemma preprocess_ok c0 m y :
  extends (c_mip c0) m -> clear_rows (c_mip c0) -> wf_mip m -> feasible m y -> prep_ok (preprocess c0) m y.
Proof.
  intros X C W (Rs & _ & _). assert (X' := X). destruct X' as (X1 & (ex & X2) & X3).
  assert (Row : forall i, (i < length (m_rows (c_mip c0)))%nat ->
    used_sense (rp_sense (rowp_at (preprocess c0) i)) \/
    rp_type (rowp_at (preprocess c0) i) = RUndefined \/ rp_type (rowp_at (preprocess c0) i) = ROther).
  { intros i L. rewrite prep_row by exact L. destruct (row_prep_type (c_mip c0) (c_act c0 i) (nth i (m_rows (c_mip c0)) no_row)); tauto. }
  assert (VB : forall upper j b,
     (if upper : bool then p_vub (preprocess c0) j else p_vlb (preprocess c0) j) = Some b ->
     vb_ok (preprocess c0) m b /\
     if upper then y j <= vb_val b * y (vb_var b) else vb_val b * y (vb_var b) <= y j).
  { intros upper j b H.
    assert (F : exists rr, In rr (combine (map (fun ir => row_prep (c_mip c0) (c_act c0 (fst ir)) (snd ir)) (combine (seq 0 (length (m_rows (c_mip c0)))) (m_rows (c_mip c0)))) (m_rows (c_mip c0))) /\
      var_bound (c_mip c0) (r_form (snd rr)) = (j, b) /\
      (rp_type (fst rr) = (if upper then RVarUB else RVarLB) \/ rp_type (fst rr) = RVarEQ)).
    { destruct upper; apply vb_fold in H as [H|H]; try discriminate; exact H. }
    destruct F as (rr & I1 & V & T). apply in_prep_rows in I1 as (I1 & act & E). rewrite E in T.
    assert (Im : In (snd rr) (m_rows m)) by (rewrite X2; apply in_app_iff; auto).
    destruct (C _ I1) as (Ca & Cl & Ch).
    destruct (var_bound_ok (c_mip c0) act (snd rr) y Ca Cl Ch (Rs _ Im)) as (A1 & A2 & A3).
    rewrite V in *. cbn [fst snd] in *. split.
    - assert (A : In (vb_var b) (map fst (r_form (snd rr))) /\ m_int (c_mip c0) (vb_var b) = true) by (apply A1; destruct upper; tauto).
      destruct A as (A & B). split; [|rewrite X3; exact B]. simpl. rewrite <- X1.
      apply in_map_iff in A as ((k, q) & <- & A). apply (proj2 (W _ Im) k q A).
    - destruct upper; [apply A2; tauto|apply A3; tauto]. }
  constructor.
  - simpl. symmetry. exact X1.
  - intros i L. rewrite prep_len in L. destruct (extends_row _ m i X L) as (E1 & E2).
    destruct (W _ E2) as (W1 & W2). rewrite E1. conjs; [exact W1| | |].
    + intros j Hj. apply in_map_iff in Hj as ((k, q) & <- & Hj). simpl. rewrite <- X1. apply (W2 k q Hj).
    + rewrite prep_row by exact L. apply row_prep_side. apply Rs. exact E2.
    + intros T. destruct (Row i L) as [U|[U|U]]; [exact U|rewrite U in T; destruct T; discriminate..].
  - intros i H. apply prep_start in H as (L & T). split; [rewrite prep_len; exact L|].
    destruct (Row i L) as [U|[U|U]]; [exact U|rewrite U in T; destruct T as [T|[T|T]]; discriminate..].
  - intros j b. apply (VB true).
  - intros j b. apply (VB false).
Qed.

(** ** Histories *)
Definition cache_ok (m : mip) (g : mirgen) : Prop :=
  mg_done g = true -> exists c0, mg_prep g = preprocess c0 /\ extends (c_mip c0) m /\ clear_rows (c_mip c0).
Lemma must_not g c : must_preprocess g c = false -> mg_done g = true.
Proof.
  unfold must_preprocess. destruct (_ && _); [intro H; qb; exact H|].
  destruct (_ =? _)%Z; [discriminate|intro H; qb; exact H].
Qed.
Lemma prepared_ok m g c : extends (c_mip c) m -> clear_rows (c_mip c) -> cache_ok m g ->
  exists c0, mg_prep (prepared g c) = preprocess c0 /\ extends (c_mip c0) m /\ clear_rows (c_mip c0).
Proof.
  intros X C K. unfold prepared. destruct (must_preprocess g c) eqn:M; simpl; [eauto|]. apply K, (must_not g c M).
Qed.
Lemma step_ok m g o : op_ok m o -> cache_ok m g -> cache_ok m (step g o).
Proof.
  intros O K. destruct o; simpl in *.
  - unfold setMAXAGGR. destruct (_ <? _)%Z; exact K.
  - exact K.
  - unfold setCRITERION. destruct (_ && _); exact K.
  - unfold setDoPreproc. destruct (_ && _); exact K.
  - discriminate.
  - intros _. apply prepared_ok; tauto.
Qed.
Lemma run_ok m ops : forall g, Forall (op_ok m) ops -> cache_ok m g -> cache_ok m (run g ops).
Proof.
  induction ops as [|o ops IH]; simpl; intros g F K; [exact K|].
  inversion F; subst. apply IH; [assumption|]. apply step_ok; assumption.
Qed.
Lemma extends_refl m : extends m m.
Proof. unfold extends. conjs; [reflexivity|exists []; rewrite app_nil_r; reflexivity|reflexivity]. Qed.

(** In the call on [c] with generator [g] no tolerance test misjudges an
    aggregated row: every coefficient of every aggregated row is zero or above
    the tolerance, and so is every coefficient of an integer column after
    bound substitution unless the column's lower bound is (nearly) zero or
    more. *)
Definition run_clear (keep : nat * Q -> bool) (g : mirgen) (c : call) : Prop :=
  let g' := prepared g c in
  forall a, In a (aggregates keep (mg_prep g') (c_mip c) (c_x c) (c_act c) (Z.to_nat (mg_maxaggr g'))) ->
  agg_clear (mg_criterion g') (mg_prep g') (c_mip c) (c_x c) a.

Lemma rowcut_dec (a b : rowcut) : {a = b} + {a <> b}.
Proof. repeat decide equality. Qed.
Lemma construct_fresh maxaggr mult crit mode g : mg_construct maxaggr mult crit mode = Done g -> mg_done g = false.
Proof.
  unfold mg_construct. intro Cn.
  destruct (negb _) in Cn; [discriminate|]. destruct (negb _) in Cn; [discriminate|]. destruct (negb _) in Cn; [discriminate|].
  apply Done_inj in Cn. subst g. reflexivity.
Qed.
Lemma cuts_valid_at sqrt srt keep maxaggr mult crit mode g0 ops c cs g' cs' cut y :
  lib_ok srt keep -> mg_construct maxaggr mult crit mode = Done g0 ->
  Forall (op_ok (c_mip c)) ops -> wf_mip (c_mip c) -> clear_rows (c_mip c) -> integral_uppers (c_mip c) ->
  feasible (c_mip c) y ->
  (prep_ok (mg_prep (prepared (run g0 ops) c)) (c_mip c) y -> run_clear keep (run g0 ops) c) ->
  generateCuts sqrt srt keep (run g0 ops) c cs = Done (g', cs') ->
  In cut cs' -> In cut cs \/ rowcut_sat cut y.
Proof.
  intros (Ls & Lk) Cn F W C U Fy R G H.
  assert (K : cache_ok (c_mip c) (run g0 ops)).
  { apply run_ok; [exact F|]. unfold cache_ok. rewrite (construct_fresh _ _ _ _ _ Cn). discriminate. }
  set (g := run g0 ops) in *. clearbody g.
  destruct (prepared_ok _ g c (extends_refl _) C K) as (c0 & P & X & C0).
  unfold generateCuts in G. cbv zeta in G. unfold run_clear in R. cbv zeta in R.
  destruct (_ <? _)%nat; [discriminate|]. apply bind_done in G as (cs1 & G & E). apply Done_inj in E. injection E as _ <-.
  assert (Pk : prep_ok (mg_prep (prepared g c)) (c_mip c) y) by (rewrite P; apply preprocess_ok; assumption).
  refine (generate_ok sqrt srt keep (mg_criterion (prepared g c)) (mg_prep (prepared g c)) (c_mip c) (c_x c) (c_act c) y
    Ls Lk Pk _ _ _ _ _ _ _ _ (R Pk) G H).
  - apply Fy.
  - apply Fy.
  - exact U.
Qed.

(** ** C24 *)
Theorem C24_cuts_valid sqrt srt keep maxaggr mult crit mode g0 ops c cs g' cs' cut :
  lib_ok srt keep -> mg_construct maxaggr mult crit mode = Done g0 ->
  Forall (op_ok (c_mip c)) ops -> wf_mip (c_mip c) -> clear_rows (c_mip c) -> integral_uppers (c_mip c) ->
  run_clear keep (run g0 ops) c ->
  generateCuts sqrt srt keep (run g0 ops) c cs = Done (g', cs') ->
  In cut cs' -> In cut cs \/ keeps_all (c_mip c) cut.
Proof.
  intros L Cn F W C U R G H. destruct (in_dec rowcut_dec cut cs) as [I1|N1]; [left; exact I1|right].
  intros y Fy. destruct (cuts_valid_at _ _ _ _ _ _ _ _ _ _ _ _ _ _ y L Cn F W C U Fy (fun _ => R) G H); [contradiction|assumption].
Qed.
Print Assumptions C24_cuts_valid.

(** The hypothesis on the run follows from the data when integer columns are
    nonnegative and the aggregated rows stay clear of the tolerance. *)
Lemma nonneg_agg_clear keep crit p m x act y n a :
  (forall e, keep e = false -> snd e == 0) -> prep_ok p m y -> in_bounds m y -> nonneg_ints m ->
  In a (aggregates keep p m x act n) -> (forall j c, In (j, c) (ag_row a) -> clear_of eps c) ->
  agg_clear crit p m x a.
Proof.
  intros Lk P B N Ha C. split; [exact C|]. intros neg k E j q Hj.
  pose proof (aggregates_ok keep p m x act y Lk P n a Ha) as A.
  apply (boundSubstitution_ok crit p m x y P B a) in E; auto.
  - destruct (ko_idx _ _ _ _ _ _ _ _ E) as (_ & K).
    destruct (K j (in_map fst _ _ Hj)) as (K1 & K2). right. right.
    rewrite (po_cols _ _ _ P) in K1. specialize (N j K1 K2).
    destruct (m_clo m j); [|contradiction]. assert (0 < eps) by reflexivity. lra.
  - intros i Hi. apply (ao_idx _ _ _ _ A). destruct neg; [rewrite scale_fst in Hi|]; exact Hi.
  - destruct neg; rewrite ?scale_fst; apply A.
  - intros (i, r) He. destruct neg; [|apply (C i); exact He].
    unfold scale in He. apply in_map_iff in He as ((i', q') & Eq & He). injection Eq as <- <-. simpl.
    apply clear_opp. apply (C i'). exact He.
  - pose proof (ao_eq _ _ _ _ A) as V. destruct neg; [rewrite value_scale|]; rewrite V; lra.
Qed.
Lemma more_one k a keep p m x act b : In b (more keep p m x act k a) -> k = 0%nat -> b = a.
Proof. intros H ->. destruct H as [H|[]]. congruence. Qed.
Lemma clear_one : clear_of eps 1.
Proof. right. reflexivity. Qed.
Lemma clear_mone : clear_of eps (- (1)).
Proof. right. reflexivity. Qed.
Lemma row_at_clear m i j q : clear_rows m -> In (j, q) (row_at m i) -> clear_of eps q.
Proof.
  intros C H. unfold row_at in H. fold no_row in H. destruct (nth_in_or_default i (m_rows m) no_row) as [I1|E].
  - apply (proj1 (C _ I1) j q H).
  - rewrite E in H. destruct H.
Qed.
Lemma copyRow_in p m act k i j q : In (j, q) (fst (copyRow p m act k i)) ->
  In (j, q) (row_at m i) \/ ((j >= p_ncols p)%nat /\ (q = 1 \/ q = - (1))).
Proof.
  unfold copyRow. destruct (rp_sense (rowp_at p i)); simpl; auto;
    intro H; apply in_app_iff in H as [H|[H|[]]]; auto; injection H as <- <-; right; split; auto; lia.
Qed.

(** One row at a time (MAXAGGR 1, the default): everything is a hypothesis on the data. *)
Theorem C24_single_row_valid sqrt srt keep maxaggr mult crit mode g0 ops c cs g' cs' cut :
  lib_ok srt keep -> mg_construct maxaggr mult crit mode = Done g0 ->
  Forall (op_ok (c_mip c)) ops -> mg_maxaggr (run g0 ops) = 1%Z ->
  wf_mip (c_mip c) -> clear_rows (c_mip c) -> integral_uppers (c_mip c) -> nonneg_ints (c_mip c) ->
  generateCuts sqrt srt keep (run g0 ops) c cs = Done (g', cs') ->
  In cut cs' -> In cut cs \/ keeps_all (c_mip c) cut.
Proof.
  intros L Cn F M1 W C U N G H. destruct (in_dec rowcut_dec cut cs) as [I1|N1]; [left; exact I1|right].
  intros y Fy.
  assert (Cl : prep_ok (mg_prep (prepared (run g0 ops) c)) (c_mip c) y -> run_clear keep (run g0 ops) c);
    [|destruct (cuts_valid_at _ _ _ _ _ _ _ _ _ _ _ _ _ _ y L Cn F W C U Fy Cl G H); [contradiction|assumption]].
  intros P a Ha. apply (nonneg_agg_clear keep) with (3 := proj1 (proj2 Fy)) (5 := Ha); auto; [apply L|].
  intros j q Hj.
  assert (E : mg_maxaggr (prepared (run g0 ops) c) = 1%Z) by (unfold prepared; destruct (must_preprocess _ _); exact M1).
  rewrite E in Ha. unfold aggregates in Ha. apply in_flat_map in Ha as (i & _ & Ha).
  apply more_one in Ha; [|reflexivity]. subst a. apply copyRow_in in Hj as [Hj|(_ & [-> | ->])];
    [|apply clear_one|apply clear_mone]. eapply row_at_clear; eauto.
Qed.
Print Assumptions C24_single_row_valid.

(** Any number of aggregated rows, when all coefficients are integral and
    those of continuous columns are 0, 1 or -1 (flow conservation rows with
    fixed-charge columns). *)
Definition network_rows (m : mip) : Prop :=
  forall r j a, In r (m_rows m) -> In (j, a) (r_form r) ->
    integral a /\ (m_int m j = false -> a == 0 \/ a == 1 \/ a == - (1)).
Definition all_integral (v : vec) : Prop := forall j q, In (j, q) v -> integral q.
Lemma integral_clear q : integral q -> clear_of eps q.
Proof.
  intros (z & E). unfold clear_of. rewrite E. destruct (Z.eq_dec z 0) as [-> |N]; [left; reflexivity|right].
  assert (eps < 1) by reflexivity.
  destruct (Z_lt_le_dec z 0) as [L|L].
  - rewrite Qabs_neg by (change 0 with (inject_Z 0); rewrite <- Zle_Qle; lia).
    assert (inject_Z z <= inject_Z (-1)) by (rewrite <- Zle_Qle; lia). change (inject_Z (-1)) with (- (1)) in *. lra.
  - rewrite Qabs_pos by (change 0 with (inject_Z 0); rewrite <- Zle_Qle; lia).
    assert (inject_Z 1 <= inject_Z z) by (rewrite <- Zle_Qle; lia). change (inject_Z 1) with 1 in *. lra.
Qed.
Lemma coef_integral v j : all_integral v -> integral (coef v j).
Proof.
  intro A. unfold coef. destruct (find _ v) as [(k, q)|] eqn:F; [|exists 0%Z; reflexivity].
  apply find_some in F as (F & _). apply (A k q F).
Qed.
Lemma row_at_in m i j q : In (j, q) (row_at m i) -> exists r, In r (m_rows m) /\ In (j, q) (r_form r).
Proof.
  unfold row_at. fold no_row. intro H. destruct (nth_in_or_default i (m_rows m) no_row) as [I1|E]; [eauto|].
  rewrite E in H. destruct H.
Qed.
Lemma copyRow_integral p m act k i : network_rows m -> all_integral (fst (copyRow p m act k i)).
Proof.
  intros N j q H. apply copyRow_in in H as [H|(_ & [-> | ->])]; [|exists 1%Z; reflexivity|exists (-1)%Z; reflexivity].
  apply row_at_in in H as (r & H1 & H2). apply (N r j q H1 H2).
Qed.
Lemma select_small p m x used (l : vec) : forall s j i,
  (forall j i, snd s = Some (j, i) -> (j < p_ncols p)%nat /\ m_int m j = false /\ usable_row p m used j i = true) ->
  snd (fold_left (select_step p m x used) l s) = Some (j, i) ->
  (j < p_ncols p)%nat /\ m_int m j = false /\ usable_row p m used j i = true.
Proof.
  induction l as [|e l IH]; cbn [fold_left]; intros s j i Hs H; [auto|].
  apply IH in H; [exact H|]. intros j' i' E. unfold select_step in E.
  destruct (Nat.leb (p_ncols p) (fst e)) eqn:E1; [auto|]. cbn [orb] in E. apply Nat.leb_gt in E1.
  destruct (m_int m (fst e)) eqn:E2; [auto|]. cbn [orb] in E. destruct (_ <? _); [auto|].
  destruct (exceeds _ _); [|auto]. destruct (find _ _) as [i0|] eqn:Fd; [|auto].
  cbn [snd] in E. apply Some_inj in E. injection E as <- <-. apply find_some in Fd as (_ & Fd). auto.
Qed.
Lemma coef_copy p m act k i j : (j < p_ncols p)%nat -> coef (fst (copyRow p m act k i)) j = coef (row_at m i) j.
Proof.
  intro L. unfold copyRow. assert (X : forall q, coef (row_at m i ++ [((p_ncols p + k)%nat, q)]) j = coef (row_at m i) j).
  { intro q. generalize (row_at m i). induction v as [|(a, b) v IH]; simpl.
    - unfold coef. simpl. destruct (Nat.eqb_spec (p_ncols p + k) j); [lia|reflexivity].
    - rewrite !coef_cons, IH. reflexivity. }
  destruct (rp_sense (rowp_at p i)); simpl; auto.
Qed.
Lemma vplus_integral keep v w : all_integral v -> all_integral w -> all_integral (vplus keep v w).
Proof.
  intros A B j q H. unfold vplus in H. apply in_app_iff in H as [H|H]; apply filter_In in H as (H & _).
  - apply in_map_iff in H as ((k, r) & E & H). injection E as <- <-. simpl. apply integral_plus; [apply (A k r H)|apply coef_integral; exact B].
  - apply filter_In in H as (H & _). apply (B j q H).
Qed.
Lemma scale_integral q v : integral q -> all_integral v -> all_integral (scale q v).
Proof.
  intros I1 A j r H. unfold scale in H. apply in_map_iff in H as ((k, s) & E & H). injection E as <- <-. simpl.
  apply integral_mult; [exact I1|apply (A k s H)].
Qed.
Lemma aggregate_integral keep p m act a j i :
  network_rows m -> all_integral (ag_row a) -> (j < p_ncols p)%nat -> m_int m j = false ->
  usable_row p m (ag_rows a) j i = true -> all_integral (ag_row (aggregate keep p m act a j i)).
Proof.
  intros N A Lj Ij Us. unfold aggregate. cbn [ag_row]. cbv zeta. unfold vminus.
  apply vplus_integral; [exact A|]. apply scale_integral; [exists (-1)%Z; reflexivity|].
  apply scale_integral; [|apply copyRow_integral; exact N].
  rewrite coef_copy by exact Lj. unfold usable_row in Us. apply andb_true_iff in Us as (Us & U4). qb.
  assert (K : coef (row_at m i) j == 0 \/ coef (row_at m i) j == 1 \/ coef (row_at m i) j == - (1)).
  { unfold coef. destruct (find _ (row_at m i)) as [(k, q)|] eqn:Fd; [|left; reflexivity].
    apply find_some in Fd as (Fd & E). simpl in E. apply Nat.eqb_eq in E. subst k.
    apply row_at_in in Fd as (r & R1 & R2). apply (N r j q R1 R2). exact Ij. }
  destruct (coef_integral _ j A) as (z & Ez). destruct K as [K|[K|K]].
  - rewrite K in U4. exfalso. revert U4. vm_compute. discriminate.
  - exists z. rewrite K, Ez. field.
  - exists (- z)%Z. rewrite K, Ez, inject_Z_opp. field.
Qed.
Lemma more_integral keep p m x act : network_rows m -> forall k a b, all_integral (ag_row a) ->
  In b (more keep p m x act k a) -> all_integral (ag_row b).
Proof.
  intro N. induction k as [|k IH]; intros a b A H; (destruct H as [<-|H]; [exact A|]); [destruct H|].
  destruct (selectRow p m x a) as [(j, i)|] eqn:S; [|destruct H].
  unfold selectRow in S. apply (select_small p m x) in S as (S1 & S2 & S3); [|discriminate].
  apply IH in H; [exact H|]. apply aggregate_integral; assumption.
Qed.
Theorem C24_network_valid sqrt srt keep maxaggr mult crit mode g0 ops c cs g' cs' cut :
  lib_ok srt keep -> mg_construct maxaggr mult crit mode = Done g0 ->
  Forall (op_ok (c_mip c)) ops ->
  wf_mip (c_mip c) -> network_rows (c_mip c) -> clear_rows (c_mip c) -> integral_uppers (c_mip c) -> nonneg_ints (c_mip c) ->
  generateCuts sqrt srt keep (run g0 ops) c cs = Done (g', cs') ->
  In cut cs' -> In cut cs \/ keeps_all (c_mip c) cut.
Proof.
  intros L Cn F W Nw C U N G H. destruct (in_dec rowcut_dec cut cs) as [I1|N1]; [left; exact I1|right].
  intros y Fy.
  assert (Cl : prep_ok (mg_prep (prepared (run g0 ops) c)) (c_mip c) y -> run_clear keep (run g0 ops) c);
    [|destruct (cuts_valid_at _ _ _ _ _ _ _ _ _ _ _ _ _ _ y L Cn F W C U Fy Cl G H); [contradiction|assumption]].
  intros P a Ha. apply (nonneg_agg_clear keep) with (3 := proj1 (proj2 Fy)) (5 := Ha); auto; [apply L|].
  intros j q Hj. apply integral_clear.
  unfold aggregates in Ha. apply in_flat_map in Ha as (i & _ & Ha).
  apply more_integral in Ha; [apply (Ha j q Hj)|exact Nw|]. unfold start. cbn [ag_row]. cbv zeta. apply copyRow_integral. exact Nw.
Qed.
Print Assumptions C24_network_valid.

(** ** C41: calls do not throw, and every new cut is violated *)
Lemma vb_integer c0 upper j b :
  (if upper : bool then p_vub (preprocess c0) j else p_vlb (preprocess c0) j) = Some b -> m_int (c_mip c0) (vb_var b) = true.
Proof.
  intro H.
  assert (F : exists rr, In rr (combine (map (fun ir => row_prep (c_mip c0) (c_act c0 (fst ir)) (snd ir)) (combine (seq 0 (length (m_rows (c_mip c0)))) (m_rows (c_mip c0)))) (m_rows (c_mip c0))) /\
    var_bound (c_mip c0) (r_form (snd rr)) = (j, b) /\
    (rp_type (fst rr) = (if upper then RVarUB else RVarLB) \/ rp_type (fst rr) = RVarEQ)).
  { destruct upper; apply vb_fold in H as [H|H]; try discriminate; exact H. }
  destruct F as (rr & I1 & V & T). apply in_prep_rows in I1 as (_ & act & E). rewrite E in T.
  assert (T1 : rp_type (row_prep (c_mip c0) act (snd rr)) = RVarUB \/ rp_type (row_prep (c_mip c0) act (snd rr)) = RVarLB \/
    rp_type (row_prep (c_mip c0) act (snd rr)) = RVarEQ) by (destruct upper; tauto). clear T H E.
  unfold row_prep in T1. cbn [rp_type] in T1. set (m := c_mip c0) in *. set (v := r_form (snd rr)) in *.
  revert T1. match goal with |- context [determineRowType m v ?s ?r] => generalize s, r end. intros s rhs T1.
  assert (One : count (big_int m) v = 1%nat).
  { unfold determineRowType in T1. destruct v as [|e0 v0] eqn:Ef; [destruct T1 as [T|[T|T]]; discriminate|]. rewrite <- Ef in *.
    cbv zeta in T1. fold (big_int m) in T1. fold (big_cont m) in T1. clear Ef e0 v0.
    destruct s; try (destruct T1 as [T|[T|T]]; discriminate);
      (destruct (_ && _) in T1; [|destruct (Nat.eqb _ 0) in T1; destruct T1 as [T|[T|T]]; discriminate]);
      (destruct (_ && _ && _) eqn:E2 in T1; [|destruct T1 as [T|[T|T]]; discriminate]);
      apply andb_true_iff in E2 as (E2 & _); apply andb_true_iff in E2 as (E2 & _); apply Nat.eqb_eq in E2; exact E2. }
  apply one_entry in One. unfold var_bound in V. fold (big_int m) in V. fold (big_cont m) in V. injection V as _ V. subst b. cbn [vb_var].
  assert (I1 : In (last_entry (big_int m) v) (filter (big_int m) v)) by (rewrite One; simpl; auto).
  apply filter_In in I1 as (_ & I2). unfold big_int in I2 at 1. apply andb_true_iff in I2 as (_ & I2). exact I2.
Qed.
Definition grown (m : mip) (o : op) : Prop := match o with OpGenerate c => extends (c_mip c) m | _ => True end.
Definition cache_of (m : mip) (g : mirgen) : Prop :=
  mg_done g = true -> exists c0, mg_prep g = preprocess c0 /\ extends (c_mip c0) m.
Lemma prepared_of m g c : extends (c_mip c) m -> cache_of m g ->
  exists c0, mg_prep (prepared g c) = preprocess c0 /\ extends (c_mip c0) m.
Proof.
  intros X K. unfold prepared. destruct (must_preprocess g c) eqn:M; simpl; [eauto|]. apply K, (must_not g c M).
Qed.
Lemma run_of m ops : forall g, Forall (grown m) ops -> cache_of m g -> cache_of m (run g ops).
Proof.
  induction ops as [|o ops IH]; simpl; intros g F K; [exact K|]. inversion F as [|? ? O F']; subst. apply IH; [assumption|].
  destruct o; simpl in *.
  - unfold setMAXAGGR. destruct (_ <? _)%Z; exact K.
  - exact K.
  - unfold setCRITERION. destruct (_ && _); exact K.
  - unfold setDoPreproc. destruct (_ && _); exact K.
  - discriminate.
  - intros _. apply prepared_of; tauto.
Qed.
(** With the library's operators ([all]: cancelled entries are stored), no
    hypothesis on tolerances, bounds or feasibility. *)
Theorem C41_never_throws sqrt srt maxaggr mult crit mode g0 ops c cs :
  mg_construct maxaggr mult crit mode = Done g0 -> Forall (grown (c_mip c)) ops -> wf_mip (c_mip c) ->
  exists g' cs', generateCuts sqrt srt all (run g0 ops) c cs = Done (g', cs').
Proof.
  intros Cn F W.
  destruct (prepared_of _ (run g0 ops) c (extends_refl _)) as (c0 & P & X).
  { apply run_of; [exact F|]. unfold cache_of. rewrite (construct_fresh _ _ _ _ _ Cn). discriminate. }
  unfold generateCuts. cbv zeta.
  destruct (Nat.ltb_spec (length (m_rows (c_mip c))) (length (p_rows (mg_prep (prepared (run g0 ops) c))))) as [L|_].
  { exfalso. rewrite P, prep_len in L. destruct X as (_ & (ex & X) & _). rewrite X, app_length in L. lia. }
  assert (Rw : forall i, NoDup (map fst (row_at (c_mip c) i)) /\ forall j, In j (map fst (row_at (c_mip c) i)) -> (j < m_ncols (c_mip c))%nat).
  { intro i. unfold row_at. fold no_row. destruct (nth_in_or_default i (m_rows (c_mip c)) no_row) as [I1|E].
    - destruct (W _ I1) as (W1 & W2). split; [exact W1|]. intros j Hj. apply in_map_iff in Hj as ((k, q) & <- & Hj). apply (W2 k q Hj).
    - rewrite E. split; [constructor|intros j []]. }
  destruct X as (X1 & _ & X3).
  destruct (generate_total sqrt srt (mg_criterion (prepared (run g0 ops) c)) (mg_prep (prepared (run g0 ops) c)) (c_mip c) (c_x c) (c_act c))
    with (n := Z.to_nat (mg_maxaggr (prepared (run g0 ops) c))) (mult := mg_multiply (prepared (run g0 ops) c)) (cs := cs) as (cs' & E).
  - intros i j Hj. rewrite P. simpl. rewrite <- X1. apply (Rw i). exact Hj.
  - intro i. apply (Rw i).
  - intros j b Hb. rewrite P in Hb. rewrite X3. apply (vb_integer c0 true j b Hb).
  - intros j b Hb. rewrite P in Hb. rewrite X3. apply (vb_integer c0 false j b Hb).
  - rewrite E. cbn [bind]. eauto.
Qed.
Print Assumptions C41_never_throws.

(** The square of the Euclidean norm *)
Fixpoint norm2 (v : vec) : Q := match v with [] => 0 | (_, a) :: v' => a * a + norm2 v' end.
Lemma norm2_fold (v : vec) : forall s, fold_left (fun s e => s + snd e * snd e) v s == s + norm2 v.
Proof. induction v as [|(j, a) v IH]; simpl; intro s; [ring|]. rewrite IH. ring. Qed.
Theorem C41_cuts_violated sqrt srt keep g c cs g' cs' cut :
  (forall a b, a == b -> sqrt a == sqrt b) ->
  generateCuts sqrt srt keep g c cs = Done (g', cs') -> In cut cs' ->
  In cut cs \/
  rc_lb cut = None /\ exists u, rc_ub cut = Some u /\ u < value (rc_form cut) (c_x c) /\
    (1 # 10000) * sqrt (norm2 (rc_form cut)) < value (rc_form cut) (c_x c) - u /\
    forall j a, In (j, a) (rc_form cut) -> (1 # 1000000000000) < Qabs a.
Proof.
  intros Sq G H. unfold generateCuts in G. cbv zeta in G. destruct (_ <? _)%nat; [discriminate|].
  apply bind_done in G as (cs1 & G & E). apply Done_inj in E. injection E as _ <-.
  set (good := fun cut => rc_lb cut = None /\ exists u, rc_ub cut = Some u /\ u < value (rc_form cut) (c_x c) /\
    (1 # 10000) * sqrt (norm2 (rc_form cut)) < value (rc_form cut) (c_x c) - u /\
    forall j a, In (j, a) (rc_form cut) -> (1 # 1000000000000) < Qabs a).
  assert (K : forall cut, In cut cs1 -> In cut cs \/ good cut); [|apply K; exact H].
  clear cut H. revert G. unfold generateMirCuts.
  apply (ofold_inv (fun cs' => forall cut, In cut cs' -> In cut cs \/ good cut)); [|auto].
  intros s a s' _ Hs E. revert E. apply (ofold_inv (fun cs' => forall cut, In cut cs' -> In cut cs \/ good cut)); [|exact Hs].
  intros s1 neg s2 _ Hs1 E cut Hc. unfold try_row in E. cbv zeta in E.
  destruct (boundSubstitution _ _ _ _ _ _ _) as [k|] in E; [|apply Done_inj in E; subst; auto].
  destruct (_ <? _)%Z; [apply Done_inj in E; subst; auto|].
  apply bind_done in E as (o & E1 & E2). apply Done_inj in E2. subst s2.
  destruct o as [r|]; [|auto]. apply insert_new_in in Hc as [Hc| ->]; [auto|]. right.
  unfold cMirSeparation in E1. destruct (bestMir _ _ _ _ _); [|discriminate].
  apply bind_done in E1 as ((v, b) & _ & E1). apply Done_inj in E1. cbn [fst snd] in E1. unfold finish in E1.
  destruct (fold_left _ v (Some b)) as [u|]; [|discriminate]. cbv zeta in E1. destruct (_ && _) eqn:V; [|discriminate].
  apply Some_inj in E1. subst r. apply andb_true_iff in V as (V1 & V2). qb. unfold good. cbn [rc_lb rc_ub rc_form]. split; [reflexivity|].
  exists u. conjs; [reflexivity|lra| |].
  - unfold tol in V2. rewrite <- (Sq _ _ (Qeq_trans _ _ _ (norm2_fold _ _) (Qplus_0_l _))). exact V2.
  - intros j q Hj. apply filter_In in Hj as (_ & Hj). unfold tiny in Hj. simpl in Hj. qb. exact Hj.
Qed.
Print Assumptions C41_cuts_violated.

(** ** C16 for this generator *)
Definition mode_step (z : Z) (o : op) : Z :=
  match o with OpMode v => if existsb (Z.eqb v) [-1; 0; 1]%Z then v else z | _ => z end.
Theorem C16_mir_mode_setter g v :
  (exists g', setDoPreproc g v = Done g' /\ mg_mode g' = v /\ getDoPreproc g' = negb (v =? 0)%Z /\
     mg_maxaggr g' = mg_maxaggr g /\ mg_multiply g' = mg_multiply g /\ mg_criterion g' = mg_criterion g /\
     (v = -1 \/ v = 0 \/ v = 1)%Z) \/
  (setDoPreproc g v = Throws /\ ~ (v = -1 \/ v = 0 \/ v = 1)%Z).
Proof.
  unfold setDoPreproc.
  destruct (Z.eqb_spec v (-1)) as [A|A], (Z.eqb_spec v 0) as [B|B], (Z.eqb_spec v 1) as [C|C]; try lia; simpl;
    try (left; eexists; split; [reflexivity|]; subst v; simpl; unfold getDoPreproc; simpl; conjs; auto; fail).
  right. split; [reflexivity|lia].
Qed.
Print Assumptions C16_mir_mode_setter.
Theorem C16_mir_mode_history maxaggr mult crit mode g0 ops :
  mg_construct maxaggr mult crit mode = Done g0 ->
  mg_mode (run g0 ops) = fold_left mode_step ops mode /\
  (getDoPreproc (run g0 ops) = true <-> fold_left mode_step ops mode <> 0%Z).
Proof.
  intro Cn.
  assert (K : forall ops g, mg_mode (run g ops) = fold_left mode_step ops (mg_mode g)).
  { clear. induction ops as [|o ops IH]; intro g; [reflexivity|]. simpl. rewrite IH. f_equal. destruct o; simpl.
    - unfold setMAXAGGR. destruct (_ <? _)%Z; reflexivity.
    - reflexivity.
    - unfold setCRITERION. destruct (_ && _); reflexivity.
    - destruct (C16_mir_mode_setter g v) as [(g' & E & M & _ & _ & _ & _ & V)|(E & V)]; rewrite E; simpl.
      + rewrite M. destruct V as [->|[->| ->]]; reflexivity.
      + destruct (Z.eqb_spec v (-1)), (Z.eqb_spec v 0), (Z.eqb_spec v 1); try (exfalso; tauto). reflexivity.
    - reflexivity.
    - unfold prepared. destruct (must_preprocess g c); reflexivity. }
  assert (M : mg_mode g0 = mode).
  { unfold mg_construct in Cn. destruct (negb _) in Cn; [discriminate|]. destruct (negb _) in Cn; [discriminate|].
    destruct (negb _) in Cn; [discriminate|]. apply Done_inj in Cn. subst g0. reflexivity. }
  rewrite <- M. split; [apply K|]. unfold getDoPreproc. rewrite K, negb_true_iff, Z.eqb_neq. tauto.
Qed.
Print Assumptions C16_mir_mode_history.
(** The constructor accepts 2, which the setter refuses. *)
Theorem C16_mir_constructor_differs :
  exists g, mg_construct 1 true 1 2 = Done g /\ mg_mode g = 2%Z /\ setDoPreproc g 2 = Throws.
Proof. eexists. conjs; reflexivity. Qed.

(** ** C39 for this generator *)
Definition fresh (g : mirgen) : mirgen := MirGen (mg_maxaggr g) (mg_multiply g) (mg_criterion g) (mg_mode g) false p_none.
Definition cuts_of (o : outcome (mirgen * list rowcut)) : outcome (list rowcut) := do gc <- o ; Done (snd gc).
Theorem C39_mir_history_does_not_matter sqrt srt keep g c cs :
  (mg_mode g = 1%Z -> cuts_of (generateCuts sqrt srt keep g c cs) = cuts_of (generateCuts sqrt srt keep (fresh g) c cs)) /\
  cuts_of (generateCuts sqrt srt keep (refreshSolver g) c cs) = cuts_of (generateCuts sqrt srt keep (fresh g) c cs).
Proof.
  assert (P : forall h, mg_done h = false -> must_preprocess h c = true).
  { intros h D. unfold must_preprocess. rewrite D. destruct (_ && _); [reflexivity|]. destruct (_ =? _)%Z; reflexivity. }
  split.
  - intro M. assert (X : must_preprocess g c = true).
    { unfold must_preprocess. rewrite M. simpl. rewrite andb_false_r. reflexivity. }
    unfold generateCuts, prepared. rewrite X, (P (fresh g)) by reflexivity. reflexivity.
  - unfold generateCuts, prepared. rewrite (P (refreshSolver g)), (P (fresh g)) by reflexivity. reflexivity.
Qed.
Print Assumptions C39_mir_history_does_not_matter.
Theorem C39_mir_same_model sqrt srt keep g c1 c2 cs g1 cs1 :
  generateCuts sqrt srt keep (fresh g) c1 [] = Done (g1, cs1) ->
  c_mip c2 = c_mip c1 -> (forall i, c_act c2 i = c_act c1 i) ->
  cuts_of (generateCuts sqrt srt keep g1 c2 cs) = cuts_of (generateCuts sqrt srt keep (fresh g) c2 cs).
Proof.
  intros G M A.
  assert (P : forall c, must_preprocess (fresh g) c = true).
  { intro c. unfold must_preprocess. simpl. destruct (_ && _); [reflexivity|]. destruct (_ =? _)%Z; reflexivity. }
  assert (Pr : preprocess c1 = preprocess c2).
  { unfold preprocess. rewrite M.
    assert (Q : map (fun ir => row_prep (c_mip c1) (c_act c1 (fst ir)) (snd ir)) (combine (seq 0 (length (m_rows (c_mip c1)))) (m_rows (c_mip c1))) =
                map (fun ir => row_prep (c_mip c1) (c_act c2 (fst ir)) (snd ir)) (combine (seq 0 (length (m_rows (c_mip c1)))) (m_rows (c_mip c1)))).
    { apply map_ext. intros [i r]. simpl. rewrite A. reflexivity. }
    rewrite Q. reflexivity. }
  unfold generateCuts, prepared in G. rewrite P in G. cbv zeta in G. destruct (_ <? _)%nat; [discriminate|].
  apply bind_done in G as (cs2 & _ & G). apply Done_inj in G. injection G as <- _.
  unfold generateCuts, prepared. rewrite P. destruct (must_preprocess _ c2); [reflexivity|].
  cbn [mg_maxaggr mg_multiply mg_criterion mg_mode mg_done mg_prep fresh]. rewrite Pr. reflexivity.
Qed.
Print Assumptions C39_mir_same_model.

(** ** Examples and refutations *)
(** A square root with three decimals. *)
Definition rsqrt (q : Q) : Q := inject_Z (Z.sqrt (Qfloor (q * 1000000))) / 1000.
Lemma ex_lib : lib_ok (fun v => v) all.
Proof. split; [intro v; apply Permutation_refl|discriminate]. Qed.
(** y - s <= 1, s - t <= b; y is integer and in [0, 10]. *)
Definition ex_mip (b : Q) : mip :=
  Mip 3 [Row [(0%nat, 1); (1%nat, - (1))] None (Some 1); Row [(1%nat, 1); (2%nat, - (1))] None (Some b)]
    (fun _ => Some 0) (fun _ => Some 10) (fun j => Nat.eqb j 0).
Definition ex_x (j : nat) : Q := match j with 0%nat => 5 # 2 | 1%nat => 3 # 2 | _ => 0 end.
Definition ex_act (i : nat) : Q := match i with 0%nat => 1 | _ => 3 # 2 end.
Definition ex_call (b : Q) (x : nat -> Q) : call := Call (ex_mip b) x ex_act false false.
Ltac rows_of H := repeat (destruct H as [H|H]; [try injection H as <- <-|]); try (destruct H; fail).
Lemma ex_clear b : eps < b -> clear_rows (ex_mip b) /\ wf_mip (ex_mip b) /\ network_rows (ex_mip b).
Proof.
  intro B. conjs.
  - intros r [<-|[<-|[]]]; simpl; conjs; auto; try (intros j a H; rows_of H; [apply clear_one|apply clear_mone]); [apply clear_one|].
    right. rewrite Qabs_pos; [exact B|]. assert (0 < eps) by reflexivity. lra.
  - intros r [<-|[<-|[]]]; simpl; (split; [repeat constructor; simpl; intuition discriminate|]); intros j a H; rows_of H; lia.
  - intros r j a [<-|[<-|[]]] H; simpl in H; rows_of H;
      (split; [solve [exists 1%Z; reflexivity|exists (-1)%Z; reflexivity]|intros _; right; auto with qarith]).
    all: solve [left; reflexivity|right; reflexivity].
Qed.
Lemma ex_bounds b : integral_uppers (ex_mip b) /\ nonneg_ints (ex_mip b).
Proof.
  split; [|intros j _ _; simpl; lra]. intros j u _ _ H. simpl in H. injection H as <-. exists 10%Z. reflexivity.
Qed.
(** Two calls, the second with two rows aggregated: the cut is y <= 2 + 2 t. *)
Example C24_example :
  let c := ex_call (3 # 2) ex_x in
  let ops := [OpGenerate (ex_call (3 # 2) (fun _ => 0)); OpMaxAggr 2; OpCriterion 3; OpMaxAggr 0] in
  Forall (op_ok (c_mip c)) ops /\ wf_mip (c_mip c) /\ network_rows (c_mip c) /\ clear_rows (c_mip c) /\
  integral_uppers (c_mip c) /\ nonneg_ints (c_mip c) /\
  match generateCuts rsqrt (fun v => v) all (run mg_new ops) c [] with
  | Done (_, [RowCut form None (Some ub)]) =>
      ub == 2 /\ value form ex_x == (5 # 2) /\ coef form 0 == 1 /\ coef form 1 == 0 /\ coef form 2 == - (2)
  | _ => False
  end.
Proof.
  cbv zeta. destruct (ex_clear (3 # 2) eq_refl) as (A & B & C). destruct (ex_bounds (3 # 2)) as (D & E).
  conjs; auto.
  - constructor; [split; [apply extends_refl|exact A]|repeat constructor].
  - vm_compute. conjs; reflexivity.
Qed.
(** With one row at a time there is no cut at this point, and there is one when
    the first row has a fractional right-hand side. *)
Definition one_mip (b : Q) : mip :=
  Mip 2 [Row [(0%nat, 1); (1%nat, - (1))] None (Some b)] (fun _ => Some 0) (fun _ => Some 10) (fun j => Nat.eqb j 0).
Definition one_x (j : nat) : Q := match j with 0%nat => 5 # 2 | _ => 0 end.
Definition one_call (b : Q) : call := Call (one_mip b) one_x (fun _ => b) false false.
Definition one_cut : rowcut := RowCut [(0%nat, 1); (1%nat, - (2))] None (Some 2).
Definition cuts_are (o : outcome (mirgen * list rowcut)) (c : rowcut) : Prop :=
  match o with
  | Done (_, [d]) => forall y, rowcut_sat d y <-> rowcut_sat c y
  | _ => False
  end.
Lemma sat_iff f u f' u' : (forall y, value f y - u == value f' y - u') ->
  forall y, rowcut_sat (RowCut f None (Some u)) y <-> rowcut_sat (RowCut f' None (Some u')) y.
Proof. intros H y. specialize (H y). unfold rowcut_sat. simpl. split; intros (_ & K); split; auto; lra. Qed.
Example C24_one_example :
  mg_maxaggr mg_new = 1%Z /\ cuts_are (generateCuts rsqrt (fun v => v) all mg_new (one_call (5 # 2)) []) one_cut.
Proof.
  split; [reflexivity|]. unfold cuts_are.
  destruct (generateCuts _ _ _ _ _ _) as [(g, cs)| | | |] eqn:E; try (vm_compute in E; discriminate).
  vm_compute in E. inversion E; subst. apply sat_iff. intro y. simpl. ring.
Qed.

(** A coefficient below the tolerance is dropped though its column is large:
    y - s - 0.0000001 t <= 2.5 gives y <= 2 + 2 s, which cuts off
    y = 3, s = 0, t = 5000000. *)
Definition tiny_mip : mip :=
  Mip 3 [Row [(0%nat, 1); (1%nat, - (1)); (2%nat, - (1 # 10000000))] None (Some (5 # 2))]
    (fun _ => Some 0) (fun j => match j with 2%nat => Some 10000000 | _ => Some 10 end) (fun j => Nat.eqb j 0).
Theorem C24_tiny_coefficient_refuted :
  exists c g' cs' cut y,
    wf_mip (c_mip c) /\ integral_uppers (c_mip c) /\ nonneg_ints (c_mip c) /\ feasible (c_mip c) y /\
    generateCuts rsqrt (fun v => v) all mg_new c [] = Done (g', cs') /\ In cut cs' /\ ~ rowcut_sat cut y.
Proof.
  destruct (generateCuts rsqrt (fun v => v) all mg_new (Call tiny_mip one_x (fun _ => 5 # 2) false false) []) as [(g, cs)| | | |] eqn:E;
    try (vm_compute in E; discriminate).
  exists (Call tiny_mip one_x (fun _ => 5 # 2) false false), g, cs.
  vm_compute in E. inversion E; subst. clear E. eexists.
  exists (fun j => match j with 0%nat => 3 | 1%nat => 0 | _ => 5000000 end).
  assert (W : wf_mip tiny_mip).
  { intros r [<-|[]]; simpl. split; [repeat constructor; simpl; intuition discriminate|].
    intros j a H. rows_of H; lia. }
  conjs; [exact W| | | |reflexivity|left; reflexivity|].
  - intros j u _ H K. simpl in *. destruct j as [|j]; [|discriminate]. injection K as <-. exists 10%Z. reflexivity.
  - intros j _ _. simpl. lra.
  - unfold feasible. conjs.
    + intros r [<-|[]]. split; simpl; [exact I|]. apply Qle_bool_iff. vm_compute. reflexivity.
    + intros j Hj. simpl in Hj. destruct j as [|[|[|j]]]; simpl; split; try (apply Qle_bool_iff; vm_compute; reflexivity). all: lia.
    + intros j _ H. destruct j as [|j]; [exists 3%Z; reflexivity|discriminate].
  - intros (_ & K). vm_compute in K. apply K. reflexivity.
Qed.
Print Assumptions C24_tiny_coefficient_refuted.

(** An integer column with the upper bound 2.5 is complemented with that bound:
    y + z - s <= 3.2 gives a cut that excludes y = 2, z = 1, s = 0. *)
Definition frac_mip : mip :=
  Mip 3 [Row [(0%nat, 1); (1%nat, 1); (2%nat, - (1))] None (Some (16 # 5))]
    (fun _ => Some 0) (fun j => match j with 0%nat => Some (5 # 2) | _ => Some 10 end) (fun j => Nat.ltb j 2).
Definition frac_x (j : nat) : Q := match j with 0%nat => 2 | 1%nat => 6 # 5 | _ => 0 end.
Theorem C24_fractional_upper_refuted :
  exists c g' cs' cut y,
    wf_mip (c_mip c) /\ clear_rows (c_mip c) /\ nonneg_ints (c_mip c) /\ feasible (c_mip c) y /\
    generateCuts rsqrt (fun v => v) all mg_new c [] = Done (g', cs') /\ In cut cs' /\ ~ rowcut_sat cut y.
Proof.
  destruct (generateCuts rsqrt (fun v => v) all mg_new (Call frac_mip frac_x (fun _ => 16 # 5) false false) []) as [(g, cs)| | | |] eqn:E;
    try (vm_compute in E; discriminate).
  exists (Call frac_mip frac_x (fun _ => 16 # 5) false false), g, cs.
  vm_compute in E. inversion E; subst. clear E. eexists.
  exists (fun j => match j with 0%nat => 2 | 1%nat => 1 | _ => 0 end).
  conjs; [| | | |reflexivity|left; reflexivity|].
  - intros r [<-|[]]; simpl. split; [repeat constructor; simpl; intuition discriminate|].
    intros j a H. rows_of H; lia.
  - intros r [<-|[]]; simpl; conjs; auto; [intros j a H; rows_of H; solve [apply clear_one|apply clear_mone]|].
    right. vm_compute. reflexivity.
  - intros j _ _. simpl. lra.
  - unfold feasible. conjs.
    + intros r [<-|[]]. split; simpl; [exact I|]. apply Qle_bool_iff. vm_compute. reflexivity.
    + intros j Hj. simpl in Hj. destruct j as [|[|[|j]]]; simpl; split; try (apply Qle_bool_iff; vm_compute; reflexivity). all: lia.
    + intros j _ H. destruct j as [|[|j]]; [exists 2%Z; reflexivity|exists 1%Z; reflexivity|discriminate].
  - intros (_ & K). vm_compute in K. apply K. reflexivity.
Qed.
Print Assumptions C24_fractional_upper_refuted.

(** The right-hand sides are those of the first model, so a later call on a
    model with a larger one gives an invalid cut. *)
Theorem C24_changed_rows_refuted :
  exists c1 c2 g' cs' cut y,
    wf_mip (c_mip c2) /\ clear_rows (c_mip c1) /\ clear_rows (c_mip c2) /\ integral_uppers (c_mip c2) /\ nonneg_ints (c_mip c2) /\
    feasible (c_mip c2) y /\
    generateCuts rsqrt (fun v => v) all (run mg_new [OpGenerate c1]) c2 [] = Done (g', cs') /\
    In cut cs' /\ ~ rowcut_sat cut y.
Proof.
  destruct (generateCuts rsqrt (fun v => v) all (run mg_new [OpGenerate (one_call (5 # 2))]) (one_call (7 # 2)) []) as [(g, cs)| | | |] eqn:E;
    try (vm_compute in E; discriminate).
  exists (one_call (5 # 2)), (one_call (7 # 2)), g, cs.
  assert (Cl : forall b, eps < b -> clear_rows (one_mip b)).
  { intros b B r [<-|[]]; simpl; conjs; auto; [intros j a H; rows_of H; solve [apply clear_one|apply clear_mone]|].
    right. rewrite Qabs_pos; [exact B|]. assert (0 < eps) by reflexivity. lra. }
  vm_compute in E. inversion E; subst. clear E. eexists.
  exists (fun j => match j with 0%nat => 3 | _ => 0 end).
  conjs; [|apply Cl; reflexivity|apply Cl; reflexivity| | | |reflexivity|left; reflexivity|].
  - intros r [<-|[]]; simpl. split; [repeat constructor; simpl; intuition discriminate|].
    intros j a H. rows_of H; lia.
  - intros j u _ H K. simpl in *. injection K as <-. exists 10%Z. reflexivity.
  - intros j _ _. simpl. lra.
  - unfold feasible. conjs.
    + intros r [<-|[]]. split; simpl; [exact I|]. apply Qle_bool_iff. vm_compute. reflexivity.
    + intros j Hj. simpl in Hj. destruct j as [|[|j]]; simpl; split; try (apply Qle_bool_iff; vm_compute; reflexivity). all: lia.
    + intros j _ H. destruct j as [|j]; [exists 3%Z; reflexivity|discriminate].
  - intros (_ & K). vm_compute in K. apply K. reflexivity.
Qed.
Print Assumptions C24_changed_rows_refuted.
(** A later model with fewer rows makes the call throw. *)
Theorem C41_fewer_rows_refuted :
  exists c1 c2, wf_mip (c_mip c2) /\ wf_mip (c_mip c1) /\
    generateCuts rsqrt (fun v => v) all (run mg_new [OpGenerate c1]) c2 [] = Throws.
Proof.
  exists (ex_call (3 # 2) ex_x), (one_call (5 # 2)). conjs; [|apply (ex_clear (3 # 2) eq_refl)|vm_compute; reflexivity].
  intros r [<-|[]]; simpl. split; [repeat constructor; simpl; intuition discriminate|].
  intros j a H. rows_of H; lia.
Qed.
Print Assumptions C41_fewer_rows_refuted.
Example C41_example :
  let c := ex_call (3 # 2) ex_x in
  Forall (grown (c_mip c)) [OpGenerate c; OpMaxAggr 5] /\ wf_mip (c_mip c) /\
  match generateCuts rsqrt (fun v => v) all (run mg_new [OpGenerate c; OpMaxAggr 5]) c [] with
  | Done (_, _ :: _) => True | _ => False end.
Proof.
  cbv zeta. conjs; [|apply (ex_clear (3 # 2) eq_refl)|vm_compute; exact I].
  constructor; [apply extends_refl|repeat constructor].
Qed.
Example C16_mir_example :
  getDoPreproc (run mg_new [OpMode 0; OpMode 7; OpRefresh]) = false /\
  getDoPreproc (run mg_new [OpMode 0; OpMode 1; OpMode (-3)]) = true.
Proof. split; reflexivity. Qed.
