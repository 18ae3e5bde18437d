(** * Lemmas for CglMixedIntegerRounding *)

From Coq Require Import Qabs Permutation.
From Verif Require Import Base.
From Verif Require Model_ResidualCapacity Proofs_ResidualCapacity Props_ResidualCapacity.
From Verif Require Import Proofs_MirCore Model_MIR.
Local Open Scope Q_scope.

Notation sumq := Model_ResidualCapacity.sumq.
Notation clear_of := Props_ResidualCapacity.clear_of.

(** ** Packed vectors *)
Lemma has_in v j : has v j = true <-> In j (map fst v).
Proof.
  unfold has. rewrite existsb_exists, in_map_iff. split.
  - intros (e & I1 & E). apply Nat.eqb_eq in E. eauto.
  - intros (e & E & I1). exists e. split; [exact I1|]. apply Nat.eqb_eq. exact E.
Qed.
Lemma has_not v j : has v j = false <-> ~ In j (map fst v).
Proof. rewrite <- has_in. destruct (has v j); split; intro; congruence. Qed.
Lemma coef_cons k b v j : coef ((k, b) :: v) j = if Nat.eqb k j then b else coef v j.
Proof. unfold coef. simpl. destruct (Nat.eqb k j); reflexivity. Qed.
Lemma coef_out v j : ~ In j (map fst v) -> coef v j = 0.
Proof.
  intro N. unfold coef. destruct (find _ v) as [e|] eqn:F; [|reflexivity].
  apply find_some in F as (I1 & E). apply Nat.eqb_eq in E. destruct N. rewrite <- E. apply in_map. exact I1.
Qed.
Lemma coef_in v j a : NoDup (map fst v) -> In (j, a) v -> coef v j = a.
Proof.
  induction v as [|(k, b) v IH]; intros N I1; [destruct I1|]. rewrite coef_cons.
  simpl in N. inversion N as [|? ? N1 N2]; subst. destruct I1 as [E|I1].
  - injection E as -> ->. rewrite Nat.eqb_refl. reflexivity.
  - destruct (Nat.eqb k j) eqn:E; [|auto]. apply Nat.eqb_eq in E. subst k.
    destruct N1. apply (in_map fst) in I1. exact I1.
Qed.
Lemma nodup_filter (f : nat * Q -> bool) v : NoDup (map fst v) -> NoDup (map fst (filter f v)).
Proof.
  induction v as [|e v IH]; simpl; intro N; [constructor|]. inversion N as [|? ? N1 N2]; subst.
  destruct (f e); simpl; [|auto]. constructor; [|auto].
  intro X. apply N1. apply in_map_iff in X as (e' & E & X). apply filter_In in X as (X & _).
  rewrite <- E. apply in_map. exact X.
Qed.
Lemma value_filter_zero keep v y :
  (forall e, keep e = false -> snd e == 0) -> value (filter keep v) y == value v y.
Proof.
  intro K. induction v as [|(j, a) v IH]; simpl; [reflexivity|].
  destruct (keep (j, a)) eqn:E; simpl; [rewrite IH; reflexivity|].
  apply K in E. simpl in E. rewrite IH, E. ring.
Qed.
Lemma value_map_coef v w y :
  NoDup (map fst v) -> NoDup (map fst w) ->
  value (map (fun e => (fst e, snd e + coef w (fst e))) v) y
  == value v y + value (filter (fun e => has v (fst e)) w) y.
Proof.
  intros Nv. induction w as [|(k, b) w IH]; intro Nw.
  - simpl. assert (X : forall v, value (map (fun e : nat * Q => (fst e, snd e + coef [] (fst e))) v) y == value v y).
    { induction v0 as [|(j, a) u IHu]; simpl; [reflexivity|]. rewrite IHu. unfold coef. simpl. ring. }
    rewrite X. ring.
  - simpl in Nw. inversion Nw as [|? ? N1 N2]; subst. specialize (IH N2).
    assert (X : forall u, NoDup (map fst u) ->
              value (map (fun e => (fst e, snd e + coef ((k, b) :: w) (fst e))) u) y
              == value (map (fun e => (fst e, snd e + coef w (fst e))) u) y + (if has u k then b * y k else 0)).
    { induction u as [|(j, a) u IHu]; intro Nu; [simpl; ring|]. simpl in Nu. inversion Nu as [|? ? N3 N4]; subst.
      cbn [map value fst snd]. rewrite coef_cons, IHu by exact N4. unfold has at 2. simpl. fold (has u k).
      rewrite (Nat.eqb_sym j k). destruct (Nat.eqb k j) eqn:E; simpl.
      - apply Nat.eqb_eq in E. subst j. rewrite (coef_out w k) by exact N1.
        rewrite (proj2 (has_not u k) N3). ring.
      - ring. }
    rewrite X by exact Nv. rewrite IH. simpl. destruct (has v k); simpl; ring.
Qed.
Lemma value_split (f : nat * Q -> bool) w y :
  value (filter f w) y + value (filter (fun e => negb (f e)) w) y == value w y.
Proof. induction w as [|(k, b) w IH]; simpl; [ring|]. rewrite <- IH. destruct (f (k, b)); simpl; ring. Qed.
Lemma value_vplus keep v w y :
  (forall e, keep e = false -> snd e == 0) -> NoDup (map fst v) -> NoDup (map fst w) ->
  value (vplus keep v w) y == value v y + value w y.
Proof.
  intros K Nv Nw. unfold vplus. rewrite value_app, !value_filter_zero by exact K.
  rewrite value_map_coef by assumption. rewrite <- (value_split (fun e => has v (fst e)) w y). ring.
Qed.
Lemma vplus_in keep v w j : In j (map fst (vplus keep v w)) -> In j (map fst v) \/ In j (map fst w).
Proof.
  unfold vplus. rewrite map_app, in_app_iff. intros [H|H]; apply in_map_iff in H as (e & E & H); apply filter_In in H as (H & _).
  - apply in_map_iff in H as (e' & E' & H). left. subst. simpl. apply in_map. exact H.
  - apply filter_In in H as (H & _). right. subst. apply in_map. exact H.
Qed.
Lemma scale_fst q v : map fst (scale q v) = map fst v.
Proof. unfold scale. rewrite map_map. reflexivity. Qed.
Lemma nodup_vplus keep v w : NoDup (map fst v) -> NoDup (map fst w) -> NoDup (map fst (vplus keep v w)).
Proof.
  intros Nv Nw. unfold vplus. rewrite map_app.
  assert (A : NoDup (map fst (filter keep (map (fun e => (fst e, snd e + coef w (fst e))) v)))).
  { apply nodup_filter. rewrite map_map. exact Nv. }
  assert (B : NoDup (map fst (filter keep (filter (fun e => negb (has v (fst e))) w)))) by (repeat apply nodup_filter; exact Nw).
  assert (C : forall j, In j (map fst (filter keep (map (fun e => (fst e, snd e + coef w (fst e))) v))) ->
              ~ In j (map fst (filter keep (filter (fun e => negb (has v (fst e))) w)))).
  { intros j H1 H2. apply in_map_iff in H1 as (e1 & E1 & H1). apply filter_In in H1 as (H1 & _).
    apply in_map_iff in H1 as (e1' & E1' & H1). apply in_map_iff in H2 as (e2 & E2 & H2).
    apply filter_In in H2 as (H2 & _). apply filter_In in H2 as (_ & H2).
    apply negb_true_iff, has_not in H2. apply H2. rewrite E2, <- E1, <- E1'. simpl. apply in_map. exact H1. }
  revert A C. generalize (map fst (filter keep (map (fun e => (fst e, snd e + coef w (fst e))) v))).
  intros l A C. induction A as [|a l Na _ IH]; simpl; [exact B|].
  constructor.
  - intro X. apply in_app_iff in X as [X|X]; [contradiction|]. apply (C a); simpl; auto.
  - apply IH. intros j H. apply C. simpl. auto.
Qed.
Lemma add_to_value v j d y : value (add_to v j d) y == value v y + d * y j.
Proof.
  induction v as [|(k, a) v IH]; simpl; [ring|]. destruct (Nat.eqb k j) eqn:E; simpl.
  - apply Nat.eqb_eq in E. subst. ring.
  - rewrite IH. ring.
Qed.
Lemma add_to_in v j d i : In i (map fst (add_to v j d)) <-> In i (map fst v) \/ i = j.
Proof.
  induction v as [|(k, a) v IH]; simpl; [intuition|]. destruct (Nat.eqb k j) eqn:E; simpl.
  - apply Nat.eqb_eq in E. subst. intuition.
  - rewrite IH. intuition.
Qed.
Lemma add_to_nodup v j d : NoDup (map fst v) -> NoDup (map fst (add_to v j d)).
Proof.
  induction v as [|(k, a) v IH]; simpl; intro N; [constructor; [intros []|constructor]|].
  inversion N as [|? ? N1 N2]; subst. destruct (Nat.eqb k j) eqn:E; simpl; [exact N|].
  constructor; [|auto]. intro X. apply add_to_in in X as [X| ->]; [contradiction|].
  apply Nat.eqb_neq in E. congruence.
Qed.
Lemma vinsert_done v j a w :
  vinsert v j a = Done w -> w = v ++ [(j, a)] /\ ~ In j (map fst v).
Proof.
  unfold vinsert. destruct (has v j) eqn:H; [discriminate|]. intro E. apply Done_inj in E. subst.
  split; [reflexivity|]. apply has_not. exact H.
Qed.
Lemma nodup_snoc (l : list nat) j : NoDup l -> ~ In j l -> NoDup (l ++ [j]).
Proof.
  intros N H. induction N as [|a l Na N IH]; simpl; [constructor; [intros []|constructor]|].
  constructor.
  - rewrite in_app_iff. intros [X|[X|[]]]; [contradiction|]. apply H. left. auto.
  - apply IH. intro X. apply H. right. exact X.
Qed.

Section Proofs.
  Variable sqrt : Q -> Q.
  Variable srt : vec -> vec.
  Variable keep : nat * Q -> bool.
  Variable crit : Z.
  Variable p : prep.
  Variable m : mip.
  Variable x : nat -> Q.
  Variable act : nat -> Q.
  Variable y : point.
  Hypothesis Srt : forall v, Permutation (srt v) v.
  Hypothesis Keep : forall e, keep e = false -> snd e == 0.

  Notation row_at := (row_at m).
  Notation rowp_at := (rowp_at p).
  Notation copyRow := (copyRow p m act).
  Notation aggregates := (aggregates keep p m x act).
  Notation aggregate := (aggregate keep p m act).
  Notation nc := (p_ncols p).

  (** What preprocessing guarantees at the point [y]. *)
  Definition used_sense (s : sense) : Prop := s = SenseE \/ s = SenseL \/ s = SenseG.
  Definition side_sat (s : sense) (v : vec) (rhs : Q) : Prop :=
    match s with
    | SenseE => value v y == rhs
    | SenseL => value v y <= rhs
    | SenseG => rhs <= value v y
    | _ => True
    end.
  Definition vb_ok (b : vb) : Prop := (vb_var b < nc)%nat /\ m_int m (vb_var b) = true.
  Record prep_ok : Prop := PrepOk {
    po_cols : p_ncols p = m_ncols m;
    po_rows : forall i, (i < length (p_rows p))%nat ->
      NoDup (map fst (row_at i)) /\ (forall j, In j (map fst (row_at i)) -> (j < nc)%nat) /\
      side_sat (rp_sense (rowp_at i)) (row_at i) (rp_rhs (rowp_at i)) /\
      (rp_type (rowp_at i) = RMix \/ rp_type (rowp_at i) = RCont -> used_sense (rp_sense (rowp_at i)));
    po_start : forall i, In i (p_start p) -> (i < length (p_rows p))%nat /\ used_sense (rp_sense (rowp_at i));
    po_vub : forall j b, p_vub p j = Some b -> vb_ok b /\ y j <= vb_val b * y (vb_var b);
    po_vlb : forall j b, p_vlb p j = Some b -> vb_ok b /\ vb_val b * y (vb_var b) <= y j
  }.
  Hypothesis P : prep_ok.
  Hypothesis Bnd : in_bounds m y.
  Hypothesis Int : integer_ok m y.

  (** ** Aggregated rows *)
  Definition slack_val (i : nat) : Q :=
    match rp_sense (rowp_at i) with
    | SenseL => rp_rhs (rowp_at i) - value (row_at i) y
    | _ => value (row_at i) y - rp_rhs (rowp_at i)
    end.
  Definition ext (rows : list nat) (j : nat) : Q :=
    if Nat.ltb j nc then y j else slack_val (nth (j - nc) rows 0%nat).
  Definition is_slack (rows : list nat) (j : nat) : Prop :=
    (nc <= j)%nat /\ (j - nc < length rows)%nat /\
    (rp_sense (rowp_at (nth (j - nc) rows 0%nat)) = SenseL \/ rp_sense (rowp_at (nth (j - nc) rows 0%nat)) = SenseG).
  Record agg_ok (a : agg) : Prop := AggOk {
    ao_nodup : NoDup (map fst (ag_row a));
    ao_idx : forall j, In j (map fst (ag_row a)) -> (j < nc)%nat \/ is_slack (ag_rows a) j;
    ao_rows : forall i, In i (ag_rows a) -> (i < length (p_rows p))%nat;
    ao_eq : value (ag_row a) (ext (ag_rows a)) == ag_rhs a
  }.
  Lemma ext_col rows j : (j < nc)%nat -> ext rows j = y j.
  Proof. intro H. unfold ext. apply Nat.ltb_lt in H. rewrite H. reflexivity. Qed.
  Lemma value_ext_cols rows v : (forall j, In j (map fst v) -> (j < nc)%nat) -> value v (ext rows) == value v y.
  Proof.
    intro H. apply value_ext. intros j a I1. rewrite ext_col; [reflexivity|].
    apply H. apply (in_map fst) in I1. exact I1.
  Qed.
  Lemma copyRow_ok k i rows :
    (i < length (p_rows p))%nat -> used_sense (rp_sense (rowp_at i)) ->
    (k < length rows)%nat -> nth k rows 0%nat = i ->
    NoDup (map fst (fst (copyRow k i))) /\
    (forall j, In j (map fst (fst (copyRow k i))) -> (j < nc)%nat \/ is_slack rows j) /\
    value (fst (copyRow k i)) (ext rows) == rp_rhs (rowp_at i).
  Proof.
    intros Hi Us Hk Nk. destruct (po_rows P i Hi) as (N & W & S & _).
    assert (Sl : forall c, rp_sense (rowp_at i) = SenseL \/ rp_sense (rowp_at i) = SenseG ->
      NoDup (map fst (row_at i ++ [((nc + k)%nat, c)])) /\
      (forall j, In j (map fst (row_at i ++ [((nc + k)%nat, c)])) -> (j < nc)%nat \/ is_slack rows j) /\
      value (row_at i ++ [((nc + k)%nat, c)]) (ext rows) == value (row_at i) y + c * slack_val i).
    { intros c Hs. conjs.
      - rewrite map_app. simpl. apply nodup_snoc; [exact N|]. intro X. apply W in X. lia.
      - intros j H. rewrite map_app, in_app_iff in H. destruct H as [H|[H|[]]]; [left; auto|].
        simpl in H. subst j. right. unfold is_slack. replace (nc + k - nc)%nat with k by lia.
        rewrite Nk. conjs; [lia|exact Hk|exact Hs].
      - rewrite value_app, value_ext_cols by exact W. simpl. unfold ext.
        destruct (Nat.ltb_spec (nc + k) nc); [lia|]. replace (nc + k - nc)%nat with k by lia. rewrite Nk. ring. }
    unfold copyRow, Model_MIR.copyRow. destruct Us as [E|[E|E]]; rewrite E in *; simpl fst.
    - conjs; [exact N|intros j H; left; auto|]. rewrite value_ext_cols by exact W. exact S.
    - destruct (Sl 1 (or_introl eq_refl)) as (A & B & C). conjs; [exact A|exact B|].
      rewrite C. unfold slack_val. rewrite E. ring.
    - destruct (Sl (-(1)) (or_intror eq_refl)) as (A & B & C). conjs; [exact A|exact B|].
      rewrite C. unfold slack_val. rewrite E. ring.
  Qed.
  Lemma start_ok i : In i (p_start p) -> agg_ok (start p m act i).
  Proof.
    intro H. destruct (po_start P i H) as (Hi & Us).
    destruct (copyRow_ok 0 i [i] Hi Us ltac:(simpl; lia) eq_refl) as (A & B & C).
    constructor; simpl; auto. intros k [<-|[]]. exact Hi.
  Qed.
  Lemma aggregate_ok a j i :
    agg_ok a -> (i < length (p_rows p))%nat -> used_sense (rp_sense (rowp_at i)) -> agg_ok (aggregate a j i).
  Proof.
    intros [N I1 R E] Hi Us.
    assert (Nk : nth (length (ag_rows a)) (ag_rows a ++ [i]) 0%nat = i) by (rewrite app_nth2, Nat.sub_diag; [reflexivity|lia]).
    assert (Lk : (length (ag_rows a) < length (ag_rows a ++ [i]))%nat) by (rewrite app_length; simpl; lia).
    destruct (copyRow_ok _ i _ Hi Us Lk Nk) as (A & B & C).
    set (c := copyRow (length (ag_rows a)) i) in *.
    unfold aggregate, Model_MIR.aggregate. fold c. set (q := coef (ag_row a) j / coef (fst c) j).
    assert (Ex : forall k, In k (map fst (ag_row a)) -> ext (ag_rows a ++ [i]) k = ext (ag_rows a) k /\
              ((k < nc)%nat \/ is_slack (ag_rows a ++ [i]) k)).
    { intros k Hk. destruct (I1 k Hk) as [L|(L1 & L2 & L3)].
      - rewrite !ext_col by exact L. auto.
      - unfold ext, is_slack. rewrite app_nth1 by exact L2. split; [reflexivity|]. right. conjs; auto.
        rewrite app_length. simpl. lia. }
    constructor; simpl.
    - apply nodup_vplus; [exact N|]. rewrite !scale_fst. exact A.
    - intros k Hk. apply vplus_in in Hk as [Hk|Hk]; [apply Ex; exact Hk|]. rewrite !scale_fst in Hk. auto.
    - intros k Hk. apply in_app_iff in Hk as [Hk|[<-|[]]]; auto.
    - unfold vminus. rewrite value_vplus; [|exact Keep|exact N|rewrite !scale_fst; exact A].
      rewrite !value_scale, C.
      assert (V : value (ag_row a) (ext (ag_rows a ++ [i])) == ag_rhs a).
      { rewrite <- E. apply value_ext. intros k b Hk. apply (in_map fst) in Hk. cbn [fst] in Hk. destruct (Ex k Hk) as (-> & _). reflexivity. }
      rewrite V. ring.
  Qed.
  Lemma select_found a j i :
    selectRow p m x a = Some (j, i) -> (i < length (p_rows p))%nat /\ used_sense (rp_sense (rowp_at i)).
  Proof.
    unfold selectRow.
    assert (G : forall l s, (forall j i, snd s = Some (j, i) -> (i < length (p_rows p))%nat /\ used_sense (rp_sense (rowp_at i))) ->
              snd (fold_left (select_step p m x (ag_rows a)) l s) = Some (j, i) ->
              (i < length (p_rows p))%nat /\ used_sense (rp_sense (rowp_at i))).
    { induction l as [|e l IH]; simpl; intros s Hs H; [eauto|].
      apply IH in H; [exact H|]. intros j' i'. unfold select_step.
      destruct (_ || _); [apply Hs|]. destruct (exceeds _ _); [|apply Hs].
      destruct (find _ _) as [i1|] eqn:F; [|apply Hs]. simpl. intro E. injection E as <- <-.
      apply find_some in F as (F1 & F2). apply in_seq in F1. split; [lia|].
      unfold usable_row in F2. apply andb_true_iff in F2 as (F2 & _). apply andb_true_iff in F2 as (_ & F2).
      apply (po_rows P i1); [lia|]. apply orb_true_iff in F2 as [F2|F2];
        destruct (rp_type (rowp_at i1)); try discriminate; auto. }
    apply G. simpl. discriminate.
  Qed.
  Lemma more_ok k : forall a b, agg_ok a -> In b (more keep p m x act k a) -> agg_ok b.
  Proof.
    induction k as [|k IH]; simpl; intros a b A [<-|H]; auto; [destruct H|].
    destruct (selectRow p m x a) as [(j, i)|] eqn:E; [|destruct H].
    apply select_found in E as (E1 & E2). apply (IH _ _ (aggregate_ok a j i A E1 E2) H).
  Qed.
  Lemma aggregates_ok n a : In a (aggregates n) -> agg_ok a.
  Proof.
    unfold aggregates, Model_MIR.aggregates. intro H. apply in_flat_map in H as (i & I1 & I2).
    apply (more_ok _ _ _ (start_ok i I1) I2).
  Qed.

  (** ** Bound substitution *)
  Definition lbv (j : nat) : Q :=
    match p_vlb p j with Some b => vb_val b * y (vb_var b) | None => opt_or0 (m_clo m j) end.
  Definition ubv (j : nat) : Q :=
    match p_vub p j with Some b => vb_val b * y (vb_var b) | None => opt_or0 (m_chi m j) end.
  Notation isLower := (isLower crit p m x).
  (** the value that one continuous column contributes to s *)
  Definition sterm (rows : list nat) (row : vec) (e : nat * Q) : Q :=
    let '(j, c) := e in
    if Nat.ltb j nc then
      if isLower (coef row j) j then - c * (y j - lbv j) else - c * (ubv j - y j)
    else - c * ext rows j.

  Lemma lbv_le j : (j < nc)%nat -> (p_vlb p j <> None \/ m_clo m j <> None) -> lbv j <= y j.
  Proof.
    intros H D. unfold lbv. destruct (p_vlb p j) as [b|] eqn:E; [apply (po_vlb P j b E)|].
    rewrite (po_cols P) in H. destruct (Bnd j H) as (B & _). destruct (m_clo m j); simpl in *; [exact B|].
    destruct D; congruence.
  Qed.
  Lemma ubv_ge j : (j < nc)%nat -> (p_vub p j <> None \/ m_chi m j <> None) -> y j <= ubv j.
  Proof.
    intros H D. unfold ubv. destruct (p_vub p j) as [b|] eqn:E; [apply (po_vub P j b E)|].
    rewrite (po_cols P) in H. destruct (Bnd j H) as (_ & B). destruct (m_chi m j); simpl in *; [exact B|].
    destruct D; congruence.
  Qed.
  (** the chosen bound is finite *)
  Lemma isLower_lb a j :
    (cur_lb p m x j <> None \/ cur_ub p m x j <> None) -> isLower a j = true ->
    p_vlb p j <> None \/ m_clo m j <> None.
  Proof.
    intros D. unfold isLower, Model_MIR.isLower. unfold cur_lb, cur_ub in *.
    destruct (p_vlb p j); [left; discriminate|]. destruct (m_clo m j) as [l|]; [right; discriminate|].
    destruct (crit =? 1)%Z; [discriminate|].
    destruct (match p_vub p j with Some _ => _ | None => _ end) as [u|] eqn:E; [|exfalso; destruct D; congruence].
    simpl. discriminate.
  Qed.
  Lemma isLower_ub a j :
    (cur_lb p m x j <> None \/ cur_ub p m x j <> None) -> isLower a j = false ->
    p_vub p j <> None \/ m_chi m j <> None.
  Proof.
    intros D. unfold isLower, Model_MIR.isLower. unfold cur_lb, cur_ub in *.
    destruct (p_vub p j); [left; discriminate|]. destruct (m_chi m j) as [u|]; [right; discriminate|].
    destruct (crit =? 1)%Z; [|discriminate].
    destruct (match p_vlb p j with Some _ => _ | None => _ end) as [l|] eqn:E; [discriminate|exfalso; destruct D; congruence].
  Qed.

  Definition knap_idx (v : vec) : Prop :=
    NoDup (map fst v) /\ forall j, In j (map fst v) -> (j < nc)%nat /\ m_int m j = true.
  Lemma knap_idx_add v j d : knap_idx v -> (j < nc)%nat -> m_int m j = true -> knap_idx (add_to v j d).
  Proof.
    intros (N & W) L I1. split; [apply add_to_nodup; exact N|].
    intros i Hi. apply add_to_in in Hi as [Hi| ->]; auto.
  Qed.
  Lemma slack_nonneg rows j :
    (forall i, In i rows -> (i < length (p_rows p))%nat) -> is_slack rows j -> 0 <= ext rows j.
  Proof.
    intros R (L1 & L2 & L3). unfold ext. destruct (Nat.ltb_spec j nc); [lia|].
    assert (Hi : (nth (j - nc) rows 0 < length (p_rows p))%nat) by (apply R, nth_In; exact L2).
    destruct (po_rows P _ Hi) as (_ & _ & S & _). unfold slack_val.
    destruct L3 as [E|E]; rewrite E in *; simpl in S; lra.
  Qed.

  (** one step: the part of the row that is processed is at least what went to
      the knapsack, the right-hand side and s *)
  Lemma subst_step_ok a row k e k' :
    agg_ok a -> (forall j, In j (map fst row) -> (j < nc)%nat \/ is_slack (ag_rows a) j) ->
    NoDup (map fst row) -> In e row -> clear_of eps (snd e) -> knap_idx (k_row k) ->
    subst_step crit p m x a (Some k) e = Some k' ->
    exists new, k_cont k' = k_cont k ++ new /\ knap_idx (k_row k') /\
      (forall e', In e' new -> fst e' = fst e /\ 0 <= sterm (ag_rows a) row e') /\
      value (k_row k') y - value (k_row k) y + k_rhs k - k_rhs k' -
      sumq (map (sterm (ag_rows a) row) new) <= snd e * ext (ag_rows a) (fst e).
  Proof.
    intros A W N I1 C K. destruct e as (j, c). simpl fst in *. simpl snd in *.
    assert (Wj : (j < nc)%nat \/ is_slack (ag_rows a) j) by (apply W; apply (in_map fst) in I1; exact I1).
    assert (Cj : coef row j = c) by (apply coef_in; assumption).
    assert (Ep : eps == 1 # 1000000) by reflexivity.
    assert (Cc : c == 0 \/ (eps <? c) = true /\ (c <? - eps) = false \/ (eps <? c) = false /\ (c <? - eps) = true).
    { destruct C as [C|C]; [left; exact C|right].
      destruct (eps <? c) eqn:E1, (c <? - eps) eqn:E2; qb; auto; exfalso;
        revert C; apply Qabs_case; intros; lra. }
    unfold subst_step. cbv zeta. cbn [fst snd].
    destruct (Nat.ltb j nc && fixed m j) eqn:Fx.
    { apply andb_true_iff in Fx as (L & F). apply Nat.ltb_lt in L. intro E. apply Some_inj in E. subst k'. simpl.
      exists []. rewrite app_nil_r. conjs; [reflexivity|exact K|intros ? []|]. simpl.
      rewrite ext_col by exact L. unfold fixed in F. rewrite (po_cols P) in L. destruct (Bnd j L) as (B1 & B2).
      destruct (m_clo m j) as [l|], (m_chi m j) as [u|]; try discriminate. qb. simpl in *.
      assert (y j == l) as -> by lra. lra. }
    clear Fx. destruct (Qabs c <? eps) eqn:Sm.
    { intro E. apply Some_inj in E. subst k'. exists []. rewrite app_nil_r. conjs; [reflexivity|exact K|intros ? []|].
      qb. destruct C as [C|C]; [|lra]. rewrite C. simpl. lra. }
    destruct Cc as [Z|Cc]; [exfalso; qb; revert Sm; rewrite Z; simpl; intro; lra|]. clear Sm C.
    destruct (Nat.ltb j nc) eqn:L.
    - apply Nat.ltb_lt in L. rewrite ext_col by exact L.
      destruct (m_int m j) eqn:Ij.
      { intro E. apply Some_inj in E. subst k'. simpl. exists []. rewrite app_nil_r.
        conjs; [reflexivity|apply knap_idx_add; assumption|intros ? []|]. rewrite add_to_value. simpl. lra. }
      assert (Sub : (cur_lb p m x j <> None \/ cur_ub p m x j <> None) ->
        (if isLower c j
         then let star := if c <? - eps then k_star k - c * (x j - opt_or0 (cur_lb p m x j)) else k_star k in
              let cont := if c <? - eps then k_cont k ++ [(j, c)] else k_cont k in
              match p_vlb p j with
              | Some b => Some (Knap (add_to (k_row k) (vb_var b) (c * vb_val b)) (k_rhs k) star cont)
              | None => Some (Knap (k_row k) (k_rhs k - c * opt_or0 (cur_lb p m x j)) star cont)
              end
         else let star := if eps <? c then k_star k + c * (opt_or0 (cur_ub p m x j) - x j) else k_star k in
              let cont := if eps <? c then k_cont k ++ [(j, - c)] else k_cont k in
              match p_vub p j with
              | Some b => Some (Knap (add_to (k_row k) (vb_var b) (c * vb_val b)) (k_rhs k) star cont)
              | None => Some (Knap (k_row k) (k_rhs k - c * opt_or0 (cur_ub p m x j)) star cont)
              end) = Some k' ->
        exists new, k_cont k' = k_cont k ++ new /\ knap_idx (k_row k') /\
          (forall e', In e' new -> fst e' = j /\ 0 <= sterm (ag_rows a) row e') /\
          value (k_row k') y - value (k_row k) y + k_rhs k - k_rhs k' -
          sumq (map (sterm (ag_rows a) row) new) <= c * y j).
      { intro D. cbv zeta. destruct (isLower c j) eqn:Lo.
        - assert (Lb : lbv j <= y j) by (apply lbv_le; [exact L|apply (isLower_lb c); assumption]).
          assert (Kn : match p_vlb p j with
                       | Some b => k_row k' = add_to (k_row k) (vb_var b) (c * vb_val b) /\ k_rhs k' = k_rhs k
                       | None => k_row k' = k_row k /\ k_rhs k' = k_rhs k - c * opt_or0 (m_clo m j)
                       end ->
                  knap_idx (k_row k') /\ value (k_row k') y - value (k_row k) y + k_rhs k - k_rhs k' == c * lbv j).
          { unfold lbv. destruct (p_vlb p j) as [b|] eqn:Vb; intros (-> & ->).
            - destruct (po_vlb P j b Vb) as ((V1 & V2) & _). split; [apply knap_idx_add; assumption|].
              rewrite add_to_value. ring.
            - split; [exact K|ring]. }
          intro E.
          assert (Cn : k_cont k' = if c <? - eps then k_cont k ++ [(j, c)] else k_cont k).
          { destruct (p_vlb p j); apply Some_inj in E; subst k'; reflexivity. }
          assert (Kn' := Kn). clear Kn. destruct Kn' as (K1 & K2).
          { unfold cur_lb in E. destruct (p_vlb p j); apply Some_inj in E; subst k'; simpl; auto. }
          destruct Cc as [(P1 & P2)|(P1 & P2)]; rewrite P2 in Cn; qb.
          + exists []. rewrite app_nil_r. conjs; [exact Cn|exact K1|intros ? []|]. simpl.
            assert (0 <= c * (y j - lbv j)) by (apply Qmult_le_0_compat; lra). lra.
          + assert (St : sterm (ag_rows a) row (j, c) == - c * (y j - lbv j)).
            { unfold sterm. rewrite (proj2 (Nat.ltb_lt _ _) L), Cj, Lo. reflexivity. }
            assert (0 <= - c * (y j - lbv j)) by (apply Qmult_le_0_compat; lra).
            exists [(j, c)]. conjs; [exact Cn|exact K1| |].
            * intros e' [<-|[]]. split; [reflexivity|]. rewrite St. lra.
            * cbn [map]. unfold sumq. cbn [fold_right]. rewrite St. lra.
        - assert (Ub : y j <= ubv j) by (apply ubv_ge; [exact L|apply (isLower_ub c); assumption]).
          assert (Kn : match p_vub p j with
                       | Some b => k_row k' = add_to (k_row k) (vb_var b) (c * vb_val b) /\ k_rhs k' = k_rhs k
                       | None => k_row k' = k_row k /\ k_rhs k' = k_rhs k - c * opt_or0 (m_chi m j)
                       end ->
                  knap_idx (k_row k') /\ value (k_row k') y - value (k_row k) y + k_rhs k - k_rhs k' == c * ubv j).
          { unfold ubv. destruct (p_vub p j) as [b|] eqn:Vb; intros (-> & ->).
            - destruct (po_vub P j b Vb) as ((V1 & V2) & _). split; [apply knap_idx_add; assumption|].
              rewrite add_to_value. ring.
            - split; [exact K|ring]. }
          intro E.
          assert (Cn : k_cont k' = if eps <? c then k_cont k ++ [(j, - c)] else k_cont k).
          { destruct (p_vub p j); apply Some_inj in E; subst k'; reflexivity. }
          assert (Kn' := Kn). clear Kn. destruct Kn' as (K1 & K2).
          { unfold cur_ub in E. destruct (p_vub p j); apply Some_inj in E; subst k'; simpl; auto. }
          destruct Cc as [(P1 & P2)|(P1 & P2)]; rewrite P1 in Cn; qb.
          + assert (St : sterm (ag_rows a) row (j, - c) == c * (ubv j - y j)).
            { unfold sterm. rewrite (proj2 (Nat.ltb_lt _ _) L), Cj, Lo. ring. }
            assert (0 <= c * (ubv j - y j)) by (apply Qmult_le_0_compat; lra).
            exists [(j, - c)]. conjs; [exact Cn|exact K1| |].
            * intros e' [<-|[]]. split; [reflexivity|]. rewrite St. lra.
            * cbn [map]. unfold sumq. cbn [fold_right]. rewrite St. lra.
          + exists []. rewrite app_nil_r. conjs; [exact Cn|exact K1|intros ? []|]. simpl.
            assert (0 <= - c * (ubv j - y j)) by (apply Qmult_le_0_compat; lra). lra. }
      cbv zeta in Sub.
      destruct (cur_lb p m x j) as [l|] eqn:El, (cur_ub p m x j) as [u|] eqn:Eu.
      + apply Sub. left. discriminate.
      + apply Sub. left. discriminate.
      + apply Sub. right. discriminate.
      + discriminate.
    - apply Nat.ltb_ge in L. destruct Wj as [Wj|Wj]; [lia|].
      pose proof (slack_nonneg _ _ (ao_rows a A) Wj) as Sn.
      destruct Cc as [(P1 & P2)|(P1 & P2)]; rewrite P2; intro E; apply Some_inj in E; subst k'; qb.
      + exists []. rewrite app_nil_r. conjs; [reflexivity|exact K|intros ? []|]. simpl.
        assert (0 <= c * ext (ag_rows a) j) by (apply Qmult_le_0_compat; lra). lra.
      + assert (St : sterm (ag_rows a) row (j, c) == - c * ext (ag_rows a) j).
        { unfold sterm. destruct (Nat.ltb_spec j nc); [lia|]. reflexivity. }
        assert (0 <= - c * ext (ag_rows a) j) by (apply Qmult_le_0_compat; lra).
        exists [(j, c)]. conjs; [reflexivity|exact K| |].
        * intros e' [<-|[]]. split; [reflexivity|]. rewrite St. lra.
        * simpl. rewrite St. lra.
  Qed.

  Lemma subst_none a l : fold_left (subst_step crit p m x a) l None = None.
  Proof. induction l; simpl; auto. Qed.
  Lemma subst_fold_ok a row : forall l k k',
    agg_ok a -> (forall j, In j (map fst row) -> (j < nc)%nat \/ is_slack (ag_rows a) j) ->
    NoDup (map fst row) -> incl l row -> (forall e, In e row -> clear_of eps (snd e)) -> knap_idx (k_row k) ->
    fold_left (subst_step crit p m x a) l (Some k) = Some k' ->
    exists new, k_cont k' = k_cont k ++ new /\ knap_idx (k_row k') /\
      (forall e', In e' new -> In (fst e') (map fst l) /\ 0 <= sterm (ag_rows a) row e') /\
      value (k_row k') y - value (k_row k) y + k_rhs k - k_rhs k' -
      sumq (map (sterm (ag_rows a) row) new) <= value l (ext (ag_rows a)).
  Proof.
    induction l as [|e l IH]; cbn [fold_left]; intros k k' A W N In1 C K E.
    - apply Some_inj in E. subst. exists []. rewrite app_nil_r. conjs; [reflexivity|exact K|intros ? []|]. simpl. lra.
    - destruct (subst_step crit p m x a (Some k) e) as [k1|] eqn:E1; [|rewrite subst_none in E; discriminate].
      assert (Ie : In e row) by (apply In1; simpl; auto).
      destruct (subst_step_ok a row k e k1 A W N Ie (C e Ie) K E1) as (n1 & C1 & K1 & S1 & V1).
      destruct (IH k1 k' A W N) as (n2 & C2 & K2 & S2 & V2); auto.
      { intros e' H. apply In1. simpl. auto. }
      exists (n1 ++ n2). conjs.
      + rewrite C2, C1, app_assoc. reflexivity.
      + exact K2.
      + intros e' H. apply in_app_iff in H as [H|H]; [apply S1 in H as (H & G)|apply S2 in H as (H & G)]; simpl; auto.
      + rewrite map_app, Proofs_ResidualCapacity.sumq_app. destruct e as (j, c). simpl in *. lra.
  Qed.

  (** a knapsack with the part s: what the separation may use *)
  Record knap_ok (a : agg) (row : vec) (k : knap) : Prop := KnapOk {
    ko_idx : knap_idx (k_row k);
    ko_lb : forall j c, In (j, c) (k_row k) -> eps <= Qabs c ->
              match m_clo m j with Some l => Qabs l <= eps | None => False end;
    ko_cont : forall e, In e (k_cont k) -> In (fst e) (map fst row) /\ 0 <= sterm (ag_rows a) row e;
    ko_ineq : value (k_row k) y <= k_rhs k + sumq (map (sterm (ag_rows a) row) (k_cont k))
  }.
  Lemma boundSubstitution_ok a row rhs k :
    agg_ok a -> (forall j, In j (map fst row) -> (j < nc)%nat \/ is_slack (ag_rows a) j) ->
    NoDup (map fst row) -> (forall e, In e row -> clear_of eps (snd e)) ->
    value row (ext (ag_rows a)) <= rhs ->
    boundSubstitution crit p m x a row rhs = Some k -> knap_ok a row k.
  Proof.
    intros A W N C V. unfold boundSubstitution.
    destruct (fold_left _ _ _) as [k0|] eqn:F; [|discriminate].
    assert (K0 : knap_idx []) by (split; [constructor|intros ? []]).
    destruct (subst_fold_ok a row row (Knap [] rhs 0 []) k0 A W N (incl_refl _) C K0 F) as (new & C1 & K1 & S1 & V1).
    simpl in C1, V1. intro E.
    assert (E' : k0 = k /\ existsb (fun e => negb (Qabs (snd e) <? eps) &&
              match m_clo m (fst e) with Some l => eps <? Qabs l | None => true end) (k_row k0) = false).
    { destruct (k_cont k0), (k_row k0) eqn:Kr; try discriminate. rewrite <- Kr in *.
      destruct (existsb _ _); [discriminate|]. apply Some_inj in E. auto. }
    clear E. destruct E' as (-> & E). constructor.
    - exact K1.
    - intros j c H G. destruct (match m_clo m j with Some l => eps <? Qabs l | None => true end) eqn:B.
      + exfalso. assert (X : existsb (fun e => negb (Qabs (snd e) <? eps) &&
              match m_clo m (fst e) with Some l => eps <? Qabs l | None => true end) (k_row k) = true).
        { apply existsb_exists. exists (j, c). split; [exact H|]. simpl. rewrite B.
          destruct (Qabs c <? eps) eqn:S; [qb; lra|reflexivity]. }
        congruence.
      + destruct (m_clo m j); [qb; exact B|discriminate].
    - rewrite C1. exact S1.
    - rewrite C1. lra.
  Qed.

  (** ** The c-MIR inequality *)
  Hypothesis IntUb : forall j u, (j < m_ncols m)%nat -> m_int m j = true -> m_chi m j = Some u -> integral u.

  Lemma functionG_le d f : 0 <= f -> f < 1 -> functionG d f <= mir_coef f d.
  Proof.
    intros F0 F1. unfold functionG, mir_coef. cbv zeta. fold (frac d).
    assert (Ep : 0 < eps) by reflexivity.
    destruct (eps <? frac d - f) eqn:A, (frac d <=? f) eqn:B; qb; try lra.
    - assert (0 <= (frac d - f) / (1 - f)) by (apply Qle_shift_div_l; lra). lra.
  Qed.
  Lemma functionG_zero d f : 0 <= f -> d == 0 -> functionG d f == 0.
  Proof.
    intros F0 D. unfold functionG. cbv zeta.
    assert (Ep : 0 < eps) by reflexivity.
    assert (Fz : qfloor d == 0).
    { unfold qfloor. rewrite (Qfloor_unique d 0); [reflexivity|change (inject_Z 0) with 0; lra|change (inject_Z 0) with 0; lra]. }
    destruct (eps <? _) eqn:A; qb; [exfalso|exact Fz]. rewrite Fz in A. lra.
  Qed.

  Definition csum (l : list centry) : Q :=
    sumq (map (fun e : centry => if snd e then snd (fst e) * opt_or0 (m_chi m (fst (fst e))) else 0) l).
  Definition marked_ok (l : list centry) : Prop :=
    forall e : centry, In e l -> snd e = true -> m_chi m (fst (fst e)) <> None.
  Record good (k : knap) (c : cmir) : Prop := Good {
    gd_idx : map fst (cm_row c) = map fst (k_row k);
    gd_s : 0 <= cm_s c;
    gd_ineq : forall s, 0 <= s -> value (k_row k) y <= k_rhs k + s -> value (cm_row c) y <= cm_rhs c + cm_s c * s
  }.
  Lemma sum_fold {A} (f : A -> Q) l : forall s, fold_left (fun s a => s + f a) l s == s + sumq (map f l).
  Proof. induction l as [|a l IH]; simpl; intro s; [ring|]. rewrite IH. ring. Qed.
  Lemma fold_if_sum {A} (q : A -> bool) (f : A -> Q) l : forall s,
    fold_left (fun s a => if q a then s - f a else s) l s == s - sumq (map (fun a => if q a then f a else 0) l).
  Proof.
    induction l as [|a l IH]; simpl; intro s; [ring|]. rewrite IH. destruct (q a); ring.
  Qed.
  Lemma value_map_entry (l : list centry) (g : centry -> Q) :
    value (map (fun e => (fst (fst e), g e)) l) y == sumq (map (fun e : centry => g e * y (fst (fst e))) l).
  Proof. induction l as [|e l IH]; simpl; [reflexivity|]. rewrite IH. reflexivity. Qed.

  (** the tolerance did not hide a nonzero coefficient of a column that may
      be negative *)
  Definition knap_clear (k : knap) : Prop :=
    forall j c, In (j, c) (k_row k) ->
      c == 0 \/ eps <= Qabs c \/ match m_clo m j with Some l => - eps <= l | None => False end.

  Lemma cMir_good a row k delta nb star l :
    knap_ok a row k -> knap_clear k -> 0 < delta -> map fst l = k_row k -> nb == k_rhs k - csum l -> marked_ok l ->
    good k (cMirInequality sqrt m x delta nb star l).
  Proof.
    intros K Kc D L Nb M. unfold cMirInequality. cbv zeta. set (b := nb / delta).
    fold (frac b). pose proof (frac_nonneg b) as F0. pose proof (frac_lt1 b) as F1.
    assert (Dp : 0 < delta * (1 - frac b)) by (rewrite <- (Qmult_0_r delta); apply Qmult_lt_l; lra).
    constructor; simpl.
    - rewrite map_map. simpl. rewrite <- L, map_map. reflexivity.
    - apply Qle_shift_div_l; lra.
    - intros s S V.
      rewrite (fold_if_sum (fun e : centry => snd e) (fun e : centry => g_of delta (frac b) e * opt_or0 (m_chi m (fst (fst e))))).
      rewrite (value_map_entry l (fun e => if snd e then - g_of delta (frac b) e else g_of delta (frac b) e)).
      set (z := fun e : centry => if snd e then opt_or0 (m_chi m (fst (fst e))) - y (fst (fst e)) else y (fst (fst e))).
      set (d := fun e : centry => if snd e then - snd (fst e) / delta else snd (fst e) / delta).
      assert (Main : sumq (map (fun e => g_of delta (frac b) e * z e) l) <= qfloor b + (s / delta) / (1 - frac b)).
      { apply (mir_sum d).
        - intros e Ie. destruct e as ((j, c), fl).
          assert (Ik : In (j, c) (k_row k)) by (rewrite <- L; apply (in_map fst) in Ie; exact Ie).
          destruct (proj2 (ko_idx _ _ _ K) j) as (J1 & J2); [apply (in_map fst) in Ik; exact Ik|].
          rewrite (po_cols P) in J1. destruct (Bnd j J1) as (B1 & B2). pose proof (Int j J1 J2) as Iy.
          assert (Gd : g_of delta (frac b) (j, c, fl) = functionG (d (j, c, fl)) (frac b)) by (unfold d, g_of; simpl; destruct fl; reflexivity).
          rewrite Gd.
          destruct (Qeq_dec c 0) as [Cz|Cz].
          + right. assert (Dz : d (j, c, fl) == 0).
            { unfold d. simpl. destruct fl; rewrite Cz; field; lra. }
            split; [exact Dz|]. apply functionG_zero; [exact F0|exact Dz].
          + left. conjs; [| |apply functionG_le; assumption].
            * unfold z. simpl. destruct fl; [|exact Iy].
              specialize (M _ Ie eq_refl). simpl in M. destruct (m_chi m j) as [u|] eqn:U; [|congruence].
              apply integral_minus; [apply (IntUb j); assumption|exact Iy].
            * unfold z. simpl. destruct fl.
              -- specialize (M _ Ie eq_refl). simpl in M. destruct (m_chi m j) as [u|] eqn:U; [|congruence]. simpl in *. lra.
              -- assert (Ll : match m_clo m j with Some l0 => - eps <= l0 | None => False end).
                 { destruct (Kc j c Ik) as [X|[X|X]]; [contradiction| |exact X].
                   pose proof (ko_lb _ _ _ K j c Ik X) as Y. destruct (m_clo m j) as [l0|]; [|exact Y].
                   revert Y. apply Qabs_case; intros; lra. }
                 destruct (m_clo m j) as [l0|]; [|contradiction]. simpl in B1.
                 assert (Ep : eps < 1) by reflexivity.
                 destruct (Qlt_le_dec (y j) 0) as [Neg|]; [|assumption]. exfalso.
                 assert (y j + 1 <= 0) by (apply integral_lt_le1; [exact Iy|apply integral_0|exact Neg]). lra.
        - apply Qle_shift_div_l; lra.
        - assert (X : sumq (map (fun e => d e * z e) l) == (value (k_row k) y - csum l) / delta * - (-(1))).
          { assert (Y : sumq (map (fun e => d e * z e) l) ==
               / delta * (sumq (map (fun e : centry => snd (fst e) * y (fst (fst e))) l) - csum l)).
            { unfold csum. clear. unfold d, z. induction l as [|((j, c), fl) l IH]; simpl; [unfold Qminus; ring|].
              rewrite IH. destruct fl; simpl; unfold Qdiv; ring. }
            assert (Y2 : sumq (map (fun e : centry => snd (fst e) * y (fst (fst e))) l) == value (k_row k) y).
            { rewrite <- L. clear. induction l as [|((j, c), fl) l IH]; simpl; [reflexivity|]. rewrite <- IH. reflexivity. }
            rewrite Y, Y2. unfold Qdiv. ring. }
          rewrite X. unfold b. rewrite Nb.
          assert (Y : (k_rhs k - csum l) / delta + s / delta == (k_rhs k + s - csum l) / delta) by (field; lra).
          rewrite Y. setoid_replace ((value (k_row k) y - csum l) / delta * - - (1)) with ((value (k_row k) y - csum l) / delta) by (field; lra).
          unfold Qdiv. apply Qmult_le_compat_r; [lra|]. apply Qinv_le_0_compat. lra. }
      assert (E1 : sumq (map (fun e : centry => (if snd e then - g_of delta (frac b) e else g_of delta (frac b) e) * y (fst (fst e))) l)
        == sumq (map (fun e => g_of delta (frac b) e * z e) l) -
           sumq (map (fun e : centry => if snd e then g_of delta (frac b) e * opt_or0 (m_chi m (fst (fst e))) else 0) l)).
      { unfold z. clear. induction l as [|((j, c), fl) l IH]; cbn [map]; unfold sumq in *; cbn [fold_right]; [ring|].
        rewrite IH. cbn [fst snd]. destruct fl; ring. }
      rewrite E1.
      assert (E2 : 1 / (delta * (1 - frac b)) * s == s / delta / (1 - frac b)) by (field; split; lra).
      rewrite E2. lra.
  Qed.

  (** ** Search *)
  Definition good_o (k : knap) (b : option best) : Prop :=
    match b with Some b => good k (b_cut b) /\ 0 < b_delta b | None => True end.
  Lemma better_ok k b c delta : good_o k b -> good k c -> 0 < delta -> good_o k (better b c delta).
  Proof. intros B C D. unfold better. destruct (_ <? _); simpl; auto. Qed.

  Lemma fold_left_inv {A B} (R : A -> Prop) (f : A -> B -> A) l : forall s,
    (forall s b, In b l -> R s -> R (f s b)) -> R s -> R (fold_left f l s).
  Proof. induction l as [|b l IH]; simpl; intros s H Hs; [exact Hs|]. apply IH; [intros; apply H; auto|apply H; auto]. Qed.

  Lemma set_C_fst l : forall i, map fst (set_C l i) = map fst l.
  Proof. induction l as [|(e, fl) l IH]; intros [|i]; simpl; [reflexivity..|]. rewrite IH. reflexivity. Qed.
  Lemma set_C_len (l : list centry) : forall i, length (set_C l i) = length l.
  Proof. induction l as [|(e, fl) l IH]; intros [|i]; simpl; auto. Qed.
  Lemma set_C_nth (l : list centry) : forall i i', i' <> i -> nth i' (set_C l i) (0%nat, 0, false) = nth i' l (0%nat, 0, false).
  Proof.
    induction l as [|(e, fl) l IH]; intros [|i] [|i'] H; simpl; try reflexivity; try congruence.
    apply IH. congruence.
  Qed.
  Lemma set_C_in (l : list centry) : forall i e, In e (set_C l i) -> In e l \/ e = (fst (nth i l (0%nat, 0, false)), true).
  Proof.
    induction l as [|(e0, fl) l IH]; intros [|i] e H; simpl in *; [contradiction..| |].
    - destruct H as [<-|H]; auto.
    - destruct H as [<-|H]; auto. destruct (IH _ _ H); auto.
  Qed.
  Lemma set_C_csum (l : list centry) : forall i, (i < length l)%nat -> snd (nth i l (0%nat, 0, false)) = false ->
    csum (set_C l i) == csum l + snd (fst (nth i l (0%nat, 0, false))) * opt_or0 (m_chi m (fst (fst (nth i l (0%nat, 0, false))))).
  Proof.
    unfold csum. induction l as [|(e0, fl) l IH]; intros [|i] H F; simpl in *; try lia.
    - rewrite F. ring.
    - rewrite IH; [ring|lia|exact F].
  Qed.

  Lemma complT_pos l ie : In ie (complT m x l) ->
    exists e, In (fst ie, e) l /\ in_C m x e = false /\ m_chi m (fst e) <> None.
  Proof.
    unfold complT. intro H. apply in_flat_map in H as ((i, e) & I1 & H). simpl in H.
    destruct (m_chi m (fst e)) as [u|] eqn:U; [|destruct H]. destruct (in_C m x e) eqn:C; [destruct H|].
    destruct (at_bound m x (fst e)); [destruct H|]. destruct H as [<-|[]]. simpl. exists e. conjs; auto. congruence.
  Qed.
  Lemma complT_nodup l : NoDup (map fst l) -> NoDup (map fst (complT m x l)).
  Proof.
    induction l as [|(i, e) l IH]; simpl; intro N; [constructor|]. inversion N as [|? ? N1 N2]; subst.
    assert (X : ~ In i (map fst (complT m x l))).
    { intro H. apply in_map_iff in H as (ie & E & H). apply complT_pos in H as (e' & H & _).
      apply N1. subst i. apply (in_map fst) in H. exact H. }
    fold (complT m x l). destruct (m_chi m (fst e)); [|auto]. destruct (_ || _); simpl; [auto|].
    constructor; auto.
  Qed.

  Lemma compl_fold_ok a row k delta star : knap_ok a row k -> knap_clear k -> 0 < delta ->
    forall c b (l : list centry) nb, NoDup (map fst c) ->
    (forall ie, In ie c -> (fst ie < length l)%nat /\ snd (nth (fst ie) l (0%nat, 0, false)) = false /\
                           m_chi m (fst (fst (nth (fst ie) l (0%nat, 0, false)))) <> None) ->
    good k (b_cut b) -> map fst l = k_row k -> nb == k_rhs k - csum l -> marked_ok l ->
    good k (b_cut (fst (fst (fold_left (compl_step sqrt m x delta star) c (b, l, nb))))).
  Proof.
    intros K Kc D. induction c as [|ie c IH]; intros b l nb N H G L Nb M; [exact G|].
    simpl in N. inversion N as [|? ? N1 N2]; subst. destruct (H ie (or_introl eq_refl)) as (H1 & H2 & H3).
    assert (Rest : forall ie', In ie' c -> fst ie' <> fst ie).
    { intros ie' I1 E. apply N1. rewrite <- E. apply in_map. exact I1. }
    cbn [fold_left].
    destruct (nth (fst ie) l (0%nat, 0, false)) as ((j, a0), fl) eqn:E. cbn [fst snd] in H2, H3. subst fl.
    remember (compl_step sqrt m x delta star (b, l, nb) ie) as st eqn:Est.
    unfold compl_step in Est. cbv beta iota zeta in Est. rewrite E in Est. cbv beta iota in Est.
    destruct (cm_viol (b_cut b) + eps <? _) in Est; subst st.
    - assert (Cs : csum (set_C l (fst ie)) == csum l + a0 * opt_or0 (m_chi m j)).
      { pose proof (set_C_csum l (fst ie) H1) as X. rewrite E in X. apply X. reflexivity. }
      assert (M' : marked_ok (set_C l (fst ie))).
      { intros e Ie F. apply set_C_in in Ie as [Ie| ->]; [apply M; assumption|]. rewrite E. exact H3. }
      apply IH; auto.
      + intros ie' I1. rewrite set_C_nth by (apply Rest; exact I1).
        destruct (H ie' (or_intror I1)) as (A1 & A2 & A3). conjs; auto.
        rewrite set_C_len. exact A1.
      + cbn [b_cut]. apply (cMir_good a row); auto; [rewrite set_C_fst; exact L|]. rewrite Nb, Cs. ring.
      + rewrite set_C_fst. exact L.
      + rewrite Nb, Cs. ring.
    - apply IH; auto. intros ie' I1. apply H. simpl. auto.
  Qed.

  Lemma bestMir_good a row k c : knap_ok a row k -> knap_clear k -> bestMir sqrt srt m x k = Some c -> good k c.
  Proof.
    intros K Kc. unfold bestMir. cbv zeta.
    set (l := map (fun e => (e, in_C m x e)) (k_row k)).
    set (nb := fold_left _ (k_row k) (k_rhs k)).
    assert (L : map fst l = k_row k) by (unfold l; rewrite map_map; simpl; apply map_id).
    assert (Nb : nb == k_rhs k - csum l).
    { unfold nb. rewrite (fold_if_sum (in_C m x) (fun e => snd e * opt_or0 (m_chi m (fst e)))).
      unfold csum, l. rewrite map_map. reflexivity. }
    assert (M : marked_ok l).
    { intros e Ie F. unfold l in Ie. apply in_map_iff in Ie as (e0 & <- & _). simpl in *.
      unfold in_C in F. destruct (m_chi m (fst e0)); [discriminate|congruence]. }
    destruct (fold_left (delta_step _ _ _ _ _ _) l None) as [b|] eqn:E1; [|discriminate].
    assert (G1 : good_o k (Some b)).
    { rewrite <- E1. apply (fold_left_inv (good_o k)); [|exact I].
      intros s ((j, a0), fl) _ Hs. unfold delta_step. destruct (_ || _) eqn:O; [exact Hs|].
      apply orb_false_iff in O as (_ & O). qb. assert (Ep : 0 < eps) by reflexivity.
      apply better_ok; [exact Hs| |lra]. apply (cMir_good a row); auto. lra. }
    destruct (fold_left (mult_step _ _ _ _ _ _ _) _ _) as [b'|] eqn:E2; [|discriminate].
    assert (G2 : good_o k (Some b')).
    { rewrite <- E2. apply (fold_left_inv (good_o k)); [|exact G1].
      intros s q Hq Hs. unfold mult_step.
      assert (Q0 : 0 < q) by (simpl in Hq; destruct Hq as [<-|[<-|[<-|[]]]]; reflexivity).
      assert (Dq : 0 < b_delta b / q) by (apply Qlt_shift_div_l; [exact Q0|destruct G1; lra]).
      apply better_ok; [exact Hs| |exact Dq]. apply (cMir_good a row); auto. }
    set (ps := srt _).
    destruct (fold_left (compl_step _ _ _ _ _) ps _) as ((b'', l''), nb'') eqn:E3. intro E. apply Some_inj in E. subst c.
    assert (Pp : Permutation ps (complT m x (combine (seq 0 (length (k_row k))) (k_row k)))) by apply Srt.
    assert (Seq : map fst (combine (seq 0 (length (k_row k))) (k_row k)) = seq 0 (length (k_row k))).
    { assert (X : forall A B (u : list A) (v : list B), length u = length v -> map fst (combine u v) = u).
      { induction u as [|a1 u IHu]; intros [|b1 v]; simpl; intro H; try discriminate; [reflexivity|]. f_equal. apply IHu. lia. }
      apply X. apply seq_length. }
    replace b'' with (fst (fst (fold_left (compl_step sqrt m x (b_delta b') (k_star k)) ps (b', l, nb)))) by (rewrite E3; reflexivity).
    destruct G2 as (G2 & D2). apply (compl_fold_ok a row); auto.
    - apply (Permutation_map fst) in Pp. apply (Permutation_NoDup (Permutation_sym Pp)).
      apply complT_nodup. rewrite Seq. apply seq_NoDup.
    - intros ie Hie. apply (Permutation_in _ Pp) in Hie. apply complT_pos in Hie as (e & H & C & U).
      assert (Nth : nth_error (k_row k) (fst ie) = Some e).
      { assert (X : forall (v : vec) s i e, In (i, e) (combine (seq s (length v)) v) -> nth_error v (i - s) = Some e /\ (s <= i)%nat).
        { induction v as [|e1 v IHv]; simpl; intros s i e2 Hx; [destruct Hx|]. destruct Hx as [Hx|Hx].
          - injection Hx as -> ->. rewrite Nat.sub_diag. split; [reflexivity|lia].
          - apply IHv in Hx as (Hx & Hs). split; [|lia]. replace (i - s)%nat with (S (i - S s)) by lia. exact Hx. }
        apply X in H as (H & _). rewrite Nat.sub_0_r in H. exact H. }
      assert (Lt : (fst ie < length (k_row k))%nat) by (apply nth_error_Some; congruence).
      assert (Ne : @nth centry (fst ie) l (0%nat, 0, false) = (e, in_C m x e)).
      { apply nth_error_nth. unfold l. rewrite nth_error_map, Nth. reflexivity. }
      rewrite Ne. simpl. conjs; auto. unfold l. rewrite map_length. exact Lt.
  Qed.

  (** ** Writing the cut *)
  Definition cut_idx (v : vec) : Prop := NoDup (map fst v) /\ forall j, In j (map fst v) -> (j < nc)%nat.
  Lemma cut_idx_add v j d : cut_idx v -> (j < nc)%nat -> cut_idx (add_to v j d).
  Proof.
    intros (N & W) L. split; [apply add_to_nodup; exact N|].
    intros i Hi. apply add_to_in in Hi as [Hi| ->]; auto.
  Qed.
  Lemma cut_idx_snoc v j a : cut_idx v -> (j < nc)%nat -> ~ In j (map fst v) -> cut_idx (v ++ [(j, a)]).
  Proof.
    intros (N & W) L X. split; rewrite map_app; simpl.
    - apply nodup_snoc; assumption.
    - intros i Hi. apply in_app_iff in Hi as [Hi|[<-|[]]]; auto.
  Qed.
  Lemma write_step_ok a row sc cut rhs e s' :
    agg_ok a -> (forall j, In j (map fst row) -> (j < nc)%nat \/ is_slack (ag_rows a) j) ->
    In (fst e) (map fst row) -> cut_idx cut ->
    write_step keep crit p m x a row sc (cut, rhs) e = Done s' ->
    cut_idx (fst s') /\ value (fst s') y - snd s' == value cut y - rhs - sc * sterm (ag_rows a) row e.
  Proof.
    intros A W Hj C. destruct e as (j, c). cbn [fst] in Hj. unfold write_step. cbn [fst snd]. unfold sterm.
    destruct (Nat.ltb j nc) eqn:L.
    - apply Nat.ltb_lt in L. unfold lbv, ubv. destruct (isLower (coef row j) j).
      + destruct (p_vlb p j) as [b|] eqn:V; intro E; apply bind_done in E as (v & E1 & E2);
          apply Done_inj in E2; subst s'; apply vinsert_done in E1 as (-> & Nj); cbn [fst snd].
        * destruct (po_vlb P j b V) as ((V1 & V2) & _). split.
          -- apply cut_idx_snoc; [apply cut_idx_add; assumption|exact L|exact Nj].
          -- rewrite value_app, add_to_value. simpl. ring.
        * split; [apply cut_idx_snoc; assumption|]. rewrite value_app. simpl. ring.
      + destruct (p_vub p j) as [b|] eqn:V; intro E; apply bind_done in E as (v & E1 & E2);
          apply Done_inj in E2; subst s'; apply vinsert_done in E1 as (-> & Nj); cbn [fst snd].
        * destruct (po_vub P j b V) as ((V1 & V2) & _). split.
          -- apply cut_idx_snoc; [apply cut_idx_add; assumption|exact L|exact Nj].
          -- rewrite value_app, add_to_value. simpl. ring.
        * split; [apply cut_idx_snoc; assumption|]. rewrite value_app. simpl. ring.
    - apply Nat.ltb_ge in L. destruct (W j Hj) as [Wj|(L1 & L2 & L3)]; [lia|].
      set (i := nth (j - nc) (ag_rows a) 0%nat) in *.
      assert (Hi : (i < length (p_rows p))%nat) by (apply (ao_rows a A), nth_In; exact L2).
      destruct (po_rows P i Hi) as (Ni & Wi & _ & _).
      intro E. apply Done_inj in E. subst s'. cbn [fst snd]. split.
      + split; [apply nodup_vplus; [apply C|rewrite scale_fst; exact Ni]|].
        intros k Hk. apply vplus_in in Hk as [Hk|Hk]; [apply C; exact Hk|]. rewrite scale_fst in Hk. auto.
      + rewrite value_vplus; [|exact Keep|apply C|rewrite scale_fst; exact Ni]. rewrite value_scale.
        unfold ext. destruct (Nat.ltb_spec j nc); [lia|]. fold i. unfold slack_val.
        destruct L3 as [X|X]; rewrite X; ring.
  Qed.
  Lemma write_ok a row sc : forall l cut rhs s',
    agg_ok a -> (forall j, In j (map fst row) -> (j < nc)%nat \/ is_slack (ag_rows a) j) ->
    (forall e, In e l -> In (fst e) (map fst row)) -> cut_idx cut ->
    ofold (write_step keep crit p m x a row sc) l (cut, rhs) = Done s' ->
    cut_idx (fst s') /\ value (fst s') y - snd s' == value cut y - rhs - sc * sumq (map (sterm (ag_rows a) row) l).
  Proof.
    induction l as [|e l IH]; intros cut rhs s' A W Hl C E.
    - apply Done_inj in E. subst s'. split; [exact C|]. simpl. ring.
    - cbn [ofold] in E. apply bind_done in E as ((cut1, rhs1) & E1 & E2).
      apply write_step_ok in E1 as (C1 & V1); auto; [|apply Hl; simpl; auto].
      apply IH in E2 as (C2 & V2); auto; [|intros e' He; apply Hl; simpl; auto].
      cbn [fst snd] in C1, V1. split; [exact C2|]. simpl. lra.
  Qed.
  Lemma weaken_none l : fold_left (weaken m) l None = None.
  Proof. induction l as [|e l IH]; simpl; [reflexivity|]. unfold weaken at 2. destruct (_ && _); exact IH. Qed.
  Lemma weaken_ok : forall l rhs r, (forall j, In j (map fst l) -> (j < nc)%nat) ->
    fold_left (weaken m) l (Some rhs) = Some r ->
    value (filter (fun e => negb (tiny e)) l) y - r <= value l y - rhs.
  Proof.
    induction l as [|(j, c) l IH]; cbn [fold_left]; intros rhs r W E.
    - apply Some_inj in E. subst. simpl. lra.
    - assert (Wl : forall j, In j (map fst l) -> (j < nc)%nat) by (intros; apply W; simpl; auto).
      assert (L : (j < m_ncols m)%nat) by (rewrite <- (po_cols P); apply W; simpl; auto).
      destruct (Bnd j L) as (B1 & B2). unfold weaken at 2 in E. cbn [filter]. destruct (tiny (j, c)) eqn:T; cbn [andb negb] in *.
      + destruct (nonzero (j, c)) eqn:Z.
        * cbn [fst snd] in E. unfold nonzero in Z. cbn [snd] in Z. apply negb_true_iff in Z. qb.
          destruct (0 <? c) eqn:S; qb.
          -- destruct (m_clo m j) as [b|]; [|rewrite weaken_none in E; discriminate].
             apply IH in E; [|exact Wl]. simpl in *.
             assert (0 <= c * (y j - b)) by (apply Qmult_le_0_compat; lra). lra.
          -- destruct (m_chi m j) as [b|]; [|rewrite weaken_none in E; discriminate].
             apply IH in E; [|exact Wl]. simpl in *.
             assert (0 <= - c * (b - y j)) by (apply Qmult_le_0_compat; lra). lra.
        * unfold nonzero in Z. cbn [snd] in Z. apply negb_false_iff in Z. qb.
          apply IH in E; [|exact Wl]. simpl. rewrite Z. lra.
      + apply IH in E; [|exact Wl]. simpl. lra.
  Qed.
  Lemma finish_ok cut rhs r : (forall j, In j (map fst cut) -> (j < nc)%nat) -> value cut y <= rhs ->
    finish sqrt m x cut rhs = Some r -> rowcut_sat r y.
  Proof.
    intros W V. unfold finish. destruct (fold_left (weaken m) cut (Some rhs)) as [r0|] eqn:E; [|discriminate].
    apply weaken_ok in E; [|exact W]. cbv zeta. destruct (_ && _); [|discriminate].
    intro H. apply Some_inj in H. subst r. split; simpl; [exact I|]. lra.
  Qed.
  Lemma cMirSeparation_ok a row k r :
    agg_ok a -> (forall j, In j (map fst row) -> (j < nc)%nat \/ is_slack (ag_rows a) j) ->
    knap_ok a row k -> knap_clear k ->
    cMirSeparation sqrt srt keep crit p m x a row k = Done (Some r) -> rowcut_sat r y.
  Proof.
    intros A W K Kc. unfold cMirSeparation. destruct (bestMir sqrt srt m x k) as [c|] eqn:B; [|discriminate].
    apply (bestMir_good a row) in B as [Gi Gs G]; auto.
    intro E. apply bind_done in E as ((cut, rhs) & E1 & E2). apply Done_inj in E2. cbn [fst snd] in E2.
    assert (C0 : cut_idx (cm_row c)).
    { unfold cut_idx. rewrite Gi. split; [apply (ko_idx _ _ _ K)|]. intros j Hj. apply (proj2 (ko_idx _ _ _ K) j Hj). }
    apply write_ok in E1 as (C1 & V1); auto; [|intros e He; apply (ko_cont _ _ _ K e He)].
    cbn [fst snd] in *. revert E2. apply finish_ok; [apply C1|].
    set (S := sumq (map (sterm (ag_rows a) row) (k_cont k))) in *.
    assert (S0 : 0 <= S).
    { unfold S. pose proof (ko_cont _ _ _ K) as H. clear -H. induction (k_cont k) as [|e l IH]; simpl; [lra|].
      destruct (H e (or_introl eq_refl)) as (_ & H1).
      assert (0 <= sumq (map (sterm (ag_rows a) row) l)) by (apply IH; intros; apply H; simpl; auto). lra. }
    pose proof (G S S0 (ko_ineq _ _ _ K)). lra.
  Qed.

  (** The tolerances hide nothing: the run's aggregated rows have no
      coefficient that is nonzero but within the tolerance. *)
  Definition agg_clear (a : agg) : Prop :=
    (forall j c, In (j, c) (ag_row a) -> clear_of eps c) /\
    forall neg k,
      boundSubstitution crit p m x a (if neg : bool then scale (- (1)) (ag_row a) else ag_row a)
                        (if neg then - ag_rhs a else ag_rhs a) = Some k -> knap_clear k.
  Lemma clear_opp q : clear_of eps q -> clear_of eps (- (1) * q).
  Proof.
    intros [Z|Z]; [left; rewrite Z; ring|right]. setoid_replace (- (1) * q) with (- q) by ring.
    rewrite Qabs_opp. exact Z.
  Qed.
  Lemma try_row_ok a cs neg cs' c :
    agg_ok a -> agg_clear a -> try_row sqrt srt keep crit p m x a cs neg = Done cs' ->
    In c cs' -> In c cs \/ rowcut_sat c y.
  Proof.
    intros A (C1 & C2). unfold try_row. cbv zeta. specialize (C2 neg).
    set (row := if neg then scale (- (1)) (ag_row a) else ag_row a) in *.
    set (rhs := if neg then - ag_rhs a else ag_rhs a) in *.
    destruct (boundSubstitution crit p m x a row rhs) as [k|] eqn:B; [|intro E; apply Done_inj in E; subst; auto].
    specialize (C2 k eq_refl).
    assert (W : forall j, In j (map fst row) -> (j < nc)%nat \/ is_slack (ag_rows a) j).
    { intros j Hj. apply (ao_idx a A). unfold row in Hj. destruct neg; [rewrite scale_fst in Hj|]; exact Hj. }
    assert (N : NoDup (map fst row)) by (unfold row; destruct neg; rewrite ?scale_fst; apply A).
    assert (Cl : forall e, In e row -> clear_of eps (snd e)).
    { intros (j, q) He. unfold row in He. destruct neg; [|apply (C1 j); exact He].
      unfold scale in He. apply in_map_iff in He as ((j', q') & E & He). injection E as <- <-. simpl.
      apply clear_opp. apply (C1 j'). exact He. }
    assert (V : value row (ext (ag_rows a)) <= rhs).
    { pose proof (ao_eq a A) as E. unfold row, rhs. destruct neg; [rewrite value_scale|]; rewrite E; lra. }
    apply boundSubstitution_ok in B; auto.
    destruct (_ <? _)%Z; [intro E; apply Done_inj in E; subst; auto|].
    intro E. apply bind_done in E as (o & E1 & E2). apply Done_inj in E2. subst cs'.
    destruct o as [r|]; [|auto]. intro H. apply insert_new_in in H as [H| ->]; [auto|right].
    apply (cMirSeparation_ok a row k); auto.
  Qed.
  Lemma generate_ok n mult cs cs' c :
    (forall a, In a (aggregates n) -> agg_clear a) ->
    generateMirCuts sqrt srt keep crit p m x act n mult cs = Done cs' -> In c cs' -> In c cs \/ rowcut_sat c y.
  Proof.
    intros Cl. unfold generateMirCuts. intro E. 
    assert (G : forall c, In c cs' -> In c cs \/ rowcut_sat c y); [|apply G].
    revert E. apply (ofold_inv (fun cs' => forall c, In c cs' -> In c cs \/ rowcut_sat c y)); [|auto].
    intros s a s' Ia Hs E.
    revert E. apply (ofold_inv (fun cs' => forall c, In c cs' -> In c cs \/ rowcut_sat c y)); [|exact Hs].
    intros s1 neg s2 _ Hs1 E c1 Hc.
    destruct (try_row_ok a s1 neg s2 c1 (aggregates_ok n a Ia) (Cl a Ia) E Hc) as [H|H]; auto.
  Qed.
End Proofs.
