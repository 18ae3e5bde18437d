(** * CglMixedIntegerRounding: writing a cut never inserts an index twice *)

From Coq Require Import Qabs Permutation.
From Verif Require Import Base Model_MIR Proofs_MIR.
Local Open Scope Q_scope.

(** [sub l l']: [l] is [l'] with some elements left out. *)
Inductive sub {A} : list A -> list A -> Prop :=
  | sub_nil : sub [] []
  | sub_skip a l l' : sub l l' -> sub l (a :: l')
  | sub_keep a l l' : sub l l' -> sub (a :: l) (a :: l').
Lemma sub_in {A} (l l' : list A) a : sub l l' -> In a l -> In a l'.
Proof. induction 1; simpl; intuition. Qed.
Lemma sub_nodup {A} (l l' : list A) : sub l l' -> NoDup l' -> NoDup l.
Proof.
  induction 1; intro N; [constructor| |]; inversion N; subst; auto.
  constructor; auto. intro X. apply (sub_in _ _ _ H) in X. contradiction.
Qed.
Section Total.
  Variable sqrt : Q -> Q.
  Variable srt : vec -> vec.
  Variable crit : Z.
  Variable p : prep.
  Variable m : mip.
  Variable x : nat -> Q.
  Variable act : nat -> Q.
  Definition all (e : nat * Q) : bool := true.
  Notation nc := (p_ncols p).
  Notation row_at := (row_at m).

  Hypothesis Rows : forall i j, In j (map fst (row_at i)) -> (j < nc)%nat.
  Hypothesis RowsN : forall i, NoDup (map fst (row_at i)).
  Hypothesis Vub : forall j b, p_vub p j = Some b -> m_int m (vb_var b) = true.
  Hypothesis Vlb : forall j b, p_vlb p j = Some b -> m_int m (vb_var b) = true.

  (** after a slack come only columns that its row does not contain *)
  Fixpoint ordered (rows : list nat) (l : list nat) : Prop :=
    match l with
    | [] => True
    | s :: l' =>
        ((nc <= s)%nat -> forall j, In j l' -> (j < nc)%nat -> ~ In j (map fst (row_at (nth (s - nc) rows 0%nat)))) /\
        ordered rows l'
    end.
  Lemma ordered_app rows l1 l2 :
    ordered rows l1 -> ordered rows l2 ->
    (forall s j, In s l1 -> In j l2 -> (nc <= s)%nat -> (j < nc)%nat -> ~ In j (map fst (row_at (nth (s - nc) rows 0%nat)))) ->
    ordered rows (l1 ++ l2).
  Proof.
    induction l1 as [|s l1 IH]; simpl; intros (A & B) C D || intros A C D; auto.
    split.
    - intros L j Hj Lj. apply in_app_iff in Hj as [Hj|Hj]; [apply A; assumption|apply D; auto].
    - apply IH; auto.
  Qed.
  Lemma ordered_sub rows l l' : sub l l' -> ordered rows l' -> ordered rows l.
  Proof.
    induction 1; simpl; auto; intros (A & B); auto. split; auto.
    intros L j Hj Lj. apply A; auto. apply (sub_in _ _ _ H Hj).
  Qed.
  Lemma ordered_cols rows l : (forall j, In j l -> (j < nc)%nat) -> ordered rows l.
  Proof.
    induction l as [|s l IH]; simpl; intro H; [exact I|]. split; [|auto].
    intro L. specialize (H s (or_introl eq_refl)). lia.
  Qed.
  Lemma ordered_rows rows i l : (forall s, In s l -> (nc <= s)%nat -> (s - nc < length rows)%nat) ->
    ordered rows l -> ordered (rows ++ [i]) l.
  Proof.
    induction l as [|s l IH]; simpl; intros H (A & B) || intros H A; auto. split; [|auto].
    intros L j Hj Lj. rewrite app_nth1 by (apply H; auto). apply A; assumption.
  Qed.

  Record wf_agg (a : agg) : Prop := WfAgg {
    wa_nodup : NoDup (map fst (ag_row a));
    wa_rows : forall i, In i (ag_rows a) -> incl (map fst (row_at i)) (map fst (ag_row a));
    wa_slack : forall s, In s (map fst (ag_row a)) -> (nc <= s)%nat -> (s - nc < length (ag_rows a))%nat;
    wa_ord : ordered (ag_rows a) (map fst (ag_row a))
  }.
  Lemma copy_fst k i :
    map fst (fst (copyRow p m act k i)) = map fst (row_at i) \/
    map fst (fst (copyRow p m act k i)) = map fst (row_at i) ++ [(nc + k)%nat].
  Proof. unfold copyRow. destruct (rp_sense _); simpl; rewrite ?map_app; auto. Qed.
  Lemma ordered_row_slack rows i k : ordered rows (map fst (row_at i) ++ [(nc + k)%nat]).
  Proof.
    apply ordered_app.
    - apply ordered_cols. apply Rows.
    - simpl. auto.
    - intros s j Hs _ L. apply Rows in Hs. lia.
  Qed.
  Lemma start_wf i : wf_agg (start p m act i).
  Proof.
    pose proof (copy_fst 0 i) as C. unfold start. cbv zeta. constructor; simpl ag_row; simpl ag_rows.
    - destruct C as [-> | ->]; [apply RowsN|]. apply nodup_snoc; [apply RowsN|].
      intro X. apply Rows in X. lia.
    - intros k [<-|[]]. destruct C as [-> | ->]; [apply incl_refl|apply incl_appl, incl_refl].
    - intros s H L. destruct C as [E|E]; rewrite E in H; [apply Rows in H; lia|].
      apply in_app_iff in H as [H|[<-|[]]]; [apply Rows in H; lia|simpl; lia].
    - destruct C as [-> | ->]; [apply ordered_cols; apply Rows|apply ordered_row_slack].
  Qed.
  Lemma vplus_all v w :
    map fst (vplus all v w) = map fst v ++ filter (fun j => negb (has v j)) (map fst w).
  Proof.
    unfold vplus. rewrite map_app. f_equal.
    - assert (X : forall l : vec, filter all l = l) by (induction l; simpl; congruence).
      rewrite X, map_map. reflexivity.
    - assert (X : forall l : vec, filter all l = l) by (induction l; simpl; congruence). rewrite X.
      induction w as [|e w IH]; simpl; [reflexivity|]. destruct (has v (fst e)); simpl; rewrite IH; reflexivity.
  Qed.
  Lemma filter_sub {A} (f : A -> bool) l : sub (filter f l) l.
  Proof. induction l; simpl; [constructor|]. destruct (f a); [apply sub_keep|apply sub_skip]; assumption. Qed.
  Lemma aggregate_wf a j i : wf_agg a -> wf_agg (aggregate all p m act a j i).
  Proof.
    intros [N R S O]. pose proof (copy_fst (length (ag_rows a)) i) as C.
    unfold aggregate. cbv zeta. set (c := copyRow p m act (length (ag_rows a)) i) in *.
    set (q := coef (ag_row a) j / coef (fst c) j).
    assert (E : map fst (vminus all (ag_row a) (scale q (fst c))) =
                map fst (ag_row a) ++ filter (fun j => negb (has (ag_row a) j)) (map fst (fst c))).
    { unfold vminus. rewrite vplus_all, !scale_fst. reflexivity. }
    assert (Cn : NoDup (map fst (fst c))).
    { destruct C as [-> | ->]; [apply RowsN|]. apply nodup_snoc; [apply RowsN|]. intro X. apply Rows in X. lia. }
    assert (Cs : forall s, In s (map fst (fst c)) -> (nc <= s)%nat -> s = (nc + length (ag_rows a))%nat).
    { intros s H L. destruct C as [E1|E1]; rewrite E1 in H; [apply Rows in H; lia|].
      apply in_app_iff in H as [H|[<-|[]]]; [apply Rows in H; lia|reflexivity]. }
    constructor; simpl ag_row; simpl ag_rows; rewrite ?E.
    - rewrite <- E. unfold vminus. apply nodup_vplus; [exact N|rewrite !scale_fst; exact Cn].
    - intros k Hk. apply in_app_iff in Hk as [Hk|[<-|[]]].
      + apply incl_appl. apply R. exact Hk.
      + intros k Hk. apply in_app_iff. destruct (has (ag_row a) k) eqn:H; [left; apply has_in; exact H|right].
        apply filter_In. split; [|rewrite H; reflexivity].
        destruct C as [-> | ->]; [exact Hk|apply in_app_iff; auto].
    - intros s H L. rewrite app_length. simpl. apply in_app_iff in H as [H|H].
      + specialize (S s H L). lia.
      + apply filter_In in H as (H & _). rewrite (Cs s H L). lia.
    - apply ordered_app.
      + apply ordered_rows; assumption.
      + apply (ordered_sub _ _ (map fst (fst c))); [apply filter_sub|].
        destruct C as [-> | ->]; [apply ordered_cols; apply Rows|apply ordered_row_slack].
      + intros s k Hs Hk Ls Lk. specialize (S s Hs Ls). rewrite app_nth1 by exact S.
        intro X. apply filter_In in Hk as (_ & Hk). apply negb_true_iff, has_not in Hk. apply Hk.
        apply (R (nth (s - nc) (ag_rows a) 0%nat)); [apply nth_In; exact S|exact X].
  Qed.
  Lemma more_wf k : forall a b, wf_agg a -> In b (more all p m x act k a) -> wf_agg b.
  Proof.
    induction k as [|k IH]; simpl; intros a b A [<-|H]; auto; [destruct H|].
    destruct (selectRow p m x a) as [(j, i)|]; [|destruct H]. apply (IH _ _ (aggregate_wf a j i A) H).
  Qed.
  Lemma aggregates_wf n a : In a (aggregates all p m x act n) -> wf_agg a.
  Proof. intro H. apply in_flat_map in H as (i & _ & H). apply (more_wf _ _ _ (start_wf i) H). Qed.

  (** ** Bound substitution *)
  Definition ints (l : list nat) : Prop := forall j, In j l -> m_int m j = true.
  Definition cont_kind (l : list nat) : Prop := forall j, In j l -> (j < nc)%nat -> m_int m j = false.
  Lemma ints_add v j d : ints (map fst v) -> m_int m j = true -> ints (map fst (add_to v j d)).
  Proof. intros A B i Hi. apply add_to_in in Hi as [Hi| ->]; auto. Qed.
  Lemma subst_step_idx a k e k' :
    ints (map fst (k_row k)) -> subst_step crit p m x a (Some k) e = Some k' ->
    ints (map fst (k_row k')) /\
    (map fst (k_cont k') = map fst (k_cont k) \/
     map fst (k_cont k') = map fst (k_cont k) ++ [fst e] /\ ((fst e < nc)%nat -> m_int m (fst e) = false)).
  Proof.
    intros K. destruct e as (j, c). unfold subst_step. cbv zeta. cbn [fst snd].
    destruct (_ && _); [intro E; apply Some_inj in E; subst; simpl; auto|].
    destruct (_ <? eps); [intro E; apply Some_inj in E; subst; simpl; auto|].
    destruct (Nat.ltb_spec j nc) as [L|L].
    - destruct (m_int m j) eqn:Ij.
      { intro E; apply Some_inj in E; subst; simpl. split; [apply ints_add; assumption|auto]. }
      intro E.
      assert (E' : (if isLower crit p m x c j
         then
              match p_vlb p j with
              | Some b => Some (Knap (add_to (k_row k) (vb_var b) (c * vb_val b)) (k_rhs k)
                   (if c <? - eps then k_star k - c * (x j - opt_or0 (cur_lb p m x j)) else k_star k)
                   (if c <? - eps then k_cont k ++ [(j, c)] else k_cont k))
              | None => Some (Knap (k_row k) (k_rhs k - c * opt_or0 (cur_lb p m x j))
                   (if c <? - eps then k_star k - c * (x j - opt_or0 (cur_lb p m x j)) else k_star k)
                   (if c <? - eps then k_cont k ++ [(j, c)] else k_cont k))
              end
         else
              match p_vub p j with
              | Some b => Some (Knap (add_to (k_row k) (vb_var b) (c * vb_val b)) (k_rhs k)
                   (if eps <? c then k_star k + c * (opt_or0 (cur_ub p m x j) - x j) else k_star k)
                   (if eps <? c then k_cont k ++ [(j, - c)] else k_cont k))
              | None => Some (Knap (k_row k) (k_rhs k - c * opt_or0 (cur_ub p m x j))
                   (if eps <? c then k_star k + c * (opt_or0 (cur_ub p m x j) - x j) else k_star k)
                   (if eps <? c then k_cont k ++ [(j, - c)] else k_cont k))
              end) = Some k').
      { destruct (cur_lb p m x j), (cur_ub p m x j); try discriminate; exact E. }
      clear E. destruct (isLower crit p m x c j).
      + destruct (p_vlb p j) as [b|] eqn:V; apply Some_inj in E'; subst; simpl;
          (split; [first [apply ints_add; [assumption|apply (Vlb j); exact V]|assumption]|]);
          (destruct (c <? - eps); [right; rewrite map_app; auto|auto]).
      + destruct (p_vub p j) as [b|] eqn:V; apply Some_inj in E'; subst; simpl;
          (split; [first [apply ints_add; [assumption|apply (Vub j); exact V]|assumption]|]);
          (destruct (eps <? c); [right; rewrite map_app; auto|auto]).
    - destruct (c <? - eps); intro E; apply Some_inj in E; subst; simpl; [|auto].
      split; [exact K|]. right. rewrite map_app. split; [reflexivity|lia].
  Qed.
  Lemma subst_fold_idx a : forall l k k',
    ints (map fst (k_row k)) -> fold_left (subst_step crit p m x a) l (Some k) = Some k' ->
    ints (map fst (k_row k')) /\
    exists new, map fst (k_cont k') = map fst (k_cont k) ++ new /\ sub new (map fst l) /\ cont_kind new.
  Proof.
    induction l as [|e l IH]; cbn [fold_left]; intros k k' K E.
    - apply Some_inj in E. subst. split; [exact K|]. exists []. rewrite app_nil_r.
      conjs; [reflexivity|constructor|intros ? []].
    - destruct (subst_step crit p m x a (Some k) e) as [k1|] eqn:E1; [|rewrite subst_none in E; discriminate].
      apply subst_step_idx in E1 as (K1 & C1); [|exact K].
      apply IH in E as (K2 & new & C2 & S2 & T2); [|exact K1]. split; [exact K2|].
      destruct C1 as [C1|(C1 & T1)]; rewrite C1 in C2.
      + exists new. conjs; [exact C2|simpl; apply sub_skip; exact S2|exact T2].
      + exists (fst e :: new). conjs.
        * rewrite C2, <- app_assoc. reflexivity.
        * simpl. apply sub_keep. exact S2.
        * intros j [<-|H]; auto.
  Qed.
  Lemma bound_idx a row rhs k :
    boundSubstitution crit p m x a row rhs = Some k ->
    ints (map fst (k_row k)) /\ sub (map fst (k_cont k)) (map fst row) /\ cont_kind (map fst (k_cont k)).
  Proof.
    unfold boundSubstitution. destruct (fold_left _ _ _) as [k0|] eqn:F; [|discriminate].
    apply subst_fold_idx in F as (K1 & new & C1 & S1 & T1); [|intros ? []]. intro E.
    assert (k0 = k) as -> by (destruct (k_cont k0), (k_row k0); try discriminate; destruct (existsb _ _); [discriminate|];
                              apply Some_inj in E; exact E).
    simpl in C1. rewrite C1. auto.
  Qed.

  (** ** Separation *)
  Lemma cMir_idx delta nb star l : map fst (cm_row (cMirInequality sqrt m x delta nb star l)) = map fst (map fst l).
  Proof. unfold cMirInequality. simpl. rewrite !map_map. reflexivity. Qed.
  Definition idx_o (k : knap) (b : option best) : Prop :=
    match b with Some b => map fst (cm_row (b_cut b)) = map fst (k_row k) | None => True end.
  Lemma compl_idx k delta star c : forall b (l : list centry) nb,
    map fst l = k_row k -> map fst (cm_row (b_cut b)) = map fst (k_row k) ->
    map fst (cm_row (b_cut (fst (fst (fold_left (compl_step sqrt m x delta star) c (b, l, nb)))))) = map fst (k_row k).
  Proof.
    induction c as [|ie c IH]; intros b l nb L B; [exact B|]. cbn [fold_left].
    remember (compl_step sqrt m x delta star (b, l, nb) ie) as st eqn:Est.
    unfold compl_step in Est. cbv beta iota zeta in Est.
    destruct (nth (fst ie) l (0%nat, 0, false)) as ((j, a0), fl) in Est. cbv beta iota in Est.
    destruct (cm_viol (b_cut b) + eps <? _) in Est; subst st; apply IH; auto.
    - rewrite set_C_fst. exact L.
    - cbn [b_cut]. rewrite cMir_idx, set_C_fst, L. reflexivity.
  Qed.
  Lemma bestMir_idx k c : bestMir sqrt srt m x k = Some c -> map fst (cm_row c) = map fst (k_row k).
  Proof.
    unfold bestMir. cbv zeta.
    set (l := map (fun e => (e, in_C m x e)) (k_row k)).
    set (nb := fold_left _ (k_row k) (k_rhs k)).
    assert (L : map fst l = k_row k) by (unfold l; rewrite map_map; simpl; apply map_id).
    assert (Bt : forall b d nb star, idx_o k b -> idx_o k (better b (cMirInequality sqrt m x d nb star l) d)).
    { intros b d nb0 star Hb. unfold better. destruct (_ <? _); [|exact Hb]. simpl b_cut. unfold idx_o. cbn [b_cut].
      rewrite cMir_idx, L. reflexivity. }
    destruct (fold_left (delta_step _ _ _ _ _ _) l None) as [b|] eqn:E1; [|discriminate].
    assert (G1 : idx_o k (Some b)).
    { rewrite <- E1. apply (fold_left_inv (idx_o k)); [|exact I].
      intros s ((j, a0), fl) _ Hs. unfold delta_step. destruct (_ || _); [exact Hs|]. apply Bt. exact Hs. }
    destruct (fold_left (mult_step _ _ _ _ _ _ _) _ _) as [b'|] eqn:E2; [|discriminate].
    assert (G2 : idx_o k (Some b')).
    { rewrite <- E2. apply (fold_left_inv (idx_o k)); [|exact G1]. intros s q _ Hs. unfold mult_step. apply Bt. exact Hs. }
    destruct (fold_left (compl_step _ _ _ _ _) _ _) as ((b'', l''), nb'') eqn:E3. intro E. apply Some_inj in E. subst c.
    match type of E3 with fold_left ?f ?ps ?s = _ => assert (X : b'' = fst (fst (fold_left f ps s))) by (rewrite E3; reflexivity) end.
    rewrite X. apply compl_idx; [exact L|exact G2].
  Qed.

  (** columns of the cut while it is written: integer columns, columns already
      written, and columns of rows whose slack has been replaced *)
  Definition cut_cols (rows : list nat) (done : list nat) (v : vec) : Prop :=
    forall j, In j (map fst v) ->
      m_int m j = true \/ In j done \/
      exists s, In s done /\ (nc <= s)%nat /\ In j (map fst (row_at (nth (s - nc) rows 0%nat))).
  Lemma write_total a row sc : forall l done cut rhs,
    NoDup (done ++ map fst l) -> ordered (ag_rows a) (done ++ map fst l) -> cont_kind (map fst l) ->
    cut_cols (ag_rows a) done cut ->
    exists s, ofold (write_step all crit p m x a row sc) l (cut, rhs) = Done s.
  Proof.
    induction l as [|(j, c) l IH]; intros done cut rhs N O T C; [eexists; reflexivity|].
    cbn [ofold map fst] in *.
    assert (Step : exists cut' rhs', write_step all crit p m x a row sc (cut, rhs) (j, c) = Done (cut', rhs') /\
                   cut_cols (ag_rows a) (done ++ [j]) cut').
    { assert (Cm : forall v, cut_cols (ag_rows a) done v -> cut_cols (ag_rows a) (done ++ [j]) v).
      { intros v Hv k Hk. destruct (Hv k Hk) as [X|[X|(s & X1 & X2)]]; [auto|right; left; apply in_app_iff; auto|].
        right. right. exists s. split; [apply in_app_iff; auto|exact X2]. }
      unfold write_step. cbn [fst snd]. destruct (Nat.ltb_spec j nc) as [L|L].
      - assert (Ji : m_int m j = false) by (apply T; simpl; auto).
        assert (Nd : ~ In j done).
        { intro X. apply NoDup_remove_2 in N. apply N. apply in_app_iff. auto. }
        assert (Fresh : forall v, cut_cols (ag_rows a) done v -> has v j = false).
        { intros v Hv. apply has_not. intro X. destruct (Hv j X) as [Y|[Y|(s & Y1 & Y2 & Y3)]]; [congruence|contradiction|].
          revert Y3. clear -O Y1 Y2 L.
          induction done as [|d done IHd]; [destruct Y1|]. cbn [app ordered] in O. destruct O as (O1 & O2).
          destruct Y1 as [-> |Y1]; [|apply IHd; assumption]. apply O1; auto. apply in_app_iff. right. simpl. auto. }
        assert (Ins : forall v a0, cut_cols (ag_rows a) done v ->
                  vinsert v j a0 = Done (v ++ [(j, a0)]) /\ cut_cols (ag_rows a) (done ++ [j]) (v ++ [(j, a0)])).
        { intros v a0 Hv. unfold vinsert. rewrite (Fresh v Hv). split; [reflexivity|].
          intros k Hk. rewrite map_app in Hk. apply in_app_iff in Hk as [Hk|[Hk|[]]]; [apply (Cm v Hv); assumption|].
          simpl in Hk. subst k. right. left. apply in_app_iff. simpl. auto. }
        assert (Add : forall k d, m_int m k = true -> cut_cols (ag_rows a) done (add_to cut k d)).
        { intros k d Hk i Hi. apply add_to_in in Hi as [Hi| ->]; auto. }
        destruct (isLower crit p m x (coef row j) j).
        + destruct (p_vlb p j) as [b|] eqn:V.
          * destruct (Ins _ (sc * c) (Add _ (- (sc * c * vb_val b)) (Vlb j b V))) as (E1 & E2). rewrite E1. cbn [bind]. eauto.
          * destruct (Ins _ (sc * c) C) as (E1 & E2). rewrite E1. cbn [bind]. eauto.
        + destruct (p_vub p j) as [b|] eqn:V.
          * destruct (Ins _ (- (sc * c)) (Add _ (sc * c * vb_val b) (Vub j b V))) as (E1 & E2). rewrite E1. cbn [bind]. eauto.
          * destruct (Ins _ (- (sc * c)) C) as (E1 & E2). rewrite E1. cbn [bind]. eauto.
      - eexists. eexists. split; [reflexivity|]. intros k Hk. apply vplus_in in Hk as [Hk|Hk]; [apply (Cm cut C); assumption|].
        rewrite scale_fst in Hk. right. right. exists j. split; [apply in_app_iff; simpl; auto|auto]. }
    destruct Step as (cut' & rhs' & E & C'). rewrite E. cbn [bind].
    apply (IH (done ++ [j])); auto; try (rewrite <- app_assoc; assumption).
    intros k Hk. apply T. simpl. auto.
  Qed.
  Lemma separation_total a row k :
    NoDup (map fst row) -> ordered (ag_rows a) (map fst row) -> ints (map fst (k_row k)) ->
    sub (map fst (k_cont k)) (map fst row) -> cont_kind (map fst (k_cont k)) ->
    exists o, cMirSeparation sqrt srt all crit p m x a row k = Done o.
  Proof.
    intros N O K S T. unfold cMirSeparation. destruct (bestMir sqrt srt m x k) as [c|] eqn:B; [|eauto].
    apply bestMir_idx in B.
    destruct (write_total a row (cm_s c) (k_cont k) [] (cm_row c) (cm_rhs c)) as (s & E).
    - apply (sub_nodup _ _ S N).
    - apply (ordered_sub _ _ _ S O).
    - exact T.
    - intros j Hj. rewrite B in Hj. left. apply K. exact Hj.
    - rewrite E. cbn [bind]. eauto.
  Qed.
  Lemma try_row_total a cs neg : wf_agg a -> exists cs', try_row sqrt srt all crit p m x a cs neg = Done cs'.
  Proof.
    intros [N R S O]. unfold try_row. cbv zeta.
    set (row := if neg then scale (- (1)) (ag_row a) else ag_row a).
    assert (Fr : map fst row = map fst (ag_row a)) by (unfold row; destruct neg; rewrite ?scale_fst; reflexivity).
    destruct (boundSubstitution _ _ _ _ _ row _) as [k|] eqn:B; [|eauto].
    apply bound_idx in B as (K1 & K2 & K3).
    destruct (_ <? _)%Z; [eauto|].
    destruct (separation_total a row k) as (o & E); [rewrite Fr; exact N|rewrite Fr; exact O|assumption..|]. rewrite E. cbn [bind]. eauto.
  Qed.
  Lemma generate_total n mult cs :
    exists cs', generateMirCuts sqrt srt all crit p m x act n mult cs = Done cs'.
  Proof.
    unfold generateMirCuts.
    assert (F : forall (negs : list bool) a cs, wf_agg a -> exists cs', ofold (try_row sqrt srt all crit p m x a) negs cs = Done cs').
    { induction negs as [|neg negs IH]; simpl; intros a cs0 A; [eauto|].
      destruct (try_row_total a cs0 neg A) as (c1 & E). rewrite E. simpl. apply IH. exact A. }
    assert (G : forall l cs, (forall a, In a l -> wf_agg a) ->
      exists cs', ofold (fun cs a => ofold (try_row sqrt srt all crit p m x a) (if mult then [false; true] else [false]) cs) l cs = Done cs').
    { induction l as [|a l IH]; cbn [ofold]; intros cs0 A; [eauto|].
      destruct (F (if mult then [false; true] else [false]) a cs0 (A a (or_introl eq_refl))) as (c1 & E).
      rewrite E. cbn [bind]. apply IH. intros; apply A; simpl; auto. }
    apply G. intros a Ha. apply (aggregates_wf n). exact Ha.
  Qed.
End Total.
