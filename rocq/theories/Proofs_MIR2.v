(** * Lemmas for CglMixedIntegerRounding2 *)

From Coq Require Import Qabs Permutation.
From Verif Require Import Base.
From Verif Require Proofs_ResidualCapacity.
From Verif Require Import Proofs_MirCore Model_MIR Proofs_MIR Proofs_MIRTotal Model_MIR2.
Local Open Scope Q_scope.

(** no tolerance test is undecided: the value is not the tolerance itself *)
Definition off_eps (q : Q) : Prop := ~ Qabs q == eps.

Lemma add_row_value (w : vec) q y : forall v, value (fold_left (fun v f => add_to v (fst f) (snd f * q)) w v) y == value v y + q * value w y.
Proof.
  induction w as [|(j, a) w IH]; simpl; intro v; [ring|]. rewrite IH, add_to_value. simpl. ring.
Qed.
Lemma add_row_in (w : vec) q i : forall v, In i (map fst (fold_left (fun v f => add_to v (fst f) (snd f * q)) w v)) ->
  In i (map fst v) \/ In i (map fst w).
Proof.
  induction w as [|(j, a) w IH]; simpl; intros v H; [auto|]. apply IH in H as [H|H]; [|auto].
  apply add_to_in in H as [H| ->]; auto.
Qed.
Lemma add_row_nodup (w : vec) q : forall v, NoDup (map fst v) ->
  NoDup (map fst (fold_left (fun v f => add_to v (fst f) (snd f * q)) w v)).
Proof. induction w as [|f w IH]; simpl; intros v H; [exact H|]. apply IH, add_to_nodup, H. Qed.

(** packing keeps the value *)
Lemma pack_value_from (v : vec) y : NoDup (map fst v) -> forall k s,
  value (flat_map (fun i => if has v i && nonzero (i, coef v i) then [(i, coef v i)] else []) (seq s k)) y ==
  value (filter (fun e => Nat.leb s (fst e) && Nat.ltb (fst e) (s + k)) v) y.
Proof.
  intros N. induction k as [|k IH]; intro s.
  - simpl. assert (X : filter (fun e : nat * Q => Nat.leb s (fst e) && Nat.ltb (fst e) (s + 0)) v = []).
    { clear N. induction v as [|e v IHv]; simpl; [reflexivity|]. destruct (Nat.leb_spec s (fst e)), (Nat.ltb_spec (fst e) (s + 0)); simpl; auto; lia. }
    rewrite X. reflexivity.
  - cbn [seq flat_map]. rewrite value_app, IH.
    assert (X : forall v : vec, NoDup (map fst v) ->
      value (filter (fun e => Nat.leb s (fst e) && Nat.ltb (fst e) (s + S k)) v) y ==
      coef v s * y s + value (filter (fun e => Nat.leb (S s) (fst e) && Nat.ltb (fst e) (S s + k)) v) y).
    { clear. induction v as [|(j, a) v IHv]; intro N; [unfold coef; simpl; ring|].
      inversion N as [|? ? N1 N2]; subst. specialize (IHv N2). rewrite coef_cons. cbn [filter fst].
      destruct (Nat.eqb_spec j s) as [-> |Ne].
      - rewrite (coef_out v s N1) in IHv.
        assert (E1 : Nat.leb s s && Nat.ltb s (s + S k) = true) by (rewrite Nat.leb_refl; simpl; apply Nat.ltb_lt; lia).
        assert (E2 : Nat.leb (S s) s && Nat.ltb s (S s + k) = false).
        { destruct (Nat.leb_spec (S s) s); [lia|reflexivity]. }
        rewrite E1, E2. cbn [value]. rewrite IHv. ring.
      - assert (E : Nat.leb s j && Nat.ltb j (s + S k) = Nat.leb (S s) j && Nat.ltb j (S s + k)).
        { replace (S s + k)%nat with (s + S k)%nat by lia. f_equal.
          destruct (Nat.leb_spec s j), (Nat.leb_spec (S s) j); auto; lia. }
        rewrite E. destruct (Nat.leb (S s) j && Nat.ltb j (S s + k)); cbn [value]; rewrite IHv; ring. }
    rewrite (X v N). apply Qplus_comp; [|reflexivity].
    destruct (has v s) eqn:H.
    + unfold nonzero. cbn [snd]. destruct (Qeq_bool (coef v s) 0) eqn:Z; cbn [andb negb value]; [qb; rewrite Z; ring|ring].
    + apply has_not in H. rewrite (coef_out v s H). simpl. ring.
Qed.
Lemma pack_value n (v : vec) y : NoDup (map fst v) -> (forall j, In j (map fst v) -> (j < n)%nat) -> value (pack n v) y == value v y.
Proof.
  intros N W. unfold pack. rewrite (pack_value_from v y N). simpl.
  assert (X : filter (fun e : nat * Q => Nat.ltb (fst e) n) v = v).
  { clear N. induction v as [|e v IH]; simpl; [reflexivity|].
    rewrite (proj2 (Nat.ltb_lt _ _)) by (apply W; simpl; auto). f_equal. apply IH. intros; apply W; simpl; auto. }
  rewrite X. reflexivity.
Qed.
(** increasing columns *)
Fixpoint increasing (l : list nat) : Prop :=
  match l with
  | [] => True
  | i :: l' => (forall j, In j l' -> (i < j)%nat) /\ increasing l'
  end.
Lemma pack_idx (v : vec) : forall k s,
  let w := flat_map (fun i => if has v i && nonzero (i, coef v i) then [(i, coef v i)] else []) (seq s k) in
  increasing (map fst w) /\ forall j a, In (j, a) w -> (s <= j < s + k)%nat /\ In j (map fst v) /\ a = coef v j /\ ~ a == 0.
Proof.
  induction k as [|k IH]; intro s; cbv zeta; [simpl; split; [exact I|intros ? ? []]|].
  cbn [seq flat_map]. destruct (IH (S s)) as (A & B). cbv zeta in A, B.
  destruct (has v s && nonzero (s, coef v s)) eqn:H; cbn [app map fst increasing].
  - apply andb_true_iff in H as (H & Z). apply has_in in H. unfold nonzero in Z. cbn [snd] in Z. apply negb_true_iff in Z. qb. split.
    + split; [|exact A]. intros j Hj. apply in_map_iff in Hj as ((j', a) & <- & Hj). apply B in Hj. simpl. lia.
    + intros j a [E|Hj]; [injection E as <- <-; conjs; auto; lia|]. apply B in Hj as (L & Hj). split; [lia|exact Hj].
  - split; [exact A|]. intros j a Hj. apply B in Hj as (L & Hj). split; [lia|exact Hj].
Qed.

Section Proofs2.
  Variable sqrt : Q -> Q.
  Variable srt : vec -> vec.
  Variable keep : nat * Q -> bool.
  Variable ins : list rowcut -> rowcut -> list rowcut.
  Variable crit : Z.
  Variable p : prep.
  Variable m : mip.
  Variable x : nat -> Q.
  Variable act : nat -> Q.
  Variable y : point.
  Hypothesis Srt : forall v, Permutation (srt v) v.
  Hypothesis Keep : forall e, keep e = false -> snd e == 0.
  Hypothesis P : prep_ok p m y.
  Hypothesis Bnd : in_bounds m y.
  Hypothesis Int : integer_ok m y.
  Hypothesis IntUb : forall j u, (j < m_ncols m)%nat -> m_int m j = true -> m_chi m j = Some u -> integral u.
  Notation nc := (p_ncols p).
  Notation agg_ok := (agg_ok p m y).
  Notation sterm := (sterm crit p m x y).
  Notation ext := (ext p m y).
  Notation knap_idx := (knap_idx p m).
  Notation knap_ok := (knap_ok crit p m x y).

  (** ** Aggregation *)
  Lemma select2_found hid a j i :
    selectRow2 p m x hid a = Some (j, i) -> (i < length (p_rows p))%nat /\ used_sense (rp_sense (rowp_at p i)).
  Proof.
    unfold selectRow2.
    assert (G : forall l s, (forall j i, snd s = Some (j, i) -> (i < length (p_rows p))%nat /\ used_sense (rp_sense (rowp_at p i))) ->
              snd (fold_left (select_step2 p m x (ag_rows a) hid) l s) = Some (j, i) ->
              (i < length (p_rows p))%nat /\ used_sense (rp_sense (rowp_at p i))).
    { induction l as [|e l IH]; simpl; intros s Hs H; [eauto|].
      apply IH in H; [exact H|]. intros j' i'. unfold select_step2.
      destruct (_ || _); [apply Hs|]. destruct (exceeds _ _); [|apply Hs].
      destruct (find _ _) as [i1|] eqn:F; [|apply Hs]. simpl. intro E. injection E as <- <-.
      apply find_some in F as (F1 & F2). apply in_seq in F1. split; [lia|].
      unfold usable_row2 in F2. apply andb_true_iff in F2 as (F2 & _).
      unfold usable_row in F2. apply andb_true_iff in F2 as (F2 & _). apply andb_true_iff in F2 as (_ & F2).
      apply (po_rows _ _ _ P i1); [lia|]. apply orb_true_iff in F2 as [F2|F2];
        destruct (rp_type (rowp_at p i1)); try discriminate; auto. }
    apply G. simpl. discriminate.
  Qed.
  Lemma more2_ok k : forall hid a b, agg_ok a -> In b (fst (more2 keep p m x act k hid a)) -> agg_ok b.
  Proof.
    induction k as [|k IH]; cbn [more2]; intros hid a b A H.
    - destruct H as [<-|[]]. exact A.
    - destruct (selectRow2 p m x hid a) as [(j, i)|] eqn:E; [|destruct H as [<-|[]]; exact A].
      cbn [fst] in H. destruct H as [<-|H]; [exact A|].
      apply select2_found in E as (E1 & E2). apply (IH _ _ _ (aggregate_ok keep p m act y Keep P a j i A E1 E2) H).
  Qed.

  (** ** Bound substitution *)
  Lemma subst_step2_ok a row k inf e k' :
    agg_ok a -> (forall j, In j (map fst row) -> (j < nc)%nat \/ is_slack p (ag_rows a) j) ->
    NoDup (map fst row) -> In e row -> off_eps (snd e) -> knap_idx (k_row k) ->
    subst_step2 crit p m x a (Some (k, inf)) e = Done (Some (k', false)) ->
    inf = false /\ exists new, k_cont k' = k_cont k ++ new /\ knap_idx (k_row k') /\
      (forall e', In e' new -> fst e' = fst e /\ 0 <= sterm (ag_rows a) row e') /\
      value (k_row k') y - value (k_row k) y + k_rhs k - k_rhs k' -
      sumq (map (sterm (ag_rows a) row) new) <= snd e * ext (ag_rows a) (fst e).
  Proof.
    intros A W N Ie Of K. unfold subst_step2. cbv zeta. destruct e as (j, c). cbn [fst snd] in *.
    destruct (Nat.ltb j nc && fixed m j) eqn:Fx; cbn [negb andb].
    { apply andb_true_iff in Fx as (L & F). unfold subst_step. cbv zeta. cbn [fst snd]. rewrite L, F. cbn [andb].
      apply Nat.ltb_lt in L. intro E. apply Done_inj, Some_inj in E. injection E as <- ->. split; [reflexivity|]. cbn [k_cont k_row k_rhs].
      exists []. rewrite app_nil_r. conjs; [reflexivity|exact K|intros ? []|]. simpl.
      rewrite ext_col by exact L. unfold fixed in F. rewrite (po_cols _ _ _ P) in L. destruct (Bnd j L) as (B1 & B2).
      destruct (m_clo m j) as [l|], (m_chi m j) as [u|]; try discriminate. qb. simpl in *.
      assert (y j == l) as -> by lra. lra. }
    destruct (Qabs c <? eps) eqn:Sm.
    - destruct (Nat.ltb j nc) eqn:L; [|discriminate]. apply Nat.ltb_lt in L. rewrite ext_col by exact L.
      rewrite (po_cols _ _ _ P) in L. destruct (Bnd j L) as (B1 & B2).
      destruct (if c <? 0 then m_chi m j else m_clo m j) as [b|] eqn:Bd; intro E; apply Done_inj, Some_inj in E.
      + injection E as <- ->. split; [reflexivity|]. cbn [k_cont k_row k_rhs]. exists []. rewrite app_nil_r.
        conjs; [reflexivity|exact K|intros ? []|]. simpl.
        destruct (c <? 0) eqn:S; rewrite Bd in *; qb; simpl in *.
        * assert (0 <= - c * (b - y j)) by (apply Qmult_le_0_compat; lra). lra.
        * assert (0 <= c * (y j - b)) by (apply Qmult_le_0_compat; lra). lra.
      + injection E as <- E. apply orb_false_iff in E as (-> & Z). split; [reflexivity|].
        exists []. rewrite app_nil_r. conjs; [reflexivity|exact K|intros ? []|].
        unfold nonzero in Z. cbn [snd] in Z. apply negb_false_iff in Z. qb. rewrite Z. simpl. lra.
    - destruct (subst_step crit p m x a (Some k) (j, c)) as [k1|] eqn:E1; intro E; apply Done_inj in E; [|discriminate].
      apply Some_inj in E. injection E as -> ->. split; [reflexivity|].
      apply (subst_step_ok crit p m x y P Bnd a row k (j, c) k' A W N Ie) in E1; auto.
      right. cbn [snd]. qb. unfold off_eps in Of. destruct (Qlt_le_dec eps (Qabs c)) as [G|G]; [exact G|].
      exfalso. apply Of. lra.
  Qed.
  Lemma subst_none2 a l s : ofold (subst_step2 crit p m x a) l None = Done s -> s = None.
  Proof. induction l as [|e l IH]; cbn [ofold]; intro E; [apply Done_inj in E; auto|]. simpl in E. auto. Qed.
  Lemma subst_fold2_ok a row : forall l k inf k',
    agg_ok a -> (forall j, In j (map fst row) -> (j < nc)%nat \/ is_slack p (ag_rows a) j) ->
    NoDup (map fst row) -> incl l row -> (forall e, In e row -> off_eps (snd e)) -> knap_idx (k_row k) ->
    ofold (subst_step2 crit p m x a) l (Some (k, inf)) = Done (Some (k', false)) ->
    inf = false /\ exists new, k_cont k' = k_cont k ++ new /\ knap_idx (k_row k') /\
      (forall e', In e' new -> In (fst e') (map fst l) /\ 0 <= sterm (ag_rows a) row e') /\
      value (k_row k') y - value (k_row k) y + k_rhs k - k_rhs k' -
      sumq (map (sterm (ag_rows a) row) new) <= value l (ext (ag_rows a)).
  Proof.
    induction l as [|e l IH]; cbn [ofold]; intros k inf k' A W N In1 C K E.
    - apply Done_inj, Some_inj in E. injection E as -> ->. split; [reflexivity|].
      exists []. rewrite app_nil_r. conjs; [reflexivity|exact K|intros ? []|]. simpl. lra.
    - apply bind_done in E as (s1 & E1 & E2). destruct s1 as [(k1, inf1)|]; [|apply subst_none2 in E2; discriminate].
      assert (Ie : In e row) by (apply In1; simpl; auto).
      assert (K1 : knap_idx (k_row k1)).
      { revert E1. unfold subst_step2. cbv zeta. destruct (_ && _).
        - destruct (Nat.ltb _ _); [|discriminate]. destruct (if _ <? 0 then _ else _); intro E1; apply Done_inj, Some_inj in E1;
            injection E1 as <- _; exact K.
        - destruct (subst_step crit p m x a (Some k) e) as [k2|] eqn:S; intro E1; apply Done_inj in E1; [|discriminate].
          apply Some_inj in E1. injection E1 as -> _.
          revert S. unfold subst_step. cbv zeta.
          destruct (_ && _); [intro S; apply Some_inj in S; subst; exact K|].
          destruct (_ <? _); [intro S; apply Some_inj in S; subst; exact K|].
          destruct (Nat.ltb_spec (fst e) nc) as [L|L].
          + destruct (m_int m (fst e)) eqn:Ij; [intro S; apply Some_inj in S; subst; apply knap_idx_add; assumption|].
            destruct (cur_lb p m x (fst e)), (cur_ub p m x (fst e)); try discriminate;
              (destruct (isLower _ _ _ _ _ _);
               [destruct (p_vlb p (fst e)) as [b|] eqn:V; [destruct (po_vlb _ _ _ P _ b V) as ((V1 & V2) & _)|]
               |destruct (p_vub p (fst e)) as [b|] eqn:V; [destruct (po_vub _ _ _ P _ b V) as ((V1 & V2) & _)|]]);
              intro S; apply Some_inj in S; subst; cbn [k_row]; try exact K; apply knap_idx_add; assumption.
          + destruct (_ <? _); intro S; apply Some_inj in S; subst; exact K. }
      destruct (IH k1 inf1 k' A W N) as (-> & n2 & C2 & K2 & S2 & V2); auto.
      { intros e' H. apply In1. simpl. auto. }
      destruct (subst_step2_ok a row k inf e k1 A W N Ie (C e Ie) K E1) as (-> & n1 & C1 & _ & S1 & V1).
      split; [reflexivity|]. exists (n1 ++ n2). conjs.
      + rewrite C2, C1, app_assoc. reflexivity.
      + exact K2.
      + intros e' H. apply in_app_iff in H as [H|H]; [apply S1 in H as (H & G)|apply S2 in H as (H & G)]; simpl; auto.
      + rewrite map_app, Proofs_ResidualCapacity.sumq_app. destruct e as (j, c). simpl in *. lra.
  Qed.
  Lemma boundSubstitution2_ok a row rhs k :
    agg_ok a -> (forall j, In j (map fst row) -> (j < nc)%nat \/ is_slack p (ag_rows a) j) ->
    NoDup (map fst row) -> (forall e, In e row -> off_eps (snd e)) ->
    value row (ext (ag_rows a)) <= rhs ->
    boundSubstitution2 crit p m x a row rhs = Done (Some k) -> knap_ok a row k.
  Proof.
    intros A W N C V. unfold boundSubstitution2. intro E. apply bind_done in E as (s & F & E). apply Done_inj in E.
    destruct s as [(k0, [|])|]; try discriminate.
    assert (K0 : knap_idx []) by (split; [constructor|intros ? []]).
    destruct (subst_fold2_ok a row row (Knap [] rhs 0 []) false k0 A W N (incl_refl _) C K0 F) as (_ & new & C1 & K1 & S1 & V1).
    simpl in C1, V1.
    assert (Ek : k0 = k /\ existsb (fun e => negb (Qabs (snd e) <? eps) &&
                 match m_clo m (fst e) with Some l => eps <? Qabs l | None => true end) (k_row k0) = false).
    { destruct (k_cont k0), (k_row k0) eqn:Ek; try discriminate; destruct (existsb _ _) eqn:Ex; try discriminate;
        apply Some_inj in E; split; [exact E|reflexivity]. }
    destruct Ek as (-> & Ex). constructor.
    - exact K1.
    - intros j c Hj Hc. assert (X : negb (Qabs c <? eps) && match m_clo m j with Some l => eps <? Qabs l | None => true end = false).
      { destruct (_ && _) eqn:Y; [|reflexivity]. rewrite <- Ex. symmetry. apply existsb_exists. exists (j, c). auto. }
      assert (Z : (Qabs c <? eps) = false) by (destruct (Qabs c <? eps) eqn:Z; [qb; lra|reflexivity]).
      rewrite Z in X. cbn [negb andb] in X. destruct (m_clo m j); [qb; exact X|discriminate].
    - intros e He. rewrite C1 in He. apply S1. exact He.
    - rewrite C1. lra.
  Qed.

  (** ** Writing the cut *)
  Lemma sumq_filter (f : nat * Q -> bool) (g : nat * Q -> Q) l :
    sumq (map g l) == sumq (map g (filter f l)) + sumq (map g (filter (fun e => negb (f e)) l)).
  Proof. induction l as [|e l IH]; simpl; [ring|]. destruct (f e); simpl; rewrite IH; ring. Qed.
  Lemma write_slack_ok a row sc : forall l s,
    agg_ok a -> (forall e, In e l -> is_slack p (ag_rows a) (fst e)) -> cut_idx p (fst s) ->
    cut_idx p (fst (fold_left (write_slack p m a sc) l s)) /\
    value (fst (fold_left (write_slack p m a sc) l s)) y - snd (fold_left (write_slack p m a sc) l s) ==
    value (fst s) y - snd s - sc * sumq (map (sterm (ag_rows a) row) l).
  Proof.
    induction l as [|(j, c) l IH]; intros (cut, rhs) A W C; [split; [exact C|simpl; ring]|]. cbn [fold_left].
    destruct (W (j, c) (or_introl eq_refl)) as (L1 & L2 & L3). cbn [fst] in *.
    set (i := nth (j - nc) (ag_rows a) 0%nat) in *.
    assert (Hi : (i < length (p_rows p))%nat) by (apply (ao_rows _ _ _ a A), nth_In; exact L2).
    destruct (po_rows _ _ _ P i Hi) as (Ni & Wi & _ & _).
    set (s1 := write_slack p m a sc (cut, rhs) (j, c)).
    assert (C1 : cut_idx p (fst s1)).
    { unfold s1, write_slack. cbn [fst snd]. fold i. split; [apply add_row_nodup; apply C|].
      intros k Hk. apply add_row_in in Hk as [Hk|Hk]; [apply C; exact Hk|auto]. }
    assert (V1 : value (fst s1) y - snd s1 == value cut y - rhs - sc * sterm (ag_rows a) row (j, c)).
    { unfold s1, write_slack. cbn [fst snd]. fold i. rewrite add_row_value.
      unfold Proofs_MIR.sterm. destruct (Nat.ltb_spec j nc); [lia|].
      unfold Proofs_MIR.ext. destruct (Nat.ltb_spec j nc); [lia|]. fold i. unfold slack_val.
      destruct L3 as [X|X]; rewrite X; ring. }
    destruct (IH s1 A (fun e H => W e (or_intror H)) C1) as (C2 & V2). split; [exact C2|].
    rewrite V2, V1. cbn [map fst snd]. unfold sumq. cbn [fold_right]. ring.
  Qed.
  Lemma write2_ok a row sc l s s' :
    agg_ok a -> (forall j, In j (map fst row) -> (j < nc)%nat \/ is_slack p (ag_rows a) j) ->
    (forall e, In e l -> In (fst e) (map fst row)) -> cut_idx p (fst s) ->
    write2 keep crit p m x a row sc l s = Done s' ->
    cut_idx p (fst s') /\ value (fst s') y - snd s' == value (fst s) y - snd s - sc * sumq (map (sterm (ag_rows a) row) l).
  Proof.
    intros A W Hl C. unfold write2. intro E. apply bind_done in E as (s1 & E1 & E). apply Done_inj in E. subst s'.
    destruct s as (cut, rhs). cbn [fst snd] in *.
    apply (write_ok keep crit p m x y Keep P) in E1 as (C1 & V1); auto;
      [|intros e He; apply filter_In in He as (He & _); auto].
    destruct (write_slack_ok a row sc (filter (fun e => negb (Nat.ltb (fst e) nc)) l) s1 A) as (C2 & V2); auto.
    { intros e He. apply filter_In in He as (He & X). apply negb_true_iff, Nat.ltb_ge in X.
      destruct (W _ (Hl e He)) as [Y|Y]; [lia|exact Y]. }
    split; [exact C2|]. rewrite V2, V1. rewrite (sumq_filter (fun e => Nat.ltb (fst e) nc) (sterm (ag_rows a) row) l). ring.
  Qed.
  Lemma weaken2_none t l : fold_left (weaken2 m t) l None = None.
  Proof. induction l as [|e l IH]; simpl; [reflexivity|]. unfold weaken2 at 2. destruct (_ && _); exact IH. Qed.
  Lemma weaken2_ok t : forall l rhs r, (forall j, In j (map fst l) -> (j < nc)%nat) ->
    fold_left (weaken2 m t) l (Some rhs) = Some r ->
    value (filter (fun e => negb (small t e)) l) y - r <= value l y - rhs.
  Proof.
    induction l as [|(j, c) l IH]; cbn [fold_left]; intros rhs r W E.
    - apply Some_inj in E. subst. simpl. lra.
    - assert (Wl : forall j, In j (map fst l) -> (j < nc)%nat) by (intros; apply W; simpl; auto).
      assert (L : (j < m_ncols m)%nat) by (rewrite <- (po_cols _ _ _ P); apply W; simpl; auto).
      destruct (Bnd j L) as (B1 & B2). unfold weaken2 at 2 in E. cbn [filter]. destruct (small t (j, c)) eqn:T; cbn [andb negb] in *.
      + destruct (nonzero (j, c)) eqn:Z.
        * cbn [fst snd] in E. unfold nonzero in Z. cbn [snd] in Z. apply negb_true_iff in Z. qb.
          destruct (0 <? c) eqn:S; qb.
          -- destruct (m_clo m j) as [b|]; [|rewrite weaken2_none in E; discriminate]. cbn [ge_opt_lo] in B1.
             apply IH in E; [|exact Wl]. simpl value in *. simpl in B1. destruct (0 <? b) eqn:Sb; qb.
             ++ assert (0 <= c * (y j)) by (apply Qmult_le_0_compat; lra). lra.
             ++ assert (0 <= c * (y j - b)) by (apply Qmult_le_0_compat; lra). lra.
          -- destruct (m_chi m j) as [b|]; [|rewrite weaken2_none in E; discriminate].
             apply IH in E; [|exact Wl]. simpl value in *. simpl in B2. destruct (b <? 0) eqn:Sb; qb.
             ++ assert (0 <= - c * (- y j)) by (apply Qmult_le_0_compat; lra). lra.
             ++ assert (0 <= - c * (b - y j)) by (apply Qmult_le_0_compat; lra). lra.
        * unfold nonzero in Z. cbn [snd] in Z. apply negb_false_iff in Z. qb.
          apply IH in E; [|exact Wl]. simpl. rewrite Z. lra.
      + apply IH in E; [|exact Wl]. simpl. lra.
  Qed.
  Lemma finish2_ok cut rhs r : cut_idx p cut -> value cut y <= rhs ->
    finish2 sqrt m x cut rhs = Some r -> rowcut_sat r y.
  Proof.
    intros (N & W) V. unfold finish2. cbv zeta. destruct (fold_left _ cut (Some rhs)) as [r0|] eqn:E; [|discriminate].
    apply weaken2_ok in E; [|exact W]. destruct (_ && _); [|discriminate].
    intro H. apply Some_inj in H. subst r. split; simpl; [exact I|].
    rewrite pack_value; [lra|apply nodup_filter; exact N|].
    intros j Hj. rewrite <- (po_cols _ _ _ P). apply W. apply in_map_iff in Hj as (e & <- & He).
    apply filter_In in He as (He & _). apply in_map. exact He.
  Qed.
  Lemma cMirSeparation2_ok a row k r :
    agg_ok a -> (forall j, In j (map fst row) -> (j < nc)%nat \/ is_slack p (ag_rows a) j) ->
    knap_ok a row k -> knap_clear m k ->
    cMirSeparation2 sqrt srt keep crit p m x a row k = Done (Some r) -> rowcut_sat r y.
  Proof.
    intros A W K Kc. unfold cMirSeparation2. destruct (bestMir sqrt srt m x k) as [c|] eqn:B; [|discriminate].
    apply (bestMir_good sqrt srt crit p m x y Srt P Bnd Int IntUb a row) in B as [Gi Gs G]; auto.
    intro E. apply bind_done in E as ((cut, rhs) & E1 & E2). apply Done_inj in E2. cbn [fst snd] in E2.
    assert (C0 : cut_idx p (cm_row c)).
    { unfold cut_idx. rewrite Gi. split; [apply (ko_idx _ _ _ _ _ _ _ _ K)|]. intros j Hj. apply (proj2 (ko_idx _ _ _ _ _ _ _ _ K) j Hj). }
    apply write2_ok in E1 as (C1 & V1); auto; [|intros e He; apply (ko_cont _ _ _ _ _ _ _ _ K e He)].
    cbn [fst snd] in *. revert E2. apply finish2_ok; [exact C1|].
    set (S := sumq (map (sterm (ag_rows a) row) (k_cont k))) in *.
    assert (S0 : 0 <= S).
    { unfold S. pose proof (ko_cont _ _ _ _ _ _ _ _ K) as H. clear -H. induction (k_cont k) as [|e l IH]; simpl; [lra|].
      destruct (H e (or_introl eq_refl)) as (_ & H1).
      assert (0 <= sumq (map (sterm (ag_rows a) row) l)) by (apply IH; intros; apply H; simpl; auto). lra. }
    pose proof (G S S0 (ko_ineq _ _ _ _ _ _ _ _ K)). lra.
  Qed.

  (** No coefficient of an aggregated row equals the tolerance, and the
      knapsacks have no small coefficient on a column that may be negative. *)
  Definition agg_clear2 (a : agg) : Prop :=
    (forall j c, In (j, c) (ag_row a) -> off_eps c) /\
    forall neg k,
      boundSubstitution2 crit p m x a (if neg : bool then scale (- (1)) (ag_row a) else ag_row a)
                         (if neg then - ag_rhs a else ag_rhs a) = Done (Some k) -> knap_clear m k.
  Definition ins_adds : Prop :=
    forall cs d e, In e (ins cs d) -> In e cs \/ (forall y, rowcut_sat d y -> rowcut_sat e y).
  Hypothesis Ins : ins_adds.

  Lemma off_opp q : off_eps q -> off_eps (- (1) * q).
  Proof. unfold off_eps. intros H E. apply H. rewrite <- E, Qabs_Qmult. change (Qabs (- (1))) with 1. ring. Qed.
  Lemma neg_row_facts a neg :
    agg_ok a ->
    let row := if neg : bool then scale (- (1)) (ag_row a) else ag_row a in
    let rhs := if neg then - ag_rhs a else ag_rhs a in
    (forall j, In j (map fst row) -> (j < nc)%nat \/ is_slack p (ag_rows a) j) /\ NoDup (map fst row) /\
    ((forall j c, In (j, c) (ag_row a) -> off_eps c) -> forall e, In e row -> off_eps (snd e)) /\
    value row (ext (ag_rows a)) <= rhs.
  Proof.
    intro A. cbv zeta. conjs.
    - intros j Hj. apply (ao_idx _ _ _ a A). destruct neg; [rewrite scale_fst in Hj|]; exact Hj.
    - destruct neg; rewrite ?scale_fst; apply A.
    - intros C (j, q) He. destruct neg; [|apply (C j); exact He].
      unfold scale in He. apply in_map_iff in He as ((j', q') & E & He). injection E as <- <-. simpl.
      apply off_opp. apply (C j'). exact He.
    - pose proof (ao_eq _ _ _ a A) as E. destruct neg; [rewrite value_scale|]; rewrite E; lra.
  Qed.
  Lemma try_row2_ok late a cs neg cs' c :
    agg_ok a -> agg_clear2 a -> try_row2 sqrt srt keep ins crit p m x late a cs neg = Done cs' ->
    In c cs' -> In c cs \/ rowcut_sat c y.
  Proof.
    intros A (C1 & C2). unfold try_row2. cbv zeta. specialize (C2 neg).
    destruct (neg_row_facts a neg A) as (W & N & Cl & V). cbv zeta in *.
    set (row := if neg then scale (- (1)) (ag_row a) else ag_row a) in *.
    set (rhs := if neg then - ag_rhs a else ag_rhs a) in *.
    intro E. apply bind_done in E as (o & B & E). destruct o as [k|]; [|apply Done_inj in E; subst; auto].
    specialize (C2 k B). apply boundSubstitution2_ok in B; auto.
    apply bind_done in E as (o & E1 & E2). apply Done_inj in E2. subst cs'.
    destruct o as [r|]; [|auto]. destruct (accepted _ _ _ _); [|auto].
    intro H. apply Ins in H as [H|H]; [auto|right]. apply H. apply (cMirSeparation2_ok a row k); auto.
  Qed.
  Lemma generate2_ok late saved n mult cs cs' c :
    (forall i a, In i (p_start p) -> In a (fst (more2 keep p m x act (n - 1) [] (start p m act i))) -> agg_clear2 a) ->
    generateMirCuts2 sqrt srt keep ins crit p m x act late saved n mult cs = Done cs' -> In c cs' -> In c cs \/ rowcut_sat c y.
  Proof.
    intros Cl. unfold generateMirCuts2. intro E.
    assert (G : forall c, In c cs' -> In c cs \/ rowcut_sat c y); [|apply G].
    revert E. apply (ofold_inv (fun cs' => forall c, In c cs' -> In c cs \/ rowcut_sat c y)); [|auto].
    intros s i s' Ii Hs E. unfold from_row in E. cbv zeta in E. apply bind_done in E as (s0 & E & E0).
    assert (s0 = s') as -> by (destruct (snd _); [|destruct saved]; try discriminate; apply Done_inj in E0; exact E0).
    revert E. apply (ofold_inv (fun cs' => forall c, In c cs' -> In c cs \/ rowcut_sat c y)); [|exact Hs].
    intros s0 a s1 Ia Hs0 E. assert (A : agg_ok a) by (apply (more2_ok _ _ _ _ (start_ok p m act y P i Ii) Ia)).
    revert E. apply (ofold_inv (fun cs' => forall c, In c cs' -> In c cs \/ rowcut_sat c y)); [|exact Hs0].
    intros s2 neg s3 _ Hs2 E c1 Hc.
    destruct (try_row2_ok late a s2 neg s3 c1 A (Cl i a Ii Ia) E Hc) as [H|H]; auto.
  Qed.
End Proofs2.

(** ** Outcomes *)
Section Total2.
  Variable sqrt : Q -> Q.
  Variable srt : vec -> vec.
  Variable keep : nat * Q -> bool.
  Variable ins : list rowcut -> rowcut -> list rowcut.
  Variable crit : Z.
  Variable p : prep.
  Variable m : mip.
  Variable x : nat -> Q.
  Variable act : nat -> Q.
  Notation nc := (p_ncols p).
  Hypothesis Rows : forall i j, In j (map fst (row_at m i)) -> (j < nc)%nat.
  Hypothesis RowsN : forall i, NoDup (map fst (row_at m i)).
  Hypothesis Vub : forall j b, p_vub p j = Some b -> m_int m (vb_var b) = true.
  Hypothesis Vlb : forall j b, p_vlb p j = Some b -> m_int m (vb_var b) = true.

  Definition agg_nodup (a : agg) : Prop := NoDup (map fst (ag_row a)).
  Lemma copy_nodup k i : NoDup (map fst (fst (copyRow p m act k i))).
  Proof.
    destruct (copy_fst p m act k i) as [-> | ->]; [apply RowsN|]. apply nodup_snoc; [apply RowsN|].
    intro X. apply Rows in X. lia.
  Qed.
  Lemma more2_nodup k : forall hid a b, agg_nodup a -> In b (fst (more2 keep p m x act k hid a)) -> agg_nodup b.
  Proof.
    induction k as [|k IH]; cbn [more2]; intros hid a b A H.
    - destruct H as [<-|[]]. exact A.
    - destruct (selectRow2 p m x hid a) as [(j, i)|] eqn:E; [|destruct H as [<-|[]]; exact A].
      cbn [fst] in H. destruct H as [<-|H]; [exact A|]. apply (IH _ _ _) in H; [exact H|].
      unfold agg_nodup, aggregate. cbn [ag_row]. apply nodup_vplus; [exact A|]. rewrite !scale_fst. apply copy_nodup.
  Qed.
  (** the slacks of an aggregated row have coefficients above the tolerance *)
  Definition slacks_big (a : agg) : Prop := forall j c, In (j, c) (ag_row a) -> (nc <= j)%nat -> eps <= Qabs c.

  Lemma subst_step2_cases a s e :
    (exists s', subst_step2 crit p m x a s e = Done s') \/
    (subst_step2 crit p m x a s e = Undef OutOfBounds /\ (nc <= fst e)%nat /\ Qabs (snd e) < eps).
  Proof.
    unfold subst_step2. destruct s as [(k, inf)|]; [|eauto]. cbv zeta. destruct (_ && (_ <? _)) eqn:C; [|eauto].
    apply andb_true_iff in C as (_ & C). qb. destruct (Nat.ltb_spec (fst e) nc) as [L|L]; [|right; auto].
    destruct (if _ <? 0 then _ else _); eauto.
  Qed.
  Lemma subst_fold2_cases a : forall l s,
    (exists s', ofold (subst_step2 crit p m x a) l s = Done s') \/
    (ofold (subst_step2 crit p m x a) l s = Undef OutOfBounds /\ exists e, In e l /\ (nc <= fst e)%nat /\ Qabs (snd e) < eps).
  Proof.
    induction l as [|e l IH]; cbn [ofold]; intro s; [left; eauto|].
    destruct (subst_step2_cases a s e) as [(s1 & E)|(E & H)]; rewrite E; cbn [bind].
    - destruct (IH s1) as [H|(H & e' & I1 & B)]; [auto|]. right. split; [exact H|]. exists e'. simpl. auto.
    - right. split; [reflexivity|]. exists e. simpl. auto.
  Qed.
  Lemma subst_fold2_idx a : forall l k inf k' inf',
    ints m (map fst (k_row k)) -> ofold (subst_step2 crit p m x a) l (Some (k, inf)) = Done (Some (k', inf')) ->
    ints m (map fst (k_row k')) /\
    exists new, map fst (k_cont k') = map fst (k_cont k) ++ new /\ sub new (map fst l) /\ cont_kind p m new.
  Proof.
    induction l as [|e l IH]; cbn [ofold]; intros k inf k' inf' K E.
    - apply Done_inj, Some_inj in E. injection E as -> _. split; [exact K|]. exists []. rewrite app_nil_r.
      conjs; [reflexivity|constructor|intros ? []].
    - apply bind_done in E as (s1 & E1 & E2). destruct s1 as [(k1, inf1)|];
        [|exfalso; clear -E2; induction l as [|e0 l IHl]; cbn [ofold] in E2; [discriminate|simpl in E2; auto]].
      assert (S : ints m (map fst (k_row k1)) /\
        (map fst (k_cont k1) = map fst (k_cont k) \/
         map fst (k_cont k1) = map fst (k_cont k) ++ [fst e] /\ ((fst e < nc)%nat -> m_int m (fst e) = false))).
      { revert E1. unfold subst_step2. cbv zeta. destruct (_ && (_ <? _)).
        - destruct (Nat.ltb _ _); [|discriminate]. destruct (if _ <? 0 then _ else _); intro E1; apply Done_inj, Some_inj in E1;
            injection E1 as <- _; cbn [k_row k_cont]; auto.
        - destruct (subst_step crit p m x a (Some k) e) as [k2|] eqn:S; intro E1; apply Done_inj in E1; [|discriminate].
          apply Some_inj in E1. injection E1 as -> _. apply (subst_step_idx crit p m x Vub Vlb a k e k1 K S). }
      destruct S as (K1 & C1). apply IH in E2 as (K2 & new & C2 & S2 & T2); [|exact K1]. split; [exact K2|].
      destruct C1 as [C1|(C1 & T1)]; rewrite C1 in C2.
      + exists new. conjs; [exact C2|simpl; apply sub_skip; exact S2|exact T2].
      + exists (fst e :: new). conjs.
        * rewrite C2, <- app_assoc. reflexivity.
        * simpl. apply sub_keep. exact S2.
        * intros j [<-|H]; auto.
  Qed.
  Lemma write_cols_total a row sc : forall l cut rhs,
    NoDup (map fst l) -> (forall e, In e l -> (fst e < nc)%nat /\ m_int m (fst e) = false /\ has cut (fst e) = false) ->
    exists s, ofold (write_step keep crit p m x a row sc) l (cut, rhs) = Done s.
  Proof.
    induction l as [|(j, c) l IH]; intros cut rhs N H; [eexists; reflexivity|]. cbn [ofold].
    inversion N as [|? ? N1 N2]; subst. cbn [fst] in *.
    destruct (H (j, c) (or_introl eq_refl)) as (L & Ij & Hj). cbn [fst] in *.
    assert (Add : forall k d, m_int m k = true -> forall i, m_int m i = false -> has cut i = false -> has (add_to cut k d) i = false).
    { intros k d Hk i Hi Hc. apply has_not. intro X. apply add_to_in in X as [X| ->]; [|congruence].
      apply has_not in Hc. contradiction. }
    assert (Step : exists cut' rhs', write_step keep crit p m x a row sc (cut, rhs) (j, c) = Done (cut', rhs') /\
       forall i, i <> j -> m_int m i = false -> has cut i = false -> has cut' i = false).
    { assert (Ins : forall v a0, (forall i, m_int m i = false -> has cut i = false -> has v i = false) ->
               vinsert v j a0 = Done (v ++ [(j, a0)]) /\
               forall i, i <> j -> m_int m i = false -> has cut i = false -> has (v ++ [(j, a0)]) i = false).
      { intros v a0 Hv. unfold vinsert. rewrite (Hv j Ij Hj). split; [reflexivity|].
        intros i Ni Hi Hc. apply has_not. rewrite map_app, in_app_iff. intros [X|[X|[]]]; [|simpl in X; congruence].
        apply (proj1 (has_not v i) (Hv i Hi Hc)). exact X. }
      unfold write_step. cbn [fst snd]. rewrite (proj2 (Nat.ltb_lt _ _) L).
      destruct (isLower crit p m x (coef row j) j).
      - destruct (p_vlb p j) as [b|] eqn:V.
        + destruct (Ins (add_to cut (vb_var b) (- (sc * c * vb_val b))) (sc * c)) as (E1 & E2); [apply Add, (Vlb j b V)|].
          rewrite E1. cbn [bind]. eauto.
        + destruct (Ins cut (sc * c)) as (E1 & E2); [auto|]. rewrite E1. cbn [bind]. eauto.
      - destruct (p_vub p j) as [b|] eqn:V.
        + destruct (Ins (add_to cut (vb_var b) (sc * c * vb_val b)) (- (sc * c))) as (E1 & E2); [apply Add, (Vub j b V)|].
          rewrite E1. cbn [bind]. eauto.
        + destruct (Ins cut (- (sc * c))) as (E1 & E2); [auto|]. rewrite E1. cbn [bind]. eauto. }
    destruct Step as (cut' & rhs' & E & F). rewrite E. cbn [bind]. apply IH; [exact N2|].
    intros e He. destruct (H e (or_intror He)) as (A1 & A2 & A3). conjs; auto. apply F; auto.
    intro X. apply N1. rewrite <- X. apply in_map. exact He.
  Qed.
  Lemma separation2_total a row k :
    NoDup (map fst row) -> ints m (map fst (k_row k)) -> sub (map fst (k_cont k)) (map fst row) -> cont_kind p m (map fst (k_cont k)) ->
    exists o, cMirSeparation2 sqrt srt keep crit p m x a row k = Done o.
  Proof.
    intros N K S T. unfold cMirSeparation2. destruct (bestMir sqrt srt m x k) as [c|] eqn:B; [|eauto].
    apply bestMir_idx in B. unfold write2.
    destruct (write_cols_total a row (cm_s c) (filter (fun e => Nat.ltb (fst e) nc) (k_cont k)) (cm_row c) (cm_rhs c)) as (s & E).
    - apply nodup_filter. apply (sub_nodup _ _ S N).
    - intros e He. apply filter_In in He as (He & L). apply Nat.ltb_lt in L.
      assert (Ic : m_int m (fst e) = false) by (apply T; [apply in_map; exact He|exact L]). conjs; auto.
      apply has_not. rewrite B. intro X. apply K in X. congruence.
    - rewrite E. cbn [bind]. eauto.
  Qed.
  Definition row_of (a : agg) (neg : bool) : vec := if neg then scale (- (1)) (ag_row a) else ag_row a.
  Lemma try_row2_cases late a cs neg : agg_nodup a ->
    (exists cs', try_row2 sqrt srt keep ins crit p m x late a cs neg = Done cs') \/
    (try_row2 sqrt srt keep ins crit p m x late a cs neg = Undef OutOfBounds /\ ~ slacks_big a).
  Proof.
    intros N. unfold try_row2. cbv zeta. fold (row_of a neg).
    assert (Nr : NoDup (map fst (row_of a neg))) by (unfold row_of; destruct neg; rewrite ?scale_fst; exact N).
    unfold boundSubstitution2 at 1 2.
    destruct (subst_fold2_cases a (row_of a neg) (Some (Knap [] (if neg then - ag_rhs a else ag_rhs a) 0 [], false)))
      as [(s & E)|(E & e & I1 & L & B)]; rewrite E; cbn [bind].
    - left. destruct s as [(k, [|])|]; [cbn [bind]; eauto| |cbn [bind]; eauto].
      apply subst_fold2_idx in E as (K1 & new & C1 & S1 & T1); [|intros j []].
      cbn [k_cont map app] in C1. rewrite <- C1 in S1, T1.
      assert (G : exists o, cMirSeparation2 sqrt srt keep crit p m x a (row_of a neg) k = Done o) by (apply separation2_total; assumption).
      destruct G as (o & G). destruct (k_cont k); [cbn [bind]; eauto|]. destruct (k_row k); [cbn [bind]; eauto|].
      destruct (existsb _ _); cbn [bind]; [eauto|]. rewrite G. cbn [bind]. eauto.
    - right. split; [reflexivity|]. intro H. destruct e as (j, c). cbn [fst snd] in *. unfold row_of in I1. destruct neg.
      + unfold scale in I1. apply in_map_iff in I1 as ((j', c') & E' & I1). injection E' as <- <-.
        specialize (H j' c' I1 L). rewrite Qabs_Qmult in B. change (Qabs (- (1))) with 1 in B. lra.
      + specialize (H j c I1 L). lra.
  Qed.
  Lemma ofold_cases {A B} (f : A -> B -> outcome A) (Bad : B -> Prop) : forall l s,
    (forall s b, In b l -> (exists s', f s b = Done s') \/ (f s b = Undef OutOfBounds /\ Bad b)) ->
    (exists s', ofold f l s = Done s') \/ (ofold f l s = Undef OutOfBounds /\ exists b, In b l /\ Bad b).
  Proof.
    induction l as [|b l IH]; cbn [ofold]; intros s H; [left; eauto|].
    destruct (H s b (or_introl eq_refl)) as [(s1 & E)|(E & X)]; rewrite E; cbn [bind].
    - destruct (IH s1) as [G|(G & b' & I1 & X)]; [intros; apply H; simpl; auto|auto|]. right. split; [exact G|]. exists b'. simpl. auto.
    - right. split; [reflexivity|]. exists b. simpl. auto.
  Qed.
  (** columns used for aggregation exist only when more than one row is allowed *)
  Lemma more2_one n hid a : (n <= 1)%nat -> more2 keep p m x act (n - 1) hid a = ([a], hid).
  Proof. intro H. replace (n - 1)%nat with 0%nat by lia. reflexivity. Qed.
  Lemma generate2_cases late saved n mult cs :
    let r := generateMirCuts2 sqrt srt keep ins crit p m x act late saved n mult cs in
    (exists cs', r = Done cs') \/
    (r = Undef OutOfBounds /\ exists i a, In i (p_start p) /\ In a (fst (more2 keep p m x act (n - 1) [] (start p m act i))) /\ ~ slacks_big a) \/
    (r = Undef Uninitialised /\ saved = false /\ exists i, In i (p_start p) /\ snd (more2 keep p m x act (n - 1) [] (start p m act i)) <> []).
  Proof.
    cbv zeta. unfold generateMirCuts2. revert cs. generalize (p_start p). intros l cs. revert cs.
    assert (One : forall cs i, In i l ->
      (exists cs', from_row sqrt srt keep ins crit p m x act late saved n mult cs i = Done cs') \/
      (from_row sqrt srt keep ins crit p m x act late saved n mult cs i = Undef OutOfBounds /\
       exists a, In a (fst (more2 keep p m x act (n - 1) [] (start p m act i))) /\ ~ slacks_big a) \/
      (from_row sqrt srt keep ins crit p m x act late saved n mult cs i = Undef Uninitialised /\ saved = false /\
       snd (more2 keep p m x act (n - 1) [] (start p m act i)) <> [])).
    { intros cs i Hi. unfold from_row. cbv zeta.
      destruct (ofold_cases (fun cs a => ofold (try_row2 sqrt srt keep ins crit p m x late a) (if mult then [false; true] else [false]) cs)
                  (fun a => ~ slacks_big a) (fst (more2 keep p m x act (n - 1) [] (start p m act i))) cs) as [(s & E)|(E & a & I1 & B)].
      - intros s a Ha.
        assert (Na : agg_nodup a).
        { apply (more2_nodup _ _ _ _) in Ha; [exact Ha|]. unfold agg_nodup, start. cbn [ag_row]. apply copy_nodup. }
        destruct (ofold_cases (try_row2 sqrt srt keep ins crit p m x late a) (fun _ => ~ slacks_big a) (if mult then [false; true] else [false]) s)
          as [G|(G & _ & _ & B)]; [|auto|auto]. intros s0 neg _. apply try_row2_cases. exact Na.
      - rewrite E. cbn [bind]. destruct (snd (more2 keep p m x act (n - 1) [] (start p m act i))) as [|c0 l0] eqn:Sn; [eauto|].
        destruct saved; [eauto|]. right. right. conjs; auto. discriminate.
      - rewrite E. cbn [bind]. right. left. split; [reflexivity|]. eauto. }
    revert One. induction l as [|i l IH]; cbn [ofold]; intros One cs; [left; eauto|].
    destruct (One cs i (or_introl eq_refl)) as [(s & E)|[(E & a & I1 & B)|(E & S & B)]]; rewrite E; cbn [bind].
    - destruct (IH (fun cs i H => One cs i (or_intror H)) s) as [G|[(G & i' & a & I1 & I2 & B)|(G & S & i' & I1 & B)]]; [auto| |].
      + right. left. split; [exact G|]. exists i', a. simpl. auto.
      + right. right. conjs; [exact G|exact S|]. exists i'. simpl. auto.
    - right. left. split; [reflexivity|]. exists i, a. simpl. auto.
    - right. right. conjs; auto. exists i. simpl. auto.
  Qed.
End Total2.

(** ** Form of the cuts *)
(** what every new cut looks like; [late] is info.pass || info.inTree *)
Definition good_cut (m : mip) (x : nat -> Q) (late : bool) (ncols : nat) (d : rowcut) : Prop :=
  rc_lb d = None /\ increasing (map fst (rc_form d)) /\
  (forall j a, In (j, a) (rc_form d) -> (j < m_ncols m)%nat /\ (1 # 100000) <= Qabs a <= 10000000) /\
  (forall j a k b, In (j, a) (rc_form d) -> In (k, b) (rc_form d) -> Qabs a <= 100000000 * Qabs b) /\
  (late = true -> (10 * Z.of_nat (length (rc_form d)) <= 8 * Z.of_nat ncols)%Z) /\
  exists u, rc_ub d = Some u /\ u + (1 # 1000000) <= value (rc_form d) x.
Lemma largest_ge (v : vec) : forall s, s <= fold_left (fun s e => qmax s (Qabs (snd e))) v s /\
  forall e, In e v -> Qabs (snd e) <= fold_left (fun s e => qmax s (Qabs (snd e))) v s.
Proof.
  induction v as [|e v IH]; cbn [fold_left]; intro s; [split; [lra|intros ? []]|].
  destruct (IH (qmax s (Qabs (snd e)))) as (A & B).
  assert (M : s <= qmax s (Qabs (snd e)) /\ Qabs (snd e) <= qmax s (Qabs (snd e))).
  { unfold qmax. destruct (_ <? _) eqn:E; qb; lra. }
  split; [lra|]. intros e' [<-|H]; [lra|]. apply B. exact H.
Qed.
Section Form2.
  Variable sqrt : Q -> Q.
  Variable srt : vec -> vec.
  Variable keep : nat * Q -> bool.
  Variable ins : list rowcut -> rowcut -> list rowcut.
  Variable crit : Z.
  Variable p : prep.
  Variable m : mip.
  Variable x : nat -> Q.
  Variable act : nat -> Q.
  Hypothesis Ins : forall cs d e, In e (ins cs d) -> In e cs \/ e = d.
  Lemma accepted_good late a row k r :
    cMirSeparation2 sqrt srt keep crit p m x a row k = Done (Some r) -> accepted p x late r = true -> good_cut m x late (p_ncols p) r.
  Proof.
    unfold cMirSeparation2. destruct (bestMir sqrt srt m x k); [|discriminate]. intro E. apply bind_done in E as (s & _ & E).
    apply Done_inj in E. unfold finish2 in E. cbv zeta in E. destruct (fold_left _ _ _) as [r0|]; [|discriminate].
    destruct (_ && _); [|discriminate]. apply Some_inj in E. subst r.
    set (v := filter _ _). clearbody v. unfold accepted. cbn [rc_form rc_ub]. cbv zeta. intro A.
    apply andb_true_iff in A as (A & A4). apply andb_true_iff in A as (A & A3). apply andb_true_iff in A as (A1 & A2).
    qb. unfold good_cut. cbn [rc_form rc_lb rc_ub].
    destruct (pack_idx v (m_ncols m) 0) as (I1 & I2). fold (pack (m_ncols m) v) in I1, I2. set (w := pack (m_ncols m) v) in *.
    destruct (largest_ge w 0) as (_ & Lg). fold (largest w) in Lg.
    unfold smallest_ok in A2. rewrite forallb_forall in A2.
    conjs; [reflexivity|exact I1| | | |exists r0; split; [reflexivity|exact A4]].
    - intros j q Hq. split; [apply I2 in Hq; lia|]. specialize (A2 _ Hq). specialize (Lg _ Hq). cbn [snd] in *.
      apply andb_true_iff in A2 as (_ & A2). qb. lra.
    - intros j q j' q' Hq Hq'. specialize (A2 _ Hq'). specialize (Lg _ Hq). cbn [snd] in *.
      apply andb_true_iff in A2 as (A2 & _). qb. lra.
    - intros ->. cbn [andb] in A1. lia.
  Qed.
  Lemma generate2_form late saved n mult cs cs' c :
    generateMirCuts2 sqrt srt keep ins crit p m x act late saved n mult cs = Done cs' -> In c cs' ->
    In c cs \/ good_cut m x late (p_ncols p) c.
  Proof.
    unfold generateMirCuts2. intro E.
    assert (G : forall c, In c cs' -> In c cs \/ good_cut m x late (p_ncols p) c); [|apply G].
    revert E. apply (ofold_inv (fun cs' => forall c, In c cs' -> In c cs \/ good_cut m x late (p_ncols p) c)); [|auto].
    intros s i s' Ii Hs E. unfold from_row in E. cbv zeta in E. apply bind_done in E as (s0 & E & E0).
    assert (s0 = s') as -> by (destruct (snd _); [|destruct saved]; try discriminate; apply Done_inj in E0; exact E0).
    revert E. apply (ofold_inv (fun cs' => forall c, In c cs' -> In c cs \/ good_cut m x late (p_ncols p) c)); [|exact Hs].
    intros s0 a s1 Ia Hs0 E.
    revert E. apply (ofold_inv (fun cs' => forall c, In c cs' -> In c cs \/ good_cut m x late (p_ncols p) c)); [|exact Hs0].
    intros s2 neg s3 _ Hs2 E c1 Hc. unfold try_row2 in E. cbv zeta in E. apply bind_done in E as (o & _ & E).
    destruct o as [k|]; [|apply Done_inj in E; subst; auto]. apply bind_done in E as (o & E1 & E2). apply Done_inj in E2. subst s3.
    destruct o as [r|]; [|auto]. destruct (accepted p x late r) eqn:Ac; [|auto].
    apply Ins in Hc as [Hc| ->]; [auto|right]. apply (accepted_good late a _ k r E1 Ac).
  Qed.
End Form2.
