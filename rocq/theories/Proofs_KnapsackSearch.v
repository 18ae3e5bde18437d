(** * The cover searches *)

From Coq Require Import Permutation Sorted Qabs.
From Verif Require Import Base Proofs_Clique Model_KnapsackCover Proofs_Knapsack Proofs_KnapsackLift Proofs_KnapsackUpDown.
Local Open Scope Q_scope.

Lemma sorted_drop {A} (R : A -> A -> Prop) u e v : StronglySorted R (u ++ e :: v) -> StronglySorted R (u ++ v).
Proof.
  induction u as [|a u IH]; simpl; intro H; inversion H as [|? ? H1 H2]; subst; [exact H1|].
  constructor; [apply IH; exact H1|]. apply Forall_app in H2 as [H2 H3]. inversion H3; subst.
  apply Forall_app. split; assumption.
Qed.
Lemma sorted_prefix {A} (R : A -> A -> Prop) u v : StronglySorted R (u ++ v) -> StronglySorted R u.
Proof.
  induction u as [|a u IH]; simpl; intro H; [constructor|]. inversion H as [|? ? H1 H2]; subst.
  constructor; [apply IH; exact H1|]. apply Forall_app in H2. apply H2.
Qed.

(** Without its last member the cover does not exceed [lim]. *)
Definition last_needed (lim : Q) (cover : list item) : Prop :=
  exists u e, cover = u ++ [e] /\ weight u <= lim.

Lemma last_first lim cover : sorted_cover cover -> last_needed lim cover -> weight cover - cw cover 0 <= lim.
Proof.
  intros S (u & e & -> & W). rewrite weight_app. cbn [weight fold_right]. destruct u as [|f u].
  - unfold cw. simpl in *. lra.
  - unfold cw. simpl nth. inversion S as [|? ? S1 S2]; subst. rewrite Forall_forall in S2.
    specialize (S2 e ltac:(apply in_or_app; right; left; reflexivity)). unfold heavier in S2. lra.
Qed.

Section Greedy.
  Variable x : nat -> Q.
  Lemma greedy_ok krow b cover rem : findGreedyCover x krow b = Some (cover, rem) ->
    Permutation (cover ++ rem) krow /\ b + eps2 < weight cover /\ (2 <= length cover)%nat /\
    last_needed (b + eps2) cover /\ (sorted_cover krow -> sorted_cover cover).
  Proof.
    unfold findGreedyCover. intro E.
    assert (G : forall v s, let '(c, r, es, xs, got) := s in
              let '(c', r', es', xs', got') := fold_left (greedy_step x b) v s in
              es == weight c ->
              (got = true -> b + eps2 < weight c /\ exists u e, c = u ++ [e] /\ (u = [] \/ weight u <= b + eps2)) ->
              (got = false -> c = [] \/ weight c <= b + eps2) ->
              Permutation (c' ++ r') (c ++ r ++ v) /\ es' == weight c' /\
              (got' = true -> b + eps2 < weight c' /\ exists u e, c' = u ++ [e] /\ (u = [] \/ weight u <= b + eps2)) /\
              (StronglySorted heavier (c ++ v) -> StronglySorted heavier c')).
    { induction v as [|e v IH]; intros [[[[c r] es] xs] got]; simpl.
      - intros E1 E2 E3. rewrite app_nil_r. split; [apply Permutation_refl|]. split; [exact E1|]. split; [exact E2|].
        rewrite app_nil_r. auto.
      - destruct ((eps <=? x (fst e)) && (x (fst e) <=? onetol) && negb got) eqn:Q0.
        + specialize (IH (c ++ [e], r, es + snd e, xs + x (fst e), b + eps2 <? es + snd e)). simpl in IH.
          destruct (fold_left (greedy_step x b) v _) as [[[[c' r'] es'] xs'] got'] eqn:F.
          intros E1 E2 E3. apply andb_true_iff in Q0 as [_ Q0]. apply negb_true_iff in Q0. subst got.
          assert (Wc : weight (c ++ [e]) == es + snd e) by (rewrite weight_app; simpl; lra).
          destruct IH as (I1 & I2 & I3 & I4).
          * lra.
          * intro H. qb. split; [lra|]. exists c, e. split; [reflexivity|exact (E3 eq_refl)].
          * intro H. qb. right. lra.
          * split.
            -- eapply Permutation_trans; [exact I1|]. rewrite <- app_assoc. simpl. apply Permutation_app_head.
               apply Permutation_middle.
            -- split; [exact I2|]. split; [exact I3|]. intro S. apply I4. rewrite <- app_assoc. exact S.
        + specialize (IH (c, r ++ [e], es, xs, got)). simpl in IH.
          destruct (fold_left (greedy_step x b) v _) as [[[[c' r'] es'] xs'] got'] eqn:F.
          intros E1 E2 E3. destruct IH as (I1 & I2 & I3 & I4); auto.
          split; [|split; [exact I2|split; [exact I3|]]].
          * eapply Permutation_trans; [exact I1|]. rewrite <- app_assoc. apply Permutation_refl.
          * intro S. apply I4. eapply sorted_drop. exact S. }
    specialize (G krow ([], [], 0, 0, false)). simpl in G.
    destruct (fold_left (greedy_step x b) krow ([], [], 0, 0, false)) as [[[[c r] es] xs] got].
    destruct ((xs <=? inject_Z (Z.of_nat (length c)) - 1 + eps2) || negb got || Nat.ltb (length c) 2) eqn:Q0; [discriminate|].
    apply Some_inj in E. inversion E; subst. apply orb_false_iff in Q0 as [Q0 Q1]. apply orb_false_iff in Q0 as [_ Q0].
    apply negb_false_iff in Q0. apply Nat.ltb_ge in Q1. subst got.
    destruct G as (G1 & G2 & G3 & G4); [reflexivity|discriminate|left; reflexivity|].
    destruct (G3 eq_refl) as (G5 & u & e & G6 & G7).
    split; [exact G1|]. split; [exact G5|]. split; [exact Q1|]. split; [|exact G4].
    exists u, e. split; [exact G6|]. destruct G7 as [->|G7]; [|exact G7]. subst cover. simpl in Q1. lia.
  Qed.
End Greedy.

Lemma weight_rev v : weight (rev v) == weight v.
Proof. apply weight_perm, Permutation_sym, Permutation_rev. Qed.

Lemma shrink_ok lim : forall rc less rem cover rem',
  match rc with [] => True | e :: _ => less == weight rc - snd e end ->
  shrink lim rc less rem = Done (cover, rem') ->
  Permutation (cover ++ rem') (rev rc ++ rem) /\ (exists suf, rev rc = cover ++ suf) /\
  (lim < weight rc -> lim < weight cover) /\ last_needed lim cover.
Proof.
  induction rc as [|e rc IH]; intros less rem cover rem' H E; simpl in E; [discriminate|].
  destruct (lim <? less) eqn:Q0.
  - qb. destruct rc as [|e2 rc]; [discriminate|].
    destruct (IH (less - snd e2) (rem ++ [e]) cover rem') as (I1 & (suf & I2) & I3 & I4); [simpl in *; lra|exact E|].
    split; [|split; [|split; [|exact I4]]].
    + eapply Permutation_trans; [exact I1|]. change (rev (e :: e2 :: rc)) with (rev (e2 :: rc) ++ [e]).
      rewrite <- app_assoc. apply Permutation_app_head. simpl. apply Permutation_sym, Permutation_cons_append.
    + exists (suf ++ [e]). change (rev (e :: e2 :: rc)) with (rev (e2 :: rc) ++ [e]). rewrite I2, app_assoc. reflexivity.
    + intros _. apply I3. simpl in *. lra.
  - qb. apply Done_inj in E. inversion E; subst. split; [apply Permutation_refl|].
    split; [exists []; rewrite app_nil_r; reflexivity|]. split.
    + intro W. change (rev rc ++ [e]) with (rev (e :: rc)). rewrite weight_rev. exact W.
    + exists (rev rc), e. split; [reflexivity|]. rewrite weight_rev. simpl in H. lra.
Qed.
Lemma make_minimal_ok lim cover total rem cover' rem' : total == weight cover ->
  make_minimal lim cover total rem = Done (cover', rem') ->
  Permutation (cover' ++ rem') (cover ++ rem) /\ (exists suf, cover = cover' ++ suf) /\
  (lim < weight cover -> lim < weight cover') /\ last_needed lim cover'.
Proof.
  intros T E. unfold make_minimal in E. pose proof (weight_rev cover) as W.
  destruct (rev cover) as [|e rc] eqn:R; [discriminate|].
  destruct (shrink_ok lim (e :: rc) (total - snd e) rem cover' rem') as (I1 & I2 & I3 & I4); [simpl in *; lra|exact E|].
  rewrite <- R, rev_involutive in *. split; [exact I1|]. split; [exact I2|]. split; [|exact I4].
  intro H. apply I3. rewrite weight_rev. exact H.
Qed.
Lemma shrink_total lim : 0 <= lim -> forall rc less rem, rc <> [] ->
  match rc with [] => True | e :: _ => less == weight rc - snd e end ->
  exists r, shrink lim rc less rem = Done r.
Proof.
  intro L. induction rc as [|e rc IH]; intros less rem N H; [congruence|]. simpl.
  destruct (lim <? less) eqn:Q0; [|eexists; reflexivity].
  qb. destruct rc as [|e2 rc]; [simpl in H; lra|]. apply IH; [discriminate|]. simpl in *. lra.
Qed.
Lemma make_minimal_total lim cover total rem : 0 <= lim -> cover <> [] -> total == weight cover ->
  exists r, make_minimal lim cover total rem = Done r.
Proof.
  intros L N T. unfold make_minimal. pose proof (weight_rev cover) as W.
  destruct (rev cover) as [|e rc] eqn:R.
  - apply (f_equal (@rev item)) in R. rewrite rev_involutive in R. contradiction.
  - apply shrink_total; [exact L|discriminate|]. simpl in *. lra.
Qed.

Section Searches.
  Variable srt : forall A : Type, (A -> Q) -> list A -> list A.
  Variable fuel : nat.
  Variable x : nat -> Q.
  Hypothesis SRT : sort_spec srt.

  Lemma by_weight_ok v : Permutation (by_weight srt v) v /\ sorted_cover (by_weight srt v).
  Proof. destruct (SRT item snd v) as [A B]. split; [exact A|exact B]. Qed.
  Lemma by_weight_sum v : weight (by_weight srt v) == weight v.
  Proof. apply weight_perm, by_weight_ok. Qed.
  Lemma positive_perm u v : Permutation u v -> positive v -> positive u.
  Proof. intros P H. eapply Permutation_Forall; [apply Permutation_sym; exact P|exact H]. Qed.

  (** a cover, minimal up to [lim], which with the remainder makes up [krow] *)
  Record good_cover (lim low : Q) (krow cover rem : list item) : Prop := GC {
    gc_part : Permutation (cover ++ rem) krow;
    gc_cover : low < weight cover;
    gc_min : last_needed lim cover;
    gc_sorted : sorted_cover cover
  }.

  Lemma minimal_good lim low v total rem krow cover' rem' : total == weight v ->
    Permutation (v ++ rem) krow -> low <= lim -> lim < weight v ->
    make_minimal lim (by_weight srt v) total rem = Done (cover', rem') -> good_cover lim low krow cover' rem'.
  Proof.
    intros T P L W E. destruct (by_weight_ok v) as [B1 B2].
    destruct (make_minimal_ok lim (by_weight srt v) total rem cover' rem') as (I1 & (suf & I2) & I3 & I4);
      [rewrite by_weight_sum; exact T|exact E|].
    constructor.
    - eapply Permutation_trans; [exact I1|]. eapply Permutation_trans; [|exact P]. apply Permutation_app_tail. exact B1.
    - rewrite by_weight_sum in I3. specialize (I3 W). lra.
    - exact I4.
    - rewrite I2 in B2. exact (sorted_prefix _ _ _ B2).
  Qed.

  Lemma lp_ok krow b cover rem : findLPMostViolatedMinCover srt x krow b = Done (Some (cover, rem)) ->
    good_cover (b + (1 # 1000000000000)) (b + (1 # 1000000000000)) krow cover rem /\ (2 <= length cover)%nat.
  Proof.
    intro E. unfold findLPMostViolatedMinCover in E. cbv zeta in E.
    destruct (weight krow <? b + eps); [discriminate|].
    apply bind_done in E as (r & _ & E). set (k := srt item (ratio x) krow) in *.
    destruct (1 - eps <? slack1 x (skipn r k)); [discriminate|].
    destruct (weight (skipn r k) <=? b + (1 # 100000000) * (1 + Qabs b)) eqn:Q0; [discriminate|]. qb.
    apply bind_done in E as ([c' r'] & E1 & E). simpl in E.
    destruct (Nat.ltb (length c') 2) eqn:Q1; [discriminate|]. apply Done_inj in E. apply Some_inj in E. inversion E; subst.
    apply Nat.ltb_ge in Q1. split; [|exact Q1].
    eapply minimal_good; [| | | |exact E1].
    - reflexivity.
    - destruct (SRT item (ratio x) krow) as [P _]. eapply Permutation_trans; [|exact P]. fold k.
      rewrite <- (firstn_skipn r k) at 3. apply Permutation_app_comm.
    - lra.
    - pose proof (Qabs_nonneg b). assert (0 <= (1 # 100000000) * Qabs b) by (apply Qmult_le_0_compat; [discriminate|assumption]). lra.
  Qed.

  (** the exact search stops short of a cover by at most the solver's tolerance *)
  Lemma filter_split {A} (f : A -> bool) l : Permutation (filter (fun a => negb (f a)) l ++ filter f l) l.
  Proof.
    induction l as [|a l IH]; simpl; [constructor|]. destruct (f a); simpl.
    - apply Permutation_sym, Permutation_cons_app, Permutation_sym. exact IH.
    - constructor. exact IH.
  Qed.
  Lemma exact_ok krow b cover rem : positive krow ->
    findExactMostViolatedMinCover srt fuel x krow b = Done (Some (cover, rem)) ->
    good_cover b (b + eps - eps2 - eps) krow cover rem /\ (rem = [] -> b < weight cover).
  Proof.
    intros Pk E. unfold findExactMostViolatedMinCover in E. cbv zeta in E.
    destruct (weight krow <? b + eps) eqn:Q0; [discriminate|]. qb.
    apply bind_done in E as ([z y] & E1 & E). set (k := srt item (ratio x) krow) in *. simpl in E.
    destruct (slack1 x k - z <? 1); [|discriminate].
    apply bind_done in E as ([c' r'] & E2 & E). apply Done_inj in E. apply Some_inj in E. inversion E; subst c' r'. clear E.
    destruct (SRT item (ratio x) krow) as [P _]. fold k in P.
    assert (Pw : Forall (fun i : pw => 0 < snd i) (map (fun e : item => (1 - x (fst e), snd e)) k)).
    { rewrite Forall_map. simpl. apply (positive_perm _ _ P Pk). }
    assert (Cap : 0 <= weight krow - b - eps + eps2) by (unfold eps2; lra).
    destruct (solver_fits fuel _ _ z y Pw Cap E1) as (F1 & F2 & _ & _).
    rewrite map_length in F1.
    set (tg := combine k y) in *.
    assert (M : map fst tg = k).
    { unfold tg. clear - F1. revert y F1. induction k as [|e k IH]; intros [|b y] H; try discriminate; [reflexivity|].
      simpl in *. f_equal. apply IH. congruence. }
    assert (Pm : Permutation (map fst (filter (fun t => negb (snd t)) tg) ++ map fst (filter snd tg)) krow).
    { rewrite <- map_app. eapply Permutation_trans; [apply Permutation_map, filter_split|]. rewrite M. exact P. }
    set (cv := map fst (filter (fun t => negb (snd t)) tg)) in *.
    set (rm := map fst (filter snd tg)) in *.
    assert (W : weight rm == wt (map (fun e : item => (1 - x (fst e), snd e)) k) y).
    { unfold rm, tg. clear - F1. revert y F1. induction k as [|e k IH]; intros [|b y] H; try discriminate; [reflexivity|].
      simpl in *. destruct b; simpl; rewrite (IH y) by congruence; lra. }
    assert (Wc : b + eps - eps2 <= weight cv).
    { pose proof (weight_perm _ _ Pm) as X. rewrite weight_app in X. lra. }
    destruct (by_weight_ok cv) as [B1 B2].
    destruct (make_minimal_ok b (by_weight srt cv) (weight cv) rm cover rem) as (I1 & (suf & I2) & I3 & I4);
      [rewrite by_weight_sum; reflexivity|exact E2|].
    assert (PP : Permutation (cover ++ rem) krow).
    { eapply Permutation_trans; [exact I1|]. eapply Permutation_trans; [|exact Pm]. apply Permutation_app_tail. exact B1. }
    split.
    - constructor.
      + exact PP.
      + rewrite by_weight_sum in I3. destruct (Qlt_le_dec b (weight cv)) as [L|L].
        * specialize (I3 L). unfold eps2. lra.
        * assert (Ns : suf = []).
          { destruct suf as [|e suf]; [reflexivity|exfalso].
            (* nothing is dropped when the whole does not exceed b *)
            unfold make_minimal in E2. pose proof (weight_rev (by_weight srt cv)) as WR. rewrite by_weight_sum in WR.
            destruct (rev (by_weight srt cv)) as [|e0 rc] eqn:R; [discriminate|]. simpl in E2.
            assert (0 < snd e0).
            { assert (In e0 cv) as I0. { apply (Permutation_in _ B1). apply in_rev. rewrite R. left. reflexivity. }
              assert (In e0 krow) as I5 by (apply (Permutation_in _ Pm), in_or_app; left; exact I0).
              unfold positive in Pk. rewrite Forall_forall in Pk. apply Pk. exact I5. }
            destruct (b <? weight cv - snd e0) eqn:Q1; [qb; lra|]. apply Done_inj in E2. inversion E2 as [[H1 H2]].
            assert (X : by_weight srt cv = cover).
            { rewrite <- H1. rewrite <- (rev_involutive (by_weight srt cv)), R. reflexivity. }
            rewrite X in I2. apply (f_equal (@length item)) in I2. rewrite app_length in I2. simpl in I2. lia. }
          subst suf. rewrite app_nil_r in I2. rewrite <- I2, by_weight_sum. unfold eps, eps2 in *. lra.
      + exact I4.
      + rewrite I2 in B2. exact (sorted_prefix _ _ _ B2).
    - intros ->. rewrite app_nil_r in PP. rewrite (weight_perm _ _ PP). unfold eps in Q0. lra.
  Qed.
End Searches.

(** ** The two searches after John and Ellis *)
Section JohnEllis.
  Variable srt : forall A : Type, (A -> Q) -> list A -> list A.
  Variable fuel : nat.
  Variable x : nat -> Q.
  Hypothesis SRT : sort_spec srt.

  Lemma three_parts krow : Permutation (at_one x krow ++ unsat_of x krow ++ at_zero x krow) krow.
  Proof.
    unfold at_one, unsat_of, at_zero. induction krow as [|e k IH]; [constructor|]. cbn [filter].
    destruct (onetol <? x (fst e)); cbn [negb andb app].
    - constructor. exact IH.
    - destruct (eps <=? x (fst e)); cbn [negb andb].
      + apply Permutation_sym, Permutation_cons_app, Permutation_sym. exact IH.
      + apply Permutation_sym. rewrite app_assoc. apply Permutation_cons_app. rewrite <- app_assoc. apply Permutation_sym. exact IH.
  Qed.
  Lemma minus_all v b : fold_left (fun s (e : nat * Q) => s - snd e) v b == b - weight v.
  Proof. revert b. induction v as [|e v IH]; intro b; simpl; [lra|]. rewrite IH. lra. Qed.

  Definition big_ok (v : list item) (i : nat) (big : Q * nat) : Prop :=
    (forall e, In e v -> snd e <= fst big) /\
    (v <> [] -> (i <= snd big)%nat /\ exists e, nth_error v (snd big - i) = Some e /\ snd e = fst big).
  Lemma biggest_gen : forall v i q0 i0, exists q j, biggest v i (q0, i0) = (q, j) /\ q0 <= q /\
    (forall e, In e v -> snd e <= q) /\
    ((q, j) = (q0, i0) \/ (i <= j)%nat /\ exists e, nth_error v (j - i) = Some e /\ snd e = q).
  Proof.
    induction v as [|e v IH]; intros i q0 i0; simpl.
    - exists q0, i0. split; [reflexivity|]. split; [lra|]. split; [intros e []|left; reflexivity].
    - destruct (q0 <? snd e) eqn:Q0; qb.
      + destruct (IH (S i) (snd e) i) as (q & j & H1 & H2 & H3 & H4). exists q, j.
        split; [exact H1|]. split; [lra|]. split; [intros f [<-|F]; [exact H2|apply H3; exact F]|].
        right. destruct H4 as [H4|(H4 & f & H5 & H6)].
        * inversion H4; subst. split; [lia|]. rewrite Nat.sub_diag. exists e. split; reflexivity.
        * split; [lia|]. exists f. replace (j - i)%nat with (S (j - S i)) by lia. split; assumption.
      + destruct (IH (S i) q0 i0) as (q & j & H1 & H2 & H3 & H4). exists q, j.
        split; [exact H1|]. split; [lra|]. split; [intros f [<-|F]; [lra|apply H3; exact F]|].
        destruct H4 as [H4|(H4 & f & H5 & H6)]; [left; exact H4|right].
        split; [lia|]. exists f. replace (j - i)%nat with (S (j - S i)) by lia. split; assumption.
  Qed.
  Lemma biggest_ok v i : positive v -> big_ok v i (biggest v i (0, 0%nat)).
  Proof.
    intro P. destruct (biggest_gen v i 0 0%nat) as (q & j & -> & H2 & H3 & H4). split; simpl; [exact H3|].
    intro N. destruct H4 as [H4|H4]; [|exact H4]. inversion H4; subst. destruct v as [|e v]; [congruence|].
    inversion P; subst. specialize (H3 e (or_introl eq_refl)). lra.
  Qed.
  Lemma biggest_nonneg v i : 0 <= fst (biggest v i (0, 0%nat)).
  Proof. destruct (biggest_gen v i 0 0%nat) as (q & j & -> & H2 & _). exact H2. Qed.

  Lemma scan_ok : forall v i margin big k mg (first : bool), positive v -> big_ok v i big ->
    (first = false -> fst big <= margin + eps2) ->
    scan v i margin big = Some (k, mg) ->
    exists v1 e v2, v = v1 ++ e :: v2 /\ k = (i + length v1 + 1)%nat /\ mg == margin - weight (v1 ++ [e]) /\
      (first = false \/ v1 <> [] -> - eps2 <= mg) /\
      (v2 <> [] -> exists f, In f v2 /\ mg + eps2 < snd f) /\
      (v2 = [] -> v1 = []).
  Proof.
    induction v as [|e v IH]; intros i margin big k mg first P B F E; simpl in E; [discriminate|].
    inversion P as [|? ? P1 P2]; subst.
    set (big' := if Nat.eqb i (snd big) then biggest v (S i) (0, 0%nat) else big) in *.
    assert (B' : big_ok v (S i) big' /\ (v = [] -> fst big' == 0)).
    { unfold big'. destruct (Nat.eqb i (snd big)) eqn:N.
      - split; [apply biggest_ok; exact P2|]. intros ->. reflexivity.
      - apply Nat.eqb_neq in N. destruct B as [B1 B2]. destruct (B2 ltac:(discriminate)) as (B3 & f & B4 & B5).
        assert (NE : nth_error v (snd big - S i) = Some f).
        { replace (snd big - i)%nat with (S (snd big - S i)) in B4 by lia. exact B4. }
        split.
        + split; [intros g G; apply B1; right; exact G|].
          intros _. split; [lia|]. exists f. split; [exact NE|exact B5].
        + intros ->. destruct (snd big - S i)%nat; discriminate. }
    destruct B' as [B' B0].
    assert (Fe : first = false -> snd e <= margin + eps2).
    { intro H. destruct B as [B1 _]. specialize (B1 e (or_introl eq_refl)). specialize (F H). lra. }
    destruct (margin - snd e + eps2 <? fst big') eqn:Q0; qb.
    - apply Some_inj in E. inversion E; subst. exists [], e, v. split; [reflexivity|]. split; [simpl; lia|].
      split; [simpl; lra|]. split; [|split].
      + intros [H|H]; [specialize (Fe H); lra|congruence].
      + intro N. destruct B' as [_ B2]. destruct (B2 N) as (_ & f & G1 & G2). apply nth_error_In in G1.
        exists f. split; [exact G1|]. rewrite G2. exact Q0.
      + reflexivity.
    - destruct (IH (S i) (margin - snd e) big' k mg false P2 B' (fun _ => Q0) E) as (v1 & f & v2 & H1 & H2 & H3 & H4 & H5 & H6).
      exists (e :: v1), f, v2. subst v. split; [reflexivity|]. split; [simpl; lia|]. split; [simpl in *; lra|].
      split; [intros _; apply H4; left; reflexivity|]. split; [exact H5|].
      intros ->. exfalso. specialize (H6 eq_refl). subst v1. simpl in *.
      specialize (H4 (or_introl eq_refl)).
      (* the last entry of all: nothing is left to fill the margin *)
      clear IH. destruct B' as [B1 B2]. cbn [scan] in E.
      destruct (Nat.eqb (S i) (snd big')) eqn:N.
      + match type of E with (if ?c then _ else _) = _ => destruct c eqn:Q1; [|discriminate] end. qb.
        apply Nat.eqb_eq in N. rewrite <- N in Q1. rewrite Nat.eqb_refl in Q1. simpl in Q1. lra.
      + apply Nat.eqb_neq in N. destruct (B2 ltac:(discriminate)) as (B3 & g & B4 & B5).
        destruct (snd big' - S i)%nat as [|n] eqn:D; [lia|]. destruct n; discriminate.
  Qed.
  Lemma first_filling_ok margin : forall v, (exists f, In f v /\ margin <= snd f) ->
    exists pre f post, first_filling margin v = Some (pre, f, post) /\ v = pre ++ f :: post.
  Proof.
    induction v as [|e v IH]; intros (f & F1 & F2); [destruct F1|]. simpl.
    destruct (snd e <? margin) eqn:Q0; qb.
    - destruct F1 as [->|F1]; [lra|]. destruct (IH (ex_intro _ f (conj F1 F2))) as (pre & g & post & -> & ->).
      exists (e :: pre), g, post. split; reflexivity.
    - exists [], e, v. split; reflexivity.
  Qed.
  Lemma swapped_ok pre f post : exists t, swapped pre f post = f :: t /\ Permutation (f :: t) (pre ++ f :: post).
  Proof.
    destruct pre as [|h pre]; simpl.
    - exists post. split; [reflexivity|apply Permutation_refl].
    - exists (pre ++ h :: post). split; [reflexivity|].
      eapply Permutation_trans; [|apply perm_skip, Permutation_middle].
      eapply Permutation_trans; [apply perm_skip, Permutation_sym, Permutation_middle|]. apply perm_swap.
  Qed.

  Lemma positive_filter (f : item -> bool) v : positive v -> positive (filter f v).
  Proof. induction 1; simpl; [constructor|]. destruct (f x0); [constructor|]; assumption. Qed.

  (** [choose] never reads past the end, splits the unsatisfied entries, and what
      it chooses exceeds the capacity by one entry only, unless it has at most
      two entries. *)
  Lemma choose_ok krow b : positive krow ->
    exists r, choose srt x krow b = Done r /\
    match r with
    | None => True
    | Some (chosen, others) =>
        Permutation (chosen ++ others) (unsat_of x krow) /\
        ((exists u f, chosen = u ++ [f] /\ weight u <= b - weight (at_one x krow) + eps2) \/ (length chosen <= 2)%nat)
    end.
  Proof.
    intro P. unfold choose. cbv zeta. set (us := srt item (fun e : item => x (fst e)) (unsat_of x krow)).
    destruct (SRT item (fun e : item => x (fst e)) (unsat_of x krow)) as [Pm _]. fold us in Pm. clearbody us.
    assert (Pu : positive us) by (eapply positive_perm; [exact Pm|apply positive_filter; exact P]).
    pose proof (minus_all (at_one x krow) b) as R. set (rhs := fold_left (fun (s : Q) (e : nat * Q) => s - snd e) (at_one x krow) b) in *.
    destruct (scan us 0 rhs (biggest us 0 (0, 0%nat))) as [[k mg]|] eqn:E; [|eexists; split; [reflexivity|exact I]].
    destruct (scan_ok us 0%nat rhs _ k mg true Pu (biggest_ok us 0%nat Pu) (fun H => False_ind _ (Bool.diff_true_false H)) E)
      as (v1 & e & v2 & H1 & H2 & H3 & H4 & H5 & H6).
    assert (Fk : firstn k us = v1 ++ [e] /\ skipn k us = v2).
    { assert (A : us = (v1 ++ [e]) ++ v2) by (rewrite <- app_assoc; exact H1).
      assert (K : k = length (v1 ++ [e])) by (rewrite app_length; simpl; lia). rewrite A, K. split.
      - rewrite firstn_app, Nat.sub_diag, firstn_all. simpl. rewrite app_nil_r. reflexivity.
      - rewrite skipn_app, Nat.sub_diag, skipn_all. reflexivity. }
    destruct Fk as [-> ->]. destruct v2 as [|g v2].
    - eexists. split; [reflexivity|]. cbv iota beta. rewrite app_nil_r. split.
      + rewrite H1 in Pm. exact Pm.
      + right. rewrite (H6 eq_refl). simpl. lia.
    - destruct (H5 ltac:(discriminate)) as (f & F1 & F2).
      destruct (first_filling_ok mg (g :: v2)) as (pre & h & post & -> & G).
      { exists f. split; [exact F1|]. unfold eps2 in F2. lra. }
      destruct (swapped_ok pre h post) as (t & -> & T). simpl firstn. simpl skipn.
      eexists. split; [reflexivity|]. split.
      + eapply Permutation_trans; [|exact Pm]. rewrite H1, <- !app_assoc. simpl. apply Permutation_app_head. constructor.
        rewrite G. exact T.
      + destruct v1 as [|e1 v1]; [right; simpl; lia|left].
        exists ((e1 :: v1) ++ [e]), h. split; [reflexivity|]. assert (M0 : - eps2 <= mg) by (apply H4; right; discriminate). lra.
  Qed.

  Lemma je_ok krow b frac ones_ rem : positive krow ->
    findJohnAndEllisCover srt x krow b = Done (Some (frac, ones_, rem)) ->
    Permutation (frac ++ ones_ ++ rem) krow /\ ones_ = at_one x krow /\
    b - weight ones_ + eps2 < weight frac /\ (2 <= length frac)%nat /\ sorted_cover frac /\
    (forall e, In e frac -> eps <= x (fst e) /\ x (fst e) <= onetol) /\
    ((exists f, In f frac /\ weight frac - snd f <= b - weight ones_ + eps2) \/ length frac = 2%nat).
  Proof.
    intros P E. unfold findJohnAndEllisCover in E. cbv zeta in E.
    destruct (choose_ok krow b P) as (r & Er & Hr). rewrite Er in E. cbn [bind] in E.
    destruct r as [[chosen others]|]; [|discriminate]. destruct Hr as [H1 H2].
    pose proof (minus_all (at_one x krow) b) as R. set (rhs := fold_left (fun (s : Q) (e : nat * Q) => s - snd e) (at_one x krow) b) in *.
    destruct (rhs + eps2 <? weight chosen) eqn:Q0; [|discriminate]. qb.
    destruct (Nat.ltb (length chosen) 2) eqn:Q1; [discriminate|]. apply Nat.ltb_ge in Q1.
    apply Done_inj in E. apply Some_inj in E. inversion E; subst frac ones_ rem. clear E.
    destruct (by_weight_ok srt SRT chosen) as [B1 B2]. pose proof (by_weight_sum srt SRT chosen) as B3.
    split; [|split; [reflexivity|split; [lra|split; [|split; [exact B2|split]]]]].
    - eapply Permutation_trans; [|apply three_parts].
      eapply Permutation_trans; [apply Permutation_app_tail; exact B1|].
      rewrite app_assoc. eapply Permutation_trans; [apply Permutation_app_tail, Permutation_app_comm|].
      rewrite <- app_assoc. apply Permutation_app_head.
      rewrite app_assoc. eapply Permutation_trans; [apply Permutation_app_comm|].
      rewrite app_assoc. eapply Permutation_trans; [apply Permutation_app_tail; apply Permutation_app_comm|].
      apply Permutation_app_tail. exact H1.
    - rewrite (Permutation_length B1). exact Q1.
    - intros e I. apply (Permutation_in _ B1) in I.
      assert (I2 : In e (unsat_of x krow)) by (apply (Permutation_in _ H1), in_or_app; left; exact I).
      unfold unsat_of in I2. apply filter_In in I2 as [_ I2]. apply andb_true_iff in I2 as [I2 I3].
      apply negb_true_iff in I2. qb. split; assumption.
    - rewrite (Permutation_length B1). destruct H2 as [(u & f & -> & H2)|H2]; [left|right; lia].
      exists f. split.
      + apply (Permutation_in _ (Permutation_sym B1)). apply in_or_app. right. left. reflexivity.
      + rewrite B3, weight_app. simpl. lra.
  Qed.

  Lemma pseudo_ok krow b cover rem : positive krow ->
    findPseudoJohnAndEllisCover srt x krow b = Done (Some (cover, rem)) ->
    good_cover b b krow cover rem /\ (2 <= length cover)%nat /\ (forall e, In e cover -> eps <= x (fst e)).
  Proof.
    intros P E. unfold findPseudoJohnAndEllisCover in E. cbv zeta in E.
    destruct (choose_ok krow b P) as (r & Er & Hr). rewrite Er in E. cbn [bind] in E.
    destruct r as [[chosen others]|]; [|discriminate]. destruct Hr as [H1 _].
    pose proof (minus_all (at_one x krow) b) as R. set (rhs := fold_left (fun (s : Q) (e : nat * Q) => s - snd e) (at_one x krow) b) in *.
    match type of E with (if ?c then _ else _) = _ => destruct c eqn:Q0; [|discriminate] end.
    apply andb_true_iff in Q0 as [_ Q0]. qb.
    apply bind_done in E as ([c' r'] & E1 & E). simpl in E.
    destruct (Nat.ltb (length c') 2) eqn:Q1; [discriminate|]. apply Nat.ltb_ge in Q1.
    apply Done_inj in E. apply Some_inj in E. inversion E; subst. split; [|split; [exact Q1|]].
    2:{ intros e I. destruct (by_weight_ok srt SRT (chosen ++ at_one x krow)) as [B1 _].
        destruct (make_minimal_ok b (by_weight srt (chosen ++ at_one x krow)) (weight (chosen ++ at_one x krow)) _ cover rem (Qeq_sym _ _ (by_weight_sum srt SRT _)) E1) as (_ & (suf & I2) & _).
        assert (I3 : In e (chosen ++ at_one x krow)).
        { apply (Permutation_in _ B1). rewrite I2. apply in_or_app. left. exact I. }
        apply in_app_or in I3 as [I3|I3].
        - assert (I4 : In e (unsat_of x krow)) by (apply (Permutation_in _ H1), in_or_app; left; exact I3).
          unfold unsat_of in I4. apply filter_In in I4 as [_ I4]. apply andb_true_iff in I4 as [_ I4]. qb. exact I4.
        - unfold at_one in I3. apply filter_In in I3 as [_ I3]. qb. unfold onetol, eps in *. lra. }
    eapply (minimal_good srt SRT b b); [reflexivity| | | |exact E1].
    - eapply Permutation_trans; [|apply three_parts].
      eapply Permutation_trans; [apply Permutation_app_tail, Permutation_app_comm|].
      rewrite <- app_assoc. apply Permutation_app_head.
      eapply Permutation_trans; [apply Permutation_app_head, Permutation_app_comm|].
      rewrite app_assoc. apply Permutation_app_tail. exact H1.
    - lra.
    - rewrite weight_app. unfold eps2 in Q0. lra.
  Qed.
End JohnEllis.
