(** * Lemmas about CglPreProcess::cliqueIt and CglBK *)
From Coq Require Import Permutation.
From Verif Require Import Model_CliqueIt.
Local Open Scope nat_scope.

Lemma memb_in a l : memb a l = true <-> In a l.
Proof.
  unfold memb. rewrite existsb_exists. split.
  - intros (x & I & E). apply Nat.eqb_eq in E. now subst.
  - intro I. exists a. split; [exact I|apply Nat.eqb_refl].
Qed.
Lemma memb_not a l : memb a l = false <-> ~ In a l.
Proof.
  rewrite <- memb_in. destruct (memb a l); split; intro H; try reflexivity; try discriminate H.
  exfalso. now apply H. intro X. discriminate X.
Qed.
Lemma NoDup_app_l {A} (l m : list A) : NoDup (l ++ m) -> NoDup l.
Proof.
  induction l as [|a l IH]; simpl; intro H; constructor; inversion H; subst.
  - intro I. apply H2. apply in_or_app. now left.
  - auto.
Qed.
Lemma NoDup_app_r {A} (l m : list A) : NoDup (l ++ m) -> NoDup m.
Proof. induction l as [|a l IH]; simpl; intro H; [exact H|]. inversion H; auto. Qed.
Lemma NoDup_app_disj {A} (l m : list A) a : NoDup (l ++ m) -> In a l -> In a m -> False.
Proof.
  induction l as [|b l IH]; simpl; intros H I J; [destruct I|]. inversion H; subst.
  destruct I as [->|I]; [|eauto]. apply H2. apply in_or_app. now right.
Qed.
Lemma NoDup_app_intro {A} (l m : list A) : NoDup l -> NoDup m ->
  (forall a, In a l -> In a m -> False) -> NoDup (l ++ m).
Proof.
  induction l as [|a l IH]; simpl; intros N M D; [exact M|]. inversion N; subst.
  constructor.
  - intro I. apply in_app_or in I. destruct I as [I|I]; [auto|]. apply (D a); auto.
  - apply IH; auto. intros b I J. apply (D b); auto.
Qed.

Lemma filter_length_le {A} (f : A -> bool) l : length (filter f l) <= length l.
Proof. induction l as [|a l IH]; [apply le_n|]. cbn [filter]. destruct (f a); cbn [length]; lia. Qed.

(** ** Bron-Kerbosch on an abstract graph *)
Section Graph.
Variable adj : nat -> list (nat * nat).
Variable typ : nat -> Z.
Variable vs : list nat.
Definition G (u v : nat) : Prop := In v (map fst (adj u)).
Hypothesis vs_nodup : NoDup vs.
Hypothesis G_sym : forall u v, G u v -> G v u.
Hypothesis G_irr : forall u, ~ G u u.
Hypothesis G_vs : forall u v, G u v -> In v vs.

Definition pairwise (l : list nat) : Prop :=
  forall u v, In u l -> In v l -> u <> v -> G u v.
Definition maximal (l : list nat) : Prop :=
  NoDup l /\ incl l vs /\ pairwise l /\
  forall v, In v vs -> (forall u, In u l -> G u v) -> In v l.
Definition simple : Prop := forall v, NoDup (map fst (adj v)).

Definition inv (b : bk) : Prop :=
  bk_adj b = adj /\ bk_type b = typ /\ bk_np b = length vs /\ 2 * length vs <= bk_cap b /\
  NoDup (bk_cand b ++ bk_not b ++ bk_in b) /\ incl (bk_in b) vs /\ pairwise (bk_in b) /\
  (forall v, In v (bk_cand b ++ bk_not b) <->
     In v vs /\ ~ In v (bk_in b) /\ forall u, In u (bk_in b) -> G u v).

Lemma inv_size b : inv b ->
  length (bk_cand b) + length (bk_not b) + length (bk_in b) <= length vs.
Proof.
  intros (_ & _ & _ & _ & N & I & _ & C).
  replace (length (bk_cand b) + length (bk_not b) + length (bk_in b))
    with (length (bk_cand b ++ bk_not b ++ bk_in b)) by (rewrite !app_length; lia).
  apply NoDup_incl_length; [exact N|]. intros v H.
  rewrite app_assoc in H. apply in_app_or in H. destruct H as [H|H]; [|auto].
  apply C in H. tauto.
Qed.

Definition marks (l : list nat) (i : nat) : bool :=
  (typ i =? 0)%Z &&
  existsb (fun c => existsb (fun e => Nat.eqb (snd e) i && memb (fst e) l) (adj c)) l.

(** What one call adds. *)
Definition adds (b : bk) (s s' : shared) (ls : list (list nat)) : Prop :=
  sh_rows s' = sh_rows s ++ ls /\
  (forall i, sh_dom s' i = sh_dom s i || existsb (fun l => marks l i) ls) /\
  (forall l, In l ls -> 2 < length l /\ maximal l /\ incl (bk_in b) l /\
     incl l (bk_in b ++ bk_cand b)) /\
  ForallOrdPairs (fun l l' => ~ incl l l') ls.

Lemma adds_nil b s : adds b s s [].
Proof.
  split; [now rewrite app_nil_r|]. split; [intro i; simpl; now rewrite orb_false_r|].
  split; [intros l []|constructor].
Qed.

(** The pivot. *)
Lemma better_spec b l : forall st,
  (match snd st with Some v => fst st = weight b v | None => fst st = 0 end) ->
  let st' := fold_left (better b) l st in
  match snd st' with
  | Some v => fst st' = weight b v /\ (snd st = Some v \/ In v l)
  | None => fst st' = 0 /\ snd st = None
  end.
Proof.
  induction l as [|a l IH]; intros st H; cbn [fold_left].
  - cbv zeta. destruct (snd st) eqn:E; auto.
  - cbv zeta. specialize (IH (better b st a)).
    assert (X : match snd (better b st a) with
      | Some v => fst (better b st a) = weight b v | None => fst (better b st a) = 0 end).
    { unfold better. destruct (Nat.ltb _ _); [reflexivity|exact H]. }
    specialize (IH X). cbv zeta in IH.
    destruct (snd (fold_left (better b) l (better b st a))) as [v|] eqn:E.
    + destruct IH as [F [Q|Q]]; split; auto; [|right; now right].
      unfold better in Q. destruct (Nat.ltb _ _); [simpl in Q; apply Some_inj in Q; subst; right; now left|now left].
    + destruct IH as [F Q]. split; [exact F|]. unfold better in Q.
      destruct (Nat.ltb _ _); [discriminate Q|exact Q].
Qed.
Lemma choose_spec b :
  match snd (choose b) with
  | Some v => fst (choose b) = weight b v /\ In v (bk_cand b ++ bk_not b)
  | None => fst (choose b) = 0
  end.
Proof.
  unfold choose. set (st := fold_left (better b) (rev (bk_not b)) (0, None)).
  pose proof (better_spec b (rev (bk_not b)) (0, None) eq_refl) as S. cbv zeta in S. fold st in S.
  destruct (_ || _).
  - assert (X : match snd st with Some v => fst st = weight b v | None => fst st = 0 end).
    { destruct (snd st); tauto. }
    pose proof (better_spec b (bk_cand b) st X) as S'. cbv zeta in S'.
    destruct (snd (fold_left (better b) (bk_cand b) st)) as [v|].
    + destruct S' as [F [Q|Q]]; split; auto.
      * rewrite Q in S. destruct S as [_ [S|S]]; [discriminate S|].
        apply in_or_app. right. now apply in_rev.
      * apply in_or_app. now left.
    + tauto.
  - destruct (snd st) as [v|]; [|tauto]. destruct S as [F [S|S]]; [discriminate S|].
    split; [exact F|]. apply in_or_app. right. now apply in_rev.
Qed.

Lemma branch_ok b : inv b -> ~ (bk_cand b = [] /\ bk_not b = []) ->
  exists temp, branch b = Done temp /\ NoDup temp /\ incl temp (bk_cand b) /\
    (simple -> forall M, maximal M -> incl (bk_in b) M -> incl M (bk_in b ++ bk_cand b) ->
       exists v, In v temp /\ In v M).
Proof.
  intros I Ne. pose proof (inv_size b I) as Sz.
  destruct I as (Ea & Et & En & Ec & N & Iv & Pw & C).
  assert (Cp : 0 < bk_cap b).
  { destruct (bk_cand b) eqn:E1; [destruct (bk_not b) eqn:E2|]; cbn [length] in Sz;
      [exfalso; apply Ne; auto| |]; lia. }
  pose proof (choose_spec b) as S. unfold branch.
  assert (Ch : exists ch, match snd (choose b) with
           | Some v => Done v
           | None => if Nat.eqb (bk_cap b) 0 then Undef OutOfBounds
                     else Done (hd 0 (bk_cand b))
           end = Done ch /\
     (bk_cand b <> [] -> In ch (bk_cand b ++ bk_not b)) /\
     (length (bk_cand b) <= fst (choose b) -> bk_cand b <> [] -> fst (choose b) = weight b ch)).
  { destruct (snd (choose b)) as [v|].
    - exists v. split; [reflexivity|]. split; tauto.
    - replace (Nat.eqb (bk_cap b) 0) with false by (symmetry; apply Nat.eqb_neq; lia).
      exists (hd 0 (bk_cand b)). split; [reflexivity|]. split.
      + destruct (bk_cand b); [contradiction|]. intros _. now left.
      + intros L Nn. destruct (bk_cand b); [contradiction|]. cbn [length] in L. lia. }
  destruct Ch as (ch & E & Cin & Cw). rewrite E. cbn [bind].
  set (temp := if Nat.ltb _ _ then _ else _).
  assert (Nc : NoDup (bk_cand b)) by (eapply NoDup_app_l; exact N).
  assert (T1 : NoDup temp /\ incl temp (bk_cand b)).
  { unfold temp. destruct (Nat.ltb _ _).
    - split; [now apply NoDup_filter|]. intros v Iq. now apply filter_In in Iq.
    - split; [constructor|]. intros v []. }
  destruct T1 as [T1 T2].
  assert (Lt : length temp <= length (bk_cand b)) by now apply NoDup_incl_length.
  replace (Nat.leb (bk_np b + length (bk_in b) + length temp) (bk_cap b)) with true
    by (symmetry; apply Nat.leb_le; lia).
  exists temp. split; [reflexivity|]. split; [exact T1|]. split; [exact T2|].
  intros Sm M (Mn & Mv & Mp & Mx) Mi Mc.
  (* all candidates of M adjacent to the pivot is impossible *)
  assert (Key : forall c, In c (bk_cand b ++ bk_not b) ->
    (forall v, In v M -> In v (bk_cand b) -> G c v) -> False).
  { intros c Ic A. apply C in Ic as (Cv & Cn & Ca).
    assert (Icm : In c M).
    { apply Mx; [exact Cv|]. intros u Iu. destruct (in_app_or _ _ _ (Mc u Iu)) as [H|H].
      - now apply Ca.
      - apply G_sym. now apply A. }
    destruct (in_app_or _ _ _ (Mc c Icm)) as [H|H]; [contradiction|].
    apply (G_irr c). now apply A. }
  destruct (list_eq_dec Nat.eq_dec (bk_cand b) []) as [EP|Nn].
  - exfalso. destruct (bk_not b) as [|x X] eqn:EX; [apply Ne; auto|].
    apply (Key x); [apply in_or_app; right; now left|]. intros v _ Iq. rewrite EP in Iq. destruct Iq.
  - unfold temp. destruct (Nat.ltb (fst (choose b)) (length (bk_cand b))) eqn:L.
    + destruct (existsb (fun v => negb (memb v (map fst (bk_adj b ch))) && memb v (bk_cand b)) M) eqn:Ex.
      * apply existsb_exists in Ex. destruct Ex as (v & Im & B). apply andb_true_iff in B.
        destruct B as [B1 B2]. exists v. split; [|exact Im]. apply filter_In.
        split; [now apply memb_in|exact B1].
      * exfalso. apply (Key ch); [auto|]. intros v Im Ip. unfold G.
        destruct (memb v (map fst (bk_adj b ch))) eqn:Bm; [rewrite <- Ea; now apply memb_in|].
        assert (X : existsb (fun v => negb (memb v (map fst (bk_adj b ch))) && memb v (bk_cand b)) M = true).
        { apply existsb_exists. exists v. split; [exact Im|]. rewrite Bm. cbn [negb andb]. now apply memb_in. }
        congruence.
    + exfalso. apply Nat.ltb_ge in L. apply (Key ch); [auto|]. intros v Im Ip.
      specialize (Cw L Nn). rewrite Cw in L. unfold weight in L. rewrite Ea in L.
      assert (F : incl (bk_cand b) (map fst (filter (fun e => memb (fst e) (bk_cand b)) (adj ch)))).
      { apply NoDup_length_incl.
        - assert (Fm : map fst (filter (fun e : nat * nat => memb (fst e) (bk_cand b)) (adj ch)) =
            filter (fun c => memb c (bk_cand b)) (map fst (adj ch))).
          { generalize (adj ch). induction l as [|e l IHl]; [reflexivity|].
            cbn [filter map]. destruct (memb (fst e) (bk_cand b)); cbn [map]; congruence. }
          rewrite Fm. apply NoDup_filter. apply Sm.
        - rewrite map_length. exact L.
        - intros c Ic. apply in_map_iff in Ic. destruct Ic as (e & <- & Ie).
          apply filter_In in Ie. now apply memb_in. }
      specialize (F v Ip). apply in_map_iff in F. destruct F as (e & Ee & Ie).
      apply filter_In in Ie. destruct Ie as [Ie _]. unfold G. apply in_map_iff. eauto.
Qed.

(** One branch of the loop. *)
Definition drop (b : bk) (v : nat) : bk :=
  with_cand b (filter (fun w => negb (Nat.eqb w v)) (bk_cand b)) (bk_not b).
Lemma drop_cand b v w : In w (bk_cand (drop b v)) <-> In w (bk_cand b) /\ w <> v.
Proof.
  unfold drop, with_cand. cbn. rewrite filter_In, negb_true_iff, Nat.eqb_neq. tauto.
Qed.
Lemma filter_len_lt {A} (f : A -> bool) l a : In a l -> f a = false ->
  length (filter f l) < length l.
Proof.
  intros I E. induction l as [|b l IH]; [destruct I|]. cbn [filter].
  destruct I as [->|I].
  - rewrite E. cbn [length]. pose proof (filter_length_le f l). lia.
  - specialize (IH I). destruct (f b); cbn [length]; lia.
Qed.
Lemma drop_len b v : In v (bk_cand b) -> length (bk_cand (drop b v)) < length (bk_cand b).
Proof.
  intro I. unfold drop, with_cand. cbn. apply (filter_len_lt _ _ v I).
  now rewrite Nat.eqb_refl.
Qed.

Lemma child_ok b v : inv b -> In v (bk_cand b) ->
  exists c, child (drop b v) v = Done c /\ inv c /\
    bk_in c = bk_in b ++ [v] /\
    (forall w, In w (bk_cand c) <-> In w (bk_cand b) /\ w <> v /\ G v w) /\
    length (bk_cand c) < length (bk_cand b).
Proof.
  intros I Iv. pose proof (inv_size b I) as Sz.
  destruct I as (Ea & Et & En & Ec & N & Iin & Pw & C).
  assert (Lc : 0 < length (bk_cand b)) by (destruct (bk_cand b); [destruct Iv|simpl; lia]).
  unfold child, copy_bk, drop, with_cand. cbn [bk_np bk_cap bk_adj bk_type bk_cand bk_not bk_in].
  replace (Nat.leb (2 * bk_np b) (bk_cap b)) with true by (symmetry; apply Nat.leb_le; lia).
  cbn [bind bk_np bk_cap bk_adj bk_type bk_cand bk_not bk_in].
  replace (Nat.ltb (bk_np b + length (bk_in b)) (2 * bk_np b)) with true
    by (symmetry; apply Nat.ltb_lt; lia).
  eexists. split; [reflexivity|]. cbn [bk_np bk_cap bk_adj bk_type bk_cand bk_not bk_in].
  assert (Cv : In v vs /\ ~ In v (bk_in b) /\ forall u, In u (bk_in b) -> G u v).
  { apply C. apply in_or_app. now left. }
  destruct Cv as (Vv & Vn & Va).
  assert (Fc : forall w, In w (filter (fun w => memb w (map fst (bk_adj b v)))
      (filter (fun w => negb (Nat.eqb w v)) (bk_cand b))) <-> In w (bk_cand b) /\ w <> v /\ G v w).
  { intro w. rewrite !filter_In, negb_true_iff, Nat.eqb_neq, memb_in, Ea. unfold G. tauto. }
  assert (Fn : forall w, In w (filter (fun w => memb w (map fst (bk_adj b v))) (bk_not b)) <->
      In w (bk_not b) /\ G v w).
  { intro w. rewrite filter_In, memb_in, Ea. unfold G. tauto. }
  split; [|split; [reflexivity|split; [exact Fc|]]].
  - split; [exact Ea|]. split; [exact Et|]. split; [exact En|].
    cbn [bk_cap bk_cand bk_not bk_in]. split; [lia|]. split; [|split; [|split]].
    + apply NoDup_app_intro; [|apply NoDup_app_intro|].
      * apply NoDup_filter, NoDup_filter. eapply NoDup_app_l; exact N.
      * apply NoDup_filter. eapply NoDup_app_l. eapply NoDup_app_r. exact N.
      * apply NoDup_app_intro; [eapply NoDup_app_r; eapply NoDup_app_r; exact N|repeat constructor; intros []|].
        intros a Ia [<-|[]]. contradiction.
      * intros a Ia Ib. apply Fn in Ia. destruct Ia as [Ia Ga]. apply in_app_or in Ib.
        destruct Ib as [Ib|[<-|[]]]; [|now apply G_irr in Ga].
        eapply NoDup_app_disj; [eapply NoDup_app_r; exact N|exact Ia|exact Ib].
      * intros a Ia Ib. apply Fc in Ia. destruct Ia as (Ia & Na & _).
        apply in_app_or in Ib. destruct Ib as [Ib|Ib].
        -- apply Fn in Ib. destruct Ib as [Ib _].
           eapply NoDup_app_disj; [exact N|exact Ia|]. apply in_or_app. now left.
        -- apply in_app_or in Ib. destruct Ib as [Ib|[<-|[]]]; [|contradiction].
           eapply NoDup_app_disj; [exact N|exact Ia|]. apply in_or_app. now right.
    + intros a Ia. apply in_app_or in Ia. destruct Ia as [Ia|[<-|[]]]; auto.
    + intros u w Iu Iw Ne. apply in_app_or in Iu, Iw.
      destruct Iu as [Iu|[<-|[]]], Iw as [Iw|[<-|[]]]; auto. contradiction.
    + intro w. rewrite in_app_iff, Fc, Fn. split.
      * intros [(Iw & Nw & Gw)|[Iw Gw]].
        -- assert (Y : In w (bk_cand b ++ bk_not b)) by (apply in_or_app; now left).
           apply C in Y. destruct Y as (Wv & Wn & Wa). split; [exact Wv|]. split.
           ++ intro H. apply in_app_or in H. destruct H as [H|[H|[]]]; [contradiction|now subst].
           ++ intros u Iu. apply in_app_or in Iu. destruct Iu as [Iu|[<-|[]]]; auto.
        -- assert (Y : In w (bk_cand b ++ bk_not b)) by (apply in_or_app; now right).
           apply C in Y. destruct Y as (Wv & Wn & Wa). split; [exact Wv|]. split.
           ++ intro H. apply in_app_or in H. destruct H as [H|[H|[]]]; [contradiction|].
              subst w. now apply G_irr in Gw.
           ++ intros u Iu. apply in_app_or in Iu. destruct Iu as [Iu|[<-|[]]]; auto.
      * intros (Wv & Wn & Wa).
        assert (Y : In w (bk_cand b ++ bk_not b)).
        { apply C. split; [exact Wv|]. split.
          - intro H. apply Wn. apply in_or_app. now left.
          - intros u Iu. apply Wa. apply in_or_app. now left. }
        assert (Gw : G v w) by (apply Wa; apply in_or_app; right; now left).
        assert (Nw : w <> v) by (intro H; subst; now apply G_irr in Gw).
        apply in_app_or in Y. destruct Y; [left|right]; auto.
  - eapply Nat.le_lt_trans; [apply filter_length_le|]. apply (filter_len_lt _ _ v Iv).
    now rewrite Nat.eqb_refl.
Qed.

Lemma move_inv b v : inv b -> In v (bk_cand b) ->
  inv (with_cand (drop b v) (bk_cand (drop b v)) (v :: bk_not (drop b v))).
Proof.
  intros (Ea & Et & En & Ec & N & Iin & Pw & C) Iv.
  split; [exact Ea|]. split; [exact Et|]. split; [exact En|]. split; [exact Ec|].
  unfold drop, with_cand. cbn [bk_cand bk_not bk_in].
  set (P := filter (fun w => negb (Nat.eqb w v)) (bk_cand b)).
  assert (FP : forall w, In w P <-> In w (bk_cand b) /\ w <> v).
  { intro w. unfold P. rewrite filter_In, negb_true_iff, Nat.eqb_neq. tauto. }
  split; [|split; [exact Iin|split; [exact Pw|]]].
  - apply NoDup_app_intro.
    + apply NoDup_filter. eapply NoDup_app_l. exact N.
    + cbn [app]. constructor; [|eapply NoDup_app_r; exact N].
      intro H. eapply NoDup_app_disj; eauto.
    + intros a Ia Ib. apply FP in Ia. destruct Ia as [Ia Na]. destruct Ib as [<-|Ib]; [contradiction|].
      eapply NoDup_app_disj; eauto.
  - intro w. rewrite <- C, !in_app_iff, FP. cbn [In]. destruct (Nat.eq_dec w v) as [->|Ne]; [tauto|].
    split; [intros [[]|[|]]; auto; now subst|]. intros []; auto.
Qed.

Lemma adds_child b v c s s1 ls :
  In v (bk_cand b) -> bk_in c = bk_in b ++ [v] ->
  (forall w, In w (bk_cand c) <-> In w (bk_cand b) /\ w <> v /\ G v w) ->
  adds c s s1 ls -> adds b s s1 ls /\ forall l, In l ls -> In v l.
Proof.
  intros Iv Ei Ec (R & D & L & O). split.
  - split; [exact R|]. split; [exact D|]. split; [|exact O].
    intros l Il. destruct (L l Il) as (L1 & L2 & L3 & L4). split; [exact L1|]. split; [exact L2|].
    rewrite Ei in L3, L4. split.
    + intros a Ia. apply L3. apply in_or_app. now left.
    + intros a Ia. specialize (L4 a Ia). apply in_app_or in L4. apply in_or_app.
      destruct L4 as [L4|L4].
      * apply in_app_or in L4. destruct L4 as [L4|[<-|[]]]; auto.
      * right. apply Ec in L4. tauto.
  - intros l Il. destruct (L l Il) as (_ & _ & L3 & _). apply L3. rewrite Ei. apply in_or_app. right. now left.
Qed.

Lemma fop_app {A} (R : A -> A -> Prop) l m : ForallOrdPairs R l -> ForallOrdPairs R m ->
  (forall a b, In a l -> In b m -> R a b) -> ForallOrdPairs R (l ++ m).
Proof.
  intros H K X. induction H as [|a l F H IH]; [exact K|]. simpl. constructor.
  - apply Forall_app. split; [exact F|]. apply Forall_forall. intros b Ib. apply X; [now left|exact Ib].
  - apply IH. intros a' b Ia Ib. apply X; [now right|exact Ib].
Qed.

Definition complete (b : bk) (ls : list (list nat)) (rest : list nat) : Prop :=
  simple -> forall M, maximal M -> 2 < length M -> incl (bk_in b) M ->
    incl M (bk_in b ++ bk_cand b) -> (exists v, In v rest /\ In v M) ->
    exists l, In l ls /\ incl M l /\ incl l M.

Lemma bron_ok : forall fuel b s, inv b -> length (bk_cand b) < fuel ->
  exists s' ls, bron fuel b s = Done s' /\ adds b s s' ls /\
    (simple -> forall M, maximal M -> 2 < length M -> incl (bk_in b) M ->
       incl M (bk_in b ++ bk_cand b) -> exists l, In l ls /\ incl M l /\ incl l M).
Proof.
  induction fuel as [|f IH]; intros b s I L; [lia|]. cbn [bron].
  destruct (Nat.eqb (length (bk_cand b)) 0 && Nat.eqb (length (bk_not b)) 0) eqn:Z.
  - apply andb_true_iff in Z. destruct Z as [Z1 Z2]. apply Nat.eqb_eq in Z1, Z2.
    apply length_zero_iff_nil in Z1, Z2.
    destruct I as (Ea & Et & En & Ec & N & Iin & Pw & C). rewrite Z1, Z2 in *.
    assert (Mx : maximal (bk_in b)).
    { split; [exact N|]. split; [exact Iin|]. split; [exact Pw|]. intros v Vv Va.
      destruct (in_dec Nat.eq_dec v (bk_in b)) as [H|H]; [exact H|exfalso].
      cut (In v ([] ++ [])); [intros []|]. apply C. auto. }
    exists (save_clique b s), (if Nat.ltb 2 (length (bk_in b)) then [bk_in b] else []).
    split; [reflexivity|]. unfold save_clique. destruct (Nat.ltb 2 (length (bk_in b))) eqn:T.
    + apply Nat.ltb_lt in T. split.
      * split; [reflexivity|]. split; [|split].
        -- intro i. cbn [sh_dom existsb]. rewrite orb_false_r. unfold marks. now rewrite Ea, Et.
        -- intros l [<-|[]]. split; [exact T|]. split; [exact Mx|]. split; [apply incl_refl|].
           rewrite app_nil_r || apply incl_appl. apply incl_refl.
        -- repeat constructor.
      * intros _ M _ _ A B. exists (bk_in b). split; [now left|].
        rewrite app_nil_r in B. auto.
    + apply Nat.ltb_ge in T. split; [apply adds_nil|].
      intros _ M (Mn & _) LM A B. exfalso. rewrite app_nil_r in B.
      pose proof (NoDup_incl_length Mn B). lia.
  - assert (Ne : ~ (bk_cand b = [] /\ bk_not b = [])).
    { intros [E1 E2]. rewrite E1, E2 in Z. discriminate Z. }
    destruct (branch_ok b I Ne) as (temp & Eb & Tn & Ti & Tc). rewrite Eb. cbn [bind].
    match goal with |- context [ofold ?F temp (b, s)] => set (step := F) end.
    assert (Loop : forall rest b0 s0, inv b0 -> bk_in b0 = bk_in b ->
       length (bk_cand b0) <= f -> NoDup rest -> incl rest (bk_cand b0) ->
       exists r ls, ofold step rest (b0, s0) = Done r /\ adds b0 s0 (snd r) ls /\
         complete b0 ls rest).
    { induction rest as [|v rest IHr]; intros b0 s0 I0 E0 L0 N0 S0.
      - exists (b0, s0), []. split; [reflexivity|]. split; [apply adds_nil|].
        intros _ M _ _ _ _ (v & [] & _).
      - assert (Iv : In v (bk_cand b0)) by (apply S0; now left).
        destruct (child_ok b0 v I0 Iv) as (c & Ec & Ic & Ein & Ecd & Lc).
        destruct (IH c s0 Ic) as (s1 & ls1 & E1 & A1 & C1); [lia|].
        assert (St : step (b0, s0) v =
          Done (with_cand (drop b0 v) (bk_cand (drop b0 v)) (v :: bk_not (drop b0 v)), s1)).
        { unfold step. fold (drop b0 v). rewrite Ec. cbn [bind]. rewrite E1. cbn [bind].
          pose proof (inv_size b0 I0) as Sz. pose proof (drop_len b0 v Iv) as Dl.
          destruct I0 as (_ & _ & En0 & _).
          replace (Nat.ltb (length (bk_cand (drop b0 v)) + length (bk_not (drop b0 v))) (bk_np (drop b0 v)))
            with true; [reflexivity|].
          symmetry. apply Nat.ltb_lt. unfold drop, with_cand in *. cbn in *. lia. }
        cbn [ofold]. rewrite St. cbn [bind].
        set (b2 := with_cand (drop b0 v) (bk_cand (drop b0 v)) (v :: bk_not (drop b0 v))).
        assert (C2 : forall w, In w (bk_cand b2) <-> In w (bk_cand b0) /\ w <> v)
          by (intro w; apply (drop_cand b0 v w)).
        inversion N0; subst.
        destruct (IHr b2 s1) as (r & ls2 & E2 & A2 & Cm2).
        { apply move_inv; assumption. }
        { exact E0. }
        { pose proof (drop_len b0 v Iv). change (length (bk_cand (drop b0 v)) <= f). lia. }
        { assumption. }
        { intros w Iw. apply C2. split; [apply S0; now right|]. intro H. subst. contradiction. }
        exists r, (ls1 ++ ls2). split; [exact E2|].
        destruct (adds_child b0 v c s0 s1 ls1 Iv Ein Ecd A1) as [(R1 & D1 & L1 & O1) V1].
        destruct A2 as (R2 & D2 & L2 & O2).
        split.
        + split; [now rewrite R2, R1, app_assoc|]. split; [|split].
          * intro i. rewrite D2, D1, existsb_app, orb_assoc. reflexivity.
          * intros l Il. apply in_app_or in Il. destruct Il as [Il|Il]; [now apply L1|].
            destruct (L2 l Il) as (X1 & X2 & X3 & X4). split; [exact X1|]. split; [exact X2|].
            split; [exact X3|]. intros a Ia. specialize (X4 a Ia). apply in_app_or in X4.
            apply in_or_app. destruct X4 as [X4|X4]; [now left|]. right. now apply C2 in X4.
          * apply fop_app; [exact O1|exact O2|]. intros l l' Il Il' Inc.
            assert (Vl : In v l') by (apply Inc; now apply V1).
            destruct (L2 l' Il') as (_ & _ & _ & X4). specialize (X4 v Vl).
            apply in_app_or in X4. destruct X4 as [X4|X4].
            -- destruct I0 as (_ & _ & _ & _ & Nd & _).
               eapply NoDup_app_disj; [exact Nd|exact Iv|]. apply in_or_app. now right.
            -- apply C2 in X4. tauto.
        + intros Sm M MM ML Mi Mc (w & Iw & Mw).
          destruct (in_dec Nat.eq_dec v M) as [Vm|Vm].
          * destruct (C1 Sm M MM ML) as (l & Il & Q1 & Q2).
            { rewrite Ein. intros a Ia. apply in_app_or in Ia. destruct Ia as [Ia|[<-|[]]]; auto. }
            { rewrite Ein. intros a Ia. destruct (Nat.eq_dec a v) as [->|Na].
              - apply in_or_app. left. apply in_or_app. right. now left.
              - pose proof (Mc a Ia) as Y. apply in_app_or in Y. apply in_or_app. destruct Y as [Y|Y].
                + left. apply in_or_app. now left.
                + right. apply Ecd. split; [exact Y|]. split; [exact Na|].
                  destruct MM as (_ & _ & Mp & _). apply Mp; auto. }
            exists l. split; [apply in_or_app; now left|auto].
          * destruct (Cm2 Sm M MM ML Mi) as (l & Il & Q1 & Q2).
            { intros a Ia. pose proof (Mc a Ia) as Y. apply in_app_or in Y. apply in_or_app.
              destruct Y as [Y|Y]; [now left|]. right. apply C2. split; [exact Y|].
              intro H. now subst. }
            { exists w. destruct Iw as [<-|Iw]; [contradiction|]. auto. }
            exists l. split; [apply in_or_app; now right|auto]. }
    destruct (Loop temp b s I eq_refl) as (r & ls & E & A & Cm); [lia|exact Tn|exact Ti|].
    rewrite E. cbn [bind]. exists (snd r), ls. split; [reflexivity|]. split; [exact A|].
    intros Sm M MM ML Mi Mc. apply (Cm Sm M MM ML Mi Mc). now apply Tc.
Qed.

(** Every clique is part of a maximal one. *)
Lemma extend_maximal : forall n l, NoDup l -> incl l vs -> pairwise l ->
  length vs - length l <= n -> exists M, maximal M /\ incl l M.
Proof.
  induction n as [|n IH]; intros l N I P Ln.
  - exists l. split; [|apply incl_refl]. split; [exact N|]. split; [exact I|]. split; [exact P|].
    intros v Vv _. assert (K : incl vs l) by (apply NoDup_length_incl; [exact N|lia|exact I]). now apply K.
  - destruct (existsb (fun v => negb (memb v l) && forallb (fun u => memb v (map fst (adj u))) l) vs) eqn:E.
    + apply existsb_exists in E. destruct E as (v & Vv & B). apply andb_true_iff in B.
      destruct B as [B1 B2]. apply negb_true_iff, memb_not in B1. rewrite forallb_forall in B2.
      assert (A : forall u, In u l -> G u v) by (intros u Iu; apply memb_in; now apply B2).
      destruct (IH (v :: l)) as (M & MM & Inc).
      * now constructor.
      * intros a [<-|Ia]; auto.
      * intros u w [<-|Iu] [<-|Iw] Ne; auto. contradiction.
      * assert (length (v :: l) <= length vs).
        { apply NoDup_incl_length; [now constructor|]. intros a [<-|Ia]; auto. }
        cbn [length] in *. lia.
      * exists M. split; [exact MM|]. intros a Ia. apply Inc. now right.
    + exists l. split; [|apply incl_refl]. split; [exact N|]. split; [exact I|]. split; [exact P|].
      intros v Vv A. destruct (memb v l) eqn:B; [now apply memb_in|exfalso].
      assert (X : existsb (fun v => negb (memb v l) && forallb (fun u => memb v (map fst (adj u))) l) vs = true).
      { apply existsb_exists. exists v. split; [exact Vv|]. rewrite B. cbn [negb andb].
        apply forallb_forall. intros u Iu. apply memb_in. now apply A. }
      congruence.
Qed.
End Graph.

(** ** Sums over binary columns *)
Local Open Scope Q_scope.
Definition total (x : point) (l : list nat) : Q := fold_right (fun j s => x j + s) 0 l.
Lemma total_ones x (f : vec) : (forall e, In e f -> snd e == 1) ->
  value f x == total x (map fst f).
Proof.
  induction f as [|[j a] f IH]; intro H; cbn [value map total fold_right fst]; [reflexivity|].
  fold (total x (map fst f)). rewrite IH by (intros e I; apply H; now right).
  specialize (H (j, a) (or_introl eq_refl)). cbn in H. rewrite H. ring.
Qed.
Lemma total_nonneg x l : (forall j, In j l -> 0 <= x j) -> 0 <= total x l.
Proof.
  induction l as [|j l IH]; intro H; cbn [total fold_right]; [apply Qle_refl|].
  fold (total x l). pose proof (H j (or_introl eq_refl)).
  assert (0 <= total x l) by (apply IH; intros k I; apply H; now right). lra.
Qed.
Lemma total_remove x l j : In j l -> NoDup l ->
  total x l == x j + total x (remove Nat.eq_dec j l).
Proof.
  induction l as [|k l IH]; intros I N; [destruct I|]. inversion N; subst.
  cbn [total fold_right remove]. fold (total x l). destruct (Nat.eq_dec j k) as [->|Ne].
  - rewrite notin_remove by assumption. reflexivity.
  - destruct I as [->|I]; [contradiction|]. cbn [total fold_right].
    fold (total x (remove Nat.eq_dec j l)). rewrite (IH I H2). ring.
Qed.
Lemma nodup_remove (l : list nat) j : NoDup l -> NoDup (remove Nat.eq_dec j l).
Proof.
  induction l as [|k l IH]; intro N; [constructor|]. inversion N; subst. cbn [remove].
  destruct (Nat.eq_dec j k); [auto|]. constructor; [|auto]. intro H. apply in_remove in H. tauto.
Qed.
Lemma total_incl x : forall l M, NoDup l -> NoDup M -> incl l M ->
  (forall j, In j M -> 0 <= x j) -> total x l <= total x M.
Proof.
  induction l as [|j l IH]; intros M Nl NM I P.
  - apply total_nonneg. exact P.
  - inversion Nl; subst. cbn [total fold_right]. fold (total x l).
    rewrite (total_remove x M j) by (auto; apply I; now left).
    assert (total x l <= total x (remove Nat.eq_dec j M)).
    { apply IH; [assumption|now apply nodup_remove| |].
      - intros k Ik. apply in_in_remove; [intro H; subst; contradiction|]. apply I. now right.
      - intros k Ik. apply in_remove in Ik. apply P. tauto. }
    lra.
Qed.
Lemma integral01 q : integral q -> 0 <= q -> q <= 1 -> q == 0 \/ q == 1.
Proof.
  intros [z E] L U. rewrite E in *. change 0 with (inject_Z 0) in L. change 1 with (inject_Z 1) in U.
  rewrite <- Zle_Qle in L, U. assert (Z : (z = 0 \/ z = 1)%Z) by lia. destruct Z; subst z; [left|right]; reflexivity.
Qed.
Lemma total_packing x : forall l, NoDup l ->
  (forall j, In j l -> x j == 0 \/ x j == 1) ->
  (forall u v, In u l -> In v l -> u <> v -> x u + x v <= 1) -> total x l <= 1.
Proof.
  induction l as [|j l IH]; intros N B P; cbn [total fold_right]; [lra|]. fold (total x l).
  inversion N; subst. destruct (B j (or_introl eq_refl)) as [Z|O].
  - assert (total x l <= 1); [|lra]. apply IH; [assumption| |].
    + intros k I. apply B. now right.
    + intros u v Iu Iv. apply P; now right.
  - assert (Z : total x l == 0); [|lra].
    assert (A : forall k, In k l -> x k == 0).
    { intros k I. assert (j <> k) by (intro H; subst; contradiction).
      pose proof (P j k (or_introl eq_refl) (or_intror I) H). destruct (B k (or_intror I)); lra. }
    clear - A. induction l as [|k l IH]; [reflexivity|]. cbn [total fold_right]. fold (total x l).
    rewrite IH by (intros i I; apply A; now right). rewrite (A k (or_introl eq_refl)). ring.
Qed.

(** ** The conflict graph of a problem *)
Lemma optq_eqb_some a q : optq_eqb a (Some q) = true -> exists p, a = Some p /\ p == q.
Proof. destruct a as [p|]; [|discriminate]. cbn. intro H. apply Qeq_bool_eq in H. eauto. Qed.

(** A row  a_1 + ... + a_k <= 1  over binary columns, with lower side at most 0
    or equal to 1. *)
Definition bin (m : mip) (j : nat) : Prop :=
  (exists l, m_clo m j = Some l /\ l == 0) /\ (exists u, m_chi m j = Some u /\ u == 1) /\
  m_int m j = true.
Definition packing (m : mip) (r : row) : Prop :=
  (exists h, r_hi r = Some h /\ h == 1) /\
  (forall l, r_lo r = Some l -> l <= 0 \/ l == 1) /\
  (forall j a, In (j, a) (r_form r) -> bin m j /\ a == 1) /\ (length (r_form r) <= 1000)%nat.
Lemma binary_spec m j : binary m j = true <-> bin m j.
Proof.
  unfold binary, bin. rewrite !andb_true_iff. split.
  - intros [[A B] C]. apply optq_eqb_some in A, B. auto.
  - intros ((l & A & A') & (u & B & B') & C). rewrite A, B. cbn. split; [split|exact C]; now apply Qeq_bool_iff.
Qed.
Lemma type1_spec m r : (0 <= row_type1 m r)%Z <-> packing m r.
Proof.
  unfold row_type1, packing.
  assert (F : forallb (fun e => binary m (fst e) && Qeq_bool (snd e) 1) (r_form r) = true <->
     (forall j a, In (j, a) (r_form r) -> bin m j /\ a == 1)).
  { rewrite forallb_forall. split.
    - intros H j a I. specialize (H _ I). apply andb_true_iff in H. cbn in H. destruct H as [H1 H2].
      apply binary_spec in H1. apply Qeq_bool_eq in H2. auto.
    - intros H [j a] I. destruct (H j a I) as [H1 H2]. cbn. apply andb_true_iff. split; [now apply binary_spec|].
      now apply Qeq_bool_iff. }
  set (f := forallb _ _) in *.
  destruct (optq_eqb (r_hi r) (Some 1)) eqn:Eh.
  2:{ cbn [andb]. split; [lia|]. intros ((h & E & E1) & _). rewrite E in Eh. cbn in Eh.
      exfalso. apply Qeq_bool_neq in Eh. contradiction. }
  apply optq_eqb_some in Eh. destruct Eh as (h & Eh & Eh1).
  set (lo := match r_lo r with None => true | Some l => _ end).
  assert (Lo : lo = true <-> forall l, r_lo r = Some l -> l <= 0 \/ l == 1).
  { unfold lo. destruct (r_lo r) as [l|].
    - rewrite orb_true_iff, Qle_bool_iff. split.
      + intros H k E. apply Some_inj in E. subst k. destruct H as [H|H]; [auto|right; now apply Qeq_bool_eq].
      + intro H. destruct (H l eq_refl) as [K|K]; [auto|right; now apply Qeq_bool_iff].
    - split; [intros _ l H; discriminate H|auto]. }
  cbn [andb]. destruct lo.
  2:{ split; [lia|]. intros (_ & H & _). apply Lo in H. discriminate H. }
  destruct f; cbn [andb].
  2:{ split; [lia|]. intros (_ & _ & H & _). apply F in H. discriminate H. }
  destruct (Nat.leb (length (r_form r)) 1000) eqn:E1000.
  - apply Nat.leb_le in E1000. split; [|].
    + intros _. split; [eauto|]. split; [now apply Lo|]. split; [now apply F|exact E1000].
    + intros _. destruct (r_lo r) as [l|]; [destruct (0 <? l)|]; lia.
  - apply Nat.leb_gt in E1000. split; [lia|]. intros (_ & _ & _ & H). lia.
Qed.
Lemma type1_zero m r l : row_type1 m r = 0%Z -> r_lo r = Some l -> l <= 0.
Proof.
  unfold row_type1. destruct (_ && _); [|intro H; discriminate H].
  destruct (_ && _); [|intro H; discriminate H]. intros H E. rewrite E in H.
  destruct (0 <? l) eqn:Q; [discriminate H|]. now qb.
Qed.

(** A row is used when each of its columns is also in another packing row. *)
Definition in_range (m : mip) (i : nat) : Prop := (i < length (m_rows m))%nat.
Definition has_col (m : mip) (i j : nat) : Prop := In j (map fst (r_form (row_at m i))).
Definition used (m : mip) (i : nat) : Prop :=
  in_range m i /\ packing m (row_at m i) /\
  forall j, has_col m i j -> exists i', in_range m i' /\ i' <> i /\
    packing m (row_at m i') /\ has_col m i' j.
Definition conflict (m : mip) (u v : nat) : Prop :=
  u <> v /\ exists i, used m i /\ has_col m i u /\ has_col m i v.

Definition types1 (m : mip) : list Z := map (row_type1 m) (m_rows m).
Definition types2 (m : mip) : list Z :=
  map (row_type2 m (types1 m)) (combine (m_rows m) (types1 m)).
Lemma combine_self {A B} (f : A -> B) l : combine l (map f l) = map (fun a => (a, f a)) l.
Proof. induction l as [|a l IH]; cbn; congruence. Qed.
Lemma types2_nth m i : in_range m i ->
  nth i (types2 m) (-1)%Z = row_type2 m (types1 m) (row_at m i, row_type1 m (row_at m i)).
Proof.
  intro R. unfold types2. unfold types1 at 2. rewrite combine_self, map_map.
  erewrite nth_indep by (rewrite map_length; exact R).
  rewrite (map_nth (fun r => row_type2 m (types1 m) (r, row_type1 m r)) (m_rows m) no_row). reflexivity.
Qed.
Lemma types2_out m i : ~ in_range m i -> nth i (types2 m) (-1)%Z = (-1)%Z.
Proof.
  intro R. apply nth_overflow. unfold types2, types1. rewrite combine_self, map_map, map_length.
  unfold in_range in R. lia.
Qed.
Lemma count_two {A} (P : A -> bool) (d : A) l : forall i, (i < length l)%nat -> P (nth i l d) = true ->
  ((2 <= length (filter P l))%nat <->
   exists i', (i' < length l)%nat /\ i' <> i /\ P (nth i' l d) = true).
Proof.
  induction l as [|a l IH]; intros i L E; cbn [length] in L; [lia|].
  cbn [filter]. destruct i as [|i].
  - cbn [nth] in E. rewrite E. cbn [length].
    assert (K : (1 <= length (filter P l))%nat <-> exists i', (i' < length l)%nat /\ P (nth i' l d) = true).
    { clear. induction l as [|a l IH]; cbn [filter length].
      - split; [lia|]. intros (i & H & _). lia.
      - destruct (P a) eqn:E; cbn [length].
        + split; [|lia]. intros _. exists 0%nat. split; [lia|exact E].
        + rewrite IH. split.
          * intros (i & H & K). exists (S i). split; [lia|exact K].
          * intros ([|i] & H & K); [cbn in K; congruence|]. exists i. split; [lia|exact K]. }
    split.
    + intro H. apply le_S_n in H. apply K in H. destruct H as (i & H1 & H2). exists (S i).
      split; [lia|]. split; [discriminate|exact H2].
    + intros ([|i] & H1 & H2 & H3); [congruence|]. apply le_n_S. apply K. exists i.
      split; [lia|exact H3].
  - cbn [nth] in E. assert (Li : (i < length l)%nat) by lia. specialize (IH i Li E).
    destruct (P a) eqn:Ea; cbn [length].
    + split.
      * intros _. exists 0%nat. split; [lia|]. split; [discriminate|exact Ea].
      * intros _. assert (In (nth i l d) (filter P l)) by (apply filter_In; split; [now apply nth_In|exact E]).
        destruct (filter P l); [destruct H|cbn [length]; lia].
    + rewrite IH. split.
      * intros (k & H1 & H2 & H3). exists (S k). split; [lia|]. split; [lia|exact H3].
      * intros ([|k] & H1 & H2 & H3); [cbn in H3; congruence|]. exists k. split; [lia|]. split; [lia|exact H3].
Qed.
Lemma in_column_spec m i j : in_range m i -> packing m (row_at m i) -> has_col m i j ->
  ((2 <= in_column m (types1 m) j)%nat <->
   exists i', in_range m i' /\ i' <> i /\ packing m (row_at m i') /\ has_col m i' j).
Proof.
  intros R P H. unfold in_column, types1. rewrite combine_self.
  set (Q := fun p : row * Z => (0 <=? snd p)%Z && memb j (cols_of (fst p))).
  assert (K : forall k, in_range m k ->
     (Q (nth k (map (fun r => (r, row_type1 m r)) (m_rows m)) (no_row, row_type1 m no_row)) = true <->
      packing m (row_at m k) /\ has_col m k j)).
  { intros k Rk. rewrite (map_nth (fun r => (r, row_type1 m r)) (m_rows m) no_row k). unfold Q.
    cbn [fst snd]. fold (row_at m k). rewrite andb_true_iff, Z.leb_le, memb_in, type1_spec. reflexivity. }
  rewrite (count_two Q (no_row, row_type1 m no_row) _ i).
  - split; intros (k & A & B & C); exists k; rewrite map_length in *.
    + apply K in C; [|exact A]. tauto.
    + split; [exact A|]. split; [exact B|]. apply K; [exact A|exact C].
  - rewrite map_length. exact R.
  - apply K; auto.
Qed.
Lemma types2_spec m i : (0 <= nth i (types2 m) (-1))%Z <-> used m i.
Proof.
  destruct (lt_dec i (length (m_rows m))) as [R|R].
  2:{ rewrite types2_out by exact R. split; [lia|]. intros [U _]. contradiction. }
  rewrite types2_nth by exact R. unfold row_type2. cbn [snd fst].
  destruct (0 <=? row_type1 m (row_at m i))%Z eqn:E.
  - apply Z.leb_le in E. pose proof (proj1 (type1_spec m _) E) as P.
    destruct (forallb _ _) eqn:F.
    + rewrite forallb_forall in F. split; [|intros _; exact E]. intros _. split; [exact R|]. split; [exact P|].
      intros j Hj. apply in_column_spec; auto. apply Nat.leb_le. now apply F.
    + split; [lia|]. intros (_ & _ & U). exfalso.
      assert (X : forallb (fun j => Nat.leb 2 (in_column m (types1 m) j)) (cols_of (row_at m i)) = true).
      { apply forallb_forall. intros j Hj. apply Nat.leb_le. apply (in_column_spec m i j); auto. }
      congruence.
  - apply Z.leb_gt in E. split; [lia|]. intros (_ & P & _). apply type1_spec in P. lia.
Qed.
Lemma types2_val m i : used m i -> nth i (types2 m) (-1)%Z = row_type1 m (row_at m i).
Proof.
  intro U. pose proof (proj2 (types2_spec m i) U) as L. destruct U as (R & P & _).
  rewrite types2_nth in * by exact R. unfold row_type2 in *. cbn [fst snd] in *.
  destruct (0 <=? row_type1 m (row_at m i))%Z; [|reflexivity]. destruct (forallb _ _); [reflexivity|lia].
Qed.

(** ** Copies of rows with two entries *)
Definition twin (m : mip) (q i : nat) : Prop :=
  in_range m q /\ (forall x, row_sat (row_at m q) x <-> row_sat (row_at m i) x) /\
  (forall j, has_col m q j <-> has_col m i j) /\
  (packing m (row_at m q) <-> packing m (row_at m i)).
Lemma twin_refl m i : in_range m i -> twin m i i.
Proof. intro R. split; [exact R|]. split; [reflexivity|]. split; reflexivity. Qed.
Lemma twin_trans m a b c : twin m a b -> twin m b c -> twin m a c.
Proof.
  intros (R & A1 & A2 & A3) (_ & B1 & B2 & B3). split; [exact R|].
  split; [intro x; now rewrite A1|]. split; [intro j; now rewrite A2|now rewrite A3].
Qed.
Lemma twin_used m q i : twin m q i -> used m i -> used m q.
Proof.
  intros (R & _ & H & P) (Ri & Pi & U). split; [exact R|]. split; [now apply P|].
  intros j Hj. apply H in Hj. destruct (Nat.eq_dec q i) as [->|Ne]; [now apply U|].
  exists i. split; [exact Ri|]. split; [congruence|]. split; [exact Pi|exact Hj].
Qed.

Definition keyed (m : mip) (i : nat) : Prop :=
  in_range m i /\ two_entries (row_at m i) <> None /\
  exists h, r_hi (row_at m i) = Some h /\ h == 1.
Lemma two_entries_spec r a b : two_entries r = Some (a, b) ->
  r_form r = [a; b] \/ r_form r = [b; a].
Proof.
  unfold two_entries. destruct (r_form r) as [|p [|q [|]]]; try (intro H; discriminate H).
  destruct (Nat.ltb _ _); intro H; injection H as -> ->; auto.
Qed.
Lemma same_twin m q i : keyed m q -> keyed m i -> same_doubleton m q i = true -> twin m q i.
Proof.
  intros (R & _ & (h & Eh & Hh)) (Ri & _ & (h' & Eh' & Hh')) S. split; [exact R|].
  unfold same_doubleton in S. apply andb_true_iff in S. destruct S as [Sl S].
  destruct (two_entries (row_at m q)) as [[a1 b1]|] eqn:T1; [|discriminate S].
  destruct (two_entries (row_at m i)) as [[a2 b2]|] eqn:T2; [|discriminate S].
  rewrite !andb_true_iff, !Nat.eqb_eq in S. destruct S as (((Sa & Sb) & Ca) & Cb).
  apply Qeq_bool_eq in Ca, Cb. destruct a1 as [ja ca], b1 as [jb cb], a2 as [ja' ca'], b2 as [jb' cb'].
  cbn [fst snd] in *. subst ja' jb'.
  apply two_entries_spec in T1, T2. unfold has_col, packing, row_sat.
  assert (V : forall x, value (r_form (row_at m q)) x == value (r_form (row_at m i)) x).
  { intro x. destruct T1 as [-> | ->], T2 as [-> | ->]; cbn [value]; rewrite Ca, Cb; ring. }
  assert (L : match r_lo (row_at m q), r_lo (row_at m i) with
    | None, None => True | Some k, Some l => k == l | _, _ => False end).
  { destruct (r_lo (row_at m q)), (r_lo (row_at m i)); cbn in Sl; try discriminate Sl; [|exact Logic.I].
    now apply Qeq_bool_eq. }
  rewrite Eh, Eh'. split; [|split].
  - intro x. destruct (r_lo (row_at m q)), (r_lo (row_at m i)); try contradiction; cbn;
      rewrite (V x), Hh, Hh'; [rewrite L|]; reflexivity.
  - intro j. destruct T1 as [-> | ->], T2 as [-> | ->]; cbn; tauto.
  - assert (E : forall j a, (In (j, a) [(ja, ca); (jb, cb)] -> exists a', a' == a /\ In (j, a') [(ja, ca'); (jb, cb')])).
    { intros j a [H|[H|[]]]; injection H as <- <-; [exists ca'|exists cb']; (split; [now symmetry|cbn; auto]). }
    assert (E' : forall j a, (In (j, a) [(ja, ca'); (jb, cb')] -> exists a', a' == a /\ In (j, a') [(ja, ca); (jb, cb)])).
    { intros j a [H|[H|[]]]; injection H as <- <-; [exists ca|exists cb]; (split; [assumption|cbn; auto]). }
    assert (F1 : forall e, In e (r_form (row_at m q)) <-> In e [(ja, ca); (jb, cb)])
      by (intro e; destruct T1 as [-> | ->]; cbn; tauto).
    assert (F2 : forall e, In e (r_form (row_at m i)) <-> In e [(ja, ca'); (jb, cb')])
      by (intro e; destruct T2 as [-> | ->]; cbn; tauto).
    assert (L1 : length (r_form (row_at m q)) = 2%nat) by (destruct T1 as [-> | ->]; reflexivity).
    assert (L2 : length (r_form (row_at m i)) = 2%nat) by (destruct T2 as [-> | ->]; reflexivity).
    rewrite L1, L2.
    split; intros (_ & Pl & Pe & _); (split; [eauto|]); (split; [|split; [|lia]]).
    + intros l El. rewrite El in L. destruct (r_lo (row_at m q)) as [k|]; [|contradiction].
      destruct (Pl k eq_refl) as [K|K]; rewrite L in K; auto.
    + intros j a I. apply F2, E' in I. destruct I as (a' & Q & I). apply F1, Pe in I.
      destruct I as [I1 I2]. rewrite Q in I2. auto.
    + intros l El. rewrite El in L. destruct (r_lo (row_at m i)) as [k|]; [|contradiction].
      destruct (Pl k eq_refl) as [K|K]; rewrite <- L in K; auto.
    + intros j a I. apply F1, E in I. destruct I as (a' & Q & I). apply F2, Pe in I.
      destruct I as [I1 I2]. rewrite Q in I2. auto.
Qed.

Lemma dup_rows_incl m : forall l prev, incl (dup_rows m prev l) (map snd l).
Proof.
  induction l as [|p l IH]; intros prev i I; [destruct I|]. cbn [dup_rows map] in *.
  apply in_app_or in I. destruct I as [I|I]; [|right; now apply (IH p)].
  destruct (_ && _); [|destruct I]. destruct I as [<-|[]]. now left.
Qed.
Definition rep (m : mip) (D : list nat) (i : nat) : Prop := exists q, ~ In q D /\ twin m q i.
Lemma dup_rows_rep m : forall l prev pre,
  NoDup (map snd l) -> (forall i, In i pre -> ~ In i (map snd l)) ->
  (forall p, In p (prev :: l) -> keyed m (snd p)) ->
  rep m (pre ++ dup_rows m prev l) (snd prev) ->
  forall i, In i (map snd l) -> rep m (pre ++ dup_rows m prev l) i.
Proof.
  induction l as [|p l IH]; intros prev pre N P K R i I; [destruct I|].
  cbn [dup_rows map] in *. inversion N; subst.
  set (mk := if _ && _ then [snd p] else []) in *.
  rewrite app_assoc in *.
  assert (Rp : rep m ((pre ++ mk) ++ dup_rows m p l) (snd p)).
  { unfold mk in *. destruct (Qeq_bool (fst p) (fst prev) && same_doubleton m (snd prev) (snd p)) eqn:E.
    - apply andb_true_iff in E. destruct E as [_ E]. destruct R as (q & Nq & Tq). exists q. split; [exact Nq|].
      eapply twin_trans; [exact Tq|]. apply same_twin; [apply K; now left|apply K; right; now left|exact E].
    - exists (snd p). split.
      + rewrite app_nil_r. intro H. apply in_app_or in H. destruct H as [H|H].
        * apply (P _ H). now left.
        * apply H1. now apply dup_rows_incl in H.
      + apply twin_refl. apply (K p). right. now left. }
  destruct I as [<-|I]; [exact Rp|].
  apply IH; auto.
  - intros k Ik. apply in_app_or in Ik. destruct Ik as [Ik|Ik].
    + intro H. apply (P _ Ik). now right.
    + unfold mk in Ik. destruct (_ && _); [|destruct Ik]. destruct Ik as [<-|[]]. exact H1.
  - intros p' I'. apply K. now right.
Qed.

Section Problem.
Variable rnd : nat -> Q.
Variable srt : list (Q * nat) -> list (Q * nat).
Hypothesis srt_perm : forall l, Permutation l (srt l).
Variable m : mip.
Hypothesis wf : wf_mip m.
Notation D := (dups rnd srt m).
Notation adj := (neighbours m (types2 m) D).

Lemma keys_keyed p : In p (doubleton_keys rnd m) -> keyed m (snd p).
Proof.
  unfold doubleton_keys. rewrite in_flat_map. intros (i & I & H). apply in_seq in I.
  destruct (two_entries (row_at m i)) as [[a b]|] eqn:T; [|destruct H].
  destruct (optq_eqb _ _) eqn:E; [|destruct H]. destruct H as [<-|[]]. cbn [snd].
  apply optq_eqb_some in E. split; [unfold in_range; lia|]. split; [congruence|exact E].
Qed.
Lemma keys_nodup : NoDup (map snd (doubleton_keys rnd m)).
Proof.
  unfold doubleton_keys. generalize (seq_NoDup (length (m_rows m)) 0).
  generalize (seq 0 (length (m_rows m))). induction l as [|i l IH]; intro N; [constructor|].
  inversion N; subst. cbn [flat_map]. rewrite map_app. apply NoDup_app_intro.
  - destruct (two_entries _) as [[a b]|]; [destruct (optq_eqb _ _)|]; repeat constructor; intros [].
  - auto.
  - intros k Ik Jk. assert (k = i).
    { destruct (two_entries _) as [[a b]|]; [destruct (optq_eqb _ _)|]; cbn in Ik; intuition. }
    subst k. apply in_map_iff in Jk. destruct Jk as (p & Ep & Jp). apply in_flat_map in Jp.
    destruct Jp as (k & Ik' & Jk). apply H1.
    replace i with k; [exact Ik'|]. rewrite <- Ep.
    destruct (two_entries (row_at m k)) as [[a b]|]; [destruct (optq_eqb (r_hi (row_at m k)) _)|]; cbn in Jk; intuition; subst; reflexivity.
Qed.
Lemma dups_rep i : In i D -> exists q, ~ In q D /\ twin m q i.
Proof.
  unfold dups. pose proof (srt_perm (doubleton_keys rnd m)) as P.
  assert (N : NoDup (map snd (srt (doubleton_keys rnd m)))).
  { eapply Permutation_NoDup; [apply Permutation_map; exact P|apply keys_nodup]. }
  assert (K : forall p, In p (srt (doubleton_keys rnd m)) -> keyed m (snd p)).
  { intros p I. apply keys_keyed. eapply Permutation_in; [symmetry; exact P|exact I]. }
  destruct (srt (doubleton_keys rnd m)) as [|p l]; [intros []|]. intro I.
  cbn [map] in N. inversion N; subst.
  apply (dup_rows_rep m l p []); auto.
  - exists (snd p). split.
    + cbn [app]. intro H. apply dup_rows_incl in H. contradiction.
    + apply twin_refl. apply (K p). now left.
  - now apply dup_rows_incl in I.
Qed.

(** ** The graph built by the constructor *)
Lemma adj_spec c i j : In (c, i) (adj j) <->
  used m i /\ ~ In i D /\ has_col m i j /\ has_col m i c /\ c <> j.
Proof.
  unfold neighbours. split.
  - destruct (binary m j); [|intros []]. rewrite in_flat_map. intros (k & Ik & H).
    destruct (memb j (cols_of (row_at m k))) eqn:E1; [|destruct H].
    destruct (0 <=? nth k (types2 m) (-1))%Z eqn:E2; [|destruct H].
    destruct (memb k D) eqn:E3; cbn [negb andb] in H; [destruct H|].
    apply in_map_iff in H. destruct H as (c' & E & H). injection E as -> ->. apply filter_In in H.
    destruct H as [H1 H2]. apply negb_true_iff, Nat.eqb_neq in H2.
    apply Z.leb_le, types2_spec in E2. apply memb_not in E3. apply memb_in in E1. auto.
  - intros (U & ND & Hj & Hc & Ne).
    assert (B : binary m j = true).
    { apply binary_spec. unfold has_col in Hj. apply in_map_iff in Hj. destruct Hj as ([j' a] & E & I).
      cbn in E. subst j'. destruct U as (_ & (_ & _ & P & _) & _). now apply (P j a). }
    rewrite B. apply in_flat_map. exists i. split.
    + apply in_seq. destruct U as (R & _). unfold in_range in R. lia.
    + replace (memb j (cols_of (row_at m i))) with true by (symmetry; now apply memb_in).
      replace (0 <=? nth i (types2 m) (-1))%Z with true by (symmetry; apply Z.leb_le; now apply types2_spec).
      replace (memb i D) with false by (symmetry; now apply memb_not). cbn [negb andb].
      apply in_map_iff. exists c. split; [reflexivity|]. apply filter_In. split; [exact Hc|].
      apply negb_true_iff. now apply Nat.eqb_neq.
Qed.
Lemma G_conflict u v : G adj u v <-> conflict m u v.
Proof.
  unfold G, conflict. rewrite in_map_iff. split.
  - intros ([c i] & E & I). cbn in E. subst c. apply adj_spec in I. destruct I as (U & ND & Hu & Hv & Ne).
    split; [auto|]. eauto.
  - intros (Ne & i & U & Hu & Hv). destruct (in_dec Nat.eq_dec i D) as [I|I].
    + destruct (dups_rep i I) as (q & Nq & T). pose proof (twin_used m q i T U) as Uq.
      destruct T as (_ & _ & H & _). exists (v, q). split; [reflexivity|]. apply adj_spec.
      split; [exact Uq|]. split; [exact Nq|]. split; [now apply H|]. split; [now apply H|auto].
    + exists (v, i). split; [reflexivity|]. apply adj_spec. auto.
Qed.
Lemma conflict_sym u v : conflict m u v -> conflict m v u.
Proof. intros (Ne & i & U & Hu & Hv). split; [auto|eauto]. Qed.
Lemma has_col_range i j : in_range m i -> has_col m i j -> (j < m_ncols m)%nat.
Proof.
  intros R H. unfold has_col in H. apply in_map_iff in H. destruct H as ([j' a] & E & I). cbn in E. subst j'.
  destruct (wf (row_at m i)) as [_ W]; [unfold row_at; now apply nth_In|]. now apply (W j a).
Qed.
Lemma row_nodup i : in_range m i -> NoDup (cols_of (row_at m i)).
Proof. intro R. destruct (wf (row_at m i)) as [W _]; [unfold row_at; now apply nth_In|exact W]. Qed.

Definition possible : list nat :=
  filter (fun j => negb (Nat.eqb (length (adj j)) 0)) (seq 0 (m_ncols m)).
Lemma possible_spec j : In j possible <-> exists v, conflict m j v.
Proof.
  unfold possible. rewrite filter_In, negb_true_iff, Nat.eqb_neq. split.
  - intros [_ H]. destruct (adj j) as [|[c i] l] eqn:E; [cbn in H; congruence|].
    exists c. apply G_conflict. unfold G. rewrite E. now left.
  - intros (v & C). split.
    + destruct C as (_ & i & (R & _) & Hj & _). apply in_seq. pose proof (has_col_range i j R Hj). lia.
    + apply G_conflict in C. unfold G in C. destruct (adj j); [destruct C|cbn [length]; lia].
Qed.
Lemma ones_ok : ones_only m (types2 m) D = true.
Proof.
  unfold ones_only. apply forallb_forall. intros i _.
  destruct (0 <=? nth i (types2 m) (-1))%Z eqn:E; [|reflexivity]. cbn [negb orb].
  apply Z.leb_le, types2_spec in E. destruct E as (_ & (_ & _ & P & _) & _).
  apply orb_true_iff. right. apply forallb_forall. intros [j a] I. apply orb_true_iff. right.
  apply Qeq_bool_iff. now apply (P j a).
Qed.

(** The arrays are long enough. *)
Local Open Scope nat_scope.
Definition nsum {A} (f : A -> nat) (l : list A) : nat := fold_right Nat.add 0 (map f l).
Lemma nsum_le {A} (f g : A -> nat) l : (forall a, In a l -> f a <= g a) -> nsum f l <= nsum g l.
Proof.
  induction l as [|a l IH]; intro H; [apply le_n|]. cbn. pose proof (H a (or_introl eq_refl)).
  assert (nsum f l <= nsum g l) by (apply IH; intros b I; apply H; now right). unfold nsum in *. lia.
Qed.
Lemma nsum_add {A} (f g : A -> nat) l : nsum (fun a => f a + g a) l = nsum f l + nsum g l.
Proof. induction l as [|a l IH]; [reflexivity|]. unfold nsum in *. cbn. lia. Qed.
Lemma nsum_swap {A B} (f : A -> B -> nat) l k :
  nsum (fun a => nsum (fun b => f a b) k) l = nsum (fun b => nsum (fun a => f a b) l) k.
Proof.
  induction l as [|a l IH]; cbn.
  - induction k as [|b k IHk]; [reflexivity|]. cbn. exact IHk.
  - unfold nsum at 1 in IH. rewrite IH.
    change (nsum (fun b => f a b) k + nsum (fun b => nsum (fun a0 => f a0 b) l) k =
            nsum (fun b => f a b + nsum (fun a0 => f a0 b) l) k).
    now rewrite nsum_add.
Qed.
Lemma nsum_if {A} (P : A -> bool) n l :
  nsum (fun a => if P a then n else 0) l = length (filter P l) * n.
Proof.
  induction l as [|a l IH]; [reflexivity|]. cbn. destruct (P a); cbn; unfold nsum in IH; rewrite IH; lia.
Qed.
Lemma flat_map_len {A B} (f : A -> list B) l : length (flat_map f l) = nsum (fun a => length (f a)) l.
Proof. induction l as [|a l IH]; [reflexivity|]. cbn. rewrite app_length. unfold nsum in IH. now rewrite IH. Qed.
Lemma map_row_at : map (row_at m) (seq 0 (length (m_rows m))) = m_rows m.
Proof.
  unfold row_at. generalize (m_rows m). induction l as [|r l IH]; [reflexivity|].
  cbn [length seq map nth]. f_equal. rewrite <- seq_shift, map_map. exact IH.
Qed.
Lemma elements_enough :
  fold_right Nat.add 0 (map (fun j => length (adj j)) (seq 0 (m_ncols m))) <=
  count_elements m (types2 m).
Proof.
  set (w := fun i => if (0 <=? nth i (types2 m) (-1))%Z then length (r_form (row_at m i)) - 1 else 0).
  transitivity (nsum (fun j => nsum (fun i => if memb j (cols_of (row_at m i)) then w i else 0)
      (seq 0 (length (m_rows m)))) (seq 0 (m_ncols m))).
  - apply (nsum_le (fun j => length (adj j))). intros j _. unfold neighbours. destruct (binary m j).
    + rewrite flat_map_len. apply nsum_le. intros i _. unfold w.
      destruct (memb j (cols_of (row_at m i))) eqn:E; cbn [andb]; [|reflexivity].
      destruct (0 <=? nth i (types2 m) (-1))%Z; cbn [andb]; [|reflexivity].
      destruct (negb (memb i D)); [|cbn [length]; lia]. rewrite map_length.
      apply memb_in in E. pose proof (filter_len_lt (fun c => negb (Nat.eqb c j)) _ j E) as L.
      cbv beta in L. rewrite Nat.eqb_refl in L. specialize (L eq_refl). unfold cols_of in *. rewrite map_length in L. lia.
    + cbn [length]. lia.
  - rewrite nsum_swap. unfold count_elements.
    unfold types2 at 1. unfold types1 at 2. rewrite combine_self, map_map, combine_self, map_map.
    match goal with |- _ <= fold_right Nat.add 0 (map ?F _) =>
      replace (map F (m_rows m)) with (map F (map (row_at m) (seq 0 (length (m_rows m)))))
        by (now rewrite map_row_at) end.
    rewrite map_map. cbn [fst snd].
    apply (nsum_le _ (fun i => if (0 <=? row_type2 m (types1 m) (row_at m i, row_type1 m (row_at m i)))%Z
        then length (r_form (row_at m i)) * (length (r_form (row_at m i)) - 1) else 0)).
    intros i Ii. rewrite nsum_if. unfold w. apply in_seq in Ii.
    rewrite types2_nth by (unfold in_range; lia).
    destruct (0 <=? _)%Z; [|lia]. apply Nat.mul_le_mono_r.
    replace (length (r_form (row_at m i))) with (length (cols_of (row_at m i))) by apply map_length.
    apply NoDup_incl_length; [apply NoDup_filter, seq_NoDup|].
    intros j Ij. apply filter_In in Ij. now apply memb_in.
Qed.

Definition start : bk :=
  {| bk_adj := adj; bk_type := fun i => nth i (types2 m) (-1)%Z; bk_np := length possible;
     bk_cap := 2 * m_ncols m; bk_cand := possible; bk_not := []; bk_in := [] |}.
Lemma new_bk_done : new_bk rnd srt m (types2 m) (count_elements m (types2 m)) =
  Done (start, {| sh_dom := fun i => memb i D; sh_rows := [] |}).
Proof.
  unfold new_bk. rewrite ones_ok. cbn [negb].
  replace (Nat.ltb _ _) with false; [reflexivity|].
  symmetry. apply Nat.ltb_ge. apply elements_enough.
Qed.
Lemma start_inv : inv adj (fun i => nth i (types2 m) (-1)%Z) possible start.
Proof.
  split; [reflexivity|]. split; [reflexivity|]. split; [reflexivity|]. cbn [start bk_cap bk_cand bk_not bk_in].
  split.
  - unfold possible. pose proof (filter_length_le (fun j => negb (Nat.eqb (length (adj j)) 0)) (seq 0 (m_ncols m))) as L.
    rewrite seq_length in L. lia.
  - split; [|split; [intros v []|split; [intros u v []|]]].
    + cbn [app]. rewrite app_nil_r. apply NoDup_filter, seq_NoDup.
    + intro v. rewrite app_nil_r. split; [|tauto]. intro H. split; [exact H|]. split; [intros []|intros u []].
Qed.

(** Maximal cliques said without the model. *)
Definition max_clique (l : list nat) : Prop :=
  NoDup l /\ (forall u v, In u l -> In v l -> u <> v -> conflict m u v) /\
  forall v, (forall u, In u l -> conflict m u v) -> In v l.
Lemma maximal_iff l : 2 <= length l -> (maximal adj possible l <-> max_clique l).
Proof.
  intro L. unfold maximal, max_clique, pairwise. split.
  - intros (N & I & P & X). split; [exact N|]. split; [intros u v A B C; apply G_conflict; auto|].
    intros v A. apply X.
    + destruct l as [|u l]; [cbn in L; lia|]. apply possible_spec. exists u. apply conflict_sym.
      apply A. now left.
    + intros u Iu. apply G_conflict. auto.
  - intros (N & P & X). split; [exact N|]. split; [|split].
    + intros u Iu. apply possible_spec. destruct l as [|a [|b l]]; [destruct Iu|cbn in L; lia|].
      destruct (Nat.eq_dec u a) as [->|Ne].
      * exists b. apply P; [now left|right; now left|]. intro H. subst b. inversion N; subst. apply H1. now left.
      * exists a. apply P; [exact Iu|now left|exact Ne].
    + intros u v A B C. apply G_conflict. auto.
    + intros v _ A. apply X. intros u Iu. apply G_conflict. auto.
Qed.

(** No two of the packing rows have two columns in common. *)
Definition apart : Prop := forall i1 i2 a b,
  in_range m i1 -> in_range m i2 -> i1 <> i2 ->
  packing m (row_at m i1) -> packing m (row_at m i2) -> a <> b ->
  has_col m i1 a -> has_col m i1 b -> has_col m i2 a -> has_col m i2 b -> False.
Lemma nodup_map_filter {A B} (f : A -> B) : forall l, NoDup l ->
  (forall a b, In a l -> In b l -> f a = f b -> a = b) -> NoDup (map f l).
Proof.
  induction l as [|a l IH]; intros N H; [constructor|]. inversion N; subst. cbn [map]. constructor.
  - intro I. apply in_map_iff in I. destruct I as (b & E & I). apply H2.
    rewrite (H a b); auto; [now left|now right].
  - apply IH; [assumption|]. intros b c Ib Ic. apply H; now right.
Qed.
Lemma adj_nodup j : NoDup (adj j).
Proof.
  unfold neighbours. destruct (binary m j); [|constructor].
  assert (R : forall i, In i (seq 0 (length (m_rows m))) -> in_range m i)
    by (intros i I; apply in_seq in I; unfold in_range; lia).
  revert R. generalize (seq_NoDup (length (m_rows m)) 0). generalize (seq 0 (length (m_rows m))).
  induction l as [|i l IH]; intros N R; [constructor|]. inversion N; subst. cbn [flat_map].
  apply NoDup_app_intro.
  - destruct (_ && _); [|constructor]. apply nodup_map_filter.
    + apply NoDup_filter. apply row_nodup. apply R. now left.
    + intros a b _ _ E. now injection E.
  - apply IH; [assumption|]. intros k Ik. apply R. now right.
  - intros [c k] A B. apply H1.
    assert (k = i).
    { destruct (_ && _); [|destruct A]. apply in_map_iff in A. destruct A as (c' & E & _). now injection E. }
    subst k. apply in_flat_map in B. destruct B as (k & Ik & B).
    destruct (_ && _); [|destruct B]. apply in_map_iff in B. destruct B as (c' & E & _). injection E as _ ->. exact Ik.
Qed.
Lemma apart_simple : apart -> simple adj.
Proof.
  intros A j. apply nodup_map_filter; [apply adj_nodup|]. intros [c i] [c' i'] I I' E. cbn in E. subst c'.
  apply adj_spec in I, I'. destruct I as (U & _ & Hj & Hc & Ne), I' as (U' & _ & Hj' & Hc' & _).
  destruct (Nat.eq_dec i i') as [->|N]; [reflexivity|exfalso].
  destruct U as (R & P & _), U' as (R' & P' & _).
  apply (A i i' j c); auto.
Qed.

(** ** The whole call *)
Definition same_set (l l' : list nat) : Prop := incl l l' /\ incl l' l.
Lemma bron_start : exists s ls,
  bron (S (bk_np start)) start {| sh_dom := fun i => memb i D; sh_rows := [] |} = Done s /\
  sh_rows s = ls /\
  (forall i, sh_dom s i = true <-> In i D \/
     (used m i /\ ~ In i D /\ row_type1 m (row_at m i) = 0%Z /\
      exists l a b, In l ls /\ In a l /\ In b l /\ a <> b /\ has_col m i a /\ has_col m i b)) /\
  (forall l, In l ls -> 2 < length l /\ max_clique l) /\
  ForallOrdPairs (fun l l' => ~ incl l l') ls /\
  (apart -> forall M, max_clique M -> 2 < length M -> exists l, In l ls /\ same_set M l).
Proof.
  destruct (bron_ok adj (fun i => nth i (types2 m) (-1)%Z) possible) with
    (fuel := S (bk_np start)) (b := start) (s := {| sh_dom := fun i => memb i D; sh_rows := [] |})
    as (s & ls & E & (R & Dm & L & O) & C).
  - intros u v H. apply G_conflict. apply conflict_sym. now apply G_conflict.
  - intros u H. apply G_conflict in H. destruct H as [H _]. congruence.
  - apply start_inv.
  - cbn. lia.
  - exists s, ls. split; [exact E|]. split; [exact R|]. split; [|split; [|split; [exact O|]]].
    + intro i. rewrite Dm. cbn [sh_dom]. rewrite orb_true_iff, memb_in. split.
      * intros [H|H]; [now left|]. destruct (in_dec Nat.eq_dec i D) as [Hd|Hd]; [now left|right].
        apply existsb_exists in H. destruct H as (l & Il & Mk).
        unfold marks in Mk. apply andb_true_iff in Mk. destruct Mk as [Z Mk]. apply Z.eqb_eq in Z.
        apply existsb_exists in Mk. destruct Mk as (a & Ia & Mk).
        apply existsb_exists in Mk. destruct Mk as ([b k] & Ib & Mk). apply andb_true_iff in Mk.
        destruct Mk as [K1 K2]. cbn in K1, K2. apply Nat.eqb_eq in K1. subst k. apply memb_in in K2.
        apply adj_spec in Ib. destruct Ib as (U & _ & Ha & Hb & Ne).
        split; [exact U|]. split; [exact Hd|]. split; [now rewrite <- types2_val|].
        exists l, a, b. repeat split; auto.
      * intros [H|(U & Nd & Z & l & a & b & Il & Ia & Ib & Ne & Ha & Hb)]; [now left|right].
        apply existsb_exists. exists l. split; [exact Il|]. unfold marks. apply andb_true_iff. split.
        -- apply Z.eqb_eq. now rewrite types2_val.
        -- apply existsb_exists. exists a. split; [exact Ia|]. apply existsb_exists. exists (b, i). split.
           ++ apply adj_spec. auto.
           ++ cbn. rewrite Nat.eqb_refl. now apply memb_in.
    + intros l Il. destruct (L l Il) as (L1 & L2 & _). split; [exact L1|]. apply maximal_iff; [lia|exact L2].
    + intros A M MM ML. apply maximal_iff in MM; [|lia].
      destruct (C (apart_simple A) M MM ML) as (l & Il & Q).
      * intros v [].
      * cbn [start bk_in bk_cand app]. apply MM.
      * exists l. split; [exact Il|exact Q].
Qed.

Lemma keep_rows_in dom : forall l k r, In r (keep_rows dom k l) <->
  exists i, i < length l /\ dom (k + i) = false /\ nth i l no_row = r.
Proof.
  induction l as [|a l IH]; intros k r; cbn [keep_rows].
  - split; [intros []|]. intros (i & H & _). cbn in H. lia.
  - destruct (dom k) eqn:E.
    + rewrite IH. split.
      * intros (i & H1 & H2 & H3). exists (S i). cbn [length nth]. split; [lia|]. split; [|exact H3].
        now rewrite <- Nat.add_succ_comm.
      * intros ([|i] & H1 & H2 & H3); [rewrite Nat.add_0_r in H2; congruence|].
        exists i. cbn [length nth] in *. split; [lia|]. split; [|exact H3]. now rewrite Nat.add_succ_comm.
    + cbn [In]. rewrite IH. split.
      * intros [<-|(i & H1 & H2 & H3)].
        -- exists 0. cbn [length nth]. split; [lia|]. rewrite Nat.add_0_r. auto.
        -- exists (S i). cbn [length nth]. split; [lia|]. split; [|exact H3]. now rewrite <- Nat.add_succ_comm.
      * intros ([|i] & H1 & H2 & H3).
        -- left. exact H3.
        -- right. exists i. cbn [length nth] in *. split; [lia|]. split; [|exact H3]. now rewrite Nat.add_succ_comm.
Qed.
Lemma keep_rows_len dom : forall l k,
  length (keep_rows dom k l) + length (filter dom (seq k (length l))) = length l.
Proof.
  induction l as [|a l IH]; intro k; [reflexivity|]. cbn [keep_rows length seq filter].
  specialize (IH (S k)). destruct (dom k); cbn [length]; lia.
Qed.

Inductive subseq {A} : list A -> list A -> Prop :=
| sub_nil : subseq [] []
| sub_skip a l k : subseq l k -> subseq l (a :: k)
| sub_take a l k : subseq l k -> subseq (a :: l) (a :: k).
Lemma keep_rows_sub dom : forall l k, subseq (keep_rows dom k l) l.
Proof.
  induction l as [|a l IH]; intro k; cbn [keep_rows]; [constructor|].
  destruct (dom k); constructor; apply IH.
Qed.

(** What the new problem is. *)
Definition removed (ls : list (list nat)) (i : nat) : Prop :=
  (exists q, q <> i /\ twin m q i) \/
  (used m i /\ (forall l, r_lo (row_at m i) = Some l -> (l <= 0)%Q) /\
   exists l a b, In l ls /\ In a l /\ In b l /\ a <> b /\ has_col m i a /\ has_col m i b).

Lemma result needed : exists o, clique_it rnd srt m needed = Done o /\
  forall m', o = Some m' -> exists kept ls (dom : nat -> bool),
    m' = {| m_ncols := m_ncols m; m_rows := kept ++ map clique_row ls;
            m_clo := m_clo m; m_chi := m_chi m; m_int := m_int m |} /\
    kept = keep_rows dom 0 (m_rows m) /\
    length kept + length ls < length (m_rows m) /\
    (forall i, dom i = true <-> In i D \/
     (used m i /\ ~ In i D /\ row_type1 m (row_at m i) = 0%Z /\
      exists l a b, In l ls /\ In a l /\ In b l /\ a <> b /\ has_col m i a /\ has_col m i b)) /\
    (forall l, In l ls -> 2 < length l /\ max_clique l) /\
    ForallOrdPairs (fun l l' => ~ incl l l') ls /\
    (apart -> forall M, max_clique M -> 2 < length M -> exists l, In l ls /\ same_set M l).
Proof.
  unfold clique_it. fold (types1 m). fold (types2 m).
  destruct (Nat.ltb _ _); [|exists None; split; [reflexivity|intros m' H; discriminate H]].
  destruct (_ && _ && _); [|exists None; split; [reflexivity|intros m' H; discriminate H]].
  rewrite new_bk_done. cbn [bind fst snd].
  destruct bron_start as (s & ls & E & R & Dm & L & O & C). rewrite E. cbn [bind].
  exists (new_solver m s). split; [reflexivity|]. intros m' H. unfold new_solver in H.
  destruct (Nat.ltb _ _) eqn:T; [|discriminate H]. apply Nat.ltb_lt in T. apply Some_inj in H. subst m'.
  exists (keep_rows (sh_dom s) 0 (m_rows m)), ls, (sh_dom s). subst ls. split; [reflexivity|].
  split; [reflexivity|]. split; [|auto].
  pose proof (keep_rows_len (sh_dom s) (m_rows m) 0). lia.
Qed.

(** ** Feasible points *)
Local Open Scope Q_scope.
Section Point.
Variable x : point.
Hypothesis xb : in_bounds m x.
Hypothesis xi : integer_ok m x.
Lemma bin01 j : (j < m_ncols m)%nat -> bin m j -> x j == 0 \/ x j == 1.
Proof.
  intros R ((l & E & El) & (u & F & Fu) & I). destruct (xb j R) as [A B]. rewrite E in A. rewrite F in B.
  cbn in A, B. apply integral01; [now apply xi|lra|lra].
Qed.
Lemma used_bin i j : used m i -> has_col m i j -> x j == 0 \/ x j == 1.
Proof.
  intros (R & (_ & _ & P & _) & _) H. pose proof (has_col_range i j R H) as Rj. unfold has_col in H.
  apply in_map_iff in H. destruct H as ([j' a] & E & I). cbn in E. subst j'.
  apply bin01; [exact Rj|]. now apply (P j a).
Qed.
Lemma used_value i : used m i ->
  value (r_form (row_at m i)) x == total x (cols_of (row_at m i)).
Proof. intros (_ & (_ & _ & P & _) & _). apply total_ones. intros [j a] I. now apply (P j a). Qed.
Lemma clique_bin l j : max_clique l -> (1 < length l)%nat -> In j l -> x j == 0 \/ x j == 1.
Proof.
  intros (N & P & _) L I.
  assert (K : exists v, In v l /\ j <> v).
  { destruct l as [|a [|b l]]; [destruct I|cbn in L; lia|].
    destruct (Nat.eq_dec j a) as [->|Ne].
    - exists b. split; [right; now left|]. intro H. subst b. inversion N; subst. apply H1. now left.
    - exists a. split; [now left|exact Ne]. }
  destruct K as (v & Iv & Ne). destruct (P j v I Iv Ne) as (_ & i & U & Hj & _).
  now apply (used_bin i).
Qed.
Lemma clique_row_sat l : row_sat (clique_row l) x <-> total x l <= 1.
Proof.
  unfold row_sat, clique_row. cbn [r_form r_lo r_hi ge_opt_lo le_opt_hi].
  rewrite total_ones, map_map.
  - cbn [fst]. rewrite map_id. tauto.
  - intros e I. apply in_map_iff in I. destruct I as (j & <- & _). reflexivity.
Qed.
Lemma clique_valid l : (forall i, used m i -> row_sat (row_at m i) x) ->
  max_clique l -> (1 < length l)%nat -> row_sat (clique_row l) x.
Proof.
  intros F MM L. apply clique_row_sat. pose proof MM as (N & P & _). apply total_packing; [exact N| |].
  - intros j I. now apply (clique_bin l).
  - intros u v Iu Iv Ne. destruct (P u v Iu Iv Ne) as (_ & i & U & Hu & Hv).
    specialize (F i U). destruct F as [_ F]. pose proof (used_value i U) as V.
    assert (Le : x u + x v <= total x (cols_of (row_at m i))).
    { replace (x u + x v) with (x u + x v) by reflexivity.
      assert (T : total x [u; v] <= total x (cols_of (row_at m i))).
      { apply total_incl.
        - repeat constructor; cbn; intuition.
        - apply row_nodup. apply U.
        - intros w [<-|[<-|[]]]; [exact Hu|exact Hv].
        - intros w Iw. destruct (used_bin i w U Iw); lra. }
      cbn in T. lra. }
    destruct U as (_ & ((h & Eh & Hh) & _) & _). rewrite Eh in F. cbn in F. lra.
Qed.
Lemma row_implied i : used m i -> (forall l, r_lo (row_at m i) = Some l -> l <= 0) ->
  forall l, max_clique l -> (1 < length l)%nat -> incl (cols_of (row_at m i)) l ->
  row_sat (clique_row l) x -> row_sat (row_at m i) x.
Proof.
  intros U Lo l MM L I S. apply clique_row_sat in S. pose proof (used_value i U) as V.
  assert (P : forall j, In j l -> 0 <= x j) by (intros j Ij; destruct (clique_bin l j MM L Ij); lra).
  assert (T : total x (cols_of (row_at m i)) <= total x l).
  { apply total_incl; [apply row_nodup; apply U|apply MM|exact I|exact P]. }
  assert (Z : 0 <= total x (cols_of (row_at m i))).
  { apply total_nonneg. intros j Ij. apply P. now apply I. }
  split.
  - destruct (r_lo (row_at m i)) as [k|] eqn:E; [|exact Logic.I]. specialize (Lo k eq_refl). cbn. lra.
  - destruct U as (_ & ((h & Eh & Hh) & _) & _). rewrite Eh. cbn. lra.
Qed.
End Point.

Lemma row_pairwise i : used m i -> pairwise adj (cols_of (row_at m i)).
Proof. intros U u v Iu Iv Ne. apply G_conflict. split; [exact Ne|]. exists i. auto. Qed.
Lemma two_only (S : list nat) a b c : NoDup S -> (length S <= 2)%nat -> a <> b ->
  In a S -> In b S -> In c S -> c = a \/ c = b.
Proof.
  intros N L Ne Ia Ib Ic. destruct (Nat.eq_dec c a) as [|Na]; [now left|]. destruct (Nat.eq_dec c b) as [|Nb]; [now right|].
  exfalso. assert (length [a; b; c] <= length S)%nat.
  { apply NoDup_incl_length; [repeat constructor; cbn; intuition|]. intros w [<-|[<-|[<-|[]]]]; auto. }
  cbn in H. lia.
Qed.

Lemma row_in_rows i : in_range m i -> In (row_at m i) (m_rows m).
Proof. intro R. unfold row_at. now apply nth_In. Qed.

Lemma forward needed m' : clique_it rnd srt m needed = Done (Some m') ->
  forall x, feasible m x -> feasible m' x.
Proof.
  intros E x (F & B & I). destruct (result needed) as (o & Eo & R). rewrite E in Eo. apply Done_inj in Eo.
  destruct (R m' (eq_sym Eo)) as (kept & ls & dom & -> & -> & _ & _ & L & _).
  split; [|split; [exact B|exact I]]. cbn [m_rows]. intros r Ir. apply in_app_or in Ir. destruct Ir as [Ir|Ir].
  - apply keep_rows_in in Ir. destruct Ir as (i & Hi & _ & <-). apply F. now apply nth_In.
  - apply in_map_iff in Ir. destruct Ir as (l & <- & Il). destruct (L l Il) as [L1 L2].
    apply clique_valid; [exact B|exact I| |exact L2|lia].
    intros i (Ri & _). apply F. now apply row_in_rows.
Qed.

Lemma backward needed m' : apart -> clique_it rnd srt m needed = Done (Some m') ->
  forall x, feasible m' x -> feasible m x.
Proof.
  intros A E x (F & B & I). destruct (result needed) as (o & Eo & R). rewrite E in Eo. apply Done_inj in Eo.
  destruct (R m' (eq_sym Eo)) as (kept & ls & dom & -> & -> & _ & Dm & L & _ & C). specialize (C A).
  unfold in_bounds, integer_ok in B, I. cbn [m_ncols m_clo m_chi m_int m_rows] in *.
  split; [|split; [exact B|exact I]].
  assert (K : forall i, in_range m i -> ~ In i D -> row_sat (row_at m i) x).
  { intros i Ri Nd. destruct (dom i) eqn:Ed.
    - apply Dm in Ed. destruct Ed as [Ed|(U & _ & Z & l & a & b & Il & Ia & Ib & Ne & Ha & Hb)]; [contradiction|].
      assert (Lo : forall k, r_lo (row_at m i) = Some k -> k <= 0) by (intros k Ek; now apply (type1_zero m (row_at m i))).
      destruct (L l Il) as [L1 L2].
      destruct (le_lt_dec (length (cols_of (row_at m i))) 2) as [S2|S3].
      + apply (row_implied x B I i U Lo l L2); [lia| |].
        * intros c Ic. destruct (two_only _ a b c (row_nodup i Ri) S2 Ne Ha Hb Ic); now subst.
        * apply F. apply in_or_app. right. now apply in_map.
      + destruct (extend_maximal adj possible) with (n := length possible) (l := cols_of (row_at m i)) as (M & MM & Inc).
        * intros u v H. apply G_conflict. apply conflict_sym. now apply G_conflict.
        * now apply row_nodup.
        * intros c Ic. apply possible_spec. destruct (Nat.eq_dec c a) as [->|Na].
          -- exists b. split; [exact Ne|eauto].
          -- exists a. split; [exact Na|eauto].
        * now apply row_pairwise.
        * lia.
        * assert (LM : (2 < length M)%nat).
          { pose proof (NoDup_incl_length (row_nodup i Ri) Inc). lia. }
          apply maximal_iff in MM; [|lia]. destruct (C M MM LM) as (l' & Il' & Q1 & Q2).
          destruct (L l' Il') as [L1' L2'].
          apply (row_implied x B I i U Lo l' L2'); [lia| |].
          -- intros c Ic. apply Q1. now apply Inc.
          -- apply F. apply in_or_app. right. now apply in_map.
    - apply F. apply in_or_app. left. apply keep_rows_in. exists i. auto. }
  intros r Ir. apply (In_nth _ _ no_row) in Ir. destruct Ir as (i & Ri & <-). fold (row_at m i).
  destruct (in_dec Nat.eq_dec i D) as [Id|Id]; [|now apply K].
  destruct (dups_rep i Id) as (q & Nq & (Rq & Sq & _)). apply Sq. now apply K.
Qed.
End Problem.
