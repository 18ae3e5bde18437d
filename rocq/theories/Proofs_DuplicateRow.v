(** * CglDuplicateRow: the sort and the search for subsets *)

From Verif Require Import Spec Base Model_TreeInfo Model_Clique Proofs_Clique Model_DuplicateRow.
From Coq Require Import Arith Sorted Permutation Lia.

Lemma updf_eq {A} (f : nat -> A) i v : updf f i v i = v.
Proof. unfold updf. rewrite Nat.eqb_refl. reflexivity. Qed.
Lemma updf_ne {A} (f : nat -> A) i v j : j <> i -> updf f i v j = f j.
Proof. intro H. unfold updf. apply Nat.eqb_neq in H. rewrite H. reflexivity. Qed.

(** ** Ordered pairs *)
Lemma fop_app {A} (R : A -> A -> Prop) l1 l2 :
  ForallOrdPairs R (l1 ++ l2) <->
  ForallOrdPairs R l1 /\ ForallOrdPairs R l2 /\ (forall a b, In a l1 -> In b l2 -> R a b).
Proof.
  induction l1 as [|a l1 IH]; simpl.
  - split.
    + intro H. conjs; [constructor|exact H|intros ? ? []].
    + intros (_ & H & _). exact H.
  - split.
    + intro H. inversion H as [|a0 l0 F T]; subst. apply IH in T as (T1 & T2 & T3).
      rewrite Forall_forall in F. conjs.
      * constructor; [|exact T1]. apply Forall_forall. intros b Hb. apply F. apply in_or_app. left. exact Hb.
      * exact T2.
      * intros c b [<-|Hc] Hb; [apply F; apply in_or_app; right; exact Hb|apply T3; assumption].
    + intros (H1 & H2 & H3). inversion H1 as [|a0 l0 F T]; subst. constructor.
      * apply Forall_forall. intros b Hb. apply in_app_or in Hb as [Hb|Hb].
        -- rewrite Forall_forall in F. apply F. exact Hb.
        -- apply H3; [left; reflexivity|exact Hb].
      * apply IH. conjs; [exact T|exact H2|]. intros c b Hc Hb. apply H3; [right; exact Hc|exact Hb].
Qed.

Lemma fop_impl {A} (R R' : A -> A -> Prop) l :
  (forall a b, In a l -> In b l -> R a b -> R' a b) -> ForallOrdPairs R l -> ForallOrdPairs R' l.
Proof.
  intros H F. revert H. induction F as [|a l Fa Fl IH]; intro H; constructor.
  - apply Forall_forall. intros b Hb. rewrite Forall_forall in Fa.
    apply H; [left; reflexivity|right; exact Hb|apply Fa; exact Hb].
  - apply IH. intros b c Hb Hc. apply H; right; assumption.
Qed.

Lemma span_spec {A} (p : A -> bool) l u v : span p l = (u, v) ->
  l = u ++ v /\ (forall a, In a u -> p a = true) /\ match v with [] => True | b :: _ => p b = false end.
Proof.
  revert u v. induction l as [|a l IH]; simpl; intros u v E.
  - injection E as <- <-. conjs; [reflexivity|intros ? []|exact I].
  - destruct (p a) eqn:Ea.
    + destruct (span p l) as [u' v'] eqn:El. injection E as <- <-.
      destruct (IH _ _ eq_refl) as (-> & H1 & H2). conjs; [reflexivity| |exact H2].
      intros b [<-|Hb]; [exact Ea|apply H1; exact Hb].
    + injection E as <- <-. conjs; [reflexivity|intros ? []|exact Ea].
Qed.

(** What is used of CoinSort_2: a permutation, sorted by the key. *)
Definition sorts (sort2 : list (Z * nat) -> list (Z * nat)) : Prop :=
  forall l, Permutation (sort2 l) l /\ StronglySorted (fun a b => (fst a <= fst b)%Z) (sort2 l).

Section Out.
  Variable sort2 : list (Z * nat) -> list (Z * nat).
  Hypothesis Hsort : sorts sort2.
  Variable N : nat.
  Variable cls : list (list nat).
  Variable typ : list bool.
  Hypothesis Hsorted : forall k, (k < length cls)%nat -> StronglySorted lt (clq cls k).
  Hypothesis Hbelow : forall k c, In c (clq cls k) -> (c < N)%nat.
  Hypothesis Hlen : forall k, (k < length cls)%nat -> (2 <= length (clq cls k))%nat.

  Notation clq := (clq cls).
  Notation val_at := (val_at N cls).
  Notation isE := (isE typ).
  Notation nC := (nC cls).

  Lemma sort_by_perm key l : Permutation (sort_by sort2 key l) l.
  Proof.
    unfold sort_by. destruct (Hsort (map (fun k => (key k, k)) l)) as [P _].
    eapply Permutation_trans; [apply Permutation_map; exact P|]. rewrite map_map. cbn [snd].
    rewrite map_id. reflexivity.
  Qed.

  Lemma fop_of_sorted {A} (R : A -> A -> Prop) l : StronglySorted R l -> ForallOrdPairs R l.
  Proof. induction 1 as [|a l H IH F]; constructor; assumption. Qed.

  Lemma fop_map {A B} (f : A -> B) (R : B -> B -> Prop) l :
    ForallOrdPairs R (map f l) <-> ForallOrdPairs (fun a b => R (f a) (f b)) l.
  Proof.
    induction l as [|a l IH]; simpl; [split; constructor|]. split; intro H; inversion H; subst; constructor.
    - rewrite Forall_map in H2. exact H2.
    - apply IH. assumption.
    - rewrite Forall_map. assumption.
    - apply IH. assumption.
  Qed.

  Lemma sort_by_sorted key l : ForallOrdPairs (fun a b => (key a <= key b)%Z) (sort_by sort2 key l).
  Proof.
    unfold sort_by. destruct (Hsort (map (fun k => (key k, k)) l)) as [P S1].
    apply fop_map. apply fop_of_sorted in S1. eapply fop_impl; [|exact S1].
    intros [a1 a2] [b1 b2] Ha Hb. cbn.
    assert (K : forall p, In p (sort2 (map (fun k => (key k, k)) l)) -> fst p = key (snd p)).
    { intros p Hp. eapply Permutation_in in Hp; [|exact P]. apply in_map_iff in Hp as (k & <- & _). reflexivity. }
    apply K in Ha. apply K in Hb. cbn in Ha, Hb. subst. auto.
  Qed.

  (** ** Values of a clique *)
  Lemma val_le k p : (val_at k p <= Z.of_nat N)%Z.
  Proof.
    unfold Model_DuplicateRow.val_at. destruct (Nat.lt_ge_cases p (length (clq k))) as [L|L].
    - assert (In (nth p (clq k) N) (clq k)) by (apply nth_In; exact L). apply Hbelow in H. lia.
    - rewrite nth_overflow by exact L. lia.
  Qed.
  Lemma val_nonneg k p : (0 <= val_at k p)%Z.
  Proof. unfold Model_DuplicateRow.val_at. lia. Qed.
  Lemma val_lt k p : (p < length (clq k))%nat -> (val_at k p < Z.of_nat N)%Z.
  Proof.
    intro L. unfold Model_DuplicateRow.val_at.
    assert (In (nth p (clq k) N) (clq k)) by (apply nth_In; exact L). apply Hbelow in H. lia.
  Qed.
  Lemma val_lt_iff k p : (val_at k p < Z.of_nat N)%Z -> (p < length (clq k))%nat.
  Proof.
    intro H. destruct (Nat.lt_ge_cases p (length (clq k))) as [L|L]; [exact L|].
    unfold Model_DuplicateRow.val_at in H. rewrite nth_overflow in H by exact L. lia.
  Qed.

  Lemma nth_ext_vals (l l' : list nat) q :
    (forall p, (p < q)%nat -> nth p l N = nth p l' N) ->
    (q = length l)%nat -> (q = length l')%nat -> l = l'.
  Proof.
    intros H E E'. apply nth_ext with (d := N) (d' := N); [lia|]. intros n Hn. apply H. lia.
  Qed.

  Lemma eq_of_vals j j' q : (q <= length (clq j))%nat -> (q <= length (clq j'))%nat ->
    (forall p, (p < q)%nat -> val_at j p = val_at j' p) ->
    (Z.of_nat N <= val_at j q)%Z -> (Z.of_nat N <= val_at j' q)%Z -> clq j = clq j'.
  Proof.
    intros L L' H E E'.
    assert (q = length (clq j)).
    { destruct (Nat.lt_ge_cases q (length (clq j))) as [K|K]; [apply val_lt in K; lia|lia]. }
    assert (q = length (clq j')).
    { destruct (Nat.lt_ge_cases q (length (clq j'))) as [K|K]; [apply val_lt in K; lia|lia]. }
    apply (nth_ext_vals _ _ q); try assumption. intros p Hp. specialize (H p Hp).
    unfold Model_DuplicateRow.val_at in H. lia.
  Qed.

  (** ** The lexicographic sort *)
  Notation lex_loop := (lex_loop sort2 N cls typ).

  (** [j] comes before [j'] in the part still to be sorted. *)
  Definition before (s : lex) (j j' : nat) : Prop :=
    (x_pos s j' <= x_pos s j)%nat /\
    (forall p, (p < x_pos s j')%nat -> val_at j p = val_at j' p) /\
    (x_pos s j = x_pos s j' -> (x_stat s j <= x_stat s j')%Z) /\
    ((x_pos s j' < x_pos s j)%nat -> (val_at j (x_pos s j') < val_at j' (x_pos s j'))%Z).

  (** The rule for keeping one of several equal cliques is harmless when an
      equation is never preceded by an inequality on the same columns. *)
  Definition eq_first : Prop :=
    forall k1 k2, (k1 < k2)%nat -> (k2 < length cls)%nat -> clq k1 = clq k2 -> isE k2 = true -> isE k1 = true.

  Record inv (s : lex) (done rest : list nat) : Prop := {
    i_perm : Permutation (done ++ rest) (seq 0 nC);
    i_stat : forall k, In k rest -> x_stat s k = val_at k (x_pos s k) /\ (x_pos s k <= length (clq k))%nat;
    i_ord : ForallOrdPairs (before s) rest;
    i_sep : forall d r, In d done -> In r rest -> clq d <> clq r;
    i_one : forall d d', In d done -> In d' done -> d <> d' -> clq d = clq d' ->
              x_stat s d = (-2)%Z \/ x_stat s d' = (-2)%Z;
    i_why : forall d, In d done -> x_stat s d = (-2)%Z ->
              exists d', In d' done /\ clq d' = clq d /\ x_stat s d' <> (-2)%Z /\
                         (eq_first -> isE d = true -> isE d' = true) }.

  Lemma inv_nodup s done rest : inv s done rest -> NoDup (done ++ rest).
  Proof. intro H. eapply Permutation_NoDup; [apply Permutation_sym, (i_perm _ _ _ H)|apply seq_NoDup]. Qed.
  Lemma inv_range s done rest k : inv s done rest -> In k (done ++ rest) -> (k < length cls)%nat.
  Proof.
    intros H Hk. eapply Permutation_in in Hk; [|apply (i_perm _ _ _ H)]. apply in_seq in Hk.
    unfold Model_DuplicateRow.nC in Hk. lia.
  Qed.

  Lemma nodup_app_l (l l' : list nat) : NoDup (l ++ l') -> NoDup l'.
  Proof. induction l as [|a l IH]; simpl; intro H; [exact H|]. inversion H; subst. auto. Qed.
  Lemma nodup_app_r (l l' : list nat) : NoDup (l ++ l') -> NoDup l.
  Proof.
    induction l as [|a l IH]; simpl; intro H; [constructor|]. inversion H as [|a0 l0 Hn Hl]; subst. constructor.
    - intro K. apply Hn. apply in_or_app. left. exact K.
    - auto.
  Qed.
  Lemma nodup_app_ne (l l' : list nat) : NoDup (l ++ l') -> forall a b, In a l -> In b l' -> a <> b.
  Proof.
    induction l as [|c l IH]; simpl; intros H a b Ha Hb; [contradiction|].
    inversion H as [|c0 l0 Hn Hl]; subst. destruct Ha as [<-|Ha].
    - intros ->. apply Hn. apply in_or_app. right. exact Hb.
    - apply IH; assumption.
  Qed.

  (** The members of a group agree with the first up to its place; everything
      after the group differs there or before. *)
  Lemma group_spec s f g r' :
    (forall k, In k (f :: g ++ r') -> x_stat s k = val_at k (x_pos s k)) ->
    ForallOrdPairs (before s) (f :: g ++ r') ->
    (forall k, In k g -> (x_stat s f <? x_stat s k)%Z || (x_pos s k <? x_pos s f)%nat = false) ->
    match r' with [] => True | b :: _ => (x_stat s f <? x_stat s b)%Z || (x_pos s b <? x_pos s f)%nat = true end ->
    (forall k, In k (f :: g) -> x_pos s k = x_pos s f /\ x_stat s k = x_stat s f /\
       forall p, (p < x_pos s f)%nat -> val_at k p = val_at f p) /\
    (forall t, In t r' ->
       ((x_pos s t < x_pos s f)%nat /\ (val_at f (x_pos s t) < val_at t (x_pos s t))%Z) \/
       (x_pos s t = x_pos s f /\ (x_stat s f < x_stat s t)%Z)).
  Proof.
    intros Hst Ho Hg Hr. inversion Ho as [|a0 l0 F T]; subst. rewrite Forall_forall in F.
    assert (G : forall k, In k (f :: g) -> x_pos s k = x_pos s f /\ x_stat s k = x_stat s f /\
       forall p, (p < x_pos s f)%nat -> val_at k p = val_at f p).
    { intros k [<-|Hk]; [conjs; reflexivity|].
      specialize (Hg k Hk). apply Bool.orb_false_iff in Hg as [H1 H2].
      apply Z.ltb_ge in H1. apply Nat.ltb_ge in H2.
      destruct (F k) as (B1 & B2 & B3 & B4); [apply in_or_app; left; exact Hk|].
      assert (x_pos s k = x_pos s f) by lia. assert (x_pos s f = x_pos s k) by lia. specialize (B3 H0).
      conjs; [assumption|lia|]. intros p Hp. symmetry. apply B2. lia. }
    split; [exact G|]. intros t Ht.
    destruct r' as [|b r']; [contradiction|].
    destruct (F b) as (C1 & C2 & C3 & C4); [apply in_or_app; right; left; reflexivity|].
    destruct (F t) as (B1 & B2 & B3 & B4); [apply in_or_app; right; exact Ht|].
    assert (Hb : (x_pos s b < x_pos s f)%nat \/ (x_pos s b = x_pos s f /\ (x_stat s f < x_stat s b)%Z)).
    { apply Bool.orb_true_iff in Hr as [H|H]; [apply Z.ltb_lt in H|apply Nat.ltb_lt in H].
      - destruct (Nat.eq_dec (x_pos s b) (x_pos s f)); [right; split; assumption|left; lia].
      - left. exact H. }
    assert (Hbt : t = b \/ before s b t).
    { destruct Ht as [->|Ht]; [left; reflexivity|right].
      apply fop_app in T as (_ & T2 & _). inversion T2 as [|a1 l1 F1 T1]; subst. rewrite Forall_forall in F1.
      apply F1. exact Ht. }
    destruct (Nat.eq_dec (x_pos s t) (x_pos s f)) as [E|E].
    - right. split; [exact E|]. destruct Hbt as [->|(D1 & D2 & D3 & D4)].
      + destruct Hb as [Hb|Hb]; [lia|apply Hb].
      + destruct Hb as [Hb|[Hb1 Hb2]]; [lia|]. assert (x_pos s b = x_pos s t) by lia. specialize (D3 H). lia.
    - left. split; [lia|]. apply B4. lia.
  Qed.

  Lemma fold_advance_out l s k : ~ In k l -> x_stat (fold_left (advance N cls) l s) k = x_stat s k /\
    x_pos (fold_left (advance N cls) l s) k = x_pos s k.
  Proof.
    revert s. induction l as [|a l IH]; simpl; intros s H; [split; reflexivity|].
    destruct (IH (advance N cls s a)) as [H1 H2]; [intro; apply H; right; assumption|]. rewrite H1, H2.
    unfold advance. destruct (x_stat s a <? Z.of_nat N)%Z; [|split; reflexivity]. cbn.
    rewrite !updf_ne by (intro; subst; apply H; left; reflexivity). split; reflexivity.
  Qed.

  Lemma fold_advance_in l s : NoDup l -> forall k, In k l ->
    let s' := fold_left (advance N cls) l s in
    ((x_stat s k < Z.of_nat N)%Z -> x_pos s' k = Datatypes.S (x_pos s k) /\ x_stat s' k = val_at k (Datatypes.S (x_pos s k))) /\
    ((Z.of_nat N <= x_stat s k)%Z -> x_pos s' k = x_pos s k /\ x_stat s' k = x_stat s k).
  Proof.
    revert s. induction l as [|a l IH]; intros s Hn k Hk; [contradiction|].
    inversion Hn as [|a0 l0 Ha Hl]; subst. cbn [fold_left]. cbn zeta.
    destruct (Nat.eq_dec k a) as [->|Ne].
    - destruct (fold_advance_out l (advance N cls s a) a Ha) as [E1 E2]. rewrite E1, E2.
      unfold advance. destruct (x_stat s a <? Z.of_nat N)%Z eqn:E.
      + apply Z.ltb_lt in E. cbn. rewrite !updf_eq. split; intros; [split; reflexivity|lia].
      + apply Z.ltb_ge in E. split; intros; [lia|split; reflexivity].
    - destruct Hk as [->|Hk]; [congruence|]. specialize (IH (advance N cls s a) Hl k Hk). cbn zeta in IH.
      assert (E1 : x_stat (advance N cls s a) k = x_stat s k /\ x_pos (advance N cls s a) k = x_pos s k).
      { unfold advance. destruct (x_stat s a <? Z.of_nat N)%Z; [|split; reflexivity]. cbn.
        rewrite !updf_ne by exact Ne. split; reflexivity. }
      destruct E1 as [E1 E2]. rewrite E1, E2 in IH. exact IH.
  Qed.

  (** ** The clique that is kept *)
  Definition low_step (a : nat * bool) (k : nat) : nat * bool :=
    if isE k then (Nat.min (fst a) k, true) else if snd a then a else (Nat.min (fst a) k, false).

  Lemma lowest_in l : l <> [] -> (forall k, In k l -> (k < nC)%nat) -> In (lowest cls typ l) l.
  Proof.
    intros Hne Hr. unfold lowest. fold low_step.
    assert (K : forall l a, (fst (fold_left low_step l a) = fst a) \/ In (fst (fold_left low_step l a)) l).
    { clear. induction l as [|k l IH]; simpl; intro a; [left; reflexivity|].
      destruct (IH (low_step a k)) as [E|E]; [|right; right; exact E]. rewrite E. unfold low_step.
      destruct (isE k); [|destruct (snd a)]; cbn; [|left; reflexivity|];
        (destruct (Nat.min_spec (fst a) k) as [[_ ->]|[_ ->]]; [left; reflexivity|right; left; reflexivity]). }
    assert (K2 : forall l a, (fst (fold_left low_step l a) <= fst a)%nat).
    { clear. induction l as [|k l IH]; simpl; intro a; [lia|]. specialize (IH (low_step a k)).
      unfold low_step in *. destruct (isE k); [|destruct (snd a)]; cbn in *; lia. }
    destruct l as [|k l]; [congruence|]. cbn [fold_left].
    assert (low_step (nC, false) k = (k, isE k)) as ->.
    { unfold low_step. cbn. assert (k < nC)%nat by (apply Hr; left; reflexivity).
      rewrite Nat.min_r by lia. destruct (isE k); reflexivity. }
    destruct (K l (k, isE k)) as [E|E]; [left; symmetry; exact E|right; exact E].
  Qed.

  (** When the equations come first, the one kept is an equation if any is. *)
  Lemma lowest_eq l : (forall k, In k l -> (k < nC)%nat) ->
    (forall k1 k2, In k1 l -> In k2 l -> (k1 < k2)%nat -> isE k2 = true -> isE k1 = true) ->
    forall k, In k l -> isE k = true -> isE (lowest cls typ l) = true.
  Proof.
    intros Hr Hc k Hk Ek. assert (Hl : In (lowest cls typ l) l).
    { apply lowest_in; [intros ->; contradiction|exact Hr]. }
    destruct (Nat.lt_trichotomy (lowest cls typ l) k) as [L|[->|L]]; [|exact Ek|].
    - eapply Hc; [exact Hl|exact Hk|exact L|exact Ek].
    - exfalso. unfold lowest in L. fold low_step in L.
      assert (K2 : forall l a, (fst (fold_left low_step l a) <= fst a)%nat).
      { clear. induction l as [|k l IH]; simpl; intro a; [lia|]. specialize (IH (low_step a k)).
        unfold low_step in *. destruct (isE k); [|destruct (snd a)]; cbn in *; lia. }
      assert (K : forall l a, In k l -> (fst (fold_left low_step l a) <= k)%nat).
      { clear L Hl Hc Hr Hk. induction l0 as [|b l0 IH]; simpl; intros a Hin; [contradiction|].
        destruct Hin as [->|Hin]; [|apply IH; exact Hin].
        eapply Nat.le_trans; [apply K2|]. unfold low_step. rewrite Ek. cbn. lia. }
      specialize (K l (nC, false) Hk). lia.
  Qed.

  Lemma mark_dups_stat low l s k : x_stat (mark_dups low l s) k = if in_dec Nat.eq_dec k l then if Nat.eqb k low then x_stat s k else (-2)%Z else x_stat s k.
  Proof.
    unfold mark_dups. cbn [x_stat]. generalize (x_stat s) as f. induction l as [|a l IH]; intro f; [reflexivity|].
    cbn [fold_left]. rewrite IH. destruct (in_dec Nat.eq_dec k (a :: l)) as [Hi|Hi].
    - destruct (in_dec Nat.eq_dec k l) as [Hl|Hl].
      + destruct (Nat.eqb k low) eqn:E; [|reflexivity]. apply Nat.eqb_eq in E. subst.
        destruct (Nat.eqb a low) eqn:Ea; [reflexivity|]. apply updf_ne. intros ->. rewrite Nat.eqb_refl in Ea. discriminate.
      + destruct Hi as [->|Hi]; [|contradiction]. destruct (Nat.eqb k low) eqn:E; [reflexivity|]. apply updf_eq.
    - destruct (in_dec Nat.eq_dec k l) as [Hl|Hl]; [exfalso; apply Hi; right; exact Hl|].
      destruct (Nat.eqb a low); [reflexivity|]. apply updf_ne. intros ->. apply Hi. left. reflexivity.
  Qed.

  (** ** One round *)
  Lemma done_nonneg_val k p : val_at k p <> (-2)%Z.
  Proof. pose proof (val_nonneg k p). lia. Qed.

  Lemma step_single s done f r :
    inv s done (f :: r) ->
    match r with [] => True | b :: _ => (x_stat s f <? x_stat s b)%Z || (x_pos s b <? x_pos s f)%nat = true end ->
    inv s (done ++ [f]) r.
  Proof.
    intros Hi Hb. pose proof (i_ord _ _ _ Hi) as Ho.
    destruct (group_spec s f [] r) as [_ Hsep]; [intros k Hk; apply (i_stat _ _ _ Hi); exact Hk|exact Ho|intros ? []|exact Hb|].
    assert (Hstat : forall k, In k (f :: r) -> x_stat s k = val_at k (x_pos s k)) by (intros k Hk; apply (i_stat _ _ _ Hi k Hk)).
    constructor.
    - rewrite <- app_assoc. simpl. apply (i_perm _ _ _ Hi).
    - intros k Hk. apply (i_stat _ _ _ Hi). right. exact Hk.
    - inversion Ho; assumption.
    - intros d t Hd Ht. apply in_app_or in Hd as [Hd|[<-|[]]].
      + apply (i_sep _ _ _ Hi); [exact Hd|right; exact Ht].
      + intro E. destruct (Hsep t Ht) as [[L1 L2]|[L1 L2]].
        * unfold Model_DuplicateRow.val_at in L2. rewrite E in L2. lia.
        * rewrite (Hstat f), (Hstat t), L1 in L2 by (simpl; auto).
          unfold Model_DuplicateRow.val_at in L2. rewrite E in L2. lia.
    - intros d d' Hd Hd' Ne E. apply in_app_or in Hd as [Hd|[<-|[]]]; apply in_app_or in Hd' as [Hd'|[<-|[]]].
      + apply (i_one _ _ _ Hi); assumption.
      + exfalso. apply (i_sep _ _ _ Hi d f Hd (or_introl eq_refl)). exact E.
      + exfalso. apply (i_sep _ _ _ Hi d' f Hd' (or_introl eq_refl)). symmetry. exact E.
      + congruence.
    - intros d Hd E. apply in_app_or in Hd as [Hd|[<-|[]]].
      + destruct (i_why _ _ _ Hi d Hd E) as (d' & D1 & D2). exists d'. split; [apply in_or_app; left; exact D1|exact D2].
      + exfalso. rewrite (Hstat f (or_introl eq_refl)) in E. exact (done_nonneg_val _ _ E).
  Qed.

  (** The positions and values of a group after it has moved on. *)
  Lemma group_moved s f g : NoDup (f :: g) ->
    (forall k, In k (f :: g) -> x_stat s k = val_at k (x_pos s k) /\ (x_pos s k <= length (clq k))%nat) ->
    (forall k, In k (f :: g) -> x_pos s k = x_pos s f /\ x_stat s k = x_stat s f /\
       forall p, (p < x_pos s f)%nat -> val_at k p = val_at f p) ->
    let s1 := fold_left (advance N cls) (f :: g) s in
    exists q, (q = x_pos s f \/ q = Datatypes.S (x_pos s f)) /\
      (q = x_pos s f -> (Z.of_nat N <= x_stat s f)%Z) /\
      (forall k, In k (f :: g) -> x_pos s1 k = q /\ x_stat s1 k = val_at k q /\ (q <= length (clq k))%nat /\
         forall p, (p < q)%nat -> val_at k p = val_at f p) .
  Proof.
    intros Hn Hst Hg s1. destruct (Z.lt_ge_cases (x_stat s f) (Z.of_nat N)) as [L|L].
    - exists (Datatypes.S (x_pos s f)). conjs; [right; reflexivity|lia|]. intros k Hk.
      destruct (Hg k Hk) as (G1 & G2 & G3). destruct (fold_advance_in (f :: g) s Hn k Hk) as [A _].
      destruct A as [A1 A2]; [lia|]. fold s1 in A1, A2. rewrite G1 in A1, A2.
      destruct (Hst k Hk) as [S1 S2]. assert (Hv : val_at k (x_pos s f) = val_at f (x_pos s f)).
      { rewrite <- G1 at 1. rewrite <- S1, G2. apply (Hst f). left. reflexivity. }
      conjs; [exact A1|exact A2| |].
      + assert (val_at k (x_pos s f) < Z.of_nat N)%Z by (rewrite <- G1, <- S1, G2; exact L).
        apply val_lt_iff in H. lia.
      + intros p Hp. destruct (Nat.eq_dec p (x_pos s f)) as [->|]; [exact Hv|apply G3; lia].
    - exists (x_pos s f). conjs; [left; reflexivity|intros _; exact L|]. intros k Hk.
      destruct (Hg k Hk) as (G1 & G2 & G3). destruct (fold_advance_in (f :: g) s Hn k Hk) as [_ A].
      destruct A as [A1 A2]; [lia|]. fold s1 in A1, A2. rewrite G1 in A1.
      destruct (Hst k Hk) as [S1 S2]. conjs; [exact A1|rewrite A2, S1, G1; reflexivity|lia|exact G3].
  Qed.

  Lemma step_group s done f g r' :
    inv s done (f :: g ++ r') ->
    (forall k, In k g -> (x_stat s f <? x_stat s k)%Z || (x_pos s k <? x_pos s f)%nat = false) ->
    match r' with [] => True | b :: _ => (x_stat s f <? x_stat s b)%Z || (x_pos s b <? x_pos s f)%nat = true end ->
    let s1 := fold_left (advance N cls) (f :: g) s in
    let g1 := sort_by sort2 (x_stat s1) (f :: g) in
    forall l g2, span (fun k => (Z.of_nat N <=? x_stat s1 k)%Z) g1 = (l, g2) ->
    let s2 := match l with [] => s1 | _ :: _ => mark_dups (lowest cls typ l) l s1 end in
    inv s2 (done ++ l) (g2 ++ r') /\
    ((l <> [] /\ g2 = []) \/
     (l = [] /\ Permutation g2 (f :: g) /\ forall k, In k (f :: g) -> x_pos s2 k = Datatypes.S (x_pos s k))) /\
    (forall k, In k r' -> x_pos s2 k = x_pos s k).
  Proof.
    intros Hi Hg Hr s1 g1 l g2 Hspan s2.
    pose proof (inv_nodup _ _ _ Hi) as Hnd. pose proof (nodup_app_l _ _ Hnd) as Hnr.
    assert (HnG : NoDup (f :: g)).
    { change (f :: g ++ r') with ((f :: g) ++ r') in Hnr. apply nodup_app_r in Hnr. exact Hnr. }
    pose proof (i_ord _ _ _ Hi) as Ho.
    destruct (group_spec s f g r') as [Hgrp Hsep];
      [intros k Hk; apply (i_stat _ _ _ Hi); exact Hk|exact Ho|exact Hg|exact Hr|].
    destruct (group_moved s f g HnG) as (q & Hq & HqN & Hm).
    { intros k Hk. apply (i_stat _ _ _ Hi). destruct Hk as [->|Hk]; [left; reflexivity|right; apply in_or_app; left; exact Hk]. }
    { exact Hgrp. }
    fold s1 in Hm.
    assert (Hperm : Permutation g1 (f :: g)) by apply sort_by_perm.
    pose proof (sort_by_sorted (x_stat s1) (f :: g)) as Hsrt. fold g1 in Hsrt.
    destruct (span_spec _ _ _ _ Hspan) as (Eg1 & Hl & Hg2).
    assert (Hout : forall k, ~ In k (f :: g) -> x_stat s1 k = x_stat s k /\ x_pos s1 k = x_pos s k)
      by (intros k Hk; apply fold_advance_out; exact Hk).
    assert (Hr'out : forall t, In t r' -> ~ In t (f :: g)).
    { intros t Ht Hin. change (f :: g ++ r') with ((f :: g) ++ r') in Hnr.
      apply (nodup_app_ne _ _ Hnr t t Hin Ht). reflexivity. }
    assert (Hdout : forall d, In d done -> ~ In d (f :: g)).
    { intros d Hd Hin. apply (nodup_app_ne _ _ Hnd d d Hd); [|reflexivity].
      destruct Hin as [->|Hin]; [left; reflexivity|right; apply in_or_app; left; exact Hin]. }
    (* group against the rest: they differ somewhere *)
    assert (Hstr : forall k t, In k (f :: g) -> In t r' ->
              exists p, (p <= q)%nat /\ (p <= x_pos s f)%nat /\ p = x_pos s t /\ (val_at k p < val_at t p)%Z).
    { intros k t Hk Ht. destruct (Hgrp k Hk) as (G1 & G2 & G3).
      assert (Hst : forall y, In y (f :: g ++ r') -> x_stat s y = val_at y (x_pos s y)) by (intros y Hy; apply (i_stat _ _ _ Hi y Hy)).
      destruct (Hsep t Ht) as [[L1 L2]|[L1 L2]].
      - exists (x_pos s t). conjs; [lia|lia|reflexivity|]. rewrite G3 by exact L1. exact L2.
      - exists (x_pos s f). conjs; [lia|lia|symmetry; exact L1|].
        rewrite <- G2 in L2. rewrite (Hst k), (Hst t), G1, L1 in L2; [exact L2| |].
        + right. apply in_or_app. right. exact Ht.
        + destruct Hk as [->|Hk]; [left; reflexivity|right; apply in_or_app; left; exact Hk]. }
    assert (HdiffGR : forall k t, In k (f :: g) -> In t r' -> clq k <> clq t).
    { intros k t Hk Ht E. destruct (Hstr k t Hk Ht) as (p & _ & _ & _ & L). unfold Model_DuplicateRow.val_at in L. rewrite E in L. lia. }
    assert (Hpos2 : forall k, x_pos s2 k = x_pos s1 k) by (intro k; unfold s2; destruct l; reflexivity).
    assert (Hcase : (l = [] /\ g2 = g1) \/ (l <> [] /\ g2 = [] /\ l = g1)).
    { destruct l as [|a l]; [left; split; [reflexivity|simpl in Eg1; congruence]|right].
      destruct g2 as [|b g2]; [conjs; [discriminate|reflexivity|rewrite Eg1, app_nil_r; reflexivity]|exfalso].
      rewrite Eg1 in Hsrt. apply fop_app in Hsrt as (_ & _ & Hs3).
      specialize (Hs3 a b (or_introl eq_refl) (or_introl eq_refl)). specialize (Hl a (or_introl eq_refl)).
      apply Z.leb_le in Hl. apply Z.leb_gt in Hg2. lia. }
    conjs.
    2: { destruct Hcase as [[-> ->]|(H1 & H2 & _)]; [right|left; split; assumption].
         conjs; [reflexivity|exact Hperm|]. intros k Hk. rewrite Hpos2. destruct (Hm k Hk) as (M1 & M2 & M3 & M4).
         rewrite M1. destruct (Hgrp k Hk) as (G1 & _). rewrite G1. destruct Hq as [->|Hq]; [|exact Hq].
         exfalso. specialize (HqN eq_refl).
         assert (exists a g1', g1 = a :: g1').
         { destruct g1 as [|a g1']; [|eauto]. apply Permutation_nil in Hperm. discriminate. }
         destruct H as (a & g1' & E1). rewrite E1 in Hspan. simpl in Hspan.
         assert (Ha : In a (f :: g)) by (eapply Permutation_in; [exact Hperm|rewrite E1; left; reflexivity]).
         assert (Z.of_nat N <= x_stat s1 a)%Z.
         { destruct (Hm a Ha) as (A1 & A2 & A3 & A4). rewrite A2. destruct (Hgrp a Ha) as (B1 & B2 & _).
           assert (x_stat s a = val_at a (x_pos s a)).
           { apply (i_stat _ _ _ Hi). destruct Ha as [->|Ha]; [left; reflexivity|right; apply in_or_app; left; exact Ha]. }
           rewrite <- B1, <- H. lia. }
         apply Z.leb_le in H. rewrite H in Hspan. destruct (span _ g1'). discriminate. }
    2: { intros k Hk. rewrite Hpos2. apply Hout. apply Hr'out. exact Hk. }
    assert (Hg1in : forall k, In k g1 -> In k (f :: g)) by (intros k Hk; eapply Permutation_in; [exact Hperm|exact Hk]).
    assert (Hlin : forall k, In k l -> In k (f :: g)) by (intros k Hk; apply Hg1in; rewrite Eg1; apply in_or_app; left; exact Hk).
    assert (Hg2in : forall k, In k g2 -> In k (f :: g)) by (intros k Hk; apply Hg1in; rewrite Eg1; apply in_or_app; right; exact Hk).
    assert (Hlrange : forall k, In k l -> (k < nC)%nat).
    { intros k Hk. unfold Model_DuplicateRow.nC. apply (inv_range _ _ _ k Hi). apply in_or_app. right.
      change (f :: g ++ r') with ((f :: g) ++ r'). apply in_or_app. left. apply Hlin. exact Hk. }
    assert (Hlsame : forall k k', In k l -> In k' l -> clq k = clq k').
    { intros k k' Hk Hk'. destruct (Hm k (Hlin k Hk)) as (M1 & M2 & M3 & M4).
      destruct (Hm k' (Hlin k' Hk')) as (M1' & M2' & M3' & M4').
      apply (eq_of_vals k k' q M3 M3').
      - intros p Hp. rewrite (M4 p Hp), (M4' p Hp). reflexivity.
      - rewrite <- M2. apply Z.leb_le. apply Hl. exact Hk.
      - rewrite <- M2'. apply Z.leb_le. apply Hl. exact Hk'. }
    assert (Hs2out : forall k, ~ In k l -> x_stat s2 k = x_stat s1 k).
    { intros k Hk. unfold s2. destruct l as [|a l0]; [reflexivity|]. rewrite mark_dups_stat.
      destruct (in_dec Nat.eq_dec k (a :: l0)); [contradiction|reflexivity]. }
    assert (Hs2in : forall k, In k l -> (k = lowest cls typ l /\ x_stat s2 k = x_stat s1 k) \/
                                       (k <> lowest cls typ l /\ x_stat s2 k = (-2)%Z)).
    { intros k Hk. unfold s2. destruct l as [|a l0]; [contradiction|]. rewrite mark_dups_stat.
      destruct (in_dec Nat.eq_dec k (a :: l0)); [|contradiction].
      destruct (Nat.eqb_spec k (lowest cls typ (a :: l0))); [left|right]; split; auto. }
    assert (Hlg2 : forall a b, In a l -> In b g2 -> a <> b).
    { assert (NoDup g1) by (eapply Permutation_NoDup; [apply Permutation_sym; exact Hperm|exact HnG]).
      rewrite Eg1 in H. apply nodup_app_ne. exact H. }
    assert (Hrest : forall k, In k (g2 ++ r') -> ~ In k l).
    { intros k Hk Hin. apply in_app_or in Hk as [Hk|Hk].
      - apply (Hlg2 k k Hin Hk). reflexivity.
      - apply (Hr'out k Hk). apply Hlin. exact Hin. }
    constructor.
    - (* permutation *)
      eapply Permutation_trans; [|apply (i_perm _ _ _ Hi)]. rewrite <- app_assoc. apply Permutation_app_head.
      rewrite app_assoc, <- Eg1. change (f :: g ++ r') with ((f :: g) ++ r'). apply Permutation_app_tail. exact Hperm.
    - intros k Hk. rewrite Hpos2, (Hs2out k (Hrest k Hk)). apply in_app_or in Hk as [Hk|Hk].
      + destruct (Hm k (Hg2in k Hk)) as (M1 & M2 & M3 & M4). rewrite M1. split; [exact M2|exact M3].
      + destruct (Hout k (Hr'out k Hk)) as [O1 O2]. rewrite O1, O2. apply (i_stat _ _ _ Hi).
        right. apply in_or_app. right. exact Hk.
    - (* order *)
      apply fop_app. conjs.
      + assert (Hf : ForallOrdPairs (fun a b => (x_stat s1 a <= x_stat s1 b)%Z) g2).
        { rewrite Eg1 in Hsrt. apply fop_app in Hsrt. apply Hsrt. }
        eapply fop_impl; [|exact Hf]. intros a b Ha Hb L. cbn beta in L.
        destruct (Hm a (Hg2in a Ha)) as (M1 & M2 & M3 & M4). destruct (Hm b (Hg2in b Hb)) as (M1' & M2' & M3' & M4').
        unfold before. rewrite !Hpos2, M1, M1', (Hs2out a), (Hs2out b)
          by (apply Hrest; apply in_or_app; left; assumption).
        conjs; [lia| |intros _; exact L|lia]. intros p Hp. rewrite (M4 p Hp), (M4' p Hp). reflexivity.
      + assert (Hf : ForallOrdPairs (before s) r').
        { change (f :: g ++ r') with ((f :: g) ++ r') in Ho. apply fop_app in Ho. apply Ho. }
        eapply fop_impl; [|exact Hf]. intros a b Ha Hb (B1 & B2 & B3 & B4).
        unfold before. rewrite !Hpos2, (Hs2out a), (Hs2out b) by (apply Hrest; apply in_or_app; right; assumption).
        destruct (Hout a (Hr'out a Ha)) as [-> ->]. destruct (Hout b (Hr'out b Hb)) as [-> ->].
        conjs; assumption.
      + intros a b Ha Hb. destruct (Hm a (Hg2in a Ha)) as (M1 & M2 & M3 & M4).
        destruct (Hstr a b (Hg2in a Ha) Hb) as (p & P1 & P2 & P3 & P4).
        unfold before. rewrite !Hpos2, M1. destruct (Hout b (Hr'out b Hb)) as [O1 O2]. rewrite O2, <- P3.
        rewrite (Hs2out a), (Hs2out b) by (apply Hrest; apply in_or_app; auto).
        conjs; [exact P1| | |intros _; exact P4].
        * intros p0 Hp0. rewrite (M4 p0) by lia.
          assert (Hbe : before s f b).
          { inversion Ho as [|a0 l0 F T]; subst. rewrite Forall_forall in F. apply F. apply in_or_app. right. exact Hb. }
          destruct Hbe as (_ & B2 & _). apply B2. lia.
        * intro Eq. subst p. rewrite O1, M2. assert (x_stat s b = val_at b (x_pos s b)).
          { apply (i_stat _ _ _ Hi). right. apply in_or_app. right. exact Hb. }
          rewrite H, <- Eq. rewrite <- Eq in P4. lia.
    - intros d t Hd Ht. apply in_app_or in Hd as [Hd|Hd].
      + apply (i_sep _ _ _ Hi d t Hd). apply in_app_or in Ht as [Ht|Ht].
        * apply Hg2in in Ht. change (f :: g ++ r') with ((f :: g) ++ r'). apply in_or_app. left. exact Ht.
        * right. apply in_or_app. right. exact Ht.
      + apply in_app_or in Ht as [Ht|Ht].
        * destruct Hcase as [[-> _]|(_ & -> & _)]; contradiction.
        * apply HdiffGR; [apply Hlin; exact Hd|exact Ht].
    - assert (Hsepl : forall d k, In d done -> In k l -> clq d <> clq k).
      { intros d k Hd Hk. apply (i_sep _ _ _ Hi d k Hd). change (f :: g ++ r') with ((f :: g) ++ r').
        apply in_or_app. left. apply Hlin. exact Hk. }
      intros d d' Hd Hd' Ne E. apply in_app_or in Hd as [Hd|Hd]; apply in_app_or in Hd' as [Hd'|Hd'].
      + rewrite (Hs2out d), (Hs2out d') by (intro K; eapply Hdout; [|apply Hlin; exact K]; assumption).
        destruct (Hout d (Hdout d Hd)) as [-> _]. destruct (Hout d' (Hdout d' Hd')) as [-> _].
        apply (i_one _ _ _ Hi); assumption.
      + exfalso. exact (Hsepl d d' Hd Hd' E).
      + exfalso. apply (Hsepl d' d Hd' Hd). symmetry. exact E.
      + destruct (Hs2in d Hd) as [[E1 _]|[_ E1]]; [|left; exact E1].
        destruct (Hs2in d' Hd') as [[E2 _]|[_ E2]]; [congruence|right; exact E2].
    - intros d Hd E. apply in_app_or in Hd as [Hd|Hd].
      + rewrite (Hs2out d) in E by (intro K; eapply Hdout; [|apply Hlin; exact K]; assumption).
        destruct (Hout d (Hdout d Hd)) as [E1 _]. rewrite E1 in E.
        destruct (i_why _ _ _ Hi d Hd E) as (d' & D1 & D2 & D3 & D4). exists d'.
        conjs; [apply in_or_app; left; exact D1|exact D2| |exact D4].
        rewrite (Hs2out d') by (intro K; eapply Hdout; [|apply Hlin; exact K]; assumption).
        destruct (Hout d' (Hdout d' D1)) as [-> _]. exact D3.
      + assert (Hlow : In (lowest cls typ l) l) by (apply lowest_in; [intros ->; contradiction|exact Hlrange]).
        exists (lowest cls typ l). conjs; [apply in_or_app; right; exact Hlow|apply Hlsame; assumption| |].
        * destruct (Hs2in _ Hlow) as [[_ E1]|[K _]]; [|congruence]. rewrite E1.
          destruct (Hm _ (Hlin _ Hlow)) as (_ & -> & _). apply done_nonneg_val.
        * intros Hef Ed. apply (lowest_eq l Hlrange) with (k := d); [|exact Hd|exact Ed].
          intros k1 k2 H1 H2 L E2. apply (Hef k1 k2 L); [apply Hlrange in H2; exact H2|apply Hlsame; assumption|exact E2].
  Qed.

  (** ** The loop *)
  Fixpoint weight (s : lex) (l : list nat) : nat :=
    match l with [] => O | k :: l' => (length (clq k) + 2 - x_pos s k) + weight s l' end.
  Lemma weight_app s l l' : weight s (l ++ l') = (weight s l + weight s l')%nat.
  Proof. induction l; simpl; lia. Qed.
  Lemma weight_perm s l l' : Permutation l l' -> weight s l = weight s l'.
  Proof. induction 1; simpl; lia. Qed.
  Lemma weight_ext s s' l : (forall k, In k l -> x_pos s' k = x_pos s k) -> weight s' l = weight s l.
  Proof.
    induction l as [|a l IH]; simpl; intro H; [reflexivity|]. rewrite (H a) by (left; reflexivity).
    rewrite IH by (intros; apply H; right; assumption). reflexivity.
  Qed.
  Lemma weight_less s s' l : (forall k, In k l -> x_pos s' k = Datatypes.S (x_pos s k)) -> (weight s' l <= weight s l)%nat.
  Proof.
    induction l as [|a l IH]; simpl; intro H; [lia|]. rewrite (H a) by (left; reflexivity).
    specialize (IH (fun k Hk => H k (or_intror Hk))). lia.
  Qed.

  Lemma lex_loop_ok fuel : forall s done rest, inv s done rest -> (weight s rest < fuel)%nat ->
    exists s' which, lex_loop fuel s done rest = Done (s', which) /\ inv s' which [].
  Proof.
    induction fuel as [|fuel IH]; intros s done rest Hi Hw; [lia|].
    destruct rest as [|f r]; [exists s, done; split; [reflexivity|exact Hi]|].
    cbn [Model_DuplicateRow.lex_loop].
    destruct (span (fun k => negb ((x_stat s f <? x_stat s k)%Z || (x_pos s k <? x_pos s f)%nat)) r) as [g r'] eqn:Eg.
    destruct (span_spec _ _ _ _ Eg) as (Er & Hg & Hr).
    assert (Hp : forall k, In k (f :: r) -> (x_pos s k <= length (clq k))%nat) by (intros k Hk; apply (i_stat _ _ _ Hi k Hk)).
    destruct g as [|b g].
    - simpl in Er. subst r'. apply IH.
      + apply step_single; [exact Hi|]. destruct r as [|b r]; [exact I|]. apply Bool.negb_false_iff in Hr. exact Hr.
      + cbn [weight] in Hw. pose proof (Hp f (or_introl eq_refl)). lia.
    - destruct (span (fun k => (Z.of_nat N <=? x_stat (fold_left (advance N cls) (f :: b :: g) s) k)%Z)
                     (sort_by sort2 (x_stat (fold_left (advance N cls) (f :: b :: g) s)) (f :: b :: g))) as [l g2] eqn:El.
      subst r. change (f :: (b :: g) ++ r') with (f :: (b :: g) ++ r') in Hi.
      destruct (step_group s done f (b :: g) r' Hi) with (l := l) (g2 := g2) as (Hi2 & Hc & Hpr).
      { intros k Hk. apply Bool.negb_true_iff. apply (Hg k Hk). }
      { destruct r' as [|c r']; [exact I|]. apply Bool.negb_false_iff in Hr. exact Hr. }
      { exact El. }
      apply IH; [exact Hi2|]. rewrite weight_app. rewrite (weight_ext s _ r' Hpr).
      cbn [weight] in Hw. rewrite weight_app in Hw. pose proof (Hp f (or_introl eq_refl)) as Hpf.
      destruct Hc as [[_ ->]|(_ & Hperm & Hinc)]; [simpl; lia|].
      rewrite (weight_perm _ _ _ Hperm). cbn [weight]. rewrite (Hinc f (or_introl eq_refl)).
      match goal with |- context [weight ?s' (b :: g)] => idtac | _ => idtac end.
      assert (W : (weight match l with [] => fold_left (advance N cls) (f :: b :: g) s
                          | _ :: _ => mark_dups (lowest cls typ l) l (fold_left (advance N cls) (f :: b :: g) s) end (b :: g)
                   <= weight s (b :: g))%nat).
      { apply weight_less. intros k Hk. apply Hinc. right. exact Hk. }
      cbn [weight] in W. cbn [weight] in Hw. lia.
  Qed.

  Lemma inv_init : inv (lex_init N cls) [] (which0 sort2 N cls).
  Proof.
    constructor.
    - simpl. apply sort_by_perm.
    - intros k Hk. simpl. split; [reflexivity|lia].
    - unfold which0. eapply fop_impl; [|apply sort_by_sorted]. intros a b _ _ L. cbn beta in L. unfold before. cbn in *.
      conjs; [lia|intros p Hp; lia|intros _; exact L|lia].
    - intros ? ? [].
    - intros ? ? [].
    - intros ? [].
  Qed.

  Lemma weight_init l : weight (lex_init N cls) l = (2 * length l + length (concat (map clq l)))%nat.
  Proof. induction l as [|k l IH]; simpl; [reflexivity|]. rewrite IH, app_length. lia. Qed.

  Lemma map_clq_seq : map clq (seq 0 (length cls)) = cls.
  Proof.
    apply nth_ext with (d := []) (d' := []); [rewrite map_length, seq_length; reflexivity|].
    intros n Hn. rewrite map_length, seq_length in Hn. rewrite nth_indep with (d' := clq O) by (rewrite map_length, seq_length; exact Hn).
    rewrite map_nth, seq_nth by exact Hn. reflexivity.
  Qed.

  Lemma sorted_done : exists s which, lex_loop (lex_fuel cls) (lex_init N cls) [] (which0 sort2 N cls) = Done (s, which) /\
    inv s which [].
  Proof.
    apply lex_loop_ok; [exact inv_init|]. rewrite (weight_perm _ _ (seq 0 nC)) by apply sort_by_perm.
    rewrite weight_init. unfold Model_DuplicateRow.nC. rewrite map_clq_seq, seq_length. unfold lex_fuel. lia.
  Qed.

  (** ** Places in the array of entries *)
  Notation flat := (flat cls).
  Notation start := (start cls).

  Lemma start_S i : (i < length cls)%nat -> start (Datatypes.S i) = (start i + length (clq i))%nat.
  Proof.
    unfold Model_DuplicateRow.start, Model_DuplicateRow.clq. clear. revert i.
    induction cls as [|c l IH]; intros i Hi; [simpl in Hi; lia|]. destruct i as [|i].
    - simpl. rewrite !app_nil_r. reflexivity.
    - simpl in Hi. change (firstn (Datatypes.S (Datatypes.S i)) (c :: l)) with (c :: firstn (Datatypes.S i) l).
      change (firstn (Datatypes.S i) (c :: l)) with (c :: firstn i l). cbn [concat nth]. rewrite !app_length, IH by lia. lia.
  Qed.

  Lemma flat_nth i t : (i < length cls)%nat -> (t < length (clq i))%nat ->
    nth_error flat (start i + t) = Some (nth t (clq i) N).
  Proof.
    unfold Model_DuplicateRow.start, Model_DuplicateRow.clq, Model_DuplicateRow.flat. clear. revert i.
    induction cls as [|c l IH]; intros i Hi Ht; [simpl in Hi; lia|]. destruct i as [|i].
    - simpl in *. rewrite nth_error_app1 by exact Ht. apply nth_error_nth'. exact Ht.
    - simpl in Hi, Ht. cbn [concat nth firstn]. rewrite app_length, nth_error_app2 by lia.
      replace (length c + length (concat (firstn i l)) + t - length c)%nat with (length (concat (firstn i l)) + t)%nat by lia.
      apply IH; [lia|exact Ht].
  Qed.

  Lemma start_len i : (i < length cls)%nat -> (start i + length (clq i) <= length flat)%nat.
  Proof.
    intro Hi. pose proof (Hlen i Hi) as L.
    assert (nth_error flat (start i + (length (clq i) - 1)) <> None) by (rewrite flat_nth by lia; discriminate).
    apply nth_error_Some in H. lia.
  Qed.

  Lemma sorted_nth (l : list nat) : StronglySorted lt l -> forall a b, (a < b)%nat -> (b < length l)%nat ->
    (nth a l N < nth b l N)%nat.
  Proof.
    induction 1 as [|c l S1 IH F]; intros a b L1 L2; [simpl in L2; lia|].
    destruct b as [|b]; [lia|]. simpl in L2. destruct a as [|a].
    - simpl. rewrite Forall_forall in F. apply F. apply nth_In. lia.
    - simpl. apply IH; lia.
  Qed.

  Lemma nth_val_lt i t : (t < length (clq i))%nat -> (nth t (clq i) N < N)%nat.
  Proof. intro L. apply (Hbelow i). apply nth_In. exact L. Qed.
  Lemma nth_val_le i t : (nth t (clq i) N <= N)%nat.
  Proof.
    destruct (Nat.lt_ge_cases t (length (clq i))) as [L|L]; [apply nth_val_lt in L; lia|rewrite nth_overflow by exact L; lia].
  Qed.

  Lemma scan_to_ok i kc : (i < length cls)%nat -> (kc <= N)%nat -> forall fuel t passed,
    (t <= length (clq i))%nat -> (length (clq i) - t < fuel)%nat ->
    exists t' pd, scan_to N cls fuel (start (Datatypes.S i)) kc (start i + t) (nth t (clq i) N) passed =
                  Done (start i + t', nth t' (clq i) N, passed ++ pd)%nat /\
      (t <= t')%nat /\ (t' <= length (clq i))%nat /\ (kc <= nth t' (clq i) N)%nat /\
      (forall p, In p pd -> exists v, (t <= v)%nat /\ (v < t')%nat /\ p = nth v (clq i) N /\ (p < kc)%nat).
  Proof.
    intros Hi Hkc. induction fuel as [|fuel IH]; intros t passed Ht Hf; [lia|].
    cbn [scan_to]. destruct (Nat.ltb_spec (nth t (clq i) N) kc) as [L|L].
    - assert (Htl : (t < length (clq i))%nat).
      { destruct (Nat.lt_ge_cases t (length (clq i))) as [K|K]; [exact K|]. rewrite nth_overflow in L by exact K. lia. }
      rewrite start_S by exact Hi.
      assert (E : exists t' pd, scan_to N cls fuel (start i + length (clq i)) kc (start i + Datatypes.S t) (nth (Datatypes.S t) (clq i) N) (passed ++ [nth t (clq i) N]) =
                  Done (start i + t', nth t' (clq i) N, (passed ++ [nth t (clq i) N]) ++ pd)%nat /\
          (Datatypes.S t <= t')%nat /\ (t' <= length (clq i))%nat /\ (kc <= nth t' (clq i) N)%nat /\
          (forall p, In p pd -> exists v, (Datatypes.S t <= v)%nat /\ (v < t')%nat /\ p = nth v (clq i) N /\ (p < kc)%nat)).
      { rewrite <- start_S by exact Hi. apply IH; lia. }
      destruct E as (t' & pd & E & T1 & T2 & T3 & T4). exists t', (nth t (clq i) N :: pd).
      conjs; [|lia|exact T2|exact T3|].
      + replace (Datatypes.S (start i + t)) with (start i + Datatypes.S t)%nat by lia.
        rewrite <- app_assoc in E. simpl in E. rewrite <- E.
        destruct (Nat.ltb_spec (start i + Datatypes.S t) (start i + length (clq i))) as [L2|L2].
        * rewrite flat_nth by lia. reflexivity.
        * rewrite (nth_overflow (clq i) N (n := Datatypes.S t)) by lia. reflexivity.
      + intros p [<-|Hp]; [exists t; conjs; [lia|lia|reflexivity|exact L]|].
        destruct (T4 p Hp) as (v & V1 & V2 & V3). exists v. conjs; [lia|exact V2|apply V3|apply V3].
    - exists t, []. conjs; [rewrite app_nil_r; reflexivity|lia|exact Ht|exact L|intros ? []].
  Qed.

  (** No clique ends in a column that another clique contains before its own
      end. *)
  Definition no_overrun : Prop :=
    forall i k, (i < length cls)%nat -> (k < length cls)%nat ->
      In (last (clq i) N) (clq k) -> last (clq i) N = last (clq k) N.

  Lemma last_nth (l : list nat) d : l <> [] -> last l d = nth (length l - 1) l d.
  Proof.
    induction l as [|a l IH]; intro H; [congruence|]. destruct l as [|b l]; [reflexivity|].
    change (last (a :: b :: l) d) with (last (b :: l) d). rewrite IH by discriminate. simpl.
    rewrite Nat.sub_0_r. reflexivity.
  Qed.
  Lemma last_in (l : list nat) d : l <> [] -> In (last l d) l.
  Proof. intro H. rewrite last_nth by exact H. apply nth_In. destruct l; [congruence|simpl; lia]. Qed.

  Lemma sorted_app_lt (l l' : list nat) : StronglySorted lt (l ++ l') -> forall a b, In a l -> In b l' -> (a < b)%nat.
  Proof.
    induction l as [|c l IH]; simpl; intros H a b Ha Hb; [contradiction|].
    apply StronglySorted_inv in H as [H F]. destruct Ha as [<-|Ha].
    - rewrite Forall_forall in F. apply F. apply in_or_app. right. exact Hb.
    - apply IH; assumption.
  Qed.

  Lemma subset_ok i k : no_overrun -> (i < length cls)%nat -> (k < length cls)%nat ->
    forall ks pre t, clq k = pre ++ ks -> (ks = [] \/ (t < length (clq i))%nat) -> (t <= length (clq i))%nat ->
    (forall y v, In y pre -> (t <= v)%nat -> (v < length (clq i))%nat -> (y < nth v (clq i) N)%nat) ->
    exists b, is_subset N cls (scan_fuel cls) (start (Datatypes.S i)) ks (start i + t) = Done b /\
      (b = true -> incl ks (clq i) /\
         forall acc, exists fx, to_fix N cls (scan_fuel cls) (start (Datatypes.S i)) ks (start i + t) acc = Done (acc ++ fx) /\
           forall c, In c fx -> In c (clq i) /\ ~ In c (clq k)).
  Proof.
    intros Hno Hi Hk. induction ks as [|kc ks IH]; intros pre t Ek Ht Htl Hpre.
    - exists true. split; [reflexivity|]. intros _. split; [intros ? []|]. intro acc. exists []. cbn [to_fix].
      rewrite app_nil_r. split; [reflexivity|intros ? []].
    - destruct Ht as [Ht|Ht]; [discriminate|]. cbn [is_subset to_fix]. rewrite flat_nth by assumption.
      assert (Hkc : (kc < N)%nat) by (apply (Hbelow k); rewrite Ek; apply in_or_app; right; left; reflexivity).
      destruct (scan_to_ok i kc Hi) with (fuel := scan_fuel cls) (t := t) (passed := @nil nat) as (t' & pd & E & T1 & T2 & T3 & T4).
      { lia. } { lia. } { pose proof (start_len i Hi). unfold scan_fuel. lia. }
      rewrite E. cbn [bind app]. destruct (Nat.eqb_spec (nth t' (clq i) N) kc) as [Ec|Ec].
      2: { exists false. split; [reflexivity|discriminate]. }
      assert (Ht' : (t' < length (clq i))%nat).
      { destruct (Nat.lt_ge_cases t' (length (clq i))) as [K|K]; [exact K|]. rewrite nth_overflow in Ec by exact K. lia. }
      pose proof (Hsorted k Hk) as Sk. rewrite Ek in Sk.
      assert (Hafter : forall y, In y ks -> (kc < y)%nat).
      { intros y Hy. rewrite (app_assoc pre [kc] ks : pre ++ kc :: ks = (pre ++ [kc]) ++ ks) in Sk.
        apply (sorted_app_lt _ _ Sk); [apply in_or_app; right; left; reflexivity|exact Hy]. }
      destruct (IH (pre ++ [kc]) (Datatypes.S t')) as (b & E2 & Hb).
      { rewrite <- app_assoc. exact Ek. }
      { destruct ks as [|k2 ks]; [left; reflexivity|right].
        destruct (Nat.lt_ge_cases (Datatypes.S t') (length (clq i))) as [K|K]; [exact K|exfalso].
        assert (El : last (clq i) N = kc).
        { rewrite last_nth by (intro X; rewrite X in Ht'; simpl in Ht'; lia). rewrite <- Ec. f_equal. lia. }
        assert (Hin : In (last (clq i) N) (clq k)) by (rewrite El, Ek; apply in_or_app; right; left; reflexivity).
        apply (Hno i k Hi Hk) in Hin. rewrite El in Hin.
        assert (last (clq k) N = last (k2 :: ks) N).
        { rewrite Ek. clear. induction pre as [|a pre IHp]; [reflexivity|]. simpl. rewrite IHp.
          destruct pre; reflexivity. }
        assert (In (last (k2 :: ks) N) (k2 :: ks)) by (apply last_in; discriminate).
        apply Hafter in H0. rewrite <- H, <- Hin in H0. lia. }
      { lia. }
      { intros y v Hy V1 V2. apply in_app_or in Hy as [Hy|[<-|[]]]; [apply Hpre; [exact Hy|lia|exact V2]|].
        rewrite <- Ec. apply sorted_nth; [apply Hsorted; exact Hi|lia|exact V2]. }
      replace (Datatypes.S (start i + t')) with (start i + Datatypes.S t')%nat by lia.
      exists b. split; [exact E2|]. intros ->. destruct (Hb eq_refl) as (H1 & H2). split.
      + intros y [<-|Hy]; [rewrite <- Ec; apply nth_In; exact Ht'|apply H1; exact Hy].
      + intro acc. destruct (H2 (acc ++ pd)) as (fx & F1 & F2). exists (pd ++ fx). rewrite app_assoc. split; [exact F1|].
        intros c Hc. apply in_app_or in Hc as [Hc|Hc]; [|apply F2; exact Hc].
        destruct (T4 c Hc) as (v & V1 & V2 & -> & V4). split; [apply nth_In; lia|].
        rewrite Ek. intro Hin. apply in_app_or in Hin as [Hin|[Hin|Hin]].
        * specialize (Hpre _ v Hin V1). lia.
        * lia.
        * apply Hafter in Hin. lia.
  Qed.

  Lemma skip_ok i kv : (i < length cls)%nat -> (kv <= Z.of_nat N)%Z -> forall fuel t,
    (t <= length (clq i))%nat -> (length (clq i) - t < fuel)%nat ->
    exists t', skip N cls fuel i kv (Z.of_nat (nth t (clq i) N)) (start i + t) =
               Done (Z.of_nat (nth t' (clq i) N), start i + t')%nat /\ (t' <= length (clq i))%nat.
  Proof.
    intros Hi Hkv. induction fuel as [|fuel IH]; intros t Ht Hf; [lia|].
    cbn [skip]. destruct (Z.ltb_spec (Z.of_nat (nth t (clq i) N)) kv) as [L|L].
    - assert (Htl : (t < length (clq i))%nat).
      { destruct (Nat.lt_ge_cases t (length (clq i))) as [K|K]; [exact K|]. rewrite nth_overflow in L by exact K. lia. }
      rewrite start_S by exact Hi. destruct (IH (Datatypes.S t)) as (t' & E & T); [lia|lia|].
      exists t'. split; [|exact T]. rewrite <- E.
      replace (Datatypes.S (start i + t)) with (start i + Datatypes.S t)%nat by lia.
      destruct (Nat.eqb_spec (start i + Datatypes.S t) (start i + length (clq i))) as [L2|L2].
      + rewrite (nth_overflow (clq i) N (n := Datatypes.S t)) by lia. reflexivity.
      + rewrite flat_nth by lia. reflexivity.
    - exists t. split; [reflexivity|exact Ht].
  Qed.

  (** ** The search for subsets *)
  Section Search.
    Variable which : list nat.
    Hypothesis Hwhich : Permutation which (seq 0 nC).
    Hypothesis Hno : no_overrun.
    Notation wh := (wh which).

    Lemma which_len : length which = length cls.
    Proof. rewrite (Permutation_length Hwhich), seq_length. reflexivity. Qed.
    Lemma wh_range j : (j < length cls)%nat -> (wh j < length cls)%nat.
    Proof.
      intro Hj. assert (In (wh j) which) by (apply nth_In; rewrite which_len; exact Hj).
      eapply Permutation_in in H; [|exact Hwhich]. apply in_seq in H. unfold Model_DuplicateRow.nC in H. lia.
    Qed.
    Lemma wh_inj j j' : (j < length cls)%nat -> (j' < length cls)%nat -> wh j = wh j' -> j = j'.
    Proof.
      intros H H' E. assert (NoDup which) by (eapply Permutation_NoDup; [apply Permutation_sym; exact Hwhich|apply seq_NoDup]).
      unfold Model_DuplicateRow.wh in E. eapply (proj1 (NoDup_nth which 0%nat)); [exact H0| | |exact E]; rewrite which_len; assumption.
    Qed.

    Definition placed (u : sub) (i : nat) : Prop :=
      u_stat u i = (-2)%Z \/ u_stat u i = Z.of_nat N \/
      exists t, (t < length (clq i))%nat /\ u_pos u i = (start i + t)%nat /\ u_stat u i = Z.of_nat (nth t (clq i) N).

    Definition fix_why (u : sub) : Prop :=
      forall c, u_fixed u c = true -> exists i k, (i < length cls)%nat /\ (k < length cls)%nat /\ isE k = true /\
        incl (clq k) (clq i) /\ In c (clq i) /\ ~ In c (clq k).

    (** [u'] is reached from [u] while clique [wh j] is treated. *)
    Record next (j : nat) (u u' : sub) : Prop := {
      n_placed : forall i, (i < length cls)%nat -> placed u' i;
      n_fix : fix_why u';
      n_down : forall i, u_stat u i = (-2)%Z -> u_stat u' i = (-2)%Z;
      n_up : forall i, i <> wh j -> u_stat u' i = (-2)%Z -> u_stat u i = (-2)%Z;
      n_why : u_stat u' (wh j) = (-2)%Z ->
              isE (wh j) = false /\ exists ii, (ii < j)%nat /\ u_stat u' (wh ii) <> (-2)%Z /\ incl (clq (wh j)) (clq (wh ii)) }.

    Lemma fold_fixed fx f c : fold_left (fun f c => updf f c true) fx f c = true -> f c = true \/ In c fx.
    Proof.
      revert f. induction fx as [|a fx IH]; simpl; intros f H; [left; exact H|].
      apply IH in H as [H|H]; [|right; right; exact H].
      unfold updf in H. destruct (Nat.eqb_spec c a); [right; left; symmetry; exact e|left; exact H].
    Qed.

    Lemma look_ok j : (j < length cls)%nat -> forall iis u kv,
      (forall ii, In ii iis -> (ii < j)%nat) -> (kv <= Z.of_nat N)%Z ->
      (forall i, (i < length cls)%nat -> placed u i) -> fix_why u -> u_stat u (wh j) <> (-2)%Z ->
      exists u', look N cls typ which iis (wh j) kv u = Done u' /\ next j u u'.
    Proof.
      intros Hj. induction iis as [|ii iis IH]; intros u kv Hii Hkv Hpl Hfx Hk.
      - exists u. split; [reflexivity|]. constructor; [exact Hpl|exact Hfx|auto|auto|contradiction].
      - assert (Hii' : forall x, In x iis -> (x < j)%nat) by (intros; apply Hii; right; assumption).
        assert (Hlt : (ii < j)%nat) by (apply Hii; left; reflexivity).
        assert (Hir : (wh ii < length cls)%nat) by (apply wh_range; lia).
        assert (Hne : wh ii <> wh j) by (intro E; apply wh_inj in E; lia).
        cbn [look]. set (i := wh ii) in *.
        destruct ((u_stat u i =? -2)%Z || (u_stat u i =? Z.of_nat N)%Z) eqn:E0.
        { set (u1 := if Nat.eqb ii (u_start u) then _ else u).
          assert (S1 : u_stat u1 = u_stat u) by (unfold u1; destruct (Nat.eqb ii (u_start u)); reflexivity).
          assert (S2 : u_pos u1 = u_pos u) by (unfold u1; destruct (Nat.eqb ii (u_start u)); reflexivity).
          assert (S3 : u_fixed u1 = u_fixed u) by (unfold u1; destruct (Nat.eqb ii (u_start u)); reflexivity).
          destruct (IH u1 kv Hii' Hkv) as (u' & E & Hn).
          - intros x Hx. unfold placed. rewrite S1, S2. apply Hpl. exact Hx.
          - intros c Hc. rewrite S3 in Hc. apply Hfx. exact Hc.
          - rewrite S1. exact Hk.
          - exists u'. split; [exact E|]. destruct Hn as [N1 N2 N3 N4 N5]. constructor; try assumption.
            + intros x Hx. apply N3. rewrite S1. exact Hx.
            + intros x Hx Hy. rewrite <- S1. apply N4; assumption. }
        apply Bool.orb_false_iff in E0 as [E1 E2]. apply Z.eqb_neq in E1. apply Z.eqb_neq in E2.
        destruct (Hpl i Hir) as [P|[P|(t & P1 & P2 & P3)]]; [congruence|congruence|].
        pose proof (Hlen i Hir) as Hli.
        rewrite start_S by exact Hir.
        replace (start i + length (clq i) - 1)%nat with (start i + (length (clq i) - 1))%nat by lia.
        rewrite flat_nth by (try exact Hir; lia).
        destruct (Z.of_nat (nth (length (clq i) - 1) (clq i) N) <? kv)%Z.
        { set (u1 := set_stat u (updf (u_stat u) i (Z.of_nat N))).
          destruct (IH u1 kv Hii' Hkv) as (u' & E & Hn).
          - intros x Hx. destruct (Nat.eq_dec x i) as [->|Nx].
            + right. left. cbn. apply updf_eq.
            + unfold placed. cbn. rewrite updf_ne by exact Nx. apply Hpl. exact Hx.
          - exact Hfx.
          - cbn. rewrite updf_ne by congruence. exact Hk.
          - exists u'. split; [exact E|]. destruct Hn as [N1 N2 N3 N4 N5]. constructor; try assumption.
            + intros x Hx. apply N3. cbn. rewrite updf_ne; [exact Hx|intros ->; contradiction].
            + intros x Hx Hy. specialize (N4 x Hx Hy). cbn in N4. unfold updf in N4.
              destruct (Nat.eqb x i); [lia|exact N4]. }
        rewrite P2, P3. destruct (skip_ok i kv Hir Hkv) with (fuel := scan_fuel cls) (t := t) as (t' & Es & Ht').
        { lia. } { pose proof (start_len i Hir). unfold scan_fuel. lia. }
        rewrite Es. cbn [bind]. set (u1 := Sub _ _ _ _ _ _).
        assert (Hst1 : forall x, x <> i -> u_stat u1 x = u_stat u x) by (intros x Hx; cbn; apply updf_ne; exact Hx).
        assert (Hsti : u_stat u1 i = Z.of_nat (nth t' (clq i) N)) by (cbn; apply updf_eq).
        assert (Hpl1 : forall x, (x < length cls)%nat -> placed u1 x).
        { intros x Hx. destruct (Nat.eq_dec x i) as [->|Nx].
          - right. rewrite Hsti. destruct (Nat.lt_ge_cases t' (length (clq i))) as [K|K].
            + right. exists t'. conjs; [exact K|cbn; apply updf_eq|reflexivity].
            + left. rewrite nth_overflow by exact K. reflexivity.
          - unfold placed. rewrite Hst1 by exact Nx. cbn [u_pos u1]. rewrite updf_ne by exact Nx. apply Hpl. exact Hx. }
        assert (Hk1 : u_stat u1 (wh j) <> (-2)%Z) by (rewrite Hst1 by congruence; exact Hk).
        assert (Hgo : exists u', look N cls typ which iis (wh j) kv u1 = Done u' /\ next j u u').
        { destruct (IH u1 kv Hii' Hkv Hpl1 Hfx Hk1) as (u' & E & Hn). exists u'. split; [exact E|].
          destruct Hn as [N1 N2 N3 N4 N5]. constructor; try assumption.
          - intros x Hx. apply N3. rewrite Hst1; [exact Hx|intros ->; contradiction].
          - intros x Hx Hy. specialize (N4 x Hx Hy). destruct (Nat.eq_dec x i) as [->|Nx]; [lia|].
            rewrite <- Hst1 by exact Nx. exact N4. }
        destruct (kv <? Z.of_nat (nth t' (clq i) N))%Z; [exact Hgo|].
        destruct (length (clq (wh j)) <? start i + length (clq i) - (start i + t'))%nat; [|exact Hgo].
        pose proof (wh_range j Hj) as Hjr.
        destruct (subset_ok i (wh j) Hno Hir Hjr (clq (wh j)) [] 0 eq_refl) as (b & Eb & Hb).
        { right. lia. } { lia. } { intros ? ? []. }
        rewrite Nat.add_0_r in Eb. rewrite <- start_S by exact Hir. rewrite Eb. cbn [bind].
        destruct (b && (u_out u1 <=? nOutMax)%Z) eqn:Ebb; [|exact Hgo].
        apply Bool.andb_true_iff in Ebb as [-> _]. destruct (Hb eq_refl) as (B1 & B2).
        unfold found. destruct (isE (wh j)) eqn:Ee.
        + destruct (B2 []) as (fx & F1 & F2). rewrite Nat.add_0_r in F1. rewrite F1. cbn [bind app].
          eexists. split; [reflexivity|]. constructor.
          * intros x Hx. apply (Hpl1 x Hx).
          * intros c Hc. cbn in Hc. apply fold_fixed in Hc as [Hc|Hc]; [apply Hfx; exact Hc|].
            exists i, (wh j). conjs; [exact Hir|exact Hjr|exact Ee|exact B1|apply F2; exact Hc|apply F2; exact Hc].
          * intros x Hx. change (u_stat u1 x = (-2)%Z). rewrite Hst1; [exact Hx|intros ->; contradiction].
          * intros x Hx Hy. change (u_stat u1 x = (-2)%Z) in Hy.
            destruct (Nat.eq_dec x i) as [->|Nx]; [lia|]. rewrite <- Hst1 by exact Nx. exact Hy.
          * intro Hy. change (u_stat u1 (wh j) = (-2)%Z) in Hy. contradiction.
        + eexists. split; [reflexivity|]. constructor.
          * intros x Hx. destruct (Nat.eq_dec x (wh j)) as [->|Nx].
            -- left. cbn. apply updf_eq.
            -- specialize (Hpl1 x Hx). unfold placed in *. cbn [u_stat u_pos]. rewrite updf_ne by exact Nx. exact Hpl1.
          * exact Hfx.
          * intros x Hx. cbn [u_stat]. destruct (Nat.eq_dec x (wh j)) as [->|Nx]; [contradiction|].
            rewrite updf_ne by exact Nx. change (u_stat u1 x = (-2)%Z). rewrite Hst1; [exact Hx|intros ->; contradiction].
          * intros x Hx Hy. cbn [u_stat] in Hy. rewrite updf_ne in Hy by exact Hx. change (u_stat u1 x = (-2)%Z) in Hy.
            destruct (Nat.eq_dec x i) as [->|Nx]; [lia|]. rewrite <- Hst1 by exact Nx. exact Hy.
          * intros _. split; [exact Ee|]. exists ii. conjs; [exact Hlt| |exact B1].
            cbn [u_stat]. rewrite updf_ne by exact Hne. change (u_stat u1 i <> (-2)%Z). rewrite Hsti. lia.
    Qed.

    (** State after the cliques before place [j]: every clique dropped in this
        part is a subset of one that stays. *)
    Record sinv (u0 : sub) (j : nat) (u : sub) : Prop := {
      v_placed : forall i, (i < length cls)%nat -> placed u i;
      v_fix : fix_why u;
      v_down : forall i, u_stat u0 i = (-2)%Z -> u_stat u i = (-2)%Z;
      v_why : forall j', (j' < length cls)%nat -> u_stat u (wh j') = (-2)%Z ->
        u_stat u0 (wh j') = (-2)%Z \/
        ((j' < j)%nat /\ isE (wh j') = false /\
         exists ii, (ii < j')%nat /\ u_stat u (wh ii) <> (-2)%Z /\ incl (clq (wh j')) (clq (wh ii))) }.

    Lemma sub_loop_ok u0 : forall n j u, sinv u0 j u -> (j + n = length cls)%nat ->
      exists u', sub_loop N cls typ which (seq j n) u = Done u' /\ sinv u0 (length cls) u'.
    Proof.
      induction n as [|n IH]; intros j u Hi Hn.
      - exists u. replace j with (length cls) in Hi by lia. split; [reflexivity|exact Hi].
      - cbn [seq sub_loop]. assert (Hj : (j < length cls)%nat) by lia.
        destruct (Z.eqb_spec (u_stat u (wh j)) (-2)) as [E|E].
        + apply IH; [|lia]. destruct Hi as [V1 V2 V3 V4]. constructor.
          * exact V1.
          * exact V2.
          * exact V3.
          * intros j' Hj' Hs. destruct (V4 j' Hj' Hs) as [W|(W1 & W2)]; [left; exact W|right; split; [lia|exact W2]].
        + pose proof (v_placed _ _ _ Hi (wh j) (wh_range j Hj)) as Hp.
          assert (Hkv : (u_stat u (wh j) <= Z.of_nat N)%Z).
          { destruct Hp as [P|[P|(t & P1 & P2 & P3)]]; [lia|lia|]. rewrite P3. pose proof (nth_val_lt (wh j) t P1). lia. }
          destruct (look_ok j Hj (seq (u_start u) (j - u_start u)) u (u_stat u (wh j))) as (u' & E1 & Hx).
          { intros ii Hii. apply in_seq in Hii. lia. }
          { exact Hkv. } { exact (v_placed _ _ _ Hi). } { exact (v_fix _ _ _ Hi). } { exact E. }
          rewrite E1. cbn [bind]. apply IH; [|lia].
          destruct Hi as [V1 V2 V3 V4]. destruct Hx as [N1 N2 N3 N4 N5]. constructor.
          * exact N1.
          * exact N2.
          * intros i Hs. apply N3, V3. exact Hs.
          * intros j' Hj' Hs. destruct (Nat.eq_dec j' j) as [->|Nj].
            -- right. destruct (N5 Hs) as (M1 & ii & M2 & M3 & M4). conjs; [lia|exact M1|].
               exists ii. conjs; assumption.
            -- assert (Hs' : u_stat u (wh j') = (-2)%Z).
               { apply N4; [|exact Hs]. intro K. apply wh_inj in K; [contradiction|exact Hj'|exact Hj]. }
               destruct (V4 j' Hj' Hs') as [W|(W1 & W2 & ii & W3 & W4 & W5)]; [left; exact W|right].
               conjs; [lia|exact W2|]. exists ii. conjs; [exact W3| |exact W5].
               intro K. apply W4. apply N4; [|exact K]. intro K2. apply wh_inj in K2; lia.
    Qed.
  End Search.

  (** ** The result *)
  Record result (dups : nat -> Z) (fixed : nat -> bool) : Prop := {
    r_marks : forall k, dups k = (-1)%Z \/ dups k = (-2)%Z;
    r_fixed : forall c, fixed c = true -> exists i k, (i < length cls)%nat /\ (k < length cls)%nat /\ isE k = true /\
        incl (clq k) (clq i) /\ In c (clq i) /\ ~ In c (clq k);
    r_dropped : forall k, (k < length cls)%nat -> dups k = (-2)%Z ->
        exists i, (i < length cls)%nat /\ dups i <> (-2)%Z /\ incl (clq k) (clq i) /\
                  (eq_first -> isE k = true -> isE i = true /\ clq i = clq k);
    r_once : forall k k', (k < length cls)%nat -> (k' < length cls)%nat -> k <> k' -> clq k = clq k' ->
        dups k = (-2)%Z \/ dups k' = (-2)%Z }.

  Lemma result_ok : no_overrun ->
    exists s which u,
      lex_loop (lex_fuel cls) (lex_init N cls) [] (which0 sort2 N cls) = Done (s, which) /\
      sub_loop N cls typ which (seq 0 (length cls)) (sub_init N cls s) = Done u /\
      result (fun k => if (u_stat u k =? -2)%Z then (-2)%Z else (-1)%Z) (u_fixed u).
  Proof.
    intro Hno. destruct sorted_done as (s & which & E & Hi).
    assert (Hw : Permutation which (seq 0 nC)) by (pose proof (i_perm _ _ _ Hi) as P; rewrite app_nil_r in P; exact P).
    assert (Hin : forall k, (k < length cls)%nat -> exists j, (j < length cls)%nat /\ wh which j = k).
    { intros k Hk. assert (In k which) by (eapply Permutation_in; [apply Permutation_sym; exact Hw|apply in_seq; unfold Model_DuplicateRow.nC; lia]).
      apply In_nth with (d := 0%nat) in H as (j & J1 & J2). exists j. split; [|exact J2].
      rewrite <- (which_len which Hw). exact J1. }
    assert (Hinw : forall k, (k < length cls)%nat -> In k which).
    { intros k Hk. eapply Permutation_in; [apply Permutation_sym; exact Hw|apply in_seq; unfold Model_DuplicateRow.nC; lia]. }
    set (u0 := sub_init N cls s).
    assert (Hu0 : forall k, u_stat u0 k = (-2)%Z <-> x_stat s k = (-2)%Z).
    { intro k. unfold u0. cbn. destruct (Z.eqb_spec (x_stat s k) (-2)); [split; auto|].
      split; intro K; [exfalso; exact (done_nonneg_val _ _ K)|contradiction]. }
    destruct (sub_loop_ok which Hw Hno u0 (length cls) 0 u0) as (u & Eu & Hu).
    { constructor.
      - intros i Hir. unfold placed, u0. cbn. destruct (x_stat s i =? -2)%Z; [left; reflexivity|right; right].
        exists O. conjs; [pose proof (Hlen i Hir); lia|lia|reflexivity].
      - intros c Hc. discriminate.
      - auto.
      - intros j' Hj' Hs. left. exact Hs. }
    { reflexivity. }
    exists s, which, u. conjs; [exact E|exact Eu|]. constructor.
    - intro k. destruct (u_stat u k =? -2)%Z; auto.
    - exact (v_fix _ _ _ _ Hu).
    - intros k Hk Hd. destruct (Z.eqb_spec (u_stat u k) (-2)) as [Es|Es]; [clear Hd|discriminate].
      assert (Step : forall k, (k < length cls)%nat -> u_stat u k = (-2)%Z ->
                 x_stat s k = (-2)%Z \/ (isE k = false /\ exists i, (i < length cls)%nat /\ u_stat u i <> (-2)%Z /\ incl (clq k) (clq i))).
      { clear k Hk Es. intros k Hk Es. destruct (Hin k Hk) as (j & J1 & <-).
        destruct (v_why _ _ _ _ Hu j J1 Es) as [W|(W1 & W2 & ii & W3 & W4 & W5)]; [left; apply Hu0; exact W|right].
        split; [exact W2|]. exists (wh which ii). conjs; [apply (wh_range which Hw); lia|exact W4|exact W5]. }
      assert (Fin : forall i, u_stat u i <> (-2)%Z -> (if (u_stat u i =? -2)%Z then (-2)%Z else (-1)%Z) <> (-2)%Z).
      { intros i H. apply Z.eqb_neq in H. rewrite H. discriminate. }
      destruct (Step k Hk Es) as [Hx|(Hx1 & i & I1 & I2 & I3)].
      + destruct (i_why _ _ _ Hi k (Hinw k Hk) Hx) as (d & D1 & D2 & D3 & D4).
        assert (Hd : (d < length cls)%nat).
        { eapply Permutation_in in D1; [|exact Hw]. apply in_seq in D1. unfold Model_DuplicateRow.nC in D1. lia. }
        destruct (Z.eq_dec (u_stat u d) (-2)) as [Ed|Ed].
        * destruct (Step d Hd Ed) as [Hy|(Hy1 & i & I1 & I2 & I3)]; [contradiction|].
          exists i. conjs; [exact I1|apply Fin; exact I2|rewrite <- D2; exact I3|].
          intros Hef Ek. rewrite (D4 Hef Ek) in Hy1. discriminate.
        * exists d. conjs; [exact Hd|apply Fin; exact Ed|rewrite D2; apply incl_refl|].
          intros Hef Ek. split; [apply D4; assumption|exact D2].
      + exists i. conjs; [exact I1|apply Fin; exact I2|exact I3|]. intros _ Ek. congruence.
    - intros k k' Hk Hk' Ne Ee.
      destruct (i_one _ _ _ Hi k k' (Hinw k Hk) (Hinw k' Hk') Ne Ee) as [H|H]; apply Hu0 in H;
        apply (v_down _ _ _ _ Hu) in H; [left|right]; rewrite H; reflexivity.
  Qed.
End Out.
