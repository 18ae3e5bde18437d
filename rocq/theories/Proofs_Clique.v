(** * Lemmas about the clique search *)

From Coq Require Import Sorted Permutation.
From Verif Require Import Base Model_Clique.
Local Open Scope Q_scope.

Lemma mem_in j l : mem j l = true <-> In j l.
Proof.
  unfold mem. rewrite existsb_exists. split.
  - intros (k & H & E). apply Nat.eqb_eq in E. subst. exact H.
  - intro H. exists j. split; [exact H|apply Nat.eqb_refl].
Qed.

(** ** Sorting *)
Lemma insert_sorted_perm a l : Permutation (insert_sorted a l) (a :: l).
Proof.
  induction l as [|b l IH]; simpl; [reflexivity|].
  destruct (Nat.leb a b); [reflexivity|]. rewrite IH. apply perm_swap.
Qed.
Lemma sort_nat_perm l : Permutation (sort_nat l) l.
Proof.
  induction l as [|a l IH]; simpl; [reflexivity|]. rewrite insert_sorted_perm. constructor. exact IH.
Qed.
Lemma insert_sorted_sorted a l :
  StronglySorted le l -> StronglySorted le (insert_sorted a l).
Proof.
  induction l as [|b l IH]; simpl; intro H; [repeat constructor|].
  apply StronglySorted_inv in H as [H1 H2].
  destruct (Nat.leb_spec a b).
  - constructor; [constructor; assumption|]. constructor; [lia|].
    eapply Forall_impl; [|exact H2]. intros; simpl in *; lia.
  - constructor; [apply IH; exact H1|].
    apply (Permutation_Forall (Permutation_sym (insert_sorted_perm a l))). constructor; [lia|exact H2].
Qed.
Lemma sort_nat_sorted l : StronglySorted le (sort_nat l).
Proof. induction l; simpl; [constructor|apply insert_sorted_sorted; assumption]. Qed.
Lemma sorted_nodup_lt l : StronglySorted le l -> NoDup l -> StronglySorted lt l.
Proof.
  induction l as [|a l IH]; intros H N; [constructor|].
  apply StronglySorted_inv in H as [H1 H2]. inversion N; subst. constructor; [auto|].
  apply Forall_forall. intros b Hb. rewrite Forall_forall in H2. specialize (H2 b Hb).
  assert (a <> b) by (intro; subst; contradiction). lia.
Qed.

Lemma value_perm v w x : Permutation v w -> value v x == value w x.
Proof.
  induction 1 as [|[j a] v w P IH|[j a] [k b] v|]; simpl; try lra.
Qed.

(** ** First fit *)
Section FF.
  Variable nn : nat -> nat -> bool.
  Notation ff := (fold_left (greedy_step nn)).

  Fixpoint ffl (acc l : list nat) : list bool :=
    match l with
    | [] => []
    | v :: l' => let b := forallb (nn v) acc in b :: ffl (if b then acc ++ [v] else acc) l'
    end.

  Lemma forallb_rev {A} (f : A -> bool) l : forallb f (rev l) = forallb f l.
  Proof.
    induction l as [|a l IH]; [reflexivity|]. simpl. rewrite forallb_app, IH. simpl.
    rewrite andb_true_r. apply andb_comm.
  Qed.

  Lemma ffl_length acc l : length (ffl acc l) = length l.
  Proof. revert acc. induction l; simpl; intros; [reflexivity|]. rewrite IHl. reflexivity. Qed.

  Definition lab (cl : list nat) (label : list bool) : list nat := map fst (filter snd (combine cl label)).

  Lemma lab_ffl acc l : ff l acc = acc ++ lab l (ffl acc l).
  Proof.
    revert acc. induction l as [|v l IH]; intro acc; simpl.
    - unfold lab. simpl. rewrite app_nil_r. reflexivity.
    - rewrite IH. unfold greedy_step. rewrite forallb_rev. unfold lab. simpl.
      destruct (forallb (nn v) acc); simpl; [|reflexivity]. rewrite <- app_assoc. reflexivity.
  Qed.

  Lemma ffl_nth acc l p : (p < length l)%nat ->
    nth p (ffl acc l) false = forallb (nn (nth p l 0%nat)) (acc ++ lab (firstn p l) (firstn p (ffl acc l))).
  Proof.
    revert acc p. induction l as [|v l IH]; intros acc p H; simpl in H; [lia|].
    destruct p as [|p].
    - simpl. unfold lab. simpl. rewrite app_nil_r. reflexivity.
    - simpl. rewrite IH by lia. unfold lab. simpl.
      destruct (forallb (nn v) acc) eqn:E; simpl; [|reflexivity].
      rewrite <- app_assoc. reflexivity.
  Qed.

  (** Properties of the first-fit clique. *)
  Definition pairwise (l : list nat) : Prop :=
    forall a b, In a l -> In b l -> a <> b -> nn a b = true.

  Hypothesis nn_sym : forall i j, nn i j = nn j i.

  Lemma ff_incl acc l v : In v (ff l acc) -> In v acc \/ In v l.
  Proof.
    revert acc. induction l as [|w l IH]; simpl; intros acc H; [auto|].
    apply IH in H as [H|H]; [|auto]. unfold greedy_step in H. destruct (forallb _ _); [|auto].
    apply in_app_or in H as [H|[H|[]]]; auto.
  Qed.
  Lemma ff_keeps acc l v : In v acc -> In v (ff l acc).
  Proof.
    revert acc. induction l as [|w l IH]; simpl; intros acc H; [auto|]. apply IH.
    unfold greedy_step. destruct (forallb _ _); [apply in_or_app; auto|auto].
  Qed.
  Lemma ff_pairwise acc l : pairwise acc -> pairwise (ff l acc).
  Proof.
    revert acc. induction l as [|w l IH]; simpl; intros acc H; [auto|]. apply IH.
    unfold greedy_step. destruct (forallb _ _) eqn:E; [|exact H].
    rewrite forallb_rev in E. rewrite forallb_forall in E.
    intros a b Ha Hb D. apply in_app_or in Ha as [Ha|[<-|[]]]; apply in_app_or in Hb as [Hb|[<-|[]]].
    - apply H; auto.
    - rewrite nn_sym. apply E. exact Ha.
    - apply E. exact Hb.
    - congruence.
  Qed.
  Lemma ff_nodup acc l : NoDup (acc ++ l) -> NoDup (ff l acc).
  Proof.
    revert acc. induction l as [|w l IH]; simpl; intros acc H; [rewrite app_nil_r in H; exact H|].
    apply IH. unfold greedy_step. destruct (forallb _ _).
    - rewrite <- app_assoc. exact H.
    - apply NoDup_remove_1 in H. exact H.
  Qed.
End FF.

(** ** Complete enumeration is first fit *)
Section Enum.
  Variable nn : nat -> nat -> bool.
  Variable val : nat -> Q.
  Variable orig : nat -> nat.
  Variable petol : Q.
  Variable perm cl del : list nat.
  Notation L := (ffl nn [] cl).
  Notation n := (length cl).

  Definition pad (p : nat) (l : list bool) : list bool := firstn p l ++ repeat false (length l - p).

  Lemma set_nth_pad p l : (p < length l)%nat -> set_nth p (nth p l false) (pad p l) = pad (S p) l.
  Proof.
    unfold pad. revert l. induction p as [|p IH]; intros [|a l] H; simpl in H; try lia.
    - simpl. rewrite Nat.sub_0_r. reflexivity.
    - simpl. f_equal. rewrite IH by lia. reflexivity.
  Qed.
  Lemma pad_full l : pad (length l) l = l.
  Proof. unfold pad. rewrite firstn_all, Nat.sub_diag. simpl. apply app_nil_r. Qed.

  Lemma forallb_map {A B} (f : B -> bool) (g : A -> B) l : forallb f (map g l) = forallb (fun a => f (g a)) l.
  Proof. induction l; simpl; [reflexivity|]. rewrite IHl. reflexivity. Qed.
  Lemma forallb_ext_in {A} (f g : A -> bool) l : (forall a, In a l -> f a = g a) -> forallb f l = forallb g l.
  Proof. induction l; simpl; intro H; [reflexivity|]. rewrite H, IHl; auto. Qed.

  Lemma scan_test (f : nat -> bool) p c (lb : list bool) :
    (p <= length c)%nat -> (p <= length lb)%nat ->
    forallb (fun j => negb (nth j lb false && negb (f (nth j c 0%nat)))) (seq 0 p) =
    forallb f (lab (firstn p c) (firstn p lb)).
  Proof.
    revert c lb. induction p as [|p IH]; intros c lb H1 H2; [reflexivity|].
    destruct c as [|v c]; simpl in H1; [lia|]. destruct lb as [|b lb]; simpl in H2; [lia|].
    cbn [seq]. rewrite <- seq_shift. simpl forallb at 1. rewrite forallb_map. simpl nth.
    rewrite (IH c lb) by lia. unfold lab. simpl. destruct b; simpl; [|reflexivity].
    rewrite negb_involutive. reflexivity.
  Qed.

  Lemma nth_pad p l j : (p <= length l)%nat -> (j < p)%nat -> nth j (pad p l) false = nth j l false.
  Proof.
    revert l j. unfold pad. induction p as [|p IH]; intros [|a l] j H1 H2; simpl in *; try lia.
    destruct j; [reflexivity|]. simpl. apply IH; lia.
  Qed.

  Lemma scan_step p : (p < n)%nat ->
    forallb (fun j => negb (nth j (pad p L) false && negb (nn (nth p cl 0%nat) (nth j cl 0%nat)))) (seq 0 p)
    = nth p L false.
  Proof.
    intro H.
    rewrite (forallb_ext_in _ (fun j => negb (nth j L false && negb (nn (nth p cl 0%nat) (nth j cl 0%nat))))).
    2:{ intros j Hj. apply in_seq in Hj. rewrite nth_pad; [reflexivity| |lia]. rewrite ffl_length. lia. }
    rewrite (scan_test (nn (nth p cl 0%nat))) by (try rewrite ffl_length; lia).
    rewrite ffl_nth by exact H. reflexivity.
  Qed.

  Lemma scan_spec k p : (k = n - p)%nat -> (p <= n)%nat ->
    exists p1, scan nn cl k p (pad p L) = (p1, pad p1 L) /\ (p1 <= n)%nat /\
      ((p < n)%nat -> (p < p1)%nat) /\ (p <= p1)%nat.
  Proof.
    revert p. induction k as [|k IH]; intros p Hk Hp.
    - exists p. simpl. conjs; auto; lia.
    - simpl scan. rewrite scan_step by lia.
      rewrite set_nth_pad by (rewrite ffl_length; lia).
      destruct (nth p L false) eqn:E.
      + exists (S p). conjs; auto; lia.
      + destruct (IH (S p)) as (p1 & S1 & S2 & S3 & S4); [lia|lia|].
        exists p1. conjs; auto; lia.
  Qed.

  (** The result at a leaf. *)
  Definition first_fit_result (cs : list rowcut) : list rowcut :=
    let coef := rev (fold_left (greedy_step nn) cl []) ++ perm in
    if lhs val coef <? 1 + petol then cs
    else if existsb (fun d => forallb (nn d) coef) del then cs
    else recordClique orig coef cs.

  Lemma in_lab v l lb : In v (lab l lb) <-> exists p, (p < length l)%nat /\ nth p l 0%nat = v /\ nth p lb false = true.
  Proof.
    revert lb. induction l as [|a l IH]; intro lb.
    - unfold lab. simpl. split; [intros []|intros (p & H & _); lia].
    - destruct lb as [|b lb].
      + unfold lab. simpl. split; [intros []|intros (p & _ & _ & H); destruct p; discriminate].
      + assert (E : lab (a :: l) (b :: lb) = if b then a :: lab l lb else lab l lb) by (destruct b; reflexivity).
        rewrite E. split.
        * intro H. assert (H' : (b = true /\ v = a) \/ In v (lab l lb)).
          { destruct b; [destruct H as [<-|H]; auto|auto]. }
          destruct H' as [[-> ->]|H'].
          { exists 0%nat. simpl. conjs; auto; lia. }
          apply IH in H' as (p & P1 & P2 & P3). exists (S p). simpl. conjs; auto; lia.
        * intros (p & P1 & P2 & P3). destruct p as [|p]; simpl in *.
          { subst. left. reflexivity. }
          assert (In v (lab l lb)) by (apply IH; exists p; conjs; auto; lia).
          destruct b; [right|]; assumption.
  Qed.
  Lemma in_combine_nth (l : list nat) (lb : list bool) v b :
    length lb = length l -> In (v, b) (combine l lb) ->
    exists p, (p < length l)%nat /\ nth p l 0%nat = v /\ nth p lb false = b.
  Proof.
    revert lb. induction l as [|a l IH]; intros [|c lb] E H; simpl in *; try discriminate; try contradiction.
    destruct H as [H|H].
    - injection H as -> ->. exists 0%nat. conjs; auto; lia.
    - destruct (IH lb) as (p & P1 & P2 & P3); auto. exists (S p). conjs; auto; lia.
  Qed.
  Lemma lab_firstn_incl p l lb v : In v (lab (firstn p l) (firstn p lb)) -> In v (lab l lb).
  Proof.
    revert l lb. induction p as [|p IH]; intros [|a l] [|b lb] H; simpl in *; try contradiction.
    unfold lab in *. simpl in *. destruct b; simpl in *; [destruct H as [H|H]; auto|auto].
  Qed.

  Lemma not_extendable_ffl :
    existsb (fun kb => negb (snd kb) && forallb (nn (fst kb)) (rev (lab cl L))) (combine cl L) = false.
  Proof.
    destruct (existsb _ _) eqn:E; [|reflexivity]. exfalso.
    apply existsb_exists in E as ([v b] & Hin & E). simpl in E. apply andb_true_iff in E as [E1 E2].
    destruct b; [discriminate|].
    apply in_combine_nth in Hin as (p & P1 & P2 & P3); [|apply ffl_length].
    rewrite forallb_rev in E2. rewrite ffl_nth in P3 by exact P1. simpl app in P3. rewrite P2 in P3.
    assert (forallb (nn v) (lab (firstn p cl) (firstn p L)) = true); [|congruence].
    apply forallb_forall. intros w Hw. rewrite forallb_forall in E2. apply E2.
    eapply lab_firstn_incl. exact Hw.
  Qed.

  Lemma lab_L : lab cl L = fold_left (greedy_step nn) cl [].
  Proof. rewrite (lab_ffl nn [] cl). reflexivity. Qed.

  Lemma lab_nonempty : cl <> [] -> length (rev (lab cl L)) <> 0%nat.
  Proof.
    intro H. destruct cl as [|v l]; [congruence|]. unfold lab. simpl. rewrite app_length. simpl. lia.
  Qed.

  Lemma leaf_ffl cs : cl <> [] ->
    exists f, leaf nn val orig petol perm cl del L cs = (first_fit_result cs, f).
  Proof.
    intro NE. unfold leaf. change (labelled cl L) with (lab cl L).
    pose proof (lab_nonempty NE) as H. apply Nat.eqb_neq in H. rewrite H.
    rewrite not_extendable_ffl. cbv zeta. unfold first_fit_result. rewrite <- lab_L.
    destruct (lhs val (rev (lab cl L) ++ perm) <? 1 + petol); [eexists; reflexivity|].
    destruct (existsb _ del); eexists; reflexivity.
  Qed.

  Lemma insert_new_idem cs c : insert_new (insert_new cs c) c = insert_new cs c.
  Proof.
    unfold insert_new at 1.
    assert (R : existsb (rowcut_eqb c) (insert_new cs c) = true).
    { assert (Rf : rowcut_eqb c c = true).
      { unfold rowcut_eqb. assert (V : forall v, vec_eqb v v = true).
        { induction v as [|[j a] v IH]; [reflexivity|]. simpl. rewrite IH. unfold entry_eqb. simpl.
          rewrite Nat.eqb_refl. rewrite (proj2 (Qeq_bool_iff a a)) by reflexivity. reflexivity. }
        assert (O : forall o, optq_eqb o o = true).
        { intros [q|]; [simpl; apply Qeq_bool_iff; reflexivity|reflexivity]. }
        rewrite V, !O. reflexivity. }
      unfold insert_new. destruct (existsb (rowcut_eqb c) cs) eqn:E; [exact E|].
      rewrite existsb_app. simpl. rewrite Rf. rewrite orb_true_r. reflexivity. }
    rewrite R. reflexivity.
  Qed.
  Lemma first_fit_idem cs : first_fit_result (first_fit_result cs) = first_fit_result cs.
  Proof.
    unfold first_fit_result. cbv zeta. destruct (_ <? _); [reflexivity|].
    destruct (existsb _ del); [reflexivity|]. apply insert_new_idem.
  Qed.

  Lemma nth_firstn_lt {A} k (l : list A) p d : (p < k)%nat -> nth p (firstn k l) d = nth p l d.
  Proof.
    revert l p. induction k as [|k IH]; intros [|a l] p H; simpl; try lia.
    - reflexivity.
    - destruct p; [reflexivity|]. apply IH. lia.
  Qed.
  (** Clearing the last label: nothing new is recorded. *)
  Definition L' : list bool := set_nth (n - 1) false L.
  Lemma set_nth_same {A} k (b : A) l d : nth k l d = b -> (k < length l)%nat -> set_nth k b l = l.
  Proof.
    revert l. induction k as [|k IH]; intros [|a l] E H; simpl in *; try lia; subst; auto.
    f_equal. apply IH; [reflexivity|lia].
  Qed.
  Lemma length_set_nth {A} k (b : A) l : length (set_nth k b l) = length l.
  Proof. revert l. induction k; intros [|a l]; simpl; auto. Qed.
  Lemma nth_set_nth {A} k (b : A) l d p : nth p (set_nth k b l) d = if (Nat.eqb p k && Nat.ltb k (length l))%bool then b else nth p l d.
  Proof.
    revert l p. induction k as [|k IH]; intros [|a l] p; simpl.
    - rewrite andb_false_r. destruct p; reflexivity.
    - destruct p; reflexivity.
    - rewrite andb_false_r. destruct p; reflexivity.
    - destruct p as [|p]; [reflexivity|]. simpl. rewrite IH. reflexivity.
  Qed.

  Lemma combine_nth_in (l : list nat) (lb : list bool) p :
    length lb = length l -> (p < length l)%nat -> In (nth p l 0%nat, nth p lb false) (combine l lb).
  Proof.
    revert lb p. induction l as [|a l IH]; intros [|b lb] p E H; simpl in *; try lia.
    destruct p; [left; reflexivity|right; apply IH; lia].
  Qed.

  Lemma leaf_L' cs : cl <> [] ->
    exists f, leaf nn val orig petol perm cl del L' (first_fit_result cs) = (first_fit_result cs, f).
  Proof.
    intro NE. assert (Hn : (0 < n)%nat) by (destruct cl; [congruence|simpl; lia]).
    destruct (nth (n - 1) L false) eqn:E.
    - (* the last node was labelled: removing it gives an extendable set *)
      unfold leaf. change (labelled cl L') with (lab cl L').
      destruct (Nat.eqb (length (rev (lab cl L'))) 0); [eexists; reflexivity|].
      assert (X : existsb (fun kb => negb (snd kb) && forallb (nn (fst kb)) (rev (lab cl L'))) (combine cl L') = true).
      { apply existsb_exists. exists (nth (n - 1) cl 0%nat, nth (n - 1) L' false). split.
        - apply combine_nth_in; [unfold L'; rewrite length_set_nth; apply ffl_length|lia].
        - simpl. unfold L' at 1. rewrite nth_set_nth, Nat.eqb_refl.
          replace (Nat.ltb (n - 1) (length L)) with true by (symmetry; apply Nat.ltb_lt; rewrite ffl_length; lia).
          simpl. rewrite forallb_rev. rewrite ffl_nth in E by lia. simpl app in E.
          apply forallb_forall. intros w Hw. rewrite forallb_forall in E. apply E.
          apply in_lab in Hw as (p & P1 & P2 & P3). unfold L' in P3. rewrite nth_set_nth in P3.
          destruct (Nat.eqb p (n - 1)) eqn:Ep.
          + replace (Nat.ltb (n - 1) (length L)) with true in P3 by (symmetry; apply Nat.ltb_lt; rewrite ffl_length; lia).
            discriminate.
          + apply Nat.eqb_neq in Ep. simpl in P3. apply in_lab. exists p.
            rewrite firstn_length_le by lia. conjs; [lia| |].
            * rewrite nth_firstn_lt by lia. exact P2.
            * rewrite nth_firstn_lt by lia. exact P3. }
      rewrite X. eexists. reflexivity.
    - assert (EL : L' = L) by (unfold L'; apply set_nth_same with (d := false); [exact E|rewrite ffl_length; lia]).
      rewrite EL. destruct (leaf_ffl (first_fit_result cs) NE) as (f & ->). rewrite first_fit_idem. eexists. reflexivity.
  Qed.

  Lemma enumerate_at_end fuel lb cs :
    enumerate nn val orig petol perm cl del (S fuel) n lb cs =
    Done (n, lb, fst (leaf nn val orig petol perm cl del lb cs), snd (leaf nn val orig petol perm cl del lb cs)).
  Proof.
    simpl. rewrite Nat.sub_diag. simpl. rewrite Nat.ltb_irrefl. destruct (leaf _ _ _ _ _ _ _ _ _). reflexivity.
  Qed.

  Lemma enumerate_spec fuel p cs : cl <> [] -> (p <= n)%nat -> (n - p < fuel)%nat ->
    exists lb f, enumerate nn val orig petol perm cl del fuel p (pad p L) cs = Done (n, lb, first_fit_result cs, f) /\
      (lb = L \/ lb = L').
  Proof.
    intro NE. revert p. induction fuel as [|fuel IH]; intros p Hp Hf; [lia|].
    cbn [enumerate].
    destruct (scan_spec (n - p) p eq_refl Hp) as (p1 & S1 & S2 & S3 & S4). rewrite S1.
    destruct (Nat.ltb_spec p1 n).
    - destruct (IH p1) as (lb & f & E & Hlb); [lia|lia|]. rewrite E. cbn [bind].
      assert (X : set_nth (n - 1) false lb = L').
      { destruct Hlb as [->| ->]; [reflexivity|]. unfold L'. apply set_nth_same with (d := false).
        - rewrite nth_set_nth, Nat.eqb_refl. destruct (Nat.ltb _ _) eqn:Z; [reflexivity|].
          apply Nat.ltb_ge in Z. rewrite ffl_length in Z. lia.
        - rewrite length_set_nth, ffl_length. lia. }
      rewrite X. destruct fuel as [|fuel]; [lia|]. rewrite enumerate_at_end. cbn [bind].
      destruct (leaf_L' cs NE) as (f' & ->). simpl. eexists _, _. split; [reflexivity|]. right. reflexivity.
    - assert (p1 = n) by lia. subst p1.
      assert (E : pad n L = L) by (rewrite <- (ffl_length nn [] cl) at 1; apply pad_full).
      rewrite E. destruct (leaf_ffl cs NE) as (f & ->). eexists _, _. split; [reflexivity|]. left. reflexivity.
  Qed.

  Lemma enumerate_all_spec cs : cl <> [] ->
    enumerate_all nn val orig petol perm cl del cs = Done (first_fit_result cs).
  Proof.
    intro NE. unfold enumerate_all.
    assert (E : repeat false n = pad 0 L).
    { unfold pad. simpl. rewrite ffl_length, Nat.sub_0_r. reflexivity. }
    rewrite E. destruct (enumerate_spec (S n) 0 cs NE) as (lb & f & -> & _); [lia|lia|]. reflexivity.
  Qed.
End Enum.

Lemma enumerate_all_nil nn val orig petol perm del cs :
  enumerate_all nn val orig petol perm [] del cs = Done cs.
Proof. reflexivity. Qed.

Lemma nodup_app {A} (l1 l2 : list A) :
  NoDup l1 -> NoDup l2 -> (forall a, In a l1 -> In a l2 -> False) -> NoDup (l1 ++ l2).
Proof.
  induction l1 as [|a l1 IH]; simpl; intros H1 H2 D; [exact H2|].
  inversion H1; subst. constructor.
  - intro H. apply in_app_or in H as [H|H]; [contradiction|]. eapply D; eauto.
  - apply IH; auto. intros b Hb1 Hb2. eapply D; eauto.
Qed.

(** ** What may be recorded *)
Section Record.
  Variable nn : nat -> nat -> bool.
  Variable val : nat -> Q.
  Variable orig : nat -> nat.
  Variable petol : Q.
  Variable n : nat.
  Variable sorter : list (Z * nat) -> list (Z * nat).
  Hypothesis sorter_perm : forall l, Permutation (sorter l) l.
  Hypothesis nn_sym : forall i j, nn i j = nn j i.
  Hypothesis nn_irrefl : forall i, nn i i = false.

  (** A clique of the conflict graph that the LP solution violates. *)
  Definition good (l : list nat) : Prop :=
    NoDup l /\ pairwise nn l /\ (forall i, In i l -> (i < n)%nat) /\ 1 + petol <= lhs val l /\ (2 <= length l)%nat.
  Definition grown (cs cs' : list rowcut) : Prop :=
    forall c, In c cs' -> In c cs \/ exists l, good l /\ c = clique_cut orig l.

  Lemma grown_refl cs : grown cs cs.
  Proof. intros c H. auto. Qed.
  Lemma grown_trans a b c : grown a b -> grown b c -> grown a c.
  Proof. intros H1 H2 d Hd. apply H2 in Hd as [Hd|Hd]; auto. Qed.
  Lemma grown_record l cs : good l -> grown cs (recordClique orig l cs).
  Proof. intros G c H. apply insert_new_in in H as [H| ->]; eauto. Qed.

  (** Situation in which the search is called. *)
  Definition callable (perm cl : list nat) : Prop :=
    NoDup perm /\ NoDup cl /\ pairwise nn perm /\ perm <> [] /\
    (forall p c, In p perm -> In c cl -> nn p c = true) /\
    (forall i, In i perm \/ In i cl -> (i < n)%nat).

  Lemma callable_good perm cl coef :
    callable perm cl -> coef <> [] -> NoDup coef -> pairwise nn coef -> incl coef cl ->
    1 + petol <= lhs val (coef ++ perm) -> good (coef ++ perm).
  Proof.
    intros (P1 & P2 & P3 & P4 & P5 & P6) NE ND PW IN V. unfold good. conjs; auto.
    - apply nodup_app; auto.
      intros a Ha Hb. assert (H : nn a a = true) by (apply P5; auto). rewrite nn_irrefl in H. discriminate.
    - intros a b Ha Hb D. apply in_app_or in Ha, Hb. destruct Ha as [Ha|Ha], Hb as [Hb|Hb]; auto.
      rewrite nn_sym. apply P5; auto.
    - intros i Hi. apply in_app_or in Hi as [Hi|Hi]; apply P6; auto.
    - rewrite app_length. destruct coef; [congruence|]. destruct perm; [congruence|]. simpl. lia.
  Qed.

  Lemma ff_facts cl : NoDup cl -> cl <> [] ->
    let coef := fold_left (greedy_step nn) cl [] in
    NoDup coef /\ pairwise nn coef /\ incl coef cl /\ coef <> [].
  Proof.
    intros ND NE coef. conjs.
    - apply ff_nodup. exact ND.
    - apply ff_pairwise; [exact nn_sym|]. intros a b [].
    - intros a Ha. apply ff_incl in Ha as [[]|Ha]. exact Ha.
    - destruct cl as [|v l]; [congruence|]. subst coef. simpl. intro H.
      assert (X : In v (fold_left (greedy_step nn) l [v])) by (apply ff_keeps; left; reflexivity).
      unfold greedy_step in H at 2. simpl in H. rewrite H in X. contradiction.
  Qed.

  Lemma enumerate_all_grown perm cl del cs cs' :
    callable perm cl -> enumerate_all nn val orig petol perm cl del cs = Done cs' -> grown cs cs'.
  Proof.
    intros C E. destruct cl as [|v l].
    - rewrite enumerate_all_nil in E. apply Done_inj in E. subst. apply grown_refl.
    - rewrite enumerate_all_spec in E by discriminate. apply Done_inj in E. subst.
      unfold first_fit_result. cbv zeta.
      destruct (_ <? _) eqn:V; [apply grown_refl|]. qb.
      destruct (existsb _ del); [apply grown_refl|]. apply grown_record.
      pose proof C as (P1 & P2 & _).
      destruct (ff_facts (v :: l) P2) as (F1 & F2 & F3 & F4); [discriminate|].
      apply (callable_good perm (v :: l)); auto.
      + intro H. apply F4. apply (f_equal (@rev nat)) in H. rewrite rev_involutive in H. exact H.
      + apply NoDup_rev. exact F1.
      + intros a b Ha Hb. apply F2; apply in_rev; assumption.
      + intros a Ha. apply F3. apply in_rev. exact Ha.
  Qed.

  Lemma greedy_first_fit v l : fold_left (greedy_step nn) l [v] = fold_left (greedy_step nn) (v :: l) [].
  Proof. reflexivity. Qed.

  Lemma greedy_grown perm cl cs cs' :
    callable perm cl -> greedy nn val orig petol perm cl cs = Done cs' -> grown cs cs'.
  Proof.
    intros C E. destruct cl as [|v l]; [discriminate|]. unfold greedy in E. apply Done_inj in E. subst.
    rewrite greedy_first_fit.
    destruct (Nat.ltb _ 3); [apply grown_refl|]. destruct (_ <? _) eqn:V; [|apply grown_refl]. qb.
    apply grown_record. pose proof C as (P1 & P2 & _).
    destruct (ff_facts (v :: l) P2) as (F1 & F2 & F3 & F4); [discriminate|].
    apply (callable_good perm (v :: l)); auto. lra.
  Qed.
  Lemma greedy_total perm cl cs : cl <> [] -> exists cs', greedy nn val orig petol perm cl cs = Done cs'.
  Proof. intro H. destruct cl; [congruence|]. eexists. reflexivity. Qed.
  Lemma enumerate_all_total perm cl del cs : exists cs', enumerate_all nn val orig petol perm cl del cs = Done cs'.
  Proof.
    destruct cl as [|v l]; [eexists; reflexivity|]. rewrite enumerate_all_spec by discriminate. eexists. reflexivity.
  Qed.

  Lemma by_degree_perm deg l : Permutation (by_degree sorter deg l) l.
  Proof.
    unfold by_degree. rewrite (Permutation_map snd (sorter_perm _)). rewrite map_map. simpl.
    rewrite map_id. reflexivity.
  Qed.
  Lemma callable_perm perm cl cl' : Permutation cl' cl -> callable perm cl -> callable perm cl'.
  Proof.
    intros P (P1 & P2 & P3 & P4 & P5 & P6). unfold callable. conjs; auto.
    - apply (Permutation_NoDup (Permutation_sym P)). exact P2.
    - intros p c Hp Hc. apply P5; auto. apply (Permutation_in _ P). exact Hc.
    - intros i [H|H]; apply P6; auto. right. apply (Permutation_in _ P). exact H.
  Qed.

  (** ** Row cliques *)
  Definition row_ok (r : list nat) : Prop :=
    NoDup r /\ pairwise nn r /\ (forall i, In i r -> (i < n)%nat).

  Lemma rcl_row_total thr r cs :
    exists cs', rcl_row nn val orig petol n sorter thr r cs = Done cs'.
  Proof.
    unfold rcl_row. destruct r as [|v r]; [eexists; reflexivity|]. cbv zeta.
    destruct (filter _ _) as [|c cand] eqn:E; [eexists; reflexivity|].
    destruct (_ <=? _)%Z; [apply enumerate_all_total|]. apply greedy_total.
    intro H. pose proof (by_degree_perm (degree nn n) (c :: cand)) as P. rewrite H in P.
    apply Permutation_nil in P. discriminate.
  Qed.
  Lemma rcl_row_grown thr r cs cs' :
    row_ok r -> rcl_row nn val orig petol n sorter thr r cs = Done cs' -> grown cs cs'.
  Proof.
    intros (R1 & R2 & R3) E. unfold rcl_row in E. destruct r as [|v r].
    - apply Done_inj in E. subst. apply grown_refl.
    - cbv zeta in E. destruct (filter _ _) as [|c cand] eqn:F.
      + apply Done_inj in E. subst. apply grown_refl.
      + assert (C : callable (v :: r) (c :: cand)).
        { rewrite <- F. unfold callable. conjs; auto.
          - apply NoDup_filter, seq_NoDup.
          - discriminate.
          - intros p k Hp Hk. apply filter_In in Hk as [_ Hk]. rewrite forallb_forall in Hk. apply Hk. exact Hp.
          - intros i [H|H]; [auto|]. apply filter_In in H as [H _]. apply in_seq in H. lia. }
        destruct (_ <=? _)%Z.
        * apply (enumerate_all_grown _ _ _ _ _ C E).
        * apply (greedy_grown _ _ _ _ (callable_perm _ _ _ (by_degree_perm _ _) C) E).
  Qed.
  Lemma find_rcl_spec thr rs cs : (forall r, In r rs -> row_ok r) ->
    exists cs', find_rcl nn val orig petol n sorter thr rs cs = Done cs' /\ grown cs cs'.
  Proof.
    unfold find_rcl. revert cs. induction rs as [|r rs IH]; intros cs H.
    - exists cs. split; [reflexivity|apply grown_refl].
    - simpl. destruct (rcl_row_total thr r cs) as (c1 & E1). rewrite E1. simpl.
      destruct (IH c1) as (c2 & E2 & G); [intros; apply H; right; assumption|].
      exists c2. split; [exact E2|]. eapply grown_trans; [|exact G].
      eapply rcl_row_grown; [|exact E1]. apply H. left. reflexivity.
  Qed.

  (** ** Star cliques *)
  Lemma choose_from_lt rule i best bd bv l k :
    (best < k)%nat -> (i + length l <= k)%nat -> (choose_from rule i best bd bv l < k)%nat.
  Proof.
    revert i best bd bv. induction l as [|c l IH]; intros i best bd bv Hb Hi; simpl in *; [exact Hb|].
    destruct rule; repeat match goal with |- context [if ?b then _ else _] => destruct b end; apply IH; lia.
  Qed.
  Lemma choose_lt rule cur : cur <> [] -> (choose_next_node rule cur < length cur)%nat.
  Proof.
    intro H. destruct cur as [|c l]; [congruence|]. simpl. apply choose_from_lt; lia.
  Qed.

  Lemma remove_nth_length {A} k (l : list A) : (k < length l)%nat -> length (remove_nth k l) = (length l - 1)%nat.
  Proof.
    revert l. induction k as [|k IH]; intros [|a l] H; simpl in *; try lia. rewrite IH by lia. lia.
  Qed.
  Lemma remove_nth_split {A} k (l : list A) a : nth_error l k = Some a ->
    exists l1 l2, l = l1 ++ a :: l2 /\ remove_nth k l = l1 ++ l2.
  Proof.
    revert l. induction k as [|k IH]; intros [|b l] H; simpl in *; try discriminate.
    - injection H as ->. exists [], l. auto.
    - destruct (IH l H) as (l1 & l2 & -> & ->). exists (b :: l1), l2. auto.
  Qed.

  Definition cur_ok (cur : list cnode) : Prop :=
    NoDup (map cn_i cur) /\ (forall c, In c cur -> (cn_i c < n)%nat) /\
    (forall c, In c cur -> cn_deg c = Z.of_nat (length (filter (nn (cn_i c)) (map cn_i cur)))).

  Lemma cur_ok_delete cur k c : cur_ok cur -> nth_error cur k = Some c ->
    cur_ok (scl_delete_node nn (cn_i c) k cur).
  Proof.
    intros (H1 & H2 & H3) E. unfold scl_delete_node.
    destruct (remove_nth_split _ _ _ E) as (l1 & l2 & -> & ->).
    assert (M : map cn_i (map (fun c0 => CNode (cn_i c0) (if nn (cn_i c) (cn_i c0) then cn_deg c0 - 1 else cn_deg c0) (cn_val c0)) (l1 ++ l2)) = map cn_i (l1 ++ l2)).
    { rewrite map_map. apply map_ext. reflexivity. }
    unfold cur_ok. rewrite M. conjs.
    - rewrite map_app in *. simpl in H1. apply NoDup_remove_1 in H1. exact H1.
    - intros d Hd. apply in_map_iff in Hd as (d' & <- & Hd). simpl. apply H2.
      apply in_app_or in Hd as [Hd|Hd]; apply in_or_app; simpl; auto.
    - intros d Hd. apply in_map_iff in Hd as (d' & <- & Hd). simpl.
      assert (Hd' : In d' (l1 ++ c :: l2)) by (apply in_app_or in Hd as [?|?]; apply in_or_app; simpl; auto).
      rewrite (H3 d' Hd'), !map_app, !filter_app, !app_length. simpl. rewrite (nn_sym (cn_i c)).
      destruct (nn (cn_i d') (cn_i c)); simpl; lia.
  Qed.

  Lemma filter_map_comm {A B} (f : B -> bool) (g : A -> B) l :
    filter f (map g l) = map g (filter (fun a => f (g a)) l).
  Proof. induction l; simpl; [reflexivity|]. destruct (f (g a)); simpl; rewrite IHl; reflexivity. Qed.
  Lemma NoDup_map_filter {A B} (f : A -> bool) (g : A -> B) l : NoDup (map g l) -> NoDup (map g (filter f l)).
  Proof.
    induction l as [|a l IH]; simpl; intro H; [constructor|]. inversion H; subst.
    destruct (f a); simpl; auto. constructor; auto. intro Hin. apply H2.
    apply in_map_iff in Hin as (b & E & Hb). apply filter_In in Hb as [Hb _]. rewrite <- E. apply in_map. exact Hb.
  Qed.

  Lemma scl_loop_spec fuel rule thr cur del cs :
    cur_ok cur -> (length cur <= fuel)%nat -> (0 < fuel)%nat ->
    exists cs', scl_loop nn val orig petol sorter fuel rule thr cur del cs = Done cs' /\ grown cs cs'.
  Proof.
    revert cur del cs. induction fuel as [|fuel IH]; intros cur del cs OK Hf Hpos; [lia|].
    cbn [scl_loop]. destruct (Nat.ltb_spec 2 (length cur)); [|exists cs; split; [reflexivity|apply grown_refl]].
    cbv zeta. assert (NE : cur <> []) by (intro; subst; simpl in *; lia).
    pose proof (choose_lt rule cur NE) as Hlt.
    destruct (nth_error cur (choose_next_node rule cur)) as [c|] eqn:E; [|apply nth_error_None in E; lia].
    assert (Hc : In c cur) by (eapply nth_error_In; exact E).
    assert (OK' := cur_ok_delete _ _ _ OK E).
    assert (Hlen : (length (scl_delete_node nn (cn_i c) (choose_next_node rule cur) cur) = length cur - 1)%nat).
    { unfold scl_delete_node. rewrite map_length. apply remove_nth_length. exact Hlt. }
    destruct (cn_deg c <? 2)%Z eqn:D; [apply IH; auto; lia|].
    apply Z.ltb_ge in D. pose proof OK as (K1 & K2 & K3).
    set (starn := filter (fun c' => nn (cn_i c) (cn_i c')) cur).
    assert (C : callable [cn_i c] (map cn_i starn)).
    { unfold callable. conjs.
      - repeat constructor. intros [].
      - apply NoDup_map_filter. exact K1.
      - intros a b [<-|[]] [<-|[]]. congruence.
      - discriminate.
      - intros p k [<-|[]] Hk. apply in_map_iff in Hk as (d & <- & Hd). apply filter_In in Hd as [_ Hd]. exact Hd.
      - intros i [[<-|[]]|Hi]; [auto|]. apply in_map_iff in Hi as (d & <- & Hd). apply filter_In in Hd as [Hd _]. auto. }
    assert (S : exists c1, (if 1 + petol <=? fold_left (fun s c' => s + cn_val c') starn (cn_val c)
       then if (cn_deg c <? thr)%Z then enumerate_all nn val orig petol [cn_i c] (map cn_i starn) del cs
            else greedy nn val orig petol [cn_i c] (map snd (sorter (map (fun c' => (cn_deg c', cn_i c')) starn))) cs
       else Done cs) = Done c1 /\ grown cs c1).
    { destruct (_ <=? fold_left _ _ _); [|exists cs; split; [reflexivity|apply grown_refl]].
      destruct (cn_deg c <? thr)%Z.
      - destruct (enumerate_all_total [cn_i c] (map cn_i starn) del cs) as (c1 & E1).
        exists c1. split; [exact E1|]. apply (enumerate_all_grown _ _ _ _ _ C E1).
      - assert (P : Permutation (map snd (sorter (map (fun c' => (cn_deg c', cn_i c')) starn))) (map cn_i starn)).
        { rewrite (Permutation_map snd (sorter_perm _)). rewrite map_map. reflexivity. }
        destruct (greedy_total [cn_i c] (map snd (sorter (map (fun c' => (cn_deg c', cn_i c')) starn))) cs) as (c1 & E1).
        { intro Hn. rewrite Hn in P. apply Permutation_nil in P.
          rewrite (K3 c Hc), filter_map_comm in D. fold starn in D. rewrite P in D. simpl in D. lia. }
        exists c1. split; [exact E1|]. apply (greedy_grown _ _ _ _ (callable_perm _ _ _ P C) E1). }
    destruct S as (c1 & -> & G1). simpl.
    destruct (IH _ (del ++ [cn_i c]) c1 OK') as (c2 & E2 & G2); [lia|lia|].
    exists c2. split; [exact E2|eapply grown_trans; eauto].
  Qed.
  Lemma find_scl_spec rule thr cs :
    exists cs', find_scl nn val orig petol n sorter rule thr cs = Done cs' /\ grown cs cs'.
  Proof.
    unfold find_scl. apply scl_loop_spec.
    - unfold cur_ok. rewrite map_map. cbn [cn_i]. rewrite map_id. conjs.
      + apply seq_NoDup.
      + intros c Hc. apply in_map_iff in Hc as (i & <- & Hi). simpl. apply in_seq in Hi. lia.
      + intros c Hc. apply in_map_iff in Hc as (i & <- & Hi). reflexivity.
    - rewrite map_length, seq_length. lia.
    - lia.
  Qed.
End Record.

(** ** The conflict graph *)
Lemma isOrthogonal_cons i a j b : isOrthogonal (i :: a) (j :: b) =
  if Nat.eqb i j then false else if Nat.ltb i j then isOrthogonal a (j :: b) else isOrthogonal (i :: a) b.
Proof. reflexivity. Qed.
Lemma isOrthogonal_false a b : isOrthogonal a b = false -> exists i, In i a /\ In i b.
Proof.
  revert b. induction a as [|i a IHa]; intro b; [destruct b; discriminate|].
  induction b as [|j b IHb]; [discriminate|]. rewrite isOrthogonal_cons. destruct (Nat.eqb_spec i j) as [->|].
  - intros _. exists j. simpl. auto.
  - destruct (Nat.ltb i j).
    + intro H. apply IHa in H as (k & K1 & K2). exists k. simpl in *. auto.
    + intro H. apply IHb in H as (k & K1 & K2). exists k. simpl in *. auto.
Qed.
Lemma isOrthogonal_true a b i : StronglySorted lt a -> StronglySorted lt b ->
  isOrthogonal a b = true -> In i a -> In i b -> False.
Proof.
  revert b. induction a as [|p a IHa]; intros b Sa; [intros _ _ []|].
  pose proof Sa as Sa0. apply StronglySorted_inv in Sa as [Sa Fa]. rewrite Forall_forall in Fa.
  induction b as [|q b IHb]; intros Sb; [intros _ _ []|].
  pose proof Sb as Sb0. apply StronglySorted_inv in Sb as [Sb Fb]. rewrite Forall_forall in Fb.
  rewrite isOrthogonal_cons. destruct (Nat.eqb_spec p q) as [->|N]; [discriminate|].
  destruct (Nat.ltb_spec p q).
  - intros E [<-|Ha] Hb.
    + simpl in Hb. destruct Hb as [Hb|Hb]; [lia|]. specialize (Fb _ Hb). lia.
    + exact (IHa (q :: b) Sa Sb0 E Ha Hb).
  - intros E Ha [<-|Hb].
    + simpl in Ha. destruct Ha as [Ha|Ha]; [lia|]. specialize (Fa _ Ha). lia.
    + exact (IHb Sb E Ha Hb).
Qed.
Lemma seq_sorted a k : StronglySorted lt (seq a k).
Proof.
  revert a. induction k as [|k IH]; intro a; simpl; [constructor|]. constructor; [apply IH|].
  apply Forall_forall. intros b Hb. apply in_seq in Hb. lia.
Qed.
Lemma filter_sorted f l : StronglySorted lt l -> StronglySorted lt (filter f l).
Proof.
  induction l as [|a l IH]; simpl; intro H; [constructor|]. apply StronglySorted_inv in H as [H1 H2].
  destruct (f a); [|auto]. constructor; [auto|]. rewrite Forall_forall in *. intros b Hb.
  apply filter_In in Hb as [Hb _]. auto.
Qed.

(** Two chosen columns are adjacent exactly when a chosen row has both. *)
Lemma node_node_spec m cols rows i j :
  node_node (col_ind m cols rows) i j = true <->
  i <> j /\ exists k, (k < length rows)%nat /\
    has_entry (row_at m (nth k rows 0%nat)) (nth i cols 0%nat) = true /\
    has_entry (row_at m (nth k rows 0%nat)) (nth j cols 0%nat) = true.
Proof.
  assert (S : forall i, StronglySorted lt (col_ind m cols rows i)) by (intro; apply filter_sorted, seq_sorted).
  assert (I : forall i k, In k (col_ind m cols rows i) <-> (k < length rows)%nat /\ has_entry (row_at m (nth k rows 0%nat)) (nth i cols 0%nat) = true).
  { intros a k. unfold col_ind. rewrite filter_In, in_seq. split; intros [H1 H2]; split; auto; lia. }
  assert (G : forall a b, isOrthogonal (col_ind m cols rows a) (col_ind m cols rows b) = false <->
     exists k, (k < length rows)%nat /\ has_entry (row_at m (nth k rows 0%nat)) (nth a cols 0%nat) = true /\
       has_entry (row_at m (nth k rows 0%nat)) (nth b cols 0%nat) = true).
  { intros a b. split.
    - intro H. apply isOrthogonal_false in H as (k & K1 & K2). apply I in K1, K2. exists k. tauto.
    - intros (k & K1 & K2 & K3). destruct (isOrthogonal _ _) eqn:E; [|reflexivity]. exfalso.
      apply (isOrthogonal_true _ _ k (S a) (S b) E); apply I; auto. }
  unfold node_node. destruct (Nat.ltb_spec i j); [|destruct (Nat.ltb_spec j i)].
  - rewrite negb_true_iff, G. split; [intro H1; split; [lia|exact H1]|tauto].
  - rewrite negb_true_iff, G. split.
    + intros (k & K1 & K2 & K3). split; [lia|]. exists k. auto.
    + intros (_ & k & K1 & K2 & K3). exists k. auto.
  - split; [discriminate|]. intros [H1 _]. lia.
Qed.
Lemma node_node_sym ind i j : node_node ind i j = node_node ind j i.
Proof.
  unfold node_node. destruct (Nat.ltb_spec i j), (Nat.ltb_spec j i); try lia; reflexivity.
Qed.
Lemma node_node_irrefl ind i : node_node ind i i = false.
Proof. unfold node_node. rewrite Nat.ltb_irrefl. reflexivity. Qed.

Lemma row_ind_ok m cols rows i : (i < length rows)%nat ->
  row_ok (node_node (col_ind m cols rows)) (length cols) (row_ind m cols rows i).
Proof.
  intro Hi. unfold row_ok, row_ind. conjs.
  - apply NoDup_filter, seq_NoDup.
  - intros a b Ha Hb D. apply filter_In in Ha as [Ha Ea], Hb as [Hb Eb]. apply node_node_spec.
    split; [exact D|]. exists i. auto.
  - intros a Ha. apply filter_In in Ha as [Ha _]. apply in_seq in Ha. lia.
Qed.

(** ** From cliques to cuts *)
Lemma value_ones l x : value (map (fun j => (j, 1)) l) x == fold_right (fun j s => x j + s) 0 l.
Proof. induction l as [|a l IH]; simpl; [reflexivity|]. rewrite IH. lra. Qed.
Lemma sum_perm (x : nat -> Q) l l' : Permutation l l' ->
  fold_right (fun j s => x j + s) 0 l == fold_right (fun j s => x j + s) 0 l'.
Proof. induction 1; simpl; lra. Qed.
Lemma sum_binary_clique (x : nat -> Q) l :
  NoDup l -> (forall a, In a l -> x a == 0 \/ x a == 1) ->
  (forall a b, In a l -> In b l -> a <> b -> x a + x b <= 1) ->
  fold_right (fun j s => x j + s) 0 l <= 1.
Proof.
  induction l as [|a l IH]; simpl; intros N B P; [lra|]. inversion N; subst.
  destruct (B a) as [Z|O]; [auto| |].
  - rewrite Z. assert (X : fold_right (fun j s => x j + s) 0 l <= 1) by (apply IH; auto). lra.
  - assert (X : fold_right (fun j s => x j + s) 0 l == 0); [|lra].
    assert (Y : forall b, In b l -> x b == 0).
    { intros b Hb. destruct (B b) as [Zb|Ob]; auto. assert (x a + x b <= 1) by (apply P; auto; intro; subst; contradiction). lra. }
    clear - Y. induction l as [|b l IH]; simpl; [reflexivity|]. rewrite Y by (left; reflexivity).
    rewrite IH by (intros; apply Y; right; assumption). lra.
Qed.

Lemma value_nonneg v x : (forall j a, In (j, a) v -> 0 <= a * x j) -> 0 <= value v x.
Proof.
  induction v as [|[j a] v IH]; simpl; intro H; [lra|].
  assert (0 <= a * x j) by (apply H; auto). assert (0 <= value v x) by (apply IH; auto). lra.
Qed.
Lemma value_one v x j a : (forall j a, In (j, a) v -> 0 <= a * x j) -> In (j, a) v -> a * x j <= value v x.
Proof.
  induction v as [|[k b] v IH]; simpl; intros H Hin; [contradiction|].
  assert (0 <= b * x k) by (apply H; auto).
  assert (0 <= value v x) by (apply value_nonneg; auto).
  destruct Hin as [E|Hin]; [injection E as -> ->; lra|].
  assert (a * x j <= value v x) by (apply IH; auto). lra.
Qed.
Lemma value_two v x j a k b : (forall j a, In (j, a) v -> 0 <= a * x j) ->
  In (j, a) v -> In (k, b) v -> j <> k -> a * x j + b * x k <= value v x.
Proof.
  induction v as [|[i c] v IH]; simpl; intros H Hj Hk D; [contradiction|].
  assert (0 <= c * x i) by (apply H; auto).
  assert (Hv : forall j a, In (j, a) v -> 0 <= a * x j) by (intros; apply H; auto).
  destruct Hj as [E|Hj], Hk as [F|Hk].
  - congruence.
  - injection E as -> ->. pose proof (value_one v x k b Hv Hk). lra.
  - injection F as -> ->. pose proof (value_one v x j a Hv Hj). lra.
  - specialize (IH Hv Hj Hk D). lra.
Qed.
