(** * Lemmas about the model of CglAllDifferent *)

From Coq Require Import Sorted.
From Verif Require Import Base Model_AllDifferent.
Local Open Scope nat_scope.

Lemma put_same {A} (f : nat -> A) k a : put f k a k = a.
Proof. unfold put. rewrite Nat.eqb_refl. reflexivity. Qed.
Lemma put_other {A} (f : nat -> A) k a i : i <> k -> put f k a i = f i.
Proof. intro H. unfold put. apply Nat.eqb_neq in H. rewrite H. reflexivity. Qed.
Lemma memn_in j l : memn j l = true <-> In j l.
Proof.
  unfold memn. rewrite existsb_exists. split.
  - intros (x & H & E). apply Nat.eqb_eq in E. subst. exact H.
  - intro H. exists j. split; [exact H|apply Nat.eqb_refl].
Qed.

Lemma next_some f jj gap v :
  next f jj gap = Some v ->
  jj <= v < gap /\ f v = true /\ (forall u, jj <= u < v -> f u = false).
Proof.
  unfold next. remember (gap - jj) as len eqn:E.
  revert jj E. induction len as [|len IH]; simpl; intros jj E H; [discriminate|].
  destruct (f jj) eqn:F.
  - apply Some_inj in H. subst. split; [lia|]. split; [exact F|]. intros; lia.
  - apply IH in H; [|lia]. destruct H as (A & B & C).
    split; [lia|]. split; [exact B|].
    intros u U. destruct (Nat.eq_dec u jj) as [->|N]; [exact F|]. apply C. lia.
Qed.
Lemma next_none f jj gap v :
  next f jj gap = None -> jj <= v < gap -> f v = false.
Proof.
  unfold next. intros H L. apply (find_none _ _ H v).
  apply in_seq. lia.
Qed.

(** ** The backtracking search *)
Section Search.
  Variable gap : nat.
  Variable poss : nat -> nat -> bool.
  Variable which : list nat.
  Local Notation n := (length which).
  Local Notation allowed := (allowed poss which).
  Local Notation first := (first gap poss which).
  Local Notation descend := (descend gap poss which).
  Local Notation extend := (extend gap poss which).

  (** [covered] is exactly the set of values on the stack, without repeats. *)
  Definition cov_inv (pos : nat) (stack : nat -> nat) (cov : nat -> bool) : Prop :=
    (forall v, cov v = true <-> exists q, q < pos /\ stack q = v) /\
    (forall p q, p < pos -> q < pos -> stack p = stack q -> p = q) /\
    (forall q, q < pos -> stack q <= gap).

  Lemma cov_inv_push pos stack cov v :
    cov_inv pos stack cov -> cov v = false -> v <= gap ->
    cov_inv (S pos) (put stack pos v) (put cov v true).
  Proof.
    intros (A & B & C) H G. split; [|split].
    - intro u. split.
      + intro U. unfold put in U at 1. destruct (Nat.eqb u v) eqn:E.
        * apply Nat.eqb_eq in E. subst. exists pos. split; [lia|apply put_same].
        * apply A in U as (q & Q & <-). exists q. split; [lia|apply put_other; lia].
      + intros (q & Q & <-). destruct (Nat.eq_dec q pos) as [->|N].
        * rewrite put_same. apply put_same.
        * rewrite (put_other stack) by exact N. unfold put.
          destruct (Nat.eqb _ _); [reflexivity|]. apply A. exists q. split; [lia|reflexivity].
    - intros p q P Q. destruct (Nat.eq_dec p pos) as [->|N], (Nat.eq_dec q pos) as [->|M]; [reflexivity| | |].
      + rewrite put_same, put_other by exact M. intro E. exfalso.
        assert (cov v = true) by (apply A; exists q; split; [lia|symmetry; exact E]). congruence.
      + rewrite put_same, put_other by exact N. intro E. exfalso.
        assert (cov v = true) by (apply A; exists p; split; [lia|exact E]). congruence.
      + rewrite !put_other by assumption. apply B; lia.
    - intros q Q. destruct (Nat.eq_dec q pos) as [->|N]; [rewrite put_same; exact G|].
      rewrite put_other by exact N. apply C. lia.
  Qed.
  Lemma cov_inv_pop pos stack cov :
    cov_inv (S pos) stack cov -> cov_inv pos stack (put cov (stack pos) false).
  Proof.
    intros (A & B & C). split; [|split].
    - intro u. unfold put. destruct (Nat.eqb u (stack pos)) eqn:E.
      + apply Nat.eqb_eq in E. subst u. split; [discriminate|].
        intros (q & Q & F). apply B in F; lia.
      + apply Nat.eqb_neq in E. rewrite A. split; intros (q & Q & <-); exists q.
        * split; [|reflexivity]. assert (q <> pos) by congruence. lia.
        * split; [lia|reflexivity].
    - intros p q P Q. apply B; lia.
    - intros q Q. apply C. lia.
  Qed.
  Lemma cov_inv_ext pos stack stack' cov :
    (forall q, q < pos -> stack' q = stack q) ->
    cov_inv pos stack cov -> cov_inv pos stack' cov.
  Proof.
    intros E (A & B & C). split; [|split].
    - intro v. rewrite A. split; intros (q & Q & <-); exists q; split; auto. symmetry; auto.
    - intros p q P Q. rewrite !E by assumption. apply B; assumption.
    - intros q Q. rewrite E by exact Q. apply C; exact Q.
  Qed.

  Definition ds_ok (d : ds) : Prop :=
    cov_inv (d_pos d) (d_stack d) (d_cov d) /\ d_pos d <= n /\
    (d_good d = true <-> d_pos d = n).

  Lemma extend_ok rem : forall pos jj stack cov,
    rem + pos = n -> cov_inv pos stack cov ->
    ds_ok (extend rem pos jj stack cov) /\ pos <= d_pos (extend rem pos jj stack cov) /\
    (forall q, q < pos -> d_stack (extend rem pos jj stack cov) q = stack q).
  Proof.
    induction rem as [|rem IH]; simpl; intros pos jj stack cov R H.
    - split; [|split; [lia|reflexivity]]. split; [exact H|]. simpl. split; [lia|].
      split; intros; [lia|reflexivity].
    - destruct (next _ jj gap) as [v|] eqn:E.
      + apply next_some in E as (E1 & E2 & _). apply andb_true_iff in E2 as (_ & E2).
        apply negb_true_iff in E2.
        assert (H' : cov_inv (S pos) (put (put stack pos v) (S pos) (first (S pos))) (put cov v true)).
        { apply (cov_inv_ext _ (put stack pos v)).
          - intros q Q. apply put_other. lia.
          - apply cov_inv_push; [exact H|exact E2|lia]. }
        destruct (IH (S pos) (first (S pos)) _ _ ltac:(lia) H') as (A & B & C).
        split; [exact A|]. split; [lia|]. intros q Q. rewrite C by lia.
        rewrite !put_other by lia. reflexivity.
      + simpl. split; [|split; [lia|reflexivity]]. split; [exact H|]. simpl. split; [lia|].
        split; intros; [discriminate|lia].
  Qed.

  Lemma first_le j : first j <= gap.
  Proof.
    unfold Model_AllDifferent.first. destruct (next _ _ _) eqn:E; [|lia].
    apply next_some in E. lia.
  Qed.

  Lemma descend_ok rem : forall j stack cov,
    rem + j = n -> cov_inv j stack cov -> ds_ok (descend rem j stack cov).
  Proof.
    induction rem as [|rem IH]; simpl; intros j stack cov R H.
    - split; [exact H|]. simpl. split; [lia|]. split; intros; [lia|reflexivity].
    - destruct (cov (first j)) eqn:F; simpl.
      + destruct (next _ _ gap) as [v|] eqn:E.
        * apply next_some in E as (E1 & E2 & _). apply andb_true_iff in E2 as (_ & E2).
          apply negb_true_iff in E2. apply IH; [lia|]. apply cov_inv_push; [exact H|exact E2|lia].
        * split; [exact H|]. simpl. split; [lia|]. split; intros; [discriminate|lia].
      + apply IH; [lia|]. apply cov_inv_push; [exact H|exact F|apply first_le].
  Qed.

  Lemma search_step d pos :
    ds_ok d -> d_pos d = S pos ->
    ds_ok (extend (n - pos) pos (S (d_stack d pos)) (put (d_stack d) pos (S (d_stack d pos)))
                  (put (d_cov d) (d_stack d pos) false)) /\
    pos <= d_pos (extend (n - pos) pos (S (d_stack d pos)) (put (d_stack d) pos (S (d_stack d pos)))
                  (put (d_cov d) (d_stack d pos) false)) /\
    (forall q, q < pos ->
      d_stack (extend (n - pos) pos (S (d_stack d pos)) (put (d_stack d) pos (S (d_stack d pos)))
                  (put (d_cov d) (d_stack d pos) false)) q = d_stack d q).
  Proof.
    intros (A & B & C) E. rewrite E in *.
    assert (H : cov_inv pos (put (d_stack d) pos (S (d_stack d pos))) (put (d_cov d) (d_stack d pos) false)).
    { apply (cov_inv_ext _ (d_stack d)); [intros q Q; apply put_other; lia|].
      apply cov_inv_pop. exact A. }
    destruct (extend_ok (n - pos) pos (S (d_stack d pos)) _ _ ltac:(lia) H) as (X & Y & Z).
    split; [exact X|]. split; [exact Y|]. intros q Q. rewrite Z by exact Q. apply put_other. lia.
  Qed.

  (** The assertion on covered never fires. *)
  Lemma cov_ok_true pos stack cov :
    cov_inv pos stack cov -> cov_ok gap pos stack cov = true.
  Proof.
    intros (A & _ & _). unfold cov_ok. apply forallb_forall. intros v _.
    apply eqb_true_iff.
    destruct (cov v) eqn:E; symmetry.
    - apply A in E as (q & Q & <-). apply existsb_exists. exists q.
      split; [apply in_seq; lia|apply Nat.eqb_refl].
    - destruct (existsb _ _) eqn:F; [|reflexivity].
      apply existsb_exists in F as (q & Q & R). apply in_seq in Q. apply Nat.eqb_eq in R.
      assert (cov v = true) by (apply A; exists q; split; [lia|exact R]). congruence.
  Qed.

  (** *** A complete assignment is not missed *)
  Section Hits.
    Variable a : nat -> nat.
    Hypothesis a_ok : forall j, j < n -> allowed j (a j) = true /\ a j < gap.
    Hypothesis a_inj : forall p q, p < n -> q < n -> a p = a q -> p = q.

    Definition ahead (d : ds) : Prop :=
      (d_good d = true /\ forall q, q < n -> a q = d_stack d q) \/
      exists p, p < d_pos d /\ (forall q, q < p -> a q = d_stack d q) /\ d_stack d p < a p.

    Lemma first_le_a j : j < n -> first j <= a j.
    Proof.
      intro J. destruct (a_ok j J) as [A B]. unfold Model_AllDifferent.first.
      destruct (next _ _ _) as [v|] eqn:E.
      - apply next_some in E as (_ & _ & M).
        destruct (le_lt_dec v (a j)); [assumption|]. rewrite M in A by lia. discriminate.
      - rewrite (next_none _ _ _ (a j) E) in A by lia. discriminate.
    Qed.
    Lemma a_uncovered pos stack cov :
      pos < n -> cov_inv pos stack cov -> (forall q, q < pos -> a q = stack q) -> cov (a pos) = false.
    Proof.
      intros P (A & _ & _) H. destruct (cov (a pos)) eqn:E; [|reflexivity].
      apply A in E as (q & Q & F). rewrite <- H in F by exact Q.
      apply a_inj in F; lia.
    Qed.

    Lemma extend_ahead rem : forall pos jj stack cov,
      rem + pos = n -> cov_inv pos stack cov ->
      (forall q, q < pos -> a q = stack q) -> (pos < n -> jj <= a pos) ->
      ahead (extend rem pos jj stack cov).
    Proof.
      induction rem as [|rem IH]; intros pos jj stack cov R H P J.
      - simpl. left. simpl. split; [reflexivity|]. intros q Q. apply P. lia.
      - cbn [Model_AllDifferent.extend].
        pose proof (a_uncovered pos stack cov ltac:(lia) H P) as U.
        destruct (a_ok pos ltac:(lia)) as [A1 A2].
        destruct (next _ jj gap) as [v|] eqn:E.
        + apply next_some in E as (E1 & E2 & E3). apply andb_true_iff in E2 as (_ & E2).
          apply negb_true_iff in E2.
          assert (H' : cov_inv (S pos) (put (put stack pos v) (S pos) (first (S pos))) (put cov v true)).
          { apply (cov_inv_ext _ (put stack pos v)).
            - intros q Q. apply put_other. lia.
            - apply cov_inv_push; [exact H|exact E2|lia]. }
          assert (L : v <= a pos).
          { destruct (le_lt_dec v (a pos)); [assumption|].
            assert (F := E3 (a pos) ltac:(split; [apply J; lia|assumption])). simpl in F.
            rewrite A1, U in F. discriminate. }
          destruct (Nat.eq_dec v (a pos)) as [->|N].
          * apply IH; [lia|exact H'| |].
            -- intros q Q. destruct (Nat.eq_dec q pos) as [->|N].
               ++ rewrite put_other by lia. rewrite put_same. reflexivity.
               ++ rewrite !put_other by lia. apply P. lia.
            -- intro. apply first_le_a. assumption.
          * destruct (extend_ok rem (S pos) (first (S pos)) _ _ ltac:(lia) H') as (_ & Y & Z).
            right. exists pos. split; [lia|]. split.
            -- intros q Q. rewrite Z by lia. rewrite !put_other by lia. apply P. exact Q.
            -- rewrite Z by lia. rewrite put_other, put_same by lia. lia.
        + exfalso. assert (F := next_none _ _ _ (a pos) E ltac:(split; [apply J; lia|assumption])).
          simpl in F. rewrite A1, U in F. discriminate.
    Qed.


    (** the first descent keeps the prefix *)
    Lemma descend_prefix rem : forall pos stack cov q,
      q < pos -> d_stack (descend rem pos stack cov) q = stack q.
    Proof.
      induction rem as [|rem IH]; simpl; intros pos stack cov q Q; [reflexivity|].
      destruct (negb _).
      - rewrite IH by lia. apply put_other. lia.
      - destruct (next _ _ _); [|reflexivity]. rewrite IH by lia. apply put_other. lia.
    Qed.
    Lemma descend_pos rem : forall pos stack cov,
      pos <= d_pos (descend rem pos stack cov).
    Proof.
      induction rem as [|rem IH]; simpl; intros pos stack cov; [lia|].
      destruct (negb _).
      - specialize (IH (S pos) (put stack pos (first pos)) (put cov (first pos) true)). lia.
      - destruct (next _ _ _) as [v|]; [|simpl; lia].
        specialize (IH (S pos) (put stack pos v) (put cov v true)). lia.
    Qed.

    Lemma descend_ahead rem : forall pos stack cov,
      rem + pos = n -> cov_inv pos stack cov ->
      (forall q, q < pos -> a q = stack q) ->
      ahead (descend rem pos stack cov).
    Proof.
      induction rem as [|rem IH]; intros pos stack cov R H P.
      - simpl. left. simpl. split; [reflexivity|]. intros q Q. apply P. lia.
      - pose proof (a_uncovered pos stack cov ltac:(lia) H P) as U.
        destruct (a_ok pos ltac:(lia)) as [A1 A2].
        pose proof (first_le_a pos ltac:(lia)) as FL.
        assert (Step : forall v, cov v = false -> v <= gap -> v <= a pos ->
                  ahead (descend rem (S pos) (put stack pos v) (put cov v true))).
        { intros v V G L. destruct (Nat.eq_dec v (a pos)) as [->|N].
          - apply IH; [lia|apply cov_inv_push; assumption|].
            intros q Q. destruct (Nat.eq_dec q pos) as [->|N]; [rewrite put_same; reflexivity|].
            rewrite put_other by exact N. apply P. lia.
          - right. exists pos. split.
            + pose proof (descend_pos rem (S pos) (put stack pos v) (put cov v true)). lia.
            + split.
              * intros q Q. rewrite descend_prefix by lia. rewrite put_other by lia. apply P. exact Q.
              * rewrite descend_prefix by lia. rewrite put_same. lia. }
        cbn [Model_AllDifferent.descend]. destruct (cov (first pos)) eqn:F; cbn [negb].
        + assert (first pos <> a pos) by congruence.
          destruct (next _ (S (first pos)) gap) as [v|] eqn:E.
          * apply next_some in E as (E1 & E2 & E3). apply andb_true_iff in E2 as (_ & E2).
            apply negb_true_iff in E2. apply Step; [exact E2|lia|].
            destruct (le_lt_dec v (a pos)); [assumption|].
            assert (X := E3 (a pos) ltac:(lia)). simpl in X. rewrite A1, U in X. discriminate.
          * exfalso. assert (X := next_none _ _ _ (a pos) E ltac:(lia)).
            simpl in X. rewrite A1, U in X. discriminate.
        + apply Step; [exact F|apply first_le|exact FL].
    Qed.

    Definition recorded (bm : nat -> nat -> bool) : Prop :=
      forall j, j < n -> bm j (a j) = true.
  End Hits.

  Lemma record_fold stack l : forall bm j v,
    fold_left (fun bm j => put bm j (put (bm j) (stack j) true)) l bm j v =
    bm j v || (memn j l && Nat.eqb v (stack j)).
  Proof.
    induction l as [|i l IH]; simpl; intros bm j v; [rewrite orb_false_r; reflexivity|].
    rewrite IH. unfold put at 1. unfold memn. simpl. destruct (Nat.eqb j i) eqn:E; simpl.
    - apply Nat.eqb_eq in E. subst i. unfold put.
      destruct (Nat.eqb v (stack j)); simpl.
      + rewrite orb_true_r. reflexivity.
      + rewrite andb_false_r. reflexivity.
    - reflexivity.
  Qed.
  Lemma record_spec stack bm j v :
    record which stack bm j v = bm j v || ((j <? n) && Nat.eqb v (stack j)).
  Proof.
    unfold record. rewrite record_fold. f_equal. f_equal.
    destruct (Nat.ltb_spec j n).
    - apply memn_in. apply in_seq. lia.
    - destruct (memn _ _) eqn:E; [|reflexivity]. apply memn_in in E. apply in_seq in E. lia.
  Qed.

  Lemma search_hits debug a fuel :
    (forall j, j < n -> allowed j (a j) = true /\ a j < gap) ->
    (forall p q, p < n -> q < n -> a p = a q -> p = q) ->
    forall d bm bm', ds_ok d -> recorded a bm \/ ahead a d ->
    search debug gap poss which fuel d bm = Done bm' -> recorded a bm'.
  Proof.
    intros Ha Hi. induction fuel as [|fuel IH]; simpl; intros d bm bm' O H E.
    - destruct (d_pos d) as [|pos] eqn:P; [|discriminate]. apply Done_inj in E. subst.
      destruct H as [H|[(G & H)|(p & Q & _)]]; [exact H| |lia].
      apply O in G. rewrite P in G. intros j J. lia.
    - destruct (d_pos d) as [|pos] eqn:P.
      { apply Done_inj in E. subst.
        destruct H as [H|[(G & H)|(p & Q & _)]]; [exact H| |lia].
        apply O in G. rewrite P in G. intros j J. lia. }
      pose proof (search_step d pos O P) as (S1 & S2 & S3).
      destruct (debug && _); [discriminate|].
      eapply IH; [exact S1| |exact E]. clear IH E.
      assert (mono : recorded a bm -> recorded a (if d_good d then record which (d_stack d) bm else bm)).
      { intro R. destruct (d_good d); [|exact R]. intros j J. rewrite record_spec, R by exact J. reflexivity. }
      destruct H as [H|[(G & H)|(p & Q & A & B)]].
      + left. apply mono. exact H.
      + left. rewrite G. intros j J. rewrite record_spec. rewrite (H j J), Nat.eqb_refl.
        apply Nat.ltb_lt in J. rewrite J. simpl. apply orb_true_r.
      + right. destruct (Nat.eq_dec p pos) as [->|N].
        * destruct O as (O1 & O2 & O3). rewrite P in O1, O2.
          apply extend_ahead; [exact Ha|exact Hi|lia| | |].
          -- apply (cov_inv_ext _ (d_stack d)); [intros q Q'; apply put_other; lia|].
             apply cov_inv_pop. exact O1.
          -- intros q Q'. rewrite put_other by lia. apply A. exact Q'.
          -- intros _. lia.
        * right. exists p. split; [lia|]. split.
          -- intros q Q'. rewrite S3 by lia. apply A. exact Q'.
          -- rewrite S3 by lia. exact B.
  Qed.

  Lemma cov_inv_nil : cov_inv 0 (fun _ => 0) (fun _ => false).
  Proof.
    split; [|split]; try (intros; lia).
    intro v. split; [discriminate|]. intros (q & Q & _). lia.
  Qed.

  Theorem bitmap_hits debug fuel nd a bm :
    (forall j, j < n -> allowed j (a j) = true /\ a j < gap) ->
    (forall p q, p < n -> q < n -> a p = a q -> p = q) ->
    bitmap debug gap poss which fuel nd = Done bm ->
    forall j, j < n -> bm j (a j) = true.
  Proof.
    intros Ha Hi E. unfold bitmap in E.
    destruct (nd <? n); [discriminate|]. destruct (debug && _); [discriminate|].
    apply (search_hits debug a fuel Ha Hi _ _ _) in E; [exact E| |].
    - apply descend_ok; [lia|apply cov_inv_nil].
    - right. apply descend_ahead; [exact Ha|exact Hi|lia|apply cov_inv_nil|intros; lia].
  Qed.

  (** *** Only complete assignments are recorded *)
  Definition legal (pos : nat) (stack : nat -> nat) : Prop :=
    forall q, q < pos -> allowed q (stack q) = true /\ stack q < gap.

  Lemma extend_legal rem : forall pos jj stack cov,
    legal pos stack -> legal (d_pos (extend rem pos jj stack cov)) (d_stack (extend rem pos jj stack cov)).
  Proof.
    induction rem as [|rem IH]; simpl; intros pos jj stack cov H; [exact H|].
    destruct (next _ jj gap) as [v|] eqn:E; [|exact H].
    apply next_some in E as (E1 & E2 & _). apply andb_true_iff in E2 as (E2 & _).
    apply IH. intros q Q. rewrite put_other by lia.
    destruct (Nat.eq_dec q pos) as [->|N]; [rewrite put_same; split; [exact E2|lia]|].
    rewrite put_other by exact N. apply H. lia.
  Qed.
  Lemma descend_legal rem : forall pos stack cov,
    rem + pos = n -> (forall j, j < n -> first j < gap) ->
    legal pos stack -> legal (d_pos (descend rem pos stack cov)) (d_stack (descend rem pos stack cov)).
  Proof.
    induction rem as [|rem IH]; simpl; intros pos stack cov R F H; [exact H|].
    assert (Step : forall v c, allowed pos v = true -> v < gap ->
      legal (d_pos (descend rem (S pos) (put stack pos v) c)) (d_stack (descend rem (S pos) (put stack pos v) c))).
    { intros v c A G. apply IH; [lia|exact F|]. intros q Q.
      destruct (Nat.eq_dec q pos) as [->|N]; [rewrite put_same; split; assumption|].
      rewrite put_other by exact N. apply H. lia. }
    destruct (negb _).
    - specialize (F pos ltac:(lia)). apply Step; [|exact F].
      unfold Model_AllDifferent.first in F |- *. destruct (next _ 0 gap) eqn:E; [|lia].
      apply next_some in E. tauto.
    - destruct (next _ _ gap) as [v|] eqn:E; [|exact H].
      apply next_some in E as (E1 & E2 & _). apply andb_true_iff in E2 as (E2 & _).
      apply Step; [exact E2|lia].
  Qed.

  (** value v at position j is part of a complete assignment *)
  Definition supported (j v : nat) : Prop :=
    exists a, (forall q, q < n -> allowed q (a q) = true /\ a q < gap) /\
              (forall p q, p < n -> q < n -> a p = a q -> p = q) /\ a j = v.

  Lemma search_sound debug fuel : forall d bm bm',
    ds_ok d -> legal (d_pos d) (d_stack d) ->
    (forall j v, bm j v = true -> j < n /\ supported j v) ->
    search debug gap poss which fuel d bm = Done bm' ->
    forall j v, bm' j v = true -> j < n /\ supported j v.
  Proof.
    induction fuel as [|fuel IH]; simpl; intros d bm bm' O L H E.
    - destruct (d_pos d); [|discriminate]. apply Done_inj in E. subst. exact H.
    - destruct (d_pos d) as [|pos] eqn:P.
      { apply Done_inj in E. subst. exact H. }
      pose proof (search_step d pos O P) as (S1 & S2 & S3).
      destruct (debug && _); [discriminate|].
      eapply IH; [exact S1| | |exact E]; clear IH E.
      + apply extend_legal. intros q Q. rewrite put_other by lia. apply L. lia.
      + destruct (d_good d) eqn:G; [|exact H].
        intros j v. rewrite record_spec. intro R. apply orb_true_iff in R as [R|R]; [apply H; exact R|].
        apply andb_true_iff in R as (R1 & R2). apply Nat.ltb_lt in R1. apply Nat.eqb_eq in R2.
        split; [exact R1|]. destruct O as ((_ & I & _) & _ & GG). apply GG in G.
        exists (d_stack d). split; [|split].
        * intros q Q. apply L. lia.
        * intros p q Hp Hq. apply I; lia.
        * symmetry. exact R2.
  Qed.
  Theorem bitmap_sound debug fuel nd bm :
    (forall j, j < n -> first j < gap) ->
    bitmap debug gap poss which fuel nd = Done bm ->
    forall j v, bm j v = true -> j < n /\ supported j v.
  Proof.
    intros F E. unfold bitmap in E.
    destruct (nd <? n); [discriminate|]. destruct (debug && _); [discriminate|].
    eapply search_sound; [| | |exact E].
    - apply descend_ok; [lia|apply cov_inv_nil].
    - apply descend_legal; [lia|exact F|]. intros q Q. lia.
    - discriminate.
  Qed.

  (** *** Termination of the search *)
  Definition base := S (S gap).
  (** weight of the stack positions pos .. pos+cnt-1 seen from the bottom *)
  Fixpoint weight (cnt : nat) (stack : nat -> nat) : nat :=
    match cnt with
    | O => 0
    | S c => weight c stack + (S gap - stack c) * base ^ (n - c)
    end.
  Lemma weight_ext c s t : (forall q, q < c -> s q = t q) -> weight c s = weight c t.
  Proof.
    induction c as [|c IH]; simpl; intro H; [reflexivity|].
    rewrite IH by (intros; apply H; lia). rewrite H by lia. reflexivity.
  Qed.
  Lemma weight_tail pos c s :
    pos <= c <= n -> weight c s + base ^ (n - c) * base <= weight pos s + base ^ (n - pos) * base.
  Proof.
    intros [A B]. induction c as [|c IH].
    - assert (pos = 0) by lia. subst. lia.
    - destruct (Nat.eq_dec pos (S c)) as [->|N]; [lia|].
      specialize (IH ltac:(lia) ltac:(lia)). cbn [weight].
      replace (n - c) with (S (n - S c)) in * by lia. cbn [Nat.pow] in *.
      set (w := base ^ (n - S c)) in *.
      assert (S gap - s c <= S gap) by lia.
      assert ((S gap - s c) * (base * w) <= S gap * (base * w)) by (apply Nat.mul_le_mono_r; assumption).
      unfold base in *. nia.
  Qed.
  Lemma weight_search_step d pos :
    ds_ok d -> d_pos d = S pos ->
    let d' := extend (n - pos) pos (S (d_stack d pos)) (put (d_stack d) pos (S (d_stack d pos)))
                     (put (d_cov d) (d_stack d pos) false) in
    weight (d_pos d') (d_stack d') < weight (S pos) (d_stack d).
  Proof.
    intros O P d'. pose proof (search_step d pos O P) as (S1 & S2 & S3). fold d' in S1, S2, S3.
    destruct O as ((O1 & O1' & O1'') & O2 & O3). rewrite P in *.
    assert (SG : d_stack d pos <= gap) by (apply O1''; lia).
    assert (pw : 0 < base ^ (n - pos)) by (apply Nat.neq_0_lt_0, Nat.pow_nonzero; discriminate).
    assert (pre : weight pos (d_stack d') = weight pos (d_stack d)) by (apply weight_ext; exact S3).
    destruct (Nat.eq_dec (d_pos d') pos) as [E|N].
    - rewrite E, pre. cbn [weight]. nia.
    - assert (G : d_stack d pos < d_stack d' pos).
      { unfold d'. clear - N O2. subst d'. revert N.
        destruct (n - pos) as [|rem] eqn:R; [lia|]. simpl.
        destruct (next _ _ gap) as [v|] eqn:E; [|simpl; congruence].
        intros _. apply next_some in E as (E1 & E2 & _).
        assert (K : forall rem p jj st c q, q < p -> d_stack (extend rem p jj st c) q = st q).
        { clear. induction rem as [|rem IH]; simpl; intros p jj st c q Q; [reflexivity|].
          destruct (next _ _ _); [|reflexivity]. rewrite IH by lia. rewrite !put_other by lia. reflexivity. }
        rewrite K by lia. rewrite put_other, put_same by lia. lia. }
      destruct S1 as (_ & S1 & _).
      pose proof (weight_tail (S pos) (d_pos d') (d_stack d') ltac:(lia)) as T.
      cbn [weight] in *. rewrite pre in T.
      assert (0 < base ^ (n - d_pos d')) by (apply Nat.neq_0_lt_0, Nat.pow_nonzero; discriminate).
      replace (n - pos) with (S (n - S pos)) in * by lia. cbn [Nat.pow] in *.
      set (w := base ^ (n - S pos)) in *.
      assert ((S gap - d_stack d' pos) + 1 <= S gap - d_stack d pos) by lia.
      assert (((S gap - d_stack d' pos) + 1) * (base * w) <= (S gap - d_stack d pos) * (base * w))
        by (apply Nat.mul_le_mono_r; assumption).
      assert (0 < base) by (unfold base; lia). nia.
  Qed.
  Lemma search_total debug fuel : forall d bm,
    ds_ok d -> weight (d_pos d) (d_stack d) <= fuel ->
    exists bm', search debug gap poss which fuel d bm = Done bm'.
  Proof.
    induction fuel as [|fuel IH]; simpl; intros d bm O W.
    - destruct (d_pos d) as [|pos] eqn:P; [eauto|]. exfalso.
      pose proof (weight_search_step d pos O P) as H. cbv zeta in H. apply Nat.lt_le_trans with (p := 0) in H; [|exact W]. lia.
    - destruct (d_pos d) as [|pos] eqn:P; [eauto|].
      pose proof (weight_search_step d pos O P) as H. cbv zeta in H.
      pose proof (search_step d pos O P) as (S1 & _).
      assert (C : cov_ok gap pos (d_stack d) (put (d_cov d) (d_stack d pos) false) = true).
      { apply cov_ok_true. apply cov_inv_pop. destruct O as (O & _). rewrite P in O. exact O. }
      rewrite C. simpl. rewrite andb_false_r. apply IH; [exact S1|]. apply Nat.lt_succ_r. eapply Nat.lt_le_trans; [exact H|exact W].
  Qed.
  Theorem bitmap_total debug nd :
    n <= nd -> (debug = true -> forall j, j < n -> first j < gap) ->
    exists f0, forall fuel, f0 <= fuel -> exists bm, bitmap debug gap poss which fuel nd = Done bm.
  Proof.
    intros L F.
    set (d := descend n 0 (fun _ => 0) (fun _ => false)).
    exists (weight (d_pos d) (d_stack d)). intros fuel W. unfold bitmap.
    destruct (Nat.ltb_spec nd n); [lia|].
    assert (A : debug && negb (assert_first gap poss which) = false).
    { destruct debug; [|reflexivity]. simpl. apply negb_false_iff. unfold assert_first.
      apply forallb_forall. intros j J. apply in_seq in J. apply Nat.ltb_lt. apply F; [reflexivity|lia]. }
    rewrite A. fold d. apply search_total; [|exact W].
    apply descend_ok; [lia|apply cov_inv_nil].
  Qed.
  (** the search bound does not depend on more than gap and the set size *)
  Theorem bitmap_total_uniform debug nd fuel :
    n <= nd -> (debug = true -> forall j, j < n -> first j < gap) ->
    base ^ S nd <= fuel -> exists bm, bitmap debug gap poss which fuel nd = Done bm.
  Proof.
    intros L F W.
    set (d := descend n 0 (fun _ => 0) (fun _ => false)).
    assert (O : ds_ok d).
    { apply descend_ok; [apply Nat.add_0_r|apply cov_inv_nil]. }
    unfold bitmap. destruct (Nat.ltb_spec nd n); [lia|].
    assert (A : debug && negb (assert_first gap poss which) = false).
    { destruct debug; [|reflexivity]. simpl. apply negb_false_iff. unfold assert_first.
      apply forallb_forall. intros j J. apply in_seq in J. apply Nat.ltb_lt. apply F; [reflexivity|lia]. }
    rewrite A. fold d. apply search_total; [exact O|].
    destruct O as (_ & O & _).
    assert (T : 0 <= d_pos d <= n) by (split; [apply Nat.le_0_l|exact O]).
    apply (weight_tail _ _ (d_stack d)) in T. cbn [weight] in T.
    rewrite Nat.sub_0_r in T.
    assert (base ^ n * base <= base ^ S nd).
    { rewrite Nat.mul_comm. change (base * base ^ n) with (base ^ S n).
      apply Nat.pow_le_mono_r; [discriminate|lia]. }
    lia.
  Qed.
End Search.

(** ** Clearing a value from the other members of the sets of a variable *)
Definition share (sets : list (list nat)) (k k' : nat) : Prop :=
  exists s, In s sets /\ In k s /\ In k' s.

Lemma clear_inner k v l : forall poss k' v',
  fold_left (fun poss kk => if Nat.eqb kk k then poss else put poss kk (put (poss kk) v false)) l poss k' v' =
  poss k' v' && negb (memn k' l && negb (Nat.eqb k' k) && Nat.eqb v' v).
Proof.
  induction l as [|a l IH]; simpl; intros poss k' v'; [rewrite andb_true_r; reflexivity|].
  rewrite IH. unfold memn at 2. simpl. fold (memn k' l).
  destruct (Nat.eqb_spec a k) as [->|N].
  - destruct (Nat.eqb_spec k' k) as [->|M]; simpl.
    + rewrite !andb_false_r. reflexivity.
    + reflexivity.
  - unfold put at 1. destruct (Nat.eqb_spec k' a) as [->|M]; simpl.
    + unfold put. destruct (Nat.eqb_spec v' v) as [->|V]; simpl.
      * apply Nat.eqb_neq in N. rewrite N. simpl. rewrite andb_false_r. reflexivity.
      * rewrite !andb_false_r. reflexivity.
    + reflexivity.
Qed.
Lemma clear_others_true sets k v : forall poss k' v',
  clear_others sets k v poss k' v' = true <->
  poss k' v' = true /\ ~ (share sets k k' /\ k' <> k /\ v' = v).
Proof.
  unfold clear_others. induction sets as [|s sets IH]; simpl; intros poss k' v'.
  - split; [intro H; split; [exact H|intros ((s & [] & _) & _)]|tauto].
  - rewrite IH. clear IH. destruct (memn k s) eqn:M.
    + apply memn_in in M. rewrite clear_inner.
      destruct (memn k' s) eqn:M'; simpl.
      * apply memn_in in M'.
        destruct (Nat.eqb_spec k' k) as [->|N]; simpl.
        -- split; intros (A & B); rewrite ?andb_true_r in *;
             (split; [exact A|intros (_ & N & _); apply N; reflexivity]).
        -- destruct (Nat.eqb_spec v' v) as [->|V]; simpl.
           ++ rewrite andb_false_r. split; [intros [? _]; discriminate|].
              intros (_ & B). exfalso. apply B. split; [|tauto].
              exists s. split; [left; reflexivity|tauto].
           ++ rewrite andb_true_r. split; intros (A & B);
                (split; [exact A|intros (_ & _ & X); exact (V X)]).
      * rewrite andb_true_r. split; intros (A & B); (split; [exact A|]).
        -- intros ((t & [<-|T] & T1 & T2) & C).
           ++ apply memn_in in T2. congruence.
           ++ apply B. split; [exists t; tauto|exact C].
        -- intros ((t & T & T1) & C). apply B. split; [exists t; split; [right; exact T|exact T1]|exact C].
    + split; intros (A & B); (split; [exact A|]).
      * intros ((t & [<-|T] & T1 & T2) & C).
        -- apply memn_in in T1. congruence.
        -- apply B. split; [exists t; tauto|exact C].
      * intros ((t & T & T1) & C). apply B. split; [exists t; split; [right; exact T|exact T1]|exact C].
Qed.

Lemma filter_seq_in f gap v : In v (filter f (seq 0 gap)) <-> v < gap /\ f v = true.
Proof. rewrite filter_In, in_seq. split; intros [A B]; split; auto; lia. Qed.

(** ** No all-different assignment is lost *)
Section Sound.
  Variable gap nd : nat.
  Variable sets : list (list nat).
  Variable y : nat -> nat.
  Hypothesis y_gap : forall s k, In s sets -> In k s -> y k < gap.
  Hypothesis y_diff : forall s, In s sets -> NoDup (map y s).
  
  Lemma y_inj s k k' : In s sets -> In k s -> In k' s -> k <> k' -> y k <> y k'.
  Proof.
    intros S K K' N E. pose proof (y_diff s S) as D.
    revert K K' D. clear - N E. induction s as [|a s IH]; simpl; intros K K' D; [tauto|].
    apply NoDup_cons_iff in D as (D1 & D2).
    destruct K as [->|K], K' as [->|K'].
    - congruence.
    - apply D1. rewrite E. apply in_map. exact K'.
    - apply D1. rewrite <- E. apply in_map. exact K.
    - apply IH; assumption.
  Qed.

  Definition good (s : st) : Prop :=
    (forall k, k < nd -> s_poss s k (y k) = true) /\
    (forall k v, s_fix s k = Some v -> v = y k) /\
    (forall k v k', s_fix s k = Some v -> share sets k k' -> k' <> k -> s_poss s k' v = false).

  Lemma good_fix s k : good s -> good (fix_var sets k (y k) s).
  Proof.
    intros (A & B & C). unfold good, fix_var; simpl. split; [|split].
    - intros j J. apply clear_others_true. split; [apply A; exact J|].
      intros ((w & W & K & K') & N & E). apply (y_inj w j k W K' K N E).
    - intros j v E. destruct (Nat.eq_dec j k) as [->|N].
      + rewrite put_same in E. apply Some_inj in E. congruence.
      + rewrite put_other in E by exact N. apply B. exact E.
    - intros j v j' E S N.
      destruct (clear_others sets k (y k) (s_poss s) j' v) eqn:F; [|reflexivity].
      apply clear_others_true in F as (F & G). exfalso.
      destruct (Nat.eq_dec j k) as [->|M].
      + rewrite put_same in E. apply Some_inj in E. apply G. split; [exact S|]. split; [exact N|congruence].
      + rewrite put_other in E by exact M. rewrite (C j v j' E S N) in F. discriminate.
  Qed.

  Hypothesis sets_lt : forall s k, In s sets -> In k s -> k < nd.

  Lemma scan_good w : In w sets -> forall l pre check s,
    w = pre ++ l -> good s ->
    (forall v k, check v <> 0 -> In k l -> s_fix s k = Some v -> False) ->
    good (fst (scan_set gap sets l check s)) /\ snd (scan_set gap sets l check s) = false /\
    s_inf (fst (scan_set gap sets l check s)) = s_inf s.
  Proof.
    intros W. induction l as [|k l IH]; simpl; intros pre check s E G J.
    - split; [exact G|split; reflexivity].
    - assert (Kw : In k w) by (subst; apply in_or_app; right; left; reflexivity).
      assert (Lw : forall k', In k' l -> In k' w)
        by (intros; subst; apply in_or_app; right; right; assumption).
      assert (kl : forall k', In k' l -> y k' <> y k).
      { intros k' K' F. pose proof (y_diff w W) as D. rewrite E, map_app in D. simpl in D.
        apply NoDup_remove_2 in D. apply D. apply in_or_app. right. rewrite <- F. apply in_map. exact K'. }
      assert (E' : w = (pre ++ [k]) ++ l) by (rewrite <- app_assoc; exact E).
      destruct G as (A & B & C).
      destruct (s_fix s k) as [v|] eqn:F.
      + destruct (Nat.eqb_spec (check v) 0) as [Z|N].
        * apply (IH (pre ++ [k])); [exact E'|split; [exact A|split; [exact B|exact C]]|].
          intros u k' U K' F'. unfold put in U. destruct (Nat.eqb_spec u v) as [->|M].
          -- apply (kl k' K'). rewrite <- (B _ _ F), <- (B _ _ F'). reflexivity.
          -- apply (J u k'); auto.
        * exfalso. apply (J v k N); [left; reflexivity|exact F].
      + assert (yk : In (y k) (filter (s_poss s k) (seq 0 gap))).
        { apply filter_seq_in. split; [apply (y_gap w k W Kw)|apply A; apply (sets_lt w k W Kw)]. }
        set (al := filter (s_poss s k) (seq 0 gap)) in *.
        assert (J' : forall u k', (if memn u al then S (check u) else check u) <> 0 -> In k' l ->
                     s_fix s k' = Some u -> False).
        { intros u k' U K' F'. destruct (memn u al) eqn:M.
          - apply memn_in, filter_seq_in in M as (_ & M).
            rewrite (C k' u k F') in M; [discriminate| |].
            + exists w. split; [exact W|]. split; [apply Lw; exact K'|exact Kw].
            + intros ->. apply (kl k' K'). reflexivity.
          - apply (J u k'); auto. }
        assert (GG : good s) by (split; [exact A|split; [exact B|exact C]]).
        destruct al as [|v [|v2 al]]; [destruct yk| |].
        * destruct yk as [->|[]].
          refine (IH (pre ++ [k]) _ (fix_var sets k (y k) s) E' (good_fix s k GG) _).
          intros u k' U K' F'. simpl in F'.
          rewrite put_other in F' by (intros ->; apply (kl k K'); reflexivity).
          unfold put in U. destruct (Nat.eqb_spec u (y k)) as [->|M].
          -- apply (kl k' K'). symmetry. apply (B _ _ F').
          -- apply (J' u k'); auto.
        * apply (IH (pre ++ [k])); [exact E'|exact GG|exact J'].
  Qed.

  Lemma prune_good bm : forall w j s,
    (forall i, i < length w -> bm (j + i) (y (nth i w 0)) = true) ->
    good s -> good (prune gap bm j w s) /\ s_inf (prune gap bm j w s) = s_inf s.
  Proof.
    induction w as [|k w IH]; simpl; intros j s H G; [split; [exact G|reflexivity]|].
    destruct (IH (S j) (prune_one gap (bm j) k s)) as [X Y].
    - intros i I. replace (S j + i) with (j + S i) by lia. apply (H (S i)). lia.
    - destruct G as (A & B & C). unfold good, prune_one; simpl. split; [|split].
      + intros k' K'. destruct (Nat.eq_dec k' k) as [->|N].
        * rewrite put_same. specialize (H 0 ltac:(lia)). simpl in H. rewrite Nat.add_0_r in H.
          rewrite H. rewrite andb_false_r. apply A. exact K'.
        * rewrite put_other by exact N. apply A. exact K'.
      + exact B.
      + intros k1 v k2 F S N. destruct (Nat.eq_dec k2 k) as [->|M].
        * rewrite put_same. destruct (_ && _); [reflexivity|]. apply (C k1 v k F S N).
        * rewrite put_other by exact M. apply (C k1 v k2 F S N).
    - split; [exact X|]. rewrite Y. reflexivity.
  Qed.

  Lemma nth_inj w : In w sets -> forall p q, p < length w -> q < length w ->
    y (nth p w 0) = y (nth q w 0) -> p = q.
  Proof.
    intros W p q P Q E. pose proof (y_diff w W) as D.
    rewrite (NoDup_nth (map y w) (y 0)) in D. apply D; try (rewrite map_length; assumption).
    rewrite !map_nth. exact E.
  Qed.

  Lemma pass_good debug fuel : forall l s s',
    incl l sets -> good s -> s_inf s = false ->
    one_pass debug fuel gap nd sets l s = Done s' -> good s' /\ s_inf s' = false.
  Proof.
    induction l as [|w l IH]; intros s s' I G F E; cbn [one_pass] in E.
    - apply Done_inj in E. subst. split; assumption.
    - assert (W : In w sets) by (apply I; left; reflexivity).
      destruct (scan_good w W w [] (fun _ => 0) s eq_refl G) as (X & Y & Z).
      { intros v k H. exfalso. apply H. reflexivity. }
      cbv zeta in E. rewrite Y in E. rewrite Z, F in E.
      assert (I' : incl l sets) by (intros t T; apply I; right; exact T).
      destruct ((gap <? 30)%nat && negb false).
      + apply bind_done in E as (bm & E1 & E2).
        assert (H : forall j, j < length w -> bm j (y (nth j w 0)) = true).
        { apply (bitmap_hits gap (s_poss (fst (scan_set gap sets w (fun _ => 0) s))) w debug fuel nd (fun j => y (nth j w 0)) bm); [| |exact E1].
          - intros j J. assert (In (nth j w 0) w) by (apply nth_In; exact J). split.
            + apply X. apply (sets_lt w _ W H).
            + apply (y_gap w _ W H).
          - apply nth_inj. exact W. }
        destruct (prune_good bm w 0 _ H X) as (P1 & P2).
        apply (IH _ _ I' P1); [congruence|exact E2].
      + apply (IH _ _ I' X); [congruence|exact E].
  Qed.
  Lemma passes_good debug fuel f : forall s s',
    good s -> s_inf s = false ->
    passes debug fuel gap nd sets f s = Done s' -> good s' /\ s_inf s' = false.
  Proof.
    induction f as [|f IH]; simpl; intros s s' G F E; [discriminate|].
    apply bind_done in E as (s1 & E1 & E2).
    apply pass_good in E1 as (G1 & F1); [|apply incl_refl|exact G|exact F].
    set (fin := if (s_nfix s <? s_nfix s1)%nat then false else s_fin s1) in E2.
    assert (G2 : good (St (s_poss s1) (s_fix s1) (s_nfix s1) (s_inf s1) fin)) by exact G1.
    destruct fin.
    - apply Done_inj in E2. subst. split; [exact G2|exact F1].
    - apply (IH _ _ G2); [exact F1|exact E2].
  Qed.

  (** With an all-different assignment present the assertions hold too. *)
  Lemma pass_safe debug fuel : forall l s,
    incl l sets -> good s -> s_inf s = false ->
    (forall w, In w sets -> length w <= nd) -> base gap ^ S nd <= fuel ->
    exists s', one_pass debug fuel gap nd sets l s = Done s'.
  Proof.
    induction l as [|w l IH]; intros s I G F L U; cbn [one_pass]; [eauto|].
    assert (W : In w sets) by (apply I; left; reflexivity).
    destruct (scan_good w W w [] (fun _ => 0) s eq_refl G) as (X & Y & Z).
    { intros v k H. exfalso. apply H. reflexivity. }
    cbv zeta. rewrite Y, Z, F.
    assert (I' : incl l sets) by (intros t T; apply I; right; exact T).
    destruct ((gap <? 30)%nat && negb false).
    - assert (al : forall j, j < length w -> In (nth j w 0) w) by (intros; apply nth_In; assumption).
      destruct (bitmap_total_uniform gap (s_poss (fst (scan_set gap sets w (fun _ => 0) s))) w debug nd fuel) as (bm & E1).
      + apply L. exact W.
      + intros _ j J.
        assert (first gap (s_poss (fst (scan_set gap sets w (fun _ => 0) s))) w j <= y (nth j w 0)).
        { apply (first_le_a gap (s_poss (fst (scan_set gap sets w (fun _ => 0) s))) w (fun j => y (nth j w 0))); [|exact J].
          intros i Hi. split.
          - apply X. apply (sets_lt w _ W (al i Hi)).
          - apply (y_gap w _ W (al i Hi)). }
        pose proof (y_gap w _ W (al j J)). lia.
      + exact U.
      + assert (H : forall j, j < length w -> bm j (y (nth j w 0)) = true).
        { apply (bitmap_hits gap (s_poss (fst (scan_set gap sets w (fun _ => 0) s))) w debug fuel nd (fun j => y (nth j w 0)) bm); [| |exact E1].
          - intros j J. split.
            + apply X. apply (sets_lt w _ W (al j J)).
            + apply (y_gap w _ W (al j J)).
          - apply nth_inj. exact W. }
        destruct (prune_good bm w 0 _ H X) as (P1 & P2).
        destruct (IH _ I' P1) as (s' & E2); [congruence|exact L|exact U|].
        exists s'. rewrite E1. exact E2.
    - apply (IH _ I' X); [congruence|exact L|exact U].
  Qed.

  Lemma init_good offset bnd l : forall s,
    (forall i, In i l -> Z.eqb (snd (bnd i) - fst (bnd i) + 1) 1 = true -> Z.to_nat (fst (bnd i) - offset) = y i) ->
    good s -> good (fold_left (init_fix sets offset bnd) l s) /\
              s_inf (fold_left (init_fix sets offset bnd) l s) = s_inf s.
  Proof.
    induction l as [|i l IH]; simpl; intros s H G; [split; [exact G|reflexivity]|].
    assert (G' : good (init_fix sets offset bnd s i) /\ s_inf (init_fix sets offset bnd s i) = s_inf s).
    { unfold init_fix. destruct (Z.eqb _ _) eqn:E; [|split; [exact G|reflexivity]].
      rewrite (H i) by auto. split; [apply good_fix; exact G|reflexivity]. }
    destruct G' as [G1 G2]. destruct (IH (init_fix sets offset bnd s i)) as [A B]; auto.
    split; [exact A|]. congruence.
  Qed.
End Sound.

(** ** Termination of the passes *)
Section Term.
  Variable gap nd : nat.
  Variable sets : list (list nat).
  Hypothesis sets_lt : forall s k, In s sets -> In k s -> k < nd.

  (** [s'] has lost values and gained fixings with respect to [s]. *)
  Definition later (s s' : st) : Prop :=
    (forall k v, s_poss s' k v = true -> s_poss s k v = true) /\
    (forall k, s_fix s' k = None -> s_fix s k = None).
  Lemma later_refl s : later s s.
  Proof. split; auto. Qed.
  Lemma later_trans s t u : later s t -> later t u -> later s u.
  Proof. intros (A & B) (C & D). split; auto. Qed.

  Definition progress (s s' : st) : Prop :=
    (exists k, k < nd /\ s_fix s k = None /\ s_fix s' k <> None) \/
    (exists k v, k < nd /\ v < gap /\ s_poss s k v = true /\ s_poss s' k v = false).

  (** what a part of a pass does to the state *)
  Definition moves (s s' : st) : Prop :=
    later s s' /\ s_nfix s <= s_nfix s' /\
    (s_nfix s < s_nfix s' -> progress s s') /\
    (s_fin s = true -> s_fin s' = false -> progress s s').
  Lemma progress_l s t u : later s t -> progress t u -> progress s u.
  Proof.
    intros (A & B) [(k & K & E & F)|(k & v & K & V & E & F)].
    - left. exists k. auto.
    - right. exists k, v. auto.
  Qed.
  Lemma progress_r s t u : progress s t -> later t u -> progress s u.
  Proof.
    intros [(k & K & E & F)|(k & v & K & V & E & F)] (A & B).
    - left. exists k. split; [exact K|]. split; [exact E|]. intro G. apply F. apply B. exact G.
    - right. exists k, v. repeat (split; [assumption|]).
      destruct (s_poss u k v) eqn:G; [|reflexivity]. apply A in G. congruence.
  Qed.
  Lemma moves_refl s : moves s s.
  Proof. split; [apply later_refl|]. split; [lia|]. split; [lia|congruence]. Qed.
  Lemma moves_trans s t u : moves s t -> moves t u -> moves s u.
  Proof.
    intros (A & B & C & D) (A' & B' & C' & D').
    split; [eapply later_trans; eauto|]. split; [lia|]. split.
    - intro L. destruct (Nat.eq_dec (s_nfix s) (s_nfix t)) as [E|N].
      + eapply progress_l; [exact A|]. apply C'. lia.
      + eapply progress_r; [|exact A']. apply C. lia.
    - intros E F. destruct (s_fin t) eqn:G.
      + eapply progress_l; [exact A|]. apply D'; auto.
      + eapply progress_r; [|exact A']. apply D; auto.
  Qed.

  Lemma moves_fix k v s : k < nd -> s_fix s k = None -> moves s (fix_var sets k v s).
  Proof.
    intros K F. assert (Pr : progress s (fix_var sets k v s)).
    { left. exists k. split; [exact K|]. split; [exact F|]. simpl. rewrite put_same. discriminate. }
    split; [|simpl; split; [lia|split; auto]].
    split; simpl.
    - intros j u H. apply clear_others_true in H. tauto.
    - intros j. destruct (Nat.eq_dec j k) as [->|N]; [rewrite put_same; discriminate|].
      rewrite put_other by exact N. auto.
  Qed.
  Lemma scan_moves w : (forall k, In k w -> k < nd) -> forall check s,
    moves s (fst (scan_set gap sets w check s)).
  Proof.
    induction w as [|k w IH]; simpl; intros L check s; [apply moves_refl|].
    assert (L' : forall k, In k w -> k < nd) by auto.
    destruct (s_fix s k) as [v|] eqn:F.
    - destruct (Nat.eqb _ _); [apply IH; exact L'|]. exact (moves_refl s).
    - destruct (filter _ _) as [|v [|v2 al]].
      + exact (moves_refl s).
      + eapply moves_trans; [apply (moves_fix k v); auto|apply IH; exact L'].
      + apply IH. exact L'.
  Qed.
  Lemma prune_moves bm w : (forall k, In k w -> k < nd) -> forall j s,
    moves s (prune gap bm j w s).
  Proof.
    induction w as [|k w IH]; simpl; intros L j s; [apply moves_refl|].
    eapply moves_trans; [|apply IH; auto]. clear IH.
    split; [|simpl; split; [lia|split; [lia|]]].
    - split; simpl; [|auto]. intros k' v. destruct (Nat.eq_dec k' k) as [->|N].
      + rewrite put_same. destruct (_ && _); [discriminate|auto].
      + rewrite put_other by exact N. auto.
    - intros T. rewrite T. destruct (existsb _ _) eqn:E; [|discriminate]. intros _.
      apply existsb_exists in E as (v & V & E). apply andb_true_iff in E as (E1 & E2).
      apply in_seq in V. right. exists k, v. split; [apply L; left; reflexivity|].
      split; [lia|]. split; [exact E2|]. simpl. rewrite put_same.
      rewrite E1. destruct (Nat.ltb_spec v gap); [reflexivity|lia].
  Qed.
  Lemma pass_moves debug fuel : forall l s s',
    incl l sets -> one_pass debug fuel gap nd sets l s = Done s' -> moves s s'.
  Proof.
    induction l as [|w l IH]; intros s s' I E; cbn [one_pass] in E.
    - apply Done_inj in E. subst. apply moves_refl.
    - assert (W : forall k, In k w -> k < nd) by (intros k; apply sets_lt; apply I; left; reflexivity).
      assert (I' : incl l sets) by (intros t T; apply I; right; exact T).
      pose proof (scan_moves w W (fun _ => 0) s) as M. cbv zeta in E.
      destruct (snd _).
      + apply Done_inj in E. subst. exact M.
      + destruct (_ && _).
        * apply bind_done in E as (bm & E1 & E2).
          eapply moves_trans; [exact M|]. eapply moves_trans; [apply (prune_moves bm w W 0)|].
          apply IH; [exact I'|exact E2].
        * eapply moves_trans; [exact M|]. apply IH; [exact I'|exact E].
  Qed.

  (** a measure that progress decreases *)
  Definition unfixed (s : st) : nat :=
    length (filter (fun k => match s_fix s k with None => true | Some _ => false end) (seq 0 nd)).
  Definition row_size (s : st) (k : nat) : nat := length (filter (s_poss s k) (seq 0 gap)).
  Definition measure (s : st) : nat := unfixed s + list_sum (map (row_size s) (seq 0 nd)).

  Lemma filter_len {A} (f : A -> bool) l : length (filter f l) <= length l.
  Proof. induction l as [|a l IH]; simpl; [lia|]. destruct (f a); simpl; lia. Qed.
  Lemma filter_len_le {A} (f g : A -> bool) l :
    (forall a, In a l -> f a = true -> g a = true) ->
    length (filter f l) <= length (filter g l).
  Proof.
    induction l as [|a l IH]; simpl; intro H; [lia|].
    specialize (IH ltac:(auto)). destruct (f a) eqn:F.
    - rewrite (H a) by auto. simpl. lia.
    - destruct (g a); simpl; lia.
  Qed.
  Lemma filter_len_lt {A} (f g : A -> bool) l :
    (forall a, In a l -> f a = true -> g a = true) ->
    (exists a, In a l /\ f a = false /\ g a = true) ->
    length (filter f l) < length (filter g l).
  Proof.
    induction l as [|a l IH]; simpl; intros H (x & X & F & G); [tauto|].
    destruct X as [->|X].
    - rewrite F, G. simpl.
      pose proof (filter_len_le f g l ltac:(auto)). lia.
    - specialize (IH ltac:(auto) ltac:(eauto)). destruct (f a) eqn:Fa.
      + rewrite (H a) by auto. simpl. lia.
      + destruct (g a); simpl; lia.
  Qed.
  Lemma sum_le {A} (f g : A -> nat) l :
    (forall a, In a l -> f a <= g a) -> list_sum (map f l) <= list_sum (map g l).
  Proof.
    induction l as [|a l IH]; simpl; intro H; [lia|].
    specialize (IH ltac:(auto)). specialize (H a (or_introl eq_refl)). lia.
  Qed.
  Lemma sum_lt {A} (f g : A -> nat) l :
    (forall a, In a l -> f a <= g a) -> (exists a, In a l /\ f a < g a) ->
    list_sum (map f l) < list_sum (map g l).
  Proof.
    induction l as [|a l IH]; simpl; intros H (x & X & L); [tauto|].
    pose proof (sum_le f g l ltac:(auto)). pose proof (H a (or_introl eq_refl)).
    destruct X as [->|X]; [lia|]. specialize (IH ltac:(auto) ltac:(eauto)). lia.
  Qed.
  Lemma measure_lt s s' : later s s' -> progress s s' -> measure s' < measure s.
  Proof.
    intros (A & B) P. unfold measure.
    assert (U : unfixed s' <= unfixed s).
    { unfold unfixed. apply filter_len_le. intros k _. specialize (B k).
      destruct (s_fix s' k); [discriminate|]. rewrite B by reflexivity. auto. }
    assert (R : forall k, row_size s' k <= row_size s k).
    { intro k. unfold row_size. apply filter_len_le. auto. }
    destruct P as [(k & K & E & F)|(k & v & K & V & E & F)].
    - assert (unfixed s' < unfixed s).
      { unfold unfixed. apply filter_len_lt.
        - intros j _. specialize (B j).
          destruct (s_fix s' j); [discriminate|]. rewrite B by reflexivity. auto.
        - exists k. split; [apply in_seq; lia|]. rewrite E. split; [|reflexivity].
          destruct (s_fix s' k); [reflexivity|congruence]. }
      pose proof (sum_le (row_size s') (row_size s) (seq 0 nd) ltac:(auto)). lia.
    - assert (list_sum (map (row_size s') (seq 0 nd)) < list_sum (map (row_size s) (seq 0 nd))).
      { apply sum_lt; [auto|]. exists k. split; [apply in_seq; lia|].
        unfold row_size. apply filter_len_lt; [auto|]. exists v. split; [apply in_seq; lia|]. auto. }
      lia.
  Qed.
  Lemma measure_bound s : measure s <= nd + nd * gap.
  Proof.
    unfold measure.
    assert (unfixed s <= nd).
    { unfold unfixed. etransitivity; [apply filter_len|]. rewrite seq_length. lia. }
    assert (list_sum (map (row_size s) (seq 0 nd)) <= list_sum (map (fun _ => gap) (seq 0 nd))).
    { apply sum_le. intros k _. unfold row_size. etransitivity; [apply filter_len|].
      rewrite seq_length. lia. }
    assert (forall l : list nat, list_sum (map (fun _ => gap) l) = length l * gap).
    { induction l; simpl; lia. }
    rewrite H1, seq_length in H0. lia.
  Qed.

  Lemma passes_total debug fuel (P : st -> Prop) :
    (forall s fin, P s -> P (St (s_poss s) (s_fix s) (s_nfix s) (s_inf s) fin)) ->
    (forall s, P s -> exists s', one_pass debug fuel gap nd sets sets s = Done s' /\ P s') ->
    forall f s, P s -> measure s < f -> exists s', passes debug fuel gap nd sets f s = Done s'.
  Proof.
    intros Pf Ps. induction f as [|f IH]; intros s H M; [lia|]. cbn [passes].
    destruct (Ps _ (Pf s true H)) as (s1 & E & P1).
    cbv zeta. rewrite E. cbn [bind].
    pose proof (pass_moves _ _ _ _ _ (incl_refl _) E) as (V1 & V2 & V3 & V4). cbn in V1, V2, V3, V4.
    assert (L : later s s1) by exact V1.
    destruct (s_nfix s <? s_nfix s1)%nat eqn:N.
    - apply Nat.ltb_lt in N. apply IH; [apply Pf; exact P1|].
      assert (measure s1 < measure s) by (apply measure_lt; [exact L|exact (V3 N)]).
      change (measure s1 < f). lia.
    - destruct (s_fin s1) eqn:F; [eauto|]. apply IH; [apply Pf; exact P1|].
      assert (measure s1 < measure s) by (apply measure_lt; [exact L|exact (V4 eq_refl eq_refl)]).
      change (measure s1 < f). lia.
  Qed.

  Lemma pass_release_total fuel : forall l s,
    incl l sets -> (forall w, In w sets -> length w <= nd) -> base gap ^ S nd <= fuel ->
    exists s', one_pass false fuel gap nd sets l s = Done s'.
  Proof.
    induction l as [|w l IH]; intros s I L U; cbn [one_pass]; [eauto|].
    assert (W : In w sets) by (apply I; left; reflexivity).
    assert (I' : incl l sets) by (intros t T; apply I; right; exact T).
    cbv zeta. destruct (snd _); [eauto|]. destruct (_ && _); [|apply IH; assumption].
    destruct (bitmap_total_uniform gap (s_poss (fst (scan_set gap sets w (fun _ => 0) s))) w false nd fuel) as (bm & E1).
    - apply L. exact W.
    - discriminate.
    - exact U.
    - rewrite E1. apply IH; assumption.
  Qed.
End Term.

(** ** What is left after the last pass is attainable *)
Section Complete.
  Variable gap nd : nat.
  Variable sets : list (list nat).
  Hypothesis sets_lt : forall s k, In s sets -> In k s -> k < nd.
  Hypothesis sets_nodup : forall s, In s sets -> NoDup s.

  Definition row_empty (s : st) (k : nat) : Prop := forall v, v < gap -> s_poss s k v = false.
  (** The next full pass over the sets is bound to find infeasibility. *)
  Definition doomed (s : st) : Prop :=
    (exists w k, In w sets /\ In k w /\ s_fix s k = None /\ row_empty s k) \/
    (exists w k k' v, In w sets /\ In k w /\ In k' w /\ k <> k' /\
                      s_fix s k = Some v /\ s_fix s k' = Some v).
  Definition inv (s : st) : Prop :=
    (forall k v, s_fix s k = Some v -> v < gap /\ forall u, u < gap -> s_poss s k u = true -> u = v) /\
    (forall k v w, s_fix s k = Some v -> In w sets -> In k w -> s_poss s k v = true \/ doomed s).

  Lemma doomed_shrink s s' :
    (forall k v, s_poss s' k v = true -> s_poss s k v = true) ->
    (forall k v, s_fix s k = Some v -> s_fix s' k = Some v) ->
    (forall k, s_fix s k = None -> row_empty s k -> s_fix s' k = None) ->
    doomed s -> doomed s'.
  Proof.
    intros A B C [(w & k & W & K & F & R)|(w & k & k' & v & W & K & K' & N & F & F')].
    - left. exists w, k. conjs; auto. intros v V. destruct (s_poss s' k v) eqn:E; [|reflexivity].
      apply A in E. rewrite R in E by exact V. discriminate.
    - right. exists w, k, k', v. conjs; auto.
  Qed.

  Lemma row_dec (s : st) k : {exists v, v < gap /\ s_poss s k v = true} + {row_empty s k}.
  Proof.
    destruct (existsb (s_poss s k) (seq 0 gap)) eqn:E.
    - left. apply existsb_exists in E as (v & V & E). apply in_seq in V. exists v. split; [lia|exact E].
    - right. intros v V. destruct (s_poss s k v) eqn:F; [|reflexivity].
      assert (existsb (s_poss s k) (seq 0 gap) = true); [|congruence].
      apply existsb_exists. exists v. split; [apply in_seq; lia|exact F].
  Qed.

  Lemma inv_fix s k v :
    inv s -> s_fix s k = None -> v < gap -> s_poss s k v = true ->
    (forall u, u < gap -> s_poss s k u = true -> u = v) -> inv (fix_var sets k v s).
  Proof.
    intros (A & B) F V P U.
    assert (D : doomed s -> doomed (fix_var sets k v s)).
    { apply doomed_shrink; simpl.
      - intros j u H. apply clear_others_true in H. tauto.
      - intros j u H. rewrite put_other by congruence. exact H.
      - intros j H R. destruct (Nat.eq_dec j k) as [->|N].
        + rewrite R in P by exact V. discriminate.
        + rewrite put_other by exact N. exact H. }
    split; simpl.
    - intros j u E. destruct (Nat.eq_dec j k) as [->|N].
      + rewrite put_same in E. apply Some_inj in E. subst u. split; [exact V|].
        intros u Hu H. apply clear_others_true in H. apply U; tauto.
      + rewrite put_other in E by exact N. destruct (A j u E) as (A1 & A2). split; [exact A1|].
        intros x X H. apply clear_others_true in H. apply A2; tauto.
    - intros j u w E W J. destruct (Nat.eq_dec j k) as [->|N].
      + rewrite put_same in E. apply Some_inj in E. subst u. left.
        apply clear_others_true. split; [exact P|]. intros (_ & X & _). apply X. reflexivity.
      + rewrite put_other in E by exact N. destruct (B j u w E W J) as [H|H]; [|right; auto].
        destruct (clear_others sets k v (s_poss s) j u) eqn:G; [left; reflexivity|]. right.
        assert (X : share sets k j /\ u = v).
        { destruct (Nat.eq_dec u v) as [->|M].
          - split; [|reflexivity].
            assert (Y : {share sets k j} + {~ share sets k j}).
            { unfold share. clear. induction sets as [|t l IH].
              - right. intros (t & [] & _).
              - destruct IH as [IH|IH].
                + left. destruct IH as (x & X & Y). exists x. split; [right; exact X|exact Y].
                + destruct (in_dec Nat.eq_dec k t), (in_dec Nat.eq_dec j t).
                  * left. exists t. split; [left; reflexivity|]. split; assumption.
                  * right. intros (x & [<-|X] & Y & Z); [contradiction|]. apply IH. exists x. tauto.
                  * right. intros (x & [<-|X] & Y & Z); [contradiction|]. apply IH. exists x. tauto.
                  * right. intros (x & [<-|X] & Y & Z); [contradiction|]. apply IH. exists x. tauto. }
            destruct Y as [Y|Y]; [exact Y|].
            assert (clear_others sets k v (s_poss s) j v = true); [|congruence].
            apply clear_others_true. split; [exact H|tauto].
          - assert (clear_others sets k v (s_poss s) j u = true); [|congruence].
            apply clear_others_true. split; [exact H|tauto]. }
        destruct X as ((t & T & Tk & Tj) & ->).
        right. exists t, j, k, v. simpl. conjs; auto.
        * rewrite put_other by exact N. exact E.
        * apply put_same.
  Qed.
  (** fixing a variable whose only value is already taken *)
  Lemma inv_fix_taken s k v w k' :
    inv s -> s_fix s k = None -> v < gap -> row_empty s k ->
    In w sets -> In k w -> In k' w -> k' <> k -> s_fix s k' = Some v ->
    inv (fix_var sets k v s).
  Proof.
    intros (A & B) F V R W K K' N F'.
    assert (D : doomed (fix_var sets k v s)).
    { right. exists w, k, k', v. simpl. conjs; auto.
      - apply put_same.
      - rewrite put_other by exact N. exact F'. }
    split; simpl.
    - intros j u E. destruct (Nat.eq_dec j k) as [->|M].
      + rewrite put_same in E. apply Some_inj in E. subst u. split; [exact V|].
        intros u Hu H. apply clear_others_true in H as (H & _). rewrite R in H by exact Hu. discriminate.
      + rewrite put_other in E by exact M. destruct (A j u E) as (A1 & A2). split; [exact A1|].
        intros x X H. apply clear_others_true in H. apply A2; tauto.
    - intros. right. exact D.
  Qed.

  Lemma scan_inv w : forall check s, inv s -> inv (fst (scan_set gap sets w check s)).
  Proof.
    induction w as [|k w IH]; simpl; intros check s I; [exact I|].
    destruct (s_fix s k) as [v|] eqn:F.
    - destruct (Nat.eqb _ _); [apply IH; exact I|]. exact I.
    - destruct (filter (s_poss s k) (seq 0 gap)) as [|v [|v2 al]] eqn:E.
      + exact I.
      + apply IH. assert (X : forall u, In u [v] <-> u < gap /\ s_poss s k u = true).
        { intro u. rewrite <- E. apply filter_seq_in. }
        apply inv_fix; auto.
        * apply X. left. reflexivity.
        * apply X. left. reflexivity.
        * intros u U P. assert (H : In u [v]) by (apply X; auto). destruct H as [->|[]]. reflexivity.
      + apply IH. exact I.
  Qed.

  Lemma prune_fix bm : forall w j s k, s_fix (prune gap bm j w s) k = s_fix s k.
  Proof. induction w as [|a w IH]; simpl; intros j s k; [reflexivity|]. rewrite IH. reflexivity. Qed.
  Lemma prune_poss_other bm : forall w j s k v, ~ In k w ->
    s_poss (prune gap bm j w s) k v = s_poss s k v.
  Proof.
    induction w as [|a w IH]; simpl; intros j s k v N; [reflexivity|].
    rewrite IH by tauto. simpl. rewrite put_other by (intros ->; tauto). reflexivity.
  Qed.
  Lemma prune_poss bm : forall w j s i v, NoDup w -> i < length w ->
    s_poss (prune gap bm j w s) (nth i w 0) v =
    if (v <? gap) && negb (bm (j + i) v) then false else s_poss s (nth i w 0) v.
  Proof.
    induction w as [|a w IH]; simpl; intros j s i v D L; [lia|].
    apply NoDup_cons_iff in D as (D1 & D2). destruct i as [|i].
    - rewrite prune_poss_other by exact D1. simpl. rewrite put_same, Nat.add_0_r. reflexivity.
    - rewrite IH by (auto; lia). replace (S j + i) with (j + S i) by lia.
      assert (nth i w 0 <> a) by (intros E; apply D1; rewrite <- E; apply nth_In; lia).
      simpl. rewrite put_other by assumption. reflexivity.
  Qed.
  Lemma prune_shrink bm w j s k v :
    NoDup w -> s_poss (prune gap bm j w s) k v = true -> s_poss s k v = true.
  Proof.
    intros D H. destruct (in_dec Nat.eq_dec k w) as [I|N].
    - apply (In_nth _ _ 0) in I as (i & L & <-). rewrite prune_poss in H by assumption.
      destruct (_ && _); [discriminate|exact H].
    - rewrite prune_poss_other in H by exact N. exact H.
  Qed.

  Lemma first_lt poss w j : (exists v, v < gap /\ allowed poss w j v = true) -> first gap poss w j < gap.
  Proof.
    intros (v & V & A). unfold first. destruct (next _ _ _) as [u|] eqn:E.
    - apply next_some in E. lia.
    - rewrite (next_none _ _ _ v E) in A by lia. discriminate.
  Qed.

  Lemma forall_or_exists (n : nat) (P Q : nat -> Prop) :
    (forall i, i < n -> P i \/ Q i) -> (forall i, i < n -> P i) \/ exists i, i < n /\ Q i.
  Proof.
    induction n as [|n IH]; intro H; [left; intros; lia|].
    destruct (H n ltac:(lia)) as [A|A].
    - destruct IH as [B|(i & I & B)].
      + intros i I. apply H. lia.
      + left. intros i I. destruct (Nat.eq_dec i n) as [->|N]; [exact A|apply B; lia].
      + right. exists i. split; [lia|exact B].
    - right. exists n. split; [lia|exact A].
  Qed.

  Lemma prune_inv debug fuel w bm s :
    inv s -> In w sets -> bitmap debug gap (s_poss s) w fuel nd = Done bm ->
    inv (prune gap bm 0 w s).
  Proof.
    intros (A & B) W E. pose proof (sets_nodup w W) as D.
    assert (DD : doomed s -> doomed (prune gap bm 0 w s)).
    { apply doomed_shrink.
      - intros k v. apply prune_shrink. exact D.
      - intros k v H. rewrite prune_fix. exact H.
      - intros k H _. rewrite prune_fix. exact H. }
    split.
    - intros k v H. rewrite prune_fix in H. destruct (A k v H) as (A1 & A2). split; [exact A1|].
      intros u U P. apply A2; [exact U|]. eapply prune_shrink; eauto.
    - intros k v t H T K. rewrite prune_fix in H.
      destruct (B k v t H T K) as [P|P]; [|right; auto].
      destruct (s_poss (prune gap bm 0 w s) k v) eqn:Q; [left; reflexivity|right].
      destruct (in_dec Nat.eq_dec k w) as [I|N]; [|rewrite prune_poss_other in Q by exact N; congruence].
      apply (In_nth _ _ 0) in I as (j & J & <-).
      rewrite prune_poss in Q by assumption. simpl in Q.
      destruct ((v <? gap) && negb (bm j v)) eqn:G; [|congruence]. clear Q.
      apply andb_true_iff in G as (_ & G). apply negb_true_iff in G.
      destruct (A _ _ H) as (V & R).
      (* rows are non-empty or the state was doomed *)
      destruct (forall_or_exists (length w)
        (fun i => exists u, u < gap /\ s_poss s (nth i w 0) u = true)
        (fun i => row_empty s (nth i w 0))) as [NE|(i & I & RE)].
      { intros i _. destruct (row_dec s (nth i w 0)); auto. }
      2:{ apply DD. assert (Iw : In (nth i w 0) w) by (apply nth_In; exact I).
          destruct (s_fix s (nth i w 0)) as [u|] eqn:Fu.
          - destruct (B _ _ w Fu W Iw) as [X|X]; [|exact X].
            rewrite RE in X by (apply (A _ _ Fu)). discriminate.
          - left. exists w, (nth i w 0). auto. }
      (* no complete assignment at all *)
      assert (NoA : forall a, (forall q, q < length w -> s_poss s (nth q w 0) (a q) = true /\ a q < gap) ->
                      (forall p q, p < length w -> q < length w -> a p = a q -> p = q) -> False).
      { intros a Ha Hi. pose proof (bitmap_hits gap (s_poss s) w debug fuel nd a bm Ha Hi E j J) as X.
        destruct (Ha j J) as (Y1 & Y2). rewrite (R (a j) Y2 Y1) in X. congruence. }
      assert (BM : forall i u, bm i u = false).
      { intros i u. destruct (bm i u) eqn:X; [|reflexivity]. exfalso.
        apply (bitmap_sound gap (s_poss s) w debug fuel nd bm) in X; [|intros q Q; apply first_lt; apply NE; exact Q|exact E].
        destruct X as (_ & a & X1 & X2 & _). apply (NoA a); assumption. }
      destruct (forall_or_exists (length w)
        (fun i => exists u, s_fix s (nth i w 0) = Some u)
        (fun i => s_fix s (nth i w 0) = None)) as [AF|(i & I & UF)].
      { intros i _. destruct (s_fix s (nth i w 0)); eauto. }
      + (* all fixed *)
        set (a := fun i => match s_fix s (nth i w 0) with Some u => u | None => 0 end).
        assert (aF : forall i, i < length w -> s_fix s (nth i w 0) = Some (a i)).
        { intros i I. unfold a. destruct (AF i I) as (u & ->). reflexivity. }
        destruct (forall_or_exists (length w)
          (fun i => s_poss s (nth i w 0) (a i) = true) (fun _ => doomed s)) as [X|(i & _ & X)].
        { intros i I. apply (B _ _ w (aF i I) W). apply nth_In. exact I. }
        2:{ apply DD. exact X. }
        destruct (forall_or_exists (length w)
          (fun p => forall q, q < length w -> a p = a q -> p = q)
          (fun p => exists q, q < length w /\ a p = a q /\ p <> q)) as [Y|(p & Hp & q & Hq & E1 & E2)].
        { intros p Hp. destruct (forall_or_exists (length w) (fun q => a p = a q -> p = q)
            (fun q => a p = a q /\ p <> q)) as [Z|(q & Hq & Z)].
          - intros q Hq. destruct (Nat.eq_dec (a p) (a q)), (Nat.eq_dec p q); tauto.
          - left. exact Z.
          - right. exists q. tauto. }
        * exfalso. apply (NoA a).
          -- intros q Q. split; [apply X; exact Q|]. apply (A _ _ (aF q Q)).
          -- intros p q Hp Hq. apply Y; assumption.
        * apply DD. right. exists w, (nth p w 0), (nth q w 0), (a p).
          conjs; auto using nth_In.
          -- intro X1. apply E2. apply (NoDup_nth w 0); assumption.
          -- rewrite E1. auto.
      + left. exists w, (nth i w 0). conjs; auto using nth_In.
        * rewrite prune_fix. exact UF.
        * intros u U. rewrite prune_poss by assumption. rewrite BM. simpl.
          apply Nat.ltb_lt in U. rewrite U. reflexivity.
  Qed.

  Lemma pass_inv debug fuel : forall l s s',
    incl l sets -> inv s -> one_pass debug fuel gap nd sets l s = Done s' -> inv s'.
  Proof.
    induction l as [|w l IH]; intros s s' I G E; cbn [one_pass] in E.
    - apply Done_inj in E. subst. exact G.
    - assert (W : In w sets) by (apply I; left; reflexivity).
      assert (I' : incl l sets) by (intros t T; apply I; right; exact T).
      pose proof (scan_inv w (fun _ => 0) s G) as S. cbv zeta in E.
      destruct (snd _); [apply Done_inj in E; subst; exact S|].
      destruct (_ && _).
      + apply bind_done in E as (bm & E1 & E2). apply (IH _ _ I' (prune_inv _ _ _ _ _ S W E1) E2).
      + apply (IH _ _ I' S E).
  Qed.

  Definition same (s s' : st) : Prop :=
    (forall k v, s_poss s' k v = s_poss s k v) /\ (forall k, s_fix s' k = s_fix s k).
  Lemma same_trans s t u : same s t -> same t u -> same s u.
  Proof. intros (A & B) (C & D). split; intros; rewrite ?C, ?D; auto. Qed.

  Lemma scan_inf w : forall check s, s_inf s = true -> s_inf (fst (scan_set gap sets w check s)) = true.
  Proof.
    induction w as [|k w IH]; simpl; intros check s H; [exact H|].
    destruct (s_fix s k).
    - destruct (Nat.eqb _ _); [apply IH; exact H|reflexivity].
    - destruct (filter _ _) as [|v [|v2 al]]; [reflexivity| |]; apply IH; exact H.
  Qed.
  Lemma scan_broken w : forall check s, snd (scan_set gap sets w check s) = true ->
    s_inf (fst (scan_set gap sets w check s)) = true.
  Proof.
    induction w as [|k w IH]; simpl; intros check s H; [discriminate|].
    destruct (s_fix s k).
    - destruct (Nat.eqb _ _); [apply IH; exact H|reflexivity].
    - destruct (filter _ _) as [|v [|v2 al]]; [reflexivity| |]; apply IH; exact H.
  Qed.
  Lemma prune_inf bm : forall w j s, s_inf (prune gap bm j w s) = s_inf s.
  Proof. induction w as [|a w IH]; simpl; intros j s; [reflexivity|]. rewrite IH. reflexivity. Qed.
  Lemma prune_nfix bm : forall w j s, s_nfix (prune gap bm j w s) = s_nfix s.
  Proof. induction w as [|a w IH]; simpl; intros j s; [reflexivity|]. rewrite IH. reflexivity. Qed.
  Lemma pass_inf debug fuel : forall l s s',
    one_pass debug fuel gap nd sets l s = Done s' -> s_inf s = true -> s_inf s' = true.
  Proof.
    induction l as [|w l IH]; intros s s' E H; cbn [one_pass] in E.
    - apply Done_inj in E. subst. exact H.
    - pose proof (scan_inf w (fun _ => 0) s H) as S. cbv zeta in E.
      destruct (snd _); [apply Done_inj in E; subst; exact S|].
      rewrite S, andb_false_r in E. apply (IH _ _ E S).
  Qed.

  Lemma scan_quiet w : (forall k, In k w -> k < nd) -> forall check s,
    snd (scan_set gap sets w check s) = false ->
    s_nfix (fst (scan_set gap sets w check s)) = s_nfix s ->
    fst (scan_set gap sets w check s) = s /\
    (forall k, In k w -> s_fix s k = None -> ~ row_empty s k) /\
    (forall k v, In k w -> s_fix s k = Some v -> check v = 0) /\
    ForallOrdPairs (fun k k' => forall v, s_fix s k = Some v -> s_fix s k' = Some v -> False) w.
  Proof.
    induction w as [|k w IH]; simpl; intros L check s H N.
    - conjs; try tauto. constructor.
    - assert (L' : forall k, In k w -> k < nd) by auto.
      destruct (s_fix s k) as [v|] eqn:F.
      + destruct (Nat.eqb_spec (check v) 0) as [Z|]; [|discriminate].
        destruct (IH L' _ _ H N) as (A & B & C & D). conjs; auto.
        * intros j [<-|J] X; [congruence|auto].
        * intros j u [<-|J] X; [congruence|]. specialize (C j u J X). unfold put in C.
          destruct (Nat.eqb u v); [discriminate|exact C].
        * constructor; [|exact D]. apply Forall_forall. intros j J u X1 X2.
          specialize (C j u J X2). assert (u = v) by congruence. subst u.
          rewrite put_same in C. discriminate.
      + destruct (filter (s_poss s k) (seq 0 gap)) as [|v [|v2 al]] eqn:E; [discriminate| |].
        * exfalso. pose proof (scan_moves gap nd sets w L' (put (fun v0 => if memn v0 [v] then S (check v0) else check v0) v 1) (fix_var sets k v s)) as (_ & M & _).
          simpl in M, N. lia.
        * destruct (IH L' _ _ H N) as (A & B & C & D). conjs; auto.
          -- intros j [<-|J] X; [|auto]. intro R.
             assert (Y : In v (filter (s_poss s k) (seq 0 gap))) by (rewrite E; left; reflexivity).
             apply filter_seq_in in Y as (Y1 & Y2). rewrite R in Y2 by exact Y1. discriminate.
          -- intros j u [<-|J] X; [congruence|]. specialize (C j u J X).
             destruct (memn _ _); [discriminate|exact C].
          -- constructor; [|exact D]. apply Forall_forall. intros j J u X1 X2. congruence.
  Qed.

  Lemma prune_fin bm : forall w j s, s_fin (prune gap bm j w s) = true -> s_fin s = true.
  Proof.
    induction w as [|k w IH]; simpl; intros j s H; [exact H|].
    apply IH in H. simpl in H. destruct (existsb _ _); [discriminate|exact H].
  Qed.
  Lemma prune_quiet bm : forall w j s,
    s_fin (prune gap bm j w s) = true ->
    same s (prune gap bm j w s) /\
    forall i v, i < length w -> v < gap -> s_poss s (nth i w 0) v = true -> bm (j + i) v = true.
  Proof.
    induction w as [|k w IH]; simpl; intros j s H.
    - split; [split; reflexivity|intros; lia].
    - pose proof (prune_fin bm _ _ _ H) as F. simpl in F.
      destruct (existsb _ _) eqn:E; [discriminate|].
      assert (X : forall v, v < gap -> s_poss s k v = true -> bm j v = true).
      { intros v V P. destruct (bm j v) eqn:G; [reflexivity|].
        assert (existsb (fun v => negb (bm j v) && s_poss s k v) (seq 0 gap) = true); [|congruence].
        apply existsb_exists. exists v. split; [apply in_seq; lia|]. rewrite G, P. reflexivity. }
      assert (Sm : same s (prune_one gap (bm j) k s)).
      { split; [|reflexivity]. intros k' v. simpl. unfold put.
        destruct (Nat.eqb_spec k' k) as [->|]; [|reflexivity].
        destruct (Nat.ltb_spec v gap) as [V|V]; [|reflexivity]. simpl.
        destruct (bm j v) eqn:G; [reflexivity|]. simpl.
        destruct (s_poss s k v) eqn:P; [|reflexivity]. rewrite (X v V P) in G. discriminate. }
      destruct (IH _ _ H) as (A & B). split; [eapply same_trans; eauto|].
      intros [|i] v I V P.
      + rewrite Nat.add_0_r. apply X; assumption.
      + replace (j + S i) with (S j + i) by lia. apply B; [lia|exact V|]. rewrite (proj1 Sm). exact P.
  Qed.

  Lemma supported_ext poss poss' w j v :
    (forall k u, poss' k u = poss k u) -> supported gap poss w j v -> supported gap poss' w j v.
  Proof.
    intros E (a & A & B & C). exists a. split; [|split; assumption].
    intros q Q. unfold allowed. rewrite E. apply A. exact Q.
  Qed.

  (** what a pass that changes nothing shows about each set *)
  Definition settled (s : st) (w : list nat) : Prop :=
    (forall k, In k w -> s_fix s k = None -> ~ row_empty s k) /\
    ForallOrdPairs (fun k k' => forall v, s_fix s k = Some v -> s_fix s k' = Some v -> False) w /\
    ((forall i, i < length w -> ~ row_empty s (nth i w 0)) ->
      gap < 30 -> forall i v, i < length w -> v < gap -> s_poss s (nth i w 0) v = true ->
      supported gap (s_poss s) w i v).
  Lemma FOP_impl {A} (P Q : A -> A -> Prop) l :
    (forall a b, P a b -> Q a b) -> ForallOrdPairs P l -> ForallOrdPairs Q l.
  Proof.
    intros H F. induction F as [|a l Fa F IH]; constructor; [|exact IH].
    eapply Forall_impl; [|exact Fa]. auto.
  Qed.
  Lemma settled_same s s' w : same s s' -> settled s' w -> settled s w.
  Proof.
    intros (A & B) (C & D & E). split; [|split].
    - intros k K F R. apply (C k K); [rewrite B; exact F|]. intros v V. rewrite A. auto.
    - eapply FOP_impl; [|exact D]. intros k k' H v. specialize (H v). rewrite !B in H. exact H.
    - intros N G i v I V P. apply (supported_ext (s_poss s')); [intros; symmetry; apply A|].
      apply E; auto; [|rewrite A; exact P].
      intros q Q R. apply (N q Q). intros u U. rewrite <- A. auto.
  Qed.

  Lemma pass_quiet debug fuel : forall l s s',
    incl l sets -> one_pass debug fuel gap nd sets l s = Done s' ->
    s_nfix s' = s_nfix s -> s_fin s' = true -> s_inf s' = false ->
    same s s' /\ forall w, In w l -> settled s w.
  Proof.
    induction l as [|w l IH]; intros s s' I E N F X; cbn [one_pass] in E.
    - apply Done_inj in E. subst. split; [split; reflexivity|]. intros w [].
    - assert (W : In w sets) by (apply I; left; reflexivity).
      assert (I' : incl l sets) by (intros t T; apply I; right; exact T).
      assert (Wl : forall k, In k w -> k < nd) by (intros k; apply sets_lt; exact W).
      cbv zeta in E. pose proof (scan_moves gap nd sets w Wl (fun _ => 0) s) as (_ & M & _).
      destruct (snd (scan_set gap sets w (fun _ => 0) s)) eqn:B.
      { apply Done_inj in E. apply scan_broken in B. congruence. }
      destruct (s_inf (fst (scan_set gap sets w (fun _ => 0) s))) eqn:Inf.
      { rewrite andb_false_r in E. apply pass_inf in E; [congruence|exact Inf]. }
      destruct (gap <? 30) eqn:G; simpl in E.
      + apply bind_done in E as (bm & E1 & E2).
        pose proof (pass_moves gap nd sets sets_lt debug fuel l _ _ I' E2) as (_ & M2 & _).
        rewrite prune_nfix in M2.
        destruct (IH _ _ I' E2) as (Sm & Q); [rewrite prune_nfix; lia|exact F|exact X|].
        destruct (scan_quiet w Wl (fun _ => 0) s B ltac:(lia)) as (S1 & S2 & _ & S3).
        rewrite S1 in *.
        assert (Fp : s_fin (prune gap bm 0 w s) = true).
        { destruct (s_fin (prune gap bm 0 w s)) eqn:Y; [reflexivity|]. exfalso.
          clear - E2 F Y. revert E2 Y. generalize (prune gap bm 0 w s). clear s w bm.
          assert (K : forall w check s, s_fin (fst (scan_set gap sets w check s)) = s_fin s).
          { induction w as [|k w IHw]; simpl; intros check s; [reflexivity|].
            destruct (s_fix s k).
            - destruct (Nat.eqb _ _); [apply IHw|reflexivity].
            - destruct (filter _ _) as [|v [|v2 al]]; [reflexivity| |]; rewrite IHw; reflexivity. }
          induction l as [|w l IHl]; intros s E Y; cbn [one_pass] in E.
          - apply Done_inj in E. congruence.
          - cbv zeta in E. destruct (snd _).
            + apply Done_inj in E. subst. rewrite K in F. congruence.
            + destruct (_ && _).
              * apply bind_done in E as (bm & _ & E). apply IHl in E; [exact E|].
                destruct (s_fin (prune gap bm 0 w (fst (scan_set gap sets w (fun _ => 0) s)))) eqn:Z; [|reflexivity].
                apply prune_fin in Z. rewrite K in Z. congruence.
              * apply IHl in E; [exact E|]. rewrite K. exact Y. }
        destruct (prune_quiet bm w 0 s Fp) as (P1 & P2).
        split; [eapply same_trans; eauto|].
        intros t [<-|T]; [|apply (settled_same _ _ t P1); auto].
        split; [exact S2|]. split; [exact S3|].
        intros NE _ i v Hi V P.
        apply (bitmap_sound gap (s_poss s) w debug fuel nd bm); [|exact E1|apply (P2 i v Hi V P)].
        intros q Hq. apply first_lt. destruct (row_dec s (nth q w 0)) as [R|R]; [exact R|].
        exfalso. apply (NE q Hq R).
      + pose proof (pass_moves gap nd sets sets_lt debug fuel l _ _ I' E) as (_ & M2 & _).
        destruct (IH _ _ I' E) as (Sm & Q); [lia|exact F|exact X|].
        destruct (scan_quiet w Wl (fun _ => 0) s B ltac:(lia)) as (S1 & S2 & _ & S3).
        rewrite S1 in *. split; [exact Sm|].
        intros t [<-|T]; [|auto]. split; [exact S2|]. split; [exact S3|].
        intros _ GG. apply Nat.ltb_ge in G. lia.
  Qed.

  Lemma FOP_nth {A} (P : A -> A -> Prop) l d : ForallOrdPairs P l ->
    forall i j, i < j < length l -> P (nth i l d) (nth j l d).
  Proof.
    induction 1 as [|a l F H IH]; simpl; intros i j L; [lia|].
    destruct j as [|j]; [lia|]. destruct i as [|i].
    - rewrite Forall_forall in F. apply F. apply nth_In. lia.
    - apply IH. lia.
  Qed.
  Lemma settled_not_doomed s : (forall w, In w sets -> settled s w) -> ~ doomed s.
  Proof.
    intros H [(w & k & W & K & F & R)|(w & k & k' & v & W & K & K' & N & F & F')].
    - destruct (H w W) as (A & _). apply (A k K F R).
    - destruct (H w W) as (_ & B & _).
      apply (In_nth _ _ 0) in K as (i & I & <-). apply (In_nth _ _ 0) in K' as (j & J & <-).
      destruct (lt_eq_lt_dec i j) as [[L|L]|L].
      + apply (FOP_nth _ w 0 B i j ltac:(lia) v F F').
      + apply N. congruence.
      + apply (FOP_nth _ w 0 B j i ltac:(lia) v F' F).
  Qed.

  Theorem passes_complete debug fuel f : forall s s',
    inv s -> passes debug fuel gap nd sets f s = Done s' -> s_inf s' = false ->
    (forall w k, In w sets -> In k w -> exists v, v < gap /\ s_poss s' k v = true) /\
    (gap < 30 -> forall w i v, In w sets -> i < length w -> v < gap ->
      s_poss s' (nth i w 0) v = true -> supported gap (s_poss s') w i v).
  Proof.
    induction f as [|f IH]; simpl; intros s s' V E X; [discriminate|].
    apply bind_done in E as (s1 & E1 & E2).
    assert (V1 : inv s1) by (eapply pass_inv; [apply incl_refl| |exact E1]; exact V).
    pose proof (pass_moves gap nd sets sets_lt debug fuel sets _ _ (incl_refl _) E1) as (_ & M & _). simpl in M.
    destruct (s_nfix s <? s_nfix s1) eqn:N.
    - exact (IH (St (s_poss s1) (s_fix s1) (s_nfix s1) (s_inf s1) false) s' V1 E2 X).
    - destruct (s_fin s1) eqn:F; [|exact (IH (St (s_poss s1) (s_fix s1) (s_nfix s1) (s_inf s1) false) s' V1 E2 X)].
      apply Done_inj in E2. subst s'. simpl in *. apply Nat.ltb_ge in N.
      destruct (pass_quiet debug fuel sets _ _ (incl_refl _) E1) as (Sm & Q); [simpl; lia|exact F|exact X|].
      assert (Q1 : forall w, In w sets -> settled s1 w).
      { intros w W. eapply settled_same; [|apply Q; exact W].
        destruct Sm as (Sa & Sb). split; intros; symmetry; auto. }
      pose proof (settled_not_doomed s1 Q1) as ND.
      assert (NE : forall w k, In w sets -> In k w -> exists v, v < gap /\ s_poss s1 k v = true).
      { intros w k W K. destruct (row_dec s1 k) as [R|R]; [exact R|]. exfalso.
        destruct (s_fix s1 k) as [v|] eqn:Fk.
        - destruct V1 as (V1 & V2). destruct (V2 k v w Fk W K) as [P|P]; [|exact (ND P)].
          rewrite R in P by apply (V1 k v Fk). discriminate.
        - destruct (Q1 w W) as (A & _). apply (A k K Fk R). }
      split; [exact NE|]. intros G w i v W I Hv P.
      destruct (Q1 w W) as (_ & _ & C). apply C; auto.
      intros q Hq R. destruct (NE w (nth q w 0) W (nth_In _ _ Hq)) as (u & U & Y).
      rewrite R in Y by exact U. discriminate.
  Qed.

  Lemma init_inv offset bnd (rng : nat -> nat -> bool) : forall l s,
    NoDup l ->
    (forall i, In i l -> s_fix s i = None) ->
    (forall i, In i l -> Z.eqb (snd (bnd i) - fst (bnd i) + 1) 1 = true ->
       forall v, rng i v = true <-> v = Z.to_nat (fst (bnd i) - offset)) ->
    (forall i v, In i l -> rng i v = true -> v < gap) ->
    (forall k v, s_poss s k v = true -> rng k v = true) ->
    (forall k v, rng k v = true -> s_poss s k v = false ->
       exists k', s_fix s k' = Some v /\ share sets k' k /\ k' <> k) ->
    inv s -> inv (fold_left (init_fix sets offset bnd) l s).
  Proof.
    induction l as [|i l IH]; simpl; intros s D U R G A B V; [exact V|].
    apply NoDup_cons_iff in D as (D1 & D2).
    unfold init_fix at 2. destruct (Z.eqb _ _) eqn:E; [|apply IH; auto; intros j u J; apply G; right; exact J].
    set (v := Z.to_nat (fst (bnd i) - offset)) in *.
    assert (Ri : forall u, rng i u = true <-> u = v) by (apply R; auto).
    assert (Vg : v < gap) by (apply (G i v); [left; reflexivity|apply Ri; reflexivity]).
    apply IH; [exact D2| |intros j J; apply R; right; exact J
              |intros j u J; apply G; right; exact J| | |].
    - intros j J. simpl. rewrite put_other by (intros ->; contradiction). auto.
    - intros k u H. simpl in H. apply clear_others_true in H. apply A. tauto.
    - intros k u H P. simpl in *. destruct (s_poss s k u) eqn:Q.
      + exists i. rewrite put_same.
        destruct (Nat.eq_dec u v) as [->|N].
        2:{ assert (clear_others sets i v (s_poss s) k u = true); [|congruence].
            apply clear_others_true. split; [exact Q|tauto]. }
        destruct (Nat.eq_dec k i) as [->|N].
        { assert (clear_others sets i v (s_poss s) i v = true); [|congruence].
          apply clear_others_true. split; [exact Q|tauto]. }
        split; [reflexivity|]. split; [|congruence].
        destruct (existsb (fun t => memn i t && memn k t) sets) eqn:X.
        * apply existsb_exists in X as (t & T & X). apply andb_true_iff in X as (X1 & X2).
          apply memn_in in X1. apply memn_in in X2. exists t. auto.
        * assert (clear_others sets i v (s_poss s) k v = true); [|congruence].
          apply clear_others_true. split; [exact Q|]. intros ((t & T & T1 & T2) & _).
          assert (existsb (fun t => memn i t && memn k t) sets = true); [|congruence].
          apply existsb_exists. exists t. split; [exact T|].
          apply andb_true_iff. split; apply memn_in; assumption.
      + destruct (B k u H Q) as (k' & F & Sh & N). exists k'.
        rewrite put_other; [auto|]. intros ->. rewrite (U i) in F by auto. discriminate.
    - destruct (s_poss s i v) eqn:P.
      + apply inv_fix; auto. intros u _ H. apply Ri. apply A. exact H.
      + destruct (B i v) as (k' & F & (t & T & T1 & T2) & N); [apply Ri; reflexivity|exact P|].
        apply (inv_fix_taken s i v t k'); auto.
        intros u _. destruct (s_poss s i u) eqn:Q; [|reflexivity].
        assert (u = v) by (apply Ri; apply A; exact Q). congruence.
  Qed.
End Complete.

(** ** From the bounds to the table *)
Local Open Scope Z_scope.

Lemma to_int_some b z : to_int b = Done z -> exists q, b = Some q /\ z = qtrunc q.
Proof.
  destruct b as [q|]; simpl; [|discriminate]. destruct (int_range _); [|discriminate].
  intro H. apply Done_inj in H. eauto.
Qed.
Lemma qtrunc_lower q (z : Z) : (q <= inject_Z z)%Q -> qtrunc q <= z \/ z < 0 /\ z < qtrunc q.
Proof.
  destruct q as [a b]. unfold Qle, qtrunc; simpl. rewrite Z.mul_1_r. intro H.
  destruct (Z.le_gt_cases (Z.quot a (Zpos b)) z); [left; assumption|right].
  split; [|lia]. destruct (Z.lt_ge_cases z 0); [assumption|exfalso].
  destruct (Z.le_gt_cases 0 a).
  - rewrite Z.quot_div_nonneg in H0 by lia.
    assert (Zpos b * z < a); [|lia].
    assert (Zpos b * (a / Zpos b) <= a) by (apply Z.mul_div_le; lia). nia.
  - assert (Z.quot a (Zpos b) <= 0); [|lia].
    rewrite <- (Z.opp_involutive a). rewrite Z.quot_opp_l by lia.
    assert (0 <= Z.quot (- a) (Zpos b)) by (apply Z.quot_pos; lia). lia.
Qed.
Lemma qtrunc_le q (z : Z) : (q <= inject_Z z)%Q -> qtrunc q <= z.
Proof.
  intro H. destruct (qtrunc_lower q z H) as [A|(A & B)]; [exact A|exfalso].
  destruct q as [a b]. unfold Qle, qtrunc in *; simpl in *. rewrite Z.mul_1_r in H.
  assert (a < 0) by nia.
  assert (E : Z.quot a (Zpos b) = - ((- a) / Zpos b)).
  { rewrite <- (Z.opp_involutive a) at 1. rewrite Z.quot_opp_l by lia.
    rewrite Z.quot_div_nonneg by lia. reflexivity. }
  rewrite E in B. assert (- z <= (- a) / Zpos b) by (apply Z.div_le_lower_bound; nia). lia.
Qed.
Lemma qtrunc_ge q (z : Z) : (inject_Z z <= q)%Q -> z <= qtrunc q.
Proof.
  intro H.
  assert (E : qtrunc q = - qtrunc (- q)%Q).
  { destruct q as [a b]. unfold qtrunc; simpl. rewrite Z.quot_opp_l by lia. lia. }
  assert (qtrunc (- q)%Q <= - z).
  { apply qtrunc_le. rewrite inject_Z_opp. apply Qopp_le_compat. exact H. }
  lia.
Qed.
Lemma qtrunc_inject z : qtrunc (inject_Z z) = z.
Proof. unfold qtrunc, inject_Z; simpl. apply Z.quot_1_r. Qed.

Lemma read_bounds_done debug m c l u :
  read_bounds debug m c = Done (l, u) ->
  (c < m_ncols m)%nat /\
  exists ql qu, m_clo m c = Some ql /\ m_chi m c = Some qu /\ l = qtrunc ql /\ u = qtrunc qu.
Proof.
  unfold read_bounds. destruct (Nat.ltb_spec c (m_ncols m)) as [L|L]; simpl; [|destruct debug; discriminate].
  intro E. split; [exact L|].
  apply bind_done in E as (l' & E1 & E). destruct (debug && _); [discriminate|].
  apply bind_done in E as (u' & E2 & E). destruct (debug && _); [discriminate|].
  destruct (debug && _); [discriminate|]. apply Done_inj in E.
  apply to_int_some in E1 as (ql & A & B). apply to_int_some in E2 as (qu & C & D).
  exists ql, qu. conjs; congruence.
Qed.

Lemma omap_len {A B} (f : A -> outcome B) l bl : omap f l = Done bl -> length bl = length l.
Proof.
  revert bl. induction l as [|a l IH]; simpl; intros bl E.
  - apply Done_inj in E. subst. reflexivity.
  - apply bind_done in E as (b & E1 & E). apply bind_done in E as (bs & E2 & E).
    apply Done_inj in E. subst. simpl. rewrite (IH bs); auto.
Qed.
Lemma omap_nth {A B} (f : A -> outcome B) l bl da db i :
  omap f l = Done bl -> (i < length l)%nat -> f (nth i l da) = Done (nth i bl db).
Proof.
  revert bl i. induction l as [|a l IH]; simpl; intros bl i E L; [lia|].
  apply bind_done in E as (b & E1 & E). apply bind_done in E as (bs & E2 & E).
  apply Done_inj in E. subst. destruct i as [|i]; [exact E1|]. cbn [nth]. apply IH; [exact E2|lia].
Qed.
Lemma omap_total {A B} (f : A -> outcome B) l :
  (forall a, In a l -> exists b, f a = Done b) -> exists bl, omap f l = Done bl.
Proof.
  induction l as [|a l IH]; simpl; intro H; [eauto|].
  destruct (H a) as (b & ->); [auto|]. destruct IH as (bl & ->); [auto|]. simpl. eauto.
Qed.

Lemma init_rows_done offset gap bnd : forall l poss p0,
  NoDup l -> init_rows offset gap bnd l poss = Done p0 ->
  (forall i, In i l -> 0 <= fst (bnd i) - offset /\ snd (bnd i) - offset + 1 <= gap /\
                       fst (bnd i) <= snd (bnd i) + 1) /\
  (forall i v, p0 i v = if memn i l
     then (Z.to_nat (fst (bnd i) - offset) <=? v)%nat && (v <? Z.to_nat (snd (bnd i) - offset + 1))%nat
     else poss i v).
Proof.
  induction l as [|i l IH]; simpl; intros poss p0 D E.
  - apply Done_inj in E. subst. split; [tauto|reflexivity].
  - apply NoDup_cons_iff in D as (D1 & D2).
    match type of E with (if ?c then _ else _) = _ => destruct c eqn:C; [discriminate|] end.
    apply orb_false_iff in C as (C & C3). apply orb_false_iff in C as (C1 & C2).
    apply Z.ltb_ge in C1. apply Z.ltb_ge in C2. apply Z.ltb_ge in C3.
    destruct (IH _ _ D2 E) as (A & B). split.
    + intros j [<-|J]; [lia|auto].
    + intros j v. rewrite B. unfold memn; simpl. fold (memn j l).
      destruct (Nat.eqb_spec j i) as [->|N]; simpl.
      * destruct (memn i l) eqn:M; [apply memn_in in M; contradiction|].
        rewrite put_same. f_equal. f_equal. f_equal. lia.
      * destruct (memn j l); [reflexivity|]. rewrite put_other by exact N. reflexivity.
Qed.
Lemma init_rows_total offset gap bnd : forall l poss,
  (forall i, In i l -> 0 <= fst (bnd i) - offset /\ snd (bnd i) - offset + 1 <= gap /\
                       fst (bnd i) <= snd (bnd i) + 1) ->
  exists p0, init_rows offset gap bnd l poss = Done p0.
Proof.
  induction l as [|i l IH]; simpl; intros poss H; [eauto|].
  destruct (H i) as (A & B & C); [auto|].
  match goal with |- exists p0, (if ?c then _ else _) = _ => assert (E : c = false) end.
  { apply orb_false_iff. split; [apply orb_false_iff; split|]; apply Z.ltb_ge; lia. }
  rewrite E. apply IH. auto.
Qed.

Lemma fold_min (bnd : nat -> Z * Z) s : forall o,
  fold_left (fun o (k : nat) => Z.min o (fst (bnd k))) s o <= o /\
  (forall k, In k s -> fold_left (fun o k => Z.min o (fst (bnd k))) s o <= fst (bnd k)) /\
  (forall a, a <= o -> (forall k, In k s -> a <= fst (bnd k)) ->
     a <= fold_left (fun o (k : nat) => Z.min o (fst (bnd k))) s o).
Proof.
  induction s as [|k s IH]; simpl; intro o; [split; [lia|split; [tauto|auto]]|].
  destruct (IH (Z.min o (fst (bnd k)))) as (A & B & C). split; [lia|]. split.
  - intros j [<-|J]; [lia|auto].
  - intros a Ha H. apply C; [|auto]. specialize (H k (or_introl eq_refl)). lia.
Qed.
Lemma fold_max (bnd : nat -> Z * Z) s : forall o,
  o <= fold_left (fun o (k : nat) => Z.max o (snd (bnd k))) s o /\
  (forall k, In k s -> snd (bnd k) <= fold_left (fun o k => Z.max o (snd (bnd k))) s o) /\
  (forall a, o <= a -> (forall k, In k s -> snd (bnd k) <= a) ->
     fold_left (fun o (k : nat) => Z.max o (snd (bnd k))) s o <= a).
Proof.
  induction s as [|k s IH]; simpl; intro o; [split; [lia|split; [tauto|auto]]|].
  destruct (IH (Z.max o (snd (bnd k)))) as (A & B & C). split; [lia|]. split.
  - intros j [<-|J]; [lia|auto].
  - intros a Ha H. apply C; [|auto]. specialize (H k (or_introl eq_refl)). lia.
Qed.

Lemma choose_incl nd bnd : forall sets o mx r,
  choose_sets nd bnd sets o mx = Done r -> incl (snd r) sets.
Proof.
  induction sets as [|s sets IH]; simpl; intros o mx r E.
  - apply Done_inj in E. subst. intros t T. exact T.
  - apply bind_done in E as (gap & _ & E). destruct (_ <? _).
    + apply Done_inj in E. subst. simpl. intros t [<-|[]]. left. reflexivity.
    + apply bind_done in E as (r' & E1 & E). apply Done_inj in E. subst. simpl.
      intros t [<-|T]; [left; reflexivity|right; apply (IH _ _ _ E1); exact T].
Qed.

Lemma int_gap_small a b A B :
  int_range A = true -> int_range B = true -> A <= b -> a <= B -> b <= a + 1 -> B - A + 1 <= INT_MAX ->
  int_gap a b = Done (a - b + 1).
Proof.
  unfold int_gap, int_range, INT_MAX, INT_MIN. intros.
  apply andb_true_iff in H as (?%Z.leb_le & ?%Z.leb_le).
  apply andb_true_iff in H0 as (?%Z.leb_le & ?%Z.leb_le).
  assert (E1 : ((-2147483648 <=? a - b) && (a - b <=? 2147483647)) = true).
  { apply andb_true_iff. split; apply Z.leb_le; lia. }
  assert (E2 : ((-2147483648 <=? a - b + 1) && (a - b + 1 <=? 2147483647)) = true).
  { apply andb_true_iff. split; apply Z.leb_le; lia. }
  rewrite E1, E2. reflexivity.
Qed.

(** All sets are looked at when the table is small. *)
Lemma choose_all nd bnd A B :
  int_range A = true -> int_range B = true -> B - A + 1 <= INT_MAX ->
  (B - A + 1) * Z.of_nat nd <= 10000000 ->
  forall sets o mx,
  (forall s k, In s sets -> In k s -> A <= fst (bnd k) <= snd (bnd k) /\ snd (bnd k) <= B) ->
  A <= o -> mx <= B -> (o <= mx + 1 \/ match sets with [] => False | s :: _ => s <> [] end) ->
  exists o' mx', choose_sets nd bnd sets o mx = Done (o', mx', sets) /\
    A <= o' /\ mx' <= B /\ o' <= o /\ mx <= mx' /\ o' <= mx' + 1 /\
    (forall s k, In s sets -> In k s -> o' <= fst (bnd k) /\ snd (bnd k) <= mx').
Proof.
  intros RA RB G S. induction sets as [|s sets IH]; intros o mx H Ao Bm N; cbn [choose_sets].
  - destruct N as [N|[]]. exists o, mx. conjs; try lia; [reflexivity|]. intros s k [].
  - cbv zeta.
    destruct (fold_min bnd s o) as (M1 & M2 & M3). destruct (fold_max bnd s mx) as (X1 & X2 & X3).
    set (o1 := fold_left _ s o) in *. set (m1 := fold_left _ s mx) in *.
    assert (A1 : A <= o1) by (apply M3; [exact Ao|intros k K; apply (H s k); [left; reflexivity|exact K]]).
    assert (B1 : m1 <= B) by (apply X3; [exact Bm|intros k K; apply (H s k); [left; reflexivity|exact K]]).
    assert (L1 : o1 <= m1 + 1).
    { destruct N as [N|N]; [lia|]. destruct s as [|k s]; [congruence|].
      specialize (M2 k (or_introl eq_refl)). specialize (X2 k (or_introl eq_refl)).
      destruct (H (k :: s) k) as (Y & _); [left; reflexivity|left; reflexivity|]. lia. }
    rewrite (int_gap_small m1 o1 A B RA RB A1 B1 L1 G). cbn [bind].
    destruct (Z.ltb_spec 10000000 ((m1 - o1 + 1) * Z.of_nat nd)) as [Y|Y]; [nia|].
    destruct (IH o1 m1) as (o' & mx' & E & C1 & C2 & C3 & C4 & C5 & C6); auto.
    { intros t k T K. apply (H t k); [right; exact T|exact K]. }
    exists o', mx'. rewrite E. cbn [bind fst snd]. conjs; try lia; [reflexivity|].
    intros t k [<-|T] K; [|apply (C6 t k T K)].
    specialize (M2 k K). specialize (X2 k K). lia.
Qed.

(** ** The final bounds *)
Lemma first_lo_le gap row v : (v < gap)%nat -> row v = true -> first_lo gap row <= Z.of_nat v.
Proof.
  intros V R. unfold first_lo.
  assert (I : In v (filter row (seq 0 gap))) by (apply filter_seq_in; auto).
  assert (S : forall n a l w, filter row (seq a n) = w :: l -> forall u, In u (w :: l) -> (w <= u)%nat).
  { induction n as [|n IH]; simpl; intros a l w E u U; [discriminate|].
    destruct (row a) eqn:Ra.
    - injection E as <- E. destruct U as [<-|U]; [lia|].
      rewrite <- E in U. apply filter_In in U as (U & _). apply in_seq in U. lia.
    - apply (IH (S a) l w E u U). }
  destruct (filter row (seq 0 gap)) as [|w l] eqn:E; [destruct I|].
  pose proof (S _ _ _ _ E v I). lia.
Qed.
Lemma first_lo_attained gap row : (exists v, (v < gap)%nat /\ row v = true) ->
  exists v, (v < gap)%nat /\ row v = true /\ first_lo gap row = Z.of_nat v.
Proof.
  intros (v & V & R). unfold first_lo.
  assert (I : In v (filter row (seq 0 gap))) by (apply filter_seq_in; auto).
  destruct (filter row (seq 0 gap)) as [|w l] eqn:E; [destruct I|].
  assert (J : In w (filter row (seq 0 gap))) by (rewrite E; left; reflexivity).
  apply filter_seq_in in J as (J1 & J2). eauto.
Qed.
Lemma last_shift {A} (l : list A) : forall a d, last (a :: l) d = last l a.
Proof.
  induction l as [|b l IH]; intros a d; [reflexivity|].
  change (last (a :: b :: l) d) with (last (b :: l) d). rewrite !IH. reflexivity.
Qed.
Lemma last_cons_in {A} (l : list A) : forall d, In (last l d) (d :: l).
Proof.
  induction l as [|a l IH]; intro d; [left; reflexivity|].
  rewrite last_shift. right. apply IH.
Qed.
Lemma last_up_ge gap row v : (v < gap)%nat -> row v = true -> Z.of_nat v <= last_up gap row.
Proof.
  intros V R. unfold last_up.
  assert (I : In v (filter row (seq 0 gap))) by (apply filter_seq_in; auto).
  assert (S : forall n a l w, filter row (seq a n) = w :: l -> forall u, In u (w :: l) -> (u <= last l w)%nat).
  { induction n as [|n IH]; simpl; intros a l w E u U; [discriminate|].
    destruct (row a) eqn:Ra.
    - injection E as <- E. destruct l as [|b l].
      + destruct U as [<-|[]]. simpl. lia.
      + rewrite last_shift. destruct U as [<-|U].
        * pose proof (IH _ _ _ E b (or_introl eq_refl)) as Y.
          assert (In b (filter row (seq (Datatypes.S a) n))) by (rewrite E; left; reflexivity).
          apply filter_In in H as (H & _). apply in_seq in H. lia.
        * apply (IH _ _ _ E u U).
    - apply (IH (Datatypes.S a) l w E u U). }
  destruct (filter row (seq 0 gap)) as [|w l] eqn:E; [destruct I|].
  pose proof (S _ _ _ _ E v I). lia.
Qed.
Lemma last_up_attained gap row : (exists v, (v < gap)%nat /\ row v = true) ->
  exists v, (v < gap)%nat /\ row v = true /\ last_up gap row = Z.of_nat v.
Proof.
  intros (v & V & R). unfold last_up.
  assert (I : In v (filter row (seq 0 gap))) by (apply filter_seq_in; auto).
  destruct (filter row (seq 0 gap)) as [|w l] eqn:E; [destruct I|].
  assert (J : In (last l w) (filter row (seq 0 gap))) by (rewrite E; apply last_cons_in).
  apply filter_seq_in in J as (J1 & J2). eauto.
Qed.

(** ** generateCuts as a whole *)
Definition start_state (sets : list (list nat)) (offset : Z) (bnd : nat -> Z * Z) (nd : nat)
    (p0 : nat -> nat -> bool) : st :=
  fold_left (init_fix sets offset bnd) (seq 0 nd) (St p0 (fun _ => None) 0 false false).

Lemma generate_done debug fuel g m cs cs' oc nd :
  ad_nd g = Some nd -> generateCuts debug fuel g m cs = Done (cs', oc) ->
  exists bnd offset mx sets p0 s,
    (forall i, (i < nd)%nat -> read_bounds debug m (nth i (ad_orig g) 0%nat) = Done (bnd i)) /\
    choose_sets nd bnd (ad_sets g) INT_MAX (- INT_MAX) = Done (offset, mx, sets) /\
    init_rows offset (mx - offset + 1) bnd (seq 0 nd) (fun _ _ => false) = Done p0 /\
    passes debug fuel (Z.to_nat (mx - offset + 1)) nd sets fuel (start_state sets offset bnd nd p0) = Done s /\
    let gap := Z.to_nat (mx - offset + 1) in
    let lbs := flat_map (new_lbs gap offset bnd (ad_orig g) (s_poss s)) (seq 0 nd) in
    let ubs := flat_map (new_ubs gap offset bnd (ad_orig g) (s_poss s)) (seq 0 nd) in
    (s_inf s = true /\ cs' = insert_new cs impossible_cut /\ oc = None) \/
    (s_inf s = false /\ cs' = cs /\
      ((oc = None /\ lbs = [] /\ ubs = []) \/ oc = Some (ColCut lbs ubs))).
Proof.
  intros N E. unfold generateCuts in E. rewrite N in E.
  apply bind_done in E as (bl & E1 & E). cbv zeta in E.
  destruct (ad_null g); [discriminate|].
  apply bind_done in E as ([[offset mx] sets] & E2 & E). cbn [fst snd] in E.
  apply bind_done in E as (gz & E3 & E).
  assert (G : gz = mx - offset + 1).
  { unfold int_gap in E3. destruct (int_range _); [|discriminate]. destruct (int_range _); [|discriminate].
    apply Done_inj in E3. congruence. }
  subst gz. destruct (negb _); [discriminate|].
  apply bind_done in E as (p0 & E4 & E). apply bind_done in E as (s & E5 & E).
  exists (fun i => nth i bl (0, 0)), offset, mx, sets, p0, s.
  split; [|split; [exact E2|split; [exact E4|split; [exact E5|]]]].
  - intros i I. assert (Ls : (i < length (seq 0 nd))%nat) by (rewrite seq_length; exact I).
    pose proof (omap_nth _ _ _ 0%nat (0, 0) i E1 Ls) as X. cbv beta in X.
    rewrite seq_nth in X by exact I. exact X.
  - cbv zeta. destruct (s_inf s); [left; apply Done_inj in E; conjs; congruence|right].
    split; [reflexivity|].
    destruct (flat_map (new_lbs _ _ _ _ _) _) as [|a l]; [destruct (flat_map (new_ubs _ _ _ _ _) _) as [|b l']|];
      apply Done_inj in E; injection E as <- <-; (split; [reflexivity|]); auto.
Qed.

Section Translate.
  Variable orig : list nat.
  Variable x : point.
  Definition xi (i : nat) : Z := Qfloor (x (nth i orig 0%nat)).
End Translate.

(** No point that is all different on the sets as the generator stores them
    is lost, and infeasibility is not reported when there is one. *)
Theorem generate_sound debug fuel g m cs cs' oc nd x :
  ad_nd g = Some nd ->
  (forall s k, In s (ad_sets g) -> In k s -> (k < nd)%nat) ->
  (forall i, (i < nd)%nat -> integral (x (nth i (ad_orig g) 0%nat))) -> in_bounds m x ->
  (forall s, In s (ad_sets g) -> NoDup (map (xi (ad_orig g) x) s)) ->
  generateCuts debug fuel g m cs = Done (cs', oc) ->
  cs' = cs /\ forall cc, oc = Some cc -> colcut_sat cc x.
Proof.
  intros N L X IB D E. apply (generate_done _ _ _ _ _ _ _ nd N) in E
    as (bnd & offset & mx & sets & p0 & s & E1 & E2 & E3 & E4 & E5).
  pose proof (choose_incl _ _ _ _ _ _ E2) as I. simpl in I.
  apply init_rows_done in E3 as (R1 & R2); [|apply seq_NoDup].
  set (gap := Z.to_nat (mx - offset + 1)) in *.
  assert (xz : forall i, (i < nd)%nat ->
     (x (nth i (ad_orig g) 0%nat) == inject_Z (xi (ad_orig g) x i))%Q /\
     fst (bnd i) <= xi (ad_orig g) x i <= snd (bnd i)).
  { intros i Hi. destruct (X i Hi) as [z Z0]. specialize (E1 i Hi).
    destruct (bnd i) as [l u] eqn:B. apply read_bounds_done in E1 as (C0 & ql & qu & C1 & C2 & -> & ->).
    destruct (IB _ C0) as (X1 & X2).
    rewrite C1 in X1. rewrite C2 in X2. simpl in X1, X2.
    assert (F : xi (ad_orig g) x i = z).
    { unfold xi. rewrite Z0. apply Qfloor_Z. }
    rewrite F. simpl. rewrite Z0 in X1, X2. split; [exact Z0|].
    split; [apply qtrunc_le; exact X1|apply qtrunc_ge; exact X2]. }
  set (y := fun i => Z.to_nat (xi (ad_orig g) x i - offset)).
  assert (yr : forall i, (i < nd)%nat -> (y i < gap)%nat /\ Z.of_nat (y i) = xi (ad_orig g) x i - offset).
  { intros i Hi. destruct (xz i Hi) as (_ & B). destruct (R1 i) as (A1 & A2 & _); [apply in_seq; lia|].
    unfold y, gap. lia. }
  assert (y_gap : forall w k, In w sets -> In k w -> (y k < gap)%nat).
  { intros w k W K. apply yr. apply (L w k); auto. }
  assert (y_diff : forall w, In w sets -> NoDup (map y w)).
  { intros w W. specialize (D w (I w W)). assert (Lw : forall k, In k w -> (k < nd)%nat) by (intros; apply (L w k); auto).
    clear - D Lw yr. induction w as [|k w IH]; simpl in *; [constructor|].
    apply NoDup_cons_iff in D as (D1 & D2). constructor; [|apply IH; auto].
    intro H. apply D1. apply in_map_iff in H as (j & J & K). apply in_map_iff. exists j. split; [|exact K].
    destruct (yr k) as (_ & Y1); [auto|]. destruct (yr j) as (_ & Y2); [auto|]. lia. }
  assert (sl : forall w k, In w sets -> In k w -> (k < nd)%nat) by (intros w k W K; apply (L w k); auto).
  assert (G0 : good nd sets y (St p0 (fun _ => None) 0 false false)).
  { split; [|split; simpl; [discriminate|discriminate]]. simpl. intros k K. rewrite R2.
    assert (M : memn k (seq 0 nd) = true) by (apply memn_in, in_seq; lia). rewrite M.
    destruct (xz k K) as (_ & B). destruct (R1 k) as (A1 & A2 & _); [apply in_seq; lia|].
    unfold y. apply andb_true_iff. split; [apply Nat.leb_le|apply Nat.ltb_lt]; lia. }
  destruct (init_good nd sets y y_diff offset bnd (seq 0 nd) (St p0 (fun _ => None) 0 false false)) as (G1 & F1).
  { intros i Hi He. apply in_seq in Hi. destruct (xz i) as (_ & B); [lia|]. apply Z.eqb_eq in He. unfold y. f_equal. lia. }
  { exact G0. }
  destruct (passes_good gap nd sets y y_gap y_diff sl debug fuel fuel _ _ G1 F1 E4) as (G2 & F2).
  cbv zeta in E5. destruct E5 as [(E5 & _)|(_ & Ec & Eo)]; [congruence|].
  split; [exact Ec|]. intros cc Hc.
  destruct Eo as [(Eo & _)|Eo]; [congruence|]. assert (cc = ColCut (flat_map (new_lbs gap offset bnd (ad_orig g) (s_poss s)) (seq 0 nd))
     (flat_map (new_ubs gap offset bnd (ad_orig g) (s_poss s)) (seq 0 nd))) by congruence.
  subst cc. clear Hc Eo Ec.
  split; simpl; intros j b H; apply in_flat_map in H as (i & Hi & H); apply in_seq in Hi;
    destruct (yr i) as (Y1 & Y2); try lia; destruct (xz i) as (Z1 & _); try lia;
    assert (P : s_poss s i (y i) = true) by (apply G2; lia).
  - unfold new_lbs in H. destruct (_ <? _); [|destruct H]. destruct H as [H|[]]. injection H as <- <-.
    rewrite Z1. rewrite <- Zle_Qle. pose proof (first_lo_le gap _ _ Y1 P). lia.
  - unfold new_ubs in H. destruct (_ <? _); [|destruct H]. destruct H as [H|[]]. injection H as <- <-.
    rewrite Z1. rewrite <- Zle_Qle. pose proof (last_up_ge gap _ _ Y1 P). lia.
Qed.

(** ** The renumbering of the columns *)
Local Open Scope nat_scope.
Lemma nodup_same_len {A} (l l' : list A) :
  NoDup l -> NoDup l' -> (forall a, In a l <-> In a l') -> length l = length l'.
Proof.
  intros H H' E. apply Nat.le_antisymm; apply NoDup_incl_length; auto; intros a; apply E.
Qed.
Lemma translate_len which c l :
  NoDup l -> (forall d, In d l <-> In d which /\ d < c) -> translate which c = length l.
Proof.
  intros N H. unfold translate. apply nodup_same_len; [apply NoDup_filter, seq_NoDup|exact N|].
  intro d. rewrite filter_In, in_seq, memn_in, H. intuition lia.
Qed.
Lemma translate_mono which c d : In c which -> c < d -> translate which c < translate which d.
Proof.
  intros C L. unfold translate. replace d with (c + S (d - c - 1)) by lia.
  rewrite seq_app, filter_app, app_length. simpl.
  assert (M : memn c which = true) by (apply memn_in; exact C). rewrite M. simpl. lia.
Qed.
Lemma translate_inj which c d : In c which -> In d which -> translate which c = translate which d -> c = d.
Proof.
  intros C D E. destruct (lt_eq_lt_dec c d) as [[L|L]|L]; [|exact L|].
  - pose proof (translate_mono which c d C L). lia.
  - pose proof (translate_mono which d c D L). lia.
Qed.
Lemma max_ge l c : In c l -> c <= fold_right Nat.max 0 l.
Proof. induction l as [|a l IH]; simpl; [tauto|]. intros [->|H]; [lia|]. specialize (IH H). lia. Qed.

(** nd, the number of different columns *)
Definition count (sets : list (list nat)) : nat :=
  translate (concat sets) (S (fold_right Nat.max 0 (concat sets))).
Lemma ad_new_eq sets : sets <> [] ->
  ad_new sets = AllDiff false (Some (count sets)) (map (map (translate (concat sets))) sets) (concat sets).
Proof. destruct sets; [congruence|reflexivity]. Qed.
Lemma count_len sets l :
  NoDup l -> (forall d, In d l <-> In d (concat sets)) -> count sets = length l.
Proof.
  intros N H. apply translate_len; [exact N|]. intro d. rewrite H. split; [|tauto].
  intro I. split; [exact I|]. apply max_ge in I. lia.
Qed.
Lemma translate_lt sets c : In c (concat sets) -> translate (concat sets) c < count sets.
Proof. intro H. apply translate_mono; [exact H|]. apply max_ge in H. lia. Qed.
Lemma local_lt sets s k : In s (map (map (translate (concat sets))) sets) -> In k s -> k < count sets.
Proof.
  intros S K. apply in_map_iff in S as (t & <- & T). apply in_map_iff in K as (c & <- & C).
  apply translate_lt. apply in_concat. eauto.
Qed.

Lemma sorted_split (p : list nat) : StronglySorted lt p -> forall i, i < length p ->
  forall d, In d (firstn i p) <-> In d p /\ d < nth i p 0.
Proof.
  induction 1 as [|a p S IH F]; simpl; intros i L d; [lia|]. rewrite Forall_forall in F.
  destruct i as [|i]; simpl.
  - split; [tauto|]. intros ([->|I] & H); [lia|]. apply F in I. lia.
  - rewrite (IH i ltac:(lia) d). split.
    + intros [->|(I & H)]; [|tauto]. split; [auto|]. apply F. apply nth_In. lia.
    + tauto.
Qed.
Lemma sorted_nodup (p : list nat) : StronglySorted lt p -> NoDup p.
Proof.
  induction 1 as [|a p S IH F]; constructor; [|exact IH]. intro I. rewrite Forall_forall in F.
  apply F in I. lia.
Qed.
Lemma nodup_firstn {A} (l : list A) i : NoDup l -> NoDup (firstn i l).
Proof.
  intro H. rewrite <- (firstn_skipn i l) in H. revert H. generalize (skipn i l). generalize (firstn i l).
  induction l0 as [|a l0 IH]; simpl; intros l1 H; [constructor|].
  apply NoDup_cons_iff in H as (H1 & H2). constructor; [|eapply IH; eauto].
  intro I. apply H1. apply in_or_app. left. exact I.
Qed.
(** When the columns first appear in increasing order, the stored numbering
    leads back to the columns. *)
Lemma translate_prefix sets p q i :
  concat sets = p ++ q -> StronglySorted lt p -> incl q p -> i < length p ->
  translate (concat sets) (nth i p 0) = i.
Proof.
  intros E S I L. rewrite (translate_len _ _ (firstn i p)).
  - rewrite firstn_length. lia.
  - apply nodup_firstn, sorted_nodup, S.
  - intro d. rewrite (sorted_split p S i L d), E, in_app_iff. split; [tauto|].
    intros ([H|H] & K); auto.
Qed.
Lemma translate_back sets p q c :
  concat sets = p ++ q -> StronglySorted lt p -> incl q p -> In c (concat sets) ->
  nth (translate (concat sets) c) (concat sets) 0 = c.
Proof.
  intros E S I C.
  assert (Cp : In c p) by (rewrite E in C; apply in_app_iff in C as [H|H]; auto).
  apply (In_nth _ _ 0) in Cp as (i & L & <-).
  rewrite (translate_prefix sets p q i E S I L), E. apply app_nth1. exact L.
Qed.
Lemma count_prefix sets p q :
  concat sets = p ++ q -> StronglySorted lt p -> incl q p -> count sets = length p.
Proof.
  intros E S I. apply count_len; [apply sorted_nodup, S|].
  intro d. rewrite E, in_app_iff. split; [auto|intros [H|H]; auto].
Qed.
Lemma count_le sets : count sets <= length (concat sets).
Proof.
  unfold count, translate. apply NoDup_incl_length; [apply NoDup_filter, seq_NoDup|].
  intros c C. apply filter_In in C as (_ & C). apply memn_in. exact C.
Qed.
Lemma orig_in sets i : i < count sets -> In (nth i (concat sets) 0) (concat sets).
Proof. intro H. apply nth_In. pose proof (count_le sets). lia. Qed.
Lemma nodup_translate sets s : In s sets -> NoDup s -> NoDup (map (translate (concat sets)) s).
Proof.
  intros Hs. assert (K : incl s (concat sets)) by (intros c C; apply in_concat; eauto).
  revert K. clear Hs. induction s as [|a s IH]; simpl; intros K N; [constructor|].
  apply NoDup_cons_iff in N as (N1 & N2). constructor.
  - intro H. apply in_map_iff in H as (b & B1 & B2). apply N1.
    rewrite <- (translate_inj (concat sets) b a); auto; apply K; [right; exact B2|left; reflexivity].
  - apply IH; [intros c C; apply K; right; exact C|exact N2].
Qed.

(** ** The whole run for bounds given by ints *)
Lemma passes_later gap nd sets debug fuel f :
  (forall s k, In s sets -> In k s -> k < nd) -> forall s s',
  passes debug fuel gap nd sets f s = Done s' ->
  forall k v, s_poss s' k v = true -> s_poss s k v = true.
Proof.
  intro L. induction f as [|f IH]; simpl; intros s s' E k v P; [discriminate|].
  apply bind_done in E as (s1 & E1 & E2).
  pose proof (pass_moves gap nd sets L debug fuel sets _ _ (incl_refl _) E1) as ((M & _) & _).
  simpl in M. apply M. destruct (if (s_nfix s <? s_nfix s1) then false else s_fin s1).
  - apply Done_inj in E2. subst s'. exact P.
  - apply (IH _ _ E2 k v P).
Qed.
Lemma start_later sets offset bnd nd p0 k v :
  s_poss (start_state sets offset bnd nd p0) k v = true -> p0 k v = true.
Proof.
  unfold start_state.
  assert (K : forall l s, s_poss (fold_left (init_fix sets offset bnd) l s) k v = true -> s_poss s k v = true).
  { induction l as [|i l IH]; simpl; intros s H; [exact H|]. apply IH in H.
    unfold init_fix in H. destruct (Z.eqb _ _); [|exact H]. simpl in H. apply clear_others_true in H. tauto. }
  intro H. apply K in H. exact H.
Qed.

Definition int_bounds (m : mip) (sets : list (list nat)) (A B : Z) : Prop :=
  forall c, In c (concat sets) -> c < m_ncols m /\
    exists l u, m_clo m c = Some (inject_Z l) /\ m_chi m c = Some (inject_Z u) /\ (A <= l <= u)%Z /\ (u <= B)%Z.

Local Open Scope Z_scope.
Lemma is_whole_inject z : is_whole (Some (inject_Z z)) = true.
Proof.
  unfold is_whole, qfloor. apply Qeq_bool_iff. rewrite (Qfloor_unique _ z); [reflexivity| |].
  - lra.
  - lra.
Qed.
Lemma read_bounds_total debug m c l u :
  (c < m_ncols m)%nat -> m_clo m c = Some (inject_Z l) -> m_chi m c = Some (inject_Z u) ->
  int_range l = true -> int_range u = true -> l <= u -> read_bounds debug m c = Done (l, u).
Proof.
  intros C L U Rl Ru LU. unfold read_bounds. rewrite L, U, !is_whole_inject.
  apply Nat.ltb_lt in C. rewrite C. unfold to_int. rewrite !qtrunc_inject, Rl, Ru.
  cbn [bind negb]. rewrite !andb_false_r. cbn [bind].
  assert (X : (u <? l) = false) by (apply Z.ltb_ge; exact LU). rewrite X.
  destruct debug; reflexivity.
Qed.

Lemma range_of A B z : - INT_MAX <= A -> B <= INT_MAX -> A <= z <= B -> int_range z = true.
Proof.
  unfold int_range, INT_MAX, INT_MIN. intros. apply andb_true_iff. split; apply Z.leb_le; lia.
Qed.

(** Everything before the passes succeeds. *)
Lemma generate_setup debug sets s0 rest m A B :
  sets = s0 :: rest -> s0 <> [] -> - INT_MAX <= A -> B <= INT_MAX ->
  int_bounds m sets A B -> (B - A + 1) * Z.of_nat (length (concat sets)) <= 10000000 ->
  let loc := map (map (translate (concat sets))) sets in
  let nd := count sets in
  exists bl o mx p0, let bnd := fun i => nth i bl (0, 0) in
    omap (fun i => read_bounds debug m (nth i (concat sets) 0%nat)) (seq 0 nd) = Done bl /\
    (forall i, (i < nd)%nat ->
       m_clo m (nth i (concat sets) 0%nat) = Some (inject_Z (fst (bnd i))) /\
       m_chi m (nth i (concat sets) 0%nat) = Some (inject_Z (snd (bnd i))) /\
       A <= fst (bnd i) <= snd (bnd i) /\ snd (bnd i) <= B) /\
    choose_sets nd bnd loc INT_MAX (- INT_MAX) = Done (o, mx, loc) /\
    A <= o /\ mx <= B /\ 0 <= mx - o + 1 /\
    int_gap mx o = Done (mx - o + 1) /\ int_range ((mx - o + 1) * Z.of_nat nd) = true /\
    init_rows o (mx - o + 1) bnd (seq 0 nd) (fun _ _ => false) = Done p0.
Proof.
  intros Es Ns RA RB IB Sz loc nd.
  assert (c0 : exists c, In c (concat sets)).
  { subst sets. destruct s0 as [|c s0]; [congruence|]. exists c. left. reflexivity. }
  destruct c0 as (c0 & C0).
  assert (AB : A <= B).
  { destruct (IB c0 C0) as (_ & l & u & _ & _ & X & Y). lia. }
  assert (len : 1 <= Z.of_nat (length (concat sets))).
  { destruct (concat sets); [destruct C0|]. simpl length. lia. }
  assert (G : B - A + 1 <= 10000000) by nia.
  assert (ndl : Z.of_nat nd <= Z.of_nat (length (concat sets))).
  { apply inj_le. apply count_le. }
  assert (Sz' : (B - A + 1) * Z.of_nat nd <= 10000000) by nia.
  destruct (omap_total (fun i => read_bounds debug m (nth i (concat sets) 0%nat)) (seq 0 nd)) as (bl & E1).
  { intros i Hi. apply in_seq in Hi. destruct (IB _ (orig_in sets i ltac:(unfold nd in Hi; lia))) as (X & l & u & L & U & Y & Z).
    exists (l, u). apply read_bounds_total; auto; try lia; apply (range_of A B); auto; lia. }
  exists bl.
  assert (Bn : forall i, (i < nd)%nat ->
       m_clo m (nth i (concat sets) 0%nat) = Some (inject_Z (fst (nth i bl (0, 0)))) /\
       m_chi m (nth i (concat sets) 0%nat) = Some (inject_Z (snd (nth i bl (0, 0)))) /\
       A <= fst (nth i bl (0, 0)) <= snd (nth i bl (0, 0)) /\ snd (nth i bl (0, 0)) <= B).
  { intros i Hi. assert (Ls : (i < length (seq 0 nd))%nat) by (rewrite seq_length; exact Hi).
    pose proof (omap_nth _ _ _ 0%nat (0, 0) i E1 Ls) as X. cbv beta in X.
    rewrite seq_nth in X by exact Hi. simpl in X.
    destruct (IB _ (orig_in sets i Hi)) as (X0 & l & u & L & U & Y & Z).
    rewrite (read_bounds_total debug m _ l u X0 L U) in X; try lia;
      try (apply (range_of A B); auto; lia).
    apply Done_inj in X. rewrite <- X. simpl. auto. }
  destruct (choose_all nd (fun i => nth i bl (0, 0)) A B) with (sets := loc) (o := INT_MAX) (mx := - INT_MAX)
    as (o & mx & E2 & C1 & C2 & _ & _ & C5 & C6).
  { apply (range_of A B); auto; lia. }
  { apply (range_of A B); auto; lia. }
  { unfold INT_MAX; lia. }
  { exact Sz'. }
  { intros s k S K. apply Bn. unfold nd. apply (local_lt sets s k S K). }
  { lia. }
  { lia. }
  { right. unfold loc. rewrite Es. simpl. destruct s0; [congruence|discriminate]. }
  destruct (init_rows_total o (mx - o + 1) (fun i => nth i bl (0, 0)) (seq 0 nd) (fun _ _ => false)) as (p0 & E3).
  { intros i Hi. apply in_seq in Hi. destruct (Bn i ltac:(lia)) as (_ & _ & X & Y).
    assert (In (nth i (concat sets) 0%nat) (concat sets)) as I by (apply orig_in; unfold nd in Hi; lia).
    assert (K : exists s, In s loc /\ In i s).
    { clear - Hi. unfold loc, nd in *.
      assert (T : forall n j, (j < translate (concat sets) n)%nat -> exists c, In c (concat sets) /\ translate (concat sets) c = j).
      { induction n as [|n IH]; intros j J; [unfold translate in J; simpl in J; lia|].
        unfold translate in J. rewrite seq_S, filter_app, app_length in J. simpl in J.
        destruct (memn n (concat sets)) eqn:M; simpl in J.
        - destruct (Nat.eq_dec j (translate (concat sets) n)) as [->|N].
          + exists n. split; [apply memn_in; exact M|reflexivity].
          + apply IH. unfold translate in *. lia.
        - apply IH. unfold translate. lia. }
      destruct (T _ i (proj2 Hi)) as (c & C & E). apply in_concat in C as (t & T1 & T2).
      exists (map (translate (concat sets)) t). split; [apply in_map; exact T1|].
      rewrite <- E. apply in_map. exact T2. }
    destruct K as (s & S & Ks). destruct (C6 s i S Ks). lia. }
  exists o, mx, p0. cbv zeta. conjs; auto; try lia.
  - apply (int_gap_small mx o A B); try lia; try (apply (range_of A B); auto; lia).
    unfold INT_MAX; lia.
  - assert (X : 0 <= (mx - o + 1) * Z.of_nat nd) by (apply Z.mul_nonneg_nonneg; lia).
    assert (Y : (mx - o + 1) * Z.of_nat nd <= (B - A + 1) * Z.of_nat nd) by (apply Z.mul_le_mono_nonneg_r; lia).
    apply (range_of (-10000000) 10000000); unfold INT_MAX; lia.
Qed.

(** Hence the run is decided by the passes. *)
Lemma generate_run debug fuel sets m cs bl o mx p0 s :
  sets <> [] ->
  omap (fun i => read_bounds debug m (nth i (concat sets) 0%nat)) (seq 0 (count sets)) = Done bl ->
  choose_sets (count sets) (fun i => nth i bl (0, 0)) (map (map (translate (concat sets))) sets)
    INT_MAX (- INT_MAX) = Done (o, mx, map (map (translate (concat sets))) sets) ->
  int_gap mx o = Done (mx - o + 1) -> int_range ((mx - o + 1) * Z.of_nat (count sets)) = true ->
  init_rows o (mx - o + 1) (fun i => nth i bl (0, 0)) (seq 0 (count sets)) (fun _ _ => false) = Done p0 ->
  passes debug fuel (Z.to_nat (mx - o + 1)) (count sets) (map (map (translate (concat sets))) sets) fuel
    (start_state (map (map (translate (concat sets))) sets) o (fun i => nth i bl (0, 0)) (count sets) p0) = Done s ->
  exists r, generateCuts debug fuel (ad_new sets) m cs = Done r.
Proof.
  intros Ns E1 E2 E3 E4 E5 E6.
  rewrite ad_new_eq by exact Ns. unfold generateCuts. cbn [ad_nd ad_null ad_sets ad_orig].
  rewrite E1. cbn [bind]. rewrite E2. cbn [bind fst snd]. rewrite E3. cbn [bind]. rewrite E4. cbn [negb].
  rewrite E5. cbn [bind]. unfold start_state in E6. rewrite E6. cbn [bind].
  destruct (s_inf s); [eauto|].
  destruct (flat_map (new_lbs _ _ _ _ _) _); [destruct (flat_map (new_ubs _ _ _ _ _) _)|]; eauto.
Qed.

Lemma pow_base_le g g' n fuel : (g <= g')%nat -> (base g' ^ n <= fuel)%nat -> (base g ^ n <= fuel)%nat.
Proof.
  intros H K. etransitivity; [|exact K]. apply Nat.pow_le_mono_l. unfold base. lia.
Qed.
Lemma set_len sets s :
  In s sets -> NoDup s -> (length (map (translate (concat sets)) s) <= count sets)%nat.
Proof.
  intros S N. rewrite <- (seq_length (count sets) 0). apply NoDup_incl_length.
  - apply nodup_translate; assumption.
  - intros k K. apply in_seq. split; [lia|]. simpl. apply (local_lt sets (map (translate (concat sets)) s) k); [|exact K].
    apply in_map. exact S.
Qed.

(** The start state keeps the values of a point that is all different on the
    sets as stored. *)
Lemma start_good sets offset mx bnd nd p0 orig (x : point) :
  (forall s k, In s sets -> In k s -> (k < nd)%nat) ->
  (forall i, (i < nd)%nat -> fst (bnd i) <= xi orig x i <= snd (bnd i)) ->
  (forall s, In s sets -> NoDup (map (xi orig x) s)) ->
  init_rows offset (mx - offset + 1) bnd (seq 0 nd) (fun _ _ => false) = Done p0 ->
  let y := fun i => Z.to_nat (xi orig x i - offset) in
  (forall w k, In w sets -> In k w -> (y k < Z.to_nat (mx - offset + 1))%nat) /\
  (forall w, In w sets -> NoDup (map y w)) /\
  good nd sets y (start_state sets offset bnd nd p0) /\
  s_inf (start_state sets offset bnd nd p0) = false.
Proof.
  intros L xz D E3 y. apply init_rows_done in E3 as (R1 & R2); [|apply seq_NoDup].
  assert (yr : forall i, (i < nd)%nat -> (y i < Z.to_nat (mx - offset + 1))%nat /\ Z.of_nat (y i) = xi orig x i - offset).
  { intros i Hi. pose proof (xz i Hi) as B. destruct (R1 i) as (A1 & A2 & _); [apply in_seq; lia|].
    unfold y. lia. }
  assert (y_diff : forall w, In w sets -> NoDup (map y w)).
  { intros w W. specialize (D w W). assert (Lw : forall k, In k w -> (k < nd)%nat) by (intros; apply (L w k); auto).
    clear - D Lw yr. induction w as [|k w IH]; simpl in *; [constructor|].
    apply NoDup_cons_iff in D as (D1 & D2). constructor; [|apply IH; auto].
    intro H. apply D1. apply in_map_iff in H as (j & J & K). apply in_map_iff. exists j. split; [|exact K].
    destruct (yr k) as (_ & Y1); [auto|]. destruct (yr j) as (_ & Y2); [auto|]. lia. }
  assert (G0 : good nd sets y (St p0 (fun _ => None) 0 false false)).
  { split; [|split; simpl; [discriminate|discriminate]]. simpl. intros k K. rewrite R2.
    assert (M : memn k (seq 0 nd) = true) by (apply memn_in, in_seq; lia). rewrite M.
    pose proof (xz k K) as B. destruct (R1 k) as (A1 & A2 & _); [apply in_seq; lia|].
    unfold y. apply andb_true_iff. split; [apply Nat.leb_le|apply Nat.ltb_lt]; lia. }
  split; [|split; [exact y_diff|]].
  - intros w k W K. apply yr. apply (L w k); auto.
  - destruct (init_good nd sets y y_diff offset bnd (seq 0 nd) (St p0 (fun _ => None) 0 false false)) as (G1 & F1).
    { intros i Hi He. apply in_seq in Hi. pose proof (xz i ltac:(lia)) as B. apply Z.eqb_eq in He. unfold y. f_equal. lia. }
    { exact G0. }
    split; [exact G1|exact F1].
Qed.

Lemma generate_eval debug fuel sets m cs cs' oc bl o mx p0 :
  sets <> [] ->
  omap (fun i => read_bounds debug m (nth i (concat sets) 0%nat)) (seq 0 (count sets)) = Done bl ->
  choose_sets (count sets) (fun i => nth i bl (0, 0)) (map (map (translate (concat sets))) sets)
    INT_MAX (- INT_MAX) = Done (o, mx, map (map (translate (concat sets))) sets) ->
  int_gap mx o = Done (mx - o + 1) -> int_range ((mx - o + 1) * Z.of_nat (count sets)) = true ->
  init_rows o (mx - o + 1) (fun i => nth i bl (0, 0)) (seq 0 (count sets)) (fun _ _ => false) = Done p0 ->
  generateCuts debug fuel (ad_new sets) m cs = Done (cs', oc) ->
  exists s,
    passes debug fuel (Z.to_nat (mx - o + 1)) (count sets) (map (map (translate (concat sets))) sets) fuel
      (start_state (map (map (translate (concat sets))) sets) o (fun i => nth i bl (0, 0)) (count sets) p0) = Done s /\
    ((s_inf s = true /\ cs' = insert_new cs impossible_cut) \/
     (s_inf s = false /\
      let lbs := flat_map (new_lbs (Z.to_nat (mx - o + 1)) o (fun i => nth i bl (0, 0)) (concat sets) (s_poss s)) (seq 0 (count sets)) in
      let ubs := flat_map (new_ubs (Z.to_nat (mx - o + 1)) o (fun i => nth i bl (0, 0)) (concat sets) (s_poss s)) (seq 0 (count sets)) in
      ((oc = None /\ lbs = [] /\ ubs = []) \/ oc = Some (ColCut lbs ubs)))).
Proof.
  intros Ns E1 E2 E3 E4 E5.
  rewrite ad_new_eq by exact Ns. unfold generateCuts. cbn [ad_nd ad_null ad_sets ad_orig].
  rewrite E1. cbn [bind]. rewrite E2. cbn [bind fst snd]. rewrite E3. cbn [bind]. rewrite E4. cbn [negb].
  rewrite E5. cbn [bind]. intro E6. apply bind_done in E6 as (s & E6 & E7). exists s.
  split; [exact E6|]. destruct (s_inf s) eqn:F.
  - left. apply Done_inj in E7. split; [reflexivity|]. congruence.
  - right. cbv zeta in *. split; [reflexivity|].
    destruct (flat_map (new_lbs _ _ _ _ _) _); [destruct (flat_map (new_ubs _ _ _ _ _) _)|]; apply Done_inj in E7.
    + left. split; [congruence|auto].
    + right. congruence.
    + right. congruence.
Qed.

Fixpoint index (k : nat) (l : list nat) : nat :=
  match l with [] => 0%nat | a :: l' => if Nat.eqb a k then 0%nat else S (index k l') end.
Lemma index_nth k l : In k l -> (index k l < length l)%nat /\ nth (index k l) l 0%nat = k.
Proof.
  induction l as [|a l IH]; simpl; [tauto|]. intro H. destruct (Nat.eqb_spec a k) as [->|N].
  - split; [lia|reflexivity].
  - destruct H as [->|H]; [congruence|]. destruct (IH H). split; [lia|assumption].
Qed.
Lemma first_of_row gap (row : nat -> bool) :
  (exists v, (v < gap)%nat /\ row v = true) ->
  (Z.to_nat (first_lo gap row) < gap)%nat /\ row (Z.to_nat (first_lo gap row)) = true.
Proof.
  intro H. destruct (first_lo_attained gap row H) as (v & V & R & E). rewrite E, Nat2Z.id. auto.
Qed.

Lemma start_inv nd sets offset bnd gz p0 :
  init_rows offset gz bnd (seq 0 nd) (fun _ _ => false) = Done p0 ->
  inv (Z.to_nat gz) sets (start_state sets offset bnd nd p0).
Proof.
  intro E. apply init_rows_done in E as (R1 & R2); [|apply seq_NoDup].
  unfold start_state. apply (init_inv (Z.to_nat gz) sets offset bnd p0).
  - apply seq_NoDup.
  - reflexivity.
  - intros i Hi He v. rewrite R2. assert (M : memn i (seq 0 nd) = true) by (apply memn_in; exact Hi).
    rewrite M. destruct (R1 i Hi) as (A1 & A2 & A3). apply Z.eqb_eq in He.
    rewrite andb_true_iff, Nat.leb_le, Nat.ltb_lt. lia.
  - intros i v Hi H. rewrite R2 in H. assert (M : memn i (seq 0 nd) = true) by (apply memn_in; exact Hi).
    rewrite M in H. destruct (R1 i Hi) as (A1 & A2 & A3).
    apply andb_true_iff in H as (H1%Nat.leb_le & H2%Nat.ltb_lt). lia.
  - auto.
  - simpl. intros k v H1 H2. congruence.
  - split; simpl; discriminate.
Qed.
