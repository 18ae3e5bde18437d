(** * Properties of CglPreProcess::update *)
From Verif Require Import Model_OriginalIndices Proofs_OriginalIndices.

(** The first [t] entries have been moved. *)
Definition moved {A} (l0 : list A) (orig : list Z) (t : nat) (l : list A) : Prop :=
  length l = length l0 /\
  (forall i, (i < t)%nat -> exists k v, nth_error orig i = Some k /\ zth l0 k = Some v /\ nth_error l i = Some v) /\
  (forall i, (t <= i)%nat -> nth_error l i = nth_error l0 i).
Lemma moved_zth {A} (l0 : list A) orig t l k : moved l0 orig t l -> (Z.of_nat t <= k)%Z -> zth l k = zth l0 k.
Proof.
  intros (_ & _ & M) H. unfold zth. destruct (k <? 0)%Z; [reflexivity|]. apply M. lia.
Qed.
Lemma moved_step {A} (l0 : list A) orig t l k v l' : moved l0 orig t l -> nth_error orig t = Some k ->
  (Z.of_nat t <= k)%Z -> zth l k = Some v -> seti l t v = Done l' ->
  zth l0 k = Some v /\ moved l0 orig (S t) l'.
Proof.
  intros M K L V E. pose proof (moved_zth l0 orig t l k M L) as Z. rewrite V in Z.
  split; [now symmetry|]. unfold seti in E. destruct (Nat.ltb_spec t (length l)); [|discriminate E].
  apply Done_inj in E. subst l'. destruct M as (M1 & M2 & M3). split; [now rewrite put_length|]. split.
  - intros i Li. destruct (Nat.eq_dec i t) as [->|Ne].
    + exists k, v. split; [exact K|]. split; [now symmetry|]. now apply put_same.
    + destruct (M2 i) as (k' & v' & A1 & A2 & A3); [lia|]. exists k', v'. split; [exact A1|]. split; [exact A2|].
      rewrite put_other by congruence. exact A3.
  - intros i Li. rewrite put_other by lia. apply M3. lia.
Qed.
Lemma seti_done {A} (l : list A) t k v : zth l k = Some v -> (Z.of_nat t <= k)%Z -> exists l', seti l t v = Done l'.
Proof.
  intros E L. apply zth_lt in E. unfold seti. replace (Nat.ltb t (length l)) with true; [eauto|].
  symmetry. apply Nat.ltb_lt. lia.
Qed.
Lemma fold_seq {S} (P : nat -> S -> Prop) (f : S -> nat -> outcome S) : forall n a s s',
  (forall t s s', (a <= t < a + n)%nat -> P t s -> f s t = Done s' -> P (Datatypes.S t) s') ->
  P a s -> ofold f (seq a n) s = Done s' -> P (a + n)%nat s'.
Proof.
  induction n as [|n IH]; intros a s s' H Ps E; cbn in E.
  - apply Done_inj in E. subst. now rewrite Nat.add_0_r.
  - destruct (f s a) as [t| | | |] eqn:F; try discriminate E. cbn in E.
    replace (a + Datatypes.S n)%nat with (Datatypes.S a + n)%nat by lia. apply (IH (Datatypes.S a) t s'); [| |exact E].
    + intros u x x' L. apply H. lia.
    + apply (H a s t); auto. lia.
Qed.
Lemma fold_seq_done {S} (P : nat -> S -> Prop) (f : S -> nat -> outcome S) : forall n a s,
  (forall t s, (a <= t < a + n)%nat -> P t s -> exists s', f s t = Done s' /\ P (Datatypes.S t) s') ->
  P a s -> exists s', ofold f (seq a n) s = Done s' /\ P (a + n)%nat s'.
Proof.
  induction n as [|n IH]; intros a s H Ps; cbn.
  - exists s. rewrite Nat.add_0_r. auto.
  - destruct (H a s) as (t & F & Pt); [lia|exact Ps|]. rewrite F. cbn.
    replace (a + Datatypes.S n)%nat with (Datatypes.S a + n)%nat by lia. apply IH; [|exact Pt].
    intros u x L. apply H. lia.
Qed.
Lemma moved_start {A} (l : list A) orig : moved l orig 0 l.
Proof. split; [reflexivity|]. split; [intros i H; lia|auto]. Qed.

(** Marks among the columns kept *)
Definition kept_marks (orig pr : list Z) (n : nat) : nat :=
  length (filter (fun k => match zth pr k with Some p => marked p | None => false end) (firstn n orig)).
Lemma kept_next orig pr n k p : nth_error orig n = Some k -> zth pr k = Some p ->
  kept_marks orig pr (S n) = if marked p then S (kept_marks orig pr n) else kept_marks orig pr n.
Proof.
  intros K P. unfold kept_marks.
  assert (F : firstn (S n) orig = firstn n orig ++ [k]).
  { revert n K. clear. induction orig as [|a l IH]; intros [|n] K; cbn in K; try discriminate K.
    - apply Some_inj in K. now subst.
    - change (firstn (S (S n)) (a :: l)) with (a :: firstn (S n) l). rewrite (IH n K). reflexivity. }
  rewrite F, filter_app, app_length. cbn [filter]. rewrite P. destruct (marked p); cbn; lia.
Qed.

Section Columns.
Context {A : Type}.
Variables (debug : bool) (cols : list Z) (n : nat) (pr : list Z) (sc : option (list A)).
Hypothesis inc : increasing cols.
Hypothesis pos : forall z, In z cols -> (0 <= z)%Z.

Definition col_inv (t : nat) (s : list Z * option (list A) * nat) : Prop :=
  let '(p, c, n2) := s in moved pr cols t p /\ n2 = kept_marks cols pr t /\
  match sc, c with Some l0, Some l => moved l0 cols t l | None, None => True | _, _ => False end.
Lemma col_inv_step t s s' : col_inv t s -> col_move debug cols s t = Done s' -> col_inv (S t) s'.
Proof.
  destruct s as [[p c] n2]. intros (M & N2 & C) E. unfold col_move in E.
  destruct (geti cols (Z.of_nat t)) as [k| | | |] eqn:K; try discriminate E. cbn [bind] in E.
  apply geti_done in K. rewrite zth_nat in K. pose proof (increasing_at cols inc pos t k K) as L.
  destruct (_ && _)%bool; [discriminate E|].
  match type of E with bind ?e _ = _ => destruct e as [c'| | | |] eqn:Ec; try discriminate E end. cbn [bind] in E.
  destruct (geti p k) as [v| | | |] eqn:V; try discriminate E. cbn [bind] in E. apply geti_done in V.
  destruct (seti p t v) as [p'| | | |] eqn:W; try discriminate E. cbn [bind] in E.
  apply Done_inj in E. subst s'. destruct (moved_step pr cols t p k v p' M K L V W) as [Z M'].
  split; [exact M'|]. split; [now rewrite (kept_next cols pr t k v K Z), N2|].
  destruct c as [l|].
  - destruct (geti l k) as [w| | | |] eqn:G; try discriminate Ec. cbn [bind] in Ec. apply geti_done in G.
    destruct (seti l t w) as [l'| | | |] eqn:Q; try discriminate Ec. cbn [bind] in Ec. apply Done_inj in Ec. subst c'.
    destruct sc as [l0|]; [|destruct C]. now destruct (moved_step l0 cols t l k w l' C K L G Q).
  - apply Done_inj in Ec. subst c'. exact C.
Qed.
Lemma col_inv_start : col_inv 0 (pr, sc, O).
Proof.
  split; [apply moved_start|]. split; [reflexivity|]. destruct sc; [apply moved_start|exact I].
Qed.
Hypothesis len : (n <= length cols)%nat.
Hypothesis inp : forall z, In z cols -> (z < Z.of_nat (length pr))%Z.
Hypothesis ins : forall l z, sc = Some l -> In z cols -> (z < Z.of_nat (length l))%Z.
Lemma col_move_done t s : (t < n)%nat -> col_inv t s -> exists s', col_move debug cols s t = Done s'.
Proof.
  intros Lt Iv. destruct s as [[p c] n2]. destruct Iv as (M & _ & C). unfold col_move.
  destruct (nth_error cols t) as [k|] eqn:K; [|apply nth_error_None in K; lia].
  pose proof (increasing_at cols inc pos t k K) as L. pose proof (nth_error_In _ _ K) as Ik.
  replace (geti cols (Z.of_nat t)) with (Done k) by (symmetry; apply geti_done; now rewrite zth_nat). cbn [bind].
  replace (debug && negb (Nat.eqb t 0) && negb (nth (t - 1) cols 0 <? k)%Z)%bool with false.
  2:{ symmetry. destruct (Nat.eqb_spec t 0); [cbn; now rewrite andb_false_r|].
      assert (X : (nth (t - 1) cols 0 < k)%Z).
      { apply (inc (t - 1)%nat t); [lia| |exact K]. apply nth_error_nth'. lia. }
      apply Z.ltb_lt in X. rewrite X. cbn. apply andb_false_r. }
  assert (R : forall B (l0 l : list B), moved l0 cols t l -> (k < Z.of_nat (length l0))%Z ->
    exists v l', geti l k = Done v /\ seti l t v = Done l').
  { intros B l0 l Ml Lk. destruct (zth_in l0 k) as [v V]; [lia|]. rewrite <- (moved_zth l0 cols t l k Ml L) in V.
    destruct (seti_done l t k v V L) as [l' E]. exists v, l'. split; [now apply geti_done|exact E]. }
  destruct (R Z pr p M (inp k Ik)) as (v & p' & V & W).
  destruct c as [l|].
  - destruct sc as [l0|] eqn:S; [|destruct C]. destruct (R A l0 l C (ins l0 k eq_refl Ik)) as (w & l' & G & Q).
    rewrite G. cbn [bind]. rewrite Q. cbn [bind]. rewrite V. cbn [bind]. rewrite W. cbn [bind]. eauto.
  - cbn [bind]. rewrite V. cbn [bind]. rewrite W. cbn [bind]. eauto.
Qed.
End Columns.

(** ** C129: marks, types and bounds move with their columns and rows *)
Lemma moved_first {A} (l0 : list A) orig n l i : moved l0 orig n l -> (i < n)%nat ->
  exists k v, nth_error orig i = Some k /\ zth l0 k = Some v /\ nth_error (firstn n l) i = Some v.
Proof.
  intros (_ & M & _) L. destruct (M i L) as (k & v & A1 & A2 & A3). exists k, v. split; [exact A1|]. split; [exact A2|].
  clear M A1 A2. revert l i L A3. induction n as [|n IH]; intros l i L E; [lia|].
  destruct l as [|b l]; [destruct i; discriminate E|]. destruct i as [|i]; [exact E|]. cbn in *. apply IH; [lia|exact E].
Qed.
Lemma moved_length {A} (l0 : list A) orig n l : moved l0 orig n l -> length (firstn n l) = n.
Proof.
  intros (_ & M & _). apply firstn_length_le. destruct n as [|n]; [lia|].
  destruct (M n) as (_ & v & _ & _ & E); [lia|]. assert (n < length l)%nat by (apply nth_error_Some; congruence). lia.
Qed.
Theorem C129_moved : forall A debug cols rows n nrows pr types (sc : option (list A)) pr' types' sc',
  increasing cols -> (forall z, In z cols -> (0 <= z)%Z) ->
  increasing rows -> (forall z, In z rows -> (0 <= z)%Z) ->
  update debug cols rows n nrows (Some pr) (Some types) sc = Done (pr', types', sc') ->
  (exists p, pr' = Some p /\ length p = n /\ forall i, (i < n)%nat ->
     exists k v, nth_error cols i = Some k /\ zth pr k = Some v /\ nth_error p i = Some v) /\
  (exists t, types' = Some t /\ length t = nrows /\ forall i, (i < nrows)%nat ->
     exists k v, nth_error rows i = Some k /\ zth types k = Some v /\ nth_error t i = Some v) /\
  (forall l, sc = Some l -> exists l', sc' = Some l' /\ length l' = length l /\ forall i, (i < n)%nat ->
     exists k v, nth_error cols i = Some k /\ zth l k = Some v /\ nth_error l' i = Some v) /\
  (sc = None -> sc' = None).
Proof.
  intros A debug cols rows n nrows pr types sc pr' types' sc' Ic Pc Ir Pr E. unfold update, move_cols in E.
  destruct (ofold (col_move debug cols) (seq 0 n) (pr, sc, O)) as [[[p c] n2]| | | |] eqn:F; try discriminate E.
  cbn [bind] in E. destruct (_ && _)%bool; [discriminate E|]. cbn [bind fst snd] in E.
  destruct (ofold (row_move rows) (seq 0 nrows) types) as [t| | | |] eqn:G; try discriminate E. cbn [bind fst snd] in E.
  apply Done_inj in E. apply pair_equal_spec in E. destruct E as [E <-]. apply pair_equal_spec in E. destruct E as [<- <-].
  pose proof (fold_seq (col_inv cols pr sc) (col_move debug cols) n 0 (pr, sc, O) (p, c, n2)
    (fun t s s' _ => col_inv_step debug cols pr sc Ic Pc t s s') (col_inv_start cols pr sc) F) as Iv.
  cbn [Nat.add] in Iv. destruct Iv as (Mp & _ & Mc).
  assert (Mt : moved types rows nrows t).
  { apply (fold_seq (moved types rows) (row_move rows) nrows 0 types t); [|apply moved_start|exact G].
    intros i s s' _ M S. unfold row_move in S.
    destruct (geti rows (Z.of_nat i)) as [k| | | |] eqn:K; try discriminate S. cbn [bind] in S.
    apply geti_done in K. rewrite zth_nat in K. destruct (geti s k) as [v| | | |] eqn:V; try discriminate S. cbn [bind] in S.
    apply geti_done in V. now apply (moved_step types rows i s k v s' M K (increasing_at rows Ir Pr i k K) V S). }
  split; [|split; [|split]].
  - eexists. split; [reflexivity|]. split; [now apply (moved_length pr cols n p)|]. intros i L. now apply (moved_first pr cols n p i).
  - eexists. split; [reflexivity|]. split; [now apply (moved_length types rows nrows t)|]. intros i L. now apply (moved_first types rows nrows t i).
  - intros l ->. destruct c as [l'|]; [|destruct Mc]. exists l'. split; [reflexivity|]. destruct Mc as (M1 & M2 & _). auto.
  - intros ->. destruct c; [destruct Mc|reflexivity].
Qed.
Print Assumptions C129_moved.

(** The call ends, and with assertions if and only if no mark is lost. *)
Theorem C129_done : forall A debug cols rows n nrows pr types (sc : option (list A)),
  increasing cols -> (forall z, In z cols -> (0 <= z < Z.of_nat (length pr))%Z) -> (n <= length cols)%nat ->
  increasing rows -> (forall z, In z rows -> (0 <= z < Z.of_nat (length types))%Z) -> (nrows <= length rows)%nat ->
  (forall l, sc = Some l -> length l = length pr) ->
  ((exists s, update debug cols rows n nrows (Some pr) (Some types) sc = Done s) <->
    (debug = true -> kept_marks cols pr n = length (filter marked pr))) /\
  (update debug cols rows n nrows (Some pr) (Some types) sc = Aborts <->
    debug = true /\ kept_marks cols pr n <> length (filter marked pr)).
Proof.
  intros A debug cols rows n nrows pr types sc Ic Bc Lc Ir Br Lr Ls. unfold update, move_cols.
  assert (Pc : forall z, In z cols -> (0 <= z)%Z) by (intros z I; now apply Bc).
  assert (Pr : forall z, In z rows -> (0 <= z)%Z) by (intros z I; now apply Br).
  destruct (fold_seq_done (col_inv cols pr sc) (col_move debug cols) n 0 (pr, sc, O)) as ([[p c] n2] & F & Iv).
  { intros t s Lt Iv. destruct (col_move_done debug cols n pr sc Ic Pc Lc) with (t := t) (s := s) as [s' E]; auto.
    - intros z I. now apply Bc.
    - intros l z E I. rewrite (Ls l E). now apply Bc.
    - lia.
    - exists s'. split; [exact E|]. now apply (col_inv_step debug cols pr sc Ic Pc t s s'). }
  { apply col_inv_start. }
  destruct (fold_seq_done (moved types rows) (row_move rows) nrows 0 types) as (t & G & _).
  { intros i s Li M. unfold row_move. destruct (nth_error rows i) as [k|] eqn:K; [|apply nth_error_None in K; lia].
    replace (geti rows (Z.of_nat i)) with (Done k) by (symmetry; apply geti_done; now rewrite zth_nat). cbn [bind].
    pose proof (increasing_at rows Ir Pr i k K) as L. pose proof (nth_error_In _ _ K) as Ik.
    destruct (zth_in types k) as [v V]; [now apply Br|]. rewrite <- (moved_zth types rows i s k M L) in V.
    destruct (seti_done s i k v V L) as [s' E]. exists s'. rewrite (proj2 (geti_done s k v) V). cbn [bind].
    split; [exact E|]. now apply (moved_step types rows i s k v s' M K L V E). }
  { apply moved_start. }
  rewrite F. cbn [bind]. cbn [Nat.add] in Iv. destruct Iv as (_ & -> & _).
  destruct debug; cbn [andb].
  - destruct (Nat.eqb_spec (length (filter marked pr)) (kept_marks cols pr n)) as [Q|Q]; cbn [negb bind].
    + rewrite G. cbn [bind fst snd]. split; (split; [auto|]).
      * eauto.
      * discriminate.
      * intros [_ H]. congruence.
    + split; (split; [|]).
      * intros [s H]. discriminate H.
      * intro H. specialize (H eq_refl). congruence.
      * auto.
      * reflexivity.
  - cbn [bind]. rewrite G. cbn [bind fst snd]. split; (split; [|]).
    + intros _ H. discriminate H.
    + eauto.
    + discriminate.
    + intros [H _]. discriminate H.
Qed.
Print Assumptions C129_done.

(** ** Cases *)
Example C129_example :
  update true [0; 2; 4]%Z [1; 3]%Z 3 2 (Some [0; 0; 1; 0; 1]%Z) (Some [0; 1; 0; 2]%Z) (Some [10; 11; 12; 13; 14]%Z) =
  Done (Some [0; 1; 1]%Z, Some [1; 2]%Z, Some [10; 12; 14; 13; 14]%Z).
Proof. vm_compute. reflexivity. Qed.
Example C129_lost_mark :
  update true [0; 2; 4]%Z [1; 3]%Z 3 2 (Some [0; 1; 1; 0; 1]%Z) (Some [0; 1; 0; 2]%Z) (@None (list Z)) = Aborts /\
  kept_marks [0; 2; 4]%Z [0; 1; 1; 0; 1]%Z 3 = 2%nat.
Proof. split; vm_compute; reflexivity. Qed.

(** Without prohibited columns the array scBound is not moved, though the columns
    are: the entry of column 0 is that of a column that is gone. *)
Theorem C129_bounds_refuted : exists cols rows n nrows (sc sc' : list Z),
  increasing cols /\ (n <= length cols)%nat /\
  update true cols rows n nrows None None (Some sc) = Done (None, None, Some sc') /\
  exists i k v, (i < n)%nat /\ nth_error cols i = Some k /\ zth sc k = Some v /\ nth_error sc' i <> Some v.
Proof.
  exists [1]%Z, [], 1%nat, O, [5; 7]%Z, [5; 7]%Z. split; [|split; [cbn; lia|split; [vm_compute; reflexivity|]]].
  - intros i k x y L E F. destruct k as [|[|k]]; [lia|discriminate F|discriminate F].
  - exists O, 1%Z, 7%Z. split; [lia|]. split; [reflexivity|]. split; [reflexivity|discriminate].
Qed.
Print Assumptions C129_bounds_refuted.

(** Rows in another order are moved wrongly. *)
Theorem C129_order_refuted : exists rows nrows (t t' : list Z) s,
  NoDup rows /\ update true [] rows 0 nrows None (Some t) (@None (list Z)) = Done (s, Some t', None) /\
  exists i k v, (i < nrows)%nat /\ nth_error rows i = Some k /\ zth t k = Some v /\ nth_error t' i <> Some v.
Proof.
  exists [1; 0]%Z, 2%nat, [0; 1]%Z, [1; 1]%Z, None. split; [repeat constructor; cbn; intuition lia|].
  split; [vm_compute; reflexivity|]. exists 1%nat, 0%Z, 0%Z. split; [lia|]. split; [reflexivity|]. split; [reflexivity|discriminate].
Qed.
Print Assumptions C129_order_refuted.
