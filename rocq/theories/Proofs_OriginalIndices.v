(** * Lemmas about originalColumns, originalRows and update *)
From Coq Require Export Sorting.Permutation Sorting.Sorted.
From Verif Require Import Model_OriginalIndices.

(** ** Arrays *)
Lemma zth_lt {A} (l : list A) z a : zth l z = Some a -> (0 <= z < Z.of_nat (length l))%Z.
Proof.
  unfold zth. destruct (Z.ltb_spec z 0); [discriminate|]. intro E.
  assert (Z.to_nat z < length l)%nat by (apply nth_error_Some; congruence). lia.
Qed.
Lemma zth_in {A} (l : list A) z : (0 <= z < Z.of_nat (length l))%Z -> exists a, zth l z = Some a.
Proof.
  intro H. unfold zth. destruct (Z.ltb_spec z 0); [lia|]. destruct (nth_error l (Z.to_nat z)) eqn:E; [eauto|].
  apply nth_error_None in E. lia.
Qed.
Lemma zth_nat {A} (l : list A) i : zth l (Z.of_nat i) = nth_error l i.
Proof. unfold zth. destruct (Z.ltb_spec (Z.of_nat i) 0); [lia|]. now rewrite Nat2Z.id. Qed.
Lemma geti_done {A} (l : list A) z a : geti l z = Done a <-> zth l z = Some a.
Proof.
  unfold geti. destruct (zth l z); split; intro H; try discriminate H.
  - apply Done_inj in H. now subst.
  - apply Some_inj in H. now subst.
Qed.
Lemma put_length {A} (l : list A) : forall i a, length (put l i a) = length l.
Proof. induction l as [|b l IH]; intros [|i] a; cbn; auto. Qed.
Lemma put_same {A} (l : list A) : forall i a, (i < length l)%nat -> nth_error (put l i a) i = Some a.
Proof. induction l as [|b l IH]; intros [|i] a H; cbn in *; try lia; auto. apply IH. lia. Qed.
Lemma put_other {A} (l : list A) : forall i k a, i <> k -> nth_error (put l i a) k = nth_error l k.
Proof. induction l as [|b l IH]; intros [|i] [|k] a H; cbn in *; try congruence; auto. Qed.

(** Strictly increasing *)
Definition increasing (l : list Z) : Prop :=
  forall i k x y, (i < k)%nat -> nth_error l i = Some x -> nth_error l k = Some y -> (x < y)%Z.
Lemma increasing_zth l i k x y : increasing l -> (i < k)%Z -> zth l i = Some x -> zth l k = Some y -> (x < y)%Z.
Proof.
  intros H L E F. pose proof (zth_lt _ _ _ E). pose proof (zth_lt _ _ _ F). unfold zth in E, F.
  destruct (Z.ltb_spec i 0); [lia|]. destruct (Z.ltb_spec k 0); [lia|].
  apply (H (Z.to_nat i) (Z.to_nat k)); auto. lia.
Qed.
Lemma increasing_tail a l : increasing (a :: l) -> increasing l.
Proof. intros H i k x y L E F. apply (H (S i) (S k)); auto. lia. Qed.
Lemma increasing_firstn n l : increasing l -> increasing (firstn n l).
Proof.
  intros H i k x y L E F.
  assert (X : forall j z, nth_error (firstn n l) j = Some z -> nth_error l j = Some z).
  { clear. revert l. induction n as [|n IH]; intros l j z E; [destruct j; discriminate E|].
    destruct l as [|b l]; [destruct j; discriminate E|]. destruct j as [|j]; [exact E|]. cbn in *. now apply IH. }
  apply (H i k); auto.
Qed.
Lemma increasing_at l : increasing l -> (forall z, In z l -> (0 <= z)%Z) -> forall i x,
  nth_error l i = Some x -> (Z.of_nat i <= x)%Z.
Proof.
  intros H P. induction i as [|i IH]; intros x E.
  - apply nth_error_In in E. now apply P.
  - assert (L : (S i < length l)%nat) by (apply nth_error_Some; congruence).
    destruct (nth_error l i) as [y|] eqn:F; [|apply nth_error_None in F; lia].
    specialize (IH y eq_refl). specialize (H i (S i) y x ltac:(lia) F E). lia.
Qed.

(** ** Sorting *)
Lemma insert_perm z l : Permutation (insert z l) (z :: l).
Proof.
  induction l as [|y l IH]; [constructor; constructor|]. cbn. destruct (z <=? y)%Z; [apply Permutation_refl|].
  apply (perm_trans (l' := y :: z :: l)); [now constructor|apply perm_swap].
Qed.
Lemma sort_perm l : Permutation (zsort l) l.
Proof.
  induction l as [|z l IH]; [constructor|]. cbn. apply (perm_trans (insert_perm z (zsort l))). now constructor.
Qed.
Lemma insert_sorted z l : StronglySorted Z.le l -> StronglySorted Z.le (insert z l).
Proof.
  induction l as [|y l IH]; intro H; [constructor; constructor|]. cbn. inversion H as [|a b S F]; subst.
  destruct (Z.leb_spec z y).
  - constructor; [exact H|]. constructor; [assumption|]. rewrite Forall_forall in *. intros w I. specialize (F w I). lia.
  - constructor; [now apply IH|]. rewrite Forall_forall in *. intros w I.
    apply (Permutation_in _ (insert_perm z l)) in I. destruct I as [<-|I]; [lia|auto].
Qed.
Lemma sort_sorted l : StronglySorted Z.le (zsort l).
Proof. induction l as [|z l IH]; [constructor|]. cbn. now apply insert_sorted. Qed.
Lemma sort_increasing l : increasing l -> zsort l = l.
Proof.
  induction l as [|z l IH]; intro H; [reflexivity|]. change (zsort (z :: l)) with (insert z (zsort l)). rewrite (IH (increasing_tail z l H)).
  destruct l as [|y l]; [reflexivity|]. cbn. destruct (Z.leb_spec z y); [reflexivity|].
  specialize (H O 1%nat z y ltac:(lia) eq_refl eq_refl). lia.
Qed.

(** ** Following a column or row back through the passes *)
Fixpoint trace (maps : list (list Z)) (x : Z) : option Z :=
  match maps with
  | [] => Some x
  | m :: r => match zth m x with Some y => trace r y | None => None end
  end.
Definition cols_of (p : pass) : list Z := match ps_info p with Some (c, _) => c | None => [] end.
Definition rows_of (p : pass) : list Z := match ps_info p with Some (_, r) => r | None => [] end.
(** A row that is not in model_[iPass] has no origin. *)
Fixpoint trace_row (ps : list pass) (x : Z) : option Z :=
  match ps with
  | [] => Some x
  | p :: r =>
      if ((0 <=? x) && (x <? Z.of_nat (ps_rows p)))%Z then
        match zth (rows_of p) x with Some y => trace_row r y | None => None end
      else trace_row r (-1)%Z
  end.
Lemma omap_spec {A B} (f : A -> outcome B) l : forall l', omap f l = Done l' ->
  length l' = length l /\ forall i a, nth_error l i = Some a -> exists b, nth_error l' i = Some b /\ f a = Done b.
Proof.
  induction l as [|a l IH]; intros l' E; cbn in E.
  - apply Done_inj in E. subst. split; [reflexivity|]. intros [|i] a H; discriminate H.
  - destruct (f a) as [b| | | |] eqn:F; try discriminate E. cbn in E.
    destruct (omap f l) as [bs| | | |]; try discriminate E. cbn in E. apply Done_inj in E. subst l'.
    destruct (IH bs eq_refl) as [L S]. split; [cbn; now rewrite L|]. intros [|i] c H; cbn in H.
    + apply Some_inj in H. subst c. exists b. auto.
    + now apply S.
Qed.
Lemma omap_done {A B} (f : A -> outcome B) l : (forall a, In a l -> exists b, f a = Done b) ->
  exists l', omap f l = Done l'.
Proof.
  induction l as [|a l IH]; intro H; [now exists []|]. cbn. destruct (H a (or_introl eq_refl)) as [b E]. rewrite E. cbn.
  destruct IH as [bs Eb]; [intros c I; apply H; now right|]. rewrite Eb. cbn. eauto.
Qed.
Lemma back_trace : forall ps c r c' r', ofold back_step ps (c, r) = Done (c', r') ->
  (forall p, In p ps -> ps_info p <> None) /\
  length c' = length c /\ length r' = length r /\
  (forall i x, nth_error c i = Some x -> exists y, nth_error c' i = Some y /\ trace (map cols_of ps) x = Some y) /\
  (forall i x, nth_error r i = Some x -> exists y, nth_error r' i = Some y /\ trace_row ps x = Some y).
Proof.
  induction ps as [|p ps IH]; intros c r c' r' E; cbn [ofold] in E.
  - apply Done_inj in E. apply pair_equal_spec in E. destruct E as [-> ->].
    split; [intros p []|]. split; [reflexivity|]. split; [reflexivity|]. split; intros i x H; exists x; auto.
  - unfold back_step at 1 in E. destruct (ps_info p) as [[cols rows]|] eqn:P; [|discriminate E]. cbn [fst snd] in E.
    destruct (omap (geti cols) c) as [c1| | | |] eqn:C; try discriminate E. cbn [bind] in E.
    destruct (omap (row_back p rows) r) as [r1| | | |] eqn:R; try discriminate E. cbn [bind] in E.
    destruct (IH _ _ _ _ E) as (N & L1 & L2 & S1 & S2).
    destruct (omap_spec _ _ _ C) as [L1' S1']. destruct (omap_spec _ _ _ R) as [L2' S2'].
    split; [|split; [|split; [|split]]].
    + intros q [<-|I]; [congruence|auto].
    + congruence.
    + congruence.
    + intros i x H. destruct (S1' i x H) as (y & Hy & Gy). apply geti_done in Gy.
      destruct (S1 i y Hy) as (z & Hz & Tz). exists z. split; [exact Hz|]. cbn [map trace].
      unfold cols_of at 1. now rewrite P, Gy.
    + intros i x H. destruct (S2' i x H) as (y & Hy & Gy). unfold row_back in Gy.
      destruct (S2 i y Hy) as (z & Hz & Tz). exists z. split; [exact Hz|]. cbn [trace_row].
      destruct (_ && _)%bool.
      * apply geti_done in Gy. unfold rows_of. now rewrite P, Gy.
      * apply Done_inj in Gy. now subst y.
Qed.
Lemma back_increasing : forall ps c r c' r', (forall p, In p ps -> increasing (cols_of p)) -> increasing c ->
  ofold back_step ps (c, r) = Done (c', r') -> increasing c'.
Proof.
  induction ps as [|p ps IH]; intros c r c' r' Inc I E; cbn [ofold] in E.
  - apply Done_inj in E. apply pair_equal_spec in E. destruct E as [-> ->]. exact I.
  - unfold back_step at 1 in E. destruct (ps_info p) as [[cols rows]|] eqn:P; [|discriminate E]. cbn [fst snd] in E.
    destruct (omap (geti cols) c) as [c1| | | |] eqn:C; try discriminate E. cbn [bind] in E.
    destruct (omap (row_back p rows) r) as [r1| | | |] eqn:R; try discriminate E. cbn [bind] in E.
    apply (IH c1 r1 c' r'); [intros q J; apply Inc; now right| |exact E].
    assert (Ip : increasing cols) by (specialize (Inc p (or_introl eq_refl)); unfold cols_of in Inc; now rewrite P in Inc).
    destruct (omap_spec _ _ _ C) as [L S]. intros i k x y Lk Ex Ey.
    assert (A : exists a, nth_error c i = Some a).
    { destruct (nth_error c i) eqn:Z; [eauto|]. apply nth_error_None in Z.
      assert (i < length c1)%nat by (apply nth_error_Some; congruence). lia. }
    assert (B : exists b, nth_error c k = Some b).
    { destruct (nth_error c k) eqn:Z; [eauto|]. apply nth_error_None in Z.
      assert (k < length c1)%nat by (apply nth_error_Some; congruence). lia. }
    destruct A as [a A], B as [b B]. destruct (S i a A) as (x' & Ex' & Gx). destruct (S k b B) as (y' & Ey' & Gy).
    rewrite Ex in Ex'. rewrite Ey in Ey'. apply Some_inj in Ex', Ey'. subst x' y'. apply geti_done in Gx, Gy.
    apply (increasing_zth cols a b x y Ip); auto. apply (I i k a b Lk A B).
Qed.
(** Arrays that fit together: each presolve refers to rows and columns of the
    model before it. *)
Definition fits (n nr : nat) (p : pass) : Prop := exists cols rows, ps_info p = Some (cols, rows) /\
  length cols = ps_cols p /\ length rows = ps_rows p /\
  (forall x, In x cols -> (0 <= x < Z.of_nat n)%Z) /\
  (forall x, In x rows -> (0 <= x < Z.of_nat nr)%Z \/ x = (-1)%Z).
(** latest first *)
Fixpoint chain (nr nc : nat) (ps : list pass) : Prop :=
  match ps with
  | [] => True
  | p :: r => match r with [] => fits nc nr p | q :: _ => fits (ps_cols q) (ps_rows q) p end /\ chain nr nc r
  end.
Lemma back_done nr nc : forall ps c r, chain nr nc ps ->
  (forall p q, ps = p :: q -> forall x, In x c -> (0 <= x < Z.of_nat (ps_cols p))%Z) ->
  exists s, ofold back_step ps (c, r) = Done s.
Proof.
  induction ps as [|p ps IH]; intros c r Ch C; [now exists (c, r)|]. cbn [ofold]. destruct Ch as [Fp Ch].
  assert (F : exists n n', fits n n' p /\ (forall q t, ps = q :: t -> n = ps_cols q)).
  { destruct ps as [|q t]; [exists nc, nr; split; [exact Fp|discriminate]|]. exists (ps_cols q), (ps_rows q).
    split; [exact Fp|]. intros q' t' E. injection E as <- <-. reflexivity. }
  destruct F as (n & n' & (cols & rows & P & L1 & L2 & B1 & B2) & Hn). unfold back_step at 1. rewrite P. cbn [fst snd].
  specialize (C p ps eq_refl).
  destruct (omap_done (geti cols) c) as [c1 E1].
  { intros x I. destruct (zth_in cols x) as [y Y]; [rewrite L1; now apply C|]. exists y. now apply geti_done. }
  destruct (omap_done (row_back p rows) r) as [r1 E2].
  { intros x I. unfold row_back. destruct (_ && _)%bool eqn:T; [|eauto].
    apply andb_true_iff in T. destruct T as [T1 T2]. apply Z.leb_le in T1. apply Z.ltb_lt in T2.
    destruct (zth_in rows x) as [y Y]; [lia|]. exists y. now apply geti_done. }
  rewrite E1. cbn [bind]. rewrite E2. cbn [bind]. apply IH; [exact Ch|].
  intros q t E x I. rewrite <- (Hn q t E). destruct (omap_spec _ _ _ E1) as [L S].
  apply In_nth_error in I. destruct I as [i I].
  assert (exists a, nth_error c i = Some a).
  { destruct (nth_error c i) eqn:Z; [eauto|]. apply nth_error_None in Z.
    assert (i < length c1)%nat by (apply nth_error_Some; congruence). lia. }
  destruct H as [a Ha]. destruct (S i a Ha) as (y & Hy & Gy). rewrite I in Hy. apply Some_inj in Hy. subst y.
  apply geti_done in Gy. apply B1. unfold zth in Gy. destruct (a <? 0)%Z; [discriminate Gy|]. now apply nth_error_In in Gy.
Qed.
Lemma from_last_app after : forall p r, (forall q, In q after -> ps_info q = None) -> ps_info p <> None ->
  from_last (after ++ p :: r) = p :: r.
Proof.
  induction after as [|q after IH]; intros p r N P; cbn.
  - destruct (ps_info p); [reflexivity|congruence].
  - rewrite (N q) by now left. apply IH; auto. intros t I. apply N. now right.
Qed.
Lemma from_last_none l : (forall q, In q l -> ps_info q = None) -> from_last l = [].
Proof.
  induction l as [|q l IH]; intro N; [reflexivity|]. cbn. rewrite (N q) by now left. apply IH. intros t I. apply N. now right.
Qed.
