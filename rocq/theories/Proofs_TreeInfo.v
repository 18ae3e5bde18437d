(** * Lemmas about the probing-information model *)

From Coq Require Import Permutation Sorted.
From Verif Require Import Base Model_TreeInfo.
Local Open Scope Z_scope.

(** ** Words *)

Definition B31 : Z := 2147483648.
Definition word (w : Z) : Prop := 0 <= w < 4294967296.

Lemma seq_mod w : sequenceInCliqueEntry w = w mod B31.
Proof.
  unfold sequenceInCliqueEntry, B31. change 2147483647 with (Z.ones 31).
  rewrite Z.land_ones by lia. reflexivity.
Qed.
Lemma land_top w : Z.land w 2147483648 = if Z.testbit w 31 then B31 else 0.
Proof.
  apply Z.bits_inj'. intros n Hn. rewrite Z.land_spec.
  change 2147483648 with (2 ^ 31). unfold B31. change 2147483648 with (2 ^ 31).
  rewrite Z.pow2_bits_eqb by lia.
  destruct (Z.eqb_spec 31 n) as [<-|Hne].
  - rewrite andb_true_r. destruct (Z.testbit w 31); [reflexivity|]. rewrite Z.bits_0. reflexivity.
  - rewrite andb_false_r. destruct (Z.testbit w 31).
    + rewrite Z.pow2_bits_eqb by lia. symmetry. apply Z.eqb_neq. exact Hne.
    + rewrite Z.bits_0. reflexivity.
Qed.
Lemma top_div w : Z.testbit w 31 = Z.odd (w / B31).
Proof. rewrite Z.testbit_odd, Z.shiftr_div_pow2 by lia. reflexivity. Qed.
Lemma top_word w : word w -> Z.testbit w 31 = (B31 <=? w).
Proof.
  intros [H1 H2]. rewrite top_div. unfold B31.
  destruct (Z.leb_spec 2147483648 w).
  - replace (w / 2147483648) with 1; [reflexivity|].
    apply (Z.div_unique w 2147483648 1 (w - 2147483648)); lia.
  - rewrite Z.div_small by lia. reflexivity.
Qed.
Lemma one_testbit w : oneFixesInCliqueEntry w = Z.testbit w 31.
Proof.
  unfold oneFixesInCliqueEntry. rewrite land_top. destruct (Z.testbit w 31); reflexivity.
Qed.
Lemma lor_disjoint a b : Z.land a b = 0 -> Z.lor a b = a + b.
Proof. intro H. symmetry. apply Z.add_nocarry_lxor in H as H'. rewrite H'. symmetry. 
  apply Z.bits_inj'. intros n Hn. rewrite Z.lor_spec, Z.lxor_spec.
  assert (K := f_equal (fun z => Z.testbit z n) H). cbv beta in K.
  rewrite Z.land_spec, Z.bits_0 in K.
  destruct (Z.testbit a n), (Z.testbit b n); simpl in *; congruence. Qed.
Lemma small_top s : 0 <= s < B31 -> Z.testbit s 31 = false.
Proof. intro H. rewrite top_div, Z.div_small by lia. reflexivity. Qed.
Lemma setSeq_val w s : 0 <= s < B31 ->
  setSequenceInCliqueEntry w s = s + (if Z.testbit w 31 then B31 else 0).
Proof.
  intros Hs. unfold setSequenceInCliqueEntry, to_u32. rewrite Z.mod_small by (unfold B31 in Hs; lia).
  rewrite land_top. destruct (Z.testbit w 31).
  - apply lor_disjoint. unfold B31. rewrite land_top. rewrite small_top by assumption. reflexivity.
  - rewrite Z.lor_0_r. lia.
Qed.
Lemma setOne_val w b : setOneFixesInCliqueEntry w b = (if b then B31 else 0) + w mod B31.
Proof.
  unfold setOneFixesInCliqueEntry. fold (sequenceInCliqueEntry w). rewrite seq_mod.
  destruct b.
  - apply lor_disjoint. rewrite Z.land_comm. unfold B31 at 2. rewrite land_top. rewrite small_top.
    reflexivity. apply Z.mod_pos_bound. reflexivity.
  - rewrite Z.lor_0_l. lia.
Qed.

Lemma seq_setSeq w s : 0 <= s < B31 -> sequenceInCliqueEntry (setSequenceInCliqueEntry w s) = s.
Proof.
  intro H. rewrite setSeq_val, seq_mod by assumption. destruct (Z.testbit w 31).
  - replace (s + B31) with (s + 1 * B31) by ring. rewrite Z.mod_add by (unfold B31; lia).
    apply Z.mod_small. exact H.
  - rewrite Z.add_0_r. apply Z.mod_small. exact H.
Qed.
Lemma one_add s (b : bool) : 0 <= s < B31 -> oneFixesInCliqueEntry (s + (if b then B31 else 0)) = b.
Proof.
  intro H. rewrite one_testbit, top_word.
  - unfold B31 in *. destruct b; [apply Z.leb_le|apply Z.leb_gt]; lia.
  - unfold word, B31 in *. destruct b; lia.
Qed.
Lemma one_setSeq w s : 0 <= s < B31 ->
  oneFixesInCliqueEntry (setSequenceInCliqueEntry w s) = oneFixesInCliqueEntry w.
Proof. intro H. rewrite setSeq_val by assumption. rewrite one_add by assumption. symmetry. apply one_testbit. Qed.
Lemma one_setOne w b : oneFixesInCliqueEntry (setOneFixesInCliqueEntry w b) = b.
Proof.
  rewrite setOne_val, Z.add_comm. apply one_add. apply Z.mod_pos_bound. reflexivity.
Qed.
Lemma seq_setOne w b : sequenceInCliqueEntry (setOneFixesInCliqueEntry w b) = sequenceInCliqueEntry w.
Proof.
  rewrite setOne_val, !seq_mod. destruct b.
  - replace (B31 + w mod B31) with (w mod B31 + 1 * B31) by ring.
    rewrite Z.mod_add by (unfold B31; lia). apply Z.mod_mod. unfold B31; lia.
  - simpl. apply Z.mod_mod. unfold B31; lia.
Qed.
Lemma setSeq_word w s : 0 <= s < B31 -> word (setSequenceInCliqueEntry w s).
Proof. intro H. rewrite setSeq_val by assumption. unfold word, B31 in *. destruct (Z.testbit w 31); lia. Qed.
Lemma setOne_word w b : word (setOneFixesInCliqueEntry w b).
Proof.
  rewrite setOne_val. pose proof (Z.mod_pos_bound w B31 eq_refl).
  unfold word, B31 in *. destruct b; lia.
Qed.
(** A word is determined by its two fields. *)
Lemma word_ext w v : word w -> word v ->
  sequenceInCliqueEntry w = sequenceInCliqueEntry v ->
  oneFixesInCliqueEntry w = oneFixesInCliqueEntry v -> w = v.
Proof.
  intros Hw Hv. rewrite !seq_mod, !one_testbit, !top_word by assumption.
  unfold word, B31 in *. intros H1 H2.
  pose proof (Z.div_mod w 2147483648). pose proof (Z.div_mod v 2147483648).
  destruct (Z.leb_spec 2147483648 w), (Z.leb_spec 2147483648 v); try discriminate.
  - assert (w / 2147483648 = 1) by (symmetry; apply (Z.div_unique w _ _ (w - 2147483648)); lia).
    assert (v / 2147483648 = 1) by (symmetry; apply (Z.div_unique v _ _ (v - 2147483648)); lia). lia.
  - rewrite Z.mod_small in H1 by lia. rewrite Z.mod_small in H1 by lia. exact H1.
Qed.

(** ** Sorting *)

Lemma insert_key_perm p l : Permutation (insert_key p l) (p :: l).
Proof.
  induction l as [|q l IH]; simpl; [reflexivity|].
  destruct (fst p <=? fst q); [reflexivity|]. rewrite IH. apply perm_swap.
Qed.
Lemma sort_key_perm l : Permutation (sort_key l) l.
Proof.
  induction l as [|p l IH]; simpl; [reflexivity|].
  rewrite insert_key_perm. constructor. exact IH.
Qed.
Definition keyle (p q : Z * Z) := fst p <= fst q.
Lemma insert_key_sorted p l : StronglySorted keyle l -> StronglySorted keyle (insert_key p l).
Proof.
  induction 1 as [|q l Hs IH Hf]; simpl; [repeat constructor|].
  destruct (Z.leb_spec (fst p) (fst q)).
  - constructor; [constructor; assumption|]. constructor; [exact H|].
    rewrite Forall_forall in *. intros r Hr. specialize (Hf r Hr). unfold keyle in *. lia.
  - constructor; [exact IH|]. rewrite Forall_forall in *. intros r Hr.
    apply (Permutation_in _ (insert_key_perm p l)) in Hr as [<-|Hr]; [unfold keyle; lia|auto].
Qed.
Lemma sort_key_sorted l : StronglySorted keyle (sort_key l).
Proof. induction l; simpl; [constructor|]. apply insert_key_sorted. exact IHl. Qed.

Lemma insert_z_perm p l : Permutation (insert_z p l) (p :: l).
Proof.
  induction l as [|q l IH]; simpl; [reflexivity|].
  destruct (p <=? q); [reflexivity|]. rewrite IH. apply perm_swap.
Qed.
Lemma sort_z_perm l : Permutation (sort_z l) l.
Proof.
  induction l as [|p l IH]; simpl; [reflexivity|].
  rewrite insert_z_perm. constructor. exact IH.
Qed.
Lemma insert_z_sorted p l : StronglySorted Z.le l -> StronglySorted Z.le (insert_z p l).
Proof.
  induction 1 as [|q l Hs IH Hf]; simpl; [repeat constructor|].
  destruct (Z.leb_spec p q).
  - constructor; [constructor; assumption|]. constructor; [exact H|].
    rewrite Forall_forall in *. intros r Hr. specialize (Hf r Hr). lia.
  - constructor; [exact IH|]. rewrite Forall_forall in *. intros r Hr.
    apply (Permutation_in _ (insert_z_perm p l)) in Hr as [<-|Hr]; [lia|auto].
Qed.
Lemma sort_z_sorted l : StronglySorted Z.le (sort_z l).
Proof. induction l; simpl; [constructor|]. apply insert_z_sorted. exact IHl. Qed.

(** ** The duplicate filter *)

Lemma dedupe_incl t l e : In e (dedupe t l) -> In e l.
Proof.
  revert t. induction l as [|x l IH]; intros t; [intros []|].
  cbn [dedupe]. destruct (_ || _).
  - intros [<-|H]; [left; reflexivity|right; eauto].
  - intro H. right. eauto.
Qed.
Lemma dedupe_complete l : forall t e, word t -> (forall x, In x l -> word x) ->
  In e l -> In e (dedupe t l) \/ e = t.
Proof.
  induction l as [|x l IH]; intros t e Ht Hw Hin0; [destruct Hin0|].
  destruct Hin0 as [<-|Hin]; cbn [dedupe].
  - destruct (negb _ || _ || _) eqn:E; [left; left; reflexivity|].
    apply orb_false_iff in E as [E E3]. apply orb_false_iff in E as [E1 E2].
    apply negb_false_iff, Z.eqb_eq in E1. right. symmetry.
    apply word_ext; [exact Ht|apply Hw; left; reflexivity|exact E1|congruence].
  - destruct (negb _ || _ || _) eqn:E.
    + destruct (IH x e) as [H|H]; auto.
      * apply Hw; left; reflexivity.
      * intros; apply Hw; right; assumption.
      * left; right; exact H.
      * left; left; congruence.
    + apply IH; auto. intros; apply Hw; right; assumption.
Qed.
(** On a sorted list each to-lower entry survives at most once. *)
Lemma dedupe_nodup l : forall t, word t -> (forall x, In x l -> word x) -> StronglySorted Z.le l ->
  NoDup (filter (fun e => negb (oneFixesInCliqueEntry e)) (dedupe t l)) /\
  (oneFixesInCliqueEntry t = false -> (forall x, In x l -> t <= x) -> ~ In t (dedupe t l)).
Proof.
  induction l as [|x l IH]; intros t Ht Hw Hs; cbn [dedupe].
  { split; [constructor|auto]. }
  inversion Hs as [|? ? Hs' Hf]; subst. rewrite Forall_forall in Hf.
  assert (Hx : word x) by (apply Hw; left; reflexivity).
  assert (Hw' : forall y, In y l -> word y) by (intros; apply Hw; right; assumption).
  destruct (negb _ || _ || _) eqn:E.
  - destruct (IH x Hx Hw' Hs') as [A B]. split.
    + cbn [filter]. destruct (oneFixesInCliqueEntry x) eqn:Ex; simpl; [exact A|].
      constructor; [|exact A]. intro K. apply filter_In in K as [K _].
      apply B in K; auto.
    + intros Et Hle [H|H].
      * subst x. rewrite Z.eqb_refl, Et in E. discriminate.
      * assert (t = x).
        { apply dedupe_incl in H. specialize (Hf t H). specialize (Hle x (or_introl eq_refl)). lia. }
        subst x. rewrite Z.eqb_refl, Et in E. discriminate.
  - destruct (IH t Ht Hw' Hs') as [A B]. split; [exact A|].
    intros Et Hle. apply B; auto. intros; apply Hle; right; assumption.
Qed.

(** ** span *)

Lemma span_sorted_filter (f : Z * Z -> bool) l c :
  StronglySorted keyle l ->
  (forall p, In p l -> f p = true <-> fst p = c) ->
  (forall p, In p l -> c <= fst p) ->
  span f l = (filter (fun p => fst p =? c) l, filter (fun p => negb (fst p =? c)) l).
Proof.
  induction 1 as [|p l Hs IH Hf]; intros Hc Hge; [reflexivity|].
  cbn [span filter]. destruct (f p) eqn:E.
  - apply Hc in E; [|left; reflexivity]. rewrite (proj2 (Z.eqb_eq _ _) E). simpl.
    rewrite IH; [reflexivity| |].
    + intros; apply Hc; right; assumption.
    + intros; apply Hge; right; assumption.
  - assert (fst p <> c) as Hne.
    { intro K. apply Hc in K; [congruence|left; reflexivity]. }
    rewrite (proj2 (Z.eqb_neq _ _) Hne). simpl.
    assert (Hbig : forall q, In q l -> fst q <> c).
    { intros q Hq. rewrite Forall_forall in Hf. specialize (Hf q Hq). unfold keyle in Hf.
      specialize (Hge p (or_introl eq_refl)). lia. }
    assert (F1 : filter (fun p => fst p =? c) l = []).
    { clear - Hbig. induction l as [|q l IH]; [reflexivity|]. simpl.
      rewrite (proj2 (Z.eqb_neq _ _) (Hbig q (or_introl eq_refl))). apply IH. intros; apply Hbig; right; assumption. }
    assert (F2 : filter (fun p => negb (fst p =? c)) l = l).
    { clear - Hbig. induction l as [|q l IH]; [reflexivity|]. simpl.
      rewrite (proj2 (Z.eqb_neq _ _) (Hbig q (or_introl eq_refl))). simpl. f_equal. apply IH. intros; apply Hbig; right; assumption. }
    rewrite F1, F2. reflexivity.
Qed.

Lemma filter_sorted (f : Z * Z -> bool) l : StronglySorted keyle l -> StronglySorted keyle (filter f l).
Proof.
  induction 1 as [|p l Hs IH Hf]; simpl; [constructor|].
  destruct (f p); [|exact IH]. constructor; [exact IH|].
  rewrite Forall_forall in *. intros q Hq. apply filter_In in Hq as [Hq _]. auto.
Qed.

(** ** Laying out groups *)

(** The table built from one (zero group, one group) pair per variable. *)
Fixpoint lay (base : nat) (gs : list (list Z * list Z)) : list Z * list nat * list nat :=
  match gs with
  | [] => ([], [], [])
  | (a, b) :: gs' =>
      let m := (base + length a)%nat in let n := (m + length b)%nat in
      let '(o, ones, zeros) := lay n gs' in (a ++ b ++ o, m :: ones, n :: zeros)
  end.

Lemma slice_app_mid {A} (p a q : list A) :
  slice (p ++ a ++ q) (length p) (length p + length a) = a.
Proof.
  unfold slice. replace (length p + length a - length p)%nat with (length a) by lia.
  rewrite skipn_app, skipn_all, Nat.sub_diag. simpl.
  rewrite firstn_app, Nat.sub_diag, firstn_all. simpl. apply app_nil_r.
Qed.

Lemma lay_slices gs : forall pre i a b,
  nth_error gs i = Some (a, b) ->
  forall o ones zeros, lay (length pre) gs = (o, ones, zeros) ->
  slice (pre ++ o) (nth i (length pre :: zeros) 0%nat) (nth i ones 0%nat) = a /\
  slice (pre ++ o) (nth i ones 0%nat) (nth i zeros 0%nat) = b.
Proof.
  induction gs as [|[a0 b0] gs IH]; intros pre i a b Hn o ones zeros E; [destruct i; discriminate|].
  cbn [lay] in E.
  destruct (lay (length pre + length a0 + length b0) gs) as [[o1 ones1] zeros1] eqn:El.
  injection E as <- <- <-.
  destruct i as [|i].
  - injection Hn as -> ->. cbn [nth]. split.
    + apply slice_app_mid.
    + rewrite app_assoc. rewrite <- app_length. apply slice_app_mid.
  - cbn [nth_error] in Hn. 
    assert (E' : lay (length (pre ++ a0 ++ b0)) gs = (o1, ones1, zeros1)).
    { rewrite !app_length, Nat.add_assoc. exact El. }
    destruct (IH (pre ++ a0 ++ b0) i a b Hn _ _ _ E') as [H1 H2].
    replace (pre ++ a0 ++ b0 ++ o1) with ((pre ++ a0 ++ b0) ++ o1) by (rewrite <- !app_assoc; reflexivity).
    split; [|exact H2].
    replace (length pre + length a0 + length b0)%nat with (length (pre ++ a0 ++ b0))
      by (rewrite !app_length; lia). exact H1.
Qed.

Lemma lay_lengths gs : forall base o ones zeros, lay base gs = (o, ones, zeros) ->
  length ones = length gs /\ length zeros = length gs.
Proof.
  induction gs as [|[a b] gs IH]; intros base o ones zeros E.
  - injection E as <- <- <-. auto.
  - cbn [lay] in E. destruct (lay _ gs) as [[o1 n1] z1] eqn:El. injection E as <- <- <-.
    destruct (IH _ _ _ _ El). simpl. auto.
Qed.

Definition grp (l : list (Z * Z)) (key : Z) : list Z :=
  map snd (filter (fun p => fst p =? key) l).
Definition groups (nvars : Z) (l : list (Z * Z)) (iv : Z) (k : nat) : list (list Z * list Z) :=
  map (fun i => let v := iv + Z.of_nat i in
         (dedupe (sentinel nvars) (sort_z (grp l (2 * v))),
          dedupe (sentinel nvars) (sort_z (grp l (2 * v + 1))))) (seq 0 k).

Lemma key_even v w : 0 <= w -> (Z.shiftr w 1 =? v) && (Z.land w 1 =? 0) = true <-> w = 2 * v.
Proof.
  intro Hw. rewrite andb_true_iff, !Z.eqb_eq. rewrite Z.shiftr_div_pow2 by lia.
  change 1 with (Z.ones 1) at 2. rewrite Z.land_ones by lia.
  change (2 ^ 1) with 2. pose proof (Z.div_mod w 2). pose proof (Z.mod_pos_bound w 2).
  split; [lia|]. intros ->. rewrite Z.mul_comm, Z.div_mul, Z.mod_mul; lia.
Qed.
Lemma key_odd v w : w <> 2 * v -> (Z.shiftr w 1 =? v) = true <-> w = 2 * v + 1.
Proof.
  intro Hne. rewrite Z.eqb_eq. rewrite Z.shiftr_div_pow2 by lia.
  change (2 ^ 1) with 2. pose proof (Z.div_mod w 2). pose proof (Z.mod_pos_bound w 2).
  split; [lia|]. intros ->. symmetry. apply (Z.div_unique _ 2 v 1); lia.
Qed.

Lemma groups_S nv l v k : groups nv l v (S k) =
  (dedupe (sentinel nv) (sort_z (grp l (2 * v))), dedupe (sentinel nv) (sort_z (grp l (2 * v + 1))))
  :: groups nv l (v + 1) k.
Proof.
  unfold groups. change (seq 0 (S k)) with (0%nat :: seq 1 k). cbn [map].
  replace (v + Z.of_nat 0) with v by lia. f_equal.
  rewrite <- seq_shift, map_map. apply map_ext. intro i.
  replace (v + Z.of_nat (S i)) with (v + 1 + Z.of_nat i) by lia. reflexivity.
Qed.

Lemma filter_filter {A} (f g : A -> bool) l :
  filter f (filter g l) = filter (fun x => g x && f x) l.
Proof.
  induction l as [|a l IH]; [reflexivity|]. simpl.
  destruct (g a); simpl; [destruct (f a); simpl; rewrite IH; reflexivity|exact IH].
Qed.

Lemma groups_tail nv l v k :
  groups nv (filter (fun p => negb (fst p =? 2 * v + 1)) (filter (fun p => negb (fst p =? 2 * v)) l)) (v + 1) k
  = groups nv l (v + 1) k.
Proof.
  unfold groups. apply map_ext. intro i. cbv zeta.
  assert (K : forall c, c <> 2 * v -> c <> 2 * v + 1 ->
    grp (filter (fun p => negb (fst p =? 2 * v + 1)) (filter (fun p => negb (fst p =? 2 * v)) l)) c = grp l c).
  { intros c H1 H2. unfold grp. rewrite !filter_filter. f_equal. apply filter_ext.
    intros [a b]. cbn [fst]. 
    destruct (Z.eqb_spec a c), (Z.eqb_spec a (2*v)), (Z.eqb_spec a (2*v+1)); simpl; try reflexivity; try lia. }
  rewrite !K by lia. reflexivity.
Qed.

Lemma convert_loop_lay nv k : forall v l out,
  0 <= v -> StronglySorted keyle l -> (forall p, In p l -> 2 * v <= fst p) ->
  forall o ones zeros, lay (length out) (groups nv l v k) = (o, ones, zeros) ->
  convert_loop nv k v l out = (out ++ o, ones, zeros).
Proof.
  induction k as [|k IH]; intros v l out Hv Hs Hge o ones zeros E.
  - cbn in E. injection E as <- <- <-. cbn. rewrite app_nil_r. reflexivity.
  - rewrite groups_S in E. cbn [lay] in E.
    cbn [convert_loop].
    rewrite (span_sorted_filter _ l (2 * v) Hs).
    2:{ intros p Hp. apply key_even. specialize (Hge p Hp). lia. }
    2:{ exact Hge. }
    set (l1 := filter (fun p => negb (fst p =? 2 * v)) l).
    assert (Hl1 : forall p, In p l1 -> fst p <> 2 * v /\ 2 * v + 1 <= fst p).
    { intros p Hp. apply filter_In in Hp as [Hp Hq]. apply negb_true_iff, Z.eqb_neq in Hq.
      specialize (Hge p Hp). lia. }
    rewrite (span_sorted_filter _ l1 (2 * v + 1)).
    2:{ apply filter_sorted. exact Hs. }
    2:{ intros p Hp. apply key_odd. apply Hl1. exact Hp. }
    2:{ intros p Hp. apply Hl1. exact Hp. }
    set (l2 := filter (fun p => negb (fst p =? 2 * v + 1)) l1).
    assert (G0 : map snd (filter (fun p => fst p =? 2 * v) l) = grp l (2 * v)) by reflexivity.
    assert (G1 : map snd (filter (fun p => fst p =? 2 * v + 1) l1) = grp l (2 * v + 1)).
    { unfold grp, l1. rewrite filter_filter. f_equal. apply filter_ext. intros [a b]. cbn [fst].
      destruct (Z.eqb_spec a (2*v)), (Z.eqb_spec a (2*v+1)); simpl; try reflexivity; lia. }
    rewrite G0, G1.
    set (d0 := dedupe _ (sort_z (grp l (2 * v)))) in *.
    set (d1 := dedupe _ (sort_z (grp l (2 * v + 1)))) in *.
    destruct (lay (length out + length d0 + length d1) (groups nv l (v + 1) k)) as [[o1 n1] z1] eqn:El.
    injection E as <- <- <-.
    assert (E' : lay (length ((out ++ d0) ++ d1)) (groups nv l2 (v + 1) k) = (o1, n1, z1)).
    { unfold l2, l1. rewrite groups_tail, !app_length. exact El. }
    rewrite (IH (v + 1) l2 ((out ++ d0) ++ d1)) with (o := o1) (ones := n1) (zeros := z1); auto.
    + rewrite !app_length, <- !app_assoc. reflexivity.
    + lia.
    + apply filter_sorted, filter_sorted. exact Hs.
    + intros p Hp. apply filter_In in Hp as [Hp Hq]. apply negb_true_iff, Z.eqb_neq in Hq.
      destruct (Hl1 p Hp). lia.
Qed.

Lemma nth_groups nv l k i : (i < k)%nat ->
  nth_error (groups nv l 0 k) i =
  Some (dedupe (sentinel nv) (sort_z (grp l (2 * Z.of_nat i))),
        dedupe (sentinel nv) (sort_z (grp l (2 * Z.of_nat i + 1)))).
Proof.
  intro H. unfold groups. rewrite nth_error_map.
  rewrite (nth_error_nth' _ 0%nat) by (rewrite seq_length; exact H).
  rewrite seq_nth by exact H. cbn [option_map]. cbv zeta.
  replace (0 + Z.of_nat (0 + i)) with (Z.of_nat i) by lia. reflexivity.
Qed.

(** What the tables contain after convert. *)
Lemma convert_table s : 0 <= pi_num s -> (forall p, In p (pi_coll s) -> 0 <= fst p) ->
  exists t, pi_table (convert s) = Some t /\ pi_intvar (convert s) = pi_intvar s /\
    pi_back (convert s) = pi_back s /\ pi_nvars (convert s) = pi_nvars s /\
    length (t_toOne t) = length (pi_intvar s) /\ length (t_toZero t) = S (length (pi_intvar s)) /\
    nth 0 (t_toZero t) 0%nat = 0%nat /\
    (exists gs, length gs = length (pi_intvar s) /\
       lay 0 gs = (t_entry t, t_toOne t, tl (t_toZero t))) /\
    forall i, (i < length (pi_intvar s))%nat ->
      zero_entries t i = dedupe (sentinel (pi_nvars s)) (sort_z (grp (sort_key (pi_coll s)) (2 * Z.of_nat i))) /\
      one_entries t i = dedupe (sentinel (pi_nvars s)) (sort_z (grp (sort_key (pi_coll s)) (2 * Z.of_nat i + 1))).
Proof.
  intros Hn Hk. unfold convert. rewrite (proj2 (Z.leb_le _ _) Hn).
  set (n := length (pi_intvar s)). set (l := sort_key (pi_coll s)).
  destruct (lay 0 (groups (pi_nvars s) l 0 n)) as [[o ones] zeros] eqn:El.
  assert (E : convert_loop (pi_nvars s) n 0 l [] = ([] ++ o, ones, zeros)).
  { apply convert_loop_lay; [lia|apply sort_key_sorted| |exact El].
    intros p Hp. apply (Permutation_in _ (sort_key_perm _)) in Hp. apply Hk in Hp. lia. }
  rewrite E. cbn [app pi_table pi_intvar pi_back pi_nvars].
  pose proof (lay_lengths _ _ _ _ _ El) as [L1 L2].
  unfold groups in L1, L2. rewrite map_length, seq_length in L1, L2.
  eexists. split; [reflexivity|]. cbn [t_toOne t_toZero t_entry length nth tl].
  repeat split; auto.
  - exists (groups (pi_nvars s) l 0 n). split; [|exact El].
    unfold groups. rewrite map_length, seq_length. reflexivity.
  - unfold zero_entries. cbn [t_toOne t_toZero t_entry].
    pose proof (lay_slices _ [] i _ _ (nth_groups (pi_nvars s) l n i H) _ _ _ El) as [A _]. exact A.
  - unfold one_entries. cbn [t_toOne t_toZero t_entry nth].
    pose proof (lay_slices _ [] i _ _ (nth_groups (pi_nvars s) l n i H) _ _ _ El) as [_ A]. exact A.
Qed.

(** ** The scan over column types *)

Lemma scan_spec types : forall col n iv bw, 0 <= n -> scan_types types col n = (iv, bw) ->
  length bw = length types /\
  (forall v z, nth_error bw v = Some z -> 0 <= z ->
      nth_error types v = Some 1%nat /\ n <= z /\ nth_error iv (Z.to_nat (z - n)) = Some (col + v)%nat) /\
  (forall v z, nth_error bw v = Some z -> z < 0 -> nth_error types v <> Some 1%nat) /\
  (forall i c, nth_error iv i = Some c -> exists v, c = (col + v)%nat /\ nth_error bw v = Some (n + Z.of_nat i)).
Proof.
  induction types as [|t types IH]; intros col n iv bw Hn E.
  { injection E as <- <-. split; [reflexivity|]. split; [|split]; intros [|?] ? HH; discriminate. }
  assert (Hother : forall d, d < 0 -> t <> 1%nat ->
    (let '(iv, bw) := scan_types types (S col) n in (iv, d :: bw)) = (iv, bw) ->
    length bw = length (t :: types) /\
    (forall v z, nth_error bw v = Some z -> 0 <= z ->
      nth_error (t :: types) v = Some 1%nat /\ n <= z /\ nth_error iv (Z.to_nat (z - n)) = Some (col + v)%nat) /\
    (forall v z, nth_error bw v = Some z -> z < 0 -> nth_error (t :: types) v <> Some 1%nat) /\
    (forall i c, nth_error iv i = Some c -> exists v, c = (col + v)%nat /\ nth_error bw v = Some (n + Z.of_nat i))).
  { intros d Hd Ht E1. destruct (scan_types types (S col) n) as [iv0 bw0] eqn:Es.
    injection E1 as <- <-. destruct (IH _ _ _ _ Hn Es) as (A & B & B' & C). repeat split.
    - simpl. congruence.
    - destruct v; simpl in *; [injection H as <-; lia|]. apply (B v z H H0).
    - destruct v; simpl in *; [injection H as <-; lia|]. apply (B v z H H0).
    - destruct v; simpl in *; [injection H as <-; lia|]. rewrite <- Nat.add_succ_comm. apply (B v z H H0).
    - intros [|v] z; simpl; [congruence|]. apply B'.
    - intros i c Hi. destruct (C i c Hi) as (v & -> & Hv). exists (S v). simpl. split; [lia|exact Hv]. }
  destruct t as [|[|t]].
  - apply (Hother (-1)); [lia|discriminate|exact E].
  - clear Hother. cbn [scan_types] in E.
    destruct (scan_types types (S col) (n + 1)) as [iv0 bw0] eqn:Es. injection E as <- <-.
    assert (Hn1 : 0 <= n + 1) by lia.
    destruct (IH _ _ _ _ Hn1 Es) as (A & B & B' & C). repeat split.
    + simpl. congruence.
    + destruct v; simpl in *; [reflexivity|]. apply (B v z H H0).
    + destruct v; simpl in *; [injection H as <-; lia|]. destruct (B v z H H0) as (_ & B1 & _). lia.
    + destruct v; simpl in *.
      * injection H as <-. rewrite Z.sub_diag. simpl. f_equal. lia.
      * destruct (B v z H H0) as (_ & B1 & B2).
        replace (Z.to_nat (z - n)) with (S (Z.to_nat (z - (n + 1)))) by lia. simpl. rewrite B2. f_equal. lia.
    + intros [|v] z; simpl; [intros Hq; injection Hq as <-; lia|]. apply B'.
    + intros [|i] c; simpl.
      * intros Hq. injection Hq as <-. exists 0%nat. split; [lia|]. simpl. f_equal. lia.
      * intros Hi. destruct (C i c Hi) as (v & -> & Hv). exists (S v). simpl. split; [lia|]. rewrite Hv. f_equal. lia.
  - apply (Hother (-2)); [lia|discriminate|exact E].
Qed.

(** ** Histories of fixes *)

Record call := Call { c_var : nat; c_up : bool; c_fix : nat; c_lower : bool }.

Fixpoint run_calls (s : pinfo) (cs : list call) : outcome (pinfo * list call) :=
  match cs with
  | [] => Done (s, [])
  | c :: cs' =>
      do r <- fixes s (c_var c) (if c_up c then 1 else -1) (c_fix c) (c_lower c);
      do r' <- run_calls (snd r) cs';
      Done (fst r', if (fst r : bool) then c :: snd r' else snd r')
  end.

Definition encode (s : pinfo) (c : call) : option (Z * Z) :=
  match nth_error (pi_back s) (c_var c), nth_error (pi_back s) (c_fix c) with
  | Some v, Some f =>
      if v <? 0 then None else
      Some (if c_up c then Z.lor (v * 2) 1 else v * 2,
            setSequenceInCliqueEntry (setOneFixesInCliqueEntry 0 (negb (c_lower c)))
              (if f <? 0 then pi_nint s + Z.of_nat (c_fix c) else f))
  | _, _ => None
  end.
Definition enc_list (s : pinfo) (cs : list call) : list (Z * Z) :=
  flat_map (fun c => match encode s c with Some p => [p] | None => [] end) cs.

Definition same_frame (s s' : pinfo) : Prop :=
  pi_nvars s' = pi_nvars s /\ pi_intvar s' = pi_intvar s /\ pi_back s' = pi_back s /\
  pi_table s' = pi_table s.

Lemma encode_frame s s' c : same_frame s s' -> encode s' c = encode s c.
Proof. intros (A & B & C & D). unfold encode, pi_nint. rewrite B, C. reflexivity. Qed.

(** Back pointers in range; sizes small enough for 31-bit arithmetic. *)
Definition wf_info (s : pinfo) : Prop :=
  (forall v z, nth_error (pi_back s) v = Some z -> z < pi_nint s) /\
  pi_nint s <= Z.of_nat (length (pi_back s)) /\
  Z.of_nat (length (pi_back s)) < 1073741824.

Lemma fixes_spec s c : wf_info s -> 0 <= pi_num s ->
  (c_var c < length (pi_back s))%nat -> (c_fix c < length (pi_back s))%nat ->
  exists b s', fixes s (c_var c) (if c_up c then 1 else -1) (c_fix c) (c_lower c) = Done (b, s') /\
    same_frame s s' /\ 0 <= pi_num s' /\
    pi_coll s' = pi_coll s ++ (if b : bool then match encode s c with Some p => [p] | None => [] end else []).
Proof.
  intros (W1 & W2 & W3) Hnum Hv Hf. unfold fixes, encode.
  destruct (nth_error (pi_back s) (c_var c)) as [v|] eqn:Ev.
  2:{ apply nth_error_None in Ev. lia. }
  destruct (nth_error (pi_back s) (c_fix c)) as [f|] eqn:Ef.
  2:{ apply nth_error_None in Ef. lia. }
  destruct (Z.ltb_spec v 0) as [Hv0|Hv0].
  { exists true, s. rewrite app_nil_r. unfold same_frame. auto 10. }
  specialize (W1 _ _ Ev) as Wv. specialize (W1 _ _ Ef) as Wf.
  cbv zeta.
  set (intFix := if f <? 0 then pi_nint s + Z.of_nat (c_fix c) else f).
  assert (Hr : int_range intFix = true).
  { unfold int_range, INT_MIN, INT_MAX, intFix. destruct (Z.ltb_spec f 0); apply andb_true_iff; split; apply Z.leb_le; lia. }
  rewrite Hr. cbn [negb].
  destruct ((pi_num s =? pi_max s) && _) eqn:Efull.
  { exists false, s. rewrite app_nil_r. unfold same_frame. auto 10. }
  destruct (Z.ltb_spec (pi_num s) 0); [lia|].
  assert (Ht : negb ((if c_up c then 1 else -1) =? -1) && negb ((if c_up c then 1 else -1) =? 1) = false)
    by (destruct (c_up c); reflexivity).
  rewrite Ht.
  assert (Hr2 : int_range (v * 2) = true).
  { unfold int_range, INT_MIN, INT_MAX. apply andb_true_iff; split; apply Z.leb_le; lia. }
  rewrite Hr2. cbn [negb].
  eexists true, _. split; [reflexivity|]. cbn [pi_num pi_coll pi_table]. repeat split; auto; [lia|].
  destruct (c_up c); reflexivity.
Qed.

Lemma wf_frame s s' : same_frame s s' -> wf_info s -> wf_info s'.
Proof. intros (A & B & C & D). unfold wf_info, pi_nint. rewrite B, C. auto. Qed.

Lemma run_calls_spec cs : forall s, wf_info s -> 0 <= pi_num s ->
  (forall c, In c cs -> (c_var c < length (pi_back s))%nat /\ (c_fix c < length (pi_back s))%nat) ->
  exists s' acc, run_calls s cs = Done (s', acc) /\ same_frame s s' /\ 0 <= pi_num s' /\
    pi_coll s' = pi_coll s ++ enc_list s acc /\ incl acc cs.
Proof.
  induction cs as [|c cs IH]; intros s W Hn Hc.
  - exists s, []. cbn. rewrite app_nil_r. unfold same_frame. repeat split; auto. intros ? [].
  - destruct (Hc c (or_introl eq_refl)) as [H1 H2].
    destruct (fixes_spec s c W Hn H1 H2) as (b & s1 & E & F & Hn1 & Ec).
    assert (Hb : pi_back s1 = pi_back s) by (destruct F as (? & ? & ? & ?); assumption).
    destruct (IH s1) as (s' & acc & E' & F' & Hn' & Ec' & Hi).
    { eapply wf_frame; eauto. } { exact Hn1. } { rewrite Hb. intros; apply Hc; right; assumption. }
    cbn [run_calls]. rewrite E. cbn [bind snd fst]. rewrite E'. cbn [bind snd fst].
    exists s', (if b then c :: acc else acc). split; [destruct b; reflexivity|].
    assert (Henc : enc_list s1 acc = enc_list s acc).
    { unfold enc_list. apply flat_map_ext. intro a. rewrite (encode_frame s s1 a F). reflexivity. }
    split; [|split; [exact Hn'|split]].
    + destruct F as (A & B & C & D), F' as (A' & B' & C' & D'). unfold same_frame. repeat split; congruence.
    + rewrite Ec', Ec, Henc, <- app_assoc. f_equal. destruct b; reflexivity.
    + destruct b; intros x Hx; [destruct Hx as [<-|Hx]; [left; reflexivity|]|]; right; auto.
Qed.

Lemma init_wf types s0 : Z.of_nat (length types) < 1073741824 ->
  initializeFixing pinfo_default types = (1, s0) ->
  wf_info s0 /\ pi_num s0 = 0 /\ pi_coll s0 = [] /\ pi_table s0 = None /\
  length (pi_back s0) = length types /\ pi_nvars s0 = Z.of_nat (length types) /\
  (forall v z, nth_error (pi_back s0) v = Some z -> 0 <= z ->
      nth_error types v = Some 1%nat /\ nth_error (pi_intvar s0) (Z.to_nat z) = Some v) /\
  (forall v z, nth_error (pi_back s0) v = Some z -> z < 0 -> nth_error types v <> Some 1%nat) /\
  (forall i c, nth_error (pi_intvar s0) i = Some c -> nth_error (pi_back s0) c = Some (Z.of_nat i)).
Proof.
  intros Hlen E. unfold initializeFixing in E. cbn in E.
  destruct (scan_types types 0 0) as [iv bw] eqn:Es. injection E as <-.
  destruct (scan_spec types 0 0 iv bw ltac:(lia) Es) as (A & B & B' & C). cbn.
  assert (Hiv : (length iv <= length bw)%nat).
  { assert (Inj : NoDup iv).
    { apply NoDup_nth_error. intros i j Hi Hij.
      destruct (nth_error iv i) as [c|] eqn:Ei; [|apply nth_error_None in Ei; lia].
      symmetry in Hij. destruct (C _ _ Ei) as (v & -> & Hv). destruct (C _ _ Hij) as (w & Hw & Hw').
      assert (w = v) by lia. subst w. rewrite Hv in Hw'. injection Hw'. lia. }
    assert (Hincl : incl iv (seq 0 (length bw))).
    { intros c Hc. apply In_nth_error in Hc as [i Hi]. destruct (C _ _ Hi) as (v & -> & Hv).
      apply in_seq. assert (nth_error bw v <> None) by congruence. apply nth_error_Some in H. lia. }
    pose proof (NoDup_incl_length Inj Hincl) as L. rewrite seq_length in L. exact L. }
  repeat split; auto.
  - cbn. intros v z Hv. unfold pi_nint. cbn. destruct (Z_lt_ge_dec z 0); [lia|].
    destruct (B v z Hv ltac:(lia)) as (_ & _ & Hz). rewrite Z.sub_0_r in Hz.
    assert (nth_error iv (Z.to_nat z) <> None) by congruence. apply nth_error_Some in H. lia.
  - cbn. unfold pi_nint. cbn. lia.
  - cbn. lia.
  - apply (B v z H H0).
  - destruct (B v z H H0) as (_ & _ & Hz). rewrite Z.sub_0_r in Hz. exact Hz.
  - intros i c Hi. destruct (C i c Hi) as (v & -> & Hv). exact Hv.
Qed.

Lemma in_grp l key e : In e (grp l key) <-> In (key, e) l.
Proof.
  unfold grp. rewrite in_map_iff. split.
  - intros ([a b] & <- & H). apply filter_In in H as [H E]. cbn in E. apply Z.eqb_eq in E. subst a. exact H.
  - intro H. exists (key, e). split; [reflexivity|]. apply filter_In. split; [exact H|]. apply Z.eqb_refl.
Qed.

Lemma lor_odd v : 0 <= v -> Z.lor (v * 2) 1 = v * 2 + 1.
Proof.
  intro H. apply lor_disjoint. change 1 with (Z.ones 1). rewrite Z.land_ones by lia.
  change (2 ^ 1) with 2. apply Z.mod_mul. lia.
Qed.

(** Everything the tables list, in terms of the accepted calls. *)
Lemma listed_spec s acc : wf_info s -> 0 <= pi_num s -> pi_coll s = enc_list s acc ->
  exists t, pi_table (convert s) = Some t /\
   pi_intvar (convert s) = pi_intvar s /\ pi_back (convert s) = pi_back s /\
   pi_nvars (convert s) = pi_nvars s /\
   (exists gs, length gs = length (pi_intvar s) /\
       lay 0 gs = (t_entry t, t_toOne t, tl (t_toZero t))) /\
   length (t_toZero t) = S (length (pi_intvar s)) /\ nth 0 (t_toZero t) 0%nat = 0%nat /\
   forall i (up : bool) , (i < length (pi_intvar s))%nat ->
     let es := if up then one_entries t i else zero_entries t i in
     (forall e, In e es -> word e /\ exists c, In c acc /\ c_up c = up /\
        nth_error (pi_back s) (c_var c) = Some (Z.of_nat i) /\
        encode s c = Some (2 * Z.of_nat i + (if up then 1 else 0), e)) /\
     (forall c e, In c acc -> encode s c = Some (2 * Z.of_nat i + (if up then 1 else 0), e) ->
        e <> sentinel (pi_nvars s) -> In e es) /\
     NoDup (filter (fun e => negb (oneFixesInCliqueEntry e)) es).
Proof.
  intros W Hn Hc.
  assert (Henc : forall c p, encode s c = Some p ->
     exists v f, nth_error (pi_back s) (c_var c) = Some v /\ nth_error (pi_back s) (c_fix c) = Some f /\
       0 <= v /\ word (snd p) /\
       fst p = 2 * v + (if c_up c then 1 else 0) /\
       sequenceInCliqueEntry (snd p) = (if f <? 0 then pi_nint s + Z.of_nat (c_fix c) else f) /\
       oneFixesInCliqueEntry (snd p) = negb (c_lower c)).
  { intros c p Hp. unfold encode in Hp. destruct W as (W1 & W2 & W3).
    destruct (nth_error (pi_back s) (c_var c)) as [v|] eqn:Ev; [|discriminate].
    destruct (nth_error (pi_back s) (c_fix c)) as [f|] eqn:Ef; [|discriminate].
    destruct (Z.ltb_spec v 0); [discriminate|]. injection Hp as <-. cbn [fst snd].
    exists v, f. 
    assert (Hfl : (c_fix c < length (pi_back s))%nat) by (apply nth_error_Some; congruence).
    assert (R : 0 <= (if f <? 0 then pi_nint s + Z.of_nat (c_fix c) else f) < B31).
    { specialize (W1 _ _ Ef). unfold B31. unfold pi_nint in *.
      destruct (Z.ltb_spec f 0); lia. }
    repeat split; auto.
    - apply setSeq_word. exact R.
    - apply setSeq_word. exact R.
    - destruct (c_up c); [rewrite lor_odd by lia; ring|ring].
    - apply seq_setSeq. exact R.
    - rewrite one_setSeq by exact R. apply one_setOne. }
  assert (Hcoll : forall p, In p (pi_coll s) <-> exists c, In c acc /\ encode s c = Some p).
  { intro p. rewrite Hc. unfold enc_list. rewrite in_flat_map. split.
    - intros (c & Hin & Hp). destruct (encode s c) eqn:E; [|destruct Hp].
      destruct Hp as [<-|[]]. eauto.
    - intros (c & Hin & Hp). exists c. rewrite Hp. split; [exact Hin|left; reflexivity]. }
  destruct (convert_table s Hn) as (t & T1 & T2 & T3 & T4 & T5 & T6 & T7 & T8 & T9).
  { intros p Hp. apply Hcoll in Hp as (c & _ & Hp). destruct (Henc _ _ Hp) as (v & f & _ & _ & Hv & _ & -> & _).
    destruct (c_up c); lia. }
  exists t. do 7 (split; [assumption|]). intros i up H. cbv zeta.
  destruct (T9 i H) as [Z0 Z1].
  assert (Hw : forall b : bool, forall x, In x (sort_z (grp (sort_key (pi_coll s)) (2 * Z.of_nat i + (if b then 1 else 0)))) -> word x).
  { intros b x Hx. apply (Permutation_in _ (sort_z_perm _)) in Hx. apply in_grp in Hx.
    apply (Permutation_in _ (sort_key_perm _)) in Hx. apply Hcoll in Hx as (c' & _ & Hx).
    destruct (Henc _ _ Hx) as (v & f & _ & _ & _ & Hw & _). exact Hw. }
  assert (Hsent : word (sentinel (pi_nvars s))).
  { unfold sentinel, setSequenceInCliqueEntry. change (Z.land 0 2147483648) with 0.
    rewrite Z.lor_0_r. unfold to_u32. pose proof (Z.mod_pos_bound (pi_nvars s + 1) 4294967296). unfold word. lia. }
  split; [|split].
  - intros e H0.
    assert (Hin : In e (grp (sort_key (pi_coll s)) (2 * Z.of_nat i + (if up then 1 else 0)))).
    { destruct up; [rewrite Z1 in H0|rewrite Z0 in H0];
      apply dedupe_incl in H0; apply (Permutation_in _ (sort_z_perm _)) in H0;
      rewrite ?Z.add_0_r; exact H0. }
    apply in_grp in Hin. apply (Permutation_in _ (sort_key_perm _)) in Hin.
    apply Hcoll in Hin as (c & Hin & Hp). destruct (Henc _ _ Hp) as (v & f & Hv & Hf & Hv0 & Hwe & K & _).
    split; [exact Hwe|].
    cbn [fst] in K. exists c. split; [exact Hin|].
    assert (c_up c = up /\ v = Z.of_nat i) as [<- ->].
    { destruct (c_up c), up; split; try reflexivity; lia. }
    auto.
  - intros c e Hin Hp Hne.
    destruct (dedupe_complete _ _ e Hsent (Hw up)) as [K|K]; [| |contradiction].
    + apply (Permutation_in _ (Permutation_sym (sort_z_perm _))). apply in_grp.
      apply (Permutation_in _ (Permutation_sym (sort_key_perm _))). apply Hcoll. eauto.
    + destruct up; [rewrite Z1|rewrite Z0; rewrite Z.add_0_r in K]; exact K.
  - destruct up; [rewrite Z1|rewrite Z0].
    + apply dedupe_nodup; auto using sort_z_sorted. apply (Hw true).
    + apply dedupe_nodup; auto using sort_z_sorted. specialize (Hw false). rewrite Z.add_0_r in Hw. exact Hw.
Qed.

(** ** packDown *)

Definition keep_g (nint : Z) (g : list Z * list Z) : list Z * list Z :=
  (filter (fun e => sequenceInCliqueEntry e <? nint) (fst g),
   filter (fun e => sequenceInCliqueEntry e <? nint) (snd g)).

Lemma pack_loop_lay nint gs : forall pre out o ones zeros o' ones' zeros',
  lay (length pre) gs = (o, ones, zeros) ->
  lay (length out) (map (keep_g nint) gs) = (o', ones', zeros') ->
  forall full, full = pre ++ o ->
  pack_loop nint full ones zeros (length pre) out = (out ++ o', ones', zeros').
Proof.
  induction gs as [|[a b] gs IH]; intros pre out o ones zeros o' ones' zeros' E E' full ->.
  - injection E as <- <- <-. injection E' as <- <- <-. cbn. rewrite app_nil_r. reflexivity.
  - cbn [lay map] in E, E'.
    destruct (lay (length pre + length a + length b) gs) as [[o1 n1] z1] eqn:El.
    injection E as <- <- <-.
    unfold keep_g at 1 in E'. cbn [fst snd] in E'.
    set (fa := filter _ a) in *. set (fb := filter _ b) in *.
    destruct (lay (length out + length fa + length fb) (map (keep_g nint) gs)) as [[o2 n2] z2] eqn:El2.
    injection E' as <- <- <-.
    cbn [pack_loop]. cbv zeta.
    rewrite (slice_app_mid pre a (b ++ o1)).
    assert (S2 : slice (pre ++ a ++ b ++ o1) (length pre + length a) (length pre + length a + length b) = b).
    { rewrite app_assoc. rewrite <- app_length. apply slice_app_mid. }
    rewrite S2. fold fa fb.
    assert (El' : lay (length (pre ++ a ++ b)) gs = (o1, n1, z1)).
    { rewrite !app_length, Nat.add_assoc. exact El. }
    assert (El2' : lay (length ((out ++ fa) ++ fb)) (map (keep_g nint) gs) = (o2, n2, z2)).
    { rewrite !app_length. exact El2. }
    replace (length pre + length a + length b)%nat with (length (pre ++ a ++ b)) by (rewrite !app_length; lia).
    rewrite (IH (pre ++ a ++ b) ((out ++ fa) ++ fb) _ _ _ _ _ _ El' El2').
    + rewrite !app_length, <- !app_assoc, ?Nat.add_assoc. reflexivity.
    + rewrite <- !app_assoc. reflexivity.
Qed.

Lemma slices_of_lay t gs : lay 0 gs = (t_entry t, t_toOne t, tl (t_toZero t)) ->
  nth 0 (t_toZero t) 0%nat = 0%nat -> t_toZero t <> [] ->
  forall i, (i < length gs)%nat ->
    nth_error gs i = Some (zero_entries t i, one_entries t i).
Proof.
  intros El H0 Hne i Hi.
  destruct (nth_error gs i) as [[a b]|] eqn:E; [|apply nth_error_None in E; lia].
  destruct (lay_slices gs [] i a b E _ _ _ El) as [A B]. cbn [app length] in A, B.
  unfold zero_entries, one_entries.
  destruct (t_toZero t) as [|z zs]; [congruence|]. cbn [nth tl] in *. subst z.
  destruct i; cbn [nth] in *; congruence.
Qed.

Lemma packDown_spec s t : pi_num s < 0 -> pi_table s = Some t ->
  (exists gs, length gs = length (pi_intvar s) /\
       lay 0 gs = (t_entry t, t_toOne t, tl (t_toZero t))) ->
  nth 0 (t_toZero t) 0%nat = 0%nat -> t_toZero t <> [] ->
  exists n s' t', packDown s = Done (n, s') /\ pi_table s' = Some t' /\
    pi_intvar s' = pi_intvar s /\ pi_back s' = pi_back s /\ n = length (t_entry t') /\
    forall i, (i < length (pi_intvar s))%nat ->
      zero_entries t' i = filter (fun e => sequenceInCliqueEntry e <? pi_nint s) (zero_entries t i) /\
      one_entries t' i = filter (fun e => sequenceInCliqueEntry e <? pi_nint s) (one_entries t i).
Proof.
  intros Hnum Ht (gs & Hlen & El) H0 Hne. unfold packDown.
  assert (Hc : convert s = s).
  { unfold convert. destruct (Z.leb_spec 0 (pi_num s)); [lia|reflexivity]. }
  rewrite Hc, Ht.
  destruct (lay 0 (map (keep_g (pi_nint s)) gs)) as [[o' n'] z'] eqn:E'.
  pose proof (pack_loop_lay (pi_nint s) gs [] [] _ _ _ _ _ _ El E' (t_entry t) eq_refl) as Hp.
  cbn [length app] in Hp. rewrite Hp.
  cbn [app]. eexists _, _, _. split; [reflexivity|]. cbn.
  repeat split.
  - assert (Hi : (i < length (map (keep_g (pi_nint s)) gs))%nat) by (rewrite map_length; congruence).
    pose proof (slices_of_lay (Table o' (0%nat :: z') n') _ E' eq_refl ltac:(discriminate) i Hi) as A.
    rewrite nth_error_map, (slices_of_lay t gs El H0 Hne i) in A by congruence.
    cbn in A. injection A as A _. symmetry. exact A.
  - assert (Hi : (i < length (map (keep_g (pi_nint s)) gs))%nat) by (rewrite map_length; congruence).
    pose proof (slices_of_lay (Table o' (0%nat :: z') n') _ E' eq_refl ltac:(discriminate) i Hi) as A.
    rewrite nth_error_map, (slices_of_lay t gs El H0 Hne i) in A by congruence.
    cbn in A. injection A as _ A. symmetry. exact A.
Qed.

(** ** Using the tables on a solver *)

Local Open Scope Q_scope.

Section Use.
Variables (intvar : list nat) (t : table) (x : nat -> Q).

(** [x] satisfies what the tables list about 0-1 targets. *)
Definition obeys : Prop :=
  forall j i, nth_error intvar j = Some i ->
  forall e k, nth_error intvar (Z.to_nat (sequenceInCliqueEntry e)) = Some k ->
    (In e (zero_entries t j) -> x i == 0 -> x k == if oneFixesInCliqueEntry e then 1 else 0) /\
    (In e (one_entries t j) -> x i == 1 -> x k == if oneFixesInCliqueEntry e then 1 else 0).
Definition packed : Prop :=
  forall j e, (j < length intvar)%nat -> In e (zero_entries t j) \/ In e (one_entries t j) ->
    nth_error intvar (Z.to_nat (sequenceInCliqueEntry e)) <> None.

Definition inb (b : bnds) : Prop := forall k, fst b k <= x k <= snd b k.
Definition b01 (b : bnds) : Prop := forall k, In k intvar -> 0 <= fst b k /\ snd b k <= 1.

Lemma fix_entry_inv b n f e st :
  b01 b ->
  fix_entry intvar (b, n, f) e = Done st ->
  b01 (fst (fst st)) /\
  (forall k, fst b k <= fst (fst (fst st)) k /\ snd (fst (fst st)) k <= snd b k) /\
  ((forall k, nth_error intvar (Z.to_nat (sequenceInCliqueEntry e)) = Some k ->
     x k == if oneFixesInCliqueEntry e then 1 else 0) -> inb b ->
   inb (fst (fst st)) /\ (f = true -> snd st = true)).
Proof.
  intros H01 E. unfold fix_entry in E. destruct b as [lo up].
  destruct (nth_error intvar _) as [k|] eqn:Ek; [|discriminate].
  assert (Hk : In k intvar) by (eapply nth_error_In; exact Ek).
  pose proof (H01 k Hk) as Hkb. cbn in Hkb.
  apply Done_inj in E. subst st.
  assert (Hrefl : b01 (lo, up) /\ (forall k, fst (lo, up) k <= fst (lo, up) k /\ snd (lo, up) k <= snd (lo, up) k)).
  { split; [exact H01|]. intro; split; apply Qle_refl. }
  destruct (oneFixesInCliqueEntry e) eqn:Eo.
  - destruct (Qeq_bool (lo k) 0) eqn:E1; [destruct (Qeq_bool (up k) 1) eqn:E2|]; qb; cbn.
    + split; [|split].
      * intros j Hj. specialize (H01 j Hj). cbn in *. unfold upd.
        destruct (Nat.eqb_spec j k) as [->|]; lra.
      * intro j. unfold upd. destruct (Nat.eqb_spec j k) as [->|]; lra.
      * intros Hx Hin. split; [|auto]. intro j. specialize (Hin j). cbn in *. unfold upd.
        destruct (Nat.eqb_spec j k) as [->|]; [|lra]. specialize (Hx k eq_refl). lra.
    + split; [|split]; [apply Hrefl|apply Hrefl|].
      intros Hx Hin. exfalso. specialize (Hx k eq_refl). specialize (Hin k). cbn in Hin.
      apply E2. lra.
    + split; [|split]; [apply Hrefl|apply Hrefl|]. auto.
  - destruct (Qeq_bool (up k) 1) eqn:E1; [destruct (Qeq_bool (lo k) 0) eqn:E2|]; qb; cbn.
    + split; [|split].
      * intros j Hj. specialize (H01 j Hj). cbn in *. unfold upd.
        destruct (Nat.eqb_spec j k) as [->|]; lra.
      * intro j. unfold upd. destruct (Nat.eqb_spec j k) as [->|]; lra.
      * intros Hx Hin. split; [|auto]. intro j. specialize (Hin j). cbn in *. unfold upd.
        destruct (Nat.eqb_spec j k) as [->|]; [|lra]. specialize (Hx k eq_refl). lra.
    + split; [|split]; [apply Hrefl|apply Hrefl|].
      intros Hx Hin. exfalso. specialize (Hx k eq_refl). specialize (Hin k). cbn in Hin.
      apply E2. lra.
    + split; [|split]; [apply Hrefl|apply Hrefl|]. auto.
Qed.

Lemma fix_entries_inv es : forall st st',
  b01 (fst (fst st)) ->
  ofold (fix_entry intvar) es st = Done st' ->
  b01 (fst (fst st')) /\
  (forall k, fst (fst (fst st)) k <= fst (fst (fst st')) k /\ snd (fst (fst st')) k <= snd (fst (fst st)) k) /\
  ((forall e k, In e es -> nth_error intvar (Z.to_nat (sequenceInCliqueEntry e)) = Some k ->
     x k == if oneFixesInCliqueEntry e then 1 else 0) -> inb (fst (fst st)) ->
   inb (fst (fst st')) /\ (snd st = true -> snd st' = true)).
Proof.
  induction es as [|e es IH]; intros st st' H01 E.
  - injection E as <-. split; [exact H01|split]; [|auto]. intro; split; apply Qle_refl.
  - cbn [ofold] in E. apply bind_done in E as (s1 & E1 & E2).
    destruct st as [[b n] f]. cbn [fst snd] in *.
    destruct (fix_entry_inv b n f e s1 H01 E1) as (A & B & C).
    destruct (IH s1 st' A E2) as (A' & B' & C').
    split; [exact A'|split].
    + intro k. destruct (B k), (B' k). split; eapply Qle_trans; eauto.
    + intros Hx Hin. destruct C as [C1 C2]; [intros; eapply Hx; eauto; left; reflexivity|exact Hin|].
      destruct C' as [D1 D2]; [intros; eapply Hx; eauto; right; assumption|exact C1|]. auto.
Qed.

Lemma fix_entries_defined es : forall st,
  (forall e, In e es -> nth_error intvar (Z.to_nat (sequenceInCliqueEntry e)) <> None) ->
  exists st', ofold (fix_entry intvar) es st = Done st'.
Proof.
  induction es as [|e es IH]; intros st H; [cbn; eauto|].
  cbn [ofold]. unfold fix_entry at 1. destruct st as [[[lo up] n] f].
  destruct (nth_error intvar _) as [k|] eqn:Ek; [|exfalso; eapply H; eauto; left; reflexivity].
  cbn [bind]. apply IH. intros; apply H; right; assumption.
Qed.

Lemma fixColumns_step_inv ij st st' :
  (forall k, In k intvar -> x k == 0 \/ x k == 1) -> obeys -> 
  nth_error intvar (fst ij) = Some (snd ij) ->
  b01 (fst (fst st)) ->
  fixColumns_step intvar t st ij = Done st' ->
  b01 (fst (fst st')) /\
  (forall k, fst (fst (fst st)) k <= fst (fst (fst st')) k /\ snd (fst (fst st')) k <= snd (fst (fst st)) k) /\
  (inb (fst (fst st)) -> inb (fst (fst st')) /\ (snd st = true -> snd st' = true)).
Proof.
  intros Hx Hob Hij H01 E. destruct ij as [j i]. destruct st as [[[lo up] n] f]. cbn [fst snd] in *.
  unfold fixColumns_step in E.
  assert (Hi : In i intvar) by (eapply nth_error_In; exact Hij).
  destruct (Qeq_bool (up i) 0) eqn:E0; [|destruct (Qeq_bool (lo i) 1) eqn:E1]; qb.
  - destruct (fix_entries_inv _ (lo, up, n, f) _ H01 E) as (A & B & C). split; [exact A|split; [exact B|]].
    intros Hin. apply C; [|exact Hin]. intros e k He Hk.
    destruct (Hob j i Hij e k Hk) as [K _]. apply K; [exact He|].
    specialize (Hin i). cbn in Hin. destruct (Hx i Hi); lra.
  - destruct (fix_entries_inv _ (lo, up, n, f) _ H01 E) as (A & B & C). split; [exact A|split; [exact B|]].
    intros Hin. apply C; [|exact Hin]. intros e k He Hk.
    destruct (Hob j i Hij e k Hk) as [_ K]. apply K; [exact He|].
    specialize (Hin i). cbn in Hin. destruct (Hx i Hi); lra.
  - injection E as <-. cbn. split; [exact H01|split]; [|auto]. intro; split; apply Qle_refl.
Qed.

Lemma fixColumns_inv cols : forall st st',
  (forall k, In k intvar -> x k == 0 \/ x k == 1) -> obeys -> 
  (forall ij, In ij cols -> nth_error intvar (fst ij) = Some (snd ij)) ->
  b01 (fst (fst st)) ->
  ofold (fixColumns_step intvar t) cols st = Done st' ->
  (forall k, fst (fst (fst st)) k <= fst (fst (fst st')) k /\ snd (fst (fst st')) k <= snd (fst (fst st)) k) /\
  (inb (fst (fst st)) -> inb (fst (fst st')) /\ (snd st = true -> snd st' = true)).
Proof.
  induction cols as [|ij cols IH]; intros st st' Hx Hob Hc H01 E.
  - injection E as <-. split; [|auto]. intro; split; apply Qle_refl.
  - cbn [ofold] in E. apply bind_done in E as (s1 & E1 & E2).
    destruct (fixColumns_step_inv ij st s1 Hx Hob (Hc ij (or_introl eq_refl)) H01 E1) as (A & B & C).
    destruct (IH s1 st' Hx Hob (fun p Hp => Hc p (or_intror Hp)) A E2) as (B' & C').
    split.
    + intro k. destruct (B k), (B' k). split; eapply Qle_trans; eauto.
    + intro Hin. destruct (C Hin) as [C1 C2]. destruct (C' C1) as [D1 D2]. auto.
Qed.

Lemma fixColumns_defined cols : forall st, packed ->
  (forall ij, In ij cols -> nth_error intvar (fst ij) = Some (snd ij)) ->
  exists st', ofold (fixColumns_step intvar t) cols st = Done st'.
Proof.
  induction cols as [|[j i] cols IH]; intros st Hp Hc; [cbn; eauto|].
  cbn [ofold].
  assert (Hj : (j < length intvar)%nat).
  { apply nth_error_Some. pose proof (Hc (j, i) (or_introl eq_refl)) as Hc0. cbn in Hc0. congruence. }
  assert (K : exists s1, fixColumns_step intvar t st (j, i) = Done s1).
  { unfold fixColumns_step. destruct st as [[[lo up] n] f].
    destruct (Qeq_bool _ _); [|destruct (Qeq_bool _ _); [|eauto]];
      apply fix_entries_defined; intros e He; apply (Hp j e Hj); auto. }
  destruct K as [s1 ->]. cbn [bind]. apply IH; [exact Hp|]. intros; apply Hc; right; assumption.
Qed.

End Use.

Lemma combine_seq_nth (l : list nat) : forall ij a, In ij (combine (seq a (length l)) l) ->
  nth_error l (fst ij - a) = Some (snd ij) /\ (a <= fst ij)%nat.
Proof.
  induction l as [|y l IH]; intros ij a H; [destruct H|].
  cbn [length seq combine] in H. destruct H as [<-|H].
  - cbn. rewrite Nat.sub_diag. split; [reflexivity|lia].
  - destruct (IH ij (S a) H) as [A B]. split; [|lia].
    replace (fst ij - a)%nat with (S (fst ij - S a)) by lia. exact A.
Qed.
Lemma combine_seq_nth0 (l : list nat) ij : In ij (combine (seq 0 (length l)) l) ->
  nth_error l (fst ij) = Some (snd ij).
Proof. intro H. destruct (combine_seq_nth l ij 0 H) as [A _]. rewrite Nat.sub_0_r in A. exact A. Qed.

(** ** generateCuts *)

Section Gen.
Variables (intvar : list nat) (t : table) (lower upper colsol x : nat -> Q) (cs0 : list rowcut).
Hypothesis Hb01 : forall k, In k intvar ->
  (lower k == 0 \/ lower k == 1) /\ (upper k == 0 \/ upper k == 1) /\
  lower k <= x k <= upper k /\ (x k == 0 \/ x k == 1).
Hypothesis Hob : obeys intvar t x.

Definition cuts_ok (cs : list rowcut) : Prop := forall c, In c cs -> In c cs0 \/ rowcut_sat c x.

Lemma cuts_ok_insert cs c : cuts_ok cs -> rowcut_sat c x -> cuts_ok (insert_new cs c).
Proof. intros H Hc d Hd. destruct (insert_new_in _ _ _ Hd) as [H1| ->]; auto. Qed.

Lemma free01_true k : free01 lower upper k = true <-> lower k == 0 /\ upper k == 1.
Proof. unfold free01. rewrite andb_true_iff, !Qeqb_eq. reflexivity. Qed.

Lemma gc_zero_ok j i es : nth_error intvar j = Some i -> (forall e, In e es -> In e (zero_entries t j)) ->
  forall cs cs', cuts_ok cs -> ofold (gc_zero intvar lower upper colsol i) es cs = Done cs' -> cuts_ok cs'.
Proof.
  intros Hj Hes cs cs' Hcs E.
  eapply (ofold_inv cuts_ok); [|exact Hcs|exact E].
  intros s e s' He IH Es. unfold gc_zero in Es.
  destruct (nth_error intvar (Z.to_nat (sequenceInCliqueEntry e))) as [k|] eqn:Ek; [|discriminate]. apply Done_inj in Es. subst s'.
  destruct (Hob j i Hj e k Ek) as [K _]. specialize (K (Hes e He)).
  assert (Hi : In i intvar) by (eapply nth_error_In; eauto).
  assert (Hk : In k intvar) by (eapply nth_error_In; eauto).
  destruct (Hb01 i Hi) as (_ & _ & Hxi & Hxi01). destruct (Hb01 k Hk) as (_ & _ & Hxk & Hxk01).
  destruct (free01 lower upper k) eqn:Ef; [|exact IH].
  destruct (oneFixesInCliqueEntry e).
  - destruct (_ <? _); [|exact IH]. apply cuts_ok_insert; [exact IH|].
    split; cbn; [|exact I]. destruct Hxi01 as [H0|H1]; [specialize (K H0)|destruct Hxk01]; lra.
  - destruct (_ <? _); [|exact IH]. apply cuts_ok_insert; [exact IH|].
    split; cbn; [|exact I]. destruct Hxi01 as [H0|H1]; [specialize (K H0)|destruct Hxk01]; lra.
Qed.

Lemma gc_one_ok j i es : nth_error intvar j = Some i -> (forall e, In e es -> In e (one_entries t j)) ->
  forall cs cs', cuts_ok cs -> ofold (gc_one intvar lower upper colsol i) es cs = Done cs' -> cuts_ok cs'.
Proof.
  intros Hj Hes cs cs' Hcs E.
  eapply (ofold_inv cuts_ok); [|exact Hcs|exact E].
  intros s e s' He IH Es. unfold gc_one in Es.
  destruct (nth_error intvar (Z.to_nat (sequenceInCliqueEntry e))) as [k|] eqn:Ek; [|discriminate]. apply Done_inj in Es. subst s'.
  destruct (Hob j i Hj e k Ek) as [_ K]. specialize (K (Hes e He)).
  assert (Hi : In i intvar) by (eapply nth_error_In; eauto).
  assert (Hk : In k intvar) by (eapply nth_error_In; eauto).
  destruct (Hb01 i Hi) as (_ & _ & Hxi & Hxi01). destruct (Hb01 k Hk) as (_ & _ & Hxk & Hxk01).
  destruct (free01 lower upper k) eqn:Ef; [|exact IH].
  destruct (oneFixesInCliqueEntry e).
  - destruct (_ <? _); [|exact IH]. apply cuts_ok_insert; [exact IH|].
    split; cbn; [exact I|]. destruct Hxi01 as [H0|H1]; [destruct Hxk01|specialize (K H1)]; lra.
  - destruct (_ <? _); [|exact IH]. apply cuts_ok_insert; [exact IH|].
    split; cbn; [exact I|]. destruct Hxi01 as [H0|H1]; [destruct Hxk01|specialize (K H1)]; lra.
Qed.

Definition scan_ok (st : pscan) : Prop :=
  cuts_ok (ps_cuts st) /\
  (forall k b, In (k, b) (ps_lbs st) -> b <= x k) /\
  (forall k b, In (k, b) (ps_ubs st) -> x k <= b) /\
  (forall k01, In k01 (ps_f1 st) -> exists k, nth_error intvar k01 = Some k /\ x k == 1) /\
  (forall k01, In k01 (ps_f2 st) -> exists k, nth_error intvar k01 = Some k /\ x k == 0).

Lemma gc_fixed_ok es : forall st r,
  (forall e k, In e es -> nth_error intvar (Z.to_nat (sequenceInCliqueEntry e)) = Some k ->
     x k == if oneFixesInCliqueEntry e then 1 else 0) ->
  scan_ok st -> gc_fixed intvar lower upper es st = Done r ->
  match r with inl st' => scan_ok st' | inr _ => False end.
Proof.
  induction es as [|e es IH]; intros st r Hx Hst E; [injection E as <-; exact Hst|].
  cbn [gc_fixed] in E. cbv zeta in E.
  destruct (nth_error intvar (Z.to_nat (sequenceInCliqueEntry e))) as [k|] eqn:Ek; [|discriminate].
  assert (Hk : In k intvar) by (eapply nth_error_In; eauto).
  destruct (Hb01 k Hk) as (_ & _ & Hxk & _).
  pose proof (Hx e k (or_introl eq_refl) Ek) as Hxe.
  assert (Hx' : forall e k, In e es -> nth_error intvar (Z.to_nat (sequenceInCliqueEntry e)) = Some k ->
     x k == if oneFixesInCliqueEntry e then 1 else 0) by (intros; eapply Hx; eauto; right; assumption).
  destruct Hst as (S1 & S2 & S3 & S4 & S5).
  destruct (free01 lower upper k) eqn:Ef.
  - eapply IH; [exact Hx'| |exact E].
    destruct (oneFixesInCliqueEntry e); destruct (nmem _ _);
      (split; [exact S1|split; [|split; [|split]]]); cbn; auto.
    + intros k0 b H. apply in_app_or in H as [H|[H|[]]]; [auto|]. injection H as <- <-. lra.
    + intros k0 [<-|H]; [exists k; auto|auto].
    + intros k0 b H. apply in_app_or in H as [H|[H|[]]]; [auto|]. injection H as <- <-. lra.
    + intros k0 [<-|H]; [exists k; auto|auto].
  - destruct (_ || _) eqn:Ei.
    + injection E as <-. apply orb_true_iff in Ei as [Ei|Ei]; apply andb_true_iff in Ei as [E1 E2].
      * rewrite E1 in Hxe. qb. lra.
      * apply negb_true_iff in E1. rewrite E1 in Hxe. qb. lra.
    + eapply IH; [exact Hx'| |exact E]. split; auto.
Qed.

Lemma gc_loop_ok cols : forall st r,
  (forall ij, In ij cols -> nth_error intvar (fst ij) = Some (snd ij)) ->
  scan_ok st -> gc_loop intvar t lower upper colsol cols st = Done r ->
  match r with inl st' => scan_ok st' | inr _ => False end.
Proof.
  induction cols as [|[j i] cols IH]; intros st r Hc Hst E; [injection E as <-; exact Hst|].
  cbn [gc_loop] in E. pose proof (Hc (j, i) (or_introl eq_refl)) as Hj. cbn in Hj.
  assert (Hc' : forall ij, In ij cols -> nth_error intvar (fst ij) = Some (snd ij)) by (intros; apply Hc; right; assumption).
  assert (Hi : In i intvar) by (eapply nth_error_In; eauto).
  destruct (Hb01 i Hi) as (Hl & Hu & Hxi & Hxi01).
  destruct (free01 lower upper i) eqn:Ef.
  - apply bind_done in E as (c1 & E1 & E). apply bind_done in E as (c2 & E2 & E).
    eapply IH; [exact Hc'| |exact E]. destruct Hst as (S1 & S2 & S3 & S4 & S5).
    split; [|auto]. cbn. eapply gc_one_ok; [exact Hj| | |exact E2]; [auto|].
    eapply gc_zero_ok; [exact Hj| | |exact E1]; auto.
  - apply bind_done in E as (r1 & E1 & E).
    assert (K : match r1 with inl st' => scan_ok st' | inr _ => False end).
    { eapply gc_fixed_ok; [|exact Hst|exact E1]. intros e k He Hk.
      destruct (Hob j i Hj e k Hk) as [K0 K1].
      destruct (Qeq_bool (upper i) 0) eqn:Eu; qb.
      - apply K0; [exact He|]. destruct Hxi01; lra.
      - apply K1; [exact He|].
        assert (~ (lower i == 0 /\ upper i == 1)).
        { intro Q. apply free01_true in Q. congruence. }
        destruct Hu as [Hu|Hu]; [contradiction|]. destruct Hl as [Hl|Hl]; [exfalso; auto|]. lra. }
    destruct r1 as [st1|cs1]; [|contradiction]. eapply IH; eauto.
Qed.
End Gen.

Lemma nmem_In k l : nmem k l = true <-> In k l.
Proof.
  unfold nmem. rewrite existsb_exists. split.
  - intros (y & Hy & E). apply Nat.eqb_eq in E. subst. exact Hy.
  - intro H. exists k. split; [exact H|apply Nat.eqb_refl].
Qed.

Lemma pi_generateCuts_ok s t lower upper colsol x cs ccs cs' ccs' :
  pi_table s = Some t ->
  (forall k, In k (pi_intvar s) ->
    (lower k == 0 \/ lower k == 1) /\ (upper k == 0 \/ upper k == 1) /\
    lower k <= x k <= upper k /\ (x k == 0 \/ x k == 1)) ->
  obeys (pi_intvar s) t x ->
  pi_generateCuts s lower upper colsol cs ccs = Done (cs', ccs') ->
  (forall c, In c cs' -> In c cs \/ rowcut_sat c x) /\
  (forall c, In c ccs' -> In c ccs \/ colcut_sat c x).
Proof.
  intros Ht Hb Hob E. unfold pi_generateCuts in E. rewrite Ht in E.
  apply bind_done in E as (r & E1 & E).
  assert (K : match r with inl st' => scan_ok (pi_intvar s) x cs st' | inr _ => False end).
  { eapply gc_loop_ok; [exact Hb|exact Hob|apply combine_seq_nth0| |exact E1].
    split; [intros c Hc; left; exact Hc|]. cbn. repeat split; intros; contradiction. }
  destruct r as [st|cs1]; [|contradiction]. destruct K as (K1 & K2 & K3 & K4 & K5).
  destruct (Nat.eqb _ _).
  { injection E as <- <-. split; [exact K1|auto]. }
  destruct (existsb _ _) eqn:Ex.
  - exfalso. apply existsb_exists in Ex as (k & Hk & Hk2). apply nmem_In in Hk2.
    destruct (K4 k Hk) as (k1 & A & B). destruct (K5 k Hk2) as (k2 & A' & B').
    rewrite A in A'. injection A' as <-. lra.
  - injection E as <- <-. split; [exact K1|]. intros c Hc. apply in_app_or in Hc as [Hc|[<-|[]]]; [left; exact Hc|].
    right. split; cbn; assumption.
Qed.

(** ** Decoding what encode produced *)

Lemma encode_decode s c p : wf_info s -> encode s c = Some p ->
  exists v f, nth_error (pi_back s) (c_var c) = Some v /\ nth_error (pi_back s) (c_fix c) = Some f /\
    (0 <= v)%Z /\ (fst p = 2 * v + (if c_up c then 1 else 0))%Z /\
    sequenceInCliqueEntry (snd p) = (if f <? 0 then pi_nint s + Z.of_nat (c_fix c) else f)%Z /\
    oneFixesInCliqueEntry (snd p) = negb (c_lower c) /\ word (snd p).
Proof.
  intros W Hp. unfold encode in Hp. destruct W as (W1 & W2 & W3).
  destruct (nth_error (pi_back s) (c_var c)) as [v|] eqn:Ev; [|discriminate].
  destruct (nth_error (pi_back s) (c_fix c)) as [f|] eqn:Ef; [|discriminate].
  destruct (Z.ltb_spec v 0); [discriminate|]. injection Hp as <-. cbn [fst snd].
  exists v, f.
  assert (Hfl : (c_fix c < length (pi_back s))%nat) by (apply nth_error_Some; congruence).
  assert (R : (0 <= (if f <? 0 then pi_nint s + Z.of_nat (c_fix c) else f) < B31)%Z).
  { specialize (W1 _ _ Ef). unfold B31. unfold pi_nint in *. destruct (Z.ltb_spec f 0); lia. }
  split; [reflexivity|]. split; [reflexivity|]. split; [exact H|]. split; [|split; [|split]].
  - destruct (c_up c); [rewrite lor_odd by lia; ring|ring].
  - apply seq_setSeq. exact R.
  - rewrite one_setSeq by exact R. apply one_setOne.
  - apply setSeq_word. exact R.
Qed.
