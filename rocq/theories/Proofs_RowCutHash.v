(** * Lemmas about the hashed containers of row cuts *)
From Verif Require Import Model_RowCutHash.
Local Open Scope nat_scope.

Lemma upd_same {A} (f : nat -> A) i a : upd f i a i = a.
Proof. unfold upd. now rewrite Nat.eqb_refl. Qed.
Lemma upd_other {A} (f : nat -> A) i j a : j <> i -> upd f i a j = f j.
Proof. intro H. unfold upd. apply Nat.eqb_neq in H. now rewrite H. Qed.

(** Sorting keeps the entries and the value of a form. *)
Lemma value_ins e v x : (value (ins_entry e v) x == value (e :: v) x)%Q.
Proof.
  induction v as [|f w IH]; simpl; [reflexivity|].
  destruct (Nat.leb _ _); [reflexivity|].
  destruct e as [a b], f as [a' b']. cbn [value] in *. rewrite IH. ring.
Qed.
Lemma value_sort v x : (value (sort_vec v) x == value v x)%Q.
Proof.
  induction v as [|e w IH]; [reflexivity|].
  cbn [sort_vec]. rewrite value_ins. destruct e as [a b]. cbn [value]. now rewrite IH.
Qed.
Lemma in_ins e f v : In f (ins_entry e v) <-> f = e \/ In f v.
Proof.
  induction v as [|g w IH]; simpl.
  - intuition.
  - destruct (Nat.leb _ _); simpl; [intuition|]. rewrite IH. intuition.
Qed.
Lemma in_sort f v : In f (sort_vec v) <-> In f v.
Proof.
  induction v as [|e w IH]; simpl; [tauto|]. rewrite in_ins, IH. intuition.
Qed.

Section WithOsi.
Variable hash : rowcut -> nat -> nat.
Variable same : rowcut -> rowcut -> bool.
Variable k : kind.
Hypothesis hash_range : forall c n, 0 < n -> hash c n < n.
Hypothesis hsize_pos : forall n, 0 < n -> 0 < k_hsize k n.

(** The array holds the list of cuts. *)
Definition holds (n : nat) (arr : nat -> cell) (l : list scut) : Prop :=
  n = length l /\ forall i c, nth_error l i = Some c -> arr i = CCut c.

(** The table: no entry has a successor; an entry points to a cut whose slot
    it is, and every later cut of that slot, below [n], is the same; the slot
    of every cut below [n] is in use. *)
Definition table_ok (H n : nat) (tab : nat -> link) (l : list scut) : Prop :=
  (forall p, lk_next (tab p) = None) /\
  (forall p j, lk_index (tab p) = Some j ->
     j < n /\ exists d, nth_error l j = Some d /\ hash (sc_cut d) H = p /\
       forall i e, j < i -> i < n -> nth_error l i = Some e ->
         hash (sc_cut e) H = p -> same (sc_cut e) (sc_cut d) = true) /\
  (forall i e, i < n -> nth_error l i = Some e ->
     lk_index (tab (hash (sc_cut e) H)) <> None).

Lemma deref_holds size n arr l i c :
  holds n arr l -> n <= size -> nth_error l i = Some c ->
  deref size arr i = Done c.
Proof.
  intros [E A] L N. unfold deref.
  assert (i < length l) by (apply nth_error_Some; congruence).
  replace (i <? size) with true by (symmetry; apply Nat.ltb_lt; lia).
  now rewrite (A _ _ N).
Qed.

(** The lookup never goes beyond the home slot. *)
Lemma walk_ok H size n m arr tab l c :
  holds m arr l -> m <= size -> n <= m -> table_ok H n tab l -> 0 < H ->
  exists f, walk same (S H) H size arr tab c (hash c H) = Done (f, hash c H) /\
    match f with
    | Some j => lk_index (tab (hash c H)) = Some j /\
        exists d, nth_error l j = Some d /\ same c (sc_cut d) = true
    | None => lk_index (tab (hash c H)) = None \/
        exists j d, lk_index (tab (hash c H)) = Some j /\
          nth_error l j = Some d /\ same c (sc_cut d) = false
    end.
Proof.
  intros A L Lm (T1 & T2 & T3) P. cbn [walk].
  pose proof (hash_range c H P) as R. apply Nat.ltb_lt in R. rewrite R.
  destruct (lk_index (tab (hash c H))) as [j|] eqn:E.
  - destruct (T2 _ _ E) as (Lj & d & D & _).
    rewrite (deref_holds _ _ _ _ _ _ A L D). cbn [bind].
    destruct (same c (sc_cut d)) eqn:S; cbn [negb].
    + exists (Some j). split; [reflexivity|]. eauto.
    + rewrite T1. exists None. split; [reflexivity|]. right. eauto.
  - exists None. split; [reflexivity|]. now left.
Qed.

Lemma place_ok H tab last p i :
  (forall q, lk_next (tab q) = None) ->
  place H tab last p p i =
  Done (upd tab p {| lk_index := Some i; lk_next := None |}, last).
Proof. intro T. unfold place. rewrite T, Nat.eqb_refl. reflexivity. Qed.

(** Storing cut [n] of the list in its slot, or finding it there. *)
Lemma table_place H n tab l c :
  table_ok H n tab l -> nth_error l n = Some c ->
  (lk_index (tab (hash (sc_cut c) H)) = None \/
   exists j d, lk_index (tab (hash (sc_cut c) H)) = Some j /\
     nth_error l j = Some d /\ same (sc_cut c) (sc_cut d) = false) ->
  table_ok H (S n) (upd tab (hash (sc_cut c) H)
    {| lk_index := Some n; lk_next := None |}) l.
Proof.
  intros (T1 & T2 & T3) N _. split; [|split].
  - intro p. unfold upd. destruct (Nat.eqb _ _); [reflexivity|apply T1].
  - intros p j. unfold upd. destruct (Nat.eqb p _) eqn:E.
    + apply Nat.eqb_eq in E. simpl. intro J. apply Some_inj in J. subst j.
      split; [lia|]. exists c. split; [exact N|]. split; [now symmetry|].
      intros; lia.
    + apply Nat.eqb_neq in E. intro J. destruct (T2 _ _ J) as (Lj & d & D & Hd & A).
      split; [lia|]. exists d. split; [exact D|]. split; [exact Hd|].
      intros i e Li Ln Ni Hi. destruct (Nat.eq_dec i n) as [->|Ne].
      * exfalso. apply E. rewrite N in Ni. apply Some_inj in Ni. now subst.
      * apply (A i e); auto; lia.
  - intros i e Li Ni. unfold upd. destruct (Nat.eqb _ _) eqn:E; [discriminate|].
    apply Nat.eqb_neq in E. apply (T3 i e); [|exact Ni].
    destruct (Nat.eq_dec i n) as [->|]; [|lia].
    exfalso. apply E. rewrite N in Ni. apply Some_inj in Ni. now subst.
Qed.
Lemma table_found H n tab l c j d :
  table_ok H n tab l -> nth_error l n = Some c ->
  lk_index (tab (hash (sc_cut c) H)) = Some j -> nth_error l j = Some d ->
  same (sc_cut c) (sc_cut d) = true -> table_ok H (S n) tab l.
Proof.
  intros (T1 & T2 & T3) N J D S. split; [exact T1|split].
  - intros p i I. destruct (T2 _ _ I) as (Li & e & E & He & A).
    split; [lia|]. exists e. split; [exact E|]. split; [exact He|].
    intros i' e' L1 L2 N' H'. destruct (Nat.eq_dec i' n) as [->|].
    + rewrite N in N'. apply Some_inj in N'. subst e'.
      rewrite H' in J. rewrite I in J. apply Some_inj in J. subst i.
      rewrite E in D. apply Some_inj in D. now subst.
    + apply (A i' e'); auto; lia.
  - intros i e Li Ni. destruct (Nat.eq_dec i n) as [->|].
    + rewrite N in Ni. apply Some_inj in Ni. subst e. congruence.
    + apply (T3 i e); auto. lia.
Qed.

Lemma rehash_ok H size arr l last :
  holds (length l) arr l -> length l <= size -> 0 < H ->
  forall m n tab, n + m = length l -> table_ok H n tab l ->
  exists tab', rehash hash same H size arr (tab, last) (seq n m) = Done (tab', last) /\
    table_ok H (length l) tab' l.
Proof.
  intros A L P. induction m as [|m IH]; intros n tab E T.
  - exists tab. split; [reflexivity|]. replace (length l) with n by lia. exact T.
  - cbn [seq rehash].
    destruct (nth_error l n) as [c|] eqn:N;
      [|apply nth_error_None in N; lia].
    assert (R : exists tab1, rehash1 hash same H size arr (tab, last) n = Done (tab1, last) /\
                  table_ok H (S n) tab1 l).
    { unfold rehash1. rewrite (deref_holds _ _ _ _ _ _ A L N). cbn [bind].
      assert (Ln : n <= length l) by lia.
      destruct (walk_ok H size n _ arr tab l (sc_cut c) A L Ln T P) as (f & W & F).
      rewrite W. cbn [bind]. destruct f as [j|].
      - destruct F as (J & d & D & S). exists tab. split; [reflexivity|].
        eapply table_found; eauto.
      - exists (upd tab (hash (sc_cut c) H) {| lk_index := Some n; lk_next := None |}).
        split; [apply place_ok; apply T|]. apply table_place; auto. }
    destruct R as (tab1 & R & T'). rewrite R. cbn [bind].
    apply (IH (S n) tab1); [lia|exact T'].
Qed.

Definition inv (s : hset) (l : list scut) : Prop :=
  hs_n s <= hs_size s /\ holds (hs_n s) (hs_arr s) l /\
  (0 < hs_size s -> table_ok (k_hsize k (hs_size s)) (hs_n s) (hs_tab s) l) /\
  (forall i, hs_n s <= i -> hs_arr s i = CUnset).

Lemma table_empty H l : table_ok H 0 (fun _ => no_link) l.
Proof.
  split; [reflexivity|split].
  - intros p j E. discriminate E.
  - intros i e L. lia.
Qed.
Lemma new_inv n : inv (new_set n) [].
Proof.
  split; [simpl; lia|]. split; [|split].
  - split; [reflexivity|]. intros [|i] c E; discriminate E.
  - intros _. apply table_empty.
  - reflexivity.
Qed.

Lemma grow_ok s l : inv s l ->
  exists s', grow hash same k s = Done s' /\ inv s' l /\ hs_n s' = hs_n s /\
    hs_n s' < hs_size s' /\
    hs_size s' = (if Nat.eqb (hs_n s) (hs_size s) then 2 * hs_size s + 100 else hs_size s).
Proof.
  intros (Ls & A & T & U). unfold grow. destruct (Nat.eqb _ _) eqn:E.
  - apply Nat.eqb_eq in E. set (size := 2 * hs_size s + 100).
    set (arr := fun j => if Nat.ltb j (hs_n s) then hs_arr s j else CUnset).
    assert (B : holds (length l) arr l).
    { destruct A as [A1 A2]. split; [reflexivity|]. intros i c N.
      assert (i < length l) by (apply nth_error_Some; congruence).
      unfold arr. replace (i <? hs_n s) with true by (symmetry; apply Nat.ltb_lt; lia).
      auto. }
    pose proof A as [A1 _].
    destruct (rehash_ok (k_hsize k size) size arr l (if k_reset k then 0 else hs_last s) B)
      with (m := hs_n s) (n := 0) (tab := fun _ : nat => no_link) as (tab' & R & T').
    + unfold size. lia.
    + apply hsize_pos. unfold size. lia.
    + lia.
    + apply table_empty.
    + cbv zeta. fold size. fold arr. rewrite R. cbn [bind].
      eexists. split; [reflexivity|]. cbn [hs_n hs_size hs_arr hs_tab].
      split; [|split; [reflexivity|split; [unfold size; lia|reflexivity]]].
      split; [cbn; unfold size; lia|]. cbn [hs_n hs_size hs_arr hs_tab].
      split; [rewrite A1; exact B|]. split; [rewrite A1; intros _; exact T'|].
      intros i Li. unfold arr.
      replace (i <? hs_n s) with false by (symmetry; apply Nat.ltb_ge; lia). reflexivity.
  - apply Nat.eqb_neq in E. exists s. split; [reflexivity|].
    split; [split; auto|]. split; [reflexivity|]. split; [lia|reflexivity].
Qed.

(** The outcome of one insertion. *)
Lemma table_app H n tab l d : n <= length l ->
  table_ok H n tab l -> table_ok H n tab (l ++ [d]).
Proof.
  intros Ln (T1 & T2 & T3). split; [exact T1|split].
  - intros p j J. destruct (T2 _ _ J) as (Lj & e & E & He & A).
    split; [exact Lj|]. exists e. rewrite nth_error_app1 by lia.
    split; [exact E|]. split; [exact He|]. intros i f L1 L2 Nf.
    rewrite nth_error_app1 in Nf by lia. eauto.
  - intros i e Li Ni. rewrite nth_error_app1 in Ni by lia. eauto.
Qed.

Definition stored (c : rowcut) (row : option nat) : scut :=
  {| sc_cut := sorted_cut c; sc_row := row; sc_eff := 0 |}.

(** [seen s l c]: the slot of [c] points to a cut of [l] that is the same. *)
Definition seen (s : hset) (l : list scut) (c : rowcut) : Prop :=
  exists j d, lk_index (hs_tab s (hash c (k_hsize k (hs_size s)))) = Some j /\
    nth_error l j = Some d /\ same c (sc_cut d) = true.

Lemma add_ok s l c0 row : inv s l ->
  exists g s' z, grow hash same k s = Done g /\ inv g l /\
    hs_size g = (if Nat.eqb (hs_n s) (hs_size s) then 2 * hs_size s + 100 else hs_size s) /\
    add_cut hash same k s c0 row = Done (s', z) /\ hs_size s' = hs_size g /\
    ((z = 1%Z /\ s' = g /\
      (bad_cut k (sorted_cut c0) = true \/
       bad_cut k (sorted_cut c0) = false /\ seen g l (sorted_cut c0))) \/
     (z = 0%Z /\ inv s' (l ++ [stored c0 row]) /\
      bad_cut k (sorted_cut c0) = false /\ ~ seen g l (sorted_cut c0))).
Proof.
  intro I. destruct (grow_ok s l I) as (g & G & Ig & Ng & Lg & Sg).
  exists g. unfold add_cut. rewrite G. cbn [bind].
  apply Nat.ltb_lt in Lg as Lg'. rewrite Lg'.
  set (c := sorted_cut c0). destruct (bad_cut k c) eqn:B.
  - exists g, 1%Z. repeat (split; [solve [auto]|]). left. auto.
  - destruct Ig as (L1 & A & T & U).
    assert (P : 0 < hs_size g) by lia. specialize (T P).
    pose proof (hsize_pos _ P) as PH.
    set (H := k_hsize k (hs_size g)) in *.
    destruct (walk_ok H (hs_size g) (hs_n g) (hs_n g) (hs_arr g) (hs_tab g) l c A L1 (le_n _) T PH)
      as (f & W & F).
    cbv zeta. fold H. rewrite W. cbn [bind]. destruct f as [j|].
    + exists g, 1%Z.
      assert (Ig : inv g l) by (split; [|split; [|split]]; auto).
      repeat (split; [solve [auto]|]). left. split; [reflexivity|]. split; [reflexivity|].
      right. split; [reflexivity|]. destruct F as (J & d & D & S). exists j, d. auto.
    + rewrite place_ok by apply T. cbn [bind].
      eexists _, 0%Z. split; [reflexivity|].
      split; [split; [|split; [|split]]; auto|]. split; [exact Sg|].
      split; [reflexivity|]. split; [reflexivity|]. right.
      split; [reflexivity|]. split; [|split; [reflexivity|]].
      * pose proof A as [A1 A2].
        split; [cbn [hs_n hs_size]; lia|].
        cbn [hs_n hs_size hs_arr hs_tab]. split; [|split].
        -- split; [rewrite app_length; simpl; lia|]. intros i d N.
           destruct (Nat.eq_dec i (hs_n g)) as [->|Ne].
           ++ rewrite upd_same. rewrite A1, nth_error_app2 in N by lia.
              rewrite Nat.sub_diag in N. simpl in N. apply Some_inj in N. now rewrite <- N.
           ++ rewrite upd_other by exact Ne. apply A2.
              assert (i < length (l ++ [stored c0 row])) by (apply nth_error_Some; congruence).
              rewrite app_length in H0. simpl in H0.
              rewrite nth_error_app1 in N by lia. exact N.
        -- intros _. fold H.
           assert (N : nth_error (l ++ [stored c0 row]) (hs_n g) = Some (stored c0 row)).
           { rewrite A1, nth_error_app2, Nat.sub_diag by lia. reflexivity. }
           apply (table_place H (hs_n g) (hs_tab g) _ (stored c0 row)).
           ++ apply table_app; [lia|exact T].
           ++ exact N.
           ++ cbn [sc_cut stored]. fold c. destruct F as [F|(j & d & J & D & S)]; [now left|].
              right. exists j, d. split; [exact J|]. split; [|exact S].
              rewrite nth_error_app1; [exact D|]. apply nth_error_Some. congruence.
        -- intros i Li. rewrite upd_other by lia. apply U. lia.
      * intros (j & d & J & D & S). destruct F as [F|(j' & d' & J' & D' & S')].
        -- fold H in J. rewrite F in J. discriminate J.
        -- fold H in J. rewrite J in J'. apply Some_inj in J'. subst j'.
           rewrite D in D'. apply Some_inj in D'. subst d'. congruence.
Qed.

(** The last cut of the list in a slot. *)
Fixpoint last_in (l : list scut) (H p : nat) : option scut :=
  match l with
  | [] => None
  | d :: r =>
      match last_in r H p with
      | Some e => Some e
      | None => if Nat.eqb (hash (sc_cut d) H) p then Some d else None
      end
  end.
Lemma last_in_some l H p e : last_in l H p = Some e ->
  exists i, nth_error l i = Some e /\ hash (sc_cut e) H = p /\
    forall j d, i < j -> nth_error l j = Some d -> hash (sc_cut d) H <> p.
Proof.
  revert e. induction l as [|d r IH]; intros e E; simpl in E; [discriminate E|].
  destruct (last_in r H p) as [f|] eqn:F.
  - apply Some_inj in E. subst f. destruct (IH _ eq_refl) as (i & N & Hp & A).
    exists (S i). split; [exact N|]. split; [exact Hp|].
    intros [|j] f L Nf; [lia|]. apply (A j f); [lia|exact Nf].
  - destruct (Nat.eqb _ _) eqn:Q; [|discriminate E]. apply Some_inj in E. subst d.
    apply Nat.eqb_eq in Q. exists 0. split; [reflexivity|]. split; [exact Q|].
    intros [|j] f L Nf; [lia|]. simpl in Nf. clear - F Nf.
    revert j Nf. induction r as [|g r IH]; intros j Nf; [destruct j; discriminate Nf|].
    simpl in F. destruct (last_in r H p) eqn:G; [discriminate F|].
    destruct (Nat.eqb _ _) eqn:Q; [discriminate F|]. apply Nat.eqb_neq in Q.
    destruct j as [|j]; [simpl in Nf; apply Some_inj in Nf; now subst|].
    apply (IH eq_refl j Nf).
Qed.
Lemma last_in_none l H p : last_in l H p = None ->
  forall d, In d l -> hash (sc_cut d) H <> p.
Proof.
  induction l as [|d r IH]; intros E x I; [destruct I|].
  simpl in E. destruct (last_in r H p) eqn:F; [discriminate E|].
  destruct (Nat.eqb _ _) eqn:Q; [discriminate E|]. apply Nat.eqb_neq in Q.
  destruct I as [I|I]; [now subst|now apply IH].
Qed.

(** With an equivalence for [same], a lookup compares with the last one. *)
Lemma seen_last s l c :
  (forall a b, same a b = true -> same b a = true) ->
  (forall a b d, same a b = true -> same b d = true -> same a d = true) ->
  inv s l -> 0 < hs_size s ->
  seen s l c <->
  exists d, last_in l (k_hsize k (hs_size s)) (hash c (k_hsize k (hs_size s))) = Some d /\
    same c (sc_cut d) = true.
Proof.
  intros Sy Tr (L1 & [A1 A2] & T & U) P. destruct (T P) as (T1 & T2 & T3).
  set (H := k_hsize k (hs_size s)) in *. split.
  - intros (j & d & J & D & S). fold H in J. destruct (T2 _ _ J) as (Lj & d' & D' & Hd & B).
    rewrite D in D'. apply Some_inj in D'. subst d'.
    destruct (last_in l H (hash c H)) as [e|] eqn:E.
    + exists e. split; [reflexivity|]. destruct (last_in_some _ _ _ _ E) as (i & N & Hp & A).
      destruct (lt_eq_lt_dec j i) as [[L|L]|L].
      * apply (Tr _ (sc_cut d)); [exact S|]. apply Sy. apply (B i e); auto.
        rewrite A1. apply nth_error_Some. congruence.
      * subst i. rewrite D in N. apply Some_inj in N. now subst.
      * exfalso. apply (A j d L D). exact Hd.
    + exfalso. apply (last_in_none _ _ _ E d); [eapply nth_error_In; eauto|exact Hd].
  - intros (d & E & S). destruct (last_in_some _ _ _ _ E) as (i & N & Hp & A).
    assert (Li : i < hs_n s) by (rewrite A1; apply nth_error_Some; congruence).
    pose proof (T3 i d Li N) as Q. rewrite Hp in Q.
    destruct (lk_index (hs_tab s (hash c H))) as [j|] eqn:J; [|contradiction].
    destruct (T2 _ _ J) as (Lj & e & D & Hd & B). exists j, e.
    split; [exact J|]. split; [exact D|].
    destruct (lt_eq_lt_dec j i) as [[L|L]|L].
    + apply (Tr _ (sc_cut d)); [exact S|]. apply (B i d); auto.
    + subst i. rewrite D in N. apply Some_inj in N. now subst.
    + exfalso. apply (A j e L D). exact Hd.
Qed.

End WithOsi.
