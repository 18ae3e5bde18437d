(** * Theorems about the hashed containers of row cuts (C103 - C106) *)
From Verif Require Import Model_RowCutHash Proofs_RowCutHash.
Local Open Scope nat_scope.

(** ** Vocabulary of the statements *)

(** What the two OSI functions are asked for. *)
Definition hash_in_range (hash : rowcut -> nat -> nat) : Prop :=
  forall c n, 0 < n -> hash c n < n.
Definition hash_respects (hash : rowcut -> nat -> nat)
    (same : rowcut -> rowcut -> bool) : Prop :=
  forall a b n, same a b = true -> hash a n = hash b n.
Definition equivalence (same : rowcut -> rowcut -> bool) : Prop :=
  (forall a, same a a = true) /\
  (forall a b, same a b = true -> same b a = true) /\
  (forall a b c, same a b = true -> same b c = true -> same a c = true).

(** The two classes; the multiplier of the second is at least 1. *)
Inductive container : kind -> Prop :=
  | is_probing : container kind_probing
  | is_unique m : 1 <= m -> container (kind_unique m).

(** The cuts seen through numberCuts() and cut(i). *)
Definition contents (s : hset) (l : list scut) : Prop :=
  hs_n s = length l /\
  forall i c, nth_error l i = Some c -> deref (hs_size s) (hs_arr s) i = Done c.

(** The inputs for which 0 was returned, as they are stored. *)
Fixpoint accepted (l : list (rowcut * option nat)) (zs : list Z) : list scut :=
  match l, zs with
  | (c, row) :: l', z :: zs' =>
      (if Z.eqb z 0 then [stored c row] else []) ++ accepted l' zs'
  | _, _ => []
  end.

(** A cut outside the range the classes accept. *)
Definition out_of_range (k : kind) (c : rowcut) : Prop :=
  (exists e, In e (rc_form c) /\
     (Qabs.Qabs (snd e) < 1 # 1000000000000 \/ 1000000000000 # 1 < Qabs.Qabs (snd e))%Q) \/
  k = kind_probing /\
  ((exists b, rc_lb c = Some b /\ - (inject_Z (10 ^ 40)) < b < - (1000000000000 # 1))%Q \/
   (exists b, rc_ub c = Some b /\ (1000000000000 # 1) < b < inject_Z (10 ^ 40)))%Q.

Lemma container_hsize k : container k -> forall n, 0 < n -> 0 < k_hsize k n.
Proof.
  intros [|m M] n P; simpl; [destruct (n <? 1000); lia|]. nia.
Qed.

Lemma bad_range k c : container k ->
  bad_cut k (sorted_cut c) = true <-> out_of_range k c.
Proof.
  intro K. unfold bad_cut, out_of_range. rewrite orb_true_iff, existsb_exists.
  cbn [sorted_cut rc_form rc_lb rc_ub].
  assert (E : (exists x, In x (sort_vec (rc_form c)) /\ bad_elem (snd x) = true) <->
    (exists e, In e (rc_form c) /\
     (Qabs.Qabs (snd e) < 1 # 1000000000000 \/ 1000000000000 # 1 < Qabs.Qabs (snd e))%Q)).
  { split; intros (e & I & B); exists e; (split; [apply in_sort; exact I|]);
      unfold bad_elem in *; rewrite orb_true_iff, !Qltb_lt in *; exact B. }
  rewrite E. apply or_iff_compat_l.
  rewrite andb_true_iff, orb_true_iff.
  assert (Kb : k_bounds k = true <-> k = kind_probing).
  { destruct K; simpl; split; intro X; try reflexivity; discriminate X. }
  rewrite Kb. apply and_iff_compat_l.
  assert (F1 : match rc_lb c with
     | Some l => Qltb l (- (1000000000000 # 1)) && Qltb (- inject_Z (10 ^ 40)) l
     | None => false end = true <->
     (exists b, rc_lb c = Some b /\ - (inject_Z (10 ^ 40)) < b < - (1000000000000 # 1))%Q).
  { destruct (rc_lb c) as [b|].
    - rewrite andb_true_iff, !Qltb_lt. split.
      + intros [A B]. exists b. auto.
      + intros (b' & X & A & B). apply Some_inj in X. subst. auto.
    - split; [intro X; discriminate X|intros (b & X & _); discriminate X]. }
  assert (F2 : match rc_ub c with
     | Some u => Qltb (1000000000000 # 1) u && Qltb u (inject_Z (10 ^ 40))
     | None => false end = true <->
     (exists b, rc_ub c = Some b /\ (1000000000000 # 1) < b < inject_Z (10 ^ 40))%Q).
  { destruct (rc_ub c) as [b|].
    - rewrite andb_true_iff, !Qltb_lt. split.
      + intros [A B]. exists b. auto.
      + intros (b' & X & A & B). apply Some_inj in X. subst. auto.
    - split; [intro X; discriminate X|intros (b & X & _); discriminate X]. }
  rewrite F1, F2. reflexivity.
Qed.

Lemma inv_contents hash same k s l : inv hash same k s l -> contents s l.
Proof.
  intros (L & [A1 A2] & _). split; [exact A1|]. intros i c N.
  eapply deref_holds; [split; [exact A1|exact A2]|lia|exact N].
Qed.
Lemma contents_fun s l l' : contents s l -> contents s l' -> l = l'.
Proof.
  intros [A B] [A' B'].
  apply (nth_ext _ _ (stored {| rc_form := []; rc_lb := None; rc_ub := None |} None)
                     (stored {| rc_form := []; rc_lb := None; rc_ub := None |} None)); [congruence|].
  intros i Li.
  destruct (nth_error l i) as [c|] eqn:N; [|apply nth_error_None in N; lia].
  destruct (nth_error l' i) as [c'|] eqn:N'; [|apply nth_error_None in N'; lia].
  rewrite (nth_error_nth _ _ _ N), (nth_error_nth _ _ _ N').
  pose proof (B _ _ N) as X. rewrite (B' _ _ N') in X. now apply Done_inj in X.
Qed.

(** ** The run of a sequence of insertions *)
Section Runs.
Variable hash : rowcut -> nat -> nat.
Variable same : rowcut -> rowcut -> bool.
Variable k : kind.
Hypothesis K : container k.
Hypothesis R : hash_in_range hash.

Lemma run_ok l : forall s l0, inv hash same k s l0 ->
  exists s' zs, add_all hash same k s l = Done (s', zs) /\
    inv hash same k s' (l0 ++ accepted l zs) /\ length zs = length l /\
    (forall i c row z, nth_error l i = Some (c, row) -> nth_error zs i = Some z ->
      (z = 0%Z /\ ~ out_of_range k c) \/
      (z = 1%Z /\ (out_of_range k c \/
         exists d, In d (l0 ++ accepted (firstn i l) (firstn i zs)) /\
           same (sorted_cut c) (sc_cut d) = true))).
Proof.
  induction l as [|[c row] l IH]; intros s l0 I.
  - exists s, []. cbn [add_all accepted]. rewrite app_nil_r.
    split; [reflexivity|]. split; [exact I|]. split; [reflexivity|].
    intros [|i] c row z E; discriminate E.
  - destruct (add_ok hash same k R (container_hsize k K) s l0 c row I)
      as (g & s1 & z & G & Ig & Sg & A & S1 & C).
    assert (X : exists l1, inv hash same k s1 l1 /\
       l1 = l0 ++ (if Z.eqb z 0 then [stored c row] else []) /\
       ((z = 0%Z /\ ~ out_of_range k c) \/
        (z = 1%Z /\ (out_of_range k c \/
         exists d, In d l0 /\ same (sorted_cut c) (sc_cut d) = true)))).
    { destruct C as [(-> & -> & B)|(-> & I1 & B & Ns)].
      - exists l0. split; [exact Ig|]. split; [simpl; now rewrite app_nil_r|].
        right. split; [reflexivity|]. destruct B as [B|(B & j & d & J & D & S)].
        + left. apply bad_range; assumption.
        + right. exists d. split; [eapply nth_error_In; eauto|exact S].
      - exists (l0 ++ [stored c row]). split; [exact I1|]. split; [reflexivity|].
        left. split; [reflexivity|]. rewrite <- bad_range by exact K. congruence. }
    destruct X as (l1 & I1 & E1 & Z1).
    destruct (IH s1 l1 I1) as (s2 & zs & A2 & I2 & L2 & Q2).
    exists s2, (z :: zs). cbn [add_all]. rewrite A. cbn [bind]. rewrite A2. cbn [bind].
    split; [reflexivity|]. cbn [accepted]. split.
    { rewrite app_assoc, <- E1. exact I2. }
    split; [simpl; congruence|].
    intros [|i] c' row' z' N M.
    + cbn [nth_error] in N, M. apply Some_inj in N, M. injection N as <- <-. subst z'.
      cbn [firstn accepted]. rewrite app_nil_r. exact Z1.
    + cbn [nth_error] in N, M. cbn [firstn accepted].
      rewrite app_assoc, <- E1. apply (Q2 i c' row'); assumption.
Qed.

Lemma run_new size l : exists s zs, add_all hash same k (new_set size) l = Done (s, zs) /\
  inv hash same k s (accepted l zs) /\ length zs = length l /\
    (forall i c row z, nth_error l i = Some (c, row) -> nth_error zs i = Some z ->
      (z = 0%Z /\ ~ out_of_range k c) \/
      (z = 1%Z /\ (out_of_range k c \/
         exists d, In d (accepted (firstn i l) (firstn i zs)) /\
           same (sorted_cut c) (sc_cut d) = true))).
Proof. apply (run_ok l (new_set size) []). apply new_inv. Qed.

Lemma run_inv size l s zs : add_all hash same k (new_set size) l = Done (s, zs) ->
  inv hash same k s (accepted l zs).
Proof.
  intro E. destruct (run_new size l) as (s' & zs' & E' & I & _).
  rewrite E in E'. apply Done_inj in E'. injection E' as <- <-. exact I.
Qed.
End Runs.

(** ** C103: every sequence of insertions succeeds, every accepted cut is kept
    in order and only copies and cuts out of range are refused. *)
Theorem C103_insertions :
  forall hash same k size l, container k -> hash_in_range hash ->
  exists s zs,
    add_all hash same k (new_set size) l = Done (s, zs) /\
    length zs = length l /\
    contents s (accepted l zs) /\
    forall i c row z, nth_error l i = Some (c, row) -> nth_error zs i = Some z ->
      (z = 0%Z /\ ~ out_of_range k c) \/
      (z = 1%Z /\ (out_of_range k c \/
         exists d, In d (accepted (firstn i l) (firstn i zs)) /\
           same (sorted_cut c) (sc_cut d) = true)).
Proof.
  intros hash same k size l K R.
  destruct (run_new hash same k K R size l) as (s & zs & A & I & L & Q).
  exists s, zs. split; [exact A|]. split; [exact L|]. split; [|exact Q].
  eapply inv_contents; exact I.
Qed.
Print Assumptions C103_insertions.

(** The stored cut is the given one with its entries in another order. *)
Theorem C103_stored_equivalent :
  forall c row x, rowcut_sat (sc_cut (stored c row)) x <-> rowcut_sat c x.
Proof.
  intros c row x. unfold rowcut_sat, stored, sorted_cut. cbn.
  pose proof (value_sort (rc_form c) x) as V.
  unfold ge_opt_lo, le_opt_hi. destruct (rc_lb c), (rc_ub c);
    split; intros [A B]; split; try exact Logic.I; lra.
Qed.
Print Assumptions C103_stored_equivalent.

Definition ex_a : rowcut := {| rc_form := [(1, 2%Q); (0, 1%Q)]; rc_lb := None; rc_ub := Some 3%Q |}.
Definition ex_b : rowcut := {| rc_form := [(2, 1%Q)]; rc_lb := Some 0%Q; rc_ub := None |}.
Definition ex_bad : rowcut :=
  {| rc_form := [(0, 1%Q)]; rc_lb := None; rc_ub := Some (inject_Z (10 ^ 13)) |}.
(** A hash value that respects [rowcut_eqb]: the number of entries. *)
Definition ex_hash (c : rowcut) (n : nat) : nat := length (rc_form c) mod n.
Lemma ex_hash_range : hash_in_range ex_hash.
Proof. intros c n P. unfold ex_hash. apply Nat.mod_upper_bound. lia. Qed.
Lemma ex_hash_respects : hash_respects ex_hash rowcut_eqb.
Proof.
  intros a b n E. unfold ex_hash. f_equal. unfold rowcut_eqb in E.
  apply andb_true_iff in E. destruct E as [E _]. apply andb_true_iff in E. destruct E as [E _].
  revert E. generalize (rc_form a) (rc_form b). intro v.
  induction v as [|e v IH]; intros [|f w] E; simpl in E; try discriminate E; [reflexivity|].
  apply andb_true_iff in E. simpl. f_equal. now apply IH.
Qed.
(** Four insertions: a new cut, a copy, a cut out of range, a new cut; with a
    capacity of 0 the second class grows first. *)
Example C103_example :
  (do r <- add_all ex_hash rowcut_eqb (kind_unique 4) (new_set 0)
            [(ex_a, None); (ex_a, None); (ex_b, None)];
   Done (snd r)) = Done [0; 1; 0]%Z /\
  (do r <- add_all ex_hash rowcut_eqb kind_probing (new_set 50)
            [(ex_a, Some 3); (ex_a, None); (ex_bad, None); (ex_b, None)];
   Done (snd r, deref (hs_size (fst r)) (hs_arr (fst r)) 0)) =
  Done ([0; 1; 1; 0]%Z,
        Done {| sc_cut := {| rc_form := [(0, 1%Q); (1, 2%Q)]; rc_lb := None; rc_ub := Some 3%Q |};
                sc_row := Some 3; sc_eff := 0 |}).
Proof. split; vm_compute; reflexivity. Qed.

(** A multiplier of 0 leaves no slot: the first lookup is out of bounds. *)
Theorem C103_multiplier_zero_refuted :
  forall hash same c row size, bad_cut (kind_unique 0) (sorted_cut c) = false ->
  add_cut hash same (kind_unique 0) (new_set size) c row = Undef OutOfBounds.
Proof.
  intros hash same c row size B. unfold add_cut, grow. cbn [hs_n hs_size new_set].
  destruct (Nat.eqb 0 size) eqn:E.
  - cbn [seq rehash bind hs_n hs_size].
    replace (0 <? 2 * size + 100) with true by (symmetry; apply Nat.ltb_lt; lia).
    rewrite B. reflexivity.
  - cbn [bind hs_n hs_size new_set]. apply Nat.eqb_neq in E.
    replace (0 <? size) with true by (symmetry; apply Nat.ltb_lt; lia).
    rewrite B. reflexivity.
Qed.
Print Assumptions C103_multiplier_zero_refuted.

(** ** C104: which copies are recognised *)

(** A slot keeps only the last cut stored in it.  A cut is refused exactly when
    it is out of range or the same as the last stored cut of its slot, in a
    table of the size it has after growing. *)
Theorem C104_refused_exactly :
  forall hash same k size l s zs c row, container k -> hash_in_range hash ->
  equivalence same ->
  add_all hash same k (new_set size) l = Done (s, zs) ->
  exists s' z, add_cut hash same k s c row = Done (s', z) /\
    let cap := if Nat.eqb (hs_n s) (hs_size s) then 2 * hs_size s + 100 else hs_size s in
    let H := k_hsize k cap in
    (z = 0%Z \/ z = 1%Z) /\
    (z = 1%Z <->
     out_of_range k c \/
     exists d, last_in hash (accepted l zs) H (hash (sorted_cut c) H) = Some d /\
       same (sorted_cut c) (sc_cut d) = true).
Proof.
  intros hash same k size l s zs c row K R (Rf & Sy & Tr) A.
  pose proof (run_inv hash same k K R size l s zs A) as I.
  destruct (add_ok hash same k R (container_hsize k K) s _ c row I)
    as (g & s' & z & G & Ig & Sg & A' & S' & C).
  exists s', z. split; [exact A'|]. cbv zeta. rewrite <- Sg.
  assert (P : 0 < hs_size g).
  { rewrite Sg. destruct (Nat.eqb _ _) eqn:E; [lia|]. apply Nat.eqb_neq in E.
    destruct I as (L & _). lia. }
  rewrite <- (seen_last hash same k g _ (sorted_cut c) Sy Tr Ig P).
  rewrite <- bad_range by exact K.
  destruct C as [(-> & -> & B)|(-> & I1 & B & Ns)].
  - split; [now right|]. split; [intros _|reflexivity].
    destruct B as [B|[_ B]]; auto.
  - split; [now left|]. split; [intro X; discriminate X|].
    intros [X|X]; [congruence|contradiction].
Qed.
Print Assumptions C104_refused_exactly.

(** So a cut given twice in a row is refused the second time. *)
Theorem C104_repeated :
  forall hash same k size l c row row', container k -> hash_in_range hash ->
  equivalence same ->
  exists s zs z,
    add_all hash same k (new_set size) (l ++ [(c, row); (c, row')]) = Done (s, zs ++ [z; 1%Z]).
Proof.
  intros hash same k size l c row row' K R Eq.
  destruct (run_new hash same k K R size l) as (s & zs & A & I & L & _).
  assert (Aapp : forall l1 l2 s0, add_all hash same k s0 (l1 ++ l2) =
    (do a <- add_all hash same k s0 l1;
     let '(s1, z1) := a in
     do b <- add_all hash same k s1 l2;
     let '(s2, z2) := b in Done (s2, z1 ++ z2))).
  { intros l1 l2. induction l1 as [|[c1 r1] l1 IH]; intro s0.
    - cbn [add_all bind app]. destruct (add_all hash same k s0 l2) as [[s2 z2]| | | |]; reflexivity.
    - cbn [app add_all]. destruct (add_cut hash same k s0 c1 r1) as [[s1 z]| | | |]; try reflexivity.
      cbn [bind]. rewrite IH.
      destruct (add_all hash same k s1 l1) as [[s2 z2]| | | |]; try reflexivity.
      cbn [bind]. destruct (add_all hash same k s2 l2) as [[s3 z3]| | | |]; reflexivity. }
  rewrite Aapp, A. cbn [bind].
  destruct (add_ok hash same k R (container_hsize k K) s _ c row I)
    as (g & s1 & z & G & Ig & Sg & A1 & S1 & C).
  cbn [add_all]. rewrite A1. cbn [bind].
  assert (Two : exists s2, add_cut hash same k s1 c row' = Done (s2, 1%Z)).
  { assert (X : exists l1, inv hash same k s1 l1 /\
      (bad_cut k (sorted_cut c) = true \/ seen hash same k s1 l1 (sorted_cut c) /\ hs_n s1 <> hs_size s1 \/
       exists l0, l1 = l0 ++ [stored c row])).
    { destruct C as [(-> & -> & B)|(-> & I1 & B & Ns)].
      - exists (accepted l zs). split; [exact Ig|]. destruct B as [B|[_ B]]; [now left|].
        right. left. split; [exact B|].
        destruct (grow_ok hash same k R (container_hsize k K) s _ I) as (g' & G' & _ & _ & Lg & _).
        rewrite G in G'. apply Done_inj in G'. subst g'. lia.
      - exists (accepted l zs ++ [stored c row]). split; [exact I1|]. right. right. eauto. }
    destruct X as (l1 & I1 & X).
    destruct (add_ok hash same k R (container_hsize k K) s1 _ c row' I1)
      as (g1 & s2 & z2 & G1 & Ig1 & Sg1 & A2 & S2 & C2).
    exists s2. rewrite A2. destruct C2 as [(-> & _)|(-> & I2 & B2 & Ns2)]; [reflexivity|exfalso].
    destruct X as [X|[[X Ne]|(l0 & ->)]].
    - congruence.
    - apply Ns2. apply Nat.eqb_neq in Ne.
      unfold grow in G1. rewrite Ne in G1. apply Done_inj in G1. now subst g1.
    - apply Ns2. destruct Eq as (Rf & Sy & Tr).
      assert (P : 0 < hs_size g1).
      { rewrite Sg1. destruct (Nat.eqb (hs_n s1) (hs_size s1)) eqn:E; [clear; lia|].
        apply Nat.eqb_neq in E. destruct I1 as (Lx & _). clear - Lx E. lia. }
      apply (seen_last hash same k g1 _ (sorted_cut c) Sy Tr Ig1 P).
      exists (stored c row). split; [|apply Rf].
      set (H := k_hsize k (hs_size g1)). clear. induction l0 as [|e l0 IH]; simpl.
      + now rewrite Nat.eqb_refl.
      + now rewrite IH. }
  destruct Two as (s2 & Two). rewrite Two. cbn [bind].
  exists s2, zs, z. reflexivity.
Qed.
Print Assumptions C104_repeated.

(** When no two different cuts of the sequence ever share a slot, no two stored
    cuts are the same. *)
Theorem C104_distinct_without_collisions :
  forall hash same k size l s zs, container k -> hash_in_range hash ->
  hash_respects hash same ->
  (forall a b ra rb n, In (a, ra) l -> In (b, rb) l ->
     hash (sorted_cut a) n = hash (sorted_cut b) n ->
     same (sorted_cut a) (sorted_cut b) = true) ->
  add_all hash same k (new_set size) l = Done (s, zs) ->
  forall i j c d, i < j -> nth_error (accepted l zs) i = Some c ->
    nth_error (accepted l zs) j = Some d -> same (sc_cut d) (sc_cut c) = false.
Proof.
  intros hash same k size l s zs K R Rs Nc A.
  assert (Gen : forall l1 s0 l0 s1 zs1, inv hash same k s0 l0 ->
    (forall a ra, In (a, ra) l1 -> In (a, ra) l) ->
    (forall d, In d l0 -> exists a ra, In (a, ra) l /\ sc_cut d = sorted_cut a) ->
    (forall i j c d, i < j -> nth_error l0 i = Some c -> nth_error l0 j = Some d ->
       same (sc_cut d) (sc_cut c) = false) ->
    add_all hash same k s0 l1 = Done (s1, zs1) ->
    forall i j c d, i < j -> nth_error (l0 ++ accepted l1 zs1) i = Some c ->
    nth_error (l0 ++ accepted l1 zs1) j = Some d -> same (sc_cut d) (sc_cut c) = false).
  { induction l1 as [|[c row] l1 IH]; intros s0 l0 s1 zs1 I Sub From Dis E.
    - cbn [add_all] in E. apply Done_inj in E. injection E as _ <-.
      cbn [accepted]. rewrite app_nil_r. exact Dis.
    - destruct (add_ok hash same k R (container_hsize k K) s0 l0 c row I)
        as (g & s2 & z & G & Ig & Sg & A2 & S2 & C).
      cbn [add_all] in E. rewrite A2 in E. cbn [bind] in E.
      apply bind_done in E. destruct E as ([s3 zs3] & E & E').
      apply Done_inj in E'. injection E' as <- <-.
      cbn [accepted]. rewrite app_assoc.
      assert (Ic : In (c, row) l) by (apply Sub; now left).
      apply (IH s2 (l0 ++ (if Z.eqb z 0 then [stored c row] else [])) s3 zs3).
      + destruct C as [(-> & -> & _)|(-> & I1 & _)]; simpl; [rewrite app_nil_r; exact Ig|exact I1].
      + intros a ra Ia. apply Sub. now right.
      + intros d Id. apply in_app_or in Id. destruct Id as [Id|Id]; [auto|].
        destruct (Z.eqb z 0); [|destruct Id]. destruct Id as [<-|[]].
        exists c, row. split; [exact Ic|reflexivity].
      + destruct C as [(-> & -> & _)|(-> & I1 & B & Ns)]; simpl.
        * rewrite app_nil_r. exact Dis.
        * intros i j c' d' Lij Ni Nj.
          assert (j < length (l0 ++ [stored c row])) by (apply nth_error_Some; congruence).
          rewrite app_length in H. simpl in H.
          rewrite nth_error_app1 in Ni by lia.
          destruct (Nat.eq_dec j (length l0)) as [->|Ne].
          -- rewrite nth_error_app2, Nat.sub_diag in Nj by lia. simpl in Nj.
             apply Some_inj in Nj. subst d'. cbn [stored sc_cut].
             destruct (same (sorted_cut c) (sc_cut c')) eqn:S; [exfalso|reflexivity].
             apply Ns. destruct Ig as (Lg & [A1' A2'] & T & U).
             assert (P : 0 < hs_size g).
             { assert (i < length l0) by lia. lia. }
             destruct (T P) as (T1 & T2 & T3).
             assert (Li : i < hs_n g) by (rewrite A1'; apply nth_error_Some; congruence).
             pose proof (T3 i c' Li Ni) as Q.
             rewrite <- (Rs _ _ (k_hsize k (hs_size g)) S) in Q.
             destruct (lk_index _) as [j|] eqn:J; [|contradiction].
             destruct (T2 _ _ J) as (Lj & e & D & He & _).
             exists j, e. split; [exact J|]. split; [exact D|].
             destruct (From e) as (a & ra & Ia & Ea); [eapply nth_error_In; eauto|].
             rewrite Ea in *. eapply (Nc c a); eauto.
          -- rewrite nth_error_app1 in Nj by lia. apply (Dis i j); auto.
      + exact E. }
  apply (Gen l (new_set size) [] s zs); auto.
  - apply new_inv.
  - intros d [].
  - intros [|i] j c d _ E; discriminate E.
Qed.
Print Assumptions C104_distinct_without_collisions.

(** The classes do not keep the cuts unique, though the chains of the table are
    there for it: the branch that takes a slot for empty is also taken when the
    slot is in use by one cut, and overwrites it.  With two different cuts in
    one slot the first is stored again, as often as they alternate. *)
Definition ex_c : rowcut := {| rc_form := [(5, 1%Q)]; rc_lb := Some 2%Q; rc_ub := None |}.
Theorem C104_unique_refuted :
  exists hash same, hash_in_range hash /\ hash_respects hash same /\ equivalence same /\
  forall k, k = kind_probing \/ k = kind_unique 4 ->
  exists s, add_all hash same k (new_set 50)
    [(ex_b, None); (ex_c, None); (ex_b, None); (ex_c, None)] = Done (s, [0; 0; 0; 0]%Z) /\
    same (sorted_cut ex_b) (sorted_cut ex_b) = true /\
    same (sorted_cut ex_b) (sorted_cut ex_c) = false.
Proof.
  exists ex_hash, rowcut_eqb. split; [exact ex_hash_range|]. split; [exact ex_hash_respects|].
  split.
  { assert (Eopt : forall a b, optq_eqb a b = true <-> match a, b with
        | Some p, Some q => (p == q)%Q | None, None => True | _, _ => False end).
    { intros [p|] [q|]; simpl; [apply Qeq_bool_iff| | |]; split; intro X; try exact Logic.I;
        try reflexivity; try discriminate X; contradiction. }
    assert (Ev : forall v w, vec_eqb v w = true <->
        Forall2 (fun p q : nat * Q => fst p = fst q /\ (snd p == snd q)%Q) v w).
    { induction v as [|p v IH]; intros [|q w]; simpl.
      - split; [constructor|reflexivity].
      - split; intro X; [discriminate X|inversion X].
      - split; intro X; [discriminate X|inversion X].
      - rewrite andb_true_iff, IH. unfold entry_eqb.
        rewrite andb_true_iff, Nat.eqb_eq, Qeq_bool_iff. split.
        + intros [A B]. constructor; assumption.
        + intro X. inversion X; subst. auto. }
    assert (E3 : forall a b, rowcut_eqb a b = true <->
      vec_eqb (rc_form a) (rc_form b) = true /\ optq_eqb (rc_lb a) (rc_lb b) = true /\
      optq_eqb (rc_ub a) (rc_ub b) = true).
    { intros a b. unfold rowcut_eqb. rewrite !andb_true_iff. tauto. }
    split; [|split].
    - intro a. rewrite E3, Ev, !Eopt. split; [|split].
      + induction (rc_form a); constructor; auto. split; reflexivity.
      + destruct (rc_lb a); [reflexivity|exact Logic.I].
      + destruct (rc_ub a); [reflexivity|exact Logic.I].
    - intros a b. rewrite !E3, !Ev, !Eopt. intros (A & B & C). split; [|split].
      + clear - A. induction A as [|x y v w [H1 H2] A IH]; constructor; auto.
        split; [now symmetry|now rewrite H2].
      + destruct (rc_lb a), (rc_lb b); auto. now symmetry.
      + destruct (rc_ub a), (rc_ub b); auto. now symmetry.
    - intros a b c. rewrite !E3, !Ev, !Eopt. intros (A & B & C) (A' & B' & C').
      split; [|split].
      + clear - A A'. revert A'. generalize (rc_form c) as u.
        induction A as [|x y v w [H1 H2] A IH]; intros u A'; inversion A'; subst; constructor.
        * destruct H3 as [H3 H4]. split; [congruence|now rewrite H2].
        * now apply IH.
      + destruct (rc_lb a), (rc_lb b), (rc_lb c); auto; try contradiction.
        eapply Qeq_trans; eauto.
      + destruct (rc_ub a), (rc_ub b), (rc_ub c); auto; try contradiction.
        eapply Qeq_trans; eauto. }
  intros k [->| ->].
  - destruct (run_new ex_hash rowcut_eqb kind_probing is_probing ex_hash_range 50
       [(ex_b, None); (ex_c, None); (ex_b, None); (ex_c, None)]) as (s & zs & A & _).
    exists s. assert (Z : zs = [0; 0; 0; 0]%Z).
    { assert (Q : (do r <- add_all ex_hash rowcut_eqb kind_probing (new_set 50)
         [(ex_b, None); (ex_c, None); (ex_b, None); (ex_c, None)]; Done (snd r)) =
         Done [0; 0; 0; 0]%Z) by (vm_compute; reflexivity).
      rewrite A in Q. cbn [bind snd] in Q. now apply Done_inj in Q. }
    rewrite Z in A. split; [exact A|]. split; vm_compute; reflexivity.
  - assert (K : container (kind_unique 4)) by (constructor; lia).
    destruct (run_new ex_hash rowcut_eqb (kind_unique 4) K ex_hash_range 50
       [(ex_b, None); (ex_c, None); (ex_b, None); (ex_c, None)]) as (s & zs & A & _).
    exists s. assert (Z : zs = [0; 0; 0; 0]%Z).
    { assert (Q : (do r <- add_all ex_hash rowcut_eqb (kind_unique 4) (new_set 50)
         [(ex_b, None); (ex_c, None); (ex_b, None); (ex_c, None)]; Done (snd r)) =
         Done [0; 0; 0; 0]%Z) by (vm_compute; reflexivity).
      rewrite A in Q. cbn [bind snd] in Q. now apply Done_inj in Q. }
    rewrite Z in A. split; [exact A|]. split; vm_compute; reflexivity.
Qed.
Print Assumptions C104_unique_refuted.

(** ** C105: CglUniqueRowCuts::eraseRowCut after insertions *)

(** What the header promises: the cut goes, and the last one takes its place. *)
Definition without (l : list scut) (i : nat) (l' : list scut) : Prop :=
  length l = S (length l') /\
  forall j, j < length l' ->
    nth_error l' j = if Nat.eqb j i then nth_error l (length l') else nth_error l j.

(** In every state reached by insertions: a sequence number out of range fails
    the assertion; the only cut cannot be removed; removing the last one of
    several never succeeds; removing another one, when it succeeds, gives the
    expected list. *)
Theorem C105_erase :
  forall hash same m size l s zs i, 1 <= m -> hash_in_range hash ->
  add_all hash same (kind_unique m) (new_set size) l = Done (s, zs) ->
  let n := length (accepted l zs) in
  (n <= i -> erase hash (kind_unique m) s i = Aborts) /\
  (n = 1 -> i = 0 -> erase hash (kind_unique m) s i = Aborts) /\
  (1 < n -> i = n - 1 ->
     erase hash (kind_unique m) s i = Undef UseAfterFree \/
     erase hash (kind_unique m) s i = Aborts) /\
  (i < n - 1 ->
     (exists s' l', erase hash (kind_unique m) s i = Done s' /\
        without (accepted l zs) i l' /\ contents s' l') \/
     erase hash (kind_unique m) s i = Aborts \/
     erase hash (kind_unique m) s i = Undef OutOfBounds).
Proof.
  intros hash same m size l s zs i M R A n.
  assert (K : container (kind_unique m)) by (constructor; exact M).
  pose proof (run_inv hash same _ K R size l s zs A) as (L1 & [A1 A2] & T & U).
  change (length (accepted l zs)) with n in A1.
  split; [|split; [|split]].
  - intro L. unfold erase. replace (i <? hs_n s) with false by (symmetry; apply Nat.ltb_ge; lia).
    reflexivity.
  - intros N1 I0. assert (P : 0 < hs_size s) by lia. destruct (T P) as (T1 & T2 & T3).
    subst i. unfold erase. replace (0 <? hs_n s) with true by (symmetry; apply Nat.ltb_lt; lia).
    destruct (nth_error (accepted l zs) 0) as [c|] eqn:N0; [|apply nth_error_None in N0; unfold n in N1; lia].
    cbn [negb]. rewrite (deref_holds (hs_size s) (hs_n s) (hs_arr s) _ _ _ (conj A1 A2) L1 N0).
    cbn [bind]. set (H := k_hsize (kind_unique m) (hs_size s)) in *. cbn [find_index].
    assert (PH : 0 < H) by (apply (container_hsize _ K); exact P).
    pose proof (R (sc_cut c) H PH) as B. apply Nat.ltb_lt in B. rewrite B.
    destruct (lk_index _) as [j|] eqn:J; [|cbn [bind]; reflexivity].
    destruct (negb (j =? 0)); [rewrite T1; reflexivity|].
    cbn [bind shuffle]. rewrite T1. cbn [bind].
    replace (hs_n s - 1) with 0 by lia. reflexivity.
  - intros N1 I0. assert (P : 0 < hs_size s) by lia. destruct (T P) as (T1 & T2 & T3).
    unfold erase. replace (i <? hs_n s) with true by (symmetry; apply Nat.ltb_lt; lia).
    destruct (nth_error (accepted l zs) i) as [c|] eqn:N0;
      [|apply nth_error_None in N0; unfold n in N1, I0; lia].
    cbn [negb]. rewrite (deref_holds (hs_size s) (hs_n s) (hs_arr s) _ _ _ (conj A1 A2) L1 N0).
    cbn [bind]. set (H := k_hsize (kind_unique m) (hs_size s)) in *. cbn [find_index].
    assert (PH : 0 < H) by (apply (container_hsize _ K); exact P).
    pose proof (R (sc_cut c) H PH) as B. apply Nat.ltb_lt in B. rewrite B.
    destruct (lk_index _) as [j|] eqn:J; [|cbn [bind]; now right].
    destruct (negb (j =? i)); [rewrite T1; now right|].
    cbn [bind shuffle]. rewrite T1. cbn [bind].
    replace (hs_n s - 1) with i by lia.
    replace (i =? 0) with false by (symmetry; apply Nat.eqb_neq; lia).
    left. unfold deref. replace (i <? hs_size s) with true by (symmetry; apply Nat.ltb_lt; lia).
    rewrite upd_same. reflexivity.
  - intros Li. assert (P : 0 < hs_size s) by lia. destruct (T P) as (T1 & T2 & T3).
    unfold erase. replace (i <? hs_n s) with true by (symmetry; apply Nat.ltb_lt; lia).
    destruct (nth_error (accepted l zs) i) as [c|] eqn:N0;
      [|apply nth_error_None in N0; unfold n in Li; lia].
    cbn [negb]. rewrite (deref_holds (hs_size s) (hs_n s) (hs_arr s) _ _ _ (conj A1 A2) L1 N0).
    cbn [bind]. set (H := k_hsize (kind_unique m) (hs_size s)) in *. cbn [find_index].
    assert (PH : 0 < H) by (apply (container_hsize _ K); exact P).
    pose proof (R (sc_cut c) H PH) as B. apply Nat.ltb_lt in B. rewrite B.
    destruct (lk_index _) as [j|] eqn:J; [|cbn [bind]; right; now left].
    destruct (negb (j =? i)); [rewrite T1; right; now left|].
    cbn [bind shuffle]. rewrite T1. cbn [bind].
    replace (hs_n s - 1 =? 0) with false by (symmetry; apply Nat.eqb_neq; lia).
    destruct (nth_error (accepted l zs) (hs_n s - 1)) as [d|] eqn:Nd;
      [|apply nth_error_None in Nd; unfold n in *; lia].
    assert (Dd : deref (hs_size s) (upd (hs_arr s) i CFreed) (hs_n s - 1) = Done d).
    { unfold deref. replace (hs_n s - 1 <? hs_size s) with true by (symmetry; apply Nat.ltb_lt; lia).
      rewrite upd_other by lia. now rewrite (A2 _ _ Nd). }
    rewrite Dd. cbn [bind find_last].
    pose proof (R (sc_cut d) H PH) as Bd. apply Nat.ltb_lt in Bd. rewrite Bd.
    destruct (match lk_index _ with Some j1 => _ | None => _ end).
    + cbn [bind]. left.
      exists {| hs_size := hs_size s; hs_n := hs_n s - 1; hs_last := hs_last s;
        hs_arr := upd (upd (upd (hs_arr s) i CFreed) i (upd (hs_arr s) i CFreed (hs_n s - 1)))
                    (hs_n s - 1) CNull;
        hs_tab := upd (hs_tab s) (hash (sc_cut d) H)
          {| lk_index := Some i; lk_next := lk_next (hs_tab s (hash (sc_cut d) H)) |} |}.
      exists (firstn i (accepted l zs) ++ d ::
              firstn (n - 1 - S i) (skipn (S i) (accepted l zs))).
      split; [reflexivity|].
      assert (Ln : length (firstn i (accepted l zs) ++ d ::
              firstn (n - 1 - S i) (skipn (S i) (accepted l zs))) = n - 1).
      { rewrite app_length. cbn [length]. rewrite !firstn_length, skipn_length. fold n. lia. }
      assert (W : without (accepted l zs) i (firstn i (accepted l zs) ++ d ::
              firstn (n - 1 - S i) (skipn (S i) (accepted l zs)))).
      { split; [rewrite Ln; fold n; lia|]. rewrite Ln. intros j' Lj'.
        assert (Lf : length (firstn i (accepted l zs)) = i) by (rewrite firstn_length; fold n; lia).
        assert (Fn : forall (X : list scut) a b, b < a -> nth_error (firstn a X) b = nth_error X b).
        { clear. induction X as [|x X IH]; intros a b Lt; [rewrite firstn_nil; reflexivity|].
          destruct a; [lia|]. destruct b; [reflexivity|]. simpl. apply IH. lia. }
        assert (Sn : forall (X : list scut) a b, nth_error (skipn a X) b = nth_error X (a + b)).
        { clear. induction X as [|x X IH]; intros a b.
          - rewrite skipn_nil. destruct (a + b); destruct b; reflexivity.
          - destruct a; [reflexivity|]. simpl. apply IH. }
        destruct (Nat.eqb j' i) eqn:Ej.
        - apply Nat.eqb_eq in Ej. subst j'. rewrite nth_error_app2 by lia.
          rewrite Lf, Nat.sub_diag. simpl. rewrite A1 in Nd. now symmetry.
        - apply Nat.eqb_neq in Ej. destruct (Nat.lt_ge_cases j' i) as [Lt|Ge].
          + rewrite nth_error_app1 by lia. apply Fn. exact Lt.
          + rewrite nth_error_app2 by lia. rewrite Lf.
            destruct (j' - i) as [|q] eqn:Eq; [lia|]. cbn [nth_error]. rewrite Fn by lia.
            rewrite Sn. f_equal. lia. }
      split; [exact W|]. destruct W as [_ W]. rewrite Ln in W.
      split; [cbn [hs_n]; rewrite Ln; lia|]. cbn [hs_size hs_arr].
      intros j' e Ne.
      assert (Lj' : j' < n - 1) by (rewrite <- Ln; apply nth_error_Some; congruence).
      rewrite (W j' Lj') in Ne. unfold deref.
      replace (j' <? hs_size s) with true by (symmetry; apply Nat.ltb_lt; lia).
      rewrite upd_other by lia. destruct (Nat.eqb j' i) eqn:Ej.
      * apply Nat.eqb_eq in Ej. subst j'. rewrite upd_same, upd_other by lia.
        rewrite A1 in Nd |- *. rewrite Ne in Nd. apply Some_inj in Nd. subst e.
        now rewrite (A2 _ _ Ne).
      * apply Nat.eqb_neq in Ej. rewrite !upd_other by exact Ej. now rewrite (A2 _ _ Ne).
    + rewrite T1. right. now right.
Qed.
Print Assumptions C105_erase.

(** With distinct slots it does succeed. *)
Theorem C105_erase_succeeds :
  forall hash same m size l s zs i, 1 <= m -> hash_in_range hash ->
  add_all hash same (kind_unique m) (new_set size) l = Done (s, zs) ->
  (forall a b, In a (accepted l zs) -> In b (accepted l zs) ->
     hash (sc_cut a) (m * hs_size s) = hash (sc_cut b) (m * hs_size s) -> a = b) ->
  NoDup (accepted l zs) ->
  S i < length (accepted l zs) ->
  exists s' l', erase hash (kind_unique m) s i = Done s' /\
    without (accepted l zs) i l' /\ contents s' l'.
Proof.
  intros hash same m size l s zs i M R A Dis Nd Li.
  destruct (C105_erase hash same m size l s zs i M R A) as (_ & _ & _ & Q).
  assert (K : container (kind_unique m)) by (constructor; exact M).
  pose proof (run_inv hash same _ K R size l s zs A) as (L1 & [A1 A2] & T & U).
  assert (P : 0 < hs_size s) by lia. destruct (T P) as (T1 & T2 & T3).
  assert (S1 : forall j c, nth_error (accepted l zs) j = Some c ->
    lk_index (hs_tab s (hash (sc_cut c) (k_hsize (kind_unique m) (hs_size s)))) = Some j).
  { intros j c N.
    assert (Lj : j < hs_n s) by (rewrite A1; apply nth_error_Some; congruence).
    pose proof (T3 j c Lj N) as X. destruct (lk_index _) as [j'|] eqn:J; [|contradiction].
    destruct (T2 _ _ J) as (Lj' & d & D & Hd & _). f_equal.
    assert (E : d = c) by (apply Dis; [eapply nth_error_In; eauto|eapply nth_error_In; eauto|exact Hd]).
    subst d. apply (proj1 (NoDup_nth_error _) Nd); [rewrite <- A1; exact Lj'|congruence]. }
  destruct Q as [Q|[Q|Q]]; [lia|exact Q|exfalso|exfalso]; revert Q;
    unfold erase; replace (i <? hs_n s) with true by (symmetry; apply Nat.ltb_lt; lia);
    (destruct (nth_error (accepted l zs) i) as [c|] eqn:N0; [|apply nth_error_None in N0; lia]);
    cbn [negb]; rewrite (deref_holds (hs_size s) (hs_n s) (hs_arr s) _ _ _ (conj A1 A2) L1 N0);
    cbn [bind]; pose proof (S1 i c N0) as Si;
    set (H := k_hsize (kind_unique m) (hs_size s)) in *; cbn [find_index];
    assert (PH : 0 < H) by (apply (container_hsize _ K); exact P);
    pose proof (R (sc_cut c) H PH) as B; apply Nat.ltb_lt in B; rewrite B, Si, Nat.eqb_refl;
    cbn [negb bind shuffle]; rewrite T1; cbn [bind];
    replace (hs_n s - 1 =? 0) with false by (symmetry; apply Nat.eqb_neq; lia);
    (destruct (nth_error (accepted l zs) (hs_n s - 1)) as [d|] eqn:Nn;
       [|apply nth_error_None in Nn; lia]);
    assert (Dd : deref (hs_size s) (upd (hs_arr s) i CFreed) (hs_n s - 1) = Done d)
      by (unfold deref; replace (hs_n s - 1 <? hs_size s) with true
            by (symmetry; apply Nat.ltb_lt; lia);
          rewrite upd_other by lia; now rewrite (A2 _ _ Nn));
    rewrite Dd; cbn [bind find_last];
    pose proof (R (sc_cut d) H PH) as Bd; apply Nat.ltb_lt in Bd; rewrite Bd;
    pose proof (S1 _ d Nn) as Sd; fold H in Sd; rewrite Sd, Nat.eqb_refl; cbn [bind];
    intro X; discriminate X.
Qed.
Print Assumptions C105_erase_succeeds.

Definition ex_n (n : nat) : rowcut :=
  {| rc_form := repeat (0, 1%Q) n; rc_lb := None; rc_ub := Some 1%Q |}.
Definition ex_four : list (rowcut * option nat) :=
  [(ex_n 1, None); (ex_n 2, None); (ex_n 3, None); (ex_n 4, None)].
Example C105_example :
  (do r <- add_all ex_hash rowcut_eqb (kind_unique 4) (new_set 10) ex_four;
   do s <- erase ex_hash (kind_unique 4) (fst r) 1;
   do c <- deref (hs_size s) (hs_arr s) 1;
   Done (hs_n s, length (rc_form (sc_cut c)))) = Done (3, 4).
Proof. vm_compute. reflexivity. Qed.

(** Erasing the cut just added is a use after free, erasing the only one fails
    an assertion. *)
Theorem C105_erase_last_refuted :
  (do r <- add_all ex_hash rowcut_eqb (kind_unique 4) (new_set 10) ex_four;
   erase ex_hash (kind_unique 4) (fst r) 3) = Undef UseAfterFree /\
  (do r <- add_all ex_hash rowcut_eqb (kind_unique 4) (new_set 10) [(ex_n 1, None)];
   erase ex_hash (kind_unique 4) (fst r) 0) = Aborts.
Proof. split; vm_compute; reflexivity. Qed.
Print Assumptions C105_erase_last_refuted.

(** The slot of an erased cut still names its old position.  After three
    erasures a new insertion of the second cut reads a null pointer. *)
Theorem C105_insert_after_erase_refuted :
  (do r <- add_all ex_hash rowcut_eqb (kind_unique 4) (new_set 10) ex_four;
   do s1 <- erase ex_hash (kind_unique 4) (fst r) 1;
   do s2 <- erase ex_hash (kind_unique 4) s1 0;
   do s3 <- erase ex_hash (kind_unique 4) s2 0;
   do r' <- add_cut ex_hash rowcut_eqb (kind_unique 4) s3 (ex_n 2) None;
   Done (snd r')) = Undef NullDeref.
Proof. vm_compute. reflexivity. Qed.
Print Assumptions C105_insert_after_erase_refuted.

(** ** C106: copies, and the cuts handed over *)

Lemma copy_cells_full arr : forall m n out,
  (forall i, n <= i < n + m -> exists c, arr i = CCut c) ->
  exists out', copy_cells arr out (seq n m) = Done out' /\
    forall j, out' j = if (n <=? j) && (j <? n + m) then arr j else out j.
Proof.
  induction m as [|m IH]; intros n out A.
  - exists out. split; [reflexivity|]. intro j.
    destruct (n <=? j) eqn:E; [|reflexivity]. apply Nat.leb_le in E.
    replace (j <? n + 0) with false by (symmetry; apply Nat.ltb_ge; lia). reflexivity.
  - cbn [seq copy_cells]. destruct (A n ltac:(lia)) as [c C]. rewrite C. cbn [copy_cell bind].
    destruct (IH (S n) (upd out n (CCut c))) as (out' & E & F); [intros i Li; apply A; lia|].
    exists out'. split; [exact E|]. intro j. rewrite F.
    destruct (Nat.eq_dec j n) as [->|Ne].
    + replace (S n <=? n) with false by (symmetry; apply Nat.leb_gt; lia).
      replace (n <=? n) with true by (symmetry; apply Nat.leb_le; lia).
      replace (n <? n + S m) with true by (symmetry; apply Nat.ltb_lt; lia).
      cbn [andb]. now rewrite upd_same.
    + rewrite upd_other by exact Ne.
      destruct (Nat.leb_spec (S n) j); destruct (Nat.leb_spec n j); try lia;
        [|reflexivity].
      replace (n + S m) with (S n + m) by lia. reflexivity.
Qed.

(** A copy reads every entry of the array.  Unless the array is full this reads
    an entry that was never set; when it is full the copy has the contents. *)
Theorem C106_copy_needs_full_array :
  forall hash same m size l s zs, 1 <= m -> hash_in_range hash ->
  add_all hash same (kind_unique m) (new_set size) l = Done (s, zs) ->
  (hs_n s < hs_size s -> copy_set s = Undef Uninitialised) /\
  (hs_n s = hs_size s -> exists s', copy_set s = Done s' /\ contents s' (accepted l zs) /\
     hs_size s' = hs_size s /\ hs_last s' = hs_last s /\ hs_tab s' = hs_tab s).
Proof.
  intros hash same m size l s zs M R A.
  assert (K : container (kind_unique m)) by (constructor; exact M).
  pose proof (run_inv hash same _ K R size l s zs A) as (L1 & [A1 A2] & T & U).
  assert (F : forall i, i < hs_n s -> exists c, hs_arr s i = CCut c).
  { intros i Li. destruct (nth_error (accepted l zs) i) as [c|] eqn:N;
      [|apply nth_error_None in N; lia]. exists c. auto. }
  split.
  - intro L. unfold copy_set.
    assert (X : forall m' n out, n <= hs_n s -> hs_n s < n + m' ->
      copy_cells (hs_arr s) out (seq n m') = Undef Uninitialised).
    { induction m' as [|m' IH]; intros n out Ln Lm; [lia|]. cbn [seq copy_cells].
      destruct (Nat.eq_dec n (hs_n s)) as [->|Ne].
      - now rewrite U by lia.
      - destruct (F n ltac:(lia)) as [c C]. rewrite C. cbn [copy_cell bind].
        apply IH; lia. }
    rewrite X by lia. reflexivity.
  - intro E. unfold copy_set.
    destruct (copy_cells_full (hs_arr s) (hs_size s) 0 (fun _ => CUnset)) as (out & Eo & Fo).
    { intros i Li. apply F. lia. }
    rewrite Eo. cbn [bind]. eexists. split; [reflexivity|].
    cbn [hs_size hs_last hs_tab]. split; [|auto]. split; [exact A1|].
    cbn [hs_size hs_arr]. intros i c N.
    assert (Li : i < hs_n s) by (rewrite A1; apply nth_error_Some; congruence).
    unfold deref. replace (i <? hs_size s) with true by (symmetry; apply Nat.ltb_lt; lia).
    rewrite Fo. replace (0 <=? i) with true by (symmetry; apply Nat.leb_le; lia).
    replace (i <? 0 + hs_size s) with true by (symmetry; apply Nat.ltb_lt; lia).
    cbn [andb]. now rewrite (A2 _ _ N).
Qed.
Print Assumptions C106_copy_needs_full_array.

(** A new object that has room cannot even be copied empty. *)
Theorem C106_copy_refuted :
  copy_set (new_set 10) = Undef Uninitialised /\
  (do r <- add_all ex_hash rowcut_eqb (kind_unique 4) (new_set 10) ex_four;
   copy_set (fst r)) = Undef Uninitialised.
Proof. split; vm_compute; reflexivity. Qed.
Print Assumptions C106_copy_refuted.
Example C106_copy_example :
  (do r <- add_all ex_hash rowcut_eqb (kind_unique 4) (new_set 4) ex_four;
   do s <- copy_set (fst r);
   do c <- deref (hs_size s) (hs_arr s) 2;
   Done (hs_n s, length (rc_form (sc_cut c)))) = Done (4, 3).
Proof. vm_compute. reflexivity. Qed.

(** addCuts of CglUniqueRowCuts: the collection receives every cut it does not
    have, in order, and the object is empty. *)
Lemma unique_loop_ok size l : forall n arr cs,
  (forall i c, nth_error l i = Some c -> arr (n + i) = CCut c) -> n + length l <= size ->
  exists arr', unique_add_loop size arr cs (seq n (length l)) =
    Done (arr', fold_left (fun r c => insert_new r (sc_cut c)) l cs) /\
    forall j, arr' j = if (n <=? j) && (j <? n + length l) then CNull else arr j.
Proof.
  induction l as [|c l IH]; intros n arr cs A L.
  - exists arr. split; [reflexivity|]. intro j. simpl.
    destruct (n <=? j) eqn:E; [|reflexivity]. apply Nat.leb_le in E.
    replace (j <? n + 0) with false by (symmetry; apply Nat.ltb_ge; lia). reflexivity.
  - cbn [length seq unique_add_loop fold_left].
    pose proof (A 0 c eq_refl) as C. rewrite Nat.add_0_r in C. simpl in L.
    unfold deref at 1. replace (n <? size) with true by (symmetry; apply Nat.ltb_lt; lia).
    rewrite C. cbn [bind].
    destruct (IH (S n) (upd arr n CNull) (insert_new cs (sc_cut c))) as (arr' & E & F).
    { intros i d N. rewrite upd_other by lia. replace (S n + i) with (n + S i) by lia.
      apply A. exact N. }
    { lia. }
    exists arr'. split; [exact E|]. intro j. rewrite F.
    destruct (Nat.eq_dec j n) as [->|Ne].
    + replace (S n <=? n) with false by (symmetry; apply Nat.leb_gt; lia).
      replace (n <=? n) with true by (symmetry; apply Nat.leb_le; lia).
      replace (n <? n + S (length l)) with true by (symmetry; apply Nat.ltb_lt; lia).
      cbn [andb]. now rewrite upd_same.
    + rewrite upd_other by exact Ne.
      destruct (Nat.leb_spec (S n) j); destruct (Nat.leb_spec n j); try lia;
        [|reflexivity].
      replace (n + S (length l)) with (S n + length l) by lia. reflexivity.
Qed.


Lemma fold_insert_new l : forall cs,
  (exists new, fold_left (fun r c => insert_new r (sc_cut c)) l cs = cs ++ new /\
     forall e, In e new -> exists d, In d l /\ e = sc_cut d) /\
  (forall d, In d l -> exists e,
     In e (fold_left (fun r c => insert_new r (sc_cut c)) l cs) /\
     (e = sc_cut d \/ rowcut_eqb (sc_cut d) e = true)).
Proof.
  induction l as [|c l IH]; intro cs.
  - cbn [fold_left]. split; [exists []; rewrite app_nil_r; split; [reflexivity|intros e []]|intros d []].
  - cbn [fold_left]. destruct (IH (insert_new cs (sc_cut c))) as [(new & E & F) G].
    assert (X : exists n0, insert_new cs (sc_cut c) = cs ++ n0 /\
      (forall e, In e n0 -> e = sc_cut c) /\
      exists e, In e (cs ++ n0) /\ (e = sc_cut c \/ rowcut_eqb (sc_cut c) e = true)).
    { unfold insert_new. destruct (existsb _ _) eqn:B.
      - exists []. rewrite app_nil_r. split; [reflexivity|]. split; [intros e []|].
        apply existsb_exists in B. destruct B as (e & I & B). eauto.
      - exists [sc_cut c]. split; [reflexivity|]. split; [intros e [<-|[]]; reflexivity|].
        exists (sc_cut c). split; [apply in_or_app; right; now left|now left]. }
    destruct X as (n0 & E0 & F0 & e0 & I0 & Q0). split.
    + exists (n0 ++ new). rewrite E, E0, app_assoc. split; [reflexivity|].
      intros e I. apply in_app_or in I. destruct I as [I|I].
      * exists c. split; [now left|auto].
      * destruct (F e I) as (d & Id & Ed). exists d. split; [now right|exact Ed].
    + intros d [<-|I].
      * exists e0. split; [|exact Q0]. rewrite E, E0. apply in_or_app. now left.
      * apply G. exact I.
Qed.

(** The addCuts functions leave the table as it is: the first insertion that
    meets a slot in use reads a null pointer. *)
Lemma stale_null hash same k s l arr c row :
  container k -> hash_in_range hash -> inv hash same k s l ->
  (forall j, j < hs_n s -> arr j = CNull) ->
  ~ out_of_range k c ->
  (exists d, In d l /\ hash (sc_cut d) (k_hsize k (hs_size s)) =
                       hash (sorted_cut c) (k_hsize k (hs_size s))) ->
  add_cut hash same k
    {| hs_size := hs_size s; hs_n := 0; hs_last := hs_last s; hs_arr := arr;
       hs_tab := hs_tab s |} c row = Undef NullDeref.
Proof.
  intros K R (L1 & [A1 A2] & T & U) Z B (d & Id & Ed).
  destruct (In_nth_error _ _ Id) as [i N].
  assert (Li : i < hs_n s) by (rewrite A1; apply nth_error_Some; congruence).
  assert (P : 0 < hs_size s) by lia. destruct (T P) as (T1 & T2 & T3).
  unfold add_cut, grow. cbn [hs_n hs_size].
  replace (0 =? hs_size s) with false by (symmetry; apply Nat.eqb_neq; lia).
  cbn [bind hs_n hs_size hs_arr hs_tab hs_last].
  replace (0 <? hs_size s) with true by (symmetry; apply Nat.ltb_lt; lia).
  assert (B' : bad_cut k (sorted_cut c) = false).
  { destruct (bad_cut k (sorted_cut c)) eqn:E; [|reflexivity].
    exfalso. apply B. apply bad_range; assumption. }
  rewrite B'. set (H := k_hsize k (hs_size s)) in *.
  assert (PH : 0 < H) by (apply (container_hsize _ K); exact P).
  cbn [walk]. pose proof (R (sorted_cut c) H PH) as Rg. apply Nat.ltb_lt in Rg. rewrite Rg.
  pose proof (T3 i d Li N) as X. rewrite Ed in X.
  destruct (lk_index _) as [j|] eqn:J; [|contradiction].
  destruct (T2 _ _ J) as (Lj & _).
  unfold deref. replace (j <? hs_size s) with true by (symmetry; apply Nat.ltb_lt; lia).
  rewrite (Z j Lj). reflexivity.
Qed.

Theorem C106_unique_add_cuts :
  forall hash same m size l s zs cs, 1 <= m -> hash_in_range hash ->
  add_all hash same (kind_unique m) (new_set size) l = Done (s, zs) ->
  exists s' new, unique_add_cuts s cs = Done (s', cs ++ new) /\ contents s' [] /\
    (forall e, In e new -> exists d, In d (accepted l zs) /\ e = sc_cut d) /\
    (forall d, In d (accepted l zs) ->
       exists e, In e (cs ++ new) /\ (e = sc_cut d \/ rowcut_eqb (sc_cut d) e = true)).
Proof.
  intros hash same m size l s zs cs M R A.
  assert (K : container (kind_unique m)) by (constructor; exact M).
  pose proof (run_inv hash same _ K R size l s zs A) as (L1 & [A1 A2] & T & U).
  destruct (unique_loop_ok (hs_size s) (accepted l zs) 0 (hs_arr s) cs) as (arr & E & F).
  { intros i c N. apply A2. exact N. } { lia. }
  destruct (fold_insert_new (accepted l zs) cs) as [(new & En & Fn) G].
  unfold unique_add_cuts. rewrite A1, E. cbn [bind]. rewrite En.
  eexists _, new. split; [reflexivity|]. split; [|split; [exact Fn|rewrite <- En; exact G]].
  split; [reflexivity|]. intros [|i] c N; discriminate N.
Qed.
Print Assumptions C106_unique_add_cuts.

Theorem C106_insert_after_add_cuts_refuted :
  forall hash same m size l s zs cs s' cs' c row, 1 <= m -> hash_in_range hash ->
  add_all hash same (kind_unique m) (new_set size) l = Done (s, zs) ->
  unique_add_cuts s cs = Done (s', cs') ->
  ~ out_of_range (kind_unique m) c ->
  (exists d, In d (accepted l zs) /\
     hash (sc_cut d) (m * hs_size s) = hash (sorted_cut c) (m * hs_size s)) ->
  add_cut hash same (kind_unique m) s' c row = Undef NullDeref.
Proof.
  intros hash same m size l s zs cs s' cs' c row M R A Q B X.
  assert (K : container (kind_unique m)) by (constructor; exact M).
  pose proof (run_inv hash same _ K R size l s zs A) as I.
  pose proof I as (L1 & [A1 A2] & T & U).
  destruct (unique_loop_ok (hs_size s) (accepted l zs) 0 (hs_arr s) cs) as (arr & E & F).
  { intros i d N. apply A2. exact N. } { lia. }
  unfold unique_add_cuts in Q. rewrite A1, E in Q. cbn [bind] in Q.
  apply Done_inj in Q. injection Q as <- _.
  apply (stale_null hash same (kind_unique m) s (accepted l zs) arr c row K R I); auto.
  intros j Lj. rewrite F. replace (0 <=? j) with true by (symmetry; apply Nat.leb_le; lia).
  replace (j <? 0 + length (accepted l zs)) with true by (symmetry; apply Nat.ltb_lt; lia).
  reflexivity.
Qed.
Print Assumptions C106_insert_after_add_cuts_refuted.
Example C106_insert_after_add_cuts_example :
  (do r <- add_all ex_hash rowcut_eqb (kind_unique 4) (new_set 10) ex_four;
   do q <- unique_add_cuts (fst r) [];
   Done (length (snd q))) = Done 4 /\
  (do r <- add_all ex_hash rowcut_eqb (kind_unique 4) (new_set 10) ex_four;
   do q <- unique_add_cuts (fst r) [];
   do r' <- add_cut ex_hash rowcut_eqb (kind_unique 4) (fst q) (ex_n 2) None;
   Done (snd r')) = Undef NullDeref.
Proof. split; vm_compute; reflexivity. Qed.

(** ** C107: row_cut::addCuts *)

Lemma insert_all_ok size arr keep : forall is l cs which,
  Forall2 (fun i c => deref size arr i = Done c) is l ->
  (forall w r, which = Some w -> forall c, In c l -> sc_row c = Some r -> r < length w) ->
  exists which', probing_insert size arr keep cs which is =
    Done (cs ++ map sc_cut (filter keep l), which') /\
    (which = None -> which' = None) /\
    (forall w, which = Some w -> exists w', which' = Some w' /\ length w' = length w).
Proof.
  intros is l cs which F. revert cs which. induction F as [|i c is l D F IH]; intros cs which B.
  - exists which. cbn. rewrite app_nil_r. split; [reflexivity|]. split; [auto|].
    intros w E. exists w. auto.
  - cbn [probing_insert]. rewrite D. cbn [bind filter].
    destruct (keep c) eqn:Kc.
    + assert (X : exists w1, note_row which (sc_row c) (length cs) = Done w1 /\
        (which = None -> w1 = None) /\
        (forall w, which = Some w -> exists w', w1 = Some w' /\ length w' = length w)).
      { unfold note_row. destruct which as [w|].
        - destruct (sc_row c) as [r|] eqn:Rw.
          + pose proof (B w r eq_refl c (or_introl eq_refl) Rw) as Lr.
            destruct (nth_error w r) as [[p|]|] eqn:N.
            * eexists. split; [reflexivity|]. split; [auto|]. intros w0 E.
              apply Some_inj in E. subst. eauto.
            * eexists. split; [reflexivity|]. split; [intro E; discriminate E|].
              intros w0 E. apply Some_inj in E. subst w0. eexists. split; [reflexivity|].
              rewrite app_length. cbn [length]. rewrite firstn_length, skipn_length. lia.
            * apply nth_error_None in N. lia.
          + eexists. split; [reflexivity|]. split; [auto|]. intros w0 E. eauto.
        - eexists. split; [reflexivity|]. split; [auto|]. intros w0 E. discriminate E. }
      destruct X as (w1 & E1 & N1 & S1). rewrite E1. cbn [bind].
      destruct (IH (cs ++ [sc_cut c]) w1) as (w2 & E2 & N2 & S2).
      { intros w r E c' I Rw. destruct which as [w0|].
        - destruct (S1 w0 eq_refl) as (w' & E' & Lw). rewrite E in E'. apply Some_inj in E'. subst w'.
          rewrite Lw. apply (B w0 r eq_refl c'); [now right|exact Rw].
        - rewrite (N1 eq_refl) in E. discriminate E. }
      exists w2. rewrite E2. split; [now rewrite <- app_assoc|]. split; [auto|].
      intros w E. destruct (S1 w E) as (w' & E' & Lw). destruct (S2 w' E') as (w'' & E'' & Lw').
      exists w''. split; [exact E''|congruence].
    + destruct (IH cs which) as (w2 & E2 & N2 & S2).
      { intros w r E c' I Rw. apply (B w r E c'); [now right|exact Rw]. }
      exists w2. rewrite E2. auto.
Qed.

Lemma forall2_contents s l : contents s l ->
  Forall2 (fun i c => deref (hs_size s) (hs_arr s) i = Done c) (seq 0 (hs_n s)) l.
Proof.
  intros [A B]. rewrite A.
  assert (G : forall (l' : list scut) n, (forall i c, nth_error l' i = Some c ->
      deref (hs_size s) (hs_arr s) (n + i) = Done c) ->
    Forall2 (fun i c => deref (hs_size s) (hs_arr s) i = Done c) (seq n (length l')) l').
  { induction l' as [|c l' IH]; intros n H; cbn [length seq]; constructor.
    - rewrite <- (Nat.add_0_r n). apply H. reflexivity.
    - apply IH. intros i d N. replace (S n + i) with (n + S i) by lia. apply H. exact N. }
  apply G. exact B.
Qed.
Lemma forall2_rev {A B} (P : A -> B -> Prop) l m : Forall2 P l m -> Forall2 P (rev l) (rev m).
Proof.
  induction 1; simpl; [constructor|]. apply Forall2_app; [assumption|]. constructor; auto.
Qed.
Lemma filter_true {A} (l : list A) : filter (fun _ => true) l = l.
Proof. induction l; simpl; congruence. Qed.
Lemma all_cells_ok size arr is l :
  Forall2 (fun i c => deref size arr i = Done c) is l -> all_cells size arr is = Done l.
Proof.
  induction 1 as [|i c is l D F IH]; [reflexivity|]. cbn [all_cells]. rewrite D. cbn [bind].
  rewrite IH. reflexivity.
Qed.
Lemma accepted_eff l zs d : In d (accepted l zs) -> sc_eff d = 0%Q.
Proof.
  revert zs. induction l as [|[c row] l IH]; intros [|z zs] I; try destruct I.
  cbn [accepted] in I. apply in_app_or in I. destruct I as [I|I]; [|eauto].
  destruct (Z.eqb z 0); [|destruct I]. destruct I as [<-|[]]. reflexivity.
Qed.
Lemma accepted_row l zs d r : In d (accepted l zs) -> sc_row d = Some r ->
  exists c, In (c, Some r) l.
Proof.
  revert zs. induction l as [|[c row] l IH]; intros [|z zs] I E; try destruct I.
  cbn [accepted] in I. apply in_app_or in I. destruct I as [I|I].
  - destruct (Z.eqb z 0); [|destruct I]. destruct I as [<-|[]]. simpl in E. subst row.
    exists c. now left.
  - destruct (IH zs I E) as [c' Ic]. exists c'. now right.
Qed.

(** Rows named by the cuts exist in the array whichRow. *)
Definition rows_fit (l : list (rowcut * option nat)) (which : option (list (option nat))) : Prop :=
  forall w c r, which = Some w -> In (c, Some r) l -> r < length w.

(** Up to [nrows] cuts: all of them are handed over, in the order found or, on
    even passes with fewer than [nrows], in reverse; the object is empty. *)
Theorem C107_few_cuts :
  forall hash same size l s zs nrows cs which pass, hash_in_range hash ->
  add_all hash same kind_probing (new_set size) l = Done (s, zs) ->
  rows_fit l which ->
  length (accepted l zs) <= nrows ->
  exists s' which',
    probing_add_cuts nrows s cs which pass =
      Done (s', cs ++ map sc_cut
        (if (length (accepted l zs) <? nrows) && negb (Z.odd pass)
         then rev (accepted l zs) else accepted l zs), which') /\
    contents s' [].
Proof.
  intros hash same size l s zs nrows cs which pass R A Fit Ln.
  pose proof (run_inv hash same _ is_probing R size l s zs A) as I.
  pose proof (inv_contents _ _ _ _ _ I) as C. pose proof C as [Cn _].
  pose proof (forall2_contents s _ C) as F.
  assert (Fit' : forall w r, which = Some w -> forall c, In c (accepted l zs) ->
     sc_row c = Some r -> r < length w).
  { intros w r E c Ic Er. destruct (accepted_row _ _ _ _ Ic Er) as [c' I']. eapply Fit; eauto. }
  unfold probing_add_cuts. rewrite Cn.
  destruct (length (accepted l zs) <? nrows) eqn:B; cbn [andb].
  - destruct (Z.odd pass); cbn [negb].
    + destruct (insert_all_ok (hs_size s) (hs_arr s) (fun _ => true) _ _ cs which F Fit')
        as (w' & E & _). rewrite Cn in E. rewrite E. cbn [bind]. rewrite filter_true.
      eexists _, w'. split; [reflexivity|]. split; [reflexivity|]. intros [|i] c N; discriminate N.
    + apply forall2_rev in F.
      destruct (insert_all_ok (hs_size s) (hs_arr s) (fun _ => true) _ _ cs which F)
        as (w' & E & _).
      { intros w r E c Ic. apply in_rev in Ic. eauto. }
      rewrite Cn in E. rewrite E. cbn [bind]. rewrite filter_true.
      eexists _, w'. split; [reflexivity|]. split; [reflexivity|]. intros [|i] c N; discriminate N.
  - apply Nat.ltb_ge in B. rewrite Cn in F. rewrite (all_cells_ok _ _ _ _ F). cbn [bind].
    replace (nrows <? length (accepted l zs)) with false by (symmetry; apply Nat.ltb_ge; lia).
    destruct (insert_all_ok (hs_size s) (hs_arr s) (fun c => Qltb (- inject_Z (10 ^ 20)) (sc_eff c))
      _ _ cs which F Fit') as (w' & E & _). rewrite E. cbn [bind].
    replace (filter (fun c => Qltb (- inject_Z (10 ^ 20)) (sc_eff c)) (accepted l zs))
      with (accepted l zs).
    + eexists _, w'. split; [reflexivity|]. split; [reflexivity|]. intros [|i] c N; discriminate N.
    + symmetry. assert (X : forall m, (forall d, In d m -> sc_eff d = 0%Q) ->
        filter (fun c => Qltb (- inject_Z (10 ^ 20)) (sc_eff c)) m = m).
      { induction m as [|d m IH]; intro H; [reflexivity|]. cbn [filter].
        rewrite (H d (or_introl eq_refl)). replace (Qltb _ 0) with true by (symmetry; vm_compute; reflexivity).
        f_equal. apply IH. intros e Ie. apply H. now right. }
      apply X. apply accepted_eff.
Qed.
Print Assumptions C107_few_cuts.

(** The sorted keys when every effectiveness is 0. *)
Definition has_row (c : scut) : bool := match sc_row c with Some _ => true | None => false end.
Lemma sort_q_in a l : In a (sort_q l) <-> In a l.
Proof.
  assert (H : forall b m, In a (ins_q b m) <-> a = b \/ In a m).
  { intros b m. induction m as [|c m IH]; simpl; [intuition|].
    destruct (Qle_bool b c); simpl; [intuition|]. rewrite IH. intuition. }
  induction l as [|b l IH]; simpl; [tauto|]. rewrite H, IH. intuition.
Qed.
Lemma sort_q_length l : length (sort_q l) = length l.
Proof.
  assert (H : forall b m, length (ins_q b m) = S (length m)).
  { intros b m. induction m as [|c m IH]; simpl; [reflexivity|].
    destruct (Qle_bool b c); simpl; congruence. }
  induction l as [|b l IH]; simpl; [reflexivity|]. now rewrite H, IH.
Qed.

(** More than [nrows] cuts without an array whichRow: the header of the branch
    says "just best", but no effectiveness was stored, so every key is 0 and no
    cut is above the threshold.  All cuts are lost. *)
Theorem C107_just_best_refuted :
  forall hash same size l s zs nrows cs pass, hash_in_range hash ->
  add_all hash same kind_probing (new_set size) l = Done (s, zs) ->
  nrows < length (accepted l zs) ->
  exists s', probing_add_cuts nrows s cs None pass = Done (s', cs, None) /\ contents s' [].
Proof.
  intros hash same size l s zs nrows cs pass R A Ln.
  pose proof (run_inv hash same _ is_probing R size l s zs A) as I.
  pose proof (inv_contents _ _ _ _ _ I) as C. pose proof C as [Cn _].
  pose proof (forall2_contents s _ C) as F.
  unfold probing_add_cuts. rewrite Cn in *.
  replace (length (accepted l zs) <? nrows) with false by (symmetry; apply Nat.ltb_ge; lia).
  replace (nrows <? length (accepted l zs)) with true by (symmetry; apply Nat.ltb_lt; lia).
  rewrite (all_cells_ok _ _ _ _ F). cbn [bind].
  set (th := nth nrows _ 0%Q).
  assert (T0 : (th == 0)%Q).
  { assert (In th (sort_q (map (sort_key false) (accepted l zs)))).
    { apply nth_In. rewrite sort_q_length, map_length. exact Ln. }
    apply (proj1 (sort_q_in _ _)) in H. apply in_map_iff in H. destruct H as (d & <- & Id).
    unfold sort_key. rewrite (accepted_eff _ _ _ Id). reflexivity. }
  destruct (insert_all_ok (hs_size s) (hs_arr s) (fun c => Qltb th (sc_eff c)) _ _ cs None F)
    as (w' & E & N & _).
  { intros w r X. discriminate X. }
  rewrite E. cbn [bind]. rewrite (N eq_refl).
  replace (filter (fun c => Qltb th (sc_eff c)) (accepted l zs)) with (@nil scut).
  - cbn [map]. rewrite app_nil_r. eexists. split; [reflexivity|]. split; [reflexivity|].
    intros [|i] c Nn; discriminate Nn.
  - symmetry. assert (X : forall m, (forall d, In d m -> sc_eff d = 0%Q) ->
      filter (fun c => Qltb th (sc_eff c)) m = []).
    { induction m as [|d m IH]; intro H; [reflexivity|]. cbn [filter].
      rewrite (H d (or_introl eq_refl)).
      replace (Qltb th 0) with false by (symmetry; apply Qltb_ge; lra).
      apply IH. intros e Ie. apply H. now right. }
    apply X. apply accepted_eff.
Qed.
Print Assumptions C107_just_best_refuted.
Example C107_example :
  (do r <- add_all ex_hash rowcut_eqb kind_probing (new_set 50) ex_four;
   do q <- probing_add_cuts 9 (fst r) [ex_a] (Some [None; None]) 2;
   Done (map (fun c => length (rc_form c)) (snd (fst q)))) = Done [2; 4; 3; 2; 1] /\
  (do r <- add_all ex_hash rowcut_eqb kind_probing (new_set 50) ex_four;
   do q <- probing_add_cuts 3 (fst r) [ex_a] None 2;
   Done (map (fun c => length (rc_form c)) (snd (fst q)))) = Done [2] /\
  (do r <- add_all ex_hash rowcut_eqb kind_probing (new_set 50) [(ex_a, Some 1); (ex_b, None)];
   do q <- probing_add_cuts 9 (fst r) [ex_n 3] (Some [None; None]) 1;
   Done (snd q)) = Done (Some [None; Some 1]).
Proof. repeat split; vm_compute; reflexivity. Qed.

(** In every case only cuts that were stored are handed over. *)
Theorem C107_only_stored :
  forall hash same size l s zs nrows cs which pass s' cs' which', hash_in_range hash ->
  add_all hash same kind_probing (new_set size) l = Done (s, zs) ->
  rows_fit l which ->
  probing_add_cuts nrows s cs which pass = Done (s', cs', which') ->
  exists new, cs' = cs ++ new /\
    (forall e, In e new -> exists c row, In (c, row) l /\ e = sorted_cut c) /\
    (forall x, (forall c row, In (c, row) l -> rowcut_sat c x) ->
       forall e, In e new -> rowcut_sat e x).
Proof.
  intros hash same size l s zs nrows cs which pass s' cs' which' R A Fit E.
  pose proof (run_inv hash same _ is_probing R size l s zs A) as I.
  pose proof (inv_contents _ _ _ _ _ I) as C. pose proof C as [Cn _].
  pose proof (forall2_contents s _ C) as F.
  assert (Fit' : forall w r, which = Some w -> forall c, In c (accepted l zs) ->
     sc_row c = Some r -> r < length w).
  { intros w r Ew c Ic Er. destruct (accepted_row _ _ _ _ Ic Er) as [c' I']. eapply Fit; eauto. }
  assert (Acc : forall d, In d (accepted l zs) -> exists c row, In (c, row) l /\ sc_cut d = sorted_cut c).
  { clear. revert zs. induction l as [|[c row] l IH]; intros [|z zs] d Id; try destruct Id.
    cbn [accepted] in Id. apply in_app_or in Id. destruct Id as [Id|Id].
    - destruct (Z.eqb z 0); [|destruct Id]. destruct Id as [<-|[]].
      exists c, row. split; [now left|reflexivity].
    - destruct (IH zs d Id) as (c' & row' & I' & E'). exists c', row'. split; [now right|exact E']. }
  assert (Sub : exists m, cs' = cs ++ map sc_cut m /\ forall d, In d m -> In d (accepted l zs)).
  { unfold probing_add_cuts in E. apply bind_done in E. destruct E as ([cs1 w1] & E & E').
    apply Done_inj in E'. injection E' as _ <- _.
    destruct (hs_n s <? nrows).
    - destruct (Z.odd pass).
      + destruct (insert_all_ok _ _ (fun _ => true) _ _ cs which F Fit') as (w' & X & _).
        rewrite X in E. apply Done_inj in E. injection E as <- _.
        eexists. split; [reflexivity|]. intros d Id. now apply filter_In in Id.
      + apply forall2_rev in F.
        destruct (insert_all_ok _ _ (fun _ => true) _ _ cs which F) as (w' & X & _).
        { intros w r Ew c Ic. apply in_rev in Ic. eauto. }
        rewrite X in E. apply Done_inj in E. injection E as <- _.
        eexists. split; [reflexivity|]. intros d Id. apply filter_In in Id.
        destruct Id as [Id _]. now apply in_rev.
    - rewrite (all_cells_ok _ _ _ _ F) in E. cbn [bind] in E.
      match type of E with probing_insert _ _ ?kp _ _ _ = _ =>
        destruct (insert_all_ok _ _ kp _ _ cs which F Fit') as (w' & X & _) end.
      rewrite X in E. apply Done_inj in E. injection E as <- _.
      eexists. split; [reflexivity|]. intros d Id. now apply filter_In in Id. }
  destruct Sub as (m & -> & Sm). exists (map sc_cut m). split; [reflexivity|].
  assert (Y : forall e, In e (map sc_cut m) -> exists c row, In (c, row) l /\ e = sorted_cut c).
  { intros e Ie. apply in_map_iff in Ie. destruct Ie as (d & <- & Id). apply Acc. auto. }
  split; [exact Y|]. intros x H e Ie. destruct (Y e Ie) as (c & row & Ic & ->).
  apply (C103_stored_equivalent c None x). eauto.
Qed.
Print Assumptions C107_only_stored.

(** With an array whichRow it is all or nothing as well: never a choice. *)
Theorem C107_all_or_nothing :
  forall hash same size l s zs nrows cs which pass, hash_in_range hash ->
  add_all hash same kind_probing (new_set size) l = Done (s, zs) ->
  rows_fit l which ->
  nrows < length (accepted l zs) ->
  exists s' which',
    (probing_add_cuts nrows s cs which pass = Done (s', cs, which') \/
     probing_add_cuts nrows s cs which pass =
       Done (s', cs ++ map sc_cut (accepted l zs), which')) /\
    contents s' [].
Proof.
  intros hash same size l s zs nrows cs which pass R A Fit Ln.
  pose proof (run_inv hash same _ is_probing R size l s zs A) as I.
  pose proof (inv_contents _ _ _ _ _ I) as C. pose proof C as [Cn _].
  pose proof (forall2_contents s _ C) as F.
  assert (Fit' : forall w r, which = Some w -> forall c, In c (accepted l zs) ->
     sc_row c = Some r -> r < length w).
  { intros w r Ew c Ic Er. destruct (accepted_row _ _ _ _ Ic Er) as [c' I']. eapply Fit; eauto. }
  unfold probing_add_cuts. rewrite Cn in *.
  replace (length (accepted l zs) <? nrows) with false by (symmetry; apply Nat.ltb_ge; lia).
  replace (nrows <? length (accepted l zs)) with true by (symmetry; apply Nat.ltb_lt; lia).
  rewrite (all_cells_ok _ _ _ _ F). cbn [bind].
  set (th := nth nrows _ 0%Q).
  destruct (insert_all_ok (hs_size s) (hs_arr s) (fun c => Qltb th (sc_eff c)) _ _ cs which F Fit')
    as (w' & E & _).
  rewrite E. cbn [bind].
  assert (X : forall m b, Qltb th 0 = b -> (forall d, In d m -> sc_eff d = 0%Q) ->
      filter (fun c => Qltb th (sc_eff c)) m = if b then m else []).
  { intros m b Eb. induction m as [|d m IH]; intro H; [destruct b; reflexivity|]. cbn [filter].
    rewrite (H d (or_introl eq_refl)), Eb, IH by (intros e Ie; apply H; now right).
    destruct b; reflexivity. }
  destruct (Qltb th 0) eqn:B; rewrite (X _ _ eq_refl (accepted_eff l zs)).
  - eexists _, w'. split; [right; reflexivity|]. split; [reflexivity|].
    intros [|i] c Nn; discriminate Nn.
  - cbn [map]. rewrite app_nil_r. eexists _, w'. split; [left; reflexivity|].
    split; [reflexivity|]. intros [|i] c Nn; discriminate Nn.
Qed.
Print Assumptions C107_all_or_nothing.
