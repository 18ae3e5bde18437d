(** * From the flow cover inequality back to the columns *)

From Verif Require Import Base Model_FlowCover Proofs_FlowCover Proofs_FlowCut.
From Coq Require Import Lia Lqa Qabs Sorting.Permutation.
Local Open Scope Q_scope.

(** x and y of an item at a point *)
Definition xval (it : fitem) (p : point) : Q :=
  if i_bin it then p (i_col it) else match i_vub it with Some k => p k | None => 1 end.
Definition sgn (it : fitem) : Q := if i_pos it then i_coef it else - i_coef it.
Definition yval (it : fitem) (p : point) : Q := sgn it * p (i_col it).
Definition term (p : point) (c : fitem * (Q * Q)) : Q :=
  fst (snd c) * yval (fst c) p + snd (snd c) * xval (fst c) p.

Lemma abs_prod d c v : Qabs c <= d -> Qabs v <= 1 -> Qabs (c * v) <= d.
Proof.
  intros H1 H2. rewrite Qabs_Qmult. pose proof (Qabs_nonneg c). pose proof (Qabs_nonneg v).
  apply Qle_trans with (Qabs c * 1); [|lra].
  rewrite (Qmult_comm (Qabs c) (Qabs v)), (Qmult_comm (Qabs c) 1).
  apply Qmult_le_compat_r; assumption.
Qed.
Lemma Qabs_le_iff x y : Qabs x <= y <-> - y <= x /\ x <= y.
Proof. apply Qabs_Qle_condition. Qed.
Lemma Qabs_eq a b : a == b -> Qabs a == Qabs b.
Proof. intros E. now rewrite E. Qed.
Lemma abs_zero a : a == 0 -> Qabs a <= 0.
Proof. intros E. rewrite E. discriminate. Qed.
Ltac azero t := match goal with |- Qabs ?a + _ <= _ =>
  let H := fresh in assert (H : Qabs a <= 0) by (apply abs_zero; t); lra end.

(** ** Sorting and merging *)
Fixpoint ascv (v : vec) : Prop :=
  match v with [] => True | e :: v' => (forall f, In f v' -> (fst e <= fst f)%nat) /\ ascv v' end.
Lemma insert_idx_perm e v : Permutation (e :: v) (insert_idx e v).
Proof.
  induction v as [|f v IH]; simpl; [auto|].
  destruct (fst e <=? fst f)%nat; [auto|].
  eapply perm_trans; [apply perm_swap|]. now apply perm_skip.
Qed.
Lemma sort_idx_perm v : Permutation v (sort_idx v).
Proof.
  induction v as [|e v IH]; simpl; [auto|].
  eapply perm_trans; [apply perm_skip, IH|]. apply insert_idx_perm.
Qed.
Lemma asc_insert e v : ascv v -> ascv (insert_idx e v).
Proof.
  induction v as [|f v IH]; simpl; intros H.
  - split; [intros ? []|exact Logic.I].
  - destruct (fst e <=? fst f)%nat eqn:E.
    + apply Nat.leb_le in E. split; [|exact H].
      intros g [->|Hg]; [exact E|]. destruct H as [H _]. specialize (H g Hg). lia.
    + apply Nat.leb_gt in E. destruct H as [H1 H2]. split; [|now apply IH].
      intros g Hg. apply (Permutation_in g (Permutation_sym (insert_idx_perm e v))) in Hg.
      destruct Hg as [->|Hg]; [lia|now apply H1].
Qed.
Lemma asc_sort v : ascv (sort_idx v).
Proof. induction v as [|e v IH]; simpl; [exact Logic.I|now apply asc_insert]. Qed.
Lemma value_perm v w p : Permutation v w -> value v p == value w p.
Proof.
  induction 1 as [|[j a] v w H IH|[j a] [k b] v|v w u H1 IH1 H2 IH2]; simpl.
  - reflexivity.
  - rewrite IH; reflexivity.
  - ring.
  - rewrite IH1; exact IH2.
Qed.

Section Merge.
  Variable p : point.
  Variable G : Q -> Prop.
  Variable d : Q.
  Hypothesis d0 : 0 <= d.
  Hypothesis Gplus : forall a b, G a -> G b -> G (a + b).
  Hypothesis Gsmall : forall a, G a -> Qabs a <= fEPS -> Qabs a <= d.

  Definition cnt (j : nat) (v : vec) : nat := count_occ Nat.eq_dec (map fst v) j.
  Definition goodv (v : vec) : Prop :=
    forall e, In e v -> (Qabs (p (fst e)) <= 1 /\ G (snd e)) \/
                        (fEPS <= Qabs (snd e) /\ cnt (fst e) v = 1%nat).

  Lemma goodv_perm v w : Permutation v w -> goodv v -> goodv w.
  Proof.
    intros H Hg e He. specialize (Hg e (Permutation_in e (Permutation_sym H) He)).
    destruct Hg as [Hg|[H1 H2]]; [now left|right; split; [exact H1|]].
    rewrite <- H2. unfold cnt. symmetry. apply Permutation_count_occ. now apply Permutation_map.
  Qed.

  Lemma merge_err : forall v last, ascv (last :: v) -> goodv (last :: v) ->
    Qabs (value (merge last v) p - value (last :: v) p) <=
    d * inject_Z (Z.of_nat (S (length v))).
  Proof.
    induction v as [|e v IH]; intros last A Hg.
    - simpl merge. change (inject_Z (Z.of_nat (S (length (@nil (nat * Q)))))) with 1.
      destruct last as [j q]. cbn [fst snd value].
      destruct (fEPS <=? Qabs q) eqn:T; cbn [value].
      + apply Qabs_le_iff. split; lra.
      + qb. destruct (Hg (j, q) (or_introl eq_refl)) as [[P1 P2]|[P1 _]]; cbn [fst snd] in *.
        * assert (B : Qabs (q * p j) <= d) by (apply abs_prod; [apply Gsmall; [exact P2|lra]|exact P1]).
          apply Qabs_le_iff in B. apply Qabs_le_iff. lra.
        * lra.
    - destruct A as [A1 A2]. cbn [length]. rewrite Nat2Z.inj_succ. unfold Z.succ. rewrite inject_Z_plus.
      change (inject_Z 1) with 1. simpl merge.
      destruct (fst last <? fst e)%nat eqn:T.
      + apply Nat.ltb_lt in T.
        assert (Ge : goodv (e :: v)).
        { intros f Hf. destruct (Hg f (or_intror Hf)) as [P|[P1 P2]]; [now left|right].
          split; [exact P1|]. rewrite <- P2. unfold cnt. simpl map.
          destruct A2 as [A2 _].
          assert (fst last <> fst f).
          { destruct Hf as [->|Hf]; [lia|]. specialize (A2 f Hf). lia. }
          symmetry. apply count_occ_cons_neq. exact H. }
        specialize (IH e A2 Ge). apply Qabs_le_iff in IH.
        set (n := inject_Z (Z.of_nat (S (length v)))) in *.
        rewrite value_app. destruct last as [j q]. cbn [fst snd] in *.
        change (value ((j, q) :: e :: v) p) with (q * p j + value (e :: v) p).
        set (VE := value (e :: v) p) in *.
        destruct (fEPS <=? Qabs q) eqn:T2; cbn [value].
        * apply Qabs_le_iff. lra.
        * qb. destruct (Hg (j, q) (or_introl eq_refl)) as [[P1 P2]|[P1 _]]; cbn [fst snd] in *; [|lra].
          assert (B : Qabs (q * p j) <= d) by (apply abs_prod; [apply Gsmall; [exact P2|lra]|exact P1]).
          apply Qabs_le_iff in B. apply Qabs_le_iff. lra.
      + apply Nat.ltb_ge in T. pose proof (A1 e (or_introl eq_refl)) as T'.
        assert (Eq : fst last = fst e) by lia.
        assert (N2 : forall f, In f (last :: e :: v) -> fst f = fst last -> Qabs (p (fst f)) <= 1 /\ G (snd f)).
        { intros f Hf Ef. destruct (Hg f Hf) as [P|[_ P2]]; [exact P|exfalso].
          unfold cnt in P2. simpl map in P2. rewrite Ef in P2.
          rewrite (count_occ_cons_eq Nat.eq_dec _ eq_refl) in P2.
          rewrite (count_occ_cons_eq Nat.eq_dec (map fst v) (eq_sym Eq)) in P2. discriminate. }
        destruct (N2 last (or_introl eq_refl) eq_refl) as [P1 P2].
        destruct (N2 e (or_intror (or_introl eq_refl)) (eq_sym Eq)) as [_ P3].
        set (l2 := (fst last, snd last + snd e)).
        assert (IH2 : Qabs (value (merge l2 v) p - value (l2 :: v) p) <= d * inject_Z (Z.of_nat (S (length v)))).
        { apply IH.
          - split; [intros f Hf; apply A1; now right|apply A2].
          - intros f [<-|Hf].
            + left. cbn [fst snd]. split; [exact P1|now apply Gplus].
            + destruct (Nat.eq_dec (fst f) (fst last)) as [Ef|Nf].
              * left. apply N2; [now right; right|exact Ef].
              * destruct (Hg f (or_intror (or_intror Hf))) as [P|[Q1 Q2]]; [now left|right].
                split; [exact Q1|]. rewrite <- Q2. unfold cnt, l2. simpl map.
                rewrite !count_occ_cons_neq; try congruence. }
        apply Qabs_le_iff in IH2. cbn [length] in IH2.
        set (n := inject_Z (Z.of_nat (S (length v)))) in *.
        assert (V : value (l2 :: v) p == value (last :: e :: v) p).
        { destruct last as [j q], e as [k b]. unfold l2. cbn [fst snd value] in *. subst k. ring. }
        apply Qabs_le_iff. lra.
  Qed.

  (** ** The entries of the items *)
  Record it_ok (c : fitem * (Q * Q)) : Prop := {
    ok_y : fst (snd c) = 0 \/ fst (snd c) = 1 \/ fst (snd c) = - (1);
    ok_x : G (snd (snd c));
    ok_xv : Qabs (xval (fst c) p) <= 1;
    ok_bin : i_bin (fst c) = true ->
      Qabs (p (i_col (fst c))) <= 1 /\ G (sgn (fst c) * fst (snd c) + snd (snd c));
    ok_cont : i_bin (fst c) = false -> fEPS < Qabs (i_coef (fst c));
    ok_vub : forall k, i_bin (fst c) = false -> i_vub (fst c) = Some k -> Qabs (p k) <= 1 }.

  Lemma nontiny_y q : q = 0 \/ q = 1 \/ q = - (1) -> nontiny q = false -> q == 0.
  Proof. intros [->|[->| ->]]; intros H; [reflexivity|discriminate|discriminate]. Qed.

  Lemma entries_err c : it_ok c ->
    Qabs (value (fst (entries_of c)) p + snd (entries_of c) - term p c) +
      d * inject_Z (Z.of_nat (length (fst (entries_of c)))) <= d * 2.
  Proof.
    intros [Hy Hx Hv Hb Hc Hk]. destruct c as [it [yc xc]]. cbn [fst snd] in *.
    unfold entries_of, term, yval, xval in *. cbn [fst snd] in *.
    fold (sgn it).
    destruct (i_bin it) eqn:B.
    - destruct (Hb eq_refl) as [B1 B2].
      destruct (nontiny yc || nontiny xc) eqn:T; cbn [value length fst snd].
      + change (inject_Z (Z.of_nat 1)) with 1.
        azero ltac:(ring).
      + apply orb_false_iff in T. destruct T as [T1 T2].
        pose proof (nontiny_y yc Hy T1) as Y0.
        assert (Bx : Qabs (xc * p (i_col it)) <= d).
        { apply abs_prod; [|exact B1]. apply Gsmall; [exact Hx|]. unfold nontiny in T2. now qb. }
        change (inject_Z (Z.of_nat 0)) with 0.
        assert (E : Qabs (0 + 0 - (yc * (sgn it * p (i_col it)) + xc * p (i_col it))) <= d).
        { apply Qabs_le_iff in Bx. apply Qabs_le_iff. rewrite Y0. lra. }
        lra.
    - assert (Ex : forall xv, Qabs xv <= 1 -> nontiny xc = false -> Qabs (xc * xv) <= d).
      { intros xv Hxv T. apply abs_prod; [|exact Hxv]. apply Gsmall; [exact Hx|].
        unfold nontiny in T. now qb. }
      destruct (nontiny yc) eqn:Ty.
      + destruct (nontiny xc) eqn:Tx.
        * destruct (i_vub it) as [k|]; cbn [app length value fst snd].
          { change (inject_Z (Z.of_nat 2)) with 2. azero ltac:(ring). }
          { change (inject_Z (Z.of_nat 1)) with 1. azero ltac:(ring). }
        * cbn [app length value fst snd]. change (inject_Z (Z.of_nat 1)) with 1.
          specialize (Ex _ Hv eq_refl). set (xv := match i_vub it with Some k => p k | None => 1 end) in *.
          assert (E : Qabs (sgn it * yc * p (i_col it) + 0 + 0 - (yc * (sgn it * p (i_col it)) + xc * xv)) <= d).
          { apply Qabs_le_iff in Ex. apply Qabs_le_iff. lra. }
          lra.
      + pose proof (nontiny_y yc Hy Ty) as Y0.
        destruct (nontiny xc) eqn:Tx.
        * destruct (i_vub it) as [k|]; cbn [app length value fst snd].
          { change (inject_Z (Z.of_nat 1)) with 1. azero ltac:(rewrite Y0; ring). }
          { change (inject_Z (Z.of_nat 0)) with 0. azero ltac:(rewrite Y0; ring). }
        * cbn [app length value fst snd]. change (inject_Z (Z.of_nat 0)) with 0.
          specialize (Ex _ Hv eq_refl). set (xv := match i_vub it with Some k => p k | None => 1 end) in *.
          assert (E : Qabs (0 + 0 - (yc * (sgn it * p (i_col it)) + xc * xv)) <= d).
          { apply Qabs_le_iff in Ex. apply Qabs_le_iff. rewrite Y0. lra. }
          lra.
  Qed.

  Definition all_entries (cs : list (fitem * (Q * Q))) : vec := concat (map fst (map entries_of cs)).
  Lemma all_entries_err cs : (forall c, In c cs -> it_ok c) ->
    Qabs (value (all_entries cs) p + sumq snd (map entries_of cs) - sumq (term p) cs) +
      d * inject_Z (Z.of_nat (length (all_entries cs))) <= d * 2 * inject_Z (Z.of_nat (length cs)).
  Proof.
    induction cs as [|c cs IH]; intros H.
    - change (all_entries []) with (@nil (nat * Q)). cbn [map sumq length value].
      change (inject_Z (Z.of_nat 0)) with 0. azero ltac:(ring).
    - unfold all_entries. cbn [map concat]. fold (all_entries cs).
      cbn [sumq]. rewrite value_app, app_length, Nat2Z.inj_add, inject_Z_plus.
      cbn [length]. rewrite (Nat2Z.inj_succ (length cs)). unfold Z.succ. rewrite inject_Z_plus.
      change (inject_Z 1) with 1.
      pose proof (entries_err c (H c (or_introl eq_refl))) as E1.
      specialize (IH (fun b Hb => H b (or_intror Hb))).
      set (n := inject_Z (Z.of_nat (length cs))) in *.
      set (n1 := inject_Z (Z.of_nat (length (fst (entries_of c))))) in *.
      set (n2 := inject_Z (Z.of_nat (length (all_entries cs)))) in *.
      set (A := value (fst (entries_of c)) p + snd (entries_of c) - term p c) in *.
      set (B := value (all_entries cs) p + sumq snd (map entries_of cs) - sumq (term p) cs) in *.
      pose proof (Qabs_triangle A B) as T.
      match goal with |- Qabs ?a + _ <= _ =>
        assert (QE : Qabs a == Qabs (A + B)) by (apply Qabs_eq; unfold A, B; ring); lra end.
  Qed.

  (** A non-binary column occurs once. *)
  Lemma all_entries_good cs (bin : nat -> bool) :
    (forall c, In c cs -> it_ok c) -> NoDup (map (fun c => i_col (fst c)) cs) ->
    (forall c, In c cs -> i_bin (fst c) = bin (i_col (fst c))) ->
    (forall c k, In c cs -> i_vub (fst c) = Some k -> bin k = true) ->
    goodv (all_entries cs).
  Proof.
    intros Hok Nd Hb Hv e He.
    (* which item and which entry *)
    unfold all_entries in He. rewrite map_map in He. apply in_concat in He.
    destruct He as (v & Hv1 & Hv2). apply in_map_iff in Hv1. destruct Hv1 as (c & <- & Hc).
    pose proof (Hok c Hc) as [Ky Kx Kv Kb Kc Kk].
    assert (Cnt0 : forall j cs', bin j = false -> (forall c, In c cs' -> In c cs) ->
              ~ In j (map (fun c => i_col (fst c)) cs') -> cnt j (all_entries cs') = 0%nat).
    { intros j cs' Bj Sub Nj. unfold cnt. apply count_occ_not_In.
      intros Hin. apply in_map_iff in Hin. destruct Hin as ((j' & q) & E & Hin). simpl in E. subst j'.
      unfold all_entries in Hin. rewrite map_map in Hin. apply in_concat in Hin.
      destruct Hin as (w & W1 & W2). apply in_map_iff in W1. destruct W1 as (c' & <- & Hc').
      unfold entries_of in W2. cbn [fst] in W2.
      assert (Col : j = i_col (fst c') -> False).
      { intros ->. apply Nj. apply in_map_iff. eauto. }
      destruct (i_bin (fst c')).
      - destruct (nontiny _ || nontiny _); [destruct W2 as [W2|[]]|destruct W2]. inversion W2; subst. auto.
      - apply in_app_or in W2. destruct W2 as [W2|W2].
        + destruct (nontiny _); [destruct W2 as [W2|[]]|destruct W2]. inversion W2; subst. auto.
        + destruct (nontiny _); [|destruct W2]. destruct (i_vub (fst c')) as [k|] eqn:Vk; [destruct W2 as [W2|[]]|destruct W2].
          inversion W2; subst. rewrite (Hv c' j (Sub c' Hc') Vk) in Bj. discriminate. }
    unfold entries_of in Hv2. cbn [fst] in Hv2.
    destruct (i_bin (fst c)) eqn:B.
    - destruct (Kb eq_refl) as [K1 K2].
      destruct (nontiny _ || nontiny _); [destruct Hv2 as [<-|[]]|destruct Hv2]. cbn [fst snd]. left. split; [exact K1|exact K2].
    - apply in_app_or in Hv2. destruct Hv2 as [Hv2|Hv2].
      + destruct (nontiny (fst (snd c))) eqn:Ty; [destruct Hv2 as [<-|[]]|destruct Hv2]. cbn [fst snd]. right. split.
        * specialize (Kc eq_refl).
          assert (S1 : Qabs (sgn (fst c)) == Qabs (i_coef (fst c))).
          { unfold sgn. destruct (i_pos (fst c)); [reflexivity|apply Qabs_opp]. }
          fold (sgn (fst c)). rewrite Qabs_Qmult, S1.
          destruct Ky as [E|[E|E]]; rewrite E in *; [discriminate Ty| |];
            change (Qabs 1) with 1 || change (Qabs (- (1))) with 1; lra.
        * apply in_split in Hc. destruct Hc as (l1 & l2 & ->).
          assert (Bj : bin (i_col (fst c)) = false).
          { rewrite <- B. symmetry. apply Hb. apply in_or_app. right; now left. }
          rewrite map_app in Nd. cbn [map] in Nd.
          pose proof (NoDup_remove_2 _ _ _ Nd) as Nn.
          unfold all_entries, cnt. rewrite !map_app, concat_app. cbn [map concat].
          rewrite !map_app, !count_occ_app.
          fold (all_entries l1). fold (all_entries l2).
          fold (cnt (i_col (fst c)) (all_entries l1)). fold (cnt (i_col (fst c)) (all_entries l2)).
          rewrite (Cnt0 _ l1 Bj), (Cnt0 _ l2 Bj).
          2:{ intros c' Hc'. apply in_or_app. right; now right. }
          2:{ intros Hn. apply Nn. apply in_or_app. now right. }
          2:{ intros c' Hc'. apply in_or_app. now left. }
          2:{ intros Hn. apply Nn. apply in_or_app. now left. }
          unfold entries_of. cbn [fst]. rewrite B, Ty. cbn [app map fst].
          rewrite (count_occ_cons_eq Nat.eq_dec _ eq_refl).
          assert (Z : count_occ Nat.eq_dec (map fst (if nontiny (snd (snd c)) then
                        match i_vub (fst c) with Some k => [(k, snd (snd c))] | None => [] end else [])) (i_col (fst c)) = 0%nat).
          { destruct (nontiny (snd (snd c))); [|reflexivity].
            destruct (i_vub (fst c)) as [k|] eqn:Vk; [|reflexivity]. cbn [map fst].
            rewrite count_occ_cons_neq; [reflexivity|]. intros E.
            assert (Bk : bin k = true) by (apply (Hv c k); [apply in_or_app; right; now left|exact Vk]).
            congruence. }
          rewrite Z. reflexivity.
      + destruct (nontiny (snd (snd c))); [|destruct Hv2].
        destruct (i_vub (fst c)) as [k|] eqn:Vk; [destruct Hv2 as [<-|[]]|destruct Hv2]. cbn [fst snd]. left. split.
        * apply (Kk k eq_refl eq_refl).
        * exact Kx.
  Qed.

  (** The cut differs from the inequality by the dropped terms only. *)
  Lemma form_err cs e v (bin : nat -> bool) :
    (forall c, In c cs -> it_ok c) -> NoDup (map (fun c => i_col (fst c)) cs) ->
    (forall c, In c cs -> i_bin (fst c) = bin (i_col (fst c))) ->
    (forall c k, In c cs -> i_vub (fst c) = Some k -> bin k = true) ->
    sort_idx (all_entries cs) = e :: v ->
    Qabs (value (merge e v) p + sumq snd (map entries_of cs) - sumq (term p) cs) <=
    d * 2 * inject_Z (Z.of_nat (length cs)).
  Proof.
    intros H1 H2 H3 H4 E.
    pose proof (sort_idx_perm (all_entries cs)) as P. pose proof (asc_sort (all_entries cs)) as A.
    rewrite E in P, A.
    pose proof (merge_err v e A (goodv_perm _ _ P (all_entries_good cs bin H1 H2 H3 H4))) as M1.
    pose proof (all_entries_err cs H1) as M2.
    rewrite (Permutation_length P) in M2. cbn [length] in M2.
    rewrite (value_perm _ _ p P) in M2.
    set (A1 := value (merge e v) p - value (e :: v) p) in *.
    set (B1 := value (e :: v) p + sumq snd (map entries_of cs) - sumq (term p) cs) in *.
    pose proof (Qabs_triangle A1 B1) as T.
    match goal with |- Qabs ?a <= _ =>
      assert (QE : Qabs a == Qabs (A1 + B1)) by (apply Qabs_eq; unfold A1, B1; ring); lra end.
  Qed.
End Merge.

(** ** The coefficients stay in a group containing the data *)
Section Group.
  Variable G : Q -> Prop.
  Hypothesis G0 : G 0.
  Hypothesis Gplus : forall a b, G a -> G b -> G (a + b).
  Hypothesis Gopp : forall a, G a -> G (- a).
  Hypothesis Geq : forall a b, a == b -> G a -> G b.

  Lemma Gminus a b : G a -> G b -> G (a - b).
  Proof. intros. apply Gplus; auto. Qed.
  Lemma Gsum {A} (f : A -> Q) l : (forall a, In a l -> G (f a)) -> G (sumq f l).
  Proof. induction l; intros H; cbn [sumq]; [exact G0|apply Gplus; [apply H; now left|apply IHl; intros; apply H; now right]]. Qed.
  Lemma Gonly b q : G q -> G (only b q).
  Proof. destruct b; simpl; auto. Qed.
  Lemma Gnat n q : G q -> G (nq n * q).
  Proof.
    intros H. induction n as [|n IH]; [apply Geq with 0; [unfold nq; simpl; ring|exact G0]|].
    apply Geq with (nq n * q + q); [|auto].
    unfold nq. rewrite Nat2Z.inj_succ. unfold Z.succ. rewrite inject_Z_plus. ring.
  Qed.

  Variable its : list fitem.
  Variable cov : list (fitem * bool).
  Variable lam rhs : Q.
  Hypothesis CK : cover_ok its rhs cov lam.
  Hypothesis Gu : forall c, In c cov -> G (upv (fst c)).
  Hypothesis Gr : G rhs.

  Lemma Glam : G lam.
  Proof.
    destruct CK as [_ _ _ E _]. eapply Geq; [symmetry; exact E|].
    apply Gminus; [apply Gminus; [|exact Gr]|]; apply Gsum; intros c Hc; apply Gonly; auto.
  Qed.
  Lemma Gmt q : In (Some q) (mt cov lam) -> G q.
  Proof.
    unfold mt. intros H. apply in_above in H. destruct H as [H _]. apply (proj1 (in_sort _ _)) in H.
    apply in_map_iff in H. destruct H as (c & E & Hc). apply filter_In in Hc. destruct Hc as [Hc _].
    specialize (Gu c Hc). unfold upv in Gu. rewrite E in Gu. exact Gu.
  Qed.
  Lemma Gprefix : forall l a i q, (forall q, In (Some q) l -> G q) -> (forall q, a = Some q -> G q) ->
    nth i (prefix_sums a l) None = Some q -> G q.
  Proof.
    induction l as [|b l IH]; intros a i q Hl Ha H.
    - destruct i as [|[|i]]; simpl in H; try discriminate. now apply Ha.
    - destruct i as [|i]; simpl in H; [now apply Ha|].
      apply (IH (addo a b) i q); auto.
      + intros q' Hq'. apply Hl. now right.
      + intros q' E. destruct a as [a|], b as [b|]; simpl in E; try discriminate. injection E as <-.
        apply Gplus; [now apply Ha|apply Hl; now left].
  Qed.
  Lemma GM i q : M cov lam i = Some q -> G q.
  Proof.
    unfold M, Ms. apply Gprefix; [exact Gmt|]. intros q' E. injection E as <-. exact G0.
  Qed.
  Lemma Gramp z i : G z -> G (ramp cov lam z i).
  Proof.
    intros Hz. unfold ramp. destruct (M cov lam i) eqn:E; [|exact G0].
    apply Gplus; [apply Gminus; [exact Hz|now apply (GM i)]|apply Gnat, Glam].
  Qed.
  Lemma Gbeta i : G (beta_of cov lam i).
  Proof.
    unfold beta_of. destruct (M cov lam i) eqn:E; [|exact G0].
    apply Gminus; [now apply (GM i)|apply Gnat, Glam].
  Qed.
  Lemma GliftMinus t r z dpp : G z -> G (liftMinus cov lam t r z dpp).
  Proof.
    intros Hz. unfold liftMinus.
    repeat match goal with
    | |- G (if ?b then _ else _) => destruct b
    | |- G (match ?o with Some _ => _ | None => _ end) => destruct o
    end; try (apply Gramp; exact Hz); try (apply Gnat, Glam); exact G0.
  Qed.
  Lemma liftPlus_coefs r it dpp :
    (fst (liftPlus cov lam r it dpp) = 0 \/ fst (liftPlus cov lam r it dpp) = 1) /\
    G (snd (liftPlus cov lam r it dpp)).
  Proof.
    unfold liftPlus, try_plus.
    repeat match goal with
    | |- context [if ?b then _ else _] => destruct b
    | |- context [match ?o with Some _ => _ | None => _ end] => destruct o
    end; cbn [fst snd]; auto using Gbeta.
  Qed.
  Lemma base_y c : ycoef0 lam c = 0 \/ ycoef0 lam c = 1 \/ ycoef0 lam c = - (1).
  Proof. unfold ycoef0. destruct (cplus c); [auto|]. destruct (lminmin lam c); auto. Qed.
  Lemma base_x c : In c cov -> G (xcoef0 lam c).
  Proof.
    intros H. unfold xcoef0. destruct (cpp lam c); [apply Gminus; [apply Glam|auto]|].
    destruct (lmin lam c); [apply Gopp, Glam|exact G0].
  Qed.
  Definition coef_ok (c : fitem * (Q * Q)) : Prop :=
    (fst (snd c) = 0 \/ fst (snd c) = 1 \/ fst (snd c) = - (1)) /\ G (snd (snd c)).
  Lemma lift_ok t r dpp c : In c cov -> coef_ok (fst (lift_item cov lam t r dpp c)).
  Proof.
    intros H. unfold lift_item, coef_ok.
    destruct (nplus c).
    - cbn [fst snd]. destruct (liftPlus_coefs r (fst c) dpp) as [H1 H2]. split; [tauto|now apply Gopp].
    - destruct (cminus c).
      + destruct (fEPS <? _); cbn [fst snd]; split; auto. apply Gopp, GliftMinus. auto.
      + cbn [fst snd]. split; [apply base_y|now apply base_x].
  Qed.
  Lemma coefs_ok cs cr : coefs cov lam rhs = Some (cs, cr) -> forall c, In c cs -> coef_ok c.
  Proof.
    unfold coefs. destruct (_ || _); [discriminate|].
    destruct (fTOL <? _); intros E c Hc; injection E as <- <-.
    - rewrite map_map in Hc. apply in_map_iff in Hc. destruct Hc as (b & <- & Hb). now apply lift_ok.
    - unfold base_coefs in Hc. apply in_map_iff in Hc. destruct Hc as (b & <- & Hb).
      split; cbn [fst snd]; [apply base_y|now apply base_x].
  Qed.
End Group.

Lemma lift_item_fst cov lam t r dpp c : fst (fst (lift_item cov lam t r dpp c)) = fst c.
Proof.
  unfold lift_item. destruct (nplus c); [reflexivity|]. destruct (cminus c); [|reflexivity].
  now destruct (fEPS <? _).
Qed.
Lemma coefs_items cov lam rhs cs cr : coefs cov lam rhs = Some (cs, cr) -> map fst cs = map fst cov.
Proof.
  unfold coefs. destruct (_ || _); [discriminate|].
  destruct (fTOL <? _); intros E; injection E as <- <-.
  - rewrite !map_map. apply map_ext. intros c. apply lift_item_fst.
  - unfold base_coefs. rewrite map_map. apply map_ext. reflexivity.
Qed.
(** The assertion cutLen: an element of C++ has coefficient 1. *)
Lemma coefs_nonempty cov lam rhs cs cr : coefs cov lam rhs = Some (cs, cr) ->
  exists e v, sort_idx (all_entries cs) = e :: v.
Proof.
  intros E.
  assert (H : exists c, In c cs /\ fst (snd c) = 1).
  { unfold coefs in E. destruct (_ || _) eqn:B; [discriminate|].
    apply orb_false_iff in B. destruct B as [_ B]. apply negb_false_iff in B.
    apply existsb_exists in B. destruct B as (c & Hc & Bc).
    assert (Bp : cplus c = true) by (unfold cpp in Bc; apply andb_prop in Bc; tauto).
    assert (Y : ycoef0 lam c = 1) by (unfold ycoef0; now rewrite Bp).
    destruct (fTOL <? _); injection E as <- <-.
    - exists (fst c, (ycoef0 lam c, xcoef0 lam c)). split; [|exact Y].
      rewrite map_map. apply in_map_iff. exists c. split; [|exact Hc].
      unfold lift_item.
      assert (nplus c = false /\ cminus c = false) as [-> ->]; [|reflexivity].
      unfold cplus in Bp. unfold nplus, cminus. apply andb_prop in Bp. destruct Bp as [-> ->]. auto.
    - exists (fst c, (ycoef0 lam c, xcoef0 lam c)). split; [|exact Y].
      unfold base_coefs. apply in_map_iff. exists c. auto. }
  destruct H as (c & Hc & Hy).
  assert (NE : fst (entries_of c) <> []).
  { unfold entries_of. rewrite Hy. change (nontiny 1) with true. cbn [orb].
    destruct (i_bin (fst c)); cbn [fst app]; discriminate. }
  destruct (sort_idx (all_entries cs)) as [|e v] eqn:S1; [|eauto].
  pose proof (sort_idx_perm (all_entries cs)) as P. rewrite S1 in P. apply Permutation_sym, Permutation_nil in P.
  exfalso. destruct (fst (entries_of c)) as [|e v] eqn:F; [now apply NE|].
  assert (I1 : In e (all_entries cs)).
  { unfold all_entries. apply in_concat. exists (fst (entries_of c)). split; [|rewrite F; now left].
    apply in_map, in_map, Hc. }
  rewrite P in I1. destruct I1.
Qed.
