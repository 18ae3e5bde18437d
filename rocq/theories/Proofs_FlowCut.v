(** * The lifted flow cover inequality holds at every point *)

From Verif Require Import Base Model_FlowCover Proofs_FlowLift Proofs_FlowCover.
From Coq Require Import Lia Lqa Qabs.
Local Open Scope Q_scope.

(** ** The sorted list of values *)
Definition gtl (lam : Q) (o : option Q) : bool := match o with Some u => lam <? u | None => true end.

Lemma sumq_insert h a l : sumq h (insert_desc a l) == h a + sumq h l.
Proof.
  induction l as [|b l IH]; simpl; [reflexivity|].
  destruct (ge_o a b); simpl; [reflexivity|]. rewrite IH; ring.
Qed.
Lemma sumq_sort h l : sumq h (sort_desc l) == sumq h l.
Proof.
  induction l as [|a l IH]; simpl; [reflexivity|].
  rewrite sumq_insert, IH; reflexivity.
Qed.
Lemma in_insert a l b : In b (insert_desc a l) <-> a = b \/ In b l.
Proof.
  induction l as [|c l IH]; simpl; [tauto|].
  destruct (ge_o a c); simpl; [tauto|]. rewrite IH; tauto.
Qed.
Lemma in_sort l b : In b (sort_desc l) <-> In b l.
Proof. induction l as [|a l IH]; simpl; [tauto|]. rewrite in_insert, IH; tauto. Qed.
Lemma ge_o_total a b : ge_o a b = false -> ge_o b a = true.
Proof. destruct a as [p|], b as [q|]; simpl; intros H; auto; try discriminate.
  apply Qleb_le. apply Qleb_gt in H. lra. Qed.
Lemma ge_o_trans a b c : ge_o a b = true -> ge_o b c = true -> ge_o a c = true.
Proof.
  destruct a as [p|], b as [q|], c as [u|]; simpl; intros H1 H2; auto; try discriminate.
  apply Qleb_le in H1, H2. apply Qleb_le. lra.
Qed.
Fixpoint desc (l : list (option Q)) : Prop :=
  match l with
  | [] => True
  | a :: l' => (forall b, In b l' -> ge_o a b = true) /\ desc l'
  end.
Lemma desc_insert a l : desc l -> desc (insert_desc a l).
Proof.
  induction l as [|b l IH]; intros H; simpl.
  - split; [intros ? []|exact Logic.I].
  - destruct (ge_o a b) eqn:E.
    + split; [|exact H]. intros c [->|Hc]; [exact E|].
      eapply ge_o_trans; [exact E|]. now apply H.
    + destruct H as [H1 H2]. split; [|now apply IH].
      intros c Hc. apply in_insert in Hc. destruct Hc as [->|Hc]; [now apply ge_o_total|now apply H1].
Qed.
Lemma desc_sort l : desc (sort_desc l).
Proof. induction l as [|a l IH]; simpl; [exact Logic.I|now apply desc_insert]. Qed.
Lemma in_above lam l b : In b (above lam l) -> In b l /\ gtl lam b = true.
Proof.
  induction l as [|a l IH]; simpl; [tauto|].
  destruct (match a with Some u => lam <? u | None => true end) eqn:E; [|intros []].
  intros [->|H]; [split; auto|]. destruct (IH H); auto.
Qed.
Lemma desc_above lam l : desc l -> desc (above lam l).
Proof.
  induction l as [|a l IH]; simpl; [auto|]. intros [H1 H2].
  destruct (match a with Some u => lam <? u | None => true end); [|exact Logic.I].
  split; [|now apply IH]. intros b Hb. apply H1. now apply in_above in Hb.
Qed.
Lemma gtl_mono lam a b : ge_o a b = true -> gtl lam a = false -> gtl lam b = false.
Proof.
  destruct a as [p|], b as [q|]; simpl; intros H1 H2; try discriminate; auto.
  apply Qleb_le in H1. apply Qltb_ge in H2. apply Qltb_ge. lra.
Qed.
Lemma sumq_above lam h l :
  desc l -> (forall o, gtl lam o = false -> h o == 0) -> sumq h (above lam l) == sumq h l.
Proof.
  intros D Hh. induction l as [|a l IH]; simpl; [reflexivity|].
  destruct D as [D1 D2].
  destruct (match a with Some u => lam <? u | None => true end) eqn:E; simpl.
  - rewrite IH; auto. reflexivity.
  - rewrite (Hh a E), (sumq_zero h l); [ring|].
    intros b Hb. apply Hh. apply gtl_mono with a; auto.
Qed.

(** Every item of C+ or L- above lambda is counted in mt. *)
Lemma sumq_mt cov lam h :
  (forall o, gtl lam o = false -> h o == 0) ->
  sumq h (mt cov lam) == sumq (fun c => only (cplus c || lmin lam c) (h (i_up (fst c)))) cov.
Proof.
  intros Hh. unfold mt. rewrite sumq_above; [|apply desc_sort|exact Hh].
  rewrite sumq_sort, sumq_map, sumq_filter. reflexivity.
Qed.
Lemma in_mt cov lam o : In o (mt cov lam) ->
  gtl lam o = true /\ exists c, In c cov /\ i_up (fst c) = o /\ (cplus c || lmin lam c = true).
Proof.
  unfold mt. intros H. apply in_above in H. destruct H as [H G]. split; [exact G|].
  apply (proj1 (in_sort _ _)) in H. apply in_map_iff in H. destruct H as (c & E & Hc).
  apply filter_In in Hc. destruct Hc. exists c; auto.
Qed.
Lemma desc_mt cov lam : desc (mt cov lam).
Proof. apply desc_above, desc_sort. Qed.

(** The values as a sequence continued with lambda. *)
Definition mmf (lam : Q) (l : list (option Q)) (i : nat) : Q :=
  match nth_error l i with Some (Some q) => q | _ => lam end.
Definition allfin (l : list (option Q)) : Prop := forall o, In o l -> exists q, o = Some q.

Lemma desc_nth l : desc l -> forall i j a b, (i < j)%nat ->
  nth_error l i = Some a -> nth_error l j = Some b -> ge_o a b = true.
Proof.
  induction l as [|c l IH]; intros D i j a b H Ha Hb; [destruct i; discriminate|].
  destruct D as [D1 D2]. destruct j as [|j]; [lia|]. simpl in Hb.
  destruct i as [|i]; simpl in Ha.
  - apply Some_inj in Ha; subst. apply D1. eapply nth_error_In; eauto.
  - apply (IH D2 i j a b); auto; lia.
Qed.

Section Seq.
  Variable lam : Q.
  Variable l : list (option Q).
  Hypothesis Hd : desc l.
  Hypothesis Hf : allfin l.
  Hypothesis Hg : forall o, In o l -> gtl lam o = true.

  Lemma mmf_nth i : (i < length l)%nat -> nth_error l i = Some (Some (mmf lam l i)).
  Proof.
    intros H. unfold mmf. destruct (nth_error l i) as [o|] eqn:E.
    - destruct (Hf o) as [q ->]; [eapply nth_error_In; eauto|reflexivity].
    - apply nth_error_None in E. lia.
  Qed.
  Lemma mmf_virt i : (length l <= i)%nat -> mmf lam l i = lam.
  Proof. intros H. unfold mmf. apply nth_error_None in H. now rewrite H. Qed.
  Lemma mmf_gt i : (i < length l)%nat -> lam < mmf lam l i.
  Proof.
    intros H. pose proof (mmf_nth i H) as E. apply nth_error_In in E.
    apply Hg in E. simpl in E. now qb.
  Qed.
  Lemma mmf_lam i : lam <= mmf lam l i.
  Proof.
    destruct (le_lt_dec (length l) i) as [H|H].
    - rewrite mmf_virt by exact H. lra.
    - pose proof (mmf_gt i H). lra.
  Qed.
  Lemma mmf_dec i : mmf lam l (S i) <= mmf lam l i.
  Proof.
    destruct (le_lt_dec (length l) (S i)) as [H|H].
    - rewrite (mmf_virt (S i)) by exact H. apply mmf_lam.
    - pose proof (desc_nth l Hd i (S i) _ _ ltac:(lia) (mmf_nth i ltac:(lia)) (mmf_nth (S i) H)) as E.
      simpl in E. now qb.
  Qed.

  (** Prefix sums of the model. *)
  Lemma nth_prefix : forall l' a i, allfin l' -> (i <= length l')%nat ->
    nth i (prefix_sums (Some a) l') None =
    Some (fold_left Qplus (firstn i (map (fun o => match o with Some q => q | None => 0 end) l')) a).
  Proof.
    induction l' as [|b l' IH]; intros a i F H; simpl in *.
    - assert (i = 0)%nat as -> by lia. reflexivity.
    - destruct i as [|i]; [reflexivity|]. simpl.
      destruct (F b (or_introl eq_refl)) as [q ->]. simpl.
      apply IH; [|lia]. intros o Ho. apply F. now right.
  Qed.
  Lemma fold_firstn : forall i, (i <= length l)%nat ->
    fold_left Qplus (firstn i (map (fun o => match o with Some q => q | None => 0 end) l)) 0
    = Mq (mmf lam l) i.
  Proof.
    induction i as [|i IH]; intros H; [reflexivity|].
    simpl Mq. rewrite <- IH by lia.
    assert (E : firstn (S i) (map (fun o => match o with Some q => q | None => 0 end) l) =
                firstn i (map (fun o => match o with Some q => q | None => 0 end) l) ++ [mmf lam l i]).
    { generalize (mmf_nth i ltac:(lia)). generalize (mmf lam l i). clear IH.
      revert i H. clear. intros i H q. revert i H.
      induction l as [|a m IH]; intros i H E; [destruct i; discriminate|].
      destruct i as [|i]; simpl in *.
      - inversion E; subst. reflexivity.
      - f_equal. apply IH; [lia|exact E]. }
    rewrite E, fold_left_app. reflexivity.
  Qed.
  Lemma prefix_M i : (i <= length l)%nat ->
    nth i (prefix_sums (Some 0) l) None = Some (Mq (mmf lam l) i).
  Proof. intros H. rewrite nth_prefix; auto. now rewrite fold_firstn. Qed.

  Lemma first_below_spec a i :
    (first_below a l <= i)%nat -> (i < length l)%nat -> mmf lam l i < a.
  Proof.
    intros H1 H2. pose proof (mmf_nth i H2) as E. revert i H1 H2 E.
    generalize (mmf lam l). intros f.
    assert (G : forall l', desc l' -> forall i, (first_below a l' <= i)%nat -> (i < length l')%nat ->
                nth_error l' i = Some (Some (f i)) -> f i < a); [|intros; eapply G; eauto].
    clear - f. intros l'. revert f.
    induction l' as [|b l' IH]; intros f D i H1 H2 E; [simpl in H2; lia|].
    destruct D as [D1 D2]. simpl in H1.
    destruct (match b with Some u => u <? a | None => false end) eqn:B.
    - destruct b as [u|]; [|discriminate]. qb.
      destruct i as [|i]; simpl in E; [inversion E; subst; assumption|].
      apply nth_error_In in E. apply D1 in E. simpl in E. qb. lra.
    - destruct i as [|i]; [lia|]. simpl in *.
      apply (IH (fun k => f (S k)) D2 i); auto; lia.
  Qed.
  Lemma first_below_le a : (first_below a l <= length l)%nat.
  Proof.
    clear Hd Hf Hg. induction l as [|b m IH]; simpl; [lia|].
    destruct (match b with Some u => u <? a | None => false end); lia.
  Qed.

  (** The positive parts above a threshold *)
  Definition hp (th : Q) (o : option Q) : Q :=
    match o with Some q => if th <? q then q - th else 0 | None => 0 end.
  Lemma sumq_hp_gen th f : forall l', (forall i, (i < length l')%nat -> nth_error l' i = Some (Some (f i))) ->
    forall n, (n <= length l')%nat -> (forall i, (i < n)%nat -> th <= f i) ->
    (forall i, (n <= i)%nat -> (i < length l')%nat -> f i <= th) ->
    sumq (hp th) l' + inject_Z (Z.of_nat n) * th == Mq f n.
  Proof.
    intros l'. revert f. induction l' as [|o l' IH]; intros f Hn n Hle Hlo Hhi.
    - simpl in Hle. assert (n = 0)%nat as -> by lia. simpl. ring.
    - assert (S1 : forall k, Mq f (S k) == f 0%nat + Mq (fun i => f (S i)) k).
      { induction k as [|k IHk]; [simpl; ring|].
        change (Mq f (S (S k))) with (Mq f (S k) + f (S k)). rewrite IHk. simpl. ring. }
      pose proof (Hn 0%nat ltac:(simpl; lia)) as E0. simpl in E0. inversion E0; subst o.
      destruct n as [|n].
      + cbn [sumq].
        pose proof (IH (fun i => f (S i)) (fun i (Hi : (i < length l')%nat) => Hn (S i) ltac:(simpl; lia)) 0%nat
                      ltac:(lia) ltac:(intros; lia)
                      (fun i _ Hi => Hhi (S i) ltac:(lia) ltac:(simpl; lia))) as R.
        change (Mq (fun i => f (S i)) 0) with 0 in R. change (Mq f 0) with 0.
        change (inject_Z (Z.of_nat 0)) with 0 in *.
        pose proof (Hhi 0%nat ltac:(lia) ltac:(simpl; lia)) as B.
        unfold hp at 1. destruct (th <? f 0%nat) eqn:T; qb; lra.
      + rewrite S1.
        pose proof (IH (fun i => f (S i)) (fun i (Hi : (i < length l')%nat) => Hn (S i) ltac:(simpl; lia)) n
                      ltac:(simpl in Hle; lia) (fun i Hi => Hlo (S i) ltac:(lia))
                      (fun i H1 Hi => Hhi (S i) ltac:(lia) ltac:(simpl; lia))) as R.
        cbn [sumq]. rewrite Nat2Z.inj_succ. unfold Z.succ. rewrite inject_Z_plus. change (inject_Z 1) with 1.
        pose proof (Hlo 0%nat ltac:(lia)) as B.
        unfold hp at 1. destruct (th <? f 0%nat) eqn:T; qb; lra.
  Qed.
  Lemma mmf_mono i j : (i <= j)%nat -> mmf lam l j <= mmf lam l i.
  Proof. apply mm_mono. exact mmf_dec. Qed.
  Lemma sumq_hp n : (n <= length l)%nat ->
    sumq (hp (mmf lam l n)) l + inject_Z (Z.of_nat n) * mmf lam l n == Mq (mmf lam l) n.
  Proof.
    intros H. apply sumq_hp_gen; auto using mmf_nth.
    - intros i Hi. apply mmf_mono. lia.
    - intros i Hi _. apply mmf_mono. exact Hi.
  Qed.
End Seq.

Lemma len_sum {A} (p : A -> bool) l :
  inject_Z (Z.of_nat (length (filter p l))) == sumq (fun c => only (p c) 1) l.
Proof.
  induction l as [|a l IH]; simpl; [reflexivity|].
  destruct (p a); simpl length; [|rewrite IH; unfold only; ring].
  rewrite Nat2Z.inj_succ. unfold Z.succ. rewrite inject_Z_plus, IH. unfold only. change (inject_Z 1) with 1. ring.
Qed.
Lemma nat_le_Q a b : inject_Z (Z.of_nat a) <= inject_Z (Z.of_nat b) -> (a <= b)%nat.
Proof. rewrite <- Zle_Qle. lia. Qed.

Lemma fold_min_le (p : fitem * bool -> bool) : forall l t,
  let f := fun t c => if p c then qmin (upv (fst c)) t else t in
  fold_left f l t <= t /\ forall c, In c l -> p c = true -> fold_left f l t <= upv (fst c).
Proof.
  induction l as [|a l IH]; intros t f; simpl; [split; [lra|intros ? []]|].
  destruct (IH (f t a)) as [A B]. fold f in A, B.
  assert (C : f t a <= t /\ (p a = true -> f t a <= upv (fst a))).
  { unfold f, qmin. destruct (p a); [|split; [lra|discriminate]].
    destruct (upv (fst a) <? t) eqn:T; qb; split; intros; lra. }
  destruct C as [C1 C2]. split; [lra|].
  intros c [->|Hc] Hp; [specialize (C2 Hp); lra|now apply B].
Qed.

Section Coefs.
  Variable its : list fitem.
  Variable cov : list (fitem * bool).
  Variable lam rhs : Q.
  Hypothesis CK : cover_ok its rhs cov lam.
  Variable X Y : fitem -> Q.
  Hypothesis HX : forall c, In c cov -> X (fst c) == 0 \/ X (fst c) == 1.
  Hypothesis HY : forall c, In c cov -> 0 <= Y (fst c).
  Hypothesis HU : forall c u, In c cov -> i_up (fst c) = Some u -> Y (fst c) <= u * X (fst c) /\ 0 <= u.
  Hypothesis HI : forall c, In c cov -> i_up (fst c) = None -> X (fst c) == 1.
  Hypothesis Hrow : sumq (fun c => if i_pos (fst c) then Y (fst c) else - Y (fst c)) cov <= rhs.

  Let lam_pos : 0 < lam.
  Proof. pose proof (ck_pos _ _ _ _ CK). pose proof fEPS_pos. lra. Qed.

  Definition kk (c : fitem * bool) : bool :=
    (cpp lam c && Qeq_bool (X (fst c)) 0) || (lmin lam c && Qeq_bool (X (fst c)) 1).
  Definition G0 : Q :=
    cutrhs0 cov lam rhs - sumq (fun c => ycoef0 lam c * Y (fst c) + xcoef0 lam c * X (fst c)) cov.
  Definition nK : nat := length (filter kk cov).
  Definition mK : Q := sumq (fun c => only (kk c) (upv (fst c))) cov.
  Definition zc (c : fitem * bool) : Q :=
    only (nplus c) (Y (fst c)) + only (cminus c) ((1 - X (fst c)) * upv (fst c)).
  Definition Zt : Q := sumq zc cov.

  Ltac sums :=
    repeat match goal with
           | A : context [sumq] |- _ => progress (repeat (rewrite sumq_plus in A || rewrite sumq_minus in A))
           end;
    repeat (rewrite sumq_plus || rewrite sumq_minus).
  (** Case analysis on an item of the cover. *)
  Ltac item c Hc :=
    let it := fresh "it" in let b := fresh "b" in let u := fresh "u" in let Eu := fresh "Eu" in
    pose proof (HX c Hc); pose proof (HY c Hc); pose proof (HU c) as HUc; pose proof (HI c Hc) as HIc;
    pose proof (ck_plus _ _ _ _ CK c Hc) as CP; pose proof (ck_minus _ _ _ _ CK c Hc) as CM;
    destruct c as [it b];
    unfold kk, zc, ycoef0, xcoef0, cpp, lmin, lminmin, cplus, cminus, nminus, nplus, up_gt, upv, fin, only in *;
    cbn [fst snd] in *;
    destruct (i_pos it) eqn:Pos, b; cbn [andb orb negb] in *;
    destruct (i_up it) as [u|] eqn:Eu;
    try (destruct (CP eq_refl) as [? ?Bad]; discriminate);
    try (destruct (CM eq_refl) as [? ?Bad]; discriminate);
    try (destruct (HUc u Hc eq_refl)); try (specialize (HIc eq_refl));
    repeat match goal with
           | |- context [?a <? ?b] => destruct (a <? b) eqn:?
           | |- context [Qeq_bool ?a ?b] => destruct (Qeq_bool a b) eqn:?
           end; cbn [andb orb negb] in *; qb;
    repeat match goal with
           | H : Qeq_bool _ _ = true |- _ => apply Qeqb_eq in H
           | H : Qeq_bool _ _ = false |- _ => apply Qeqb_neq in H
           end.
  (** Both values of X. *)
  Ltac bothx :=
    match goal with
    | H : X ?it == 0 \/ X ?it == 1 |- _ => destruct H as [H|H]
    end;
    repeat match goal with
           | H : X ?it == _, G : context [X ?it] |- _ =>
               match type of G with X it == _ => fail 1 | _ => rewrite H in G end
           end;
    try match goal with H : X ?it == _ |- context [X ?it] => rewrite H end.

  Lemma sum_lam : sumq (fun c => only (kk c) lam) cov == L lam nK.
  Proof.
    rewrite L_nq. unfold nK. rewrite len_sum.
    rewrite Qmult_comm, <- sumq_scale. apply sumq_ext. intros c _. unfold only. destruct (kk c); ring.
  Qed.

  Lemma gap1 : L lam nK - lam <= G0.
  Proof.
    rewrite <- sum_lam.
    assert (A : sumq (fun c => only (kk c) lam) cov <=
            sumq (fun c => only (cplus c) (upv (fst c)) + only (cpp lam c) (lam - upv (fst c)) -
                           (ycoef0 lam c * Y (fst c) + xcoef0 lam c * X (fst c))) cov).
    { apply sumq_le. intros c Hc. item c Hc; bothx; lra. }
    pose proof (ck_lam _ _ _ _ CK). unfold G0, cutrhs0, dprime. sums. lra.
  Qed.

  Lemma z_nonneg : forall c, In c cov -> 0 <= zc c.
  Proof. intros c Hc. item c Hc; bothx; lra. Qed.
  Lemma Zt_nonneg : 0 <= Zt.
  Proof. apply sumq_nonneg. exact z_nonneg. Qed.

  Section Finite.
    Hypothesis Hfin : forall c, In c cov -> lmin lam c = true -> fin (fst c).

    Ltac itemf c Hc :=
      pose proof (Hfin c Hc) as HF; item c Hc;
      try (destruct (HF eq_refl) as [? ?HF']; discriminate).

    Lemma gap2 : Zt - mK + L lam nK <= G0.
    Proof.
      rewrite <- sum_lam.
      assert (A : sumq (fun c => zc c - only (kk c) (upv (fst c)) + only (kk c) lam) cov <=
              sumq (fun c => (if i_pos (fst c) then Y (fst c) else - Y (fst c)) +
                             only (cminus c) (upv (fst c)) + only (cpp lam c) (lam - upv (fst c)) -
                             (ycoef0 lam c * Y (fst c) + xcoef0 lam c * X (fst c))) cov).
      { apply sumq_le. intros c Hc. itemf c Hc; bothx; lra. }
      unfold G0, cutrhs0, dprime, Zt, mK. sums. lra.
    Qed.

    (** The capacity *)
    Lemma cap1 : Zt <= sumq (fun c => only (cpp lam c || lmin lam c) (upv (fst c))) cov
                       - lam + sum_small cov lam.
    Proof.
      assert (A : sumq (fun c => only (cplus c) (upv (fst c)) - only (cminus c) (upv (fst c))
                     - (if i_pos (fst c) then Y (fst c) else - Y (fst c)) + zc c) cov <=
              sumq (fun c => only (cpp lam c || lmin lam c) (upv (fst c)) +
                 (only (cplus c && negb (cpp lam c)) (upv (fst c)) +
                     only (lminmin lam c) (upv (fst c)))) cov).
      { apply sumq_le. intros c Hc. itemf c Hc; bothx; lra. }
      pose proof (ck_lam _ _ _ _ CK). unfold Zt, sum_small. sums. lra.
    Qed.
    Lemma cap2 : (forall c, In c cov -> cpp lam c = true -> X (fst c) == 0) ->
      Zt <= mK - lam + sum_small cov lam.
    Proof.
      intros All.
      assert (A : sumq (fun c => only (cplus c) (upv (fst c)) - only (cminus c) (upv (fst c))
                     - (if i_pos (fst c) then Y (fst c) else - Y (fst c)) + zc c) cov <=
              sumq (fun c => only (kk c) (upv (fst c)) +
                 (only (cplus c && negb (cpp lam c)) (upv (fst c)) +
                     only (lminmin lam c) (upv (fst c)))) cov).
      { apply sumq_le. intros c Hc. pose proof (All c Hc) as Ac.
        itemf c Hc; try (specialize (Ac eq_refl)); bothx; try lra; try contradiction;
        exfalso; match goal with H : ~ _ |- _ => apply H; assumption end. }
      pose proof (ck_lam _ _ _ _ CK). unfold Zt, mK, sum_small. sums. lra.
    Qed.

    Local Notation mtl := (mt cov lam).
    Local Notation r := (length mtl).
    Local Notation mm := (mmf lam mtl).
    Local Notation a := (min_plus cov lam).
    Local Notation sg := (lam - ml cov lam).

    Lemma mt_fin : allfin mtl.
    Proof.
      intros o Ho. apply in_mt in Ho. destruct Ho as (_ & c & Hc & <- & Hp).
      destruct (cplus c) eqn:Ec; [exact (ck_plus _ _ _ _ CK c Hc Ec)|].
      exact (Hfin c Hc Hp).
    Qed.
    Lemma mt_gt : forall o, In o mtl -> gtl lam o = true.
    Proof. intros o Ho. now apply in_mt in Ho. Qed.

    (** The largest values bound every choice. *)
    Lemma in_C c : In c cov -> cpp lam c || lmin lam c = true ->
      exists u, i_up (fst c) = Some u /\ lam < u /\ cplus c || lmin lam c = true.
    Proof.
      intros Hc H. destruct (cpp lam c) eqn:E1.
      - unfold cpp in E1. apply andb_prop in E1. destruct E1 as [E1 E2].
        destruct (ck_plus _ _ _ _ CK c Hc E1) as [u Eu]. exists u.
        rewrite E1. unfold upv in E2. rewrite Eu in E2. qb.
        pose proof fEPS_pos. split; [exact Eu|]. split; [lra|reflexivity].
      - simpl in H. destruct (Hfin c Hc H) as [u Eu]. exists u. rewrite H, orb_true_r.
        unfold lmin, up_gt in H. rewrite Eu in H. apply andb_prop in H. destruct H as [_ H]. qb.
        auto.
    Qed.
    Definition hone (o : option Q) : Q := only (gtl lam o) 1.
    Lemma len_mt : inject_Z (Z.of_nat r) ==
      sumq (fun c => only (cplus c || lmin lam c) (hone (i_up (fst c)))) cov.
    Proof.
      rewrite <- sumq_mt.
      - assert (G : forall l, (forall o, In o l -> gtl lam o = true) ->
                    inject_Z (Z.of_nat (length l)) == sumq hone l).
        { induction l as [|o l IH]; intros H; [reflexivity|].
          cbn [sumq length]. rewrite Nat2Z.inj_succ. unfold Z.succ. rewrite inject_Z_plus, IH.
          - unfold hone at 2. rewrite (H o (or_introl eq_refl)). cbn [only].
            change (inject_Z 1) with 1. ring.
          - intros b Hb. apply H. now right. }
        apply G, mt_gt.
      - intros o Ho. unfold hone. now rewrite Ho.
    Qed.

    Section Top.
      Variable kp : fitem * bool -> bool.
      Hypothesis Hkp : forall c, In c cov -> kp c = true -> cpp lam c || lmin lam c = true.
      Let n := length (filter kp cov).
      Let mk := sumq (fun c => only (kp c) (upv (fst c))) cov.

      Lemma top_count_item c : In c cov ->
        only (kp c) 1 <= only (cplus c || lmin lam c) (hone (i_up (fst c))).
      Proof.
        intros Hc. pose proof (Hkp c Hc) as H. destruct (kp c).
        - destruct (in_C c Hc (H eq_refl)) as (u & Eu & Lu & ->). rewrite Eu. cbn [only].
          unfold hone. cbn [gtl]. rewrite (proj2 (Qltb_lt _ _) Lu). cbn [only]. lra.
        - unfold hone, only. repeat match goal with |- context [if ?b then _ else _] => destruct b end; lra.
      Qed.
      Lemma top_item th c : lam <= th -> In c cov ->
        only (kp c) (upv (fst c) - th) <= only (cplus c || lmin lam c) (hp th (i_up (fst c))).
      Proof.
        intros Ht Hc. pose proof (Hkp c Hc) as H. destruct (kp c).
        - destruct (in_C c Hc (H eq_refl)) as (u & Eu & Lu & ->). unfold upv. rewrite Eu. cbn [only].
          cbn [hp]. destruct (th <? u) eqn:T; qb; lra.
        - unfold hp, only. destruct (cplus c || lmin lam c); [|lra].
          destruct (i_up (fst c)) as [q|]; [|lra]. destruct (th <? q) eqn:T; qb; lra.
      Qed.
      Lemma hp_zero th : lam <= th -> forall o, gtl lam o = false -> hp th o == 0.
      Proof.
        intros Ht [q|] H; simpl in *; [|discriminate].
        destruct (th <? q) eqn:T; qb; lra.
      Qed.
      Lemma sum_kp th : sumq (fun c => only (kp c) (upv (fst c) - th)) cov ==
        mk - inject_Z (Z.of_nat n) * th.
      Proof.
        unfold mk, n. rewrite len_sum. rewrite Qmult_comm, <- sumq_scale, <- sumq_minus.
        apply sumq_ext. intros c _. unfold only. destruct (kp c); ring.
      Qed.

      Lemma top : (n <= r)%nat /\ mk <= Mq mm n.
      Proof.
        assert (N : (n <= r)%nat).
        { apply nat_le_Q. rewrite len_mt. unfold n. rewrite len_sum.
          apply sumq_le. exact top_count_item. }
        split; [exact N|].
        pose proof (mmf_lam lam mtl mt_fin mt_gt n) as Ht.
        pose proof (sumq_hp lam mtl (desc_mt _ _) mt_fin mt_gt n N) as E.
        rewrite sumq_mt in E by (apply hp_zero; exact Ht).
        pose proof (sumq_le _ _ cov (fun c Hc => top_item _ c Ht Hc)) as A.
        rewrite sum_kp in A. lra.
      Qed.
      Lemma top_one c0 : In c0 cov -> kp c0 = false -> cpp lam c0 || lmin lam c0 = true ->
        (S n <= r)%nat /\ mk + upv (fst c0) <= Mq mm (S n).
      Proof.
        intros H0 K0 P0. destruct (in_C c0 H0 P0) as (u & Eu & Lu & Pu).
        assert (N : (S n <= r)%nat).
        { apply nat_le_Q. rewrite len_mt. rewrite Nat2Z.inj_succ. unfold Z.succ, n.
          rewrite inject_Z_plus, len_sum.
          apply sumq_le_one with c0; [exact top_count_item|exact H0|].
          rewrite K0, Pu, Eu. cbn [only]. unfold hone. cbn [gtl].
          rewrite (proj2 (Qltb_lt _ _) Lu). cbn [only]. change (inject_Z 1) with 1; lra. }
        split; [exact N|].
        pose proof (mmf_lam lam mtl mt_fin mt_gt (S n)) as Ht.
        pose proof (sumq_hp lam mtl (desc_mt _ _) mt_fin mt_gt (S n) N) as E.
        rewrite sumq_mt in E by (apply hp_zero; exact Ht).
        assert (A : sumq (fun c => only (kp c) (upv (fst c) - mm (S n))) cov + (u - mm (S n)) <=
                    sumq (fun c => only (cplus c || lmin lam c) (hp (mm (S n)) (i_up (fst c)))) cov).
        { apply sumq_le_one with c0; [intros c Hc; now apply top_item|exact H0|].
          rewrite K0, Pu, Eu. cbn [only hp]. destruct (mm (S n) <? u) eqn:T; qb; lra. }
        rewrite sum_kp in A. unfold upv. rewrite Eu.
        rewrite Nat2Z.inj_succ in E. unfold Z.succ in E. rewrite inject_Z_plus in E.
        change (inject_Z 1) with 1 in E. lra.
      Qed.
    End Top.

    Lemma kk_sub c : In c cov -> kk c = true -> cpp lam c || lmin lam c = true.
    Proof.
      intros _ H. unfold kk in H. apply orb_prop in H.
      destruct H as [H|H]; apply andb_prop in H; destruct H as [-> _]; [reflexivity|apply orb_true_r].
    Qed.

    (** Parameters of the lifting function *)
    Hypothesis Hcpp : existsb (cpp lam) cov = true.

    Lemma some_cpp : exists c, In c cov /\ cpp lam c = true.
    Proof. apply existsb_exists in Hcpp. exact Hcpp. Qed.
    Lemma a_le c : In c cov -> cpp lam c = true -> a <= upv (fst c).
    Proof. intros Hc Hp. unfold min_plus. now apply (proj2 (fold_min_le (cpp lam) cov fINF)). Qed.
    Lemma r_pos : (1 <= r)%nat.
    Proof.
      destruct some_cpp as (c & Hc & Hp).
      destruct (top_one (fun _ => false) (fun _ _ H => ltac:(discriminate H)) c Hc eq_refl) as [A _].
      - now rewrite Hp.
      - lia.
    Qed.
    Lemma a_mm : a <= mm 0.
    Proof.
      destruct some_cpp as (c & Hc & Hp).
      destruct (top_one (fun _ => false) (fun _ _ H => ltac:(discriminate H)) c Hc eq_refl) as [_ A].
      - now rewrite Hp.
      - pose proof (a_le c Hc Hp).
        assert (F : filter (fun _ : fitem * bool => false) cov = []).
        { clear. induction cov; simpl; auto. }
        rewrite F in A. simpl in A.
        rewrite (sumq_zero (fun c : fitem * bool => only false (upv (fst c)))) in A by (intros; reflexivity).
        lra.
    Qed.
    Lemma sum_small_nonneg : 0 <= sum_small cov lam.
    Proof. unfold sum_small. apply sumq_nonneg. intros c Hc. itemf c Hc; lra. Qed.
    Lemma ml_bounds : 0 <= ml cov lam /\ ml cov lam <= lam.
    Proof.
      unfold ml, qmin. pose proof sum_small_nonneg.
      destruct (sum_small cov lam <? lam) eqn:T; qb; lra.
    Qed.
    Lemma sg_pos_small : 0 < sg -> sg == lam - sum_small cov lam.
    Proof. unfold ml, qmin. destruct (sum_small cov lam <? lam) eqn:T; qb; lra. Qed.

    Lemma M_fin i : (i <= r)%nat -> M cov lam i = Some (Mq mm i).
    Proof. intros H. unfold M, Ms. apply prefix_M; auto using mt_fin, mt_gt, desc_mt. Qed.
    Lemma ramp_L z i : (i <= r)%nat -> ramp cov lam z i == L lam i - Mq mm i + z.
    Proof. intros H. unfold ramp. rewrite M_fin by exact H. unfold nq. rewrite <- L_nq. ring. Qed.
    Lemma flat_L i : nq i * lam == L lam i.
    Proof. unfold nq. symmetry. apply L_nq. Qed.

    Local Notation Below := (below lam sg a mm r).
    Local Notation Lev := (lev sg a mm r).
    Local Notation Lef := (lef lam mm).

    Lemma lef_eq c c' k z : c == c' -> Lef c' k z -> Lef c k z.
    Proof. intros E. apply lef_le; lra. Qed.
    Lemma below_eq c c' z z' : c == c' -> z == z' -> Below c z -> Below c' z'.
    Proof.
      intros E1 E2 [A B]. split; [lra|]. intros k [K1 K2].
      destruct (B k) as [C|C].
      - split; [lra|]. intros i Hi. specialize (K2 i Hi). lra.
      - left; lra.
      - right; lra.
    Qed.
    Lemma below_zero z : 0 <= z -> Below 0 z.
    Proof. intros H. split; [exact H|]. intros k _. apply lef_zero; auto. Qed.

    Lemma mm_dec' : forall i, mm (S i) <= mm i.
    Proof. intros i. apply mmf_dec; auto using desc_mt, mt_fin, mt_gt. Qed.
    Lemma mm_lam' : forall i, lam <= mm i.
    Proof. intros i. apply mmf_lam; auto using mt_fin, mt_gt. Qed.
    Lemma mm_virt' : forall i, (r <= i)%nat -> mm i == lam.
    Proof. intros i H. now rewrite mmf_virt. Qed.
    Lemma sg_lo' : 0 <= sg. Proof. pose proof ml_bounds. lra. Qed.
    Lemma sg_hi' : sg <= lam. Proof. pose proof ml_bounds. lra. Qed.
    Hint Resolve lam_pos mm_dec' mm_lam' mm_virt' sg_lo' sg_hi' a_mm r_pos : fl.

    Lemma rho_s i : (first_below a mtl <= i)%nat -> (i < r)%nat ->
      - lam + ml cov lam + rho cov lam i == - s sg a mm r i /\ 0 <= rho cov lam i.
    Proof.
      intros H1 H2.
      pose proof (first_below_spec lam mtl (desc_mt _ _) mt_fin a i H1 H2) as B.
      unfold rho. rewrite (nth_error_nth mtl i None (mmf_nth lam mtl mt_fin i H2)).
      pose proof (s_small sg a mm r i H2) as S1. pose proof (s_big sg a mm r i H2) as S2.
      pose proof (s_nonneg sg a mm r sg_lo' i) as S3. pose proof (s_le sg a mm r sg_lo' i) as S4.
      destruct (0 <? mm i - (a - lam + ml cov lam)) eqn:T; qb.
      - split; [|lra]. destruct S1; destruct S2; lra.
      - split; [|lra]. destruct S1; destruct S2; lra.
    Qed.

    Lemma lift_minus_below z dpp : 0 <= z ->
      Below (liftMinus cov lam (first_below a mtl) r z dpp) z.
    Proof.
      intros Hz. split; [exact Hz|]. intros k Hk. unfold liftMinus.
      set (t := first_below a mtl) in *.
      assert (Tr : (t <= r)%nat) by (apply first_below_le).
      assert (Ramp : forall i, (i <= r)%nat -> (z <= Mq mm i \/ i = r) -> Lef (ramp cov lam z i) k z).
      { intros i Hi Hc. apply lef_eq with (L lam i - Mq mm i + z); [now apply ramp_L|].
        destruct Hc as [Hc|Hc].
        - apply line_below; auto with fl.
        - subst i. apply line_r; auto with fl. }
      destruct (ogt z dpp); [now apply Ramp; auto|].
      destruct (find _ (seq 0 t)) as [i|] eqn:F1.
      { apply find_some in F1. destruct F1 as [I1 I2]. apply in_seq in I1.
        apply andb_prop in I2. destruct I2 as [I2 _]. rewrite M_fin in I2 by lia. simpl in I2.
        apply Qleb_le in I2.
        apply lef_eq with (L lam i); [apply flat_L|].
        destruct (le_lt_dec k i) as [Hi|Hi]; [|apply flat_le; auto with fl].
        apply lef_le with (L lam i - Mq mm i + z); [lra|]. apply line_le; auto with fl. }
      destruct (find _ (seq 1 (t - 1))) as [i|] eqn:F2.
      { apply find_some in F2. destruct F2 as [I1 I2]. apply in_seq in I1.
        apply andb_prop in I2. destruct I2 as [_ I2]. rewrite M_fin in I2 by lia. simpl in I2.
        apply Qleb_le in I2. apply Ramp; [lia|now left]. }
      match goal with |- Lef (match ?f with _ => _ end) _ _ => destruct f as [i|] eqn:F3 end.
      { apply find_some in F3. destruct F3 as [I1 I2]. apply in_seq in I1.
        apply andb_prop in I2. destruct I2 as [_ I2]. rewrite M_fin in I2 by lia. simpl in I2.
        apply Qleb_le in I2. destruct (rho_s i) as [R _]; [exact (proj1 I1)|lia|].
        pose proof (s_nonneg sg a mm r sg_lo' i).
        apply Ramp; [lia|left; lra]. }
      match goal with |- Lef (match ?f with _ => _ end) _ _ => destruct f as [i|] eqn:F4 end.
      { apply find_some in F4. destruct F4 as [I1 I2]. pose proof I1 as I0. apply in_seq in I1.
        apply andb_prop in I2. destruct I2 as [I2 _]. rewrite M_fin in I2 by lia. simpl in I2.
        apply Qleb_le in I2. destruct (rho_s i) as [R R0]; [exact (proj1 I1)|lia|].
        pose proof (find_none _ _ F3 i I0) as N. simpl in N. rewrite M_fin in N by lia. simpl in N.
        pose proof ml_bounds as Ml.
        apply andb_false_iff in N.
        destruct N as [N|N]; apply Qleb_gt in N; [lra|].
        apply lef_eq with (L lam i); [apply flat_L|].
        apply flat_le; auto with fl. apply (lev_gt lam sg a mm r) with z; auto with fl.
        unfold e. lra. }
      destruct (oge z _ && ole z dpp).
      - apply Ramp; auto.
      - apply lef_zero; auto with fl.
    Qed.

    Lemma try_plus_below it i y x :
      (i <= r)%nat -> 0 <= y -> (x == 0 /\ y == 0 \/ x == 1 /\ y <= Mq mm i) ->
      Below (fst (try_plus cov lam it i) * y - snd (try_plus cov lam it i) * x) y.
    Proof.
      intros Hi Hy Hx. unfold try_plus, beta_of. rewrite M_fin by exact Hi.
      destruct (0 <? _); cbn [fst snd].
      - destruct Hx as [[Hx Hy0]|[Hx Hy0]].
        + apply below_eq with 0 y; [rewrite Hx, Hy0; ring|reflexivity|now apply below_zero].
        + split; [exact Hy|]. intros k Hk.
          apply lef_eq with (L lam i - Mq mm i + y).
          * rewrite Hx. rewrite flat_L. ring.
          * apply line_below; auto with fl.
      - apply below_eq with 0 y; [ring|reflexivity|now apply below_zero].
    Qed.
    Lemma lift_plus_below it dpp y x :
      0 <= y -> (forall u, i_up it = Some u -> y <= u * x) -> (x == 0 \/ x == 1) ->
      Below (fst (liftPlus cov lam r it dpp) * y - snd (liftPlus cov lam r it dpp) * x) y.
    Proof.
      intros Hy Hu Hx. unfold liftPlus.
      assert (Z : Below (fst (0, 0) * y - snd (0, 0) * x) y).
      { apply below_eq with 0 y; [cbn; ring|reflexivity|now apply below_zero]. }
      destruct (i_up it) as [u|]; [|exact Z]. specialize (Hu u eq_refl).
      assert (St : forall i, (i <= r)%nat -> in_step cov lam u i = true ->
                Below (fst (try_plus cov lam it i) * y - snd (try_plus cov lam it i) * x) y).
      { intros i Hi Hs. unfold in_step in Hs. apply andb_prop in Hs. destruct Hs as [_ Hs].
        rewrite M_fin in Hs by exact Hi. simpl in Hs. apply Qleb_le in Hs.
        apply try_plus_below; auto.
        destruct Hx as [Hx|Hx]; rewrite Hx in Hu; [left|right]; split; auto; lra. }
      destruct (ogt u _).
      - destruct (olt u _ && in_step cov lam u r) eqn:C; [|exact Z].
        apply andb_prop in C. destruct C as [_ C]. apply St; auto.
      - destruct (find _ _) as [i|] eqn:F; [|exact Z].
        apply find_some in F. destruct F as [F1 F2]. apply in_seq in F1.
        apply St; [lia|exact F2].
    Qed.

    (** The contribution of an item to what lifting adds. *)
    Definition con (dpp : option Q) (c : fitem * bool) : Q :=
      let l := lift_item cov lam (first_below a mtl) r dpp c in
      (fst (snd (fst l)) * Y (fst c) + snd (snd (fst l)) * X (fst c)) + snd l
      - (ycoef0 lam c * Y (fst c) + xcoef0 lam c * X (fst c)).

    Lemma con_below dpp c : In c cov -> Below (con dpp c) (zc c).
    Proof.
      intros Hc. unfold con, lift_item.
      pose proof (HX c Hc) as Hx. pose proof (HY c Hc) as Hy.
      pose proof (z_nonneg c Hc) as Hz.
      destruct (nplus c) eqn:Np.
      - cbn [fst snd].
        assert (E0 : ycoef0 lam c = 0 /\ xcoef0 lam c = 0 /\ cminus c = false).
        { unfold nplus, ycoef0, xcoef0, cpp, lmin, lminmin, cplus, nminus, cminus in *.
          apply andb_prop in Np. destruct Np as [-> Np]. apply negb_true_iff in Np. rewrite Np.
          cbn. auto. }
        destruct E0 as (E1 & E2 & E3). rewrite E1, E2.
        eapply below_eq; [| |apply (lift_plus_below (fst c) dpp (Y (fst c)) (X (fst c)))]; auto.
        + ring.
        + unfold zc. rewrite Np, E3. cbn [only]. ring.
        + intros u Eu. now apply (HU c u Hc Eu).
      - destruct (cminus c) eqn:Cm.
        + assert (E0 : ycoef0 lam c = 0 /\ xcoef0 lam c = 0).
          { unfold cminus, ycoef0, xcoef0, cpp, lmin, lminmin, cplus, nminus in *.
            apply andb_prop in Cm. destruct Cm as [Cm ->]. apply negb_true_iff in Cm. rewrite Cm.
            cbn. auto. }
          destruct E0 as (E1 & E2). rewrite E1, E2.
          destruct (ck_minus _ _ _ _ CK c Hc Cm) as [u Eu].
          destruct (HU c u Hc Eu) as [U1 U2].
          assert (Ez : zc c == (1 - X (fst c)) * upv (fst c)).
          { unfold zc. rewrite Np, Cm. cbn [only]. ring. }
          destruct (fEPS <? _) eqn:T; cbn [fst snd].
          * destruct Hx as [Hx|Hx].
            { eapply below_eq; [| |apply (lift_minus_below (upv (fst c)) dpp)].
              - rewrite Hx. ring.
              - rewrite Ez, Hx. ring.
              - unfold upv. rewrite Eu. exact U2. }
            { apply below_eq with 0 0; [rewrite Hx; ring|rewrite Ez, Hx; ring|apply below_zero; lra]. }
          * apply below_eq with 0 (zc c); [ring|reflexivity|now apply below_zero].
        + cbn [fst snd]. apply below_eq with 0 (zc c); [ring|reflexivity|now apply below_zero].
    Qed.

    Lemma cons_le dpp : sumq (con dpp) cov <= G0.
    Proof.
      set (l := map (fun c => (con dpp c, zc c)) cov).
      assert (E1 : sumc l == sumq (con dpp) cov).
      { unfold l. clear. induction cov as [|c m IH]; simpl; [reflexivity|]. rewrite IH; reflexivity. }
      assert (E2 : sumz l == Zt).
      { unfold l, Zt. clear. induction cov as [|c m IH]; simpl; [reflexivity|]. rewrite IH; reflexivity. }
      assert (Cap : 0 < sg -> Zt <= e sg a mm r r).
      { intros Sp. pose proof cap1 as C. pose proof (sg_pos_small Sp).
        destruct (top (fun c => cpp lam c || lmin lam c) (fun c _ H => H)) as [N T].
        pose proof (Mq_mono lam mm lam_pos mm_lam' _ _ N) as Mn.
        unfold e. rewrite s_virt by auto. lra. }
      assert (B : Below (sumc l) (sumz l)).
      { apply below_sum; auto with fl.
        - intros p Hp. unfold l in Hp. apply in_map_iff in Hp. destruct Hp as (c & <- & Hc).
          cbn [fst snd]. now apply con_below.
        - intros Sp. rewrite E2. auto. }
      apply (below_eq _ _ _ _ E1 E2) in B.
      destruct (top kk kk_sub) as [N T].
      apply (gap_room lam sg a mm r) with (n := nK) (mK := mK) (Z := Zt); auto with fl.
      - exact Zt_nonneg.
      - exact gap1.
      - exact gap2.
      - (* is some item of C++ not switched? *)
        destruct (existsb (fun c => cpp lam c && negb (Qeq_bool (X (fst c)) 0)) cov) eqn:Ex.
        + right. apply existsb_exists in Ex. destruct Ex as (c0 & Hc0 & P0).
          apply andb_prop in P0. destruct P0 as [P0 X0]. apply negb_true_iff in X0.
          assert (K0 : kk c0 = false).
          { unfold kk. rewrite X0. rewrite andb_false_r. simpl.
            unfold lmin, nminus, cpp, cplus in *.
            apply andb_prop in P0. destruct P0 as [P0 _]. apply andb_prop in P0. destruct P0 as [-> ->].
            reflexivity. }
          destruct (top_one kk kk_sub c0 Hc0 K0) as [A1 A2]; [now rewrite P0|].
          split; [exact A1|]. pose proof (a_le c0 Hc0 P0). unfold mK. fold nK in A2. lra.
        + left. intros Sp. rewrite (sg_pos_small Sp).
          assert (C : Zt <= mK - lam + sum_small cov lam); [|lra].
          apply cap2. intros c Hc Hp. destruct (Qeq_bool (X (fst c)) 0) eqn:Xc; [now apply Qeqb_eq|].
          exfalso. assert (Z : existsb (fun c => cpp lam c && negb (Qeq_bool (X (fst c)) 0)) cov = true).
          { apply existsb_exists. exists c. split; [exact Hc|]. now rewrite Hp, Xc. }
          congruence.
    Qed.
  End Finite.

  (** Without lifting *)
  Lemma base_ok : 0 <= G0.
  Proof.
    destruct (existsb (fun c => lmin lam c && match i_up (fst c) with None => true | _ => false end) cov) eqn:Ex.
    - apply existsb_exists in Ex. destruct Ex as (c & Hc & E).
      apply andb_prop in E. destruct E as [E1 E2].
      assert (U : i_up (fst c) = None) by (destruct (i_up (fst c)); [discriminate|reflexivity]).
      pose proof (HI c Hc U) as X1.
      assert (K : kk c = true).
      { unfold kk. rewrite E1. apply Qeqb_eq in X1. rewrite X1. apply orb_true_r. }
      assert (N : (1 <= nK)%nat).
      { unfold nK. assert (In c (filter kk cov)) by (apply filter_In; auto).
        destruct (filter kk cov); [contradiction|simpl; lia]. }
      pose proof gap1. pose proof (L_mono lam lam_pos 1 nK N) as A. simpl in A. lra.
    - assert (Hfin : forall c, In c cov -> lmin lam c = true -> fin (fst c)).
      { intros c Hc Hl. destruct (i_up (fst c)) as [u|] eqn:U; [exists u; exact U|].
        exfalso. assert (Z : existsb (fun c => lmin lam c && match i_up (fst c) with None => true | _ => false end) cov = true).
        { apply existsb_exists. exists c. split; [exact Hc|]. now rewrite Hl, U. }
        congruence. }
      pose proof gap1 as A1. pose proof (gap2 Hfin) as A2. pose proof Zt_nonneg.
      destruct nK as [|n] eqn:N.
      + assert (E : mK == 0).
        { unfold mK. apply sumq_zero. intros c Hc. destruct (kk c) eqn:K; [|reflexivity].
          unfold nK in N. assert (In c (filter kk cov)) as I0 by (apply filter_In; auto).
          destruct (filter kk cov); [contradiction|discriminate]. }
        simpl in A2. lra.
      + simpl in A1. pose proof (L_nonneg lam lam_pos n). lra.
  Qed.

  (** An infinite value in L-: nothing is lifted. *)
  Section Infinite.
    Variable c1 : fitem * bool.
    Hypothesis H1 : In c1 cov.
    Hypothesis L1 : lmin lam c1 = true.
    Hypothesis U1 : i_up (fst c1) = None.

    Lemma mt_head : exists l, mt cov lam = None :: l.
    Proof.
      assert (I0 : In None (sort_desc (map (fun c => i_up (fst c)) (filter (fun c => cplus c || lmin lam c) cov)))).
      { apply in_sort. apply in_map_iff. exists c1. split; [exact U1|]. apply filter_In.
        split; [exact H1|]. rewrite L1. apply orb_true_r. }
      unfold mt. pose proof (desc_sort (map (fun c => i_up (fst c)) (filter (fun c => cplus c || lmin lam c) cov))) as D.
      destruct (sort_desc _) as [|o l]; [destruct I0|].
      destruct I0 as [->|I0]; [simpl; eexists; reflexivity|].
      destruct D as [D _]. specialize (D None I0). destruct o; [discriminate|].
      simpl; eexists; reflexivity.
    Qed.
    Lemma prefix_none l : forall i, nth i (prefix_sums None l) None = None.
    Proof.
      induction l as [|b l IH]; intros [|i]; simpl; auto. now destruct i.
    Qed.
    Lemma M_inf i : (1 <= i)%nat -> M cov lam i = None.
    Proof.
      intros H. destruct mt_head as [l E]. unfold M, Ms. rewrite E.
      destruct i as [|i]; [lia|]. simpl. apply prefix_none.
    Qed.
    Lemma temp_inf : temp cov rhs = None.
    Proof.
      unfold temp.
      assert (N : nminus c1 = true) by (unfold lmin in L1; now apply andb_prop in L1).
      assert (G : forall l, fold_left (fun t c => if nminus c then addo t (i_up (fst c)) else t) l None = None).
      { induction l as [|c l IH]; simpl; [reflexivity|]. destruct (nminus c); exact IH. }
      assert (F : forall l t, In c1 l -> fold_left (fun t c => if nminus c then addo t (i_up (fst c)) else t) l t = None).
      { induction l as [|c l IH]; intros t [].
        - subst c. simpl. rewrite N, U1. replace (addo t None) with (@None Q) by (destruct t; reflexivity).
          apply G.
        - simpl. now apply IH. }
      now apply F.
    Qed.
    Lemma con_inf c : In c cov -> con (addo (temp cov rhs) (Some (cutrhs0 cov lam rhs))) c == 0.
    Proof.
      intros Hc. rewrite temp_inf. cbn [addo]. unfold con, lift_item.
      destruct mt_head as [l E].
      assert (E0 : nplus c = true \/ cminus c = true -> ycoef0 lam c = 0 /\ xcoef0 lam c = 0).
      { unfold nplus, cminus, ycoef0, xcoef0, cpp, lmin, lminmin, cplus, nminus.
        destruct (i_pos (fst c)), (snd c); cbn; intros [|]; try discriminate; auto. }
      destruct (nplus c) eqn:Np.
      - destruct (E0 (or_introl eq_refl)) as [-> ->]. cbn [fst snd].
        assert (Z : liftPlus cov lam (length (mt cov lam)) (fst c) None = (0, 0)).
        { unfold liftPlus. destruct (i_up (fst c)) as [u|]; [|reflexivity].
          rewrite M_inf by (rewrite E; simpl; lia). cbn.
          destruct (find _ _) as [i|] eqn:F; [|reflexivity].
          apply find_some in F. destruct F as [F1 F2]. apply in_seq in F1.
          unfold in_step in F2. rewrite M_inf in F2 by lia. discriminate. }
        rewrite Z. cbn. ring.
      - destruct (cminus c) eqn:Cm.
        + destruct (E0 (or_intror eq_refl)) as [-> ->].
          assert (Z : liftMinus cov lam (first_below (min_plus cov lam) (mt cov lam)) (length (mt cov lam))
                        (upv (fst c)) None == 0).
          { unfold liftMinus. cbn [ogt]. rewrite E at 1. cbn [first_below seq find].
            rewrite (M_inf 1) by lia.
            assert (M0 : M cov lam 0 = Some 0) by (unfold M, Ms; rewrite E; reflexivity).
            rewrite M0. cbn [oge ole plus_q option_map].
            destruct (ck_minus _ _ _ _ CK c Hc Cm) as [u Eu].
            destruct (HU c u Hc Eu) as [_ Up].
            assert (P : 0 <=? upv (fst c) = true) by (unfold upv; rewrite Eu; now apply Qleb_le).
            rewrite P. cbn [andb]. unfold nq. simpl. ring. }
          destruct (fEPS <? _) eqn:T; cbn [fst snd].
          * qb. rewrite Z in T. discriminate.
          * ring.
        + cbn [fst snd]. ring.
    Qed.
  End Infinite.

  Theorem coefs_valid cs cr :
    coefs cov lam rhs = Some (cs, cr) ->
    sumq (fun c => fst (snd c) * Y (fst c) + snd (snd c) * X (fst c)) cs <= cr.
  Proof.
    unfold coefs. intros E.
    destruct (Nat.eqb (length (mt cov lam)) 0 || negb (existsb (cpp lam) cov)) eqn:B; [discriminate|].
    apply orb_false_iff in B. destruct B as [_ B]. apply negb_false_iff in B.
    destruct (fTOL <? Qabs (violation_of (cutrhs0 cov lam rhs) (base_coefs cov lam))).
    - set (dpp := addo (temp cov rhs) (Some (cutrhs0 cov lam rhs))) in *.
      apply Some_inj in E. injection E as <- <-.
      assert (C : sumq (con dpp) cov <= G0).
      { destruct (existsb (fun c => lmin lam c && match i_up (fst c) with None => true | _ => false end) cov) eqn:Ex.
        - apply existsb_exists in Ex. destruct Ex as (c & Hc & E).
          apply andb_prop in E. destruct E as [E1 E2].
          assert (U : i_up (fst c) = None) by (destruct (i_up (fst c)); [discriminate|reflexivity]).
          rewrite (sumq_zero (con dpp) cov) by (intros b Hb; now apply (con_inf c Hc E1 U b)).
          exact base_ok.
        - apply cons_le; [|exact B].
          intros c Hc Hl. destruct (i_up (fst c)) as [u|] eqn:U; [exists u; exact U|].
          exfalso. assert (Z : existsb (fun c => lmin lam c && match i_up (fst c) with None => true | _ => false end) cov = true).
          { apply existsb_exists. exists c. split; [exact Hc|]. now rewrite Hl, U. }
          congruence. }
      rewrite !sumq_map. unfold con in C. rewrite sumq_minus, sumq_plus in C.
      unfold G0 in C.
      assert (F : forall c, fst (fst (lift_item cov lam (first_below (min_plus cov lam) (mt cov lam))
                      (length (mt cov lam)) dpp c)) = fst c).
      { intros c. unfold lift_item. destruct (nplus c); [reflexivity|].
        destruct (cminus c); [|reflexivity]. destruct (fEPS <? _); reflexivity. }
      rewrite (sumq_ext
        (fun a => fst (snd (fst (lift_item cov lam (first_below (min_plus cov lam) (mt cov lam)) (length (mt cov lam)) dpp a))) *
           Y (fst (fst (lift_item cov lam (first_below (min_plus cov lam) (mt cov lam)) (length (mt cov lam)) dpp a))) +
           snd (snd (fst (lift_item cov lam (first_below (min_plus cov lam) (mt cov lam)) (length (mt cov lam)) dpp a))) *
           X (fst (fst (lift_item cov lam (first_below (min_plus cov lam) (mt cov lam)) (length (mt cov lam)) dpp a))))
        (fun a => fst (snd (fst (lift_item cov lam (first_below (min_plus cov lam) (mt cov lam)) (length (mt cov lam)) dpp a))) * Y (fst a) +
           snd (snd (fst (lift_item cov lam (first_below (min_plus cov lam) (mt cov lam)) (length (mt cov lam)) dpp a))) * X (fst a))).
      + lra.
      + intros a _. rewrite (F a). reflexivity.
    - apply Some_inj in E. injection E as <- <-.
      pose proof base_ok as C. unfold G0 in C. unfold base_coefs. rewrite sumq_map. cbn [fst snd]. lra.
  Qed.
End Coefs.
