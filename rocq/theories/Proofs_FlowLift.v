(** * The lifting function of the flow cover cuts

    The values m_1 >= m_2 >= ... of the cover, continued with lambda, their
    partial sums, and the superadditive function that the two lifting
    procedures of CglFlowCover stay below. *)

From Verif Require Import Base.
From Coq Require Import Lia Lqa Qminmax.
Local Open Scope Q_scope.

Section Lift.
  Variable lam sg a : Q.
  Variable mm : nat -> Q.
  Variable r : nat.
  Hypothesis lam_pos : 0 < lam.
  Hypothesis mm_dec : forall i, mm (S i) <= mm i.
  Hypothesis mm_lam : forall i, lam <= mm i.
  Hypothesis mm_virt : forall i, (r <= i)%nat -> mm i == lam.
  Hypothesis sg_lo : 0 <= sg.
  Hypothesis sg_hi : sg <= lam.
  Hypothesis a_hi : a <= mm 0.
  Hypothesis r_pos : (1 <= r)%nat.

  Lemma mm_mono : forall i j, (i <= j)%nat -> mm j <= mm i.
  Proof.
    intros i j H; induction H as [|j H IH]; [apply Qle_refl|].
    apply Qle_trans with (mm j); auto.
  Qed.

  Fixpoint Mq (k : nat) : Q := match k with O => 0 | S k' => Mq k' + mm k' end.
  (** k * lambda *)
  Fixpoint L (k : nat) : Q := match k with O => 0 | S k' => L k' + lam end.

  Lemma L_plus : forall i j, L (i + j) == L i + L j.
  Proof. intros i j; induction i as [|i IH]; simpl; [ring|]. rewrite IH; ring. Qed.
  Lemma L_mono : forall i j, (i <= j)%nat -> L i <= L j.
  Proof. intros i j H; induction H as [|j H IH]; [apply Qle_refl|]. simpl; lra. Qed.
  Lemma L_nonneg : forall i, 0 <= L i.
  Proof. clear r_pos. intros i; apply (L_mono 0 i); lia. Qed.

  Lemma Mq_mono : forall i j, (i <= j)%nat -> Mq i <= Mq j.
  Proof.
    intros i j H; induction H as [|j H IH]; [apply Qle_refl|].
    simpl; pose proof (mm_lam j); lra.
  Qed.
  (** M_j - j lambda is nondecreasing *)
  Lemma ML_mono : forall i j, (i <= j)%nat -> Mq i - L i <= Mq j - L j.
  Proof.
    intros i j H; induction H as [|j H IH]; [lra|].
    simpl; pose proof (mm_lam j); lra.
  Qed.
  Lemma ML_virt : forall j, (r <= j)%nat -> Mq j - L j == Mq r - L r.
  Proof. clear r_pos.
    intros j H; induction H as [|j H IH]; [reflexivity|].
    simpl; pose proof (mm_virt j H) as E; rewrite E; lra.
  Qed.
  Lemma Mq_super : forall p q, Mq (p + q) <= Mq p + Mq q.
  Proof. clear r_pos.
    intros p q; induction q as [|q IH].
    - rewrite Nat.add_0_r; simpl; lra.
    - rewrite Nat.add_succ_r; simpl.
      pose proof (mm_mono q (p + q) ltac:(lia)); lra.
  Qed.
  (** The difference of the two sides is at least the first term. *)
  Lemma Mq_super_first : forall p q, (1 <= q)%nat -> Mq (p + q) + (mm 0 - mm p) <= Mq p + Mq q.
  Proof.
    intros p q H; induction H as [|q H IH].
    - rewrite Nat.add_1_r; simpl; lra.
    - rewrite Nat.add_succ_r; simpl.
      pose proof (mm_mono q (p + q) ltac:(lia)); lra.
  Qed.
  (** A sum starting later, by telescoping. *)
  Lemma Mq_tele : forall q j, (1 <= j)%nat -> Mq (j + q) + (mm 0 - mm q) <= Mq j + Mq q.
  Proof.
    intros q j H; induction q as [|q IH].
    - rewrite Nat.add_0_r; simpl; lra.
    - rewrite Nat.add_succ_r; simpl.
      pose proof (mm_mono (S q) (j + q) ltac:(lia)); lra.
  Qed.

  Definition s (k : nat) : Q :=
    if (k <? r)%nat then Qmax 0 (Qmin sg (a - mm k)) else sg.
  Definition e (k : nat) : Q := Mq k - s k.

  Lemma s_nonneg : forall k, 0 <= s k.
  Proof. intros k; unfold s; destruct (k <? r)%nat; [apply Q.le_max_l|exact sg_lo]. Qed.
  Lemma s_le : forall k, s k <= sg.
  Proof.
    intros k; unfold s; destruct (k <? r)%nat; [|apply Qle_refl].
    apply Q.max_lub; [exact sg_lo|apply Q.le_min_l].
  Qed.
  Lemma s_small : forall k, (k < r)%nat -> s k <= 0 \/ s k <= a - mm k.
  Proof.
    intros k H; unfold s. rewrite (proj2 (Nat.ltb_lt k r) H).
    destruct (Q.max_spec 0 (Qmin sg (a - mm k))) as [[_ E]|[_ E]]; rewrite E.
    - right; apply Q.le_min_r.
    - left; apply Qle_refl.
  Qed.
  Lemma s_big : forall k, (k < r)%nat -> sg <= s k \/ a - mm k <= s k.
  Proof.
    intros k H; unfold s. rewrite (proj2 (Nat.ltb_lt k r) H).
    destruct (Q.min_spec sg (a - mm k)) as [[_ E]|[_ E]]; rewrite E; [left|right]; apply Q.le_max_r.
  Qed.
  Lemma s_virt : forall k, (r <= k)%nat -> s k = sg.
  Proof. intros k H; unfold s. now rewrite (proj2 (Nat.ltb_ge k r) H). Qed.
  Lemma s_mono1 : forall k, s k <= s (S k).
  Proof.
    intros k. destruct (le_lt_dec r (S k)) as [H|H].
    - rewrite (s_virt (S k) H); apply s_le.
    - destruct (s_small k ltac:(lia)) as [A|A].
      + pose proof (s_nonneg (S k)); lra.
      + pose proof (s_le k); pose proof (mm_dec k).
        destruct (s_big (S k) H); lra.
  Qed.
  Lemma s_mono : forall i j, (i <= j)%nat -> s i <= s j.
  Proof.
    intros i j H; induction H as [|j H IH]; [apply Qle_refl|].
    apply Qle_trans with (s j); [exact IH|apply s_mono1].
  Qed.
  Lemma s_0 : s 0 == 0.
  Proof. pose proof (s_nonneg 0); destruct (s_small 0 ltac:(lia)); lra. Qed.

  Lemma e_mono : forall i j, (i <= j)%nat -> e i <= e j.
  Proof.
    intros i j H; induction H as [|j H IH]; [apply Qle_refl|].
    apply Qle_trans with (e j); [exact IH|]. unfold e; simpl.
    pose proof (s_nonneg j); pose proof (s_le (S j)); pose proof (mm_lam j); lra.
  Qed.
  Lemma e_le : forall k, e k <= Mq k.
  Proof. intros k; unfold e; pose proof (s_nonneg k); lra. Qed.
  Lemma e_0 : e 0 == 0.
  Proof. unfold e; rewrite s_0; simpl; lra. Qed.

  (** k is the level of z *)
  Definition lev (k : nat) (z : Q) : Prop := z <= e k /\ forall i, (i < k)%nat -> e i < z.

  Lemma e_big : forall k, L k - sg <= e k.
  Proof.
    intros k; unfold e; pose proof (s_le k); pose proof (ML_mono 0 k ltac:(lia)).
    simpl in *; lra.
  Qed.
  Lemma L_nq : forall k, L k == inject_Z (Z.of_nat k) * lam.
  Proof.
    induction k as [|k IH]; [reflexivity|].
    rewrite Nat2Z.inj_succ. unfold Z.succ. rewrite inject_Z_plus. simpl L. rewrite IH. ring.
  Qed.
  Lemma e_unbounded : forall z, exists k, z <= e k.
  Proof.
    intros z.
    exists (Z.to_nat (Qceiling ((z + sg) / lam))).
    apply Qle_trans with (L (Z.to_nat (Qceiling ((z + sg) / lam))) - sg); [|apply e_big].
    rewrite L_nq.
    assert (A : (z + sg) / lam <= inject_Z (Z.of_nat (Z.to_nat (Qceiling ((z + sg) / lam))))).
    { apply Qle_trans with (inject_Z (Qceiling ((z + sg) / lam))); [apply Qle_ceiling|].
      rewrite <- Zle_Qle. lia. }
    assert (B : (z + sg) / lam * lam <= inject_Z (Z.of_nat (Z.to_nat (Qceiling ((z + sg) / lam)))) * lam).
    { apply Qmult_le_compat_r; [exact A|lra]. }
    assert (C : (z + sg) / lam * lam == z + sg) by (field; lra).
    lra.
  Qed.
  Lemma lev_exists : forall z, exists k, lev k z.
  Proof.
    intros z. destruct (e_unbounded z) as [K HK].
    assert (A : forall n, (exists k, lev k z) \/ (forall i, (i < n)%nat -> e i < z)).
    { induction n as [|n [IH|IH]].
      - right; intros i H; lia.
      - left; exact IH.
      - destruct (Qlt_le_dec (e n) z) as [H|H].
        + right; intros i Hi. destruct (Nat.eq_dec i n) as [->|]; [exact H|apply IH; lia].
        + left; exists n; split; assumption. }
    destruct (A (S K)) as [E|E]; [exact E|].
    specialize (E K ltac:(lia)). lra.
  Qed.
  Lemma lev_gt : forall k z i, lev k z -> e i < z -> (i < k)%nat.
  Proof.
    intros k z i [A _] B. destruct (le_lt_dec k i) as [H|H]; [|exact H].
    pose proof (e_mono k i H); lra.
  Qed.

  (** c is at most the value of the lifting function at z, of level k *)
  Definition lef (c : Q) (k : nat) (z : Q) : Prop := c <= L k - lam \/ c <= L k - Mq k + z.

  Lemma lef_le : forall c c' k z, c <= c' -> lef c' k z -> lef c k z.
  Proof. intros c c' k z H [A|A]; [left|right]; lra. Qed.
  Lemma lef_zero : forall k z, 0 <= z -> lef 0 k z.
  Proof. clear r_pos.
    intros [|k] z H.
    - right; simpl; lra.
    - left; simpl; pose proof (L_nonneg k); lra.
  Qed.
  Lemma lef_top : forall c k z, lev k z -> lef c k z -> c <= L k.
  Proof. intros c k z [A _] [B|B]; [lra|]. pose proof (e_le k); lra. Qed.

  (** Line lemma *)
  Lemma line_le : forall i k z, (k <= i)%nat -> lef (L i - Mq i + z) k z.
  Proof. intros i k z H; right. pose proof (ML_mono k i H); lra. Qed.
  Lemma line_below : forall i k z, z <= Mq i -> lef (L i - Mq i + z) k z.
  Proof. clear r_pos.
    intros i k z H. destruct (le_lt_dec k i) as [A|A]; [now apply line_le|].
    left. destruct k as [|k]; [lia|]. simpl. pose proof (L_mono i k ltac:(lia)); lra.
  Qed.
  Lemma line_r : forall k z, lef (L r - Mq r + z) k z.
  Proof. clear r_pos.
    intros k z. destruct (le_lt_dec k r) as [A|A]; [now apply line_le|].
    right. pose proof (ML_virt k ltac:(lia)); lra.
  Qed.
  Lemma flat_le : forall i k z, (i < k)%nat -> lef (L i) k z.
  Proof. clear r_pos.
    intros i k z H; left. destruct k as [|k]; [lia|].
    simpl. pose proof (L_mono i k ltac:(lia)); lra.
  Qed.

  Lemma e_super : forall p q, (p < r)%nat -> (q < r)%nat -> e (p + q) <= e p + e q.
  Proof.
    intros p q Hp Hq. destruct q as [|q].
    - rewrite Nat.add_0_r; pose proof e_0; lra.
    - unfold e. pose proof (s_mono (S q) (p + S q) ltac:(lia)) as A.
      pose proof (Mq_super_first p (S q) ltac:(lia)) as B.
      pose proof (mm_mono 0 p ltac:(lia)).
      destruct (s_small p Hp); lra.
  Qed.

  (** Superadditivity *)
  Lemma super : forall c1 c2 i j k z1 z2,
    0 <= z1 -> 0 <= z2 -> lev i z1 -> lev j z2 -> lev k (z1 + z2) ->
    (0 < sg -> z1 + z2 <= e r) ->
    lef c1 i z1 -> lef c2 j z2 -> lef (c1 + c2) k (z1 + z2).
  Proof.
    intros c1 c2 i j k z1 z2 P1 P2 Hi Hj Hk Hr F1 F2.
    destruct i as [|i].
    { destruct Hi as [A _]; rewrite e_0 in A.
      assert (c1 <= 0) by (destruct F1 as [F|F]; simpl in F; lra).
      assert (j = k) as ->.
      { destruct Hj as [J1 J2], Hk as [K1 K2].
        destruct (Nat.lt_trichotomy j k) as [T|[T|T]]; [|exact T|].
        - specialize (K2 j T); lra.
        - specialize (J2 k T); lra. }
      destruct F2 as [F|F]; [left|right]; lra. }
    destruct j as [|j].
    { destruct Hj as [A _]; rewrite e_0 in A.
      assert (c2 <= 0) by (destruct F2 as [F|F]; simpl in F; lra).
      assert (S i = k) as <-.
      { destruct Hi as [J1 J2], Hk as [K1 K2].
        destruct (Nat.lt_trichotomy (S i) k) as [T|[T|T]]; [|exact T|].
        - specialize (K2 (S i) T); lra.
        - specialize (J2 k T); lra. }
      destruct F1 as [F|F]; [left|right]; lra. }
    pose proof (proj2 Hi i ltac:(lia)) as Zi. pose proof (proj2 Hj j ltac:(lia)) as Zj.
    assert (T1 : c1 <= L (S i)) by (eapply lef_top; eauto).
    assert (T2 : c2 <= L (S j)) by (eapply lef_top; eauto).
    (* with a positive offset the levels stay within the real items *)
    assert (Rg : sg <= 0 \/ ((i < r)%nat /\ (j < r)%nat)).
    { destruct (Qlt_le_dec 0 sg) as [H|H]; [right|left; exact H].
      specialize (Hr H). split.
      - destruct (le_lt_dec r i) as [A|A]; [|exact A].
        pose proof (e_mono r i A); lra.
      - destruct (le_lt_dec r j) as [A|A]; [|exact A].
        pose proof (e_mono r j A); lra. }
    assert (Hsum : e (i + j) < z1 + z2).
    { destruct Rg as [R|[R1 R2]].
      - pose proof (Mq_super i j). pose proof (s_le i); pose proof (s_le j).
        pose proof (e_le (i + j)). unfold e in *. pose proof (s_nonneg (i + j)). lra.
      - pose proof (e_super i j R1 R2). lra. }
    pose proof (lev_gt k (z1 + z2) (i + j) Hk Hsum) as Kij.
    (* a later sum stays below z *)
    assert (Later : forall i j z, sg <= 0 \/ (i < r)%nat -> 0 <= z -> e i < z ->
                    Mq (S j + i) - Mq (S j) <= z).
    { clear - lam_pos mm_dec mm_lam mm_virt sg_lo sg_hi a_hi r_pos.
      intros i j z R Z0 Z1.
      pose proof (Mq_tele i (S j) ltac:(lia)) as A. unfold e in Z1.
      pose proof (mm_mono 0 i ltac:(lia)).
      destruct R as [R|R].
      - pose proof (s_le i); lra.
      - destruct (s_small i R); lra. }
    pose proof (Later i j z1 (match Rg with or_introl h => or_introl h | or_intror h => or_intror (proj1 h) end) P1 Zi) as Q1.
    pose proof (Later j i z2 (match Rg with or_introl h => or_introl h | or_intror h => or_intror (proj2 h) end) P2 Zj) as Q2.
    destruct (le_lt_dec (i + j + 3) k) as [Big|Small].
    { left. destruct k as [|k]; [lia|]. simpl.
      pose proof (L_mono (S i + S j) k ltac:(lia)) as A. rewrite L_plus in A. lra. }
    pose proof (proj1 Hi) as Ei. pose proof (proj1 Hj) as Ej.
    pose proof (e_le (S i)); pose proof (e_le (S j)).
    assert (Lij : L (i + j) == L i + L j) by apply L_plus.
    destruct (Nat.eq_dec k (i + j + 2)) as [->|Nk].
    - replace (i + j + 2)%nat with (S (S (i + j))) by lia.
      pose proof (Mq_super (S i) (S j)) as B.
      replace (S i + S j)%nat with (S (S (i + j))) in B by lia.
      unfold lef in *. simpl L in *. simpl Mq in *.
      destruct F1 as [F1|F1], F2 as [F2|F2]; [left|left|left|right]; lra.
    - assert (k = S (i + j)) as -> by lia.
      assert (B : Mq (S (i + j)) + lam <= Mq (S i) + Mq (S j)).
      { pose proof (Mq_super i (S j)) as B. rewrite Nat.add_succ_r in B.
        simpl Mq in *. pose proof (mm_lam i). lra. }
      replace (S j + i)%nat with (S (i + j)) in Q1 by lia.
      replace (S i + j)%nat with (S (i + j)) in Q2 by lia.
      unfold lef in *. simpl L in *. simpl Mq in *.
      destruct F1 as [F1|F1], F2 as [F2|F2]; [left|right|right|right]; lra.
  Qed.

  (** The sum over the lifted items: [(c, z)] *)
  Fixpoint sumc (l : list (Q * Q)) : Q := match l with [] => 0 | p :: l' => fst p + sumc l' end.
  Fixpoint sumz (l : list (Q * Q)) : Q := match l with [] => 0 | p :: l' => snd p + sumz l' end.
  Definition below (c z : Q) : Prop := 0 <= z /\ forall k, lev k z -> lef c k z.

  Lemma below_sum : forall l,
    (forall p, In p l -> below (fst p) (snd p)) ->
    (0 < sg -> sumz l <= e r) -> below (sumc l) (sumz l).
  Proof.
    induction l as [|[c z] l IH]; intros H Hr.
    - split; [simpl; lra|]. intros k _. simpl. apply lef_zero; lra.
    - destruct (H (c, z) (or_introl eq_refl)) as [Z0 Zf].
      assert (B : below (sumc l) (sumz l)).
      { apply IH; [intros p Hp; apply H; now right|].
        intros S0; specialize (Hr S0); simpl in *; lra. }
      destruct B as [B0 Bf]. simpl in *.
      split; [lra|]. intros k Hk.
      destruct (lev_exists z) as [i Hi], (lev_exists (sumz l)) as [j Hj].
      apply (super c (sumc l) i j k z (sumz l)); auto.
  Qed.

  (** The base inequality leaves room for the lifting function: [n] of the
      items are switched, with total [mK]. *)
  Lemma gap_room : forall n mK G Z,
    0 <= Z -> (n <= r)%nat -> mK <= Mq n ->
    L n - lam <= G -> Z - mK + L n <= G ->
    (0 < sg -> Z <= e r) ->
    ((* all the items of C++ are switched *) (0 < sg -> Z <= mK - sg)
     \/ (* one is not *) ((n < r)%nat /\ mK + a <= Mq (S n))) ->
    forall c, below c Z -> c <= G.
  Proof.
    intros n mK G Z Z0 Hn HK G1 G2 Hr Alt c [_ F].
    destruct (lev_exists Z) as [k Hk]. specialize (F k Hk).
    destruct (Nat.lt_trichotomy n k) as [T|[T|T]].
    - (* n < k *)
      destruct F as [F|F].
      2:{ pose proof (ML_mono n k ltac:(lia)); lra. }
      destruct k as [|k]; [lia|]. simpl in F.
      pose proof (proj2 Hk k ltac:(lia)) as Zk.
      assert (A : 0 < sg -> (k < r)%nat).
      { intros S0; specialize (Hr S0). destruct (le_lt_dec r k) as [B|B]; [|exact B].
        pose proof (e_mono r k B); lra. }
      pose proof (ML_mono n k ltac:(lia)) as Mn.
      destruct (Qlt_le_dec 0 sg) as [S0|S0].
      2:{ unfold e in Zk; pose proof (s_le k); lra. }
      specialize (A S0).
      destruct Alt as [Alt|[A1 A2]].
      + specialize (Alt S0). pose proof (e_mono n k ltac:(lia)).
        unfold e in *. pose proof (s_le n). lra.
      + simpl in A2. unfold e in Zk.
        destruct (s_small k A) as [Sk|Sk]; [lra|].
        destruct (Nat.eq_dec n k) as [->|Ne].
        * lra.
        * pose proof (ML_mono (S n) k ltac:(lia)) as M1. simpl in M1.
          pose proof (mm_lam k). lra.
    - subst k. destruct F as [F|F]; lra.
    - (* k < n *)
      pose proof (lef_top c k Z Hk F). destruct n as [|n]; [lia|].
      simpl in G1. pose proof (L_mono k n ltac:(lia)). lra.
  Qed.
End Lift.
