(** * Sequence-independent lifting of cover inequalities *)

From Coq Require Import Permutation Sorted Qabs.
From Verif Require Import Base Model_KnapsackCover.
Local Open Scope Q_scope.

(** ** Weights of sorted covers *)

Definition heavier (e f : item) : Prop := snd f <= snd e.
Definition sorted_cover (v : list item) : Prop := StronglySorted heavier v.
Definition positive (v : list item) : Prop := Forall (fun e => 0 < snd e) v.
Definition binary_on (v : list item) (y : nat -> Q) : Prop := forall e, In e v -> y (fst e) == 0 \/ y (fst e) == 1.

Lemma weight_app u v : weight (u ++ v) == weight u + weight v.
Proof. induction u as [|e u IH]; simpl; [lra|]. rewrite IH. lra. Qed.
Lemma weight_nonneg v : positive v -> 0 <= weight v.
Proof. induction 1; simpl; lra. Qed.
Lemma weight_perm u v : Permutation u v -> weight u == weight v.
Proof. induction 1; simpl; lra. Qed.
Lemma weight_split s v : weight v == weight (firstn s v) + weight (skipn s v).
Proof. rewrite <- (firstn_skipn s v) at 1. apply weight_app. Qed.
Lemma positive_skipn s v : positive v -> positive (skipn s v).
Proof. intro H. rewrite <- (firstn_skipn s v) in H. apply Forall_app in H. apply H. Qed.

Lemma skipn_skipn_add {A} (v : list A) a b : skipn b (skipn a v) = skipn (a + b) v.
Proof. revert v. induction a as [|a IH]; intros v; [reflexivity|]. destruct v; simpl; [apply skipn_nil|apply IH]. Qed.

Lemma cw_nonneg v i : positive v -> 0 <= cw v i.
Proof.
  intro H. unfold cw. revert i. induction H; intros [|i]; simpl; try lra. apply IHForall.
Qed.
Lemma cw_in v i : (i < length v)%nat -> exists e, In e v /\ cw v i = snd e.
Proof. intro H. exists (nth i v (0%nat, 0)). split; [apply nth_In; exact H|reflexivity]. Qed.
Lemma cw_anti v : sorted_cover v -> positive v -> forall i k, (i <= k)%nat -> cw v k <= cw v i.
Proof.
  intros S P. induction S as [|e v S IH H]; intros i k L.
  - unfold cw. destruct i, k; simpl; lra.
  - inversion P as [|? ? P1 P2]; subst. destruct k as [|k]; [destruct i; [lra|lia]|].
    destruct i as [|i].
    + unfold cw. simpl. fold (cw v k). destruct (le_lt_dec (length v) k) as [L1|L1].
      * unfold cw. rewrite nth_overflow by exact L1. simpl. lra.
      * destruct (cw_in v k L1) as (f & F1 & F2). rewrite F2. rewrite Forall_forall in H. apply H. exact F1.
    + apply (IH P2 i k). lia.
Qed.
Lemma weight_firstn_S v i : weight (firstn (S i) v) == weight (firstn i v) + cw v i.
Proof.
  revert i. induction v as [|e v IH]; intros [|i].
  - unfold cw; simpl; lra.
  - unfold cw; simpl; lra.
  - unfold cw; simpl; lra.
  - rewrite !firstn_cons. cbn [weight fold_right]. fold (weight (firstn (S i) v)). fold (weight (firstn i v)).
    rewrite (IH i). unfold cw. cbn [nth]. lra.
Qed.

(** The [k] members at one weigh at least as much as the [k] lightest. *)
Lemma count_weight v y : sorted_cover v -> positive v -> binary_on v y ->
  exists k : nat, (k <= length v)%nat /\ value (ones v) y == inject_Z (Z.of_nat k) /\
    weight (skipn (length v - k) v) <= value v y.
Proof.
  intros S P B. induction S as [|[j a] v S IH H].
  - exists 0%nat. simpl. split; [lia|]. split; reflexivity || lra.
  - inversion P as [|? ? P1 P2]; subst.
    destruct IH as (k & K1 & K2 & K3); [exact P2|intros e I; apply B; right; exact I|].
    destruct (B (j, a) (or_introl eq_refl)) as [Y|Y]; simpl in Y.
    + exists k. simpl length. split; [lia|]. split.
      * simpl. rewrite Y, K2. lra.
      * replace (Datatypes.S (length v) - k)%nat with (Datatypes.S (length v - k)) by lia.
        simpl. rewrite Y. lra.
    + exists (Datatypes.S k). simpl length. split; [lia|]. split.
      * change (value (ones ((j, a) :: v)) y) with (1 * y j + value (ones v) y). rewrite Y, K2. rewrite Nat2Z.inj_succ. unfold Z.succ. rewrite inject_Z_plus. change (inject_Z 1) with 1. lra.
      * replace (Datatypes.S (length v) - Datatypes.S k)%nat with (length v - k)%nat by lia.
        cbn [value]. rewrite Y. simpl in P1.
        destruct (length v - k)%nat as [|t] eqn:T.
        -- simpl in *. lra.
        -- assert (X : weight (skipn t v) <= a + weight (skipn (Datatypes.S t) v)).
           { pose proof (weight_split t v) as W1. pose proof (weight_split (Datatypes.S t) v) as W2.
             pose proof (weight_firstn_S v t) as W3.
             destruct (cw_in v t ltac:(lia)) as (f & F1 & F2). rewrite Forall_forall in H. apply H in F1. unfold heavier in F1. simpl in F1. rewrite F2 in W3. lra. }
           simpl skipn at 1. lra.
Qed.

(** ** Superadditivity, for any non-increasing sequence of weights *)
Section Super.
  Variable c : nat -> Q.
  Variable lambda : Q.
  Hypothesis anti : forall i k, (i <= k)%nat -> c k <= c i.
  Hypothesis pos : forall i, 0 <= c i.

  Fixpoint seg (a k : nat) : Q := match k with O => 0 | S k' => c a + seg (S a) k' end.
  Lemma seg_last a k : seg a (S k) == seg a k + c (a + k).
  Proof.
    revert a. induction k as [|k IH]; intros a.
    - simpl. rewrite Nat.add_0_r. lra.
    - change (seg a (S (S k))) with (c a + seg (S a) (S k)). rewrite IH.
      change (seg a (S k)) with (c a + seg (S a) k). replace (S a + k)%nat with (a + S k)%nat by lia. lra.
  Qed.
  Lemma seg_anti a b k : (a <= b)%nat -> seg b k <= seg a k.
  Proof.
    revert a b. induction k as [|k IH]; intros a b H; simpl; [lra|].
    pose proof (anti a b H). pose proof (IH (S a) (S b) ltac:(lia)). lra.
  Qed.
  Lemma seg_app a k l : seg a (k + l) == seg a k + seg (a + k) l.
  Proof.
    revert a. induction k as [|k IH]; intros a; simpl.
    - rewrite Nat.add_0_r. lra.
    - rewrite IH. replace (S a + k)%nat with (a + S k)%nat by lia. lra.
  Qed.
  Definition mm (i : nat) : Q := seg 0 i - lambda.

  (** the f case *)
  Lemma mm_add i k : (1 <= i)%nat -> (1 <= k)%nat -> c 1 <= mm 1 -> mm (i + k) <= mm i + mm k.
  Proof.
    intros I K H. unfold mm in *. rewrite seg_app. simpl plus. destruct k as [|k]; [lia|].
    rewrite (seg_last i k). simpl in *. pose proof (seg_anti 1 i k I). pose proof (anti 1 (i + k) ltac:(lia)). lra.
  Qed.
  Definition fR (z q : Q) : Prop :=
    0 <= z /\ (q <= 0 \/ exists s, (1 <= s)%nat /\ mm s < z /\ q <= inject_Z (Z.of_nat s)).
  Lemma inj_add i k : inject_Z (Z.of_nat (i + k)) == inject_Z (Z.of_nat i) + inject_Z (Z.of_nat k).
  Proof. rewrite Nat2Z.inj_add, inject_Z_plus. reflexivity. Qed.
  Lemma fR_add z q z' q' : c 1 <= mm 1 -> fR z q -> fR z' q' -> fR (z + z') (q + q').
  Proof.
    intros H (Z1 & A) (Z2 & B). split; [lra|].
    destruct A as [A|(i & I1 & I2 & I3)], B as [B|(k & K1 & K2 & K3)].
    - left. lra.
    - right. exists k. split; [exact K1|]. split; lra.
    - right. exists i. split; [exact I1|]. split; lra.
    - right. exists (i + k)%nat. split; [lia|]. split.
      + pose proof (mm_add i k I1 K1 H). lra.
      + rewrite inj_add. lra.
  Qed.

  (** the g case *)
  Definition rr (i : nat) : Q := if c i - mm 1 <=? 0 then 0 else c i - mm 1.
  Lemma rr_ge i : 0 <= rr i /\ c i - mm 1 <= rr i.
  Proof. unfold rr. destruct (c i - mm 1 <=? 0) eqn:E; qb; lra. Qed.
  Lemma rr_anti i k : (i <= k)%nat -> rr k <= rr i.
  Proof.
    intro H. apply anti in H. unfold rr.
    destruct (c i - mm 1 <=? 0) eqn:E; destruct (c k - mm 1 <=? 0) eqn:F; qb; lra.
  Qed.
  Lemma g_add_up i k : (1 <= k <= i)%nat -> 0 <= mm 1 ->
    mm (i + k) + rr 1 <= mm i + rr i + (mm k + rr k).
  Proof.
    intros I H. pose proof (rr_ge i). pose proof (rr_ge k). unfold mm in *. rewrite seg_app. simpl plus.
    destruct k as [|[|k]]; [lia| |].
    - simpl in *. lra.
    - simpl in *. pose proof (seg_anti 2 (S (S i)) k ltac:(lia)). 
      assert (H4 : rr 1 <= c 1%nat - (c 0%nat + 0 - lambda) \/ rr 1 <= 0).
      { unfold rr, mm. simpl. destruct (c 1%nat - (c 0%nat + 0 - lambda) <=? 0); [right|left]; lra. }
      pose proof (anti (S (S k)) (S i) ltac:(lia)). pose proof (anti 1 i ltac:(lia)).
      pose proof (anti 1 (S i) ltac:(lia)). pose proof (rr_ge 1) as G1. unfold mm in G1. simpl in G1.
      destruct H4; lra.
  Qed.
  Lemma g_add_down i k : (1 <= i)%nat -> (1 <= k)%nat -> 0 <= mm 1 ->
    mm (i + k - 1) + rr (i + k - 1) + rr 1 <= mm i + rr i + (mm k + rr k).
  Proof.
    intros I K H. pose proof (rr_ge i). pose proof (rr_ge k).
    pose proof (rr_anti k (i + k - 1) ltac:(lia)).
    replace (i + k - 1)%nat with (i + (k - 1))%nat in * by lia.
    assert (R1 : rr 1 <= c 1%nat - mm 1 \/ rr 1 <= 0).
    { unfold rr. destruct (c 1%nat - mm 1 <=? 0); [right|left]; lra. }
    unfold mm at 1 2 3. rewrite seg_app. simpl plus.
    destruct k as [|[|k]]; [lia| |].
    - simpl. simpl Nat.sub in *. rewrite Nat.add_0_r in *. unfold mm in *. simpl in *. lra.
    - simpl Nat.sub in *. simpl. pose proof (seg_anti 2 (S i) k ltac:(lia)). pose proof (anti 1 i I).
      unfold mm in *. simpl in *. destruct R1; lra.
  Qed.
  Lemma mm_step i k : (1 <= i)%nat -> (1 <= k)%nat -> 0 <= mm 1 -> mm (i + k - 1) <= mm i + mm k.
  Proof.
    intros I K H. replace (i + k - 1)%nat with (i + (k - 1))%nat by lia.
    unfold mm in *. rewrite seg_app. simpl plus. destruct k as [|k]; [lia|]. simpl Nat.sub. rewrite Nat.sub_0_r.
    simpl in *. pose proof (seg_anti 1 i k I). lra.
  Qed.
  Definition gR (z q : Q) : Prop :=
    0 <= z /\ (q <= 0 \/ exists s, (1 <= s)%nat /\ mm s < z /\ q <= inject_Z (Z.of_nat s) /\
                         mm s + rr s - z <= rr 1 * (inject_Z (Z.of_nat s) - q)).
  Lemma gR_mono s z q z' q' : 0 < rr 1 -> z <= z' -> q' <= q ->
    mm s + rr s - z <= rr 1 * (inject_Z (Z.of_nat s) - q) ->
    mm s + rr s - z' <= rr 1 * (inject_Z (Z.of_nat s) - q').
  Proof.
    intros R A B H. assert (X : 0 <= rr 1 * (q - q')) by (apply Qmult_le_0_compat; lra). lra.
  Qed.
  Lemma gR_both z q z' q' i k : 0 <= mm 1 -> 0 < rr 1 -> (1 <= k <= i)%nat ->
    mm i < z -> q <= inject_Z (Z.of_nat i) -> mm i + rr i - z <= rr 1 * (inject_Z (Z.of_nat i) - q) ->
    mm k < z' -> q' <= inject_Z (Z.of_nat k) -> mm k + rr k - z' <= rr 1 * (inject_Z (Z.of_nat k) - q') ->
    exists s, (1 <= s)%nat /\ mm s < z + z' /\ q + q' <= inject_Z (Z.of_nat s) /\
              mm s + rr s - (z + z') <= rr 1 * (inject_Z (Z.of_nat s) - (q + q')).
  Proof.
    intros H R L A1 A2 A3 B1 B2 B3.
    pose proof (inj_add i k) as IK.
    destruct (Qlt_le_dec (inject_Z (Z.of_nat i) + inject_Z (Z.of_nat k) - (q + q')) 1) as [D|D].
    - exists (i + k)%nat. pose proof (g_add_up i k L H) as U. pose proof (rr_anti 1 (i + k) ltac:(lia)) as V.
      assert (X : 0 < rr 1 * (1 - (inject_Z (Z.of_nat i) + inject_Z (Z.of_nat k) - (q + q')))).
      { apply Qmult_lt_0_compat; lra. }
      split; [lia|]. rewrite IK. split; [lra|]. split; lra.
    - exists (i + k - 1)%nat. pose proof (g_add_down i k ltac:(lia) ltac:(lia) H) as U.
      pose proof (mm_step i k ltac:(lia) ltac:(lia) H) as V.
      assert (IK1 : inject_Z (Z.of_nat (i + k - 1)) == inject_Z (Z.of_nat i) + inject_Z (Z.of_nat k) - 1).
      { rewrite <- IK. rewrite Nat2Z.inj_sub by lia. unfold Z.sub. rewrite inject_Z_plus. change (inject_Z (- Z.of_nat 1)) with (- (1)). lra. }
      split; [lia|]. rewrite IK1. split; [lra|]. split; lra.
  Qed.
  Lemma gR_add z q z' q' : 0 <= mm 1 -> 0 < rr 1 -> gR z q -> gR z' q' -> gR (z + z') (q + q').
  Proof.
    intros H R (Z1 & A) (Z2 & B). split; [lra|].
    destruct A as [A|(i & I1 & I2 & I3 & I4)], B as [B|(k & K1 & K2 & K3 & K4)].
    - left. lra.
    - right. exists k. split; [exact K1|]. split; [lra|]. split; [lra|]. apply (gR_mono k z' q'); lra.
    - right. exists i. split; [exact I1|]. split; [lra|]. split; [lra|]. apply (gR_mono i z q); lra.
    - right. destruct (le_lt_dec k i) as [L|L].
      + apply (gR_both z q z' q' i k); auto.
      + destruct (gR_both z' q' z q k i) as (s & S1 & S2 & S3 & S4); auto; [lia|].
        exists s. split; [exact S1|]. split; [lra|]. split; [lra|].
        assert (E : q' + q == q + q') by ring. assert (E2 : z' + z == z + z') by ring.
        rewrite E, E2 in S4. exact S4.
  Qed.
End Super.

(** ** The lifting routine *)

Lemma seg_weight cover i : seg (cw cover) 0 i == weight (firstn i cover).
Proof.
  induction i as [|i IH]; [simpl; destruct cover; reflexivity|].
  rewrite seg_last, weight_firstn_S, IH. reflexivity.
Qed.
Lemma muML_mm cover lambda i : muML cover lambda i == mm (cw cover) lambda i.
Proof. unfold muML, mm. rewrite seg_weight. reflexivity. Qed.
Lemma rho_rr cover lambda i : positive cover -> (1 <= i)%nat -> 0 <= muML cover lambda 1 ->
  rho cover lambda i == rr (cw cover) lambda i.
Proof.
  intros P I H. destruct i as [|i]; [lia|]. unfold rho, rr.
  pose proof (muML_mm cover lambda 1) as M.
  destruct (Nat.ltb (S i) (length cover)) eqn:L.
  - cbv zeta. destruct (cw cover (S i) - muML cover lambda 1 <=? 0) eqn:E;
    destruct (cw cover (S i) - mm (cw cover) lambda 1 <=? 0) eqn:F; qb; lra.
  - apply Nat.ltb_ge in L. assert (Z : cw cover (S i) = 0) by (unfold cw; rewrite nth_overflow by exact L; reflexivity).
    rewrite Z. destruct (0 - mm (cw cover) lambda 1 <=? 0) eqn:F; qb; lra.
Qed.

Lemma f_search_ok cover lambda a : forall k i q,
  (1 <= i)%nat -> muML cover lambda i < a \/ (i = 1)%nat /\ muML cover lambda 1 < a ->
  f_search cover lambda a (S i) k = Some q ->
  exists s, (1 <= s)%nat /\ muML cover lambda s < a /\ q == inject_Z (Z.of_nat s).
Proof.
  induction k as [|k IH]; intros i q I H E; [discriminate|]. cbn [f_search] in E.
  destruct (a <=? muML cover lambda (S i)) eqn:A.
  - apply Some_inj in E. exists i. split; [exact I|]. split; [destruct H as [H|[-> H]]; exact H|].
    rewrite <- E. rewrite Nat2Z.inj_succ. unfold Z.succ. rewrite inject_Z_plus. change (inject_Z 1) with 1. lra.
  - qb. apply (IH (S i) q); [lia|left; exact A|exact E].
Qed.
Lemma f_coef_ok cover lambda a q : 0 <= a -> f_coef cover lambda a = Some (Some q) -> fR (cw cover) lambda a q.
Proof.
  intros P E. unfold f_coef in E. destruct (a <=? muML cover lambda 1 + eps) eqn:A; [discriminate|]. qb.
  destruct (f_search cover lambda a 2 (length cover - 1)) as [q'|] eqn:S; [|discriminate].
  apply Some_inj in E. apply Some_inj in E. subst q'.
  assert (M : muML cover lambda 1 < a) by (unfold eps in A; lra).
  destruct (f_search_ok cover lambda a _ 1%nat q (le_n _) (or_introl M) S) as (s & S1 & S2 & S3).
  split; [exact P|]. right. exists s. rewrite muML_mm in S2. split; [exact S1|]. split; [exact S2|]. lra.
Qed.
Lemma g_search_ok cover lambda a : positive cover -> 0 <= muML cover lambda 1 -> 0 < rho cover lambda 1 ->
  forall k i q, (i = 0%nat \/ muML cover lambda i + rho cover lambda i <= a /\ muML cover lambda i < a) ->
  g_search cover lambda a i k = Some q ->
  exists s, (1 <= s)%nat /\ muML cover lambda s < a /\ q <= inject_Z (Z.of_nat s) /\
    muML cover lambda s + rho cover lambda s - a <= rho cover lambda 1 * (inject_Z (Z.of_nat s) - q).
Proof.
  intros P H R. induction k as [|k IH]; intros i q I E; [discriminate|]. cbn [g_search] in E.
  destruct (a <=? muML cover lambda (S i)) eqn:A.
  - destruct i as [|i]; [discriminate|]. apply Some_inj in E. destruct I as [I|[I1 I2]]; [discriminate|].
    exists (S i). split; [lia|]. split; [exact I2|]. rewrite <- E. split; [lra|].
    assert (X : rho cover lambda 1 * (inject_Z (Z.of_nat (S i)) - inject_Z (Z.of_nat (S i))) == 0) by ring. lra.
  - qb. destruct (a <? muML cover lambda (S i) + rho cover lambda (S i)) eqn:B.
    + qb. cbv zeta in E.
      match type of E with (if ?c then Some ?t else None) = Some q => destruct c; [apply Some_inj in E|discriminate] end.
      assert (J : inject_Z (Z.of_nat (S i)) == inject_Z (Z.of_nat i) + 1).
      { rewrite Nat2Z.inj_succ. unfold Z.succ. rewrite inject_Z_plus. reflexivity. }
      set (d := muML cover lambda (S i) + rho cover lambda (S i) - a) in *.
      assert (Dp : 0 < d) by (unfold d; lra).
      assert (DR : 0 <= d / rho cover lambda 1).
      { apply Qle_shift_div_l; [exact R|]. lra. }
      assert (DM : rho cover lambda 1 * (d / rho cover lambda 1) == d) by (field; lra).
      exists (S i). split; [lia|]. split; [exact A|]. rewrite J, <- E. split; [lra|].
      assert (X : rho cover lambda 1 * (inject_Z (Z.of_nat i) + 1 - (inject_Z (Z.of_nat i) + 1 - d / rho cover lambda 1)) ==
                  rho cover lambda 1 * (d / rho cover lambda 1)) by ring.
      rewrite X, DM. apply Qle_refl.
    + qb. apply (IH (S i) q); [right; split; [exact B|exact A]|exact E].
Qed.
Lemma g_search_R cover lambda a q k : positive cover -> 0 <= muML cover lambda 1 -> 0 < rho cover lambda 1 ->
  0 <= a -> g_search cover lambda a 0 k = Some q -> gR (cw cover) lambda a q.
Proof.
  intros P H R A E.
  destruct (g_search_ok cover lambda a P H R k 0%nat q (or_introl eq_refl) E) as (s & S1 & S2 & S3 & S4).
  split; [exact A|]. right. exists s. rewrite (rho_rr cover lambda s P S1 H), (rho_rr cover lambda 1 P (le_n _) H) in S4.
  rewrite muML_mm in S2, S4. auto.
Qed.

Section Lift.
  Variable y : nat -> Q.

  Lemma f_lift_ok cover lambda : sorted_cover cover -> positive cover -> cw cover 1 <= mm (cw cover) lambda 1 ->
    forall rem l, positive rem -> binary_on rem y -> f_lift cover lambda rem = Some l ->
    fR (cw cover) lambda (value rem y) (value l y).
  Proof.
    intros S P H. pose proof (cw_anti cover S P) as An.
    induction rem as [|[j a] rem IH]; intros l Pr B E; simpl in E.
    - apply Some_inj in E. subst. simpl. split; [lra|]. left. lra.
    - inversion Pr as [|? ? P1 P2]; subst. simpl in P1.
      assert (B2 : binary_on rem y) by (intros e I; apply B; right; exact I).
      pose proof (B (j, a) (or_introl eq_refl)) as By. simpl in By.
      destruct (f_coef cover lambda a) as [[q|]|] eqn:F; [| |discriminate];
        destruct (f_lift cover lambda rem) as [l'|] eqn:G; try discriminate; apply Some_inj in E; subst l;
        specialize (IH l' P2 B2 eq_refl).
      + simpl. assert (X : fR (cw cover) lambda (a * y j) (q * y j)).
        { destruct By as [Y|Y]; [split; [rewrite Y; lra|left; rewrite Y; lra]|].
          apply (f_coef_ok cover lambda a q) in F; [|lra]. destruct F as (F1 & F2). split; [rewrite Y; lra|].
          destruct F2 as [F2|(s & S1 & S2 & S3)]; [left; rewrite Y; lra|right; exists s; split; [exact S1|]; rewrite Y; lra]. }
        apply (fR_add (cw cover) lambda An); [exact H|exact X|exact IH].
      + simpl. destruct IH as (I1 & I2). assert (0 <= a * y j) by (destruct By as [Y|Y]; rewrite Y; lra).
        split; [lra|]. destruct I2 as [I2|(s & S1 & S2 & S3)]; [left; exact I2|right; exists s; split; [exact S1|]; split; [lra|exact S3]].
  Qed.
  Lemma g_lift_ok cover lambda : sorted_cover cover -> positive cover -> 0 <= muML cover lambda 1 -> 0 < rho cover lambda 1 ->
    forall rem, positive rem -> binary_on rem y ->
    gR (cw cover) lambda (value rem y) (value (g_lift cover lambda rem) y).
  Proof.
    intros S P H R. pose proof (cw_anti cover S P) as An.
    assert (H' : 0 <= mm (cw cover) lambda 1) by (rewrite <- muML_mm; exact H).
    assert (R' : 0 < rr (cw cover) lambda 1) by (rewrite <- (rho_rr cover lambda 1 P (le_n _) H); exact R).
    induction rem as [|[j a] rem IH]; intros Pr B; simpl.
    - split; [lra|]. left. lra.
    - inversion Pr as [|? ? P1 P2]; subst. simpl in P1.
      assert (B2 : binary_on rem y) by (intros e I; apply B; right; exact I).
      pose proof (B (j, a) (or_introl eq_refl)) as By. simpl in By. specialize (IH P2 B2).
      destruct (g_search cover lambda a 0 (length cover)) as [q|] eqn:G.
      + simpl. apply (gR_add (cw cover) lambda An); [exact H'|exact R'| |exact IH].
        destruct By as [Y|Y]; [split; [rewrite Y; lra|left; rewrite Y; lra]|].
        apply (g_search_R cover lambda a q) in G; auto; [|lra]. destruct G as (F1 & F2). split; [rewrite Y; lra|].
        assert (E1 : a * y j == a) by (rewrite Y; lra). assert (E2 : q * y j == q) by (rewrite Y; lra).
        destruct F2 as [F2|(s & S1 & S2 & S3 & S4)]; [left; rewrite E2; exact F2|right; exists s].
        rewrite E1, E2. auto.
      + assert (0 <= a * y j) by (destruct By as [Y|Y]; rewrite Y; lra).
        destruct IH as (I1 & I2). split; [lra|].
        destruct I2 as [I2|(s & S1 & S2 & S3 & S4)]; [left; exact I2|right; exists s; split; [exact S1|]; split; [lra|split; [exact S3|lra]]].
  Qed.

  (** the common end of both cases *)
  Lemma close_cover b cover rem q : sorted_cover cover -> positive cover -> binary_on cover y ->
    b < weight cover -> 0 <= value rem y -> value cover y + value rem y <= b ->
    (q <= 0 \/ exists s, (1 <= s)%nat /\ mm (cw cover) (weight cover - b) s < value rem y /\ q <= inject_Z (Z.of_nat s)) ->
    value (ones cover) y + q <= inject_Z (Z.of_nat (length cover)) - 1.
  Proof.
    intros So P B W Z K H. destruct (count_weight cover y So P B) as (k & K1 & K2 & K3).
    assert (N : forall t, (S k + t <= length cover)%nat -> q <= inject_Z (Z.of_nat t) ->
                value (ones cover) y + q <= inject_Z (Z.of_nat (length cover)) - 1).
    { intros t T Hq. rewrite K2. assert (X : inject_Z (Z.of_nat (S k + t)) <= inject_Z (Z.of_nat (length cover))).
      { rewrite <- Zle_Qle. lia. }
      rewrite Nat2Z.inj_add, Nat2Z.inj_succ, inject_Z_plus in X. unfold Z.succ in X. rewrite inject_Z_plus in X.
      change (inject_Z 1) with 1 in X. lra. }
    destruct H as [H|(s & S1 & S2 & S3)].
    - apply (N 0%nat); [|exact H]. destruct (Nat.eq_dec k (length cover)) as [->|D]; [|lia].
      rewrite Nat.sub_diag in K3. simpl in K3. lra.
    - destruct (le_lt_dec (S k + s) (length cover)) as [L|L]; [exact (N s L S3)|exfalso].
      unfold mm in S2. rewrite seg_weight in S2. pose proof (weight_split s cover) as W1.
      assert (X : weight (skipn s cover) <= weight (skipn (length cover - k) cover)).
      { replace s with ((length cover - k) + (s - (length cover - k)))%nat by lia.
        rewrite <- (skipn_skipn_add cover). set (v := skipn (length cover - k) cover).
        assert (Pv : positive v) by (apply positive_skipn; exact P).
        pose proof (weight_split (s - (length cover - k)) v) as W2.
        assert (0 <= weight (firstn (s - (length cover - k)) v)).
        { apply weight_nonneg. rewrite <- (firstn_skipn (s - (length cover - k)) v) in Pv. apply Forall_app in Pv. apply Pv. }
        lra. }
      lra.
  Qed.
End Lift.

Lemma liftCoverCut_ok b cover rem cut y :
  sorted_cover cover -> positive cover -> positive rem ->
  weight cover - cw cover 0 <= b ->
  cw cover 1 <= cw cover 0 - (weight cover - b) \/ cw cover 0 - (weight cover - b) < cw cover 1 - eps ->
  liftCoverCut b cover rem = Done (Some cut) ->
  binary_on cover y -> binary_on rem y -> value cover y + value rem y <= b ->
  value cut y <= inject_Z (Z.of_nat (length cover)) - 1.
Proof.
  intros S P Pr Min Gap E B1 B2 K. unfold liftCoverCut in E. cbv zeta in E.
  destruct (weight cover - b <? eps2) eqn:L; [discriminate|]. qb. unfold eps2 in L.
  destruct cover as [|e1 [|e2 cv]]; try discriminate. set (cover := e1 :: e2 :: cv) in *.
  assert (M1 : muML cover (weight cover - b) 1 == cw cover 0 - (weight cover - b)).
  { unfold muML. change (weight (firstn 1 cover)) with (snd e1 + 0). change (cw cover 0) with (snd e1). lra. }
  assert (Zr : 0 <= value rem y).
  { clear - Pr B2. induction rem as [|[j a] rem IH]; simpl; [lra|]. inversion Pr; subst. simpl in *.
    assert (0 <= value rem y) by (apply IH; [assumption|intros e I; apply B2; right; exact I]).
    destruct (B2 (j, a) (or_introl eq_refl)) as [Y|Y]; simpl in Y; rewrite Y; lra. }
  destruct (cw cover 1 - eps <=? muML cover (weight cover - b) 1) eqn:F; qb.
  - destruct (f_lift cover (weight cover - b) rem) as [l|] eqn:G; [|discriminate].
    apply Done_inj in E. apply Some_inj in E. subst cut. rewrite value_app.
    assert (C : cw cover 1 <= mm (cw cover) (weight cover - b) 1) by (rewrite <- muML_mm; lra).
    destruct (f_lift_ok y cover _ S P C rem l Pr B2 G) as (_ & R).
    apply (close_cover y b cover rem (value l y)); auto. lra.
  - apply Done_inj in E. apply Some_inj in E. subst cut. rewrite value_app.
    assert (H0 : 0 <= muML cover (weight cover - b) 1) by (rewrite M1; lra).
    assert (R0 : 0 < rho cover (weight cover - b) 1).
    { rewrite (rho_rr cover _ 1 P (le_n _) H0). destruct (rr_ge (cw cover) (weight cover - b) 1) as [_ X].
      rewrite <- muML_mm in X. unfold eps in F. lra. }
    destruct (g_lift_ok y cover _ S P H0 R0 rem Pr B2) as (_ & R).
    apply (close_cover y b cover rem (value (g_lift cover (weight cover - b) rem) y)); auto; [lra|].
    destruct R as [R|(s & S1 & S2 & S3 & _)]; [left; exact R|right; exists s; auto].
Qed.
