(** * The exact knapsack solver: optimality and termination *)

From Coq Require Import Permutation Sorted.
From Verif Require Import Base Model_KnapsackCover.
Local Open Scope Q_scope.

(** Profit and weight of a selection. *)
Fixpoint pf (l : list pw) (y : list bool) : Q :=
  match l, y with
  | (p, _) :: l', b :: y' => (if b then p else 0) + pf l' y'
  | _, _ => 0
  end.
Fixpoint wt (l : list pw) (y : list bool) : Q :=
  match l, y with
  | (_, w) :: l', b :: y' => (if b then w else 0) + wt l' y'
  | _, _ => 0
  end.

Lemma pf_app l y l' y' : length l = length y -> pf (l ++ l') (y ++ y') == pf l y + pf l' y'.
Proof.
  revert y. induction l as [|[p w] l IH]; intros [|b y] H; simpl in *; try discriminate; [lra|].
  rewrite IH by congruence. lra.
Qed.
Lemma wt_app l y l' y' : length l = length y -> wt (l ++ l') (y ++ y') == wt l y + wt l' y'.
Proof.
  revert y. induction l as [|[p w] l IH]; intros [|b y] H; simpl in *; try discriminate; [lra|].
  rewrite IH by congruence. lra.
Qed.
Lemma wt_nonneg l y : Forall (fun i => 0 < snd i) l -> 0 <= wt l y.
Proof.
  intro H. revert y. induction H as [|[p w] l Hw H IH]; intros [|b y]; simpl in *; try lra.
  specialize (IH y). destruct b; lra.
Qed.

Lemma Qmult_le_l_weak a b c : 0 <= a -> b <= c -> a * b <= a * c.
Proof. intros. rewrite (Qmult_comm a b), (Qmult_comm a c). apply Qmult_le_compat_r; assumption. Qed.

(** Items sorted by ratio, in cross-multiplied form. *)
Definition dominates (i j : pw) : Prop := fst j * snd i <= fst i * snd j.
Definition item_ok (i : pw) : Prop := 0 < snd i /\ 0 <= fst i /\ integral (fst i).
Definition sorted_items (l : list pw) : Prop := StronglySorted dominates l.

Lemma pf_integral l y : Forall item_ok l -> integral (pf l y).
Proof.
  intro H. revert y. induction H as [|[p w] l Hw H IH]; intros [|b y]; simpl; try apply integral_0.
  apply integral_plus; [|apply IH]. destruct b; [apply Hw|apply integral_0].
Qed.
Lemma pf_ratio l y p w : 0 < w -> Forall (fun i => dominates (p, w) i) l -> Forall item_ok l ->
  pf l y * w <= p * wt l y.
Proof.
  intros Hw H K. revert y. induction l as [|[p' w'] l IH]; intros [|b y]; simpl; try lra.
  inversion H as [|? ? H1 H2]; inversion K as [|? ? K1 K2]; subst.
  unfold dominates in H1; simpl in H1. specialize (IH H2 K2 y). destruct b; lra.
Qed.
Lemma pf_le_all l y : Forall item_ok l -> pf l y <= pf l (map (fun _ => true) l).
Proof.
  intro H. revert y. induction H as [|[p w] l Hw H IH]; intros [|b y]; simpl in *; try lra.
  - assert (E : 0 <= pf l (map (fun _ => true) l)).
    { clear - H. induction H as [|[p w] l Hw H IH]; simpl; [lra|]. destruct Hw as (_ & Hp & _). simpl in Hp. lra. }
    destruct Hw as (_ & Hp & _). simpl in Hp. lra.
  - destruct Hw as (_ & Hp & _). simpl in Hp. specialize (IH y). destruct b; lra.
Qed.

(** Dantzig's bound.  [pre] are the items already taken by the bound. *)
Lemma dantzig chat : forall l pre y1 y2,
  sorted_items (pre ++ l) -> Forall item_ok (pre ++ l) ->
  length pre = length y1 -> length l = length y2 ->
  wt (pre ++ l) (y1 ++ y2) <= chat ->
  pf (pre ++ l) (y1 ++ y2) <=
  upper_bound chat l (wt pre (map (fun _ => true) pre)) (pf pre (map (fun _ => true) pre)).
Proof.
  induction l as [|[p w] l IH]; intros pre y1 y2 S F L1 L2 W; simpl.
  - destruct y2; [|discriminate]. rewrite !app_nil_r in *.
    apply pf_le_all; exact F.
  - assert (E1 : length pre = length (map (fun _ : pw => true) pre)) by (rewrite map_length; reflexivity).
    destruct (wt pre (map (fun _ => true) pre) + w <=? chat) eqn:Q0; qb.
    + destruct y2 as [|b y2]; [discriminate|].
      specialize (IH (pre ++ [(p, w)]) (y1 ++ [b]) y2).
      rewrite <- !app_assoc in IH. simpl in IH.
      rewrite map_app in IH. simpl in IH.
      assert (U : forall a b c d, a == b -> c == d -> upper_bound chat l a c == upper_bound chat l b d).
      { clear. induction l as [|[p w] l IH]; intros a b c d H K; simpl; [exact K|].
        assert (E : (a + w <=? chat) = (b + w <=? chat)).
        { destruct (a + w <=? chat) eqn:A, (b + w <=? chat) eqn:B; qb; auto; lra. }
        rewrite E. destruct (b + w <=? chat); [apply IH; lra|].
        rewrite K. assert (X : (chat - a) * p / w == (chat - b) * p / w) by (rewrite H; reflexivity).
        unfold qfloor. rewrite (Qfloor_comp _ _ X). reflexivity. }
      assert (IH' := IH S F ltac:(rewrite !app_length, L1; reflexivity) ltac:(simpl in L2; congruence) W).
      rewrite (U _ (wt pre (map (fun _ => true) pre) + w) _ (pf pre (map (fun _ => true) pre) + p)) in IH'.
      * exact IH'.
      * rewrite wt_app by exact E1. simpl. lra.
      * rewrite pf_app by exact E1. simpl. lra.
    + (* the critical item *)
      set (wS := wt pre (map (fun _ => true) pre)) in *.
      set (pS := pf pre (map (fun _ => true) pre)) in *.
      apply Forall_app in F as [F1 F2]. inversion F2 as [|? ? Fi F3]; subst.
      destruct Fi as (Hw & Hp & Hi). simpl in Hw, Hp, Hi.
      assert (P1 : forall y, length pre = length y -> p * (wS - wt pre y) <= (pS - pf pre y) * w).
      { subst wS pS. clear - S F1 Hw.
        assert (D : Forall (fun i => dominates i (p, w)) pre).
        { clear F1. induction pre as [|i pre IH]; [constructor|]. simpl in S. inversion S as [|? ? S1 S2]; subst.
          constructor; [|apply IH; exact S1]. rewrite Forall_forall in S2. apply S2. apply in_or_app. right. left. reflexivity. }
        clear S. induction pre as [|[p' w'] pre IH]; intros [|b y] E; simpl in *; try discriminate; [lra|].
        inversion D as [|? ? D1 D2]; inversion F1 as [|? ? G1 G2]; subst.
        unfold dominates in D1; simpl in D1. specialize (IH G2 D2 y ltac:(congruence)). destruct b; lra. }
      assert (P2 : pf ((p, w) :: l) y2 * w <= p * wt ((p, w) :: l) y2).
      { apply pf_ratio; [exact Hw| |exact F2].
        assert (S' : sorted_items ((p, w) :: l)).
        { clear - S. induction pre as [|i pre IH]; [exact S|]. apply IH. simpl in S. inversion S; assumption. }
        inversion S' as [|? ? S1 S2]; subst. constructor; [|exact S2]. unfold dominates; simpl; lra. }
      rewrite wt_app in W by exact L1. rewrite pf_app by exact L1.
      specialize (P1 y1 L1).
      assert (T : pf pre y1 + pf ((p, w) :: l) y2 - pS <= (chat - wS) * p / w).
      { apply Qle_shift_div_l; [exact Hw|].
        assert (X : p * (wt pre y1 + wt ((p, w) :: l) y2) <= p * chat) by (apply Qmult_le_l_weak; assumption).
        lra. }
      assert (I : integral (pf pre y1 + pf ((p, w) :: l) y2 - pS)).
      { apply integral_minus; [apply integral_plus|]; apply pf_integral; auto. }
      apply (integral_le_floor _ _ I) in T. apply Qle_minus_iff in T. apply Qle_minus_iff. eapply Qle_trans; [exact T|]. match goal with |- ?a <= ?b => let e := fresh in assert (e : a == b); [|rewrite e; apply Qle_refl] end. change (@cons (prod Q Q)) with (@cons pw). ring.
Qed.
Lemma upper_bound_ok chat l y : sorted_items l -> Forall item_ok l -> length l = length y ->
  wt l y <= chat -> pf l y <= upper_bound chat l 0 0.
Proof. intros S F L W. exact (dantzig chat l [] [] y S F eq_refl L W). Qed.

(** ** The zipper *)

Definition bits (path : list (bool * pw)) : list bool := rev (map fst path).
Definition before (path : list (bool * pw)) : list pw := rev (map snd path).

(** [lower q p]: the decisions [q] (latest first) come strictly after [p] in the
    order in which the search visits them. *)
Fixpoint lower (q p : list bool) : Prop :=
  match q, p with
  | c :: q', b :: p' => lower q' p' \/ (q' = p' /\ b = true /\ c = false)
  | _, _ => False
  end.
Definition pending (q p : list bool) : Prop := q = p \/ lower q p.

Section Solver.
  Variable L : list pw.          (* all items *)
  Variable C : Q.                (* capacity, tolerance included *)
  Hypothesis HS : sorted_items L.
  Hypothesis HI : Forall item_ok L.
  Hypothesis HC : 0 <= C.

  (** every selection that fits is beaten or still to come *)
  Definition covered (z : Q) (rel : list bool -> list bool -> Prop) (path : list (bool * pw)) (rest : list pw) : Prop :=
    forall q y2, length q = length path -> length y2 = length rest ->
      wt L (rev q ++ y2) <= C -> pf L (rev q ++ y2) <= z \/ rel q (map fst path).
  Definition shape (path : list (bool * pw)) (rest : list pw) (chat zhat : Q) : Prop :=
    L = before path ++ rest /\ zhat == pf (before path) (bits path) /\
    C == chat + wt (before path) (bits path) /\ 0 <= chat.
  Definition best_ok (z : Q) (x : list bool) : Prop :=
    length x = length L /\ wt L x <= C /\ z == pf L x /\ 0 <= z.

  Lemma bits_len path : length (before path) = length (bits path).
  Proof. unfold before, bits. rewrite !rev_length, !map_length. reflexivity. Qed.

  Lemma shape_items path rest chat zhat : shape path rest chat zhat ->
    Forall item_ok rest /\ sorted_items rest /\ Forall item_ok (before path).
  Proof.
    intros (E & _). split; [|split].
    - rewrite E in HI. apply Forall_app in HI. apply HI.
    - rewrite E in HS. clear - HS. induction (before path) as [|i l IH]; [exact HS|].
      apply IH. simpl in HS. inversion HS; assumption.
    - rewrite E in HI. apply Forall_app in HI. apply HI.
  Qed.
  Lemma before_cons b it path : before ((b, it) :: path) = before path ++ [it].
  Proof. reflexivity. Qed.
  Lemma bits_cons b it path : bits ((b, it) :: path) = bits path ++ [b].
  Proof. reflexivity. Qed.

  Lemma shape_push b it path rest chat zhat : shape path (it :: rest) chat zhat ->
    (b = true -> snd it <= chat) ->
    shape ((b, it) :: path) rest (if b then chat - snd it else chat) (if b then zhat + fst it else zhat).
  Proof.
    intros (E & Z & K & P) H. unfold shape. rewrite before_cons, bits_cons.
    rewrite pf_app, wt_app by apply bits_len. destruct it as [p w]. simpl in *.
    split; [rewrite <- app_assoc; exact E|].
    destruct b; simpl; (split; [lra|]); (split; [lra|]); [specialize (H eq_refl)|]; lra.
  Qed.
  Lemma shape_pop b it path rest chat zhat : shape ((b, it) :: path) rest chat zhat ->
    shape path (it :: rest) (if b then chat + snd it else chat) (if b then zhat - fst it else zhat).
  Proof.
    intros S. pose proof (shape_items _ _ _ _ S) as (_ & _ & F).
    destruct S as (E & Z & K & P). rewrite before_cons in *. rewrite bits_cons in *.
    rewrite pf_app in Z by apply bits_len. rewrite wt_app in K by apply bits_len. destruct it as [p w]. simpl in *.
    apply Forall_app in F as [_ F]. inversion F as [|? ? Fi _]; subst. destruct Fi as (Fw & _); simpl in Fw.
    unfold shape. split; [rewrite E, <- app_assoc; reflexivity|].
    destruct b; simpl in *; (split; [lra|]); (split; [lra|]); lra.
  Qed.

  (** moving on *)
  Lemma covered_take z it path rest : covered z pending path (it :: rest) ->
    covered z pending ((true, it) :: path) rest.
  Proof.
    intros H q y2 L1 L2 W. destruct q as [|c q]; [discriminate|]. simpl in *.
    rewrite <- app_assoc in *. simpl in *.
    destruct (H q (c :: y2)) as [H1|[H1|H1]]; [congruence|simpl; congruence|exact W|left; exact H1| |].
    - right. destruct c; [left; subst; reflexivity|right; right; auto].
    - right. right. left. exact H1.
  Qed.
  Lemma covered_skip z it path rest chat zhat : shape path (it :: rest) chat zhat ->
    chat < snd it -> covered z pending path (it :: rest) ->
    covered z pending ((false, it) :: path) rest.
  Proof.
    intros S Hw H q y2 L1 L2 W. pose proof (shape_items _ _ _ _ S) as (F & _ & _).
    destruct q as [|c q]; [discriminate|]. simpl in *.
    rewrite <- app_assoc in *. simpl in *.
    destruct (H q (c :: y2)) as [H1|[H1|H1]]; [congruence|simpl; congruence|exact W|left; exact H1| |].
    - right. destruct c; [|left; subst; reflexivity]. exfalso.
      destruct S as (E & _ & K & _). rewrite E in W. subst q. fold (bits path) in W.
      rewrite wt_app in W by apply bits_len. destruct it as [p w]. simpl in *.
      inversion F as [|? ? _ F2]; subst.
      assert (0 <= wt rest y2) by (apply wt_nonneg; eapply Forall_impl; [|exact F2]; intros a (A & _); exact A).
      lra.
    - right. right. left. exact H1.
  Qed.
  Lemma covered_prune z path rest chat zhat : shape path rest chat zhat ->
    zhat + upper_bound chat rest 0 0 <= z -> covered z pending path rest -> covered z lower path rest.
  Proof.
    intros S U H q y2 L1 L2 W. destruct (H q y2 L1 L2 W) as [H1|[H1|H1]]; [left; exact H1| |right; exact H1].
    left. pose proof (shape_items _ _ _ _ S) as (F & So & _). destruct S as (E & Z & K & _).
    rewrite E in *. subst q. fold (bits path) in *.
    rewrite pf_app by apply bits_len. rewrite wt_app in W by apply bits_len.
    assert (pf rest y2 <= upper_bound chat rest 0 0) by (apply upper_bound_ok; auto; lra). lra.
  Qed.
  Lemma covered_pop_false z it path rest : covered z lower ((false, it) :: path) rest -> covered z lower path (it :: rest).
  Proof.
    intros H q y2 L1 L2 W. destruct y2 as [|c y2]; [discriminate|].
    destruct (H (c :: q) y2) as [H1|H1]; simpl in *; try congruence.
    - rewrite <- app_assoc. exact W.
    - left. rewrite <- app_assoc in H1. exact H1.
    - right. destruct H1 as [H1|(_ & H1 & _)]; [exact H1|discriminate].
  Qed.
  Lemma covered_turn z it path rest : covered z lower ((true, it) :: path) rest -> covered z pending ((false, it) :: path) rest.
  Proof.
    intros H q y2 L1 L2 W. destruct (H q y2 L1 L2 W) as [H1|H1]; [left; exact H1|right].
    destruct q as [|c q]; [discriminate|]. simpl in *. destruct H1 as [H1|(A & _ & B)].
    - right. left. exact H1.
    - left. congruence.
  Qed.

  Definition done_ok (z : Q) (x : list bool) : Prop :=
    best_ok z x /\ forall y, length y = length L -> wt L y <= C -> pf L y <= z.
  Definition inv (s : ks) : Prop :=
    shape (k_path s) (k_rest s) (k_chat s) (k_zhat s) /\ best_ok (k_z s) (k_x s) /\
    covered (k_z s) pending (k_path s) (k_rest s).
  Definition kres_ok (r : kres) : Prop :=
    match r with KDone z x => done_ok z x | KMore s => inv s end.

  Lemma finish_ok path : forall rest chat zhat z x,
    shape path rest chat zhat -> best_ok z x -> covered z lower path rest ->
    kres_ok (finish path rest chat zhat z x).
  Proof.
    induction path as [|[b it] path IH]; intros rest chat zhat z x S B K; unfold finish; simpl.
    - split; [exact B|]. intros y Ly W. destruct S as (E & _). simpl in E.
      destruct (K [] y eq_refl) as [H|H]; [congruence|exact W|exact H|destruct H].
    - destruct b.
      + apply shape_pop in S. simpl in *. unfold inv; simpl. split; [|split].
        * apply (shape_push false it path rest); [exact S|discriminate].
        * exact B.
        * apply covered_turn. exact K.
      + apply shape_pop in S. apply covered_pop_false in K. exact (IH _ _ _ _ _ S B K).
  Qed.

  Lemma take_ok z : forall rest path chat zhat path' rest' chat' zhat',
    shape path rest chat zhat -> covered z pending path rest ->
    take path rest chat zhat = (path', rest', chat', zhat') ->
    shape path' rest' chat' zhat' /\ covered z pending path' rest' /\
    match rest' with it :: _ => chat' < snd it | [] => True end.
  Proof.
    induction rest as [|[p w] rest IH]; intros path chat zhat path' rest' chat' zhat' S K E; simpl in E.
    - inversion E; subst. auto.
    - destruct (w <=? chat) eqn:Q0.
      + qb. eapply IH; [| |exact E].
        * apply (shape_push true (p, w) path rest chat zhat); [exact S|intros _; exact Q0].
        * apply covered_take. exact K.
      + inversion E; subst. qb. auto.
  Qed.
  Lemma pass_ok z path rest chat zhat path' rest' chat' zhat' :
    shape path rest chat zhat -> covered z pending path rest ->
    pass path rest chat zhat = (path', rest', chat', zhat') ->
    shape path' rest' chat' zhat' /\ covered z pending path' rest'.
  Proof.
    intros S K E. unfold pass in E.
    destruct (take path rest chat zhat) as [[[p1 r1] c1] z1] eqn:T.
    destruct (take_ok z _ _ _ _ _ _ _ _ S K T) as (S1 & K1 & M).
    destruct r1 as [|it r1]; inversion E; subst; [auto|]. split.
    - apply (shape_push false it p1 rest' chat' zhat'); [exact S1|discriminate].
    - eapply covered_skip; eassumption.
  Qed.
  Lemma forward_ok z path rest chat zhat path' rest' chat' zhat' :
    shape path rest chat zhat -> covered z pending path rest ->
    forward path rest chat zhat = (path', rest', chat', zhat') ->
    shape path' rest' chat' zhat' /\ covered z pending path' rest'.
  Proof.
    intros S K E. unfold forward in E.
    destruct (pass path rest chat zhat) as [[[p1 r1] c1] z1] eqn:T.
    destruct (pass_ok z _ _ _ _ _ _ _ _ S K T) as (S1 & K1).
    destruct r1 as [|i1 [|i2 r1]]; try (inversion E; subst; auto; fail).
    eapply pass_ok; eassumption.
  Qed.

  Lemma kstep_ok s : inv s -> kres_ok (kstep s).
  Proof.
    intros (S & B & K). unfold kstep. cbv zeta.
    destruct (k_zhat s + upper_bound (k_chat s) (k_rest s) 0 0 <=? k_z s) eqn:Q0.
    - qb. apply finish_ok; [exact S|exact B|]. eapply covered_prune; eassumption.
    - destruct (forward (k_path s) (k_rest s) (k_chat s) (k_zhat s)) as [[[path rest] chat] zhat] eqn:E.
      destruct (forward_ok (k_z s) _ _ _ _ _ _ _ _ S K E) as (S1 & K1).
      destruct rest as [|i rest]; [|unfold kres_ok, inv; simpl; auto].
      set (z := if k_z s <? zhat then zhat else k_z s).
      set (x := if k_z s <? zhat then rev (map fst path) else k_x s).
      assert (Z1 : zhat <= z) by (unfold z; destruct (k_z s <? zhat) eqn:Q1; qb; lra).
      assert (Z2 : k_z s <= z) by (unfold z; destruct (k_z s <? zhat) eqn:Q1; qb; lra).
      assert (B1 : best_ok z x).
      { unfold z, x. destruct (k_z s <? zhat) eqn:Q1; [|exact B]. qb. destruct S1 as (E1 & E2 & E3 & E4).
        rewrite app_nil_r in E1. fold (bits path). unfold best_ok. split; [|split; [|split]].
        - rewrite E1. symmetry. apply bits_len.
        - rewrite E1. lra.
        - rewrite E1. exact E2.
        - destruct B as (_ & _ & _ & B). lra. }
      assert (K2 : covered z lower path []).
      { intros q y2 L1 L2 W. destruct (K1 q y2 L1 L2 W) as [H|[H|H]]; [left; lra| |right; exact H].
        left. destruct y2; [|discriminate]. rewrite app_nil_r in *. subst q. fold (bits path).
        destruct S1 as (E1 & E2 & _). rewrite app_nil_r in E1. rewrite E1. lra. }
      destruct path as [|[b it] path].
      + apply finish_ok; auto.
      + pose proof (shape_items _ _ _ _ S1) as (_ & _ & F).
        destruct b.
        * apply finish_ok; [exact (shape_pop _ _ _ _ _ _ S1)|exact B1|].
          intros q y2 L1 L2 W. destruct y2 as [|c [|]]; try discriminate.
          destruct (K2 (c :: q) []) as [H|H]; simpl in *; try congruence.
          -- rewrite app_nil_r. exact W.
          -- left. rewrite app_nil_r in H. exact H.
          -- destruct H as [H|(A & _ & Bc)]; [right; exact H|left]. subst q c.
             destruct S1 as (E1 & E2 & _). rewrite app_nil_r in E1. rewrite E1. rewrite before_cons in *. rewrite bits_cons in E2.
             rewrite pf_app in E2 by apply bits_len. fold (bits path).
             rewrite pf_app by apply bits_len.
             apply Forall_app in F as [_ F]. inversion F as [|? ? Fi _]; subst. destruct it as [p w]; simpl in *.
             destruct Fi as (_ & Fp & _); simpl in Fp. lra.
        * apply finish_ok; [exact (shape_pop _ _ _ _ _ _ S1)|exact B1|]. apply covered_pop_false. exact K2.
  Qed.
  Lemma kloop_ok fuel s z x : inv s -> kloop fuel s = Done (z, x) -> done_ok z x.
  Proof.
    revert s. induction fuel as [|f IH]; simpl; intros s H E; [discriminate|].
    pose proof (kstep_ok s H) as K. destruct (kstep s) as [z' x'|s'].
    - inversion E; subst. exact K.
    - exact (IH s' K E).
  Qed.
End Solver.

(** ** Termination *)

Fixpoint val (p : list (bool * pw)) : nat :=
  match p with [] => 0 | (b, _) :: p' => 2 * val p' + (if b then 1 else 0) end.
Definition mark (path : list (bool * pw)) (rest : list pw) : nat := (val path + 1) * 2 ^ length rest.
Definition mark0 (path : list (bool * pw)) (rest : list pw) : nat := val path * 2 ^ length rest.

Lemma finish_mark path : forall rest chat zhat z x s,
  finish path rest chat zhat z x = KMore s -> mark (k_path s) (k_rest s) = mark0 path rest.
Proof.
  induction path as [|[b it] path IH]; intros rest chat zhat z x s E; unfold finish in E; simpl in E; [discriminate|].
  destruct b.
  - inversion E; subst; simpl. unfold mark, mark0. simpl val. nia.
  - change (finish path (it :: rest) chat zhat z x = KMore s) in E.
    rewrite (IH _ _ _ _ _ _ E). unfold mark0. simpl. lia.
Qed.
Lemma take_mark : forall rest path chat zhat path' rest' chat' zhat',
  take path rest chat zhat = (path', rest', chat', zhat') -> mark path' rest' = mark path rest.
Proof.
  induction rest as [|[p w] rest IH]; intros path chat zhat path' rest' chat' zhat' E; simpl in E.
  - inversion E; reflexivity.
  - destruct (w <=? chat); [|inversion E; reflexivity].
    rewrite (IH _ _ _ _ _ _ _ E). unfold mark. simpl. nia.
Qed.
Lemma pow2_pos n : (0 < 2 ^ n)%nat.
Proof. induction n; simpl; lia. Qed.
Lemma pass_mark path rest chat zhat path' rest' chat' zhat' :
  pass path rest chat zhat = (path', rest', chat', zhat') ->
  (mark path' rest' <= mark path rest)%nat /\ (rest' <> [] -> (mark path' rest' < mark path rest)%nat).
Proof.
  unfold pass. destruct (take path rest chat zhat) as [[[p1 r1] c1] z1] eqn:T. apply take_mark in T.
  destruct r1 as [|it r1]; intro E; inversion E; subst.
  - split; [lia|congruence].
  - rewrite <- T. unfold mark. simpl. pose proof (pow2_pos (length rest')). split; intros; nia.
Qed.
Lemma forward_mark path rest chat zhat path' rest' chat' zhat' :
  forward path rest chat zhat = (path', rest', chat', zhat') ->
  (mark path' rest' <= mark path rest)%nat /\ (rest' <> [] -> (mark path' rest' < mark path rest)%nat).
Proof.
  unfold forward. destruct (pass path rest chat zhat) as [[[p1 r1] c1] z1] eqn:T. apply pass_mark in T as [T1 T2].
  destruct r1 as [|i1 [|i2 r1]]; intro E; try (inversion E; subst; auto; fail).
  apply pass_mark in E as [E1 E2]. split; [lia|]. intros. specialize (E2 H). lia.
Qed.
Lemma kstep_mark s s' : kstep s = KMore s' ->
  (mark (k_path s') (k_rest s') < mark (k_path s) (k_rest s))%nat.
Proof.
  unfold kstep. cbv zeta.
  destruct (k_zhat s + upper_bound (k_chat s) (k_rest s) 0 0 <=? k_z s); intro E.
  - apply finish_mark in E. rewrite E. unfold mark, mark0. pose proof (pow2_pos (length (k_rest s))). nia.
  - destruct (forward (k_path s) (k_rest s) (k_chat s) (k_zhat s)) as [[[path rest] chat] zhat] eqn:F.
    apply forward_mark in F as [F1 F2].
    destruct rest as [|i rest]; [|inversion E; subst; simpl; apply F2; discriminate].
    destruct path as [|[b it] path].
    + unfold finish in E. simpl in E. discriminate.
    + assert (X : mark (k_path s') (k_rest s') = mark0 path [it]) by (destruct b; apply finish_mark in E; exact E).
      rewrite X. eapply Nat.lt_le_trans; [|exact F1]. unfold mark0, mark. simpl. destruct b; lia.
Qed.
Lemma kloop_total fuel s : (mark (k_path s) (k_rest s) < fuel)%nat -> exists r, kloop fuel s = Done r.
Proof.
  revert s. induction fuel as [|f IH]; intros s H; [lia|]. simpl.
  destruct (kstep s) as [z x|s'] eqn:E; [eexists; reflexivity|].
  apply IH. apply kstep_mark in E. lia.
Qed.
Lemma solver_total fuel c l : (2 ^ length l < fuel)%nat -> exists r, exactSolveKnapsack fuel c l = Done r.
Proof. intro H. apply kloop_total. unfold mark. simpl. lia. Qed.

Lemma solver_ok fuel c l z x : sorted_items l -> Forall item_ok l -> 0 <= c + eps2 ->
  exactSolveKnapsack fuel c l = Done (z, x) -> done_ok l (c + eps2) z x.
Proof.
  intros S F C E. unfold exactSolveKnapsack in E.
  assert (Z : forall l : list pw, pf l (map (fun _ => false) l) == 0 /\ wt l (map (fun _ => false) l) == 0).
  { clear. induction l as [|[p w] l [IH1 IH2]]; simpl; split; try reflexivity; lra. }
  destruct (Z l) as [Z1 Z2].
  eapply kloop_ok; [exact S|exact F| |exact E].
  unfold inv, shape, best_ok; simpl. repeat split.
  - lra.
  - exact C.
  - apply map_length.
  - lra.
  - lra.
  - lra.
  - intros q y2 L1 _ _. right. left. destruct q; [reflexivity|discriminate].
Qed.

(** ** Without any condition on the profits: what is returned fits *)
Section Fits.
  Variable L : list pw.
  Variable C : Q.
  Hypothesis HW : Forall (fun i => 0 < snd i) L.

  Definition shape0 (path : list (bool * pw)) (rest : list pw) (chat zhat : Q) : Prop :=
    L = before path ++ rest /\ zhat == pf (before path) (bits path) /\
    C == chat + wt (before path) (bits path) /\ 0 <= chat.
  Definition fit (z : Q) (x : list bool) : Prop := length x = length L /\ wt L x <= C /\ z == pf L x /\ 0 <= z.
  Lemma shape0_push b it path rest chat zhat : shape0 path (it :: rest) chat zhat ->
    (b = true -> snd it <= chat) ->
    shape0 ((b, it) :: path) rest (if b then chat - snd it else chat) (if b then zhat + fst it else zhat).
  Proof.
    intros (E & Z & K & P) H. unfold shape0. rewrite before_cons, bits_cons.
    rewrite pf_app, wt_app by apply bits_len. destruct it as [p w]. simpl in *.
    split; [rewrite <- app_assoc; exact E|].
    destruct b; simpl; (split; [lra|]); (split; [lra|]); [specialize (H eq_refl)|]; lra.
  Qed.
  Lemma shape0_pop b it path rest chat zhat : shape0 ((b, it) :: path) rest chat zhat ->
    shape0 path (it :: rest) (if b then chat + snd it else chat) (if b then zhat - fst it else zhat).
  Proof.
    intros (E & Z & K & P). rewrite before_cons in *. rewrite bits_cons in *.
    rewrite pf_app in Z by apply bits_len. rewrite wt_app in K by apply bits_len. destruct it as [p w]. simpl in *.
    assert (Fw : 0 < w).
    { rewrite Forall_forall in HW. apply (HW (p, w)). rewrite E. apply in_or_app. left. apply in_or_app. right. left. reflexivity. }
    unfold shape0. split; [rewrite E, <- app_assoc; reflexivity|].
    destruct b; simpl in *; (split; [lra|]); (split; [lra|]); lra.
  Qed.
  Definition fit_res (r : kres) : Prop :=
    match r with
    | KDone z x => fit z x
    | KMore s => shape0 (k_path s) (k_rest s) (k_chat s) (k_zhat s) /\ fit (k_z s) (k_x s)
    end.
  Lemma finish_fit path : forall rest chat zhat z x, shape0 path rest chat zhat -> fit z x ->
    fit_res (finish path rest chat zhat z x).
  Proof.
    induction path as [|[b it] path IH]; intros rest chat zhat z x S B; unfold finish; simpl; [exact B|].
    apply shape0_pop in S. destruct b.
    - simpl in *. split; [|exact B]. apply (shape0_push false it path rest); [exact S|discriminate].
    - exact (IH _ _ _ _ _ S B).
  Qed.
  Lemma take_fit : forall rest path chat zhat path' rest' chat' zhat',
    shape0 path rest chat zhat -> take path rest chat zhat = (path', rest', chat', zhat') -> shape0 path' rest' chat' zhat'.
  Proof.
    induction rest as [|[p w] rest IH]; intros path chat zhat path' rest' chat' zhat' S E; simpl in E.
    - inversion E; subst. exact S.
    - destruct (w <=? chat) eqn:Q0; [|inversion E; subst; exact S].
      qb. eapply IH; [|exact E]. apply (shape0_push true (p, w) path rest chat zhat); [exact S|intros _; exact Q0].
  Qed.
  Lemma pass_fit path rest chat zhat path' rest' chat' zhat' :
    shape0 path rest chat zhat -> pass path rest chat zhat = (path', rest', chat', zhat') -> shape0 path' rest' chat' zhat'.
  Proof.
    intros S E. unfold pass in E. destruct (take path rest chat zhat) as [[[p1 r1] c1] z1] eqn:T.
    apply (take_fit _ _ _ _ _ _ _ _ S) in T. destruct r1 as [|it r1]; inversion E; subst; [exact T|].
    apply (shape0_push false it p1 rest' chat' zhat'); [exact T|discriminate].
  Qed.
  Lemma forward_fit path rest chat zhat path' rest' chat' zhat' :
    shape0 path rest chat zhat -> forward path rest chat zhat = (path', rest', chat', zhat') -> shape0 path' rest' chat' zhat'.
  Proof.
    intros S E. unfold forward in E. destruct (pass path rest chat zhat) as [[[p1 r1] c1] z1] eqn:T.
    apply (pass_fit _ _ _ _ _ _ _ _ S) in T.
    destruct r1 as [|i1 [|i2 r1]]; try (inversion E; subst; exact T). eapply pass_fit; eassumption.
  Qed.
  Lemma kstep_fit s : shape0 (k_path s) (k_rest s) (k_chat s) (k_zhat s) -> fit (k_z s) (k_x s) -> fit_res (kstep s).
  Proof.
    intros S B. unfold kstep. cbv zeta.
    destruct (k_zhat s + upper_bound (k_chat s) (k_rest s) 0 0 <=? k_z s); [apply finish_fit; assumption|].
    destruct (forward (k_path s) (k_rest s) (k_chat s) (k_zhat s)) as [[[path rest] chat] zhat] eqn:E.
    apply (forward_fit _ _ _ _ _ _ _ _ S) in E.
    destruct rest as [|i rest]; [|split; assumption].
    set (z := if k_z s <? zhat then zhat else k_z s).
    set (x := if k_z s <? zhat then rev (map fst path) else k_x s).
    assert (B1 : fit z x).
    { unfold z, x. destruct (k_z s <? zhat) eqn:Q1; [|exact B]. qb. destruct E as (E1 & E2 & E3 & E4).
      rewrite app_nil_r in E1. fold (bits path). unfold fit. split; [|split; [|split]].
      - rewrite E1. symmetry. apply bits_len.
      - rewrite E1. lra.
      - rewrite E1. exact E2.
      - destruct B as (_ & _ & _ & B). lra. }
    destruct path as [|[b it] path]; [apply finish_fit; assumption|].
    destruct b; (apply finish_fit; [exact (shape0_pop _ _ _ _ _ _ E)|exact B1]).
  Qed.
  Lemma kloop_fit fuel s z x : shape0 (k_path s) (k_rest s) (k_chat s) (k_zhat s) -> fit (k_z s) (k_x s) ->
    kloop fuel s = Done (z, x) -> fit z x.
  Proof.
    revert s. induction fuel as [|f IH]; simpl; intros s H B E; [discriminate|].
    pose proof (kstep_fit s H B) as K. destruct (kstep s) as [z' x'|s'].
    - inversion E; subst. exact K.
    - destruct K as [K1 K2]. exact (IH s' K1 K2 E).
  Qed.
End Fits.
Lemma solver_fits fuel c l z x : Forall (fun i => 0 < snd i) l -> 0 <= c + eps2 ->
  exactSolveKnapsack fuel c l = Done (z, x) -> fit l (c + eps2) z x.
Proof.
  intros F C E. unfold exactSolveKnapsack in E.
  assert (Z : forall l : list pw, pf l (map (fun _ => false) l) == 0 /\ wt l (map (fun _ => false) l) == 0).
  { clear. induction l as [|[p w] l [IH1 IH2]]; simpl; split; try reflexivity; lra. }
  destruct (Z l) as [Z1 Z2].
  eapply kloop_fit; [exact F| | |exact E]; unfold shape0, fit; cbn [k_path k_rest k_chat k_zhat k_z k_x before bits rev map app pf wt].
  - split; [reflexivity|]. split; [reflexivity|]. split; [lra|exact C].
  - split; [apply map_length|]. split; [lra|]. split; lra.
Qed.
