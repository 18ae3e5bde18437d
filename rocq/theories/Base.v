(** * Helper functions and arithmetic lemmas shared by the models *)

From Coq Require Export Lia Lqa.
From Verif Require Export Spec.
Local Open Scope Q_scope.

(** Comparison booleans on Q *)
Definition Qltb (a b : Q) : bool := negb (Qle_bool b a).
Notation "a <=? b" := (Qle_bool a b) : Q_scope.
Notation "a <? b" := (Qltb a b) : Q_scope.

Lemma Qltb_lt a b : Qltb a b = true <-> a < b.
Proof.
  unfold Qltb. rewrite negb_true_iff.
  destruct (Qle_bool b a) eqn:E.
  - apply Qle_bool_iff in E. split; [discriminate|intros; lra].
  - split; [|reflexivity]. intros _.
    apply Qnot_le_lt. intro H. apply Qle_bool_iff in H. congruence.
Qed.
Lemma Qltb_ge a b : Qltb a b = false <-> b <= a.
Proof.
  unfold Qltb. rewrite negb_false_iff. apply Qle_bool_iff.
Qed.
Lemma Qleb_le a b : Qle_bool a b = true <-> a <= b.
Proof. apply Qle_bool_iff. Qed.
Lemma Qleb_gt a b : Qle_bool a b = false <-> b < a.
Proof.
  destruct (Qle_bool a b) eqn:E.
  - apply Qle_bool_iff in E. split; [discriminate|intros; lra].
  - split; [|reflexivity]. intros _. apply Qnot_le_lt. intro H.
    apply Qle_bool_iff in H. congruence.
Qed.
Lemma Qeqb_eq a b : Qeq_bool a b = true <-> a == b.
Proof. apply Qeq_bool_iff. Qed.
Lemma Qeqb_neq a b : Qeq_bool a b = false <-> ~ a == b.
Proof.
  split.
  - apply Qeq_bool_neq.
  - intro H. destruct (Qeq_bool a b) eqn:E; [|reflexivity].
    apply Qeq_bool_iff in E. contradiction.
Qed.

(** Reflect boolean rational comparisons in hypotheses and goal. *)
Ltac qb :=
  repeat match goal with
  | H : Qltb _ _ = true |- _ => apply Qltb_lt in H
  | H : Qltb _ _ = false |- _ => apply Qltb_ge in H
  | H : Qle_bool _ _ = true |- _ => apply Qleb_le in H
  | H : Qle_bool _ _ = false |- _ => apply Qleb_gt in H
  | H : Qeq_bool _ _ = true |- _ => apply Qeqb_eq in H
  | H : Qeq_bool _ _ = false |- _ => apply Qeqb_neq in H
  | H : andb _ _ = true |- _ => apply andb_true_iff in H; destruct H
  | H : orb _ _ = false |- _ => apply orb_false_iff in H; destruct H
  | H : negb _ = true |- _ => apply negb_true_iff in H
  | H : negb _ = false |- _ => apply negb_false_iff in H
  end.

(** floor and ceiling *)
Definition qfloor (q : Q) : Q := inject_Z (Qfloor q).
Definition qceil (q : Q) : Q := inject_Z (Qceiling q).
Definition frac (q : Q) : Q := q - qfloor q.

Lemma qfloor_le q : qfloor q <= q.
Proof. apply Qfloor_le. Qed.
Lemma qfloor_lt q : q < qfloor q + 1.
Proof.
  unfold qfloor. pose proof (Qlt_floor q) as H.
  rewrite inject_Z_plus in H. exact H.
Qed.
Lemma qceil_ge q : q <= qceil q.
Proof. apply Qle_ceiling. Qed.
Lemma qceil_lt q : qceil q - 1 < q.
Proof.
  unfold qceil. pose proof (Qceiling_lt q) as H.
  assert (E : inject_Z (Qceiling q - 1) == inject_Z (Qceiling q) - 1).
  { unfold Z.sub. rewrite inject_Z_plus. reflexivity. }
  rewrite E in H. exact H.
Qed.
Lemma frac_nonneg q : 0 <= frac q.
Proof. unfold frac. pose proof (qfloor_le q). lra. Qed.
Lemma frac_lt1 q : frac q < 1.
Proof. unfold frac. pose proof (qfloor_lt q). lra. Qed.

Lemma Qfloor_unique q (z : Z) :
  inject_Z z <= q -> q < inject_Z z + 1 -> Qfloor q = z.
Proof.
  intros H1 H2. pose proof (Qfloor_le q) as A. pose proof (Qlt_floor q) as B.
  assert (C : inject_Z z < inject_Z (Qfloor q + 1)) by lra.
  assert (D : inject_Z (Qfloor q) < inject_Z (z + 1)).
  { rewrite inject_Z_plus. change (inject_Z 1) with 1. lra. }
  rewrite <- Zlt_Qlt in C, D. lia.
Qed.

Lemma int_le_floor (z : Z) q : inject_Z z <= q -> inject_Z z <= qfloor q.
Proof.
  intro H. unfold qfloor. rewrite <- Zle_Qle.
  pose proof (Qlt_floor q) as B.
  assert (C : inject_Z z < inject_Z (Qfloor q + 1)) by lra.
  rewrite <- Zlt_Qlt in C. lia.
Qed.
Lemma int_ge_ceil (z : Z) q : q <= inject_Z z -> qceil q <= inject_Z z.
Proof.
  intro H. unfold qceil. rewrite <- Zle_Qle.
  pose proof (Qceiling_lt q) as B.
  assert (C : inject_Z (Qceiling q - 1) < inject_Z z) by lra.
  rewrite <- Zlt_Qlt in C. lia.
Qed.

(** integrality closure *)
Lemma integral_inject z : integral (inject_Z z).
Proof. exists z. reflexivity. Qed.
Lemma integral_eq a b : a == b -> integral a -> integral b.
Proof. intros E [z H]. exists z. rewrite <- E. exact H. Qed.
Lemma integral_plus a b : integral a -> integral b -> integral (a + b).
Proof. intros [p H] [q K]. exists (p + q)%Z. rewrite inject_Z_plus, H, K. reflexivity. Qed.
Lemma integral_mult a b : integral a -> integral b -> integral (a * b).
Proof. intros [p H] [q K]. exists (p * q)%Z. rewrite inject_Z_mult, H, K. reflexivity. Qed.
Lemma integral_opp a : integral a -> integral (- a).
Proof. intros [p H]. exists (- p)%Z. rewrite inject_Z_opp, H. reflexivity. Qed.
Lemma integral_minus a b : integral a -> integral b -> integral (a - b).
Proof. intros. unfold Qminus. apply integral_plus; [|apply integral_opp]; assumption. Qed.
Lemma integral_0 : integral 0.
Proof. exists 0%Z. reflexivity. Qed.
Lemma integral_1 : integral 1.
Proof. exists 1%Z. reflexivity. Qed.
Lemma integral_le_floor a q : integral a -> a <= q -> a <= qfloor q.
Proof. intros [z H] L. rewrite H in *. apply int_le_floor. exact L. Qed.
Lemma integral_ge_ceil a q : integral a -> q <= a -> qceil q <= a.
Proof. intros [z H] L. rewrite H in *. apply int_ge_ceil. exact L. Qed.
Lemma integral_lt_le1 a b : integral a -> integral b -> a < b -> a + 1 <= b.
Proof.
  intros [p H] [q K] L. rewrite H, K in *.
  rewrite <- Zlt_Qlt in L. change 1 with (inject_Z 1).
  rewrite <- inject_Z_plus, <- Zle_Qle. lia.
Qed.

(** linear forms *)
Lemma value_app v w x : value (v ++ w) x == value v x + value w x.
Proof.
  induction v as [|[j a] v IH]; simpl; [lra|]. rewrite IH. lra.
Qed.
Definition scale (k : Q) (v : vec) : vec := map (fun p => (fst p, k * snd p)) v.
Lemma value_scale k v x : value (scale k v) x == k * value v x.
Proof.
  induction v as [|[j a] v IH]; simpl; [lra|]. rewrite IH. lra.
Qed.
Lemma value_ext v x y :
  (forall j a, In (j, a) v -> x j == y j) -> value v x == value v y.
Proof.
  induction v as [|[j a] v IH]; simpl; intros H; [reflexivity|].
  rewrite (H j a) by (left; reflexivity).
  rewrite IH by (intros; eapply H; right; eassumption). reflexivity.
Qed.
Lemma value_integral v x :
  (forall j a, In (j, a) v -> integral a /\ integral (x j)) ->
  integral (value v x).
Proof.
  induction v as [|[j a] v IH]; simpl; intros H; [apply integral_0|].
  destruct (H j a) as [A B]; [left; reflexivity|].
  apply integral_plus.
  - apply integral_mult; assumption.
  - apply IH. intros; eapply H; right; eassumption.
Qed.

(** Equality test of row cuts; [insert_new] models
    OsiCuts::insertIfNotDuplicate (OSI, outside /repo): the cut is appended
    unless an equal one is present. *)
Definition entry_eqb (p q : nat * Q) : bool :=
  Nat.eqb (fst p) (fst q) && Qeq_bool (snd p) (snd q).
Fixpoint vec_eqb (v w : vec) : bool :=
  match v, w with
  | [], [] => true
  | p :: v', q :: w' => entry_eqb p q && vec_eqb v' w'
  | _, _ => false
  end.
Definition optq_eqb (a b : option Q) : bool :=
  match a, b with
  | Some p, Some q => Qeq_bool p q
  | None, None => true
  | _, _ => false
  end.
Definition rowcut_eqb (c d : rowcut) : bool :=
  vec_eqb (rc_form c) (rc_form d) && optq_eqb (rc_lb c) (rc_lb d) &&
  optq_eqb (rc_ub c) (rc_ub d).
Definition insert_new (cs : list rowcut) (c : rowcut) : list rowcut :=
  if existsb (rowcut_eqb c) cs then cs else cs ++ [c].

Lemma insert_new_in cs c d : In d (insert_new cs c) -> In d cs \/ d = c.
Proof.
  unfold insert_new. destruct (existsb _ _); intro H; [left; exact H|].
  apply in_app_or in H. destruct H as [H|[H|[]]]; [left|right]; auto.
Qed.
Lemma insert_new_incl cs c d : In d cs -> In d (insert_new cs c).
Proof.
  intro H. unfold insert_new. destruct (existsb _ _); [exact H|].
  apply in_or_app. left. exact H.
Qed.

Lemma Done_inj {A} (a b : A) : Done a = Done b -> a = b.
Proof. congruence. Qed.
Lemma Some_inj {A} (a b : A) : Some a = Some b -> a = b.
Proof. congruence. Qed.
Lemma bind_done {A B} (o : outcome A) (f : A -> outcome B) b :
  bind o f = Done b -> exists a, o = Done a /\ f a = Done b.
Proof. destruct o; simpl; try discriminate. intro H. exists a. auto. Qed.

(** Row senses as OSI derives them from the two row bounds
    (OsiSolverInterface::convertBoundToSense; outside /repo). *)
Inductive sense := SenseE | SenseL | SenseG | SenseR | SenseN.
Definition row_sense (r : row) : sense :=
  match r_lo r, r_hi r with
  | Some l, Some h => if Qeq_bool l h then SenseE else SenseR
  | None, Some _ => SenseL
  | Some _, None => SenseG
  | None, None => SenseN
  end.
(** getRightHandSide: upper for L, E and R rows, lower for G rows, 0 for N. *)
Definition row_rhs (r : row) : Q :=
  match r_lo r, r_hi r with
  | _, Some h => h
  | Some l, None => l
  | None, None => 0
  end.

(** map over an outcome-producing function *)
Fixpoint omap {A B} (f : A -> outcome B) (l : list A) : outcome (list B) :=
  match l with
  | [] => Done []
  | a :: l' => do b <- f a; do bs <- omap f l'; Done (b :: bs)
  end.
Fixpoint ofold {A S} (f : S -> A -> outcome S) (l : list A) (s : S) : outcome S :=
  match l with
  | [] => Done s
  | a :: l' => do s' <- f s a; ofold f l' s'
  end.

Lemma ofold_inv {A S} (P : S -> Prop) (f : S -> A -> outcome S) l s s' :
  (forall s a s', In a l -> P s -> f s a = Done s' -> P s') ->
  P s -> ofold f l s = Done s' -> P s'.
Proof.
  revert s. induction l as [|a l IH]; simpl; intros s H Hs E.
  - injection E as <-. exact Hs.
  - apply bind_done in E as (s1 & E1 & E2).
    apply (IH s1); auto. intros; eapply H; eauto.
    eapply H; eauto.
Qed.

Definition INT_MAX : Z := 2147483647.
Definition INT_MIN : Z := -2147483648.
Definition int_range (z : Z) : bool := ((INT_MIN <=? z) && (z <=? INT_MAX))%Z.

Lemma forall2_len {A B} (R : A -> B -> Prop) l l' : Forall2 R l l' -> length l = length l'.
Proof. induction 1; simpl; congruence. Qed.

(** Tactics for concrete examples: split conjunctions, then evaluate each
    equation in turn (so that existential witnesses are filled in order). *)
Ltac conjs := repeat match goal with |- _ /\ _ => apply conj end.
Ltac veq :=
  lazymatch goal with
  | |- _ = _ => vm_compute; reflexivity
  | |- Qeq _ _ => vm_compute; reflexivity
  | _ => idtac
  end.
