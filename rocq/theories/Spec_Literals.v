(** * Specification vocabulary for literals, conflicts and cliques

    Nothing in this file transcribes /repo.  With [n] columns, a literal is a
    number below [2n]: [j < n] is column [j] itself and [n + j] is its
    complement. *)

From Verif Require Import Spec Base.
From Coq Require Import Lia Lqa.
Open Scope Q_scope.

(** Value of a literal at a point. *)
Definition lit_val (n l : nat) (y : point) : Q :=
  if (l <? n)%nat then y l else 1 - y (l - n)%nat.
(** Column of a literal. *)
Definition lit_col (n l : nat) : nat := if (l <? n)%nat then l else (l - n)%nat.

(** Sum of the values of some literals. *)
Fixpoint lits_sum (n : nat) (ls : list nat) (y : point) : Q :=
  match ls with [] => 0 | l :: ls' => lit_val n l y + lits_sum n ls' y end.

(** A column that can only be 0 or 1. *)
Definition bin_col (m : mip) (j : nat) : Prop :=
  m_int m j = true /\
  (exists l, m_clo m j = Some l /\ 0 <= l) /\
  (exists h, m_chi m j = Some h /\ h <= 1).

(** A conflict graph tells the truth about a program: its vertices are
    literals of 0/1 columns and no feasible point puts both ends of an edge
    at one. *)
Definition graph_sound (m : mip) (adj : nat -> nat -> Prop) : Prop :=
  forall a b, adj a b ->
    (a < 2 * m_ncols m)%nat /\ (b < 2 * m_ncols m)%nat /\
    bin_col m (lit_col (m_ncols m) a) /\ bin_col m (lit_col (m_ncols m) b) /\
    forall y, feasible m y ->
      ~ (lit_val (m_ncols m) a y == 1 /\ lit_val (m_ncols m) b y == 1).

(** What an extension routine may return for a clique [c]: a set of literals
    that contains [c], in which every literal that is new is in conflict
    with all the others. *)
Definition ext_ok (n : nat) (adj : nat -> nat -> Prop) (c d : list nat) : Prop :=
  incl c d /\ NoDup d /\ (forall l, In l d -> (l < 2 * n)%nat) /\
  forall a b, In a d -> In b d -> a <> b -> (In a c /\ In b c) \/ (adj a b /\ adj b a).

(** ** Facts *)

Lemma lit_col_lt n l : (l < 2 * n)%nat -> (lit_col n l < n)%nat.
Proof. unfold lit_col. intros H. destruct (Nat.ltb_spec l n); lia. Qed.

Lemma bin_col_01 m j y : bin_col m j -> (j < m_ncols m)%nat -> in_bounds m y ->
  0 <= y j <= 1.
Proof.
  intros (_ & (l & L1 & L2) & (h & H1 & H2)) J B. destruct (B j J) as [B1 B2].
  rewrite L1 in B1. rewrite H1 in B2. cbn in B1, B2. lra.
Qed.

Lemma integral_01 q : integral q -> 0 <= q <= 1 -> q == 0 \/ q == 1.
Proof.
  intros [z Z] [A B]. rewrite Z in A, B |- *.
  change 0 with (inject_Z 0) in *. change 1 with (inject_Z 1) in *.
  rewrite <- Zle_Qle in A, B. assert (z = 0 \/ z = 1)%Z as [->| ->] by lia.
  - left; reflexivity. - right; reflexivity.
Qed.

Lemma lit_val_box n l y : 0 <= y (lit_col n l) <= 1 -> 0 <= lit_val n l y <= 1.
Proof. unfold lit_val, lit_col. destruct (l <? n)%nat; intros; lra. Qed.

Lemma lit_val_01 n l y : y (lit_col n l) == 0 \/ y (lit_col n l) == 1 ->
  lit_val n l y == 0 \/ lit_val n l y == 1.
Proof.
  unfold lit_val, lit_col. destruct (l <? n)%nat; intros [H|H]; rewrite H;
    solve [left; ring | right; ring].
Qed.

Lemma lits_sum_app n a b y : lits_sum n (a ++ b) y == lits_sum n a y + lits_sum n b y.
Proof. induction a as [|x a IH]; cbn [app lits_sum]; [ring|]. rewrite IH. ring. Qed.

Lemma lits_sum_nonneg n ls y : (forall l, In l ls -> 0 <= lit_val n l y) -> 0 <= lits_sum n ls y.
Proof.
  induction ls as [|l ls IH]; intros H; cbn [lits_sum]; [lra|].
  assert (0 <= lit_val n l y) by (apply H; left; reflexivity).
  assert (0 <= lits_sum n ls y) by (apply IH; intros; apply H; right; assumption). lra.
Qed.

Lemma lits_sum_ge1 n ls y a : (forall l, In l ls -> 0 <= lit_val n l y) -> In a ls ->
  lit_val n a y <= lits_sum n ls y.
Proof.
  induction ls as [|l ls IH]; intros H A; [destruct A|]. cbn [lits_sum].
  assert (0 <= lit_val n l y) by (apply H; left; reflexivity).
  assert (0 <= lits_sum n ls y) by (apply lits_sum_nonneg; intros; apply H; right; assumption).
  destruct A as [->|A]; [lra|].
  assert (lit_val n a y <= lits_sum n ls y) by (apply IH; [intros; apply H; right; assumption|assumption]).
  lra.
Qed.

Lemma lits_sum_ge2 n ls y a b : (forall l, In l ls -> 0 <= lit_val n l y) ->
  In a ls -> In b ls -> a <> b -> lit_val n a y + lit_val n b y <= lits_sum n ls y.
Proof.
  induction ls as [|l ls IH]; intros H A B AB; [destruct A|]. cbn [lits_sum].
  assert (0 <= lit_val n l y) by (apply H; left; reflexivity).
  assert (T : forall l, In l ls -> 0 <= lit_val n l y) by (intros; apply H; right; assumption).
  destruct A as [->|A], B as [->|B].
  - destruct AB; reflexivity.
  - pose proof (lits_sum_ge1 n ls y b T B). lra.
  - pose proof (lits_sum_ge1 n ls y a T A). lra.
  - pose proof (IH T A B AB). lra.
Qed.

(** A set of 0/1 literals no two of which are at one sums to at most one. *)
Lemma lits_sum_le1 n ls y : NoDup ls ->
  (forall l, In l ls -> lit_val n l y == 0 \/ lit_val n l y == 1) ->
  (forall a b, In a ls -> In b ls -> a <> b -> ~ (lit_val n a y == 1 /\ lit_val n b y == 1)) ->
  lits_sum n ls y <= 1.
Proof.
  induction ls as [|l ls IH]; intros N Z P; cbn [lits_sum]; [lra|].
  inversion N as [|? ? N1 N2]; subst.
  assert (I0 : lits_sum n ls y <= 1).
  { apply IH; [assumption|intros; apply Z; right; assumption|].
    intros a b A B. apply P; right; assumption. }
  destruct (Z l (or_introl eq_refl)) as [E|E]; [lra|].
  assert (lits_sum n ls y == 0); [|lra].
  assert (Q0 : forall a, In a ls -> lit_val n a y == 0).
  { intros a A. destruct (Z a (or_intror A)) as [|E2]; [assumption|].
    exfalso. apply (P l a); [left; reflexivity|right; assumption| |split; assumption].
    intros ->. contradiction. }
  clear - Q0. induction ls as [|l ls IH]; cbn [lits_sum]; [reflexivity|].
  rewrite (Q0 l (or_introl eq_refl)), IH; [ring|]. intros; apply Q0; right; assumption.
Qed.

(** Fewer literals, smaller sum. *)
Lemma lits_sum_incl n c : forall d y, NoDup c -> NoDup d -> incl c d ->
  (forall l, In l d -> 0 <= lit_val n l y) -> lits_sum n c y <= lits_sum n d y.
Proof.
  induction c as [|l c IH]; intros d y NC ND IN Z.
  - cbn [lits_sum]. apply lits_sum_nonneg. assumption.
  - cbn [lits_sum]. inversion NC as [|? ? N1 N2]; subst.
    destruct (in_split l d (IN l (or_introl eq_refl))) as (d1 & d2 & ->).
    assert (E : lits_sum n (d1 ++ l :: d2) y == lit_val n l y + lits_sum n (d1 ++ d2) y).
    { rewrite !lits_sum_app. cbn [lits_sum]. ring. }
    rewrite E. assert (lits_sum n c y <= lits_sum n (d1 ++ d2) y); [|lra].
    apply IH; [assumption|apply NoDup_remove_1 in ND; assumption| |].
    + intros a A. assert (H := IN a (or_intror A)). apply in_app_iff in H. apply in_app_iff.
      destruct H as [H|[H|H]]; [left; assumption|subst; contradiction|right; assumption].
    + intros a A. apply Z. apply in_app_iff in A. apply in_app_iff.
      destruct A; [left|right; right]; assumption.
Qed.
