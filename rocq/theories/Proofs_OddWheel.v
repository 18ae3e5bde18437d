(** * Proofs about CglOddWheel *)

From Verif Require Import Spec Base Spec_Literals Model_BKClique Proofs_BKClique Model_OddWheel.
From Coq Require Import Lia Lqa Arith Permutation Qabs.
Open Scope Q_scope.

(** ** What is assumed of the separator *)

Fixpoint chain (adj : nat -> nat -> Prop) (l : list nat) : Prop :=
  match l with a :: ((b :: _) as l') => adj a b /\ chain adj l' | _ => True end.
(** A closed walk of the conflict graph. *)
Definition closed_walk (adj : nat -> nat -> Prop) (l : list nat) : Prop :=
  match l with [] => True | a :: _ => chain adj (l ++ [a]) end.

Definition wheel_ok (n : nat) (adj : nat -> nat -> Prop) (w : wheel) : Prop :=
  (5 <= List.length (w_hole w))%nat /\ closed_walk adj (w_hole w) /\
  w_rhs w = inject_Z (Z.of_nat (List.length (w_hole w) / 2)) /\
  NoDup (w_center w) /\
  (forall a b, In a (w_center w) -> In b (w_center w) -> a <> b -> adj a b) /\
  (forall a b, In a (w_center w) -> In b (w_hole w) -> adj a b).

Definition wenv_ok (n : nat) (adj : nat -> nat -> Prop) (e : wenv) : Prop :=
  (forall xv k t w, In w (w_search e xv k t) -> wheel_ok n adj w) /\ pool_ok (w_pool e).

(** ** Closed walks *)

Lemma chain_sum n (adj : nat -> nat -> Prop) y : (forall a b, adj a b -> lit_val n a y + lit_val n b y <= 1) ->
  forall l a z, chain adj (a :: l ++ [z]) ->
  2 * lits_sum n (a :: l) y <= inject_Z (Z.of_nat (List.length (a :: l))) + lit_val n a y - lit_val n z y.
Proof.
  intros P. induction l as [|b l IH]; intros a z C.
  - cbn [app chain] in C. destruct C as [C _]. specialize (P a z C).
    cbn [lits_sum List.length]. change (inject_Z (Z.of_nat 1)) with 1. lra.
  - change (chain adj (a :: b :: l ++ [z])) in C. destruct C as [C1 C2]. specialize (P a b C1). specialize (IH b z C2).
    cbn [lits_sum List.length] in IH |- *. rewrite (Nat2Z.inj_succ (S (List.length l))). unfold Z.succ.
    rewrite inject_Z_plus. change (inject_Z 1) with 1. lra.
Qed.

Lemma walk_vertex (n : nat) adj l : closed_walk adj l -> forall a, In a l -> exists b, adj a b.
Proof.
  intros C. destruct l as [|a0 l]; [intros a []|]. unfold closed_walk in C.
  assert (G : forall l z, chain adj (l ++ [z]) -> forall a, In a l -> exists b, adj a b).
  { clear. induction l as [|a l IH]; intros z C x [].
    - subst x. destruct l as [|b l]; cbn [app chain] in C; eexists; apply C.
    - apply IH with z; [|assumption]. destruct l as [|b l]; [destruct H|]. cbn [app chain] in C. apply C. }
  apply (G _ _ C).
Qed.

Section Wheel.
Variables (m : mip) (adj : nat -> nat -> Prop).
Hypothesis GS : graph_sound m adj.
Let n := m_ncols m.

Lemma vertex_01 y a : feasible m y -> (exists b, adj a b) -> lit_val n a y == 0 \/ lit_val n a y == 1.
Proof.
  intros F (b & AB). destruct (GS a b AB) as (L1 & _ & B1 & _ & _). apply lit_val_01, integral_01.
  - apply F; [apply lit_col_lt; exact L1|apply B1].
  - apply bin_col_01 with (m := m); [exact B1|apply lit_col_lt; exact L1|apply F].
Qed.
Lemma vertex_box y a : in_bounds m y -> (exists b, adj a b) -> 0 <= lit_val n a y.
Proof.
  intros F (b & AB). destruct (GS a b AB) as (L1 & _ & B1 & _ & _). apply lit_val_box.
  apply bin_col_01 with (m := m); [exact B1|apply lit_col_lt; exact L1|exact F].
Qed.
Lemma edge_le1 y a b : feasible m y -> adj a b -> lit_val n a y + lit_val n b y <= 1.
Proof.
  intros F AB. pose proof (GS a b AB) as (L1 & L2 & B1 & B2 & NC). specialize (NC y F). fold n in NC.
  assert (A01 : lit_val n a y == 0 \/ lit_val n a y == 1) by (apply vertex_01; [exact F|exists b; exact AB]).
  assert (B01 : lit_val n b y == 0 \/ lit_val n b y == 1).
  { apply lit_val_01, integral_01.
    - apply F; [apply lit_col_lt; exact L2|apply B2].
    - apply bin_col_01 with (m := m); [exact B2|apply lit_col_lt; exact L2|apply F]. }
  destruct A01 as [A|A], B01 as [B|B]; lra.
Qed.

Lemma sum_integral y l : feasible m y -> (forall a, In a l -> exists b, adj a b) -> integral (lits_sum n l y).
Proof.
  intros F. induction l as [|a l IH]; intros V; cbn [lits_sum]; [exists 0%Z; reflexivity|].
  destruct IH as (z & Z0); [intros; apply V; right; assumption|].
  destruct (vertex_01 y a F (V a (or_introl eq_refl))) as [E|E].
  - exists z. rewrite E, Z0. ring.
  - exists (1 + z)%Z. rewrite E, Z0, inject_Z_plus. reflexivity.
Qed.

(** At a feasible point at most half of a closed walk is at one. *)
Lemma hole_bound y l : feasible m y -> closed_walk adj l ->
  lits_sum n l y <= inject_Z (Z.of_nat (List.length l / 2)).
Proof.
  intros F C. destruct l as [|a l]; [cbn [lits_sum]; discriminate|].
  assert (V := walk_vertex n adj _ C).
  assert (H := chain_sum n adj y (fun a b => edge_le1 y a b F) l a a C).
  destruct (sum_integral y (a :: l) F V) as (z & Z0).
  assert (H2 : 2 * inject_Z z <= inject_Z (Z.of_nat (List.length (a :: l)))) by (rewrite <- Z0; lra).
  rewrite Z0. change 2 with (inject_Z 2) in H2. rewrite <- inject_Z_mult in H2. rewrite <- Zle_Qle in H2 |- *.
  rewrite Nat2Z.inj_div. apply Z.div_le_lower_bound; lia.
Qed.

(** Literals adjacent to one that is at one are at zero. *)
Lemma rim_zero y c l : feasible m y -> lit_val n c y == 1 -> (forall b, In b l -> adj c b) ->
  lits_sum n l y <= 0.
Proof.
  intros F C. induction l as [|b l IH]; intros A; cbn [lits_sum]; [lra|].
  assert (lits_sum n l y <= 0) by (apply IH; intros; apply A; right; assumption).
  assert (lit_val n c y + lit_val n b y <= 1) by (apply edge_le1; [exact F|apply A; left; reflexivity]). lra.
Qed.
End Wheel.

(** ** The coefficients *)

(** Number of complemented literals. *)
Definition negs (n : nat) (l : list nat) : nat := List.length (filter (fun a => negb (a <? n)%nat) l).

Lemma add_lits_ok n c ls : forall v rhs v' rhs', add_lits n c ls v rhs = Done (Some (v', rhs')) ->
  rhs' == rhs - c * inject_Z (Z.of_nat (negs n ls)) /\
  forall y, value v' y - rhs' == value v y - rhs + c * lits_sum n ls y.
Proof.
  induction ls as [|l ls IH]; intros v rhs v' rhs' H; cbn [add_lits] in H.
  - apply Done_inj, Some_inj in H. inversion H; subst. unfold negs. cbn [filter List.length lits_sum].
    change (inject_Z (Z.of_nat 0)) with 0. split; [ring|intros; ring].
  - destruct (n <=? (if l <? n then l else l - n))%nat; [discriminate|].
    destruct (existsb _ (map fst v)); [discriminate|].
    destruct (IH _ _ _ _ H) as (E & V). unfold negs in *. cbn [filter]. cbn [lits_sum]. unfold lit_val at 1.
    destruct (l <? n)%nat; cbn [negb List.length].
    + split; [exact E|]. intros y. rewrite V, value_app. cbn [value]. ring.
    + split; [rewrite E, Nat2Z.inj_succ; unfold Z.succ; rewrite inject_Z_plus; change (inject_Z 1) with 1; ring|].
      intros y. rewrite V, value_app. cbn [value]. ring.
Qed.
Lemma add_lits_done n c ls : (forall l, In l ls -> (l < 2 * n)%nat) -> forall v rhs,
  exists r, add_lits n c ls v rhs = Done r.
Proof.
  induction ls as [|l ls IH]; intros L v rhs; cbn [add_lits]; [eexists; reflexivity|].
  assert (L0 := L l (or_introl eq_refl)). destruct (Nat.leb_spec n (if (l <? n)%nat then l else (l - n)%nat)) as [H|H].
  { exfalso. destruct (Nat.ltb_spec l n); lia. }
  destruct (existsb _ (map fst v)); [eexists; reflexivity|]. apply IH. intros; apply L; right; assumption.
Qed.
Lemma add_lits_wf n c ls : forall v rhs v' rhs', add_lits n c ls v rhs = Done (Some (v', rhs')) ->
  NoDup (map fst v) -> (forall j a, In (j, a) v -> (j < n)%nat) ->
  NoDup (map fst v') /\ forall j a, In (j, a) v' -> (j < n)%nat.
Proof.
  induction ls as [|l ls IH]; intros v rhs v' rhs' H ND L; cbn [add_lits] in H.
  - apply Done_inj, Some_inj in H. inversion H; subst. split; assumption.
  - set (j := if (l <? n)%nat then l else (l - n)%nat) in *.
    destruct (Nat.leb_spec n j) as [G|G]; [discriminate|].
    destruct (existsb (Nat.eqb j) (map fst v)) eqn:EX; [discriminate|].
    apply (IH _ _ _ _ H).
    + rewrite map_app. cbn [map fst]. apply NoDup_rev in ND. rewrite <- (rev_involutive (map fst v ++ [j])).
      apply NoDup_rev. rewrite rev_app_distr. cbn [rev app]. constructor; [|exact ND].
      rewrite <- in_rev. intros K. assert (existsb (Nat.eqb j) (map fst v) = true); [|congruence].
      apply existsb_exists. exists j. split; [exact K|apply Nat.eqb_refl].
    + intros j' a' K. apply in_app_iff in K. destruct K as [K|[K|[]]]; [apply (L j' a' K)|].
      inversion K; subst. exact G.
Qed.

(** The coefficient of the centre: the right hand side after the
    complemented literals were moved. *)
Definition centre_coef (n : nat) (w : wheel) : Q := w_rhs w - inject_Z (Z.of_nat (negs n (w_hole w))).

Lemma wheel_cut_ok n w v rhs : wheel_cut n w = Done (Some (v, rhs)) ->
  NoDup (map fst v) /\ (forall j a, In (j, a) v -> (j < n)%nat) /\
  exists k, (k == centre_coef n w \/ k == 0 /\ -(1 # 1000000) < centre_coef n w < 1 # 1000000) /\
  forall y, value v y - rhs == lits_sum n (w_hole w) y - w_rhs w + k * lits_sum n (w_center w) y.
Proof.
  intros H. unfold wheel_cut in H. destruct (_ <? 5)%nat; [discriminate|].
  destruct (add_lits n 1 (w_hole w) [] (w_rhs w)) as [[[v1 r1]|]| | | |] eqn:E1; try discriminate. cbn [bind] in H.
  destruct (add_lits_ok _ _ _ _ _ _ _ E1) as (R1 & V1).
  assert (R2 : r1 == centre_coef n w) by (unfold centre_coef; rewrite R1; ring).
  destruct (add_lits_wf _ _ _ _ _ _ _ E1 (NoDup_nil _) (fun j a F => match F with end)) as (W1 & W2).
  assert (V2 : forall y, value v1 y - r1 == lits_sum n (w_hole w) y - w_rhs w).
  { intros y. rewrite V1. cbn [value]. ring. }
  destruct (w_center w) as [|c cs] eqn:EC.
  - apply Done_inj, Some_inj in H. inversion H; subst. conjs; [exact W1|exact W2|].
    exists (centre_coef n w). split; [left; reflexivity|]. intros y. rewrite V2. cbn [lits_sum]. ring.
  - rewrite <- EC in *. destruct (Qle_bool (1 # 1000000) (Qabs r1)) eqn:EQ.
    + destruct (add_lits_ok _ _ _ _ _ _ _ H) as (_ & V3).
      destruct (add_lits_wf _ _ _ _ _ _ _ H W1 W2) as (W3 & W4). conjs; [exact W3|exact W4|].
      exists r1. split; [left; exact R2|]. intros y. rewrite V3, V2. ring.
    + apply Qleb_gt in EQ. apply Done_inj, Some_inj in H. inversion H; subst. conjs; [exact W1|exact W2|].
      exists 0. split; [right; split; [reflexivity|]|intros y; rewrite V2; ring].
      apply Qabs_Qlt_condition in EQ. rewrite R2 in EQ. exact EQ.
Qed.
Lemma wheel_cut_done n w : (5 <= List.length (w_hole w))%nat ->
  (forall l, In l (w_hole w) -> (l < 2 * n)%nat) -> (forall l, In l (w_center w) -> (l < 2 * n)%nat) ->
  exists r, wheel_cut n w = Done r.
Proof.
  intros L5 LH LC. unfold wheel_cut. destruct (Nat.ltb_spec (List.length (w_hole w)) 5); [lia|].
  destruct (add_lits_done n 1 (w_hole w) LH [] (w_rhs w)) as (r & ->). cbn [bind].
  destruct r as [[v1 r1]|]; [|eexists; reflexivity].
  destruct (w_center w) as [|c cs] eqn:EC; [eexists; reflexivity|].
  destruct (Qle_bool _ _); [|eexists; reflexivity]. apply add_lits_done. exact LC.
Qed.

(** ** The whole call *)

(** A cut built from a structure. *)
Definition built_from (n : nat) (w : wheel) (c : rowcut) : Prop :=
  rc_lb c = None /\ exists u, rc_ub c = Some u /\
  exists k, (k == centre_coef n w \/ k == 0 /\ -(1 # 1000000) < centre_coef n w < 1 # 1000000) /\
  forall y, value (rc_form c) y - u == lits_sum n (w_hole w) y - w_rhs w + k * lits_sum n (w_center w) y.

Lemma somes_in {A} (l : list (option A)) a : In a (somes l) -> In (Some a) l.
Proof.
  induction l as [|[b|] l IH]; cbn [somes]; intros H; [destruct H| |right; apply IH; exact H].
  destruct H as [->|H]; [left; reflexivity|right; apply IH; exact H].
Qed.

Lemma generate_ok e adj i n nr gs x o cs cs' : wenv_ok n adj e ->
  generateCuts e i n nr gs x o cs = Done cs' ->
  exists new, cs' = cs ++ map (fun c => (c, mark i)) new /\
    forall c, In c new -> exists w, In w (w_search e (lval n x) (o_ext o) (if Qltb 0 (o_secs o) then o_secs o else 0)) /\
      wheel_ok n adj w /\ built_from n w c.
Proof.
  intros (WK & PK) H. unfold generateCuts in H.
  destruct ((n =? 0)%nat || (nr =? 0)%nat).
  { apply Done_inj in H. subst. exists []. split; [rewrite app_nil_r; reflexivity|intros c []]. }
  destruct (n =? gs / 2)%nat; [|discriminate]. cbn [negb] in H. cbv zeta in H.
  set (ws := w_search e (lval n x) (o_ext o) (if Qltb 0 (o_secs o) then o_secs o else 0)) in *.
  destruct (omap (wheel_cut n) ws) as [cuts| | | |] eqn:E; try discriminate.
  cbn [bind] in H. apply Done_inj in H. subst cs'. unfold finish.
  match goal with |- context [fold_left ?f _ _] =>
    destruct (collect_ok (w_dup e) (mark i) f (fun _ _ => eq_refl) (w_pool e (somes cuts)) cs) as (new & EN & N) end.
  exists new. split; [exact EN|]. intros c C. destruct (N c C) as (p & P & ->).
  destruct (PK (somes cuts) p P) as (p0 & P0 & PM & PS). apply somes_in in P0.
  destruct (omap_in _ _ _ E (Some p0) P0) as (w & W & EW). exists w.
  conjs; [exact W|apply (WK _ _ _ w W)|]. destruct p0 as [v rhs].
  destruct (wheel_cut_ok n w v rhs EW) as (_ & _ & k & K & V). cbn [fst snd] in PM, PS.
  split; [reflexivity|]. exists (snd p). split; [reflexivity|]. exists k. split; [exact K|].
  intros y. cbn [as_cut rc_form]. rewrite <- (value_perm _ _ y PM), <- PS. apply V.
Qed.

Lemma generate_done e adj i m nr gs x o cs : wenv_ok (m_ncols m) adj e -> graph_sound m adj ->
  (gs / 2 = m_ncols m)%nat -> exists r, generateCuts e i (m_ncols m) nr gs x o cs = Done r.
Proof.
  intros (WK & PK) GS G. unfold generateCuts.
  destruct ((m_ncols m =? 0)%nat || (nr =? 0)%nat); [eexists; reflexivity|].
  rewrite G, Nat.eqb_refl. cbn [negb]. cbv zeta.
  destruct (omap_done (wheel_cut (m_ncols m)) (w_search e (lval (m_ncols m) x) (o_ext o) (if Qltb 0 (o_secs o) then o_secs o else 0))) as (r & ->).
  - intros w W. destruct (WK _ _ _ w W) as (L5 & CW & _ & _ & _ & CH). apply wheel_cut_done; [exact L5| |].
    + intros l L. destruct (walk_vertex (m_ncols m) adj _ CW l L) as (b & AB). apply (GS l b AB).
    + intros l L. destruct (w_hole w) as [|h t]; [cbn in L5; lia|].
      apply (GS l h). apply CH; [exact L|left; reflexivity].
  - cbn [bind]. eexists. reflexivity.
Qed.
