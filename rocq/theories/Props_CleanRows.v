(** * Properties of the row scaling of CglPreProcess::preProcessNonDefault *)
From Verif Require Import Model_CleanRows Proofs_CleanRows.
From Coq Require Import Lqa.
Local Open Scope Q_scope.

(** All coefficients are multiples of 1/D, with at most nine digits. *)
Definition gridded (m : mip) : Prop := exists D, (0 < D <= 1000000000)%Z /\
  forall r j a, In r (m_rows m) -> In (j, a) (r_form r) -> on_grid D a.

(** ** C123: the problem stays the same *)
Lemma same_row rat r r' copy D x : (0 < D <= 1000000000)%Z -> (forall j a, In (j, a) (r_form r) -> on_grid D a) ->
  clean_row rat true r = Done (r', copy) -> (row_sat r x <-> row_sat r' x).
Proof.
  intros Dp G E. destruct (clean_row_inv _ _ _ _ _ E) as [[_ ->]|(Ne & q & F & C & El & Eu)]; [reflexivity|].
  assert (K : Forall2 (fun e e' => fst e' = fst e /\ snd e' == q * snd e /\ ~ q == 0) (r_form r) (r_form r')).
  { assert (H : forall l l', Forall2 (fun e e' => fst e' = fst e /\ column_elem true q (snd e) = Done (snd e')) l l' ->
        incl l (r_form r) -> Forall2 (fun e e' => fst e' = fst e /\ snd e' == q * snd e /\ ~ q == 0) l l').
    { induction 1 as [|e e' l l' [H1 H2] H IH]; intro I; constructor.
      - split; [exact H1|]. destruct e as [j a]. apply (column_elem_ok (r_form r) q D j a); try assumption. apply I. now left.
      - apply IH. intros z Hz. apply I. now right. }
    apply H; [exact C|apply incl_refl]. }
  assert (Nq : ~ q == 0).
  { destruct K as [|e e' l l' (_ & _ & N) _]; [now exfalso; apply Ne|exact N]. }
  assert (V : value (r_form r') x == q * value (r_form r) x).
  { apply value_scaled. clear - K. induction K as [|e e' l l' (H1 & H2 & _) K IH]; constructor; [now split|exact IH]. }
  unfold row_sat. rewrite El, Eu.
  change (within (r_lo r) (r_hi r) (value (r_form r) x) <->
    within (fst (scaled_sides q (r_lo r) (r_hi r))) (snd (scaled_sides q (r_lo r) (r_hi r))) (value (r_form r') x)).
  pose proof (scaled_sides_ok q (r_lo r) (r_hi r) (value (r_form r) x) Nq) as S. split; intro H.
  - apply within_eq with (y := q * value (r_form r) x); [symmetry; exact V|]. now apply S.
  - apply S. now apply within_eq with (y := value (r_form r') x).
Qed.
Lemma rows_inv rat debug m m' copies : clean_matrix rat debug m = Done (m', copies) ->
  m_ncols m' = m_ncols m /\ m_clo m' = m_clo m /\ m_chi m' = m_chi m /\ m_int m' = m_int m /\
  Forall2 (fun r r' => exists c, clean_row rat debug r = Done (r', c)) (m_rows m) (m_rows m').
Proof.
  unfold clean_matrix. destruct (omap _ _) as [l| | | |] eqn:O; cbn [bind]; try discriminate. intro E.
  apply Done_inj in E. apply pair_equal_spec in E. destruct E as [<- _]. cbn [m_ncols m_clo m_chi m_int m_rows].
  do 4 (split; [reflexivity|]). apply omap_inv in O. clear - O.
  induction O as [|r p l l' H O IH]; cbn [map]; constructor; [|exact IH]. exists (snd p). now rewrite <- surjective_pairing.
Qed.
Theorem C123_same_points : forall rat m m' copies, gridded m -> clean_matrix rat true m = Done (m', copies) ->
  forall x, feasible m x <-> feasible m' x.
Proof.
  intros rat m m' copies (D & Dp & G) E x. destruct (rows_inv _ _ _ _ _ E) as (E1 & E2 & E3 & E4 & F).
  assert (R : (forall r, In r (m_rows m) -> row_sat r x) <-> (forall r, In r (m_rows m') -> row_sat r x)).
  { clear - Dp G F. induction F as [|r r' l l' (c & H) F IH].
    - split; intros _ r [].
    - assert (S : row_sat r x <-> row_sat r' x).
      { apply (same_row rat r r' c D); [exact Dp| |exact H]. intros j a I. apply (G r j a); [now left|exact I]. }
      assert (T : (forall r, In r l -> row_sat r x) <-> (forall r, In r l' -> row_sat r x)).
      { apply IH. intros r0 j a I J. apply (G r0 j a); [now right|exact J]. }
      split; intros A r0 [<-|I].
      + apply (proj1 S). apply A. now left.
      + apply (proj1 T); [|exact I]. intros r1 J. apply A. now right.
      + apply (proj2 S). apply A. now left.
      + apply (proj2 T); [|exact I]. intros r1 J. apply A. now right. }
  unfold feasible, in_bounds, integer_ok. rewrite E1, E2, E3, E4, R. reflexivity.
Qed.
Print Assumptions C123_same_points.
(** Whatever the coefficients are: the sides are multiplied by a number that is
    not zero, the coefficients by the same number up to 1e-9. *)
Theorem C123_close : forall rat m m' copies, clean_matrix rat true m = Done (m', copies) ->
  m_ncols m' = m_ncols m /\ m_clo m' = m_clo m /\ m_chi m' = m_chi m /\ m_int m' = m_int m /\
  Forall2 (fun r r' => exists q, ~ q == 0 /\
    Forall2 (fun e e' => fst e' = fst e /\ Qabs (snd e' - q * snd e) < 1 # 1000000000) (r_form r) (r_form r') /\
    forall y, (ge_opt_lo (q * y) (r_lo r') /\ le_opt_hi (q * y) (r_hi r')) <-> (ge_opt_lo y (r_lo r) /\ le_opt_hi y (r_hi r)))
    (m_rows m) (m_rows m').
Proof.
  intros rat m m' copies E. destruct (rows_inv _ _ _ _ _ E) as (E1 & E2 & E3 & E4 & F).
  do 4 (split; [assumption|]). clear - F. induction F as [|r r' l l' (c & H) F IH]; constructor; [|exact IH]. clear IH F.
  destruct (clean_row_inv _ _ _ _ _ H) as [[Fe ->]|(Ne & q & _ & C & El & Eu)].
  - exists 1. split; [discriminate|]. rewrite Fe. split; [constructor|]. intro y.
    split; intro S; [apply (within_eq (r_lo r) (r_hi r) (1 * y) y)|apply (within_eq (r_lo r) (r_hi r) y (1 * y))]; try exact S; ring.
  - exists q. assert (K : forall l l', Forall2 (fun e e' => fst e' = fst e /\ column_elem true q (snd e) = Done (snd e')) l l' ->
      Forall2 (fun e e' : nat * Q => fst e' = fst e /\ Qabs (snd e' - q * snd e) < 1 # 1000000000) l l' /\ (l <> [] -> ~ q == 0)).
    { clear. induction 1 as [|e e' l l' [H1 H2] H IH]; [split; [constructor|now intros []]|].
      destruct (column_elem_close _ _ _ H2) as [A B]. split; [constructor; [split; [exact H1|exact A]|apply IH]|intros _; exact B]. }
    destruct (K _ _ C) as [K1 K2]. specialize (K2 Ne). split; [exact K2|]. split; [exact K1|]. intro y. rewrite El, Eu.
    apply (scaled_sides_ok q (r_lo r) (r_hi r) y K2).
Qed.
Print Assumptions C123_close.

(** ** Cases *)
Definition reduced (q : Q) : Z * Z := (Qnum (Qred q), Zpos (Qden (Qred q))).
(** -x/2 - 3y/4 + z <= -1 has two negative coefficients of three and becomes
    2x + 3y - 4z >= 4 *)
Definition ex1 : mip :=
  {| m_ncols := 3; m_rows := [Row [(0%nat, - (1 # 2)); (1%nat, - (3 # 4)); (2%nat, 1)] None (Some (-1)); Row [(0%nat, 1); (2%nat, -1)] (Some 0) (Some 1)];
     m_clo := fun _ => Some 0; m_chi := fun _ => Some 4; m_int := fun _ => true |}.
Example C123_example : exists m' c, clean_matrix reduced true ex1 = Done (m', c) /\
  m_rows m' = [Row [(0%nat, 2); (1%nat, 3); (2%nat, -4)] (Some 4) None; Row [(0%nat, 1); (2%nat, -1)] (Some 0) (Some 1)] /\
  c = [[2; 3; -4]; [1; -1]].
Proof. eexists. eexists. split; [vm_compute; reflexivity|]. split; vm_compute; reflexivity. Qed.
Example C123_hypotheses : gridded ex1 /\ feasible ex1 (fun j => match j with 0%nat => 2 | 2%nat => 1 | _ => 2 end).
Proof.
  split; [|split; [|split]].
  - exists 4%Z. split; [lia|]. intros r j a I J. cbn in I. repeat (destruct I as [<-|I]); try destruct I; cbn in J;
      repeat (destruct J as [J|J]; [injection J as _ <-|]); try destruct J.
    + exists (-2)%Z. split; [reflexivity|lia].
    + exists (-3)%Z. split; [reflexivity|lia].
    + exists 4%Z. split; [reflexivity|lia].
    + exists 4%Z. split; [reflexivity|lia].
    + exists (-4)%Z. split; [reflexivity|lia].
  - intros r I. cbn in I. repeat (destruct I as [<-|I]); try destruct I; split; cbn; try exact I; lra.
  - intros j L. cbn. destruct j as [|[|[|j]]]; lra.
  - intros j L _. destruct j as [|[|[|j]]]; [exists 2%Z|exists 2%Z|exists 1%Z|exists 2%Z]; reflexivity.
Qed.

(** ** C124: how the scaling ends *)
(** 2e12 x + 4e12 y <= 8e12: the multiplier 5e-13 is rounded to 0. *)
Definition ex2 : mip :=
  {| m_ncols := 2; m_rows := [Row [(0%nat, inject_Z (2 * 10 ^ 12)); (1%nat, inject_Z (4 * 10 ^ 12))] None (Some (inject_Z (8 * 10 ^ 12)))];
     m_clo := fun _ => Some 0; m_chi := fun _ => Some 9; m_int := fun _ => true |}.
Theorem C124_large_refuted : clean_matrix reduced true ex2 = Aborts /\
  exists m' c, clean_matrix reduced false ex2 = Done (m', c) /\ ~ feasible ex2 (fun _ => 9) /\ feasible m' (fun _ => 9).
Proof.
  split; [lazy; reflexivity|].
  exists {| m_ncols := 2; m_rows := [Row [(0%nat, 0); (1%nat, 0)] None (Some 0)];
     m_clo := fun _ => Some 0; m_chi := fun _ => Some 9; m_int := fun _ => true |}, [[1; 2]].
  split; [lazy; reflexivity|]. split.
  - intros (F & _). destruct (F _ (or_introl eq_refl)) as [_ H]. vm_compute in H. apply H. reflexivity.
  - split; [|split].
    + intros r [<-|[]]. split; cbn; [exact I|lra].
    + intros j L. cbn. lra.
    + intros j L _. exists 9%Z. reflexivity.
Qed.
Print Assumptions C124_large_refuted.
(** A stored zero in a row that is scaled *)
Definition ex3 : mip :=
  {| m_ncols := 2; m_rows := [Row [(0%nat, 1 # 2); (1%nat, 0)] None (Some 1)];
     m_clo := fun _ => Some 0; m_chi := fun _ => Some 9; m_int := fun _ => true |}.
Theorem C124_stored_zero_refuted : clean_matrix reduced true ex3 = Aborts.
Proof. vm_compute. reflexivity. Qed.
Print Assumptions C124_stored_zero_refuted.
(** Seven coefficients with different prime denominators *)
Definition ex4 : mip :=
  {| m_ncols := 7; m_rows := [Row [(0%nat, 1 # 997); (1%nat, 1 # 991); (2%nat, 1 # 983); (3%nat, 1 # 977); (4%nat, 1 # 971);
                                   (5%nat, 1 # 967); (6%nat, 1 # 953)] None (Some 1)];
     m_clo := fun _ => Some 0; m_chi := fun _ => Some 9; m_int := fun _ => true |}.
Theorem C124_overflow_refuted : clean_matrix reduced true ex4 = Undef IntOverflow.
Proof. vm_compute. reflexivity. Qed.
Print Assumptions C124_overflow_refuted.
(** The row copy differs from the problem when the scaling is given up after
    scaleRowIntegral has changed the array: 0.6666666666666 is taken for 2/3. *)
Definition near (q : Q) : Z * Z :=
  if Qeq_bool q (6666666666666 # 10000000000000) then (2, 3)%Z else reduced q.
Definition ex5 : mip :=
  {| m_ncols := 2; m_rows := [Row [(0%nat, - (6666666666666 # 10000000000000)); (1%nat, -2000000)] (Some (-2000000)) None];
     m_clo := fun _ => Some 0; m_chi := fun _ => Some 9; m_int := fun _ => true |}.
Theorem C124_copy_refuted : Qabs ((6666666666666 # 10000000000000) - (2 # 3)) < 1 # 10000000000000 /\
  exists m' v, clean_matrix near true ex5 = Done (m', [[1; 3000000]]) /\ m_rows m' = [Row v None (Some (2000000 * 1))] /\
    value v (fun _ => 1) < 2000001.
Proof.
  split; [vm_compute; reflexivity|]. eexists. eexists. split; [vm_compute; reflexivity|].
  split; [vm_compute; reflexivity|]. vm_compute. reflexivity.
Qed.
Print Assumptions C124_copy_refuted.

(** A row is kept, has all its signs changed, or has integer coefficients. *)
Theorem C123_kept_or_integer : forall rat debug m m' copies, clean_matrix rat debug m = Done (m', copies) ->
  Forall2 (fun r r' =>
      r' = r \/
      (r_form r' = map (fun e => (fst e, - snd e)) (r_form r)) \/
      (forall j a, In (j, a) (r_form r') -> integral a)) (m_rows m) (m_rows m').
Proof.
  intros rat debug m m' copies E. destruct (rows_inv _ _ _ _ _ E) as (_ & _ & _ & _ & F).
  clear - F. induction F as [|r r' l l' (c & H) F IH]; constructor; [|exact IH]. clear IH F.
  destruct (clean_row_inv _ _ _ _ _ H) as [[Fe ->]|(Ne & q & _ & C & El & Eu)]; [now left|].
  destruct (Qeq_bool (Qabs q) 1) eqn:A.
  - destruct (Qeq_bool q (-1)) eqn:M.
    + right. left. clear - A M C. induction C as [|e e' l l' [H1 H2] C IH]; [reflexivity|]. cbn [map]. rewrite <- IH.
      unfold column_elem in H2. rewrite A, M in H2. cbn [negb] in H2. apply Done_inj in H2. f_equal.
      rewrite H2, <- H1. now destruct e'.
    + left. assert (Q1 : Qeq_bool q 1 = true).
      { apply Qeq_bool_iff. apply Qeq_bool_iff in A. apply Qeq_bool_neq in M. revert A. apply Qabs_case; intros; lra. }
      unfold scaled_sides in El, Eu. rewrite Q1 in El, Eu. cbn [fst snd] in El, Eu.
      assert (V : r_form r' = r_form r).
      { clear - A M C. induction C as [|e e' l l' [H1 H2] C IH]; [reflexivity|]. rewrite IH. f_equal.
        unfold column_elem in H2. rewrite A, M in H2. cbn [negb] in H2. apply Done_inj in H2. destruct e, e'. cbn in *. congruence. }
      destruct r, r'. cbn in *. congruence.
  - right. right. clear - A C. induction C as [|e e' l l' [H1 H2] C IH]; [intros j a []|].
    intros j a [->|I]; [|now apply (IH j)]. unfold column_elem in H2. rewrite A in H2. cbn [negb snd] in H2.
    destruct (debug && _); [discriminate H2|]. destruct (debug && _); [discriminate H2|].
    apply Done_inj in H2. subst a. apply integral_inject.
Qed.
Print Assumptions C123_kept_or_integer.
