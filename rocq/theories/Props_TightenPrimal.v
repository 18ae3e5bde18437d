(** * Properties of CglPreProcess::tightenPrimalBounds *)
From Coq Require Import Permutation.
From Verif Require Import Model_TightenPrimal Proofs_TightenPrimal.
Local Open Scope Q_scope.

(** Nothing is stored as zero in the matrix, and the row sort only reorders. *)
Definition no_zeros (m : mip) : Prop := forall r j a, In r (m_rows m) -> In (j, a) (r_form r) -> ~ a == 0.
Definition reorders (srt : vec -> vec) : Prop := forall v, Permutation (srt v) v.

Lemma value_perm (v w : vec) x : Permutation v w -> value v x == value w x.
Proof.
  induction 1 as [|[j a] v w P IH|[j a] [k b] v|u v w P1 IH1 P2 IH2]; cbn [value]; [reflexivity| | |].
  - rewrite IH. reflexivity.
  - ring.
  - rewrite IH1. exact IH2.
Qed.
Lemma row_in m i : (i < length (m_rows m))%nat -> In (nth i (m_rows m) (Row [] None None)) (m_rows m).
Proof. intro L. now apply nth_In. Qed.
Lemma run_lemma srt m tol x : wf_mip m -> no_zeros m -> reorders srt -> 0 <= tol -> feasible m x ->
  exists m' k, tighten_primal srt m tol = Done (m', k) /\ (0 <= k)%Z /\
    m_ncols m' = m_ncols m /\ m_int m' = m_int m /\ length (m_rows m') = length (m_rows m) /\
    (forall j, (j < m_ncols m)%nat -> m_int m j = true -> within (m_clo m' j) (m_chi m' j) (x j)) /\
    (forall j, (j < m_ncols m)%nat -> nearly (m_clo m' j) (m_chi m' j) (x j)) /\
    ((forall j, (j < m_ncols m)%nat -> m_int m j = false -> within (m_clo m' j) (m_chi m' j) (x j)) -> feasible m' x).
Proof.
  intros W Z R T F. destruct F as (Fr & Fb & Fi).
  assert (FO : forall i, (i < length (m_rows m))%nat -> no_zero (forms_of srt m i) /\ NoDup (map fst (forms_of srt m i)) /\
            forall j a, In (j, a) (forms_of srt m i) -> (j < m_ncols m)%nat).
  { intros i L. pose proof (row_in m i L) as I. set (r := nth i (m_rows m) (Row [] None None)) in *.
    pose proof (R (r_form r)) as P. unfold forms_of. fold r. destruct (W r I) as [W1 W2]. split; [|split].
    - intros j a J. apply (Z r j a I). apply (Permutation_in _ P J).
    - apply (Permutation_NoDup (l := map fst (r_form r))); [apply Permutation_map; symmetry; exact P|exact W1].
    - intros j a J. apply (W2 j a). apply (Permutation_in _ P J). }
  assert (FO1 : forall i, (i < length (m_rows m))%nat -> no_zero (forms_of srt m i) /\
            forall j a, In (j, a) (forms_of srt m i) -> (j < m_ncols m)%nat).
  { intros i L. destruct (FO i L) as (A & _ & C). now split. }
  assert (FV : forall i, value (forms_of srt m i) x == value (r_form (nth i (m_rows m) (Row [] None None))) x).
  { intro i. apply value_perm. apply R. }
  assert (FS : forall i, (i < length (m_rows m))%nat -> within (side_lo m i) (side_hi m i) (value (forms_of srt m i) x)).
  { intros i L. pose proof (Fr _ (row_in m i L)) as S. apply within_eq with (2 := S). symmetry. apply FV. }
  unfold tighten_primal. cbv zeta.
  assert (K1 : ok1 m x (forms_of srt m) (length (m_rows m)) (stage1 srt m tol)).
  { unfold stage1. apply tighten_ok; [exact FO1|exact Fi|]. split; cbn [a_lo a_hi a_rl a_ru]; [exact Fb|exact FS]. }
  set (s1 := stage1 srt m tol) in *. clearbody s1. destruct K1 as [K1 K1r].
  assert (K2 : ok2 m x (forms_of srt m) (length (m_rows m)) (start2 m s1)).
  { split; [|split; [|split; reflexivity]].
    - intros j L. cbn [start2 b_lo b_hi]. unfold lo1, hi1. apply within_max; [exact (Fb j L)|exact (K1 j L)].
    - intros i L. cbn [start2 b_rl b_ru]. destruct (freed s1 i); [now split|now apply FS]. }
  assert (KC : forall j, (j < m_ncols m)%nat -> within (lo1 m s1 j) (hi1 m s1 j) (x j)) by apply K2.
  destruct (passes2_ok m x (forms_of srt m) (length (m_rows m)) tol T FO 10 None 0 (start2 m s1) K2)
    as (s & n & E & (B & Rw & Inf & _) & (Ti & Rt)).
  rewrite E. cbn [bind]. clear E. rewrite Inf. cbn [Nat.eqb negb].
  replace (filter (fun j => bad_col (m_int m j) (lo1 m s1 j) (hi1 m s1 j) (b_lo s j) (b_hi s j)) (seq 0 (m_ncols m))) with (@nil nat).
  2:{ symmetry. assert (G : forall l, (forall j, In j l -> (j < m_ncols m)%nat) ->
        filter (fun j => bad_col (m_int m j) (lo1 m s1 j) (hi1 m s1 j) (b_lo s j) (b_hi s j)) l = []).
      { induction l as [|j l IH]; intro Hl; [reflexivity|]. cbn [filter].
        rewrite (bad_col_false (m_int m j) (lo1 m s1 j) (hi1 m s1 j) (b_lo s j) (b_hi s j) (x j)).
        - apply IH. intros k I. apply Hl. now right.
        - apply Fi. apply Hl. now left.
        - apply KC. apply Hl. now left.
        - apply B. apply Hl. now left. }
      apply G. intros j I. apply in_seq in I. lia. }
  cbn [length Nat.eqb negb].
  set (lo := fun j => if open2 (lo1 m s1 j) (hi1 m s1 j) then final_lo (m_int m j) (lo1 m s1 j) (b_lo s j) (b_hi s j) else b_lo s j).
  set (hi := fun j => if open2 (lo1 m s1 j) (hi1 m s1 j) then final_hi (m_int m j) (hi1 m s1 j) (b_lo s j) (b_hi s j) else b_hi s j).
  set (rows := map (fun i => row3 (m_int m) lo hi (forms_of srt m i) (b_rl s i) (b_ru s i)) (indexed m)).
  eexists. eexists. split; [reflexivity|]. cbn [m_ncols m_int m_rows m_clo m_chi].
  split; [destruct (Nat.eqb _ 0); lia|]. split; [reflexivity|]. split; [reflexivity|].
  split; [match goal with |- length (if ?b then _ else _) = _ => destruct b end; unfold rows, indexed; rewrite ?map_length; apply seq_length|].
  assert (CI : forall j, (j < m_ncols m)%nat -> m_int m j = true -> within (lo j) (hi j) (x j)).
  { intros j L Ij. unfold lo, hi. destruct (open2 (lo1 m s1 j) (hi1 m s1 j)); [|exact (B j L)]. rewrite Ij. apply final_int; [now apply Fi|exact (B j L)]. }
  assert (CO : forall j, (j < m_ncols m)%nat -> m_int m j = true -> open2 (lo1 m s1 j) (hi1 m s1 j) = true ->
            within (final_lo (m_int m j) (lo1 m s1 j) (b_lo s j) (b_hi s j)) (final_hi (m_int m j) (hi1 m s1 j) (b_lo s j) (b_hi s j)) (x j)).
  { intros j L Ij O. pose proof (CI j L Ij) as P. unfold lo, hi in P. rewrite O in P. exact P. }
  split; [|split].
  - intros j L Ij. destruct (open2 (lo1 m s1 j) (hi1 m s1 j)) eqn:O; [now apply CO|now apply KC].
  - intros j L. destruct (open2 (lo1 m s1 j) (hi1 m s1 j)) eqn:O; [|apply within_nearly; now apply KC].
    destruct (m_int m j) eqn:Ij; [apply within_nearly; rewrite <- Ij; now apply CO|].
    apply final_cont; [now apply KC|exact (B j L)].
  - intros C.
    assert (CA : forall j, (j < m_ncols m)%nat -> within (lo j) (hi j) (x j)).
    { intros j L. destruct (m_int m j) eqn:Ij; [now apply CI|]. pose proof (C j L Ij) as Cj.
      unfold lo, hi in *. destruct (open2 (lo1 m s1 j) (hi1 m s1 j)); [exact Cj|exact (B j L)]. }
    split; [|split; [|exact Fi]].
    + intros r I. cbn [m_rows] in I.
      assert (G1 : forall i, (i < length (m_rows m))%nat -> row_sat (Row (r_form (nth i (m_rows m) (Row [] None None))) (b_rl s i) (b_ru s i)) x).
      { intros i L. pose proof (Rw i L) as S. apply within_eq with (2 := S). apply FV. }
      destruct (Nat.eqb _ 0).
      * apply in_map_iff in I. destruct I as (i & <- & I). apply in_seq in I. apply G1. lia.
      * apply in_map_iff in I. destruct I as (p & <- & I). unfold rows in I. apply in_map_iff in I.
        destruct I as (i & <- & I). apply in_seq in I. assert (L : (i < length (m_rows m))%nat) by lia.
        destruct (FO i L) as (Z1 & _ & Z3). apply row3_ok; [exact Z1| | |exact (Rw i L)].
        -- intros j a J. pose proof (Z3 j a J) as Lj. split; [now apply CA|]. intro Ij. now apply Fi.
        -- intros j Ij l u El Eu D. unfold lo, hi in El, Eu. destruct (open2 (lo1 m s1 j) (hi1 m s1 j)) eqn:O.
           ++ rewrite Ij in El. apply (proj1 (final_int_integral (lo1 m s1 j) (hi1 m s1 j) (b_lo s j) (b_hi s j)) l El).
           ++ exfalso. unfold open2 in O. destruct (lo1 m s1 j) as [p|] eqn:Ep; [|discriminate O].
              destruct (hi1 m s1 j) as [q|] eqn:Eq; [|discriminate O]. qb. destruct (Ti j) as [T1 T2].
              destruct (T1 p Ep) as (p' & Ep' & Lp). destruct (T2 q Eq) as (q' & Eq' & Lq).
              rewrite El in Ep'. rewrite Eu in Eq'. apply Some_inj in Ep'. apply Some_inj in Eq'. subst p' q'. lra.
    + intros j L. cbn [m_ncols m_clo m_chi] in *. destruct (Bool.bool_dec (m_int m j) true) as [Ij|Ij].
      * destruct (open2 (lo1 m s1 j) (hi1 m s1 j)) eqn:O; [now apply CO|now apply KC].
      * apply Bool.not_true_is_false in Ij. exact (C j L Ij).
Qed.

(** ** C120: what happens to the feasible points *)
(** A feasible point stays feasible, as long as it is inside the new bounds of
    the continuous columns. *)
Theorem C120_points_kept : forall srt m tol m' k x,
  wf_mip m -> no_zeros m -> reorders srt -> 0 <= tol -> tighten_primal srt m tol = Done (m', k) -> feasible m x ->
  (forall j, (j < m_ncols m)%nat -> m_int m j = false -> ge_opt_lo (x j) (m_clo m' j) /\ le_opt_hi (x j) (m_chi m' j)) ->
  feasible m' x.
Proof.
  intros srt m tol m' k x W Z R T E F C.
  destruct (run_lemma srt m tol x W Z R T F) as (m1 & k1 & E1 & _ & _ & _ & _ & _ & _ & H).
  rewrite E1 in E. apply Done_inj in E. injection E as -> ->. apply H. exact C.
Qed.
Print Assumptions C120_points_kept.
(** If all columns are integer no point is lost. *)
Theorem C120_integer_points_kept : forall srt m tol m' k x,
  wf_mip m -> no_zeros m -> reorders srt -> 0 <= tol -> (forall j, (j < m_ncols m)%nat -> m_int m j = true) ->
  tighten_primal srt m tol = Done (m', k) -> feasible m x -> feasible m' x.
Proof.
  intros srt m tol m' k x W Z R T A E F. apply (C120_points_kept srt m tol m' k x W Z R T E F).
  intros j L N. rewrite (A j L) in N. discriminate N.
Qed.
Print Assumptions C120_integer_points_kept.
(** A negative return value, or no result at all, is only given for a problem
    without feasible points. *)
Theorem C120_negative_is_infeasible : forall srt m tol,
  wf_mip m -> no_zeros m -> reorders srt -> 0 <= tol ->
  (forall m' k, tighten_primal srt m tol = Done (m', k) -> (k < 0)%Z) -> forall x, ~ feasible m x.
Proof.
  intros srt m tol W Z R T N x F.
  destruct (run_lemma srt m tol x W Z R T F) as (m1 & k1 & E1 & P & _). specialize (N m1 k1 E1). lia.
Qed.
Print Assumptions C120_negative_is_infeasible.

(** ** C121: the new bounds *)
Theorem C121_bounds : forall srt m tol m' k x,
  wf_mip m -> no_zeros m -> reorders srt -> 0 <= tol -> tighten_primal srt m tol = Done (m', k) -> feasible m x ->
  m_ncols m' = m_ncols m /\ m_int m' = m_int m /\ length (m_rows m') = length (m_rows m) /\
  forall j, (j < m_ncols m)%nat ->
    (m_int m j = true -> ge_opt_lo (x j) (m_clo m' j) /\ le_opt_hi (x j) (m_chi m' j)) /\
    (forall l, m_clo m' j = Some l -> l - (1 # 100000000) <= x j) /\
    (forall u, m_chi m' j = Some u -> x j <= u + (1 # 100000000)).
Proof.
  intros srt m tol m' k x W Z R T E F.
  destruct (run_lemma srt m tol x W Z R T F) as (m1 & k1 & E1 & _ & A & B & C & D & G & _).
  rewrite E1 in E. apply Done_inj in E. injection E as -> ->. do 3 (split; [assumption|]).
  intros j L. split; [now apply D|]. exact (G j L).
Qed.
Print Assumptions C121_bounds.

(** ** A case that meets the hypotheses *)
(** The parts of a result that can be compared. *)
Definition shown (o : outcome (mip * Z)) :=
  match o with
  | Done (m, k) => Some (m_ncols m, m_rows m, map (fun j => (m_clo m j, m_chi m j, m_int m j)) (seq 0 (m_ncols m)), k)
  | _ => None
  end.
Lemma shown_inv o n rows cols k : shown o = Some (n, rows, cols, k) ->
  exists m, o = Done (m, k) /\ m_ncols m = n /\ m_rows m = rows /\
    map (fun j => (m_clo m j, m_chi m j, m_int m j)) (seq 0 n) = cols.
Proof.
  destruct o as [[m k']| | | |]; cbn [shown]; intro E; try discriminate E. injection E as E1 E2 E3 E4. subst k'.
  exists m. split; [reflexivity|]. split; [exact E1|]. split; [exact E2|]. rewrite <- E1. exact E3.
Qed.
(** 5 x0 + 2 x1 + 2 x2 >= 3 with binary columns: the 5 becomes a 3.
    1 <= 2 x3 - y <= 7 limits the general integer x3 to 1..4. *)
Definition ex1 : mip :=
  {| m_ncols := 5;
     m_rows := [Row [(0%nat, 5); (1%nat, 2); (2%nat, 2)] (Some 3) None; Row [(3%nat, 2); (4%nat, -1)] (Some 1) (Some 7)];
     m_clo := fun _ => Some 0;
     m_chi := fun j => match j with 3%nat => Some 10 | 4%nat => Some (5 # 2) | _ => Some 1 end;
     m_int := fun j => Nat.ltb j 4 |}.
Ltac each I := repeat (destruct I as [<-|I]); try destruct I.
Ltac wf_small := intros r I; cbn in I; each I; (split; [repeat constructor; cbn; intuition discriminate|]);
    intros j a J; cbn in J; repeat (destruct J as [J|J]; [injection J as <- _; cbn; lia|]); destruct J.
Ltac nz_small := intros r j a I J; cbn in I; each I; cbn in J;
    repeat (destruct J as [J|J]; [injection J as _ <-; apply Qeq_bool_neq; reflexivity|]); destruct J.
Example C120_hypotheses : wf_mip ex1 /\ no_zeros ex1 /\ reorders (fun v => v) /\
  feasible ex1 (fun j => match j with 0%nat => 1 | 3%nat => 2 | 4%nat => 3 # 2 | _ => 0 end).
Proof.
  split; [wf_small|]. split; [nz_small|]. split; [intro v; apply Permutation_refl|]. split; [|split].
  - intros r I. cbn in I. each I; split; cbn; try exact I; lra.
  - intros j L. cbn in L. do 5 (destruct j as [|j]; [cbn; lra|]). lia.
  - intros j L Hi. cbn in L. destruct j as [|[|[|[|j]]]]; [exists 1%Z|exists 0%Z|exists 0%Z|exists 2%Z|]; try reflexivity.
    destruct j as [|j]; [|lia]. discriminate Hi.
Qed.
Example C120_example : shown (tighten_primal (fun v => v) ex1 (1 # 10000000)) =
  Some (5%nat, [Row [(0%nat, 3); (1%nat, 2); (2%nat, 2)] (Some 3) None; Row [(3%nat, 2); (4%nat, -1)] (Some 1) (Some 7)],
    [(Some 0, Some 1, true); (Some 0, Some 1, true); (Some 0, Some 1, true); (Some 1, Some 4, true); (Some 0, Some (5 # 2), false)], 0%Z).
Proof. vm_compute. reflexivity. Qed.
(** 2 x = 3 with an integer x *)
Definition ex4 : mip :=
  {| m_ncols := 1; m_rows := [Row [(0%nat, 2)] (Some 3) (Some 3)]; m_clo := fun _ => Some 0; m_chi := fun _ => Some 10;
     m_int := fun _ => true |}.
Example C120_negative_example : shown (tighten_primal (fun v => v) ex4 (1 # 10000000)) =
  Some (1%nat, [Row [(0%nat, 2)] (Some 3) (Some 3)], [(Some 0, Some 1, true)], (-1)%Z).
Proof. vm_compute. reflexivity. Qed.

(** ** The condition on the continuous columns is needed *)
(** 1e9 x = 5 with 0 <= x <= 10: both bounds come out below 1e-8 and are set to
    zero, and the row is made free. *)
Definition ex2 : mip :=
  {| m_ncols := 1; m_rows := [Row [(0%nat, 1000000000)] (Some 5) (Some 5)]; m_clo := fun _ => Some 0; m_chi := fun _ => Some 10;
     m_int := fun _ => false |}.
Theorem C120_points_lost_refuted : wf_mip ex2 /\ no_zeros ex2 /\
  exists m' k, tighten_primal (fun v => v) ex2 (1 # 10000000) = Done (m', k) /\
    feasible ex2 (fun _ => 5 # 1000000000) /\ (forall x, feasible ex2 x -> ~ feasible m' x) /\ feasible m' (fun _ => 0).
Proof.
  split; [wf_small|]. split; [nz_small|].
  destruct (shown_inv (tighten_primal (fun v => v) ex2 (1 # 10000000)) 1 [Row [(0%nat, 1000000000)] None None]
    [(Some 0, Some 0, false)] 1073741826) as (m' & E & En & Er & Ec); [vm_compute; reflexivity|].
  cbn in Ec. injection Ec as El Eu Ei. exists m', 1073741826%Z. split; [exact E|]. split; [|split].
  - split; [|split].
    + intros r I. cbn in I. each I. split; cbn; lra.
    + intros j L. cbn. lra.
    + intros j L H. discriminate H.
  - intros x (F1 & _) (_ & F2 & _). specialize (F1 _ (or_introl eq_refl)). destruct F1 as [F1 _]. cbn in F1.
    destruct (F2 0%nat) as [_ G]; [rewrite En; lia|]. rewrite Eu in G. cbn in G. lra.
  - split; [|split].
    + rewrite Er. intros r I. cbn in I. each I. split; exact Logic.I.
    + intros j L. rewrite En in L. destruct j as [|j]; [|lia]. rewrite El, Eu. cbn. lra.
    + intros j L H. exists 0%Z. reflexivity.
Qed.
Print Assumptions C120_points_lost_refuted.
(** 1e6 x <= 1 with a free x: the bound 1e-6 makes the row redundant, the row is
    made free, and then the bound is relaxed by 1e-5. *)
Definition ex3 : mip :=
  {| m_ncols := 1; m_rows := [Row [(0%nat, 1000000)] None (Some 1)]; m_clo := fun _ => None; m_chi := fun _ => None;
     m_int := fun _ => false |}.
Theorem C120_points_gained_refuted : wf_mip ex3 /\ no_zeros ex3 /\
  exists m' k x, tighten_primal (fun v => v) ex3 (1 # 10000000) = Done (m', k) /\ (0 <= k)%Z /\
    feasible m' x /\ value [(0%nat, 1000000)] x == 11.
Proof.
  split; [wf_small|]. split; [nz_small|].
  destruct (shown_inv (tighten_primal (fun v => v) ex3 (1 # 10000000)) 1 [Row [(0%nat, 1000000)] None None]
    [(None, Some (110000000000000 # 10000000000000000000), false)] 1073741826) as (m' & E & En & Er & Ec); [vm_compute; reflexivity|].
  cbn in Ec. injection Ec as El Eu Ei. exists m', 1073741826%Z, (fun _ => 11 # 1000000).
  split; [exact E|]. split; [lia|]. split; [|cbn; lra]. split; [|split].
  - rewrite Er. intros r I. cbn in I. each I. split; exact Logic.I.
  - intros j L. rewrite En in L. destruct j as [|j]; [|lia]. rewrite El, Eu. split; [exact Logic.I|]. cbn. lra.
  - intros j L H. rewrite En in L. destruct j as [|j]; [|lia]. rewrite Ei in H. discriminate H.
Qed.
Print Assumptions C120_points_gained_refuted.
