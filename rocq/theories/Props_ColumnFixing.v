(** * Properties of someFixed, reducedCostFix and passInProhibited *)
From Coq Require Import Permutation.
From Verif Require Import Model_ColumnFixing Proofs_ColumnFixing.
Local Open Scope Q_scope.

(** ** C117: reducedCostFix keeps every feasible point that is no worse than the
    cutoff *)
Definition integral_bounds (m : mip) : Prop := forall j q, (j < m_ncols m)%nat -> m_int m j = true ->
  m_clo m j = Some q \/ m_chi m j = Some q -> integral q.
Theorem C117_good_points_kept : forall m obj dir s cutoff dtol itol,
  optimal m obj dir s -> integral_bounds m -> 0 <= dtol ->
  forall x, feasible m x -> dir * cost (m_ncols m) obj x <= cutoff * dir ->
  feasible (fst (reduced_cost_fix m s dir cutoff dtol itol)) x.
Proof.
  intros m obj dir s cutoff dtol itol O I T x F C. unfold reduced_cost_fix.
  destruct ((cutoff * dir - lp_value s * dir <=? 0) || _) eqn:G; [exact F|]. cbn [fst].
  apply orb_false_iff in G. destruct G as [G _]. qb.
  destruct F as (Fr & Fb & Fi). split; [exact Fr|]. split; [|exact Fi].
  intros j L. cbn [m_ncols m_clo m_chi] in *. destruct (Fb j L) as [B1 B2].
  pose proof (one_column m obj dir s x j O Fr Fb L) as K.
  pose proof O as (_ & O2 & _). destruct (O2 j L) as [Op On].
  unfold rc_choice. destruct (m_int m j) eqn:Mj; [|now split]. destruct (open_col m j); [|now split]. cbn [andb].
  pose proof (Fi j L Mj) as Xi.
  destruct (match m_clo m j with Some l => lp_sol s j <? l + itol | None => false end &&
            (cutoff * dir - lp_value s * dir + 100 * dtol <? dir * lp_rc s j)) eqn:A.
  { apply andb_true_iff in A. destruct A as [_ A]. qb. split; [exact B1|].
    destruct Op as (l & El & Sl); [lra|]. rewrite El in *. cbn in B1 |- *.
    assert (Il : integral l) by (apply (I j); auto). apply Qnot_lt_le. intro Lt.
    pose proof (integral_lt_le1 l (x j) Il Xi Lt) as Le.
    assert (N : 0 <= (dir * lp_rc s j) * (x j - lp_sol s j - 1)) by (apply Qmult_le_0_compat; lra). lra. }
  destruct (match m_chi m j with Some u => u - itol <? lp_sol s j | None => false end &&
            (cutoff * dir - lp_value s * dir + 100 * dtol <? - (dir * lp_rc s j))) eqn:A2; [|now split].
  apply andb_true_iff in A2. destruct A2 as [_ A2]. qb. split; [|exact B2].
  destruct On as (u & Eu & Su); [lra|]. rewrite Eu in *. cbn in B2 |- *.
  assert (Iu : integral u) by (apply (I j); auto). apply Qnot_lt_le. intro Lt.
  pose proof (integral_lt_le1 (x j) u Xi Iu Lt) as Le.
  assert (N : 0 <= (- (dir * lp_rc s j)) * (lp_sol s j - x j - 1)) by (apply Qmult_le_0_compat; lra). lra.
Qed.
Print Assumptions C117_good_points_kept.

(** Nothing is gained, rows and markers stay, columns that are not integer or
    fixed already stay; the number returned is that of the columns fixed. *)
Theorem C117_only_fixes : forall m s dir cutoff dtol itol m' k,
  reduced_cost_fix m s dir cutoff dtol itol = (m', k) ->
  m_ncols m' = m_ncols m /\ m_rows m' = m_rows m /\ m_int m' = m_int m /\
  (forall j, m_clo m' j = m_clo m j /\ m_chi m' j = m_chi m j \/
     m_int m j = true /\ open_col m j = true /\
     (exists q, m_clo m' j = Some q /\ m_chi m' j = Some q /\ (m_clo m j = Some q \/ m_chi m j = Some q))) /\
  (exists l, length l = k /\ NoDup l /\ forall j, (j < m_ncols m)%nat -> open_col m j = true ->
     (In j l <-> exists q, m_clo m' j = Some q /\ m_chi m' j = Some q)).
Proof.
  intros m s dir cutoff dtol itol m' k E. unfold reduced_cost_fix in E.
  assert (Op : forall j, open_col m j = true -> forall q, m_clo m j = Some q -> m_chi m j = Some q -> False).
  { intros j O q E1 E2. unfold open_col in O. rewrite E1, E2 in O. qb. lra. }
  destruct (_ || _).
  - injection E as <- <-. do 3 (split; [reflexivity|]). split; [left; auto|]. exists []. split; [reflexivity|].
    split; [constructor|]. intros j L O. split; [intros []|]. intros (q & E1 & E2). exact (Op j O q E1 E2).
  - set (f := rc_choice m s dir _ itol) in E. injection E as <- <-. do 3 (split; [reflexivity|]). cbn [m_clo m_chi].
    assert (H : forall j, f j = Leave \/ m_int m j = true /\ open_col m j = true /\
      (f j = FixLower /\ (exists q, m_clo m j = Some q) \/ f j = FixUpper /\ (exists q, m_chi m j = Some q))).
    { intro j. unfold f, rc_choice. destruct (m_int m j && open_col m j) eqn:E1; [|now left].
      apply andb_true_iff in E1. destruct E1 as [E1 E2].
      cbn zeta. destruct (match m_clo m j with Some _ => _ | None => _ end && _) eqn:A1.
      { right. do 2 (split; [assumption|]). left. split; [reflexivity|].
        destruct (m_clo m j) as [q|]; [now exists q|discriminate A1]. }
      destruct (match m_chi m j with Some _ => _ | None => _ end && _) eqn:A2; [|now left].
      right. do 2 (split; [assumption|]). right. split; [reflexivity|].
      destruct (m_chi m j) as [q|]; [now exists q|discriminate A2]. }
    split.
    + intro j. destruct (H j) as [E1|(E1 & E2 & [(E3 & q & Eq)|(E3 & q & Eq)])]; rewrite ?E1, ?E3; [now left| |];
        right; do 2 (split; [reflexivity || assumption|]); exists q; auto.
    + exists (filter (fun j => is_fix (f j)) (seq 0 (m_ncols m))). split; [reflexivity|].
      split; [apply NoDup_filter, seq_NoDup|]. intros j L O. rewrite filter_In, in_seq. split.
      * intros [_ I]. destruct (H j) as [E1|(E1 & E2 & [(E3 & q & Eq)|(E3 & q & Eq)])]; rewrite ?E1, ?E3 in *;
          [discriminate I|exists q; auto|exists q; auto].
      * intros (q & E1 & E2). split; [lia|]. destruct (f j); try reflexivity. exfalso. exact (Op j O q E1 E2).
Qed.
Print Assumptions C117_only_fixes.

(** Every integer column that can be fixed this way is *)
Theorem C117_fixed : forall m s dir cutoff dtol itol j, m_int m j = true -> open_col m j = true -> 0 < itol ->
  0 <= dtol -> lp_value s * dir < cutoff * dir -> Qabs (cutoff * dir) <= inject_Z (10 ^ 20) ->
  let m' := fst (reduced_cost_fix m s dir cutoff dtol itol) in
  (forall l, m_clo m j = Some l -> lp_sol s j == l ->
     cutoff * dir - lp_value s * dir + 100 * dtol < dir * lp_rc s j -> m_chi m' j = Some l) /\
  (forall u, m_chi m j = Some u -> lp_sol s j == u ->
     cutoff * dir - lp_value s * dir + 100 * dtol < - (dir * lp_rc s j) -> m_clo m' j = Some u).
Proof.
  intros m s dir cutoff dtol itol j Mj Oj T D G C. cbn zeta. unfold reduced_cost_fix.
  replace (cutoff * dir - lp_value s * dir <=? 0) with false
    by (symmetry; apply Qleb_gt; lra).
  replace (inject_Z (10 ^ 20) <? Qabs (cutoff * dir)) with false by (symmetry; apply Qltb_ge; exact C).
  cbn [orb fst m_clo m_chi]. unfold rc_choice. rewrite Mj, Oj. cbn [andb]. split.
  - intros l El Sl R. rewrite El. replace (lp_sol s j <? l + itol) with true by (symmetry; apply Qltb_lt; lra).
    replace (_ <? dir * lp_rc s j) with true by (symmetry; apply Qltb_lt; lra). reflexivity.
  - intros u Eu Su R. replace (_ <? dir * lp_rc s j) with false by (symmetry; apply Qltb_ge; lra).
    rewrite andb_false_r, Eu. replace (u - itol <? lp_sol s j) with true by (symmetry; apply Qltb_lt; lra).
    replace (_ <? - (dir * lp_rc s j)) with true by (symmetry; apply Qltb_lt; lra). reflexivity.
Qed.
Print Assumptions C117_fixed.

(** minimise 3 x0 + x1 - 5 x2, x0 + x1 + x2 >= 2, 0 <= x <= 4, x2 <= 1: the value
    is -4 and with cutoff -3 the columns 0 and 2 are fixed. *)
Definition fx1 : mip :=
  {| m_ncols := 3; m_rows := [Row [(0%nat, 1); (1%nat, 1); (2%nat, 1)] (Some 2) None];
     m_clo := fun _ => Some 0; m_chi := fun j => if Nat.eqb j 2 then Some 1 else Some 4; m_int := fun _ => true |}.
Definition fx1_obj : nat -> Q := fun j => match j with 0%nat => 3 | 1%nat => 1 | _ => -5 end.
Definition fx1_lp : lp := {| lp_sol := fun j => match j with 0%nat => 0 | _ => 1 end;
  lp_rc := fun j => match j with 0%nat => 2 | 1%nat => 0 | _ => -6 end; lp_value := -4 |}.
Example C117_hypotheses : optimal fx1 fx1_obj 1 fx1_lp /\ integral_bounds fx1.
Proof.
  split.
  - split; [reflexivity|]. split.
    + intros j L. cbn in L. destruct j as [|[|[|j]]]; [| | |lia]; (split; intro H; try (vm_compute in H; discriminate H)).
      * exists 0. split; reflexivity.
      * exists 1. split; reflexivity.
    + exists [1]. split; [reflexivity|]. split.
      * intro d. unfold cost. cbn. ring.
      * intros r q I. cbn in I. destruct I as [I|[]]. injection I as <- <-. split; intro H; [|vm_compute in H; discriminate H].
        exists 2. split; reflexivity.
  - intros j q _ _ [H|H]; cbn in H.
    + injection H as <-. apply integral_0.
    + destruct (Nat.eqb j 2); injection H as <-; [apply integral_1|exists 4%Z; reflexivity].
Qed.
Example C117_example : let '(m', k) := reduced_cost_fix fx1 fx1_lp 1 (-3) (1 # 1000000) (1 # 1000000) in
  k = 2%nat /\ map (m_clo m') (seq 0 3) = [Some 0; Some 0; Some 1] /\
  map (m_chi m') (seq 0 3) = [Some 0; Some 4; Some 1].
Proof. vm_compute. auto. Qed.

(** With fractional bounds the last feasible points can be lost. *)
Definition fx2 : mip :=
  {| m_ncols := 1; m_rows := []; m_clo := fun _ => Some (1 # 2); m_chi := fun _ => Some 4; m_int := fun _ => true |}.
Definition fx2_lp : lp := {| lp_sol := fun _ => 1 # 2; lp_rc := fun _ => 2; lp_value := 1 |}.
Theorem C117_fractional_refuted : optimal fx2 (fun _ => 2) 1 fx2_lp /\ feasible fx2 (fun _ => 1) /\
  cost 1 (fun _ => 2) (fun _ => 1) <= (5 # 2) * 1 /\
  forall x, ~ feasible (fst (reduced_cost_fix fx2 fx2_lp 1 (5 # 2) (1 # 1000000) (1 # 1000000))) x.
Proof.
  split.
  { split; [reflexivity|]. split.
    - intros j _. split; intro H; [exists (1 # 2); split; reflexivity|vm_compute in H; discriminate H].
    - exists []. split; [reflexivity|]. split; [intro d; unfold cost; cbn; ring|intros r q []]. }
  split.
  { split; [intros r []|]. split; [intros j _; split; vm_compute; discriminate|]. intros j _ _. apply integral_1. }
  split; [vm_compute; discriminate|].
  intros x (_ & Fb & Fi). specialize (Fb 0%nat). specialize (Fi 0%nat). cbn [m_ncols fx2 reduced_cost_fix] in *.
  destruct Fb as [F1 F2]; [vm_compute; lia|]. destruct Fi as [z X]; [vm_compute; lia|reflexivity|].
  vm_compute in F1, F2.
  assert (H1 : (1 # 2) <= x 0%nat) by exact F1. assert (H2 : x 0%nat <= 1 # 2) by exact F2.
  assert (H : 2 * inject_Z z == 1) by lra.
  change 2 with (inject_Z 2) in H. rewrite <- inject_Z_mult in H. change 1 with (inject_Z 1) in H.
  unfold Qeq in H. cbn [Qnum Qden inject_Z] in H. lia.
Qed.
Print Assumptions C117_fractional_refuted.

(** ** C118: someFixed *)
Lemma NoDup_firstn {A} (l : list A) : forall n, NoDup l -> NoDup (firstn n l).
Proof.
  induction l as [|a l IH]; intros [|n] N; cbn; try constructor.
  - inversion N; subst. intro I. apply H1. rewrite <- (firstn_skipn n). apply in_or_app. now left.
  - apply IH. now inversion N.
Qed.
Theorem C118_only_fixes : forall srt keep m s fraction fixc m',
  (forall l, Permutation l (srt l)) -> some_fixed srt keep m s fraction fixc = Done m' ->
  m_ncols m' = m_ncols m /\ m_rows m' = m_rows m /\ m_clo m' = m_clo m /\ m_int m' = m_int m /\
  exists l, NoDup l /\ (length l <= m_ncols m)%nat /\
    (Z.of_nat (length l) <= Z.max (truncate ((if fixc then inject_Z (Z.of_nat (m_ncols m)) else
        inject_Z (Z.of_nat (m_ncols m)) - inject_Z (Z.of_nat (length (filter
          (fun i => negb (m_int m i) && open_col m i) (seq 0 (m_ncols m)))))) * (1 - fraction)))
      (Z.of_nat (thrown keep m fixc)))%Z /\
    forall j, m_chi m' j = m_chi m j \/
      In j l /\ (j < m_ncols m)%nat /\ (m_int m j = true \/ fixc = true) /\
      match keep with Some k => k j <> 1%Z | None => True end /\
      (forall q, m_clo m j = Some q -> m_chi m' j = Some q).
Proof.
  intros srt keep m s fraction fixc m' P E. unfold some_fixed in E.
  destruct (fix_inv m s _ _ _ _ E) as (A1 & A2 & A3 & A4 & A5). do 4 (split; [assumption|]).
  set (p := picked keep m s fixc) in *. set (t := to_fix keep m s fraction fixc) in *.
  destruct (picked_spec keep m s fixc) as [N M]. fold p in N, M.
  assert (Pm : Permutation (map snd p) (map snd (srt p))) by (apply Permutation_map, P).
  rewrite <- firstn_map in A5.
  exists (firstn t (map snd (srt p))).
  assert (Ns : NoDup (map snd (srt p))) by (eapply Permutation_NoDup; eassumption).
  assert (I : forall j, In j (firstn t (map snd (srt p))) -> In j (map snd p)).
  { intros j J. apply (Permutation_in j (Permutation_sym Pm)). rewrite <- (firstn_skipn t). apply in_or_app. now left. }
  split; [|split; [|split]].
  - apply NoDup_firstn. exact Ns.
  - rewrite firstn_length. etransitivity; [apply Nat.le_min_r|]. rewrite <- (Permutation_length Pm), map_length.
    apply (picked_length keep m s fixc).
  - rewrite firstn_length.
    assert (t <= Nat.max (Z.to_nat (truncate (if fixc then inject_Z (Z.of_nat (m_ncols m)) * (1 - fraction)
       else (inject_Z (Z.of_nat (m_ncols m)) - inject_Z (Z.of_nat (length (filter
          (fun i => negb (m_int m i) && open_col m i) (seq 0 (m_ncols m)))))) * (1 - fraction)))) (thrown keep m fixc))%nat
      by apply Nat.le_min_r.
    destruct fixc; lia.
  - intro j. destruct (A5 j) as [H|[H1 H2]]; [now left|right]. destruct (M j (I j H1)) as (L & K1 & K2).
    split; [exact H1|]. do 3 (split; [assumption|]). intros q Eq. rewrite H2, Eq. reflexivity.
Qed.
Print Assumptions C118_only_fixes.

(** It returns if some column is not looked at *)
Theorem C118_done : forall srt keep m s fraction fixc j,
  (j < m_ncols m)%nat ->
  (m_int m j = false /\ fixc = false \/ match keep with Some k => k j = 1%Z | None => False end) ->
  exists m', some_fixed srt keep m s fraction fixc = Done m'.
Proof.
  intros srt keep m s fraction fixc j L H. unfold some_fixed. apply fix_done.
  apply (proj2 (picked_length keep m s fixc) j L). intros (_ & [K|K] & K2); destruct H as [[H1 H2]|H].
  - congruence.
  - destruct keep; [contradiction|exact H].
  - congruence.
  - destruct keep; [contradiction|exact H].
Qed.
Print Assumptions C118_done.

(** No limit on the number: everything picked at its lower bound is fixed *)
Theorem C118_all_at_lower : forall srt keep m s fixc m',
  (forall l, Permutation l (srt l)) -> some_fixed srt keep m s 0 fixc = Done m' ->
  (fixc = true \/ forall j, (j < m_ncols m)%nat -> m_int m j = true) ->
  forall j l, (j < m_ncols m)%nat -> m_int m j = true \/ fixc = true ->
  match keep with Some k => k j <> 1%Z | None => True end ->
  m_clo m j = Some l -> lp_sol s j == l -> m_chi m' j = Some l.
Proof.
  intros srt keep m s fixc m' P E A j l L Mj K El Sl. unfold some_fixed in E.
  assert (B : below (m_clo m j) (lp_sol s j) = true).
  { unfold below. rewrite El. apply Qltb_lt. rewrite Sl. unfold eps8. lra. }
  assert (Ip : forall ls st, In j ls \/ In j (map snd st) -> In j (map snd (fold_left (pick keep m s fixc) ls st))).
  { induction ls as [|i ls IH]; intros st I; cbn [fold_left]; [destruct I as [[]|I]; exact I|].
    apply IH. destruct I as [[->|I]|I]; [right|now left|right].
    - unfold pick. replace (m_int m j || fixc) with true by (symmetry; apply orb_true_iff; exact Mj). rewrite B. cbn [orb].
      destruct keep as [k|]; [|rewrite map_app; apply in_or_app; right; now left].
      destruct (Z.eqb_spec (k j) 1); [contradiction|]. destruct (k j =? -1)%Z; rewrite map_app; apply in_or_app; right; now left.
    - destruct (pick_cases keep m s fixc st i) as [->|((d & ->) & _)]; [exact I|]. rewrite map_app. apply in_or_app. now left. }
  assert (T : to_fix keep m s 0 fixc = length (picked keep m s fixc)).
  { pose proof (proj1 (picked_length keep m s fixc)) as Le.
    unfold to_fix. apply Nat.min_l. etransitivity; [|apply Nat.le_max_l].
    assert (X : truncate (if fixc then inject_Z (Z.of_nat (m_ncols m)) * (1 - 0) else
       (inject_Z (Z.of_nat (m_ncols m)) - inject_Z (Z.of_nat (length (filter
          (fun i => negb (m_int m i) && open_col m i) (seq 0 (m_ncols m)))))) * (1 - 0)) = Z.of_nat (m_ncols m)).
    { assert (Y : forall q, q == inject_Z (Z.of_nat (m_ncols m)) -> truncate q = Z.of_nat (m_ncols m)).
      { intros q Eq. unfold truncate. replace (0 <=? q) with true.
        - rewrite (Qfloor_comp _ _ Eq). apply Qfloor_Z.
        - symmetry. apply Qle_bool_iff. rewrite Eq. change 0 with (inject_Z 0). rewrite <- Zle_Qle. lia. }
      apply Y. destruct A as [A|A].
      - rewrite A. ring.
      - replace (filter (fun i => negb (m_int m i) && open_col m i) (seq 0 (m_ncols m))) with (@nil nat).
        + destruct fixc; cbn [length Z.of_nat]; change (inject_Z 0) with 0; ring.
        + symmetry. assert (Fl : forall ls, (forall i, In i ls -> (i < m_ncols m)%nat) ->
            filter (fun i => negb (m_int m i) && open_col m i) ls = []).
          { induction ls as [|i ls IH]; intro Hi; [reflexivity|]. cbn [filter]. rewrite A by (apply Hi; now left).
            cbn [negb andb]. apply IH. intros; apply Hi; now right. }
          apply Fl. intros i Ii. apply in_seq in Ii. lia. }
    rewrite X. lia. }
  rewrite T in E.
  assert (Pm : Permutation (picked keep m s fixc) (srt (picked keep m s fixc))) by apply P.
  rewrite (firstn_all2 (srt _)) in E by (rewrite <- (Permutation_length Pm); lia).
  replace (Some l) with (as_upper (m_clo m j)) by now rewrite El.
  apply (fix_at m s _ _ j _ _ E); [|exact B]. left.
  apply (Permutation_in j (Permutation_map snd Pm)). apply Ip. left. apply in_seq. lia.
Qed.
Print Assumptions C118_all_at_lower.

(** A column at its upper bound is never fixed, whatever the fraction: all columns
    but one at their upper bounds, everything is to be fixed, nothing is. *)
Definition fx3 : mip :=
  {| m_ncols := 2; m_rows := []; m_clo := fun _ => Some 0; m_chi := fun _ => Some 1;
     m_int := fun j => Nat.eqb j 0 |}.
Definition fx3_lp : lp := {| lp_sol := fun _ => 1; lp_rc := fun _ => -3; lp_value := 0 |}.
Theorem C118_at_upper_refuted : exists m', some_fixed (fun l => l) None fx3 fx3_lp 0 false = Done m' /\
  map (m_clo m') (seq 0 2) = map (m_clo fx3) (seq 0 2) /\ map (m_chi m') (seq 0 2) = map (m_chi fx3) (seq 0 2) /\
  to_fix None fx3 fx3_lp 0 false = 1%nat.
Proof. eexists. split; [reflexivity|]. vm_compute. auto. Qed.
Print Assumptions C118_at_upper_refuted.
(** A column marked to be discarded is not *)
Theorem C118_discard_refuted : exists m',
  some_fixed (fun l => l) (Some (fun j => if Nat.eqb j 0 then (-1)%Z else 1%Z)) fx3 fx3_lp 1 true = Done m' /\
  map (m_clo m') (seq 0 2) = map (m_clo fx3) (seq 0 2) /\ map (m_chi m') (seq 0 2) = map (m_chi fx3) (seq 0 2).
Proof. eexists. split; [reflexivity|]. vm_compute. auto. Qed.
Print Assumptions C118_discard_refuted.
(** With all columns looked at the array of upper bounds is left *)
Theorem C118_outside_refuted : some_fixed (fun l => l) None fx3 fx3_lp 0 true = Undef OutOfBounds.
Proof. reflexivity. Qed.
Print Assumptions C118_outside_refuted.
(** Two columns at their lower bounds, the one with the larger reduced cost is
    fixed *)
Definition sort_by (l : list (Q * nat)) : list (Q * nat) :=
  fold_right (fun e => fix ins (l : list (Q * nat)) := match l with
    | [] => [e] | f :: l' => if fst e <=? fst f then e :: l else f :: ins l' end) [] l.
Example C118_example : exists m', some_fixed sort_by None
    {| m_ncols := 3; m_rows := []; m_clo := fun _ => Some 0; m_chi := fun _ => Some 9; m_int := fun _ => true |}
    {| lp_sol := fun j => if Nat.eqb j 1 then 5 else 0; lp_rc := fun j => inject_Z (Z.of_nat j); lp_value := 0 |}
    (1 # 2) false = Done m' /\
  map (m_chi m') (seq 0 3) = [Some 9; Some 9; Some 0].
Proof. eexists. split; vm_compute; reflexivity. Qed.

(** ** C119: passInProhibited *)
Definition pass_all (n : nat) (p : prohibited) (l : list (list Z)) : outcome prohibited :=
  ofold (fun p a => pass_in p (Some a) n) l p.
Theorem C119_collected : forall n a l, length a = n -> (forall b, In b l -> length b = n) ->
  exists r, pass_all n no_prohibited (a :: l) = Done {| pr_array := Some r; pr_number := n |} /\
    length r = n /\ forall i k, Z.testbit (nth i r 0%Z) k = true <->
      exists b, In b (a :: l) /\ Z.testbit (nth i b 0%Z) k = true.
Proof.
  intros n a l La Ll. unfold pass_all. cbn [ofold pass_in no_prohibited pr_array bind].
  assert (G : forall l t, length t = n -> (forall b, In b l -> length b = n) ->
    exists r, ofold (fun p a => pass_in p (Some a) n) l {| pr_array := Some t; pr_number := n |}
      = Done {| pr_array := Some r; pr_number := n |} /\ length r = n /\
      forall i k, Z.testbit (nth i r 0%Z) k = true <-> exists b, In b (t :: l) /\ Z.testbit (nth i b 0%Z) k = true).
  { clear. induction l as [|b l IH]; intros t Lt Ll; cbn [ofold].
    - exists t. split; [reflexivity|]. split; [exact Lt|]. intros i k. split.
      + intro H. exists t. split; [now left|exact H].
      + intros (b & [<-|[]] & H). exact H.
    - unfold pass_in at 1. cbn [pr_array pr_number]. rewrite Nat.eqb_refl. cbn [bind].
      assert (Lb : length b = n) by (apply Ll; now left).
      set (u := map (fun q => Z.lor (fst q) (snd q)) (combine b t)).
      assert (Lu : length u = n) by (unfold u; rewrite map_length, combine_length; lia).
      destruct (IH u Lu) as (r & E & Lr & B); [intros; apply Ll; now right|].
      exists r. split; [exact E|]. split; [exact Lr|].
      assert (U : forall i, nth i u 0%Z = Z.lor (nth i b 0%Z) (nth i t 0%Z)).
      { intro i. unfold u. change 0%Z with ((fun q => Z.lor (fst q) (snd q)) (0, 0)%Z) at 1.
        rewrite map_nth, combine_nth by congruence. reflexivity. }
      intros i k. rewrite (B i k). split.
      + intros (c & [<-|I] & H).
        * rewrite U, Z.lor_spec in H. apply orb_true_iff in H. destruct H as [H|H];
            [exists b; split; [right; now left|exact H]|exists t; split; [now left|exact H]].
        * exists c. split; [right; now right|exact H].
      + intros (c & [<-|[<-|I]] & H).
        * exists u. split; [now left|]. rewrite U, Z.lor_spec, H. apply orb_true_r.
        * exists u. split; [now left|]. rewrite U, Z.lor_spec, H. reflexivity.
        * exists c. split; [now right|exact H]. }
  apply G; assumption.
Qed.
Print Assumptions C119_collected.
(** Another length: only the last array counts *)
Theorem C119_replaced : forall p a n, pr_number p <> n ->
  pass_in p a n = Done {| pr_array := a; pr_number := n |}.
Proof.
  intros [t k] a n N. unfold pass_in. cbn [pr_array pr_number] in *. destruct t; [|reflexivity].
  apply Nat.eqb_neq in N. now rewrite N.
Qed.
Print Assumptions C119_replaced.
(** Taking the array away by passing none *)
Theorem C119_none_refuted : forall t n, (0 < n)%nat ->
  pass_in {| pr_array := Some t; pr_number := n |} None n = Undef NullDeref.
Proof. intros t [|n] L; [lia|]. unfold pass_in. cbn [pr_array pr_number]. now rewrite Nat.eqb_refl. Qed.
Print Assumptions C119_none_refuted.
Example C119_example : pass_all 3 no_prohibited [[1; 0; 2]; [0; 0; 1]; [1; 0; 0]]%Z =
  Done {| pr_array := Some [1; 0; 3]%Z; pr_number := 3 |}.
Proof. reflexivity. Qed.
