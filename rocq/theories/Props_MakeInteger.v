(** * Properties of CglPreProcess::makeInteger *)
From Verif Require Import Model_MakeInteger Proofs_MakeInteger.
Local Open Scope Q_scope.

(** ** C114: every feasible point can be replaced by one that is feasible for the
    problem with the new markers and costs no more *)
Theorem C114_optimum_kept : forall m obj dir m',
  wf_mip m -> gridded m -> no_pairs m -> make_integer m obj dir = Done m' ->
  forall x, feasible m x -> exists y, feasible m' y /\
    dir * cost (m_ncols m) obj y <= dir * cost (m_ncols m) obj x.
Proof.
  intros m obj dir m' W G NP E x F. unfold make_integer in E.
  destruct (existsb _ _); [|apply Done_inj in E; subst m'; exists x; split; [exact F|apply Qle_refl]].
  change {| mk_int := m_int m; mk_changed := []; mk_ignore := fun _ => false |} with (start m) in E.
  destruct (passes (S (m_ncols m)) m obj dir (start m)) as [s| | | |] eqn:P; try discriminate E.
  cbn [bind] in E. apply Done_inj in E. subst m'.
  destruct (passes_ok m obj dir W G (S (m_ncols m)) (start m) s NP) with (2 := P) as [Gs [Mo C]].
  { split; [auto|]. intros i H. discriminate H. }
  destruct (C x) as (y & Fy & Cy); [destruct m; exact F|].
  exists y. split; [|exact Cy]. destruct Fy as (Fr & Fb & Fi). split; [exact Fr|]. split; [exact Fb|].
  intros j Lj Mj. cbn [m_int m_ncols] in *. apply Fi; [exact Lj|]. cbn [m_int with_int].
  destruct (mk_changed s).
  - now apply Mo.
  - apply orb_true_iff in Mj. destruct Mj as [Mj|Mj]; [now apply Mo|]. qb. assumption.
Qed.
Print Assumptions C114_optimum_kept.

(** Nothing but markers changes. *)
Theorem C114_only_markers : forall m obj dir m', make_integer m obj dir = Done m' ->
  m_ncols m' = m_ncols m /\ m_rows m' = m_rows m /\ m_clo m' = m_clo m /\ m_chi m' = m_chi m /\
  (forall j, m_int m j = true -> m_int m' j = true) /\
  (forall j, m_int m' j = true -> m_int m j = true \/ ((j < m_ncols m)%nat /\ ~ obj j == 0)) /\
  (forall x, feasible m' x -> feasible m x).
Proof.
  intros m obj dir m' E. unfold make_integer in E.
  destruct (existsb _ _); [|apply Done_inj in E; subst m'; do 4 (split; [reflexivity|]); split; [auto|split; auto]].
  destruct (passes _ _ _ _ _) as [s| | | |]; try discriminate E.
  cbn [bind] in E. apply Done_inj in E. subst m'. cbn [m_ncols m_rows m_clo m_chi m_int].
  do 4 (split; [reflexivity|]).
  assert (K : forall j, m_int m j = true -> match mk_changed s with
                     | [] => m_int m
                     | _ => fun j => m_int m j ||
                         (Nat.ltb j (m_ncols m) && mk_int s j && negb (Qeq_bool (obj j) 0))
                     end j = true).
  { intros j H. destruct (mk_changed s); [exact H|]. now rewrite H. }
  split; [exact K|]. split.
  - intros j H. destruct (mk_changed s); [now left|]. apply orb_true_iff in H. destruct H as [H|H]; [now left|].
    right. rewrite !andb_true_iff in H. destruct H as [[H1 H2] H3]. apply Nat.ltb_lt in H1. qb. auto.
  - intros x (Fr & Fb & Fi). split; [exact Fr|]. split; [exact Fb|]. intros j L H. apply Fi; [exact L|]. now apply K.
Qed.
Print Assumptions C114_only_markers.

(** ** C115: the call comes to an end within its arrays *)
Theorem C115_always_done : forall m obj dir, wf_mip m -> no_zeros m ->
  exists m', make_integer m obj dir = Done m' /\
  forall j, m_int m' j = true -> m_int m j = true \/
    forall l u, m_clo m j = Some l -> m_chi m j = Some u -> l + (1 # 100000000) < u.
Proof.
  intros m obj dir W Z.
  assert (Lo : forall j, loose m j = true -> forall l u, m_clo m j = Some l -> m_chi m j = Some u -> l + (1 # 100000000) < u).
  { intros j H l u El Eu. unfold loose in H. rewrite El, Eu in H. now apply Qltb_lt. }
  unfold make_integer. destruct (existsb _ _).
  - change {| mk_int := m_int m; mk_changed := []; mk_ignore := fun _ => false |} with (start m).
    destruct (passes_done m obj dir W Z (S (m_ncols m)) (start m) (start_tidy m)) as (s1 & s & _ & E & (_ & T2 & T3) & _); [cbn; lia|].
    rewrite E. cbn [bind]. eexists. split; [reflexivity|]. cbn [m_int]. intros j H.
    destruct (mk_changed s) eqn:C; [now left|]. apply orb_true_iff in H. destruct H as [H|H]; [now left|].
    rewrite !andb_true_iff in H. destruct H as [[_ H1] _]. apply T3 in H1. destruct H1 as [H1|H1]; [now left|]. right. apply Lo. now apply T2.
  - exists m. split; [reflexivity|]. auto.
Qed.
Print Assumptions C115_always_done.

(** ** C116: columns that are found *)
Lemma final_mark m obj dir m' j : wf_mip m -> no_zeros m -> (j < m_ncols m)%nat -> loose m j = true ->
  ~ obj j == 0 -> make_integer m obj dir = Done m' ->
  (forall s1, one_pass m obj dir (start m) = Done s1 -> mk_int s1 j = true) -> m_int m' j = true.
Proof.
  intros W Z L Lo No E H. unfold make_integer in E. destruct (existsb _ _) eqn:X.
  - change {| mk_int := m_int m; mk_changed := []; mk_ignore := fun _ => false |} with (start m) in E.
    destruct (passes_done m obj dir W Z (S (m_ncols m)) (start m) (start_tidy m)) as (s1 & s & E1 & Es & (_ & _ & T3) & La); [cbn; lia|].
    rewrite Es in E. cbn [bind] in E. apply Done_inj in E. subst m'. cbn [m_int].
    assert (M : mk_int s j = true) by (apply La; now apply H).
    pose proof (proj1 (T3 j) M) as Q. destruct (mk_changed s); [destruct Q as [Q|[]]; exact Q|].
    apply orb_true_iff. right. rewrite M. replace (Nat.ltb j (m_ncols m)) with true by (symmetry; now apply Nat.ltb_lt).
    apply Qeqb_neq in No. now rewrite No.
  - apply Done_inj in E. subst m'. destruct (m_int m j) eqn:M; [reflexivity|exfalso].
    assert (Y : existsb (fun j => loose m j && negb (m_int m j)) (seq 0 (m_ncols m)) = true).
    { apply existsb_exists. exists j. split; [apply in_seq; lia|]. now rewrite Lo, M. }
    congruence.
Qed.
Theorem C116_defined_by_row : forall m obj dir m' r j,
  wf_mip m -> no_zeros m -> make_integer m obj dir = Done m' ->
  In r (m_rows m) -> (exists l u, r_lo r = Some l /\ r_hi r = Some u /\ l == u) ->
  plain_row m r j -> ~ obj j == 0 -> m_int m' j = true.
Proof.
  intros m obj dir m' r j W Z E R (l & u & El & Eu & Elu) P No.
  pose proof P as (P1 & _ & _ & _ & a & Ia & _). destruct (W r R) as [_ W2].
  apply (final_mark m obj dir m' j W Z); auto; [now apply (W2 j a)|now apply (P1 j a)|].
  intros s1 E1. unfold one_pass in E1.
  destruct (rows_done m obj dir W (start m) Z (start_tidy m)) as (t & Et & Tt & La). rewrite Et in E1. cbn [bind] in E1.
  destruct (cols_done m t Tt) as (u1 & Eu1 & _ & Lu). rewrite E1 in Eu1. apply Done_inj in Eu1. subst u1.
  apply Lu. destruct (In_nth _ _ (Row [] None None) R) as (i & Li & Ei). fold (mk_row m i) in Ei. subst r.
  destruct (found_row m obj dir W (start m) t i j Z (start_tidy m) Li P Et) as [H|[_ H]]; [exact H|].
  exfalso. unfold equality in H. rewrite El, Eu in H. qb. contradiction.
Qed.
Print Assumptions C116_defined_by_row.

Theorem C116_rounded : forall m obj dir m' j,
  wf_mip m -> no_zeros m -> make_integer m obj dir = Done m' ->
  (j < m_ncols m)%nat -> loose m j = true ->
  (forall q, m_clo m j = Some q \/ m_chi m j = Some q -> integral q) ->
  (forall r, In r (m_rows m) -> In j (map fst (r_form r)) -> plain_row m r j) ->
  ~ obj j == 0 -> m_int m' j = true.
Proof.
  intros m obj dir m' j W Z E L Lo B P No. apply (final_mark m obj dir m' j W Z); auto.
  intros s1 E1. apply (found_pass m obj dir W (start m) s1 j Z (start_tidy m) L Lo B); auto.
  intros i Li Hj. apply P; [|exact Hj]. unfold mk_row. now apply nth_In.
Qed.
Print Assumptions C116_rounded.

(** ** Cases *)
Lemma grid_check N q : Qeq_bool (q * inject_Z N) (inject_Z (Qfloor (q * inject_Z N))) = true -> on_grid N q.
Proof. intro H. apply Qeq_bool_eq in H. eexists. exact H. Qed.
(** Columns 0 and 1 are integer; 2 is given by an equality, 3 only limited by
    one row with integer data, 4 is left alone; 5 has no cost. *)
Definition ex1 : mip :=
  {| m_ncols := 6;
     m_rows := [Row [(0%nat, 3); (1%nat, -2); (2%nat, 1 # 2)] (Some 4) (Some 4);
                Row [(1%nat, 1); (2%nat, 2); (3%nat, -1)] (Some (-3)) (Some 7);
                Row [(0%nat, 1); (4%nat, 2)] None (Some 5);
                Row [(0%nat, 1); (5%nat, 1)] (Some 2) (Some 2)];
     m_clo := fun _ => Some 0; m_chi := fun _ => Some 10;
     m_int := fun j => Nat.ltb j 2 |}.
Definition ex1_obj : nat -> Q := fun j => if Nat.eqb j 5 then 0 else 1.
Example C114_example : exists m', make_integer ex1 ex1_obj 1 = Done m' /\
  map (m_int m') (seq 0 6) = [true; true; true; true; false; false].
Proof. eexists. split; [vm_compute; reflexivity|vm_compute; reflexivity]. Qed.
Ltac each I := repeat (destruct I as [<-|I]); try destruct I.
Example C114_hypotheses : wf_mip ex1 /\ gridded ex1 /\ no_pairs ex1 /\ no_zeros ex1.
Proof.
  split; [|split; [|split]].
  - intros r I. cbn in I. each I; (split; [repeat constructor; cbn; intuition discriminate|]);
      intros j a J; cbn in J; repeat (destruct J as [J|J]; [injection J as <- _; cbn; lia|]); destruct J.
  - exists 2%Z. split; [lia|]. split; [|split].
    + intros r j a I J. cbn in I. each I; cbn in J;
        repeat (destruct J as [J|J]; [injection J as <- <-; split; [apply grid_check; vm_compute; reflexivity|vm_compute; discriminate]|]); destruct J.
    + intros r q I J. cbn in I. each I; destruct J as [J|J]; cbn in J; try discriminate J;
        injection J as <-; apply grid_check; vm_compute; reflexivity.
    + intros j q [J|J]; injection J as <-; apply grid_check; vm_compute; reflexivity.
  - intros r l u j1 a1 j2 a2 I _ _ _ I1 I2 Ne M1 M2 _ _ A B. cbn in I, M1, M2.
    each I; cbn in I1, I2;
      repeat (destruct I1 as [I1|I1]; [injection I1 as <- <-|]); try destruct I1;
      repeat (destruct I2 as [I2|I2]; [injection I2 as <- <-|]); try destruct I2;
      try discriminate M1; try discriminate M2; try (now apply Ne); vm_compute in A, B; discriminate.
  - intros r j a I J. cbn in I. each I; cbn in J;
      repeat (destruct J as [J|J]; [injection J as <- <-; vm_compute; discriminate|]); destruct J.
Qed.

(** Two continuous columns in an equality row: the second column is never looked
    at (the first is gone through twice), so it is made integer although another
    row asks for 1/2. *)
Definition ex2 : mip :=
  {| m_ncols := 2;
     m_rows := [Row [(0%nat, 1); (1%nat, -1)] (Some 0) (Some 0);
                Row [(1%nat, 2)] (Some 1) (Some 1)];
     m_clo := fun _ => Some 0; m_chi := fun _ => Some 10; m_int := fun _ => false |}.
Theorem C114_pairs_refuted : wf_mip ex2 /\ gridded ex2 /\ no_zeros ex2 /\
  exists m', make_integer ex2 (fun _ => 1) 1 = Done m' /\
    feasible ex2 (fun _ => 1 # 2) /\ forall y, ~ feasible m' y.
Proof.
  split; [|split; [|split]].
  - intros r I. cbn in I. each I; (split; [repeat constructor; cbn; intuition discriminate|]);
      intros j a J; cbn in J; repeat (destruct J as [J|J]; [injection J as <- _; cbn; lia|]); destruct J.
  - exists 1%Z. split; [lia|]. split; [|split].
    + intros r j a I J. cbn in I. each I; cbn in J;
        repeat (destruct J as [J|J]; [injection J as <- <-; split; [apply grid_check; vm_compute; reflexivity|vm_compute; discriminate]|]); destruct J.
    + intros r q I J. cbn in I. each I; destruct J as [J|J]; cbn in J;
        injection J as <-; apply grid_check; vm_compute; reflexivity.
    + intros j q [J|J]; injection J as <-; apply grid_check; vm_compute; reflexivity.
  - intros r j a I J. cbn in I. each I; cbn in J;
      repeat (destruct J as [J|J]; [injection J as <- <-; vm_compute; discriminate|]); destruct J.
  - destruct (make_integer ex2 (fun _ => 1) 1) as [m'| | | |] eqn:E; try (vm_compute in E; discriminate E).
    exists m'. split; [reflexivity|]. split.
    + split; [|split].
      * intros r I. cbn in I. each I; split; vm_compute; discriminate.
      * intros j _. split; vm_compute; discriminate.
      * intros j _ H. discriminate H.
    + intros y (Fr & Fb & Fi). destruct (C114_only_markers _ _ _ _ E) as (En & Er & _).
      assert (M : m_int m' 1%nat = true).
      { vm_compute in E. apply Done_inj in E. subst m'. vm_compute. reflexivity. }
      destruct (Fi 1%nat) as [z Y]; [rewrite En; cbn; lia|exact M|].
      rewrite Er in Fr. destruct (Fr (Row [(1%nat, 2)] (Some 1) (Some 1))) as [F1 F2]; [cbn; auto|].
      cbn [r_form r_lo r_hi value ge_opt_lo le_opt_hi] in F1, F2. assert (H : 2 * inject_Z z == 1) by lra.
      change 2 with (inject_Z 2) in H. rewrite <- inject_Z_mult in H. change 1 with (inject_Z 1) in H.
      unfold Qeq in H. cbn [Qnum Qden inject_Z] in H. lia.
Qed.
Print Assumptions C114_pairs_refuted.

(** Zeros stored in the matrix: the array of rows is left. *)
Definition ex3 : mip :=
  {| m_ncols := 2;
     m_rows := [Row [(0%nat, 1); (1%nat, -1)] (Some 0) (Some 0);
                Row [(0%nat, 0)] None (Some 1); Row [(0%nat, 0)] None (Some 1)];
     m_clo := fun _ => Some 0; m_chi := fun _ => Some 10; m_int := fun _ => false |}.
Theorem C115_stored_zeros_refuted : wf_mip ex3 /\
  make_integer ex3 (fun _ => 1) 1 = Undef OutOfBounds.
Proof.
  split; [|vm_compute; reflexivity].
  intros r I. cbn in I. each I; (split; [repeat constructor; cbn; intuition discriminate|]);
      intros j a J; cbn in J; repeat (destruct J as [J|J]; [injection J as <- _; cbn; lia|]); destruct J.
Qed.
Print Assumptions C115_stored_zeros_refuted.

Example C116_example : plain_row ex1 (Row [(0%nat, 3); (1%nat, -2); (2%nat, 1 # 2)] (Some 4) (Some 4)) 2.
Proof.
  split; [|split; [|split; [|split]]].
  - intros k b _. reflexivity.
  - intros k b I Ne. cbn in I. repeat (destruct I as [I|I]; [injection I as <- <-; try reflexivity; now exfalso|]). destruct I.
  - intros k b I Ne. cbn in I. destruct I as [I|[I|[I|[]]]]; injection I as <- <-; [exists 3%Z|exists (-2)%Z|now exfalso]; reflexivity.
  - intros q [H|H]; injection H as <-; exists 4%Z; reflexivity.
  - exists (1 # 2). split; [cbn; auto|]. split; [reflexivity|]. exists 2%Z. reflexivity.
Qed.
