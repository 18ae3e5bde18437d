(** * Properties of analyze in CglPreProcess.cpp *)
From Verif Require Import Model_MakeInteger Model_Analyze Proofs_Analyze.
Local Open Scope Q_scope.

Lemma analyze_inv m obj dir m' k : analyze m obj dir = Done (m', k) ->
  exists s, tries (S (m_ncols m)) m obj dir (start m) = Done s /\
  m_ncols m' = m_ncols m /\ m_rows m' = m_rows m /\ m_clo m' = m_clo m /\ m_chi m' = m_chi m /\
  (forall j, m_int m' j = true <-> m_int m j = true \/
     (mk_changed s <> [] /\ (j < m_ncols m)%nat /\ mk_int s j = true /\ same_bounds m j = false)) /\
  ((exists j, (j < m_ncols m)%nat /\ mk_int s j = true /\ crossed m j = true /\ m_int m j = false /\ k = (-1)%Z) \/
   ((forall j, (j < m_ncols m)%nat -> mk_int s j = true -> m_int m j = false -> crossed m j = false) /\
    k = Z.of_nat (length (mk_changed s)))).
Proof.
  intro E. unfold analyze in E.
  change {| mk_int := m_int m; mk_changed := []; mk_ignore := fun _ => false |} with (start m) in E.
  destruct (tries (S (m_ncols m)) m obj dir (start m)) as [s| | | |] eqn:P; try discriminate E.
  cbn [bind] in E. apply Done_inj in E. apply pair_equal_spec in E. destruct E as [<- E].
  exists s. split; [reflexivity|]. cbn [m_ncols m_rows m_clo m_chi m_int]. do 4 (split; [reflexivity|]). split.
  - intro j. destruct (mk_changed s) eqn:C.
    + split; [now left|]. intros [H|[H _]]; [exact H|congruence].
    + rewrite orb_true_iff, !andb_true_iff, !negb_true_iff, Nat.ltb_lt. split.
      * intros [H|[[H1 [H2 _]] H3]]; [now left|right]. split; [discriminate|auto].
      * intros [H|(_ & H1 & H2 & H3)]; [now left|]. destruct (m_int m j); [now left|]. right. auto.
  - destruct (forallb _ _) eqn:F.
    + right. split; [|now symmetry]. intros j L M N. rewrite forallb_forall in F. specialize (F j).
      rewrite in_seq, M, N in F. cbn [negb andb] in F. destruct (crossed m j); [|reflexivity].
      discriminate F. lia.
    + left. assert (X : existsb (fun j => mk_int s j && negb (m_int m j) && crossed m j) (seq 0 (m_ncols m)) = true).
      { destruct (existsb _ _) eqn:X; [reflexivity|]. exfalso.
        assert (Y : forallb (fun j => negb (mk_int s j && negb (m_int m j) && crossed m j)) (seq 0 (m_ncols m)) = true).
        { apply forallb_forall. intros j I. destruct (_ && _) eqn:Z; [|reflexivity]. exfalso.
          assert (existsb (fun j => mk_int s j && negb (m_int m j) && crossed m j) (seq 0 (m_ncols m)) = true)
            by (apply existsb_exists; eauto).
          congruence. }
        congruence. }
      apply existsb_exists in X. destruct X as (j & I & X). apply in_seq in I. rewrite !andb_true_iff, negb_true_iff in X.
      destruct X as [[X1 X2] X3]. exists j. repeat split; auto; lia.
Qed.
Lemma marks_cover m obj dir s : wf_mip m -> gridded m -> tries (S (m_ncols m)) m obj dir (start m) = Done s ->
  (forall j, m_int m j = true -> mk_int s j = true) /\
  forall x, feasible m x -> exists y, feasible (with_int m (mk_int s)) y /\
    dir * cost (m_ncols m) obj y <= dir * cost (m_ncols m) obj x.
Proof.
  intros W G P. destruct (tries_ok m obj dir W G (S (m_ncols m)) (start m) s) with (2 := P) as [Gs [Mo C]].
  { split; [auto|]. intros i H. discriminate H. }
  split; [exact Mo|]. intros x F. apply C. destruct m; exact F.
Qed.

(** ** C125: every feasible point can be replaced by one that is feasible for the
    problem with the new markers and costs no more *)
Theorem C125_optimum_kept : forall m obj dir m' k,
  wf_mip m -> gridded m -> analyze m obj dir = Done (m', k) ->
  forall x, feasible m x -> exists y, feasible m' y /\
    dir * cost (m_ncols m) obj y <= dir * cost (m_ncols m) obj x.
Proof.
  intros m obj dir m' k W G E x F. apply analyze_inv in E. destruct E as (s & P & N & R & Lo & Hi & M & _).
  destruct (marks_cover m obj dir s W G P) as [Mo C]. destruct (C x F) as (y & Fy & Cy).
  exists y. split; [|exact Cy]. destruct Fy as (Fr & Fb & Fi). split; [|split].
  - intros r I. rewrite R in I. now apply Fr.
  - intros j L. rewrite N in L. rewrite Lo, Hi. now apply Fb.
  - intros j L H. rewrite N in L. apply Fi; [exact L|]. cbn [m_int with_int]. apply M in H.
    destruct H as [H|(_ & _ & H & _)]; auto.
Qed.
Print Assumptions C125_optimum_kept.

(** Nothing but markers changes, so that no point is added. *)
Theorem C125_only_markers : forall m obj dir m' k, analyze m obj dir = Done (m', k) ->
  m_ncols m' = m_ncols m /\ m_rows m' = m_rows m /\ m_clo m' = m_clo m /\ m_chi m' = m_chi m /\
  (forall j, m_int m j = true -> m_int m' j = true) /\
  (forall j, m_int m' j = true -> m_int m j = true \/ (j < m_ncols m)%nat) /\
  (forall x, feasible m' x -> feasible m x).
Proof.
  intros m obj dir m' k E. apply analyze_inv in E. destruct E as (s & P & N & R & Lo & Hi & M & _).
  do 4 (split; [assumption|]). split; [intros j H; apply M; now left|]. split.
  - intros j H. apply M in H. destruct H as [H|(_ & H & _)]; auto.
  - intros x (Fr & Fb & Fi). split; [|split].
    + intros r I. apply Fr. now rewrite R.
    + intros j L. rewrite <- N in L. specialize (Fb j L). now rewrite Lo, Hi in Fb.
    + intros j L H. rewrite <- N in L. apply Fi; [exact L|]. apply M. now left.
Qed.
Print Assumptions C125_only_markers.

(** ** C126: the call ends; -1 means that there is no feasible point *)
Theorem C126_always_done : forall m obj dir, wf_mip m ->
  exists m' k, analyze m obj dir = Done (m', k) /\ (-1 <= k <= Z.of_nat (m_ncols m))%Z /\
  (k = 0%Z -> forall j, m_int m' j = m_int m j) /\
  (k <> (-1)%Z ->
     (Z.of_nat (length (filter (fun j => m_int m' j && negb (m_int m j)) (seq 0 (m_ncols m)))) <= k)%Z) /\
  (forall j l u, m_int m' j = true -> m_int m j = false -> m_clo m j = Some l -> m_chi m j = Some u ->
     l + (1 # 100000000) < u).
Proof.
  intros m obj dir W.
  destruct (tries_done m obj dir W (S (m_ncols m)) (start m) (start_tidy m)) as (s1 & s & _ & E & T & _); [cbn; lia|].
  assert (X : exists m' k, analyze m obj dir = Done (m', k)).
  { unfold analyze. change {| mk_int := m_int m; mk_changed := []; mk_ignore := fun _ => false |} with (start m).
    rewrite E. cbn [bind]. eauto. }
  destruct X as (m' & k & A). exists m', k. split; [exact A|]. apply analyze_inv in A.
  destruct A as (s' & P & N & R & Lo & Hi & M & K). rewrite E in P. apply Done_inj in P. subst s'.
  pose proof (tidy_len m s T) as Len. destruct T as (Nd & T2 & T3).
  assert (New : forall j, m_int m' j = true -> m_int m j = false -> In j (mk_changed s)).
  { intros j H H'. apply M in H. destruct H as [H|(_ & _ & H & _)]; [congruence|]. apply T3 in H. destruct H; [congruence|assumption]. }
  split; [|split; [|split]].
  - destruct K as [(_ & _ & _ & _ & _ & ->)|[_ ->]]; lia.
  - intros -> j. destruct K as [(_ & _ & _ & _ & _ & K)|[_ K]]; [discriminate K|].
    destruct (mk_changed s) as [|] eqn:C; [|cbn in K; lia].
    destruct (m_int m' j) eqn:Q, (m_int m j) eqn:Q'; try reflexivity.
    + destruct (New j Q Q').
    + assert (m_int m' j = true) by (apply M; now left). congruence.
  - intro Nk. destruct K as [(_ & _ & _ & _ & _ & K)|[_ ->]]; [contradiction|]. apply inj_le.
    apply NoDup_incl_length; [apply NoDup_filter, seq_NoDup|]. intros j I. apply filter_In in I. destruct I as [_ I].
    apply andb_true_iff in I. destruct I as [I1 I2]. apply negb_true_iff in I2. now apply New.
  - intros j l u H H' El Eu. destruct (T2 j (New j H H')) as [_ Lj]. unfold loose in Lj. rewrite El, Eu in Lj. now apply Qltb_lt.
Qed.
Print Assumptions C126_always_done.

Theorem C126_infeasible : forall m obj dir m',
  wf_mip m -> gridded m -> analyze m obj dir = Done (m', (-1)%Z) -> forall x, ~ feasible m x.
Proof.
  intros m obj dir m' W G E x F. apply analyze_inv in E. destruct E as (s & P & _ & _ & _ & _ & _ & K).
  destruct (marks_cover m obj dir s W G P) as [_ C]. destruct (C x F) as (y & (_ & Fb & Fi) & _).
  destruct K as [(j & L & Mj & Cr & _)|[_ K]]; [|lia].
  specialize (Fi j L Mj). specialize (Fb j L). cbn [m_clo m_chi with_int] in Fb. unfold crossed, near_lo, near_hi in Cr.
  destruct (m_clo m j) as [l|]; [|discriminate Cr]. destruct (m_chi m j) as [u|]; [|discriminate Cr].
  cbn in Cr, Fb. qb. destruct Fb as [F1 F2].
  assert (A : y j <= u + (1 # 100000)) by lra. assert (B : l - (1 # 100000) <= y j) by lra.
  pose proof (integral_le_floor _ _ Fi A). pose proof (integral_ge_ceil _ _ Fi B). lra.
Qed.
Print Assumptions C126_infeasible.

(** ** C127: columns that are found *)
Lemma final_try m obj dir m' k j : wf_mip m -> (j < m_ncols m)%nat -> analyze m obj dir = Done (m', k) ->
  same_bounds m j = false ->
  (forall s1, one_try m obj dir (start m) = Done s1 -> mk_int s1 j = true) -> m_int m' j = true.
Proof.
  intros W L E Sb H. apply analyze_inv in E. destruct E as (s & P & _ & _ & _ & _ & M & _).
  destruct (tries_done m obj dir W (S (m_ncols m)) (start m) (start_tidy m)) as (s1 & s' & E1 & E & (_ & _ & T3) & La); [cbn; lia|].
  rewrite P in E. apply Done_inj in E. subst s'.
  assert (Mj : mk_int s j = true) by (apply La; now apply H). apply M.
  pose proof (proj1 (T3 j) Mj) as Q. destruct Q as [Q|Q]; [now left|right].
  split; [|auto]. intro C. rewrite C in Q. destruct Q.
Qed.
Theorem C127_defined_by_row : forall m obj dir m' k r j,
  wf_mip m -> analyze m obj dir = Done (m', k) ->
  In r (m_rows m) -> (exists l u, r_lo r = Some l /\ r_hi r = Some u /\ l == u) ->
  plain_row m r j ->
  (forall l u, m_clo m j = Some l -> m_chi m j = Some u ->
     ~ qceil (l - (1 # 100000)) == qfloor (u + (1 # 100000))) ->
  m_int m' j = true.
Proof.
  intros m obj dir m' k r j W E R (l & u & El & Eu & Elu) P S.
  pose proof P as (P1 & _ & _ & _ & a & Ia & _). destruct (W r R) as [_ W2].
  apply (final_try m obj dir m' k j W); [now apply (W2 j a)|exact E| |].
  - unfold same_bounds, near_lo, near_hi. destruct (m_clo m j) as [l'|]; [|reflexivity].
    destruct (m_chi m j) as [u'|]; [|reflexivity]. cbn [option_map]. apply Qeqb_neq. now apply S.
  - intros s1 E1. unfold one_try in E1.
    destruct (fold_done m (row_try m obj dir) (seq 0 (length (m_rows m))) (start m)) with (2 := start_tidy m) as (t & Et & Tt & La).
    { intros t i I Tt. apply in_seq in I. apply row_try_done; auto. lia. }
    rewrite Et in E1. cbn [bind] in E1.
    destruct (cols_done m t Tt) as (u1 & Eu1 & _ & Lu). rewrite E1 in Eu1. apply Done_inj in Eu1. subst u1.
    apply Lu. destruct (In_nth _ _ (Row [] None None) R) as (i & Li & Ei). fold (mk_row m i) in Ei. subst r.
    destruct (found_try m obj dir W (start m) t i j (start_tidy m) Li P Et) as [H|[_ H]]; [exact H|].
    exfalso. unfold equality in H. rewrite El, Eu in H. qb. contradiction.
Qed.
Print Assumptions C127_defined_by_row.

Lemma ceil_near l : integral l -> qceil (l - (1 # 100000)) == l.
Proof.
  intros [z E]. unfold qceil, Qceiling. assert (F : Qfloor (- (l - (1 # 100000))) = (- z)%Z).
  { apply Qfloor_unique; rewrite E, inject_Z_opp; lra. }
  rewrite F, Z.opp_involutive. now symmetry.
Qed.
Lemma floor_near u : integral u -> qfloor (u + (1 # 100000)) == u.
Proof.
  intros [z E]. unfold qfloor. assert (F : Qfloor (u + (1 # 100000)) = z).
  { apply Qfloor_unique; rewrite E; lra. }
  rewrite F. now symmetry.
Qed.
Theorem C127_rounded : forall m obj dir m' k j,
  wf_mip m -> analyze m obj dir = Done (m', k) ->
  (j < m_ncols m)%nat ->
  (forall l u, m_clo m j = Some l -> m_chi m j = Some u -> l + (1 # 100000000) < u) ->
  (forall q, m_clo m j = Some q \/ m_chi m j = Some q -> integral q) ->
  (forall r, In r (m_rows m) -> In j (map fst (r_form r)) -> plain_row m r j) ->
  m_int m' j = true.
Proof.
  intros m obj dir m' k j W E L Lo B P.
  assert (Lj : loose m j = true).
  { unfold loose. destruct (m_clo m j) as [l|] eqn:El; [|reflexivity]. destruct (m_chi m j) as [u|] eqn:Eu; [|reflexivity].
    apply Qltb_lt. now apply Lo. }
  apply (final_try m obj dir m' k j W L E).
  - unfold same_bounds, near_lo, near_hi. destruct (m_clo m j) as [l|] eqn:El; [|reflexivity].
    destruct (m_chi m j) as [u|] eqn:Eu; [|reflexivity]. cbn [option_map]. apply Qeqb_neq.
    rewrite (ceil_near l), (floor_near u); [|apply B; now right|apply B; now left].
    specialize (Lo l u eq_refl eq_refl). lra.
  - intros s1 E1. apply (found_one_try m obj dir W (start m) s1 j (start_tidy m) L Lj B); auto.
    intros i Li Hj. apply P; [|exact Hj]. unfold mk_row. now apply nth_In.
Qed.
Print Assumptions C127_rounded.

(** ** Cases *)
Lemma grid_check N q : Qeq_bool (q * inject_Z N) (inject_Z (Qfloor (q * inject_Z N))) = true -> on_grid N q.
Proof. intro H. apply Qeq_bool_eq in H. eexists. exact H. Qed.
Ltac each I := repeat (destruct I as [<-|I]); try destruct I.

(** Columns 0 and 1 are integer; 2 is given by an equality, 3 only limited by
    one row with integer data, 4 is left alone; 5 and 6 are a pair. *)
Definition ex1 : mip :=
  {| m_ncols := 7;
     m_rows := [Row [(0%nat, 3); (1%nat, -2); (2%nat, 1 # 2)] (Some 4) (Some 4);
                Row [(1%nat, 1); (2%nat, 2); (3%nat, -1)] (Some (-3)) (Some 7);
                Row [(0%nat, 1); (4%nat, 2)] None (Some 5);
                Row [(0%nat, 1); (5%nat, 1); (6%nat, -1)] (Some 2) (Some 2)];
     m_clo := fun _ => Some 0; m_chi := fun j => if Nat.leb 5 j then Some (19 # 2) else Some 10;
     m_int := fun j => Nat.ltb j 2 |}.
Definition ex1_obj : nat -> Q := fun j => if Nat.eqb j 5 then -1 else 1.
Definition shown (o : outcome (mip * Z)) : option (list bool * Z) :=
  match o with Done (m, k) => Some (map (m_int m) (seq 0 (m_ncols m)), k) | _ => None end.
Lemma shown_inv o l k : shown o = Some (l, k) ->
  exists m', o = Done (m', k) /\ map (m_int m') (seq 0 (m_ncols m')) = l.
Proof.
  intro H. destruct o as [[m' k']| | | |]; try discriminate H. cbn [shown] in H. apply Some_inj in H.
  apply pair_equal_spec in H. destruct H as [H ->]. eauto.
Qed.
Example C125_example : shown (analyze ex1 ex1_obj 1) = Some ([true; true; true; true; false; true; true], 4%Z).
Proof. vm_compute. reflexivity. Qed.
(** With costs that make the pair grow it is not touched. *)
Example C125_costs : shown (analyze ex1 ex1_obj (-1)) = Some ([true; true; true; true; false; true; true], 4%Z) /\
  shown (analyze ex1 (fun _ => -1) 1) = Some ([true; true; true; true; false; false; false], 2%Z).
Proof. split; vm_compute; reflexivity. Qed.
Example C125_hypotheses : wf_mip ex1 /\ gridded ex1 /\
  feasible ex1 (fun j => nth j [2; 1; 0; 1; 1 # 2; 1 # 3; 1 # 3] 0) /\
  plain_row ex1 (nth 0 (m_rows ex1) (Row [] None None)) 2.
Proof.
  split; [|split; [|split]].
  - intros r I. cbn in I. each I; (split; [repeat constructor; cbn; intuition discriminate|]);
      intros j a J; cbn in J; repeat (destruct J as [J|J]; [injection J as <- _; cbn; lia|]); destruct J.
  - exists 2%Z. split; [lia|]. split; [|split].
    + intros r j a I J. cbn in I. each I; cbn in J;
        repeat (destruct J as [J|J]; [injection J as <- <-; split; [apply grid_check; vm_compute; reflexivity|vm_compute; discriminate]|]); destruct J.
    + intros r q I J. cbn in I. each I; destruct J as [J|J]; cbn in J; try discriminate J;
        injection J as <-; apply grid_check; vm_compute; reflexivity.
    + intros j q [J|J]; cbn [m_clo m_chi ex1] in J; [|destruct (Nat.leb 5 j)]; apply Some_inj in J; subst q; apply grid_check; vm_compute; reflexivity.
  - split; [|split].
    + intros r I. cbn in I. each I; split; cbn; try exact Logic.I; vm_compute; discriminate.
    + intros j L. cbn in L. do 7 (destruct j as [|j]; [split; cbn; vm_compute; discriminate|]). lia.
    + intros j L M. destruct j as [|[|j]]; [exists 2%Z; reflexivity|exists 1%Z; reflexivity|discriminate M].
  - split; [|split; [|split; [|split]]].
    + intros k b I. cbn in I. destruct I as [I|[I|[I|[]]]]; injection I as <- <-; reflexivity.
    + intros k b I Ne. cbn in I. destruct I as [I|[I|[I|[]]]]; injection I as <- <-; try reflexivity. congruence.
    + intros k b I Ne. cbn in I. destruct I as [I|[I|[I|[]]]]; injection I as <- <-;
        [exists 3%Z; reflexivity|exists (-2)%Z; reflexivity|congruence].
    + intros q [H|H]; injection H as <-; exists 4%Z; reflexivity.
    + exists (1 # 2). split; [right; right; now left|]. split; [reflexivity|exists 2%Z; reflexivity].
Qed.

(** A column that equals an integer one but lies between 3/10 and 6/10. *)
Definition ex2 (l u : Q) : mip :=
  {| m_ncols := 2; m_rows := [Row [(0%nat, 1); (1%nat, -1)] (Some 0) (Some 0)];
     m_clo := fun j => if Nat.eqb j 0 then Some l else Some 0;
     m_chi := fun j => if Nat.eqb j 0 then Some u else Some 5;
     m_int := fun j => Nat.eqb j 1 |}.
Lemma ex2_wf l u : wf_mip (ex2 l u).
Proof.
  intros r I. cbn in I. each I; (split; [repeat constructor; cbn; intuition discriminate|]);
    intros j a J; cbn in J; repeat (destruct J as [J|J]; [injection J as <- _; cbn; lia|]); destruct J.
Qed.
Example C126_crossed : shown (analyze (ex2 (3 # 10) (6 # 10)) (fun _ => 1) 1) = Some ([true; true], (-1)%Z) /\
  gridded (ex2 (3 # 10) (6 # 10)).
Proof.
  split; [vm_compute; reflexivity|]. exists 10%Z. split; [lia|]. split; [|split].
  - intros r j a I J. cbn in I. each I; cbn in J;
      repeat (destruct J as [J|J]; [injection J as <- <-; split; [apply grid_check; vm_compute; reflexivity|vm_compute; discriminate]|]); destruct J.
  - intros r q I J. cbn in I. each I; destruct J as [J|J]; cbn in J; try discriminate J;
      injection J as <-; apply grid_check; vm_compute; reflexivity.
  - intros j q [J|J]; cbn in J; destruct (Nat.eqb j 0); injection J as <-; apply grid_check; vm_compute; reflexivity.
Qed.

(** The value returned counts columns that are not marked: "made integer" is
    reported for a column that stays continuous. *)
Theorem C126_count_refuted : exists m obj dir m' k,
  wf_mip m /\ analyze m obj dir = Done (m', k) /\ k = 1%Z /\
  forall j, (j < m_ncols m')%nat -> m_int m' j = m_int m j.
Proof.
  destruct (shown_inv (analyze (ex2 0 (1 # 2)) (fun _ => 1) 1) [false; true] 1%Z) as (m' & E & M); [vm_compute; reflexivity|].
  exists (ex2 0 (1 # 2)), (fun _ => 1), 1, m', 1%Z. split; [apply ex2_wf|]. split; [exact E|]. split; [reflexivity|].
  pose proof (C125_only_markers _ _ _ _ _ E) as (N & _). rewrite N in M |- *. cbn in M. injection M as M0 M1.
  intros j L. cbn in L. destruct j as [|[|j]]; [exact M0|exact M1|lia].
Qed.
Print Assumptions C126_count_refuted.

(** Without the grid -1 can be returned for a problem with a feasible point:
    x = (1 + 5e-13) y with y near 1e12. *)
Definition ex3 : mip :=
  {| m_ncols := 2;
     m_rows := [Row [(0%nat, 1); (1%nat, - (1 + (5 # 10000000000000)))] (Some 0) (Some 0)];
     m_clo := fun j => if Nat.eqb j 0 then Some ((1000000000000 # 1) + (3 # 10)) else Some (999999999999 # 1);
     m_chi := fun j => if Nat.eqb j 0 then Some ((1000000000000 # 1) + (6 # 10)) else Some (1000000000001 # 1);
     m_int := fun j => Nat.eqb j 1 |}.
Theorem C126_infeasible_refuted : exists m obj dir m' x,
  wf_mip m /\ analyze m obj dir = Done (m', (-1)%Z) /\ feasible m x.
Proof.
  destruct (shown_inv (analyze ex3 (fun _ => 1) 1) [true; true] (-1)%Z) as (m' & E & _); [vm_compute; reflexivity|].
  exists ex3, (fun _ => 1), 1, m', (fun j => if Nat.eqb j 0 then (1000000000000 # 1) + (1 # 2) else 1000000000000 # 1).
  split; [|split; [exact E|]].
  - intros r I. cbn in I. each I; (split; [repeat constructor; cbn; intuition discriminate|]);
      intros j a J; cbn in J; repeat (destruct J as [J|J]; [injection J as <- _; cbn; lia|]); destruct J.
  - split; [|split].
    + intros r I. cbn in I. each I; split; cbn; vm_compute; discriminate.
    + intros j L. cbn in L. do 2 (destruct j as [|j]; [split; cbn; vm_compute; discriminate|]). lia.
    + intros j L M. destruct j as [|[|j]]; [discriminate M|exists 1000000000000%Z; reflexivity|discriminate M].
Qed.
Print Assumptions C126_infeasible_refuted.
