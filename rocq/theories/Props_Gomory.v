(** * Properties of CglGomory *)

From Coq Require Import Qabs Lqa Lia.
From Verif Require Import Base Decide Model_ResidualCapacity Proofs_ResidualCapacity Model_GMI Proofs_GMI Model_Gomory
  Proofs_Gomory Proofs_GomoryData Proofs_GomoryTotal.
Local Open Scope Q_scope.

(** OsiCuts::insertIfNotDuplicateAndClean keeps what was there and adds nothing
    that excludes more than the new cut does. *)
Definition ins_ok (ins : list rowcut -> rowcut -> list rowcut) : Prop :=
  forall cs d e, In e (ins cs d) -> In e cs \/ (forall y, rowcut_sat d y -> rowcut_sat e y).
Lemma insert_new_ok : ins_ok insert_new.
Proof. intros cs d e H. apply insert_new_in in H. destruct H as [H| ->]; auto. Qed.

(** ** C47: validity *)
Section Valid.
  Variable sqrt : Q -> Q.
  Variable srt : list nat -> list nat.
  Variable ins : list rowcut -> rowcut -> list rowcut.
  Variable stale : Z.
  Variable c : gcall.
  Notation m := (g_mip c).
  Notation n := (m_ncols m).
  Hypothesis SQ : forall q, 0 < q -> 0 < sqrt q.
  Hypothesis SRT : forall l, incl (srt l) l.
  Hypothesis INS : ins_ok ins.
  Hypothesis SB : sane_bounds c.
  Hypothesis IB : integer_bounds c.
  Hypothesis RO : ranges_ok c.

  (** every new cut is satisfied by every point of [P] *)
  Definition keeps (P : point -> Prop) (p0 p : pool) : Prop :=
    (forall d, In d (fst p) -> In d (fst p0) \/ forall y, P y -> rowcut_sat d y) /\
    (forall d, In d (snd p) -> In d (snd p0) \/ forall y, P y -> colcut_sat d y).

  Lemma add_second_in l : forall b rcs d, In d (add_second ins b l rcs) ->
    In d rcs \/ exists e, In e l /\ forall y, rowcut_sat e y -> rowcut_sat d y.
  Proof.
    induction l as [|e l IH]; intros b rcs d H; cbn [add_second] in H; [auto|]. cbv zeta in H.
    assert (K : In d (ins rcs e) -> In d rcs \/ exists e', In e' (e :: l) /\ forall y, rowcut_sat e' y -> rowcut_sat d y).
    { intro H'. apply INS in H'. destruct H' as [H'|H']; [auto|right]. exists e. split; [left; reflexivity|exact H']. }
    destruct (_ <=? _)%Z; [auto|]. apply IH in H. destruct H as [H|(e' & H1 & H2)]; [auto|right]. exists e'. split; [right; exact H1|exact H2].
  Qed.
  Notation target := (fun y => feasible m y /\ moderate c y).
  Theorem C47_cuts_valid binv p0 p :
    (forall k, (k < n)%nat -> candidate c k = true ->
       vertex c (binv k) k /\ exact c (binv k) k /\ candidate_ready c (binv k) k) ->
    generateCuts sqrt srt ins stale c (Some binv) p0 = Done p ->
    keeps (fun y => feasible m y /\ moderate c y) p0 p.
  Proof.
    intros H E. unfold generateCuts in E. apply bind_done in E. destruct E as ([[[rcs ccs] second] budget] & E1 & E2).
    assert (K : keeps target p0 (rcs, ccs) /\ forall d, In d second -> forall y, target y -> rowcut_sat d y).
    { revert E1. cut (let s := ((rcs, ccs), second, budget) in
        ofold (step sqrt ins stale c binv) (srt (filter (candidate c) (seq 0 n))) (p0, [], g_budget c) = Done s ->
        keeps target p0 (fst (fst s)) /\ forall d, In d (snd (fst s)) -> forall y, target y -> rowcut_sat d y); [intro G; exact G|]. intros s.
      apply (ofold_inv (fun s : pool * list rowcut * Z => keeps target p0 (fst (fst s)) /\ forall d, In d (snd (fst s)) -> forall y, target y -> rowcut_sat d y)).
      2: { cbn [fst snd]. split; [split; auto|intros d []]. }
      clear E2 rcs ccs second budget s. intros [[[rcs ccs] second] budget] k s' Hk ((P1 & P2) & P3) E. cbn [fst snd] in *.
      apply SRT in Hk. apply filter_In in Hk. destruct Hk as (Hk & Ck). apply in_seq in Hk.
      destruct (H k ltac:(lia) Ck) as (VX & EX & CR).
      unfold step in E. destruct (_ <=? _)%Z; [apply Done_inj in E; subst s'; cbn [fst snd]; split; [split; auto|auto]|].
      apply bind_done in E. destruct E as (r & Er & E). apply Done_inj in E.
      assert (Ik : m_int m k = true).
      { unfold candidate in Ck. apply andb_prop in Ck. destruct Ck as (Ck & _). apply andb_prop in Ck. destruct Ck as (Ck & _). apply andb_prop in Ck. apply Ck. }
      assert (MO : forall y, target y -> made_ok y r).
      { intros y (Fy & My). pose proof (raw_valid c (binv k) k VX EX IB y Fy Ik) as RV.
        pose proof (proj2 (raw_gap c (binv k) k VX EX y)) as SO. destruct Fy as (_ & YB & YI).
        exact (make_ok sqrt stale c SB IB SQ y YB YI (binv k) k r Er SO RV CR RO My). }
      destruct r as [|d|d|d|]; subst s'; cbn [fst snd made_ok] in *; (split; [split; cbn [fst snd]|]); auto.
      - intros e He. apply INS in He. destruct He as [He|He]; [auto|right]. auto.
      - intros e He. apply INS in He. destruct He as [He|He]; auto.
      - intros e He. apply in_app_or in He. destruct He as [He|[<-|[]]]; auto.
      - intros e _. right. intros y Ty. destruct (MO y Ty). }
    destruct K as ((K1 & K2) & K3). cbv zeta in E2. destruct (_ && _); apply Done_inj in E2; subst p; [|split; auto].
    split; cbn [fst snd]; [|exact K2]. intros d Hd. apply add_second_in in Hd. destruct Hd as [Hd|(e & He & G)]; [auto|right].
    intros y Ty. apply G. exact (K3 e He y Ty).
  Qed.

  (** On integer data, with a basis inverse whose denominators are small, the
      tolerances of the generator need no further assumption. *)
  Theorem C47_integer_data_valid binv p0 p :
    integer_data c ->
    (forall k, (k < n)%nat -> candidate c k = true ->
       vertex c (binv k) k /\ exists D, small_denominator c (binv k) k D) ->
    generateCuts sqrt srt ins stale c (Some binv) p0 = Done p ->
    keeps (fun y => feasible m y /\ moderate c y) p0 p.
  Proof.
    intros ID H. apply C47_cuts_valid; auto. intros k L Ck. destruct (H k L Ck) as (VX & D & SD).
    pose proof (data_exact c ID (binv k) k D VX SD) as EX. conjs; auto.
    apply (data_ready c ID (binv k) k D VX SD).
    exact (proj1 (proj2 (proj2 (raw_gap c (binv k) k VX EX (fun _ => 0))))).
  Qed.

  (** When the columns are bounded, every feasible point is moderate. *)
  Definition bound_mass : Q :=
    sumq (map (fun j => if m_int m j then Qmax (Qabs (lo c j)) (Qabs (hi c j)) else 0) (seq 0 n)).
  Lemma bounded_moderate y : (forall j, (j < n)%nat -> m_clo m j <> None /\ m_chi m j <> None) ->
    bound_mass + 1 <= ten 6 -> in_bounds m y -> moderate c y.
  Proof.
    intros B M YB. assert (R : forall j, (j < n)%nat -> Qabs (y j) <= Qmax (Qabs (lo c j)) (Qabs (hi c j))).
    { intros j L. destruct (B j L) as (B1 & B2). pose proof (lo_le c y YB j L B1). pose proof (hi_ge c y YB j L B2).
      apply Qle_trans with (if y j <? 0 then Qabs (lo c j) else Qabs (hi c j)).
      - destruct (y j <? 0) eqn:E; qb.
        + rewrite (Qabs_neg (y j)), (Qabs_neg (lo c j)) by lra. lra.
        + rewrite (Qabs_pos (y j)), (Qabs_pos (hi c j)) by lra. lra.
      - unfold Qmax. destruct (y j <? 0), (Qabs (lo c j) <? Qabs (hi c j)) eqn:E; qb; lra. }
    split.
    - eapply Qle_trans; [|exact M]. apply Qplus_le_compat; [|lra]. apply sumq_le. intros j Hj. apply in_seq in Hj.
      destruct (m_int m j); [apply R; lia|lra].
    - intros j L. eapply Qle_trans; [apply R; exact L|]. destruct (B j L) as (B1 & B2). destruct (sane c SB j L) as (S1 & S2).
      specialize (S1 B1). specialize (S2 B2). pose proof big as Bg. pose proof (ten_pos 20). pose proof (ten_pos 300).
      assert (A1 : Qabs (lo c j) <= ten 300) by (apply Qabs_Qle_condition; exact S1).
      assert (A2 : Qabs (hi c j) <= ten 300) by (apply Qabs_Qle_condition; exact S2).
      unfold Qmax. destruct (_ <? _); lra.
  Qed.
  Theorem C47_bounded_integer_data_valid binv p0 p :
    integer_data c ->
    (forall j, (j < n)%nat -> m_clo m j <> None /\ m_chi m j <> None) -> bound_mass + 1 <= ten 6 ->
    (forall k, (k < n)%nat -> candidate c k = true ->
       vertex c (binv k) k /\ exists D, small_denominator c (binv k) k D) ->
    generateCuts sqrt srt ins stale c (Some binv) p0 = Done p ->
    keeps (feasible m) p0 p.
  Proof.
    intros ID B M H E. destruct (C47_integer_data_valid binv p0 p ID H E) as (K1 & K2).
    assert (G : forall y, feasible m y -> target y) by (intros y Fy; split; [exact Fy|apply bounded_moderate; auto; apply Fy]).
    split; intros d Hd; [destruct (K1 d Hd)|destruct (K2 d Hd)]; auto.
  Qed.
End Valid.

(** ** C48: every cut says something the relaxation does not *)
Section Violated.
  Variable sqrt : Q -> Q.
  Variable srt : list nat -> list nat.
  Variable ins : list rowcut -> rowcut -> list rowcut.
  Variable stale : Z.
  Variable c : gcall.
  Notation m := (g_mip c).
  Notation n := (m_ncols m).
  Notation x := (g_x c).
  Hypothesis INS : forall cs d e, In e (ins cs d) -> In e cs \/ e = d.

  (** violated by the solution by at least 1e-7 *)
  Definition violated (d : rowcut) : Prop :=
    exists b, rc_ub d = Some b /\ rc_lb d = None /\ b + (1 # 10000000) <= value (rc_form d) x.
  Definition infeasible_cut : rowcut := RowCut [] (Some 1) (Some 0).
  (** one new integral bound on one integer column, strictly inside the old *)
  Definition tightens (d : colcut) : Prop :=
    (exists j l, d = ColCut [(j, l)] [] /\ m_int m j = true /\ integral l /\ match m_clo m j with Some l0 => l0 < l | None => True end) \/
    (exists j u, d = ColCut [] [(j, u)] /\ m_int m j = true /\ integral u /\ match m_chi m j with Some u0 => u < u0 | None => True end).
  Lemma emit_says acc cl v b : match emit c acc false cl v b with
    | MNothing => True | MRow d => violated d | MSecond _ => False | MCol d => tightens d | MInfeasible => True end.
  Proof.
    unfold emit. destruct acc; [|exact Logic.I]. destruct (tidy c cl v b) as [v' b'].
    assert (R : match (if value v' x <? b' + ten (-7) then MNothing else MRow (RowCut v' None (Some b'))) with
      | MNothing => True | MRow d => violated d | MSecond _ => False | MCol d => tightens d | MInfeasible => True end).
    { destruct (_ <? _) eqn:E; [exact Logic.I|]. qb. exists b'. cbn. conjs; auto. }
    destruct v' as [|[j a] [|e v']]; try exact R. clear R. unfold single. cbv zeta.
    destruct (Qeq_bool a 0); [destruct (_ <? _); exact Logic.I|]. destruct (a <? 0).
    - destruct (_ <? _); [exact Logic.I|]. destruct (lo c j <? _) eqn:E1; cbn [orb].
      + destruct (m_int m j) eqn:Im; [|exact Logic.I]. left. exists j. eexists. rewrite (proj2 (Qltb_ge (hi c j) (hi c j)) (Qle_refl _)). conjs; auto.
        * apply integral_inject.
        * qb. unfold lo in E1. destruct (m_clo m j); [exact E1|exact Logic.I].
      + rewrite (proj2 (Qltb_ge (hi c j) (hi c j)) (Qle_refl _)). exact Logic.I.
    - destruct (_ <? lo c j); [exact Logic.I|]. rewrite (proj2 (Qltb_ge (lo c j) (lo c j)) (Qle_refl _)). cbn [orb].
      destruct (_ <? hi c j) eqn:E1; [|exact Logic.I].
      destruct (m_int m j) eqn:Im; [|exact Logic.I]. right. exists j. eexists. conjs; auto.
      + apply integral_inject.
      + qb. unfold hi in E1. destruct (m_chi m j); [exact E1|exact Logic.I].
  Qed.
  Lemma make_says rho k r : g_sorted c = false -> make sqrt stale c rho k = Done r ->
    match r with MNothing => True | MRow d => violated d | MSecond _ => False | MCol d => tightens d | MInfeasible => True end.
  Proof.
    intros So E. unfold make in E. cbv zeta in E. destruct (Nat.ltb _ _); [apply Done_inj in E; subst; exact Logic.I|].
    destruct (Nat.ltb _ _); [apply Done_inj in E; subst; exact Logic.I|]. destruct (pack _ _ _) as [[v rhs] w].
    destruct (_ && _); [|apply Done_inj in E; subst; exact Logic.I]. apply bind_done in E. destruct E as (k1 & _ & E).
    destruct (tiny _ _ _ _) as [[[v1 r1] nni]|]; [|apply Done_inj in E; subst; exact Logic.I].
    destruct (reject _ _ _); [apply Done_inj in E; subst; exact Logic.I|]. destruct (rescale _ _ _) as [v2 r2].
    destruct (_ || _); apply Done_inj in E; subst; [|exact Logic.I]. rewrite So, andb_false_r. apply emit_says.
  Qed.
  (** For every solver state, basis inverse (exact or not) and parameter
      setting, when the candidates are not sorted (option 256). *)
  Theorem C48_cuts_say_something binv p0 p :
    g_sorted c = false -> generateCuts sqrt srt ins stale c binv p0 = Done p ->
    (forall d, In d (fst p) -> In d (fst p0) \/ violated d \/ d = infeasible_cut) /\
    (forall d, In d (snd p) -> In d (snd p0) \/ tightens d).
  Proof.
    intros So E. unfold generateCuts in E. destruct binv as [binv|]; [|apply Done_inj in E; subst; auto].
    apply bind_done in E. destruct E as (s & E1 & E2). rewrite So in E2. cbn [andb] in E2.
    destruct s as [[[rcs ccs] second] budget]. apply Done_inj in E2. subst p.
    set (P := fun p : pool => (forall d, In d (fst p) -> In d (fst p0) \/ violated d \/ d = infeasible_cut) /\ (forall d, In d (snd p) -> In d (snd p0) \/ tightens d)).
    cut (P (fst (fst ((rcs, ccs), second, budget)))); [intro G; exact G|]. revert E1.
    apply (ofold_inv (fun s : pool * list rowcut * Z => P (fst (fst s)))); [|split; auto].
    intros [[[r0 c0] s0] b0] k s' _ (P1 & P2) E. unfold step in E. destruct (_ <=? _)%Z; [apply Done_inj in E; subst s'; split; auto|].
    apply bind_done in E. destruct E as (r & Er & E). apply Done_inj in E. apply make_says in Er; [|exact So].
    destruct r as [|d|d|d|]; subst s'; cbn [fst snd] in *; split; cbn [fst snd]; auto; try (destruct Er; fail).
    - intros e He. apply INS in He. destruct He as [He|He]; [auto|subst; auto].
    - intros e He. apply in_app_or in He. destruct He as [He|[<-|[]]]; auto.
    - intros e He. apply INS in He. destruct He as [He|He]; [auto|subst; auto].
  Qed.
End Violated.

(** ** C49: the generator finishes *)
Section Total.
  Variable sqrt : Q -> Q.
  Variable srt : list nat -> list nat.
  Variable ins : list rowcut -> rowcut -> list rowcut.
  Variable stale : Z.
  Variable c : gcall.
  Notation m := (g_mip c).
  Notation n := (m_ncols m).
  Notation x := (g_x c).
  Lemma make_total rho k :
    let f0 := above_integer (x k) in let p := pack c f0 (raw c f0 rho) in
    (exists r, make sqrt stale c rho k = Done r) \/
    (make sqrt stale c rho k = Undef OutOfBounds /\ fst (fst p) <> [] /\ all_tiny (fst (fst p)) (snd (fst p))) \/
    (make sqrt stale c rho k = Undef IntOverflow /\
     exists a, In a (map snd (fst (fst p)) ++ [snd (fst p)]) /\ nearestRational (above_integer (Qabs a)) = Undef IntOverflow).
  Proof.
    cbv zeta. unfold make. cbv zeta. destruct (Nat.ltb _ _); [left; eauto|]. destruct (Nat.ltb _ _); [left; eauto|].
    destruct (pack _ _ _) as [[v rhs] w]. cbn [fst snd]. destruct (_ && _); [|left; eauto].
    destruct (rationalize_total stale c v rhs) as [(k1 & ->)|[(-> & H)|(-> & H)]]; cbn [bind]; auto.
    left. destruct (tiny _ _ _ _) as [[[v1 r1] nni]|]; [|eauto]. destruct (reject _ _ _); [eauto|].
    destruct (rescale _ _ _) as [v2 r2]. destruct (_ || _); eauto.
  Qed.
  Lemma total_fold (Bad : outcome pool -> Prop) binv p0 :
    (forall k, In k (srt (filter (candidate c) (seq 0 n))) -> (exists r, make sqrt stale c (binv k) k = Done r) \/
       exists u, make sqrt stale c (binv k) k = Undef u /\ Bad (Undef u)) ->
    (exists p, generateCuts sqrt srt ins stale c (Some binv) p0 = Done p) \/ Bad (generateCuts sqrt srt ins stale c (Some binv) p0).
  Proof.
    intro H. unfold generateCuts.
    assert (G : (exists s, ofold (step sqrt ins stale c binv) (srt (filter (candidate c) (seq 0 n))) (p0, [], g_budget c) = Done s) \/
      exists u, ofold (step sqrt ins stale c binv) (srt (filter (candidate c) (seq 0 n))) (p0, [], g_budget c) = Undef u /\ Bad (Undef u)).
    { revert H. generalize (srt (filter (candidate c) (seq 0 n))) as l. generalize (p0, @nil rowcut, g_budget c) as s.
      intros s l. revert s. induction l as [|k l IH]; intros s H; [left; cbn; eauto|]. cbn [ofold].
      assert (H' : forall k0, In k0 l -> (exists r, make sqrt stale c (binv k0) k0 = Done r) \/
        exists u, make sqrt stale c (binv k0) k0 = Undef u /\ Bad (Undef u)) by (intros; apply H; right; assumption).
      assert (St : (exists s', step sqrt ins stale c binv s k = Done s') \/ exists u, step sqrt ins stale c binv s k = Undef u /\ Bad (Undef u)).
      { unfold step. destruct s as [[[rcs ccs] second] budget]. destruct (_ <=? _)%Z; [left; eauto|].
        destruct (H k (or_introl eq_refl)) as [(r & ->)|(u & -> & B)]; cbn [bind]; [left; eauto|right; eauto]. }
      destruct St as [(s' & ->)|(u & -> & B)]; cbn [bind]; [apply IH; exact H'|right; eauto]. }
    destruct G as [([[[rcs ccs] second] budget] & ->)|(u & -> & B)]; cbn [bind]; [|right; exact B].
    left. cbv zeta. destruct (_ && _); eauto.
  Qed.

  (** For every solver state, basis inverse and parameter setting: the assertions
      in the rational stage hold, it divides by no zero and every loop ends; two
      kinds of undefined behaviour remain. *)
  Theorem C49_finishes binv p0 :
    (exists p, generateCuts sqrt srt ins stale c binv p0 = Done p) \/
    generateCuts sqrt srt ins stale c binv p0 = Undef OutOfBounds \/
    generateCuts sqrt srt ins stale c binv p0 = Undef IntOverflow.
  Proof.
    destruct binv as [binv|]; [|left; cbn; eauto].
    apply (total_fold (fun o => o = Undef OutOfBounds \/ o = Undef IntOverflow)).
    intros k _. destruct (make_total (binv k) k) as [H|[(H & _)|(H & _)]]; [auto| |]; right; eexists; (split; [exact H|auto]).
  Qed.

  (** What is packed into the cut, as (column, coefficient) pairs, and its
      right-hand side. *)
  Definition packed (rho : vec) (k : nat) : vec * Q :=
    let p := pack c (above_integer (x k)) (raw c (above_integer (x k)) rho) in (fst (fst p), snd (fst p)).
  Lemma pack_big l : (forall j a, In (j, a) l -> - ten 20 < lo c j /\ hi c j < ten 20) ->
    forall v0 r0 w0 v r w, fold_left (pack_step c) l (v0, r0, w0) = (v, r, w) ->
    (forall e, In e v0 -> ten (-8) < Qabs (snd e)) -> forall e, In e v -> ten (-8) < Qabs (snd e).
  Proof.
    induction l as [|[j a] l IH]; intros B v0 r0 w0 v r w E H; cbn [fold_left] in E.
    - injection E as <- _ _. exact H.
    - assert (B' : forall i b, In (i, b) l -> - ten 20 < lo c i /\ hi c i < ten 20) by (intros i b Hi; apply (B i b); right; exact Hi).
      destruct (B j a (or_introl eq_refl)) as (B1 & B2). unfold pack_step at 2 in E.
      destruct (ten (-8) <? Qabs a) eqn:E1.
      { apply (IH B' _ _ _ _ _ _ E). intros e He. apply in_app_or in He. destruct He as [He|[<-|[]]]; [auto|]. qb. exact E1. }
      rewrite (proj2 (Qltb_lt _ _) B1), (proj2 (Qltb_lt _ _) B2), !andb_true_r in E.
      destruct (0 <? a) eqn:E2; [exact (IH B' _ _ _ _ _ _ E H)|]. destruct (a <? 0) eqn:E3; [exact (IH B' _ _ _ _ _ _ E H)|].
      destruct (ten (-13) <? Qabs a) eqn:E4; [|exact (IH B' _ _ _ _ _ _ E H)]. exfalso. qb.
      assert (Z : a == 0) by lra. assert (Qabs a == 0) by (rewrite Z; reflexivity). pose proof (ten_pos (-13)). lra.
  Qed.
  Lemma idx_cols f0 rho : wf_mip m -> (forall j, In j (s_idx (raw c f0 rho)) -> (j < n)%nat).
  Proof.
    intro W. unfold raw, col_part.
    assert (G1 : forall l s, (forall j, In j l -> (j < n)%nat) -> (forall j, In j (s_idx s) -> (j < n)%nat) ->
      forall j, In j (s_idx (fold_left (col_step c f0 rho) l s)) -> (j < n)%nat).
    { induction l as [|i l IH]; intros s Hl Hs; [exact Hs|]. cbn [fold_left]. apply IH; [intros; apply Hl; right; assumption|].
      unfold col_step. destruct (_ || _); [exact Hs|]. cbv zeta. destruct (_ <? _); [exact Hs|]. destruct (Qeq_bool _ 0); [exact Hs|].
      cbn [s_idx]. intros j Hj. apply in_app_or in Hj. destruct Hj as [Hj|[<-|[]]]; [auto|]. apply Hl. left. reflexivity. }
    assert (G2 : forall q l s, (forall j a, In (j, a) l -> (j < n)%nat) -> (forall j, In j (s_idx s) -> (j < n)%nat) ->
      forall j, In j (s_idx (fold_left (quick_add q) l s)) -> (j < n)%nat).
    { intros q. induction l as [|[i a] l IH]; intros s Hl Hs; [exact Hs|]. cbn [fold_left]. apply IH; [intros; eapply Hl; right; eauto|].
      unfold quick_add. cbv zeta. destruct (existsb _ _); [exact Hs|]. destruct (Qeq_bool _ 0); [exact Hs|].
      cbn [s_idx]. intros j Hj. apply in_app_or in Hj. destruct Hj as [Hj|[<-|[]]]; [auto|]. eapply Hl. left. reflexivity. }
    assert (Rw : forall i j a, In (j, a) (r_form (grow c i)) -> (j < n)%nat).
    { intros i j a H. unfold grow in H. destruct (nth_in_or_default i (m_rows m) (Row [] None None)) as [D|D].
      - exact (proj2 (W _ D) _ _ H).
      - rewrite D in H. destruct H. }
    assert (G3 : forall l s, (forall j, In j (s_idx s) -> (j < n)%nat) ->
      forall j, In j (s_idx (fold_left (slack_step c f0) l s)) -> (j < n)%nat).
    { induction l as [|[i a] l IH]; intros s Hs; [exact Hs|]. cbn [fold_left]. apply IH.
      unfold slack_step. destruct (rowType c i) as [[up b]|]; [|exact Hs]. destruct (_ <? _); [exact Hs|]. cbv zeta.
      apply G2; [apply Rw|exact Hs]. }
    apply G3. apply G1; [|intros j []]. intros j Hj. apply in_seq in Hj. lia.
  Qed.
  (** With finite bounds on the columns nothing is read out of bounds; with a
      common denominator up to 10^13 nothing overflows. *)
  Theorem C49_bounded_finishes binv p0 :
    wf_mip m -> (forall l, incl (srt l) l) ->
    (forall j, (j < n)%nat -> exists l u, m_clo m j = Some l /\ m_chi m j = Some u /\ - ten 20 < l /\ u < ten 20) ->
    (exists p, generateCuts sqrt srt ins stale c (Some binv) p0 = Done p) \/
    generateCuts sqrt srt ins stale c (Some binv) p0 = Undef IntOverflow /\
    ~ (forall k, (k < n)%nat -> candidate c k = true -> exists D, (1 <= D <= 10 ^ 13)%Z /\
         forall a, In a (map snd (fst (packed (binv k) k)) ++ [snd (packed (binv k) k)]) -> integral (inject_Z D * a)).
  Proof.
    intros W SRT B. apply (total_fold (fun o => o = Undef IntOverflow /\ _)).
    intros k Hk. apply SRT in Hk. apply filter_In in Hk. destruct Hk as (Hk & Ck). apply in_seq in Hk.
    destruct (make_total (binv k) k) as [H|[(_ & NE & T)|(H & O)]]; [auto| |].
    - exfalso. destruct (pack _ _ _) as [[v rhs] w] eqn:Pk. cbn [fst snd] in NE, T. destruct v as [|[j a] v]; [congruence|].
      unfold pack in Pk.
      assert (X : ten (-8) < Qabs (snd (j, a))).
      { eapply pack_big; [|exact Pk|intros e []|left; reflexivity].
        intros i b Hi. unfold negated in Hi. apply in_map_iff in Hi. destruct Hi as (i' & Ei & Hi). injection Ei as <- _.
        apply idx_cols in Hi; [|exact W]. destruct (B i' Hi) as (l & u & El & Eu & Hl & Hu). unfold lo, hi. rewrite El, Eu. split; assumption. }
      specialize (T a (or_introl eq_refl)). cbn [snd] in X. lra.
    - right. exists IntOverflow. split; [exact H|]. split; [reflexivity|]. intro G. destruct (G k ltac:(lia) Ck) as (D & LD & HD).
      exact (rationalize_grid D _ _ LD HD O).
  Qed.
  (** On integer data with small denominators the generator returns. *)
  Theorem C49_integer_data_finishes binv p0 :
    (forall l, incl (srt l) l) -> integer_data c ->
    (forall k, (k < n)%nat -> candidate c k = true ->
       vertex c (binv k) k /\ exists D, small_denominator c (binv k) k D) ->
    exists p, generateCuts sqrt srt ins stale c (Some binv) p0 = Done p.
  Proof.
    intros SRT ID H. destruct (total_fold (fun _ => False) binv p0) as [G|[]]; [|exact G].
    intros k Hk. apply SRT in Hk. apply filter_In in Hk. destruct Hk as (Hk & Ck). apply in_seq in Hk.
    destruct (H k ltac:(lia) Ck) as (VX & D & SD). pose proof (raw_grid c ID (binv k) k D VX SD) as (G1 & G2).
    destruct (D'_ok c ID (binv k) k D VX SD) as ((z & Z) & P & B).
    assert (Zb : (1 <= z <= 10 ^ 8)%Z).
    { rewrite Z in P, B. change 0 with (inject_Z 0) in P. change (ten 8) with (inject_Z (10 ^ 8)) in B. rewrite <- Zlt_Qlt in P, B. lia. }
    assert (HG : forall a, In a (map snd (fst (packed (binv k) k)) ++ [snd (packed (binv k) k)]) -> integral (D' c k D * a)).
    { unfold packed. cbv zeta. destruct (pack c _ _) as [[v r] w] eqn:Pk. cbn [fst snd]. unfold pack in Pk.
      destruct (pack_grid c ID k D _ _ _ _ _ _ _ Pk) as (H1 & H2).
      - intros j a Hj. unfold negated in Hj. apply in_map_iff in Hj. destruct Hj as (j' & Ej & Hj). injection Ej as <- _.
        apply idx_cols in Hj; [exact Hj|apply VX].
      - intros e [[]|He]. unfold negated in He. apply in_map_iff in He. destruct He as (j' & <- & He). cbn [snd].
        apply integral_eq with (- (D' c k D * s_el (raw c (above_integer (x k)) (binv k)) j')); [ring|]. apply integral_opp. apply G1.
      - apply integral_eq with (- (D' c k D * s_rhs (raw c (above_integer (x k)) (binv k)))); [ring|]. apply integral_opp. exact G2.
      - intros a Ha. apply in_app_or in Ha. destruct Ha as [Ha|[<-|[]]]; [|exact H1]. apply in_map_iff in Ha. destruct Ha as (e & <- & He). auto. }
    destruct (make_total (binv k) k) as [K|[(_ & NE & T)|(_ & O)]]; [auto| |]; exfalso.
    - unfold packed in HG. cbv zeta in HG. destruct (pack _ _ _) as [[v rhs] w] eqn:Pk. cbn [fst snd] in *.
      destruct v as [|[j a] v]; [congruence|]. specialize (T a (or_introl eq_refl)). specialize (HG a (or_introl eq_refl)).
      destruct HG as (q & Eq).
      assert (A : D' c k D * Qabs a < 1).
      { apply Qle_lt_trans with (D' c k D * ten (-8)); [apply Qmult_le_l; assumption|].
        apply Qlt_le_trans with (ten 8 * ten (-8)); [apply Qmult_lt_r; [apply ten_pos|exact B]|vm_compute; discriminate]. }
      assert (Az : Qabs a == 0).
      { assert (E : D' c k D * Qabs a == Qabs (inject_Z q)) by (rewrite <- Eq, Qabs_Qmult, (Qabs_pos (D' c k D)) by lra; reflexivity).
        rewrite E in A. apply Qabs_Qlt_condition in A. destruct A as (A1 & A2).
        assert (Gq : (- 1 < q < 1)%Z).
        { split; rewrite Zlt_Qlt; [change (inject_Z (- 1)) with (- (1))|change (inject_Z 1) with 1]; assumption. }
        assert (q = 0%Z) by lia. subst q. change (Qabs (inject_Z 0)) with 0 in E. apply Qmult_integral in E. destruct E as [E|E]; [lra|exact E]. }
      assert (Nz : forall l v0 r0 w0 v1 r1 w1, fold_left (pack_step c) l (v0, r0, w0) = (v1, r1, w1) ->
         (forall e, In e v0 -> 0 < Qabs (snd e)) -> forall e, In e v1 -> 0 < Qabs (snd e)).
      { clear. induction l as [|[j a] l IH]; intros v0 r0 w0 v1 r1 w1 E H; cbn [fold_left] in E; [injection E as <- _ _; exact H|].
        assert (H' : 0 < Qabs a -> forall e, In e (v0 ++ [(j, a)]) -> 0 < Qabs (snd e)).
        { intros Ha e He. apply in_app_or in He. destruct He as [He|[<-|[]]]; auto. }
        unfold pack_step at 2 in E. destruct (ten (-8) <? Qabs a) eqn:E1.
        { apply (IH _ _ _ _ _ _ E). apply H'. qb. pose proof (ten_pos (-8)). lra. }
        destruct (_ && _); [exact (IH _ _ _ _ _ _ E H)|]. destruct (_ && _); [exact (IH _ _ _ _ _ _ E H)|].
        destruct (ten (-13) <? Qabs a) eqn:E4; [|exact (IH _ _ _ _ _ _ E H)]. apply (IH _ _ _ _ _ _ E). apply H'. qb. pose proof (ten_pos (-13)). lra. }
      unfold pack in Pk. pose proof (Nz _ _ _ _ _ _ _ Pk (fun e (He : In e []) => match He with end) (j, a) (or_introl eq_refl)) as X.
      cbn [snd] in X. lra.
    - apply (rationalize_grid z _ _ ltac:(lia)) in O; [exact O|]. intros a Ha. apply integral_eq with (D' c k D * a); [rewrite Z; reflexivity|].
      apply HG. exact Ha.
  Qed.
End Total.
(** ** C50: cuts marked as globally valid *)
(** What a user of the marks relies on: a marked cut is satisfied by every
    solution of the original problem [root], of which the call sees a
    restriction.  [opts] are info.inTree, options 4 and 8, the pass and the
    limit on the length. *)
Definition global_marks_ok (c : gcall) (orig : mip) (p0 p : pool) : Prop :=
  forall inTree opt4 opt8 pass limit d, In d (fst p) -> ~ In d (fst p0) ->
  marked c inTree opt4 opt8 pass limit d = true ->
  forall y, feasible orig y -> moderate c y -> rowcut_sat d y.
(** True as long as the bounds have not been tightened. *)
Theorem C50_marks_partial sqrt srt ins stale c orig binv p0 p :
  (forall q, 0 < q -> 0 < sqrt q) -> (forall l, incl (srt l) l) -> ins_ok ins ->
  sane_bounds c -> integer_bounds c -> ranges_ok c ->
  (forall k, (k < m_ncols (g_mip c))%nat -> candidate c k = true ->
     vertex c (binv k) k /\ exact c (binv k) k /\ candidate_ready c (binv k) k) ->
  (forall y, feasible orig y -> feasible (g_mip c) y) ->
  generateCuts sqrt srt ins stale c (Some binv) p0 = Done p -> global_marks_ok c orig p0 p.
Proof.
  intros SQ SRT INS SB IB RO H R E inTree o4 o8 pass limit d Hd N _ y Fy My.
  destruct (C47_cuts_valid sqrt srt ins stale c SQ SRT INS SB IB RO binv p0 p H E) as (K & _).
  destruct (K d Hd) as [G|G]; [contradiction|]. apply G. split; auto.
Qed.

(** ** Examples and refutations *)
Definition tb {A} (d : A) (l : list A) (j : nat) : A := nth j l d.
(** exact on squares of rationals, positive on positive numbers *)
Definition root (q : Q) : Q :=
  let r := Qred q in let s := Z.sqrt (Qnum r) # Z.to_pos (Z.sqrt (Zpos (Qden r))) in if 0 <? s then s else 1.
Lemma root_pos q : 0 < q -> 0 < root q.
Proof. intros _. unfold root. cbv zeta. destruct (0 <? _) eqn:E; [qb; exact E|reflexivity]. Qed.
Definition call (m : mip) (x : point) (cb rb : list bool) (glob : bool) : gcall :=
  GCall m x (tb false cb) (tb false rb) (1 # 20) glob true false 50 (2 ^ 31 - 1) 0 0.
Notation run c binv := (generateCuts root (fun l => l) insert_new 0 c (Some binv) ([], [])).
(** Boolean tests for the conditions above, used on concrete calls only. *)
Definition is (o : option Q) (q : Q) : bool := match o with Some l => Qeq_bool l q | None => false end.
Lemma is_ok o q : is o q = true -> exists l, o = Some l /\ l == q.
Proof. destruct o as [l|]; cbn; intro H; [|discriminate]. qb. eauto. Qed.
Definition same (o o' : option Q) : bool := match o with Some l => is o' l | None => false end.
Lemma same_ok o o' : same o o' = true -> exists l u, o = Some l /\ o' = Some u /\ l == u.
Proof. destruct o as [l|]; cbn; intro H; [|discriminate]. apply is_ok in H. destruct H as (u & -> & E). exists l, u. conjs; auto. symmetry. exact E. Qed.
Definition cleanb (q : Q) : bool := Qeq_bool (above_integer q) (frac q).
Definition opt_all (f : Q -> bool) (o : option Q) : bool := match o with Some l => f l | None => true end.
Lemma opt_all_ok f o : opt_all f o = true -> forall l, o = Some l -> f l = true.
Proof. intros H l ->. exact H. Qed.
Section Tests.
  Variable c : gcall.
  Notation m := (g_mip c).
  Notation n := (m_ncols m).
  Notation x := (g_x c).
  Definition vertexb (rho : vec) (k : nat) : bool :=
    wfb m && Nat.ltb k n && g_cbasic c k && bounds_b m x &&
    forallb (fun e => Nat.ltb (fst e) (length (m_rows m)) && row_b x (grow c (fst e)) &&
      (Qeq_bool (snd e) 0 ||
       match rowType c (fst e) with
       | None => same (r_lo (grow c (fst e))) (r_hi (grow c (fst e)))
       | Some (true, _) => is (r_hi (grow c (fst e))) (act c (fst e))
       | Some (false, _) => is (r_lo (grow c (fst e))) (act c (fst e))
       end)) rho &&
    forallb (fun j => if g_cbasic c j then Qeq_bool (elem c rho j) (if Nat.eqb j k then 1 else 0)
      else Qeq_bool (elem c rho j) 0 ||
           (if skipped c j then same (m_clo m j) (m_chi m j)
            else if swap c j then is (m_chi m j) (x j) else is (m_clo m j) (x j))) (seq 0 n).
  Lemma all_cols f : forallb f (seq 0 n) = true -> forall j, (j < n)%nat -> f j = true.
  Proof. intros H j L. apply (proj1 (forallb_forall _ _) H). apply in_seq. lia. Qed.
  Lemma vertexb_ok rho k : vertexb rho k = true -> vertex c rho k.
  Proof.
    unfold vertexb. intro H. repeat (apply andb_prop in H; destruct H as (H & ?)).
    match goal with A : forallb _ rho = true, B : forallb _ (seq 0 n) = true |- _ => pose proof (proj1 (forallb_forall _ _) A) as R; pose proof (all_cols _ B) as K end.
    cbv beta in R, K. constructor.
    - apply wfb_ok. assumption.
    - apply Nat.ltb_lt. assumption.
    - assumption.
    - intros i a Hi. apply R in Hi. cbn [fst snd] in Hi. apply andb_prop in Hi. destruct Hi as (Hi & _). apply andb_prop in Hi. destruct Hi as (Hi & _). apply Nat.ltb_lt. exact Hi.
    - intros i a Hi. apply R in Hi. cbn [fst snd] in Hi. apply andb_prop in Hi. destruct Hi as (Hi & _). apply andb_prop in Hi. destruct Hi as (_ & Hi).
      apply andb_prop in Hi. destruct Hi. split; [apply geb_lo_ok|apply leb_hi_ok]; assumption.
    - apply bounds_b_ok. assumption.
    - intros j L B. specialize (K j L). rewrite B in K. qb. exact K.
    - intros j L B. specialize (K j L). rewrite B in K. apply orb_prop in K. destruct K as [K|K]; [left; qb; exact K|right].
      destruct (skipped c j); [apply same_ok; exact K|]. destruct (swap c j); apply is_ok; exact K.
    - intros i a Hi. apply R in Hi. cbn [fst snd] in Hi. apply andb_prop in Hi. destruct Hi as (_ & K').
      apply orb_prop in K'. destruct K' as [K'|K']; [left; qb; exact K'|right].
      destruct (rowType c i) as [[[] ?]|]; [apply is_ok|apply is_ok|apply same_ok]; exact K'.
  Qed.
  Definition exactb (rho : vec) (k : nat) : bool :=
    cleanb (x k) &&
    forallb (fun j => (negb (Qabs (elem c rho j) <? ten (-16)) || Qeq_bool (elem c rho j) 0) &&
                      (g_cbasic c j || negb (m_int m j) || cleanb (scol c rho j))) (seq 0 n) &&
    forallb (fun e => (negb (Qabs (snd e) <? ten (-16)) || Qeq_bool (snd e) 0) &&
      (negb (irowb c (fst e)) || (cleanb (srow c (fst e) (snd e)) &&
        forallb (fun e' => cleanb (snd e')) (r_form (grow c (fst e))) &&
        opt_all cleanb (r_lo (grow c (fst e))) && opt_all cleanb (r_hi (grow c (fst e)))))) rho.
  Lemma exactb_ok rho k : exactb rho k = true -> exact c rho k.
  Proof.
    unfold exactb. intro H. apply andb_prop in H. destruct H as (H & R0). apply andb_prop in H. destruct H as (X & K0).
    pose proof (proj1 (forallb_forall _ _) R0) as R. pose proof (all_cols _ K0) as K. cbv beta in R, K. unfold cleanb in *.
    constructor.
    - qb. exact X.
    - intros j L Q0. specialize (K j L). apply andb_prop in K. destruct K as (K & _). rewrite (proj2 (Qltb_lt _ _) Q0) in K. cbn [negb orb] in K. qb. exact K.
    - intros j L B Ij. specialize (K j L). apply andb_prop in K. destruct K as (_ & K). rewrite B, Ij in K. cbn [negb orb] in K. qb. exact K.
    - intros i a Hi Q0. apply R in Hi. cbn [fst snd] in Hi. apply andb_prop in Hi. destruct Hi as (Hi & _). rewrite (proj2 (Qltb_lt _ _) Q0) in Hi. cbn [negb orb] in Hi. qb. exact Hi.
    - intros i a Hi B. apply R in Hi. cbn [fst snd] in Hi. apply andb_prop in Hi. destruct Hi as (_ & Hi). rewrite B in Hi. cbn [negb orb] in Hi.
      repeat (apply andb_prop in Hi; destruct Hi as (Hi & ?)). unfold clean. qb. exact Hi.
    - intros i a Hi B. apply R in Hi. cbn [fst snd] in Hi. apply andb_prop in Hi. destruct Hi as (_ & Hi). rewrite B in Hi. cbn [negb orb] in Hi.
      apply andb_prop in Hi. destruct Hi as (Hi & H3). apply andb_prop in Hi. destruct Hi as (Hi & H2). apply andb_prop in Hi. destruct Hi as (_ & H1).
      conjs.
      + intros j b Hj. apply (proj1 (forallb_forall _ _) H1) in Hj. cbn [snd] in Hj. qb. exact Hj.
      + intros l E. pose proof (opt_all_ok _ _ H2 l E) as G. cbv beta in G. unfold clean. qb. exact G.
      + intros l E. pose proof (opt_all_ok _ _ H3 l E) as G. cbv beta in G. unfold clean. qb. exact G.
  Qed.
  Definition boundsb (f : Q -> bool) (p : nat -> bool) : bool :=
    forallb (fun j => negb (p j) || (opt_all f (m_clo m j) && opt_all f (m_chi m j))) (seq 0 n).
  Lemma boundsb_ok f p : boundsb f p = true -> forall j, (j < n)%nat -> p j = true ->
    (forall l, m_clo m j = Some l -> f l = true) /\ (forall u, m_chi m j = Some u -> f u = true).
  Proof.
    intros H j L P. apply (all_cols _ H) in L. cbv beta in L. rewrite P in L. cbn [negb orb] in L. apply andb_prop in L. destruct L as (L1 & L2).
    split; apply opt_all_ok; assumption.
  Qed.
  Lemma integer_bounds_b : boundsb integralb (m_int m) = true -> integer_bounds c.
  Proof.
    intros H j L Ij. destruct (boundsb_ok _ _ H j L Ij) as (H1 & H2). split; intros; apply integralb_ok; auto.
  Qed.
  Lemma sane_bounds_b : boundsb (fun q => Qabs q <=? ten 300) (fun _ => true) = true -> sane_bounds c.
  Proof.
    intros H j L. destruct (boundsb_ok _ _ H j L eq_refl) as (H1 & H2).
    split; intros l E; [apply H1 in E|apply H2 in E]; qb; exact E.
  Qed.
  Definition integer_datab : bool :=
    forallb (fun r => forallb (fun e => integralb (snd e)) (r_form r) && opt_all integralb (r_lo r) && opt_all integralb (r_hi r)) (m_rows m) &&
    boundsb integralb (fun _ => true).
  Lemma integer_datab_ok : integer_datab = true -> integer_data c.
  Proof.
    intro H. apply andb_prop in H. destruct H as (R & B). constructor.
    - intros i L. assert (Hi : In (grow c i) (m_rows m)) by (apply nth_In; exact L).
      apply (proj1 (forallb_forall _ _) R) in Hi. apply andb_prop in Hi. destruct Hi as (Hi & H3). apply andb_prop in Hi. destruct Hi as (H1 & H2).
      conjs.
      + intros j a Hj. apply (proj1 (forallb_forall _ _) H1) in Hj. apply integralb_ok. exact Hj.
      + intros l E. apply integralb_ok. exact (opt_all_ok _ _ H2 _ E).
      + intros l E. apply integralb_ok. exact (opt_all_ok _ _ H3 _ E).
    - intros j L. destruct (boundsb_ok _ _ B j L eq_refl) as (H1 & H2). split; intros; apply integralb_ok; auto.
  Qed.
  Definition denominatorb (rho : vec) (k : nat) (D : Q) : bool :=
    integralb D && (1 <=? D) && (D <? ten 4) &&
    forallb (fun e => integralb (D * snd e) && (Qabs (snd e) + 2 <=? ten 5)) rho &&
    forallb (fun j => Qabs (elem c rho j) + 2 <=? ten 5) (seq 0 n) &&
    integralb (D * x k) && (Qabs (x k) + 2 <=? ten 5).
  Lemma denominatorb_ok rho k D : denominatorb rho k D = true -> small_denominator c rho k D.
  Proof.
    unfold denominatorb. intro H.
    apply andb_prop in H; destruct H as (H & H7). apply andb_prop in H; destruct H as (H & H6). apply andb_prop in H; destruct H as (H & H5).
    apply andb_prop in H; destruct H as (H & H4). apply andb_prop in H; destruct H as (H & H3). apply andb_prop in H; destruct H as (H1 & H2).
    constructor.
    - apply integralb_ok. exact H1.
    - qb. split; assumption.
    - intros i a Hi. apply (proj1 (forallb_forall _ _) H4) in Hi. cbn [snd] in Hi. apply andb_prop in Hi. destruct Hi as (A & B).
      split; [apply integralb_ok; exact A|qb; exact B].
    - intros j L. pose proof (all_cols _ H5 j L) as G. cbv beta in G. qb. exact G.
    - split; [apply integralb_ok; exact H6|qb; exact H7].
  Qed.
  Definition packableb (j : nat) (a : Q) : bool :=
    (ten (-13) <? Qabs a) || Qeq_bool a 0 || ((- ten 20 <? lo c j) && (hi c j <? ten 20)).
  Definition pureb (rho : vec) (k : nat) : bool :=
    let f0 := above_integer (x k) in let s := raw c f0 rho in
    forallb (fun j => packableb j (- s_el s j)) (s_idx s) && Nat.eqb (nonInteger c (fst (fst (pack c f0 s)))) 0.
  Lemma pureb_ok rho k : pureb rho k = true -> candidate_ready c rho k.
  Proof.
    unfold pureb, candidate_ready. cbv zeta. intro H. apply andb_prop in H. destruct H as (H1 & H2). split; [|left; apply Nat.eqb_eq; exact H2].
    intros j Hj. apply (proj1 (forallb_forall _ _) H1) in Hj. unfold packable. apply orb_prop in Hj. destruct Hj as [Hj|Hj].
    - apply orb_prop in Hj. destruct Hj as [Hj|Hj]; qb; auto.
    - right. right. apply andb_prop in Hj. destruct Hj. qb. auto.
  Qed.
  Lemma moderateb y : (sumq (map (fun j => if m_int m j then Qabs (y j) else 0) (seq 0 n)) + 1 <=? ten 6) = true ->
    forallb (fun j => Qabs (y j) <=? coin_max) (seq 0 n) = true -> moderate c y.
  Proof. intros H1 H2. split; [qb; exact H1|]. intros j L. pose proof (all_cols _ H2 j L) as G. cbv beta in G. qb. exact G. Qed.
  Lemma candidatesb f : forallb (fun k => negb (candidate c k) || f k) (seq 0 n) = true ->
    forall k, (k < n)%nat -> candidate c k = true -> f k = true.
  Proof. intros H k L Ck. pose proof (all_cols _ H k L) as G. cbv beta in G. rewrite Ck in G. exact G. Qed.
End Tests.
Ltac vmt := vm_compute; reflexivity.

(** Two rows and a range; x0, x1 and x3 integer, x2 continuous and at its upper
    bound.  Both fractional columns give a cut; the theorems apply and there are
    feasible points to keep. *)
Definition ex_m : mip :=
  Mip 4 [Row [(0%nat, 2); (1%nat, 1); (2%nat, 1); (3%nat, 1)] None (Some 9);
         Row [(0%nat, 1); (1%nat, 3); (2%nat, -1); (3%nat, 2)] None (Some 10);
         Row [(0%nat, 1); (1%nat, -1)] (Some (-5)) (Some 5)]
    (tb None [Some 0; Some 0; Some 0; Some 1]) (tb None [Some 4; Some 4; Some 2; Some 3])
    (tb false [true; true; false; true]).
Definition ex_x : point := tb 0 [16 # 10; 28 # 10; 2; 1].
Definition ex_binv (k : nat) : vec :=
  tb [] [[(0%nat, 3 # 5); (1%nat, -1 # 5)]; [(0%nat, -1 # 5); (1%nat, 2 # 5)]] k.
Definition ex_c : gcall := call ex_m ex_x [true; true; false; false] [false; false; true] false.
Definition ex_point : point := tb 0 [1; 2; 1; 1].
Lemma ex_candidates k : (k < 4)%nat -> candidate ex_c k = true ->
  vertex ex_c (ex_binv k) k /\ exists D, small_denominator ex_c (ex_binv k) k D.
Proof.
  intros L Ck. split; [apply vertexb_ok|exists 5; apply denominatorb_ok]; revert k L Ck; apply (candidatesb ex_c); vmt.
Qed.
Example C47_example : exists d1 d2, run ex_c ex_binv = Done ([d1; d2], []) /\
  keeps_all ex_m d1 /\ keeps_all ex_m d2 /\ feasible ex_m ex_point /\
  ~ rowcut_sat d1 ex_x /\ ~ rowcut_sat d2 ex_x.
Proof.
  destruct (run ex_c ex_binv) as [p| | | |] eqn:E; try (vm_compute in E; discriminate).
  assert (V : keeps (feasible ex_m) ([], []) p).
  { apply (C47_bounded_integer_data_valid root (fun l => l) insert_new 0 ex_c root_pos (fun l => incl_refl l) insert_new_ok
      (sane_bounds_b ex_c eq_refl) (integer_bounds_b ex_c eq_refl) ltac:(discriminate) ex_binv ([], []) p).
    - apply integer_datab_ok. vmt.
    - intros j L. cbn in L. do 4 (destruct j as [|j]; [cbn; split; discriminate|]). lia.
    - vm_compute. discriminate.
    - exact ex_candidates.
    - exact E. }
  vm_compute in E. apply Done_inj in E. subst p. destruct V as (V & _).
  eexists. eexists. split; [reflexivity|]. conjs; try (apply rowcut_b_no; vmt); try (apply feasible_b_ok; vmt).
  - destruct (V _ (or_introl eq_refl)) as [[]|K]. exact K.
  - destruct (V _ (or_intror (or_introl eq_refl))) as [[]|K]. exact K.
Qed.
Example C48_example : exists p d, run ex_c ex_binv = Done p /\ In d (fst p) /\ violated ex_c d.
Proof.
  destruct (run ex_c ex_binv) as [p| | | |] eqn:E; try (vm_compute in E; discriminate).
  destruct (C48_cuts_say_something root (fun l => l) insert_new 0 ex_c
    (fun cs d e H => insert_new_in cs d e H) (Some ex_binv) ([], []) p eq_refl E) as (V & _).
  vm_compute in E. apply Done_inj in E. subst p. eexists. eexists. split; [reflexivity|]. split; [left; reflexivity|].
  destruct (V _ (or_introl eq_refl)) as [[]|[K|K]]; [exact K|discriminate].
Qed.
Example C49_example : (exists p, run ex_c ex_binv = Done p) /\ exists k, (k < 4)%nat /\ candidate ex_c k = true.
Proof.
  split; [|exists 0%nat; split; [lia|vmt]].
  apply C49_integer_data_finishes; [intro; apply incl_refl|apply integer_datab_ok; vmt|exact ex_candidates].
Qed.

(** A cut over both kinds of columns whose coefficients have no small common
    denominator is replaced by one with rounded coefficients: the vertex is
    exact, the solution that is lost is small in the integer columns. *)
Definition mx_m : mip :=
  Mip 3 [Row [(1%nat, 1); (2%nat, -(199999999 # 200000000))] (Some 0) None;
         Row [(0%nat, 2); (1%nat, -1); (2%nat, (199999999 # 200000000))] None (Some 1)]
    (tb None [Some 0; Some 0; Some 0]) (tb None [Some 10; Some (ten 9); Some (ten 9)])
    (tb false [true; false; false]).
Definition mx_c : gcall := call mx_m (tb 0 [1 # 2; 0; 0]) [true; true; false] [false; false] false.
Definition mx_binv (_ : nat) : vec := [(0%nat, 1 # 2); (1%nat, 1 # 2)].
Definition mx_y : point := tb 0 [0; ten 9 - 5; ten 9].
Theorem C47_mixed_cut_refuted : exists c binv d y,
  sane_bounds c /\ integer_bounds c /\ ranges_ok c /\
  (forall k, (k < m_ncols (g_mip c))%nat -> candidate c k = true -> vertex c (binv k) k /\ exact c (binv k) k) /\
  run c binv = Done ([d], []) /\ feasible (g_mip c) y /\ moderate c y /\ ~ rowcut_sat d y.
Proof.
  exists mx_c, mx_binv. eexists. exists mx_y. split; [apply sane_bounds_b; vmt|]. split; [apply integer_bounds_b; vmt|].
  split; [discriminate|]. split.
  { intros k L Ck. split; [apply vertexb_ok|apply exactb_ok]; revert k L Ck; apply (candidatesb mx_c); vmt. }
  split; [vmt|]. split; [apply feasible_b_ok; vmt|]. split; [apply moderateb; vmt|]. apply rowcut_b_no. vmt.
Qed.

(** A cut over integer columns is rounded to integer coefficients when its
    coefficients times the widths of the columns are close to integers; the
    widths say nothing about columns far from zero. *)

Definition of_m : mip :=
  Mip 5 [Row [(0%nat, 1); (1%nat, (6666669961333641 # 17453562500000000)); (2%nat, (853333648384 # 2234056279257)); (3%nat, (1666667282 # 4363390625)); (4%nat, (40000016434667282 # 104721388090171875))]
             (Some (7718476449660710874211 # 698142500000000)) (Some (7718476449660710874211 # 698142500000000))]
    (tb None [Some (-5); Some 28944271; Some 0; Some 0; Some 0]) (tb None [Some 5; Some 28944275; Some 1; Some 1; Some 1])
    (fun _ => true).
Definition of_x : point := tb 0 [(2303279336333641 # 4363390625000000); 28944271; 0; 0; 0].
Definition of_y : point := tb 0 [-1; 28944275; 0; 0; 0].
Definition of_c : gcall := call of_m of_x [true] [] false.
Definition of_binv (_ : nat) : vec := [(0%nat, 1)].
Theorem C47_far_columns_refuted : exists c binv d y,
  sane_bounds c /\ integer_bounds c /\ ranges_ok c /\
  (forall k, (k < m_ncols (g_mip c))%nat -> candidate c k = true ->
     vertex c (binv k) k /\ exact c (binv k) k /\ candidate_ready c (binv k) k) /\
  run c binv = Done ([d], []) /\ feasible (g_mip c) y /\ ~ rowcut_sat d y.
Proof.
  exists of_c, of_binv. eexists. exists of_y. split; [apply sane_bounds_b; vmt|]. split; [apply integer_bounds_b; vmt|].
  split; [discriminate|]. split.
  { intros k L Ck. split; [apply vertexb_ok|split; [apply exactb_ok|apply pureb_ok]]; revert k L Ck; apply (candidatesb of_c); vmt. }
  split; [vmt|]. split; [apply feasible_b_ok; vmt|]. apply rowcut_b_no. vmt.
Qed.

(** A cut all of whose scaled coefficients round to zero: the loop that looks
    for the first nonzero one runs past the end of its array. *)
Definition ob_m : mip :=
  Mip 2 [Row [(0%nat, 1); (1%nat, -(1 # 200000000))] (Some 0) (Some 0); Row [(1%nat, 1)] None (Some (ten 8))]
    (tb None [Some 0; None]) (tb None [Some 10; None]) (tb false [true; false]).
Definition ob_c : gcall := call ob_m (tb 0 [1 # 2; ten 8]) [true; true] [false; false] false.
Definition ob_binv (_ : nat) : vec := [(0%nat, 1); (1%nat, 1 # 200000000)].
Theorem C49_in_bounds_refuted : exists c binv,
  (forall k, (k < m_ncols (g_mip c))%nat -> candidate c k = true -> vertex c (binv k) k /\ exact c (binv k) k) /\
  run c binv = Undef OutOfBounds.
Proof.
  exists ob_c, ob_binv. split; [|vmt].
  intros k L Ck. split; [apply vertexb_ok|apply exactb_ok]; revert k L Ck; apply (candidatesb ob_c); vmt.
Qed.

(** 2 k + j + 2 w <= 4 with j in 0..5.  In a node where j >= 1 and with option
    16, "make cuts globally valid", the cut k + w <= 1 (up to a multiple of the bound on
    j) is marked; the original problem has the solution k = 2, j = w = 0. *)
Definition gl_orig : mip :=
  Mip 3 [Row [(0%nat, 2); (1%nat, 1); (2%nat, 2)] None (Some 4)]
    (fun _ => Some 0) (fun _ => Some 5) (fun _ => true).
Definition gl_node : mip :=
  Mip 3 [Row [(0%nat, 2); (1%nat, 1); (2%nat, 2)] None (Some 4)]
    (tb None [Some 0; Some 1; Some 0]) (fun _ => Some 5) (fun _ => true).
Definition gl_c : gcall := call gl_node (tb 0 [3 # 2; 1; 0]) [true] [] true.
Definition gl_binv (_ : nat) : vec := [(0%nat, 1 # 2)].
Definition gl_y : point := tb 0 [2; 0; 0].
Theorem C50_marks_refuted : exists c orig binv p,
  sane_bounds c /\ integer_bounds c /\ ranges_ok c /\
  (forall k, (k < m_ncols (g_mip c))%nat -> candidate c k = true ->
     vertex c (binv k) k /\ exact c (binv k) k /\ candidate_ready c (binv k) k) /\
  (forall y, feasible (g_mip c) y -> feasible orig y) /\
  run c binv = Done p /\ ~ global_marks_ok c orig ([], []) p.
Proof.
  exists gl_c, gl_orig, gl_binv. eexists. split; [apply sane_bounds_b; vmt|]. split; [apply integer_bounds_b; vmt|].
  split. { intros _ j L _. cbn in L. do 3 (destruct j as [|j]; [vm_compute; discriminate|]). lia. }
  split. { intros k L Ck. split; [apply vertexb_ok|split; [apply exactb_ok|apply pureb_ok]]; revert k L Ck; apply (candidatesb gl_c); vmt. }
  split.
  { intros y (A & B & Iy). split; [exact A|]. split; [|exact Iy]. intros j L. specialize (B j L). cbn in L |- *.
    do 3 (destruct j as [|j]; [cbn in B; destruct B; split; [lra|assumption]|]). lia. }
  split; [vmt|]. intro G. unfold global_marks_ok in G. cbn [fst] in G.
  specialize (G true false false 0%nat 1000%nat _ (or_introl eq_refl) (fun f => f) eq_refl gl_y).
  revert G. match goal with |- (?A -> ?B -> ?C) -> False => assert (~ C); [|assert A; [|assert B; [|tauto]]] end.
  - apply rowcut_b_no. vmt.
  - apply feasible_b_ok. vmt.
  - apply moderateb; vmt.
Qed.
(** The same call on the original bounds meets the hypotheses of the theorem
    and its cut is marked. *)
Definition gr_orig : mip :=
  Mip 3 [Row [(0%nat, 2); (1%nat, 1); (2%nat, 2)] None (Some 5)]
    (fun _ => Some 0) (fun _ => Some 5) (fun _ => true).
Definition gr_c : gcall := call gr_orig (tb 0 [5 # 2; 0; 0]) [true] [] true.
Example C50_example : exists d, run gr_c gl_binv = Done ([d], []) /\
  marked gr_c true false false 0 1000 d = true /\ feasible gr_orig gl_y /\ rowcut_sat d gl_y.
Proof.
  destruct (run gr_c gl_binv) as [p| | | |] eqn:E; try (vm_compute in E; discriminate).
  assert (V : global_marks_ok gr_c gr_orig ([], []) p).
  { apply (C50_marks_partial root (fun l => l) insert_new 0 gr_c gr_orig gl_binv ([], []) p); auto using root_pos, insert_new_ok, incl_refl.
    - apply sane_bounds_b. vmt.
    - apply integer_bounds_b. vmt.
    - intros _ j L _. cbn in L. do 3 (destruct j as [|j]; [vm_compute; discriminate|]). lia.
    - intros k L Ck. split; [apply vertexb_ok|split; [apply exactb_ok|apply pureb_ok]]; revert k L Ck; apply (candidatesb gr_c); vmt. }
  vm_compute in E. apply Done_inj in E. subst p. eexists. split; [reflexivity|]. split; [reflexivity|].
  assert (F : feasible gr_orig gl_y) by (apply feasible_b_ok; vmt). split; [exact F|].
  apply (V true false false 0%nat 1000%nat _ (or_introl eq_refl) (fun f => f) eq_refl gl_y F). apply moderateb; vmt.
Qed.

Print Assumptions C47_cuts_valid.
Print Assumptions C47_integer_data_valid.
Print Assumptions C47_bounded_integer_data_valid.
Print Assumptions C47_mixed_cut_refuted.
Print Assumptions C47_far_columns_refuted.
Print Assumptions C48_cuts_say_something.
Print Assumptions C49_finishes.
Print Assumptions C49_bounded_finishes.
Print Assumptions C49_integer_data_finishes.
Print Assumptions C49_in_bounds_refuted.
Print Assumptions C50_marks_partial.
Print Assumptions C50_marks_refuted.
