(** * Properties of CglLiftAndProject (C64 - C67) *)

From Verif Require Import Spec Base Decide Model_LiftAndProject Proofs_LiftAndProject.
From Coq Require Import Lia Lqa Arith Qabs.
Open Scope Q_scope.

(** ** What is asked of the solver of the cone program *)

(** Coefficient of a column in row [i], activity of row [i], right-hand
    side, objective. *)
Definition coef (v : vec) (i : nat) : Q := value v (fun k => if Nat.eqb k i then 1 else 0).
Fixpoint activity (cols : list (vec * Q * bool)) (w : list Q) (i : nat) : Q :=
  match cols, w with
  | (v, _, _) :: cols', a :: w' => a * coef v i + activity cols' w' i
  | _, _ => 0
  end.
Definition cone_rhs (c : cone) (i : nat) : Q := if (i <? c_n c)%nat then 0 else c_beta c.
Fixpoint objective (cols : list (vec * Q * bool)) (w : list Q) : Q :=
  match cols, w with
  | (_, q, _) :: cols', a :: w' => a * q + objective cols' w'
  | _, _ => 0
  end.
(** [w] satisfies the cone program. *)
Definition cone_sat (c : cone) (w : list Q) : Prop :=
  List.length w = List.length (c_cols c) /\
  Forall2 (fun col a => snd col = false -> 0 <= a) (c_cols c) w /\
  forall i, (i < c_n c + 2)%nat -> activity (c_cols c) w i == cone_rhs c i.
(** [w] is an optimal solution of it. *)
Definition cone_best (c : cone) (w : list Q) : Prop :=
  cone_sat c w /\ forall w', cone_sat c w' -> objective (c_cols c) w <= objective (c_cols c) w'.
Definition solver_feasible (solve : nat -> cone -> option (list Q)) : Prop :=
  forall j c w, solve j c = Some w -> cone_sat c w.
Definition solver_optimal (solve : nat -> cone -> option (list Q)) : Prop :=
  forall j c w, solve j c = Some w -> cone_best c w.
(** OsiCuts::insertIfNotDuplicate keeps the collection and may add the cut. *)
Definition ins_plain (ins : list rowcut -> rowcut -> list rowcut) : Prop :=
  forall cs d e, In e (ins cs d) -> In e cs \/ e = d.
Lemma insert_new_plain : ins_plain insert_new.
Proof. intros cs d e H. now apply insert_new_in in H. Qed.

(** A column restricted to zero and one. *)
Definition zero_one_col (m : mip) (j : nat) : Prop :=
  forall y, feasible m y -> y j == 0 \/ y j == 1.

(** *** Link to the model *)

Lemma activity_act cols : forall w i, activity cols w i = act (map (fun c => fst (fst c)) cols) w i.
Proof. induction cols as [|[[v q] f] cols IH]; intros [|a w] i; cbn; try reflexivity. rewrite IH. reflexivity. Qed.
Lemma objective_wsum cols : forall w, objective cols w = wsum w (map (fun c => snd (fst c)) cols).
Proof. induction cols as [|[[v q] f] cols IH]; intros [|a w]; cbn; try reflexivity. rewrite IH. reflexivity. Qed.
Lemma wsum_app u1 : forall l1 u2 l2, List.length u1 = List.length l1 ->
  wsum (u1 ++ u2) (l1 ++ l2) == wsum u1 l1 + wsum u2 l2.
Proof.
  induction u1 as [|a u1 IH]; intros [|b l1] u2 l2 H; try discriminate; cbn [app wsum]; [lra|].
  rewrite IH by (cbn in H; lia). lra.
Qed.
Lemma wsum_zero (l : list (vec * Q)) : forall u, wsum u (map (fun _ => 0) l) == 0.
Proof. induction l as [|b l IH]; intros [|a u]; cbn [map wsum]; try lra. rewrite IH. lra. Qed.

(** The multipliers behind a solution of the cone program. *)
Record multipliers (m : mip) (inf beta : Q) (j : nat) (u v : list Q) (v0 u0 : Q) : Prop := {
  mu_len : List.length u = List.length (m_rows m) /\ List.length v = List.length (m_rows m);
  mu_pos : (forall a, In a u -> 0 <= a) /\ (forall a, In a v -> 0 <= a);
  mu_eq : forall p, (p < m_ncols m)%nat ->
    comb u (map r_form (m_rows m)) p + (if Nat.eqb p j then u0 else 0) ==
    comb v (map r_form (m_rows m)) p + (if Nat.eqb p j then v0 else 0);
  mu_u : wsum u (map (row_lower inf) (m_rows m)) == beta;
  mu_v : wsum v (map (row_lower inf) (m_rows m)) + v0 == beta }.

Definition the_cone (inf : Q) (m : mip) (x : point) (beta : Q) (j : nat) : cone :=
  Cone (m_ncols m)
    (bcols (m_ncols m) (map (fun r => (r_form r, row_lower inf r)) (m_rows m)) x ++
     [([(j, - (1)); (S (m_ncols m), 1)], 0, true); ([(j, 1)], x j, true)]) beta.

Lemma split_w k (w : list Q) : List.length w = (k + (k + 2))%nat ->
  exists u v v0 u0, w = u ++ v ++ [v0; u0] /\ List.length u = k /\ List.length v = k.
Proof.
  intros H. exists (firstn k w), (firstn k (skipn k w)).
  assert (E : List.length (skipn k (skipn k w)) = 2%nat) by (rewrite !skipn_length; lia).
  destruct (skipn k (skipn k w)) as [|a [|b [|c l]]] eqn:D; try discriminate.
  exists a, b. rewrite <- D, !firstn_skipn. conjs; [reflexivity| |]; rewrite firstn_length; [lia|rewrite skipn_length; lia].
Qed.
Lemma mips_fst m inf : map fst (map (fun r => (r_form r, row_lower inf r)) (m_rows m)) = map r_form (m_rows m).
Proof. rewrite map_map. reflexivity. Qed.
Lemma mips_snd m inf : map snd (map (fun r => (r_form r, row_lower inf r)) (m_rows m)) = map (row_lower inf) (m_rows m).
Proof. rewrite map_map. reflexivity. Qed.

Lemma wf_indices m inf : wf_mip m -> forall p, In p (map (fun r => (r_form r, row_lower inf r)) (m_rows m)) ->
  forall i a, In (i, a) (fst p) -> (i < m_ncols m)%nat.
Proof.
  intros WF p H i a I. apply in_map_iff in H. destruct H as (r & <- & H). cbn [fst] in I.
  destruct (WF r H) as [_ W]. eapply W. exact I.
Qed.

Lemma fst_cols n rows x j : map (fun c : vec * Q * bool => fst (fst c))
   (bcols n rows x ++ [([(j, - (1)); (S n, 1)], 0, true); ([(j, 1)], x j, true)]) =
  map (ucol n) rows ++ map (vcol n) rows ++ [[(j, - (1)); (S n, 1)]; [(j, 1)]].
Proof. unfold bcols. rewrite !map_app, !map_map. cbn [map fst snd]. rewrite <- app_assoc. reflexivity. Qed.

Lemma act_total n rows u v v0 u0 j i : (forall p, In p rows -> forall k a, In (k, a) (fst p) -> (k < n)%nat) -> (j < n)%nat ->
  List.length u = List.length rows -> List.length v = List.length rows ->
  act (map (ucol n) rows ++ map (vcol n) rows ++ [[(j, - (1)); (S n, 1)]; [(j, 1)]]) (u ++ v ++ [v0; u0]) i ==
  act (map (ucol n) rows) u i + act (map (vcol n) rows) v i +
  (v0 * ((if Nat.eqb j i then - (1) else 0) + (if Nat.eqb (S n) i then 1 else 0)) + u0 * (if Nat.eqb j i then 1 else 0)).
Proof.
  intros IN J L1 L2. rewrite act_app by (rewrite map_length; assumption).
  rewrite act_app by (rewrite map_length; assumption). cbn [act].
  rewrite !entry_cons. destruct (Nat.eqb j i), (Nat.eqb (S n) i); unfold entry; cbn [value]; lra.
Qed.

Lemma forall2_app_l {A B} (R : A -> B -> Prop) l1 : forall l2 w1 w2, List.length w1 = List.length l1 ->
  Forall2 R (l1 ++ l2) (w1 ++ w2) -> Forall2 R l1 w1 /\ Forall2 R l2 w2.
Proof.
  induction l1 as [|a l1 IH]; intros l2 [|b w1] w2 H F; try discriminate; cbn [app] in F; [split; [constructor|exact F]|].
  inversion F; subst. destruct (IH l2 w1 w2) as [F1 F2]; [cbn in H; lia|assumption|]. split; [constructor; assumption|assumption].
Qed.
Lemma forall2_nonneg {A} (f : A -> vec * Q * bool) l : (forall a, snd (f a) = false) -> forall w,
  Forall2 (fun col a => snd col = false -> 0 <= a) (map f l) w -> forall a, In a w -> 0 <= a.
Proof.
  intros H w F. remember (map f l) as cols eqn:E. revert l E.
  induction F as [|c a cols w R F IH]; intros [|b l] E; try discriminate; [intros a []|].
  cbn in E. injection E as -> ->. intros a' [->|I]; [apply R; apply H|eapply IH; [reflexivity|exact I]].
Qed.

Lemma sat_multipliers inf m x beta j w : wf_mip m -> (j < m_ncols m)%nat ->
  cone_sat (the_cone inf m x beta j) w ->
  exists u v v0 u0, w = u ++ v ++ [v0; u0] /\ multipliers m inf beta j u v v0 u0.
Proof.
  intros WF J (L & NN & EQ). unfold the_cone in *. cbn [c_n c_cols c_beta] in *.
  set (n := m_ncols m) in *. set (rows := map (fun r => (r_form r, row_lower inf r)) (m_rows m)) in *.
  assert (LR : List.length rows = List.length (m_rows m)) by (unfold rows; apply map_length).
  assert (IN : forall p, In p rows -> forall i a, In (i, a) (fst p) -> (i < n)%nat) by (apply wf_indices; exact WF).
  rewrite app_length in L. unfold bcols in L at 1. rewrite app_length, !map_length in L. cbn [List.length] in L.
  destruct (split_w (List.length rows) w) as (u & v & v0 & u0 & -> & L1 & L2); [lia|].
  exists u, v, v0, u0. split; [reflexivity|].
  assert (AT : forall i, (i < n + 2)%nat ->
     act (map (ucol n) rows) u i + act (map (vcol n) rows) v i +
     (v0 * ((if Nat.eqb j i then - (1) else 0) + (if Nat.eqb (S n) i then 1 else 0)) + u0 * (if Nat.eqb j i then 1 else 0))
     == (if (i <? n)%nat then 0 else beta)).
  { intros i I. rewrite <- (act_total n rows u v v0 u0 j i IN J L1 L2). rewrite <- (fst_cols n rows x j).
    rewrite <- activity_act. exact (EQ i I). }
  unfold bcols in NN. rewrite <- app_assoc in NN.
  apply forall2_app_l in NN; [|rewrite map_length; exact L1]. destruct NN as [NU NN].
  apply forall2_app_l in NN; [|rewrite map_length; exact L2]. destruct NN as [NV _].
  constructor.
  - lia.
  - split.
    + intros a I. eapply forall2_nonneg; [|exact NU|exact I]. reflexivity.
    + intros a I. eapply forall2_nonneg; [|exact NV|exact I]. reflexivity.
  - intros p P. specialize (AT p ltac:(lia)).
    rewrite (act_u_low n rows IN p P), (act_v_low n rows IN p P) in AT.
    unfold rows in AT. rewrite mips_fst in AT.
    destruct (Nat.ltb_spec p n) as [_|?]; [|exfalso; unfold n in *; lia].
    destruct (Nat.eqb_spec (S n) p) as [?|_]; [exfalso; unfold n in *; lia|].
    destruct (Nat.eqb_spec j p) as [JP|JP], (Nat.eqb_spec p j) as [PJ|PJ]; try (exfalso; congruence); lra.
  - specialize (AT n ltac:(lia)). rewrite (act_u_n n rows IN), (act_v_n n rows IN) in AT.
    unfold rows in AT. rewrite mips_snd in AT.
    destruct (Nat.ltb_spec n n) as [?|_]; [lia|].
    destruct (Nat.eqb_spec (S n) n) as [?|_]; [lia|]. destruct (Nat.eqb_spec j n) as [?|_]; [lia|]. lra.
  - specialize (AT (S n) ltac:(lia)). rewrite (act_u_Sn n rows IN), (act_v_Sn n rows IN) in AT.
    unfold rows in AT. rewrite mips_snd in AT.
    destruct (Nat.ltb_spec (S n) n) as [?|_]; [lia|].
    rewrite Nat.eqb_refl in AT. destruct (Nat.eqb_spec j (S n)) as [?|_]; [lia|]. lra.
Qed.

Lemma multipliers_sat inf m x beta j u v v0 u0 : wf_mip m -> (j < m_ncols m)%nat ->
  multipliers m inf beta j u v v0 u0 -> cone_sat (the_cone inf m x beta j) (u ++ v ++ [v0; u0]).
Proof.
  intros WF J [[L1 L2] [PU PV] EQ MU MV]. unfold the_cone, cone_sat. cbn [c_n c_cols c_beta].
  set (n := m_ncols m) in *. set (rows := map (fun r => (r_form r, row_lower inf r)) (m_rows m)) in *.
  assert (LR : List.length rows = List.length (m_rows m)) by (unfold rows; apply map_length).
  assert (IN : forall p, In p rows -> forall i a, In (i, a) (fst p) -> (i < n)%nat) by (apply wf_indices; exact WF).
  conjs.
  - unfold bcols. rewrite !app_length, !map_length. cbn [List.length]. lia.
  - unfold bcols. rewrite <- app_assoc.
    assert (F : forall (f : vec * Q -> vec * Q * bool) w, List.length w = List.length rows -> (forall a, In a w -> 0 <= a) ->
       Forall2 (fun col a => snd col = false -> 0 <= a) (map f rows) w).
    { intros f w. clear. revert w. induction rows as [|p l IH]; intros [|a w] H P; try discriminate; constructor.
      - intros _. apply P. left. reflexivity.
      - apply IH; [cbn in H; lia|intros; apply P; right; assumption]. }
    apply Forall2_app; [apply F; [lia|exact PU]|].
    apply Forall2_app; [apply F; [lia|exact PV]|].
    repeat constructor; discriminate.
  - intros i I. rewrite activity_act. rewrite fst_cols.
    rewrite (act_total n rows u v v0 u0 j i IN J (eq_trans L1 (eq_sym LR)) (eq_trans L2 (eq_sym LR))).
    unfold cone_rhs. cbn [c_n c_beta].
    assert (C : (i < n \/ i = n \/ i = S n)%nat) by lia. destruct C as [C|[->|C]].
    + rewrite (act_u_low n rows IN i C), (act_v_low n rows IN i C). specialize (EQ i C).
      unfold rows. rewrite mips_fst.
      destruct (Nat.ltb_spec i n) as [_|?]; [|exfalso; unfold n in *; lia].
      destruct (Nat.eqb_spec (S n) i) as [?|_]; [exfalso; unfold n in *; lia|].
      destruct (Nat.eqb_spec j i) as [JP|JP], (Nat.eqb_spec i j) as [PJ|PJ]; try (exfalso; congruence); lra.
    + rewrite (act_u_n n rows IN), (act_v_n n rows IN). unfold rows. rewrite mips_snd.
      destruct (Nat.ltb_spec n n) as [?|_]; [lia|].
      destruct (Nat.eqb_spec (S n) n) as [?|_]; [lia|]. destruct (Nat.eqb_spec j n) as [?|_]; [lia|]. lra.
    + rewrite C. rewrite (act_u_Sn n rows IN), (act_v_Sn n rows IN). unfold rows. rewrite mips_snd.
      destruct (Nat.ltb_spec (S n) n) as [?|_]; [lia|].
      rewrite Nat.eqb_refl. destruct (Nat.eqb_spec j (S n)) as [?|_]; [lia|]. lra.
Qed.

(** The cut in terms of the multipliers. *)
Lemma alpha_eq m j u v v0 u0 p : List.length u = List.length (m_rows m) ->
  comb (firstn (List.length (map r_form (m_rows m))) (u ++ v ++ [v0; u0])) (map r_form (m_rows m)) p +
  (if Nat.eqb p j then last (u ++ v ++ [v0; u0]) 0 else 0) ==
  comb u (map r_form (m_rows m)) p + (if Nat.eqb p j then u0 else 0).
Proof.
  intros L. rewrite map_length, <- L. rewrite firstn_app, Nat.sub_diag, firstn_all, firstn_O, app_nil_r.
  replace (last (u ++ v ++ [v0; u0]) 0) with u0; [reflexivity|].
  rewrite app_assoc. change [v0; u0] with ([v0] ++ [u0]). rewrite app_assoc, last_last. reflexivity.
Qed.
Lemma sum_j n j y c : (j < n)%nat -> sumf (fun p => if Nat.eqb p j then c else 0) n y == c * y j.
Proof.
  intros J. unfold sumf. rewrite (sum_ext _ (fun p => c * (if Nat.eqb j p then 1 else 0))).
  - rewrite sum_scale, sum_ind; [reflexivity|apply seq_NoDup|apply in_seq; lia].
  - intros p _. rewrite Nat.eqb_sym. destruct (Nat.eqb j p); lra.
Qed.
Lemma rows_in m : wf_mip m -> forall v, In v (map r_form (m_rows m)) -> forall i a, In (i, a) v -> (i < m_ncols m)%nat.
Proof.
  intros WF v H i a I. apply in_map_iff in H. destruct H as (r & <- & H). destruct (WF r H) as [_ W].
  eapply W. exact I.
Qed.
Lemma sumf_add f g n y : sumf (fun p => f p + g p) n y == sumf f n y + sumf g n y.
Proof. unfold sumf. apply sum_add. Qed.

Lemma alpha_value m j u v v0 u0 y : wf_mip m -> (j < m_ncols m)%nat -> List.length u = List.length (m_rows m) ->
  value (alpha (m_ncols m) (map r_form (m_rows m)) j (u ++ v ++ [v0; u0])) y ==
  wsum u (map (fun r => value (r_form r) y) (m_rows m)) + u0 * y j.
Proof.
  intros WF J L. unfold alpha.
  rewrite (sum_ext _ (fun p => comb u (map r_form (m_rows m)) p + (if Nat.eqb p j then u0 else 0)))
    by (intros p _; apply alpha_eq; exact L).
  change (sumf (fun p => comb u (map r_form (m_rows m)) p + (if Nat.eqb p j then u0 else 0)) (m_ncols m) y ==
    wsum u (map (fun r => value (r_form r) y) (m_rows m)) + u0 * y j).
  rewrite sumf_add, sum_comb by (apply rows_in; exact WF).
  rewrite sum_j by exact J. rewrite map_map. reflexivity.
Qed.

Lemma lap_valid inf m x beta j w : wf_mip m -> (j < m_ncols m)%nat ->
  (forall r y, In r (m_rows m) -> r_lo r = None -> feasible m y -> - inf <= value (r_form r) y) ->
  zero_one_col m j -> cone_sat (the_cone inf m x beta j) w ->
  keeps_all m (lap_cut (m_ncols m) (map r_form (m_rows m)) beta j w).
Proof.
  intros WF J LO B CS y FY. destruct (sat_multipliers inf m x beta j w WF J CS) as (u & v & v0 & u0 & -> & MU).
  destruct MU as [[L1 L2] [PU PV] EQ MU MV].
  unfold lap_cut, rowcut_sat. cbn [rc_form rc_lb rc_ub ge_opt_lo le_opt_hi]. split; [|exact Logic.I].
  rewrite alpha_value by assumption.
  assert (F2 : Forall2 Qle (map (row_lower inf) (m_rows m)) (map (fun r => value (r_form r) y) (m_rows m))).
  { pose proof FY as (FR & _). assert (IC : incl (m_rows m) (m_rows m)) by (intros r R; exact R). revert IC.
    generalize (m_rows m) at 1 3 4. induction l as [|r l IH]; intros IC; constructor.
    - assert (R : In r (m_rows m)) by (apply IC; left; reflexivity). unfold row_lower.
      destruct (r_lo r) as [q|] eqn:RL; [|apply LO; assumption].
      destruct (FR r R) as [G _]. rewrite RL in G. exact G.
    - apply IH. intros r' R'. apply IC. right. exact R'. }
  pose proof (wsum_le u _ _ PU F2) as WU. pose proof (wsum_le v _ _ PV F2) as WV.
  assert (S : wsum u (map (fun r => value (r_form r) y) (m_rows m)) + u0 * y j ==
              wsum v (map (fun r => value (r_form r) y) (m_rows m)) + v0 * y j).
  { assert (T : sumf (fun p => comb u (map r_form (m_rows m)) p + (if Nat.eqb p j then u0 else 0)) (m_ncols m) y ==
                sumf (fun p => comb v (map r_form (m_rows m)) p + (if Nat.eqb p j then v0 else 0)) (m_ncols m) y).
    { unfold sumf. apply sum_ext. intros p P. apply EQ. apply in_seq in P. lia. }
    rewrite !sumf_add, !sum_comb, !sum_j in T by (try assumption; apply rows_in; exact WF).
    rewrite !map_map in T. exact T. }
  destruct (B y FY) as [Y|Y].
  - rewrite Y. lra.
  - rewrite S, Y. lra.
Qed.

Lemma rel_eq_true a b : a == b -> rel_eq a b = true.
Proof.
  intros H. unfold rel_eq. apply Qle_bool_iff.
  assert (Z : Qabs (a - b) == 0) by (setoid_replace (a - b) with 0 by lra; reflexivity). rewrite Z.
  pose proof (Qabs_nonneg a). pose proof (Qabs_nonneg b). destruct (Qle_bool _ _); nra.
Qed.

(** ** C64: validity *)

(** Every cut added is satisfied by every feasible point, when the matrix has
    no gaps, rows without a lower bound stay above minus infinity of the
    solver, and the columns the loop may use are restricted to zero and one:
    all fractional ones, or none because the column whose type is looked at
    is not binary. *)
Theorem C64_valid : forall solve ins inf m gaps x beta cs cs',
  wf_mip m -> no_gaps gaps -> solver_feasible solve -> ins_plain ins ->
  (forall r y, In r (m_rows m) -> r_lo r = None -> feasible m y -> - inf <= value (r_form r) y) ->
  (forall j, (j < m_ncols m)%nat -> x j == 0 \/ x j == 1 \/ zero_one_col m j) ->
  generateCuts solve ins inf m gaps x beta cs = Done cs' ->
  forall c, In c cs' -> In c cs \/ keeps_all m c.
Proof.
  intros solve ins inf m gaps x beta cs cs' WF G SF IP LO B E. rewrite generate_eq in E by exact G.
  destruct (_ =? 0)%nat; [discriminate|].
  set (js := seq 0 (m_ncols m)) in E.
  assert (IJ : forall j, In j js -> (j < m_ncols m)%nat) by (intros j I; apply in_seq in I; lia).
  clearbody js. revert cs E. induction js as [|j js IH]; intros cs E c C; cbn [ofold] in E.
  - apply Done_inj in E. subst. left. exact C.
  - apply bind_done in E. destruct E as (cs1 & E1 & E2).
    destruct (IH (fun j' I => IJ j' (or_intror I)) cs1 E2 c C) as [H|H]; [|right; exact H].
    unfold lap_step in E1. cbv zeta in E1.
    destruct (_ <=? _)%nat; [discriminate|]. destruct (negb _); [apply Done_inj in E1; subst; left; exact H|].
    destruct (rel_eq (x j) 0 || rel_eq (x j) 1) eqn:RE; [apply Done_inj in E1; subst; left; exact H|].
    destruct (solve _ _) as [w|] eqn:SO; [|apply Done_inj in E1; subst; left; exact H].
    apply Done_inj in E1. subst cs1. destruct (IP _ _ _ H) as [H1| ->]; [left; exact H1|right].
    assert (J : (j < m_ncols m)%nat) by (apply IJ; left; reflexivity).
    eapply lap_valid with (x := x); try eassumption.
    + destruct (B j J) as [X|[X|X]]; [| |exact X]; exfalso.
      * rewrite (rel_eq_true _ _ X) in RE. discriminate.
      * rewrite (rel_eq_true _ _ X), orb_true_r in RE. discriminate.
    + apply SF in SO. exact SO.
Qed.
Print Assumptions C64_valid.

(** *** A solver for the examples: a given vector, returned when it and a dual
    solution prove it optimal *)
Fixpoint nonneg_b (cols : list (vec * Q * bool)) (w : list Q) : bool :=
  match cols, w with
  | [], [] => true
  | (_, _, f) :: cols', a :: w' => (f || Qle_bool 0 a) && nonneg_b cols' w'
  | _, _ => false
  end.
Definition sat_b (c : cone) (w : list Q) : bool :=
  nonneg_b (c_cols c) w &&
  forallb (fun i => Qeq_bool (activity (c_cols c) w i) (cone_rhs c i)) (seq 0 (c_n c + 2)).
Lemma nonneg_b_ok cols : forall w, nonneg_b cols w = true ->
  List.length w = List.length cols /\ Forall2 (fun col a => snd col = false -> 0 <= a) cols w.
Proof.
  induction cols as [|[[v q] f] cols IH]; intros [|a w] H; try discriminate; [split; [reflexivity|constructor]|].
  cbn [nonneg_b] in H. apply andb_true_iff in H. destruct H as [H1 H2]. destruct (IH w H2) as [L F].
  split; [cbn; lia|]. constructor; [|exact F]. cbn [snd]. intros ->. apply Qle_bool_iff. exact H1.
Qed.
Lemma sat_b_ok c w : sat_b c w = true -> cone_sat c w.
Proof.
  unfold sat_b. intros H. apply andb_true_iff in H. destruct H as [H1 H2]. destruct (nonneg_b_ok _ _ H1) as [L F].
  unfold cone_sat. conjs; try assumption. intros i I. rewrite forallb_forall in H2. apply Qeq_bool_iff. apply H2.
  apply in_seq. lia.
Qed.
Definition dual_b (c : cone) (y : list Q) : bool :=
  forallb (fun col => let z := value (fst (fst col)) (fun i => nth i y 0) in
             forallb (fun p => fst p <? c_n c + 2)%nat (fst (fst col)) &&
             (if (snd col : bool) then Qeq_bool z (snd (fst col)) else Qle_bool z (snd (fst col)))) (c_cols c).
Definition dual_value (c : cone) (y : list Q) : Q := sumf (cone_rhs c) (c_n c + 2) (fun i => nth i y 0).
Lemma act_comb cols : forall w i, act cols w i = comb w cols i.
Proof. induction cols as [|c cols IH]; intros [|a w] i; cbn; try reflexivity. rewrite IH. reflexivity. Qed.
Lemma weak_dual c w y : dual_b c y = true -> cone_sat c w -> dual_value c y <= objective (c_cols c) w.
Proof.
  intros D (L & F & E). unfold dual_value.
  assert (IN : forall v, In v (map (fun q : vec * Q * bool => fst (fst q)) (c_cols c)) ->
     forall i a, In (i, a) v -> (i < c_n c + 2)%nat).
  { intros v V i a IA. apply in_map_iff in V. destruct V as (q & <- & V). unfold dual_b in D.
    rewrite forallb_forall in D. specialize (D q V). apply andb_true_iff in D. destruct D as [D _].
    rewrite forallb_forall in D. specialize (D _ IA). apply Nat.ltb_lt in D. exact D. }
  assert (S1 : sumf (cone_rhs c) (c_n c + 2) (fun i => nth i y 0) ==
     wsum w (map (fun v => value v (fun i => nth i y 0)) (map (fun q => fst (fst q)) (c_cols c)))).
  { rewrite <- (sum_comb (c_n c + 2)) by exact IN. unfold sumf. apply sum_ext. intros p P.
    rewrite <- act_comb, <- activity_act. symmetry. apply E. apply in_seq in P. lia. }
  rewrite S1. unfold dual_b in D. clear S1 E IN. revert D w L F.
  induction (c_cols c) as [|[[v q] f] cols IH]; intros D [|a w] L F; try discriminate; cbn [map wsum objective fst snd].
  cbn [forallb fst snd] in D. apply andb_true_iff in D. destruct D as [D1 D2]. apply andb_true_iff in D1. destruct D1 as [_ D1].
  inversion F as [|? ? ? ? F1 F2]; subst. assert (I2 := IH D2 w ltac:(cbn in L; lia) F2). cbn [snd] in F1.
  destruct f.
  - apply Qeq_bool_iff in D1. rewrite D1. lra.
  - apply Qle_bool_iff in D1. specialize (F1 eq_refl). nra.
Qed.
Definition certified (ans : nat -> option (list Q * list Q)) (j : nat) (c : cone) : option (list Q) :=
  match ans j with
  | Some (w, y) => if sat_b c w && dual_b c y && Qeq_bool (dual_value c y) (objective (c_cols c) w) then Some w else None
  | None => None
  end.
Lemma certified_optimal ans : solver_optimal (certified ans).
Proof.
  intros j c w H. unfold certified in H. destruct (ans j) as [[w' y]|]; [|discriminate].
  destruct (_ && _ && _) eqn:T; [|discriminate]. apply Some_inj in H. subst w'.
  apply andb_true_iff in T. destruct T as [T T3]. apply andb_true_iff in T. destruct T as [T1 T2].
  apply Qeq_bool_iff in T3. split; [apply sat_b_ok; exact T1|].
  intros w' W'. pose proof (weak_dual c w' y T2 W'). lra.
Qed.
Lemma optimal_feasible solve : solver_optimal solve -> solver_feasible solve.
Proof. intros H j c w E. destruct (H j c w E) as [S _]. exact S. Qed.

Definition zero : nat -> option Q := fun _ => Some 0.
Definition one : nat -> option Q := fun _ => Some 1.

(** 2 x0 >= 1 over two binaries at (1/2, 0): the cut is x0 >= 1. *)
Definition half : mip := Mip 2 [Row [(0%nat, 2)] (Some 1) None] zero one (fun _ => true).
Definition half_x : point := fun j => if (j =? 0)%nat then 1 # 2 else 0.
Definition half_ans (j : nat) : option (list Q * list Q) :=
  if (j =? 0)%nat then Some ([1; 0; 1; - (1)], [1 # 2; 0; 0; 1 # 2]) else None.
Example half_run : generateCuts (certified half_ans) insert_new (10 ^ 100) half [] half_x 1 [] =
  Done [RowCut [(0%nat, 1); (1%nat, 0)] (Some 1) None].
Proof. vm_compute. reflexivity. Qed.
Example half_cols : forall j, (j < 2)%nat -> zero_one_col half j.
Proof.
  intros j J y (_ & B & I). assert (J' : (j < m_ncols half)%nat) by exact J.
  destruct (B j J') as [B1 B2]. destruct (I j J' eq_refl) as [z Z]. cbn in B1, B2.
  rewrite Z in B1, B2. change 0 with (inject_Z 0) in B1. change 1 with (inject_Z 1) in B2.
  rewrite <- Zle_Qle in B1, B2. assert (C : (z = 0 \/ z = 1)%Z) by lia.
  destruct C as [-> | ->]; [left|right]; exact Z.
Qed.
Example half_hyps : wf_mip half /\ no_gaps [] /\
  (forall r y, In r (m_rows half) -> r_lo r = None -> feasible half y -> - (10 ^ 100) <= value (r_form r) y).
Proof.
  conjs.
  - apply wfb_ok. vm_compute. reflexivity.
  - intros g [].
  - intros r y [<-|[]] H. discriminate.
Qed.

(** *** The type of the wrong column is looked at *)

(** Column 0 is continuous, column 1 binary: the cut x0 >= 1 removes the
    feasible point x0 = 1/2. *)
Theorem C64_continuous_column_refuted : exists solve m gaps x cs' c y,
  wf_mip m /\ no_gaps gaps /\ solver_optimal solve /\ (forall r, In r (m_rows m) -> r_lo r <> None) /\
  generateCuts solve insert_new (10 ^ 100) m gaps x 1 [] = Done cs' /\ In c cs' /\
  feasible m y /\ ~ rowcut_sat c y.
Proof.
  exists (certified half_ans), (Mip 2 [Row [(0%nat, 2)] (Some 1) None] zero one (fun j => (j =? 1)%nat)), [], half_x.
  exists [RowCut [(0%nat, 1); (1%nat, 0)] (Some 1) None], (RowCut [(0%nat, 1); (1%nat, 0)] (Some 1) None), half_x. conjs.
  - apply wfb_ok. vm_compute. reflexivity.
  - intros g [].
  - apply certified_optimal.
  - intros r [<-|[]]. discriminate.
  - vm_compute. reflexivity.
  - left. reflexivity.
  - apply feasible_b_ok. vm_compute. reflexivity.
  - apply rowcut_b_no. vm_compute. reflexivity.
Qed.
Print Assumptions C64_continuous_column_refuted.

(** ** C65: no undefined behaviour only if there are fewer rows than columns *)

Theorem C65_returns : forall solve ins inf m gaps x beta cs,
  no_gaps gaps -> (1 <= List.length (m_rows m))%nat ->
  (List.length (m_rows m) < m_ncols m)%nat ->
  exists cs', generateCuts solve ins inf m gaps x beta cs = Done cs'.
Proof.
  intros solve ins inf m gaps x beta cs G L1 L2. rewrite generate_eq by exact G.
  destruct (Nat.eqb_spec (List.length (m_rows m)) 0); [lia|].
  generalize (seq 0 (m_ncols m)). intros js. revert cs.
  induction js as [|j js IH]; intros cs; cbn [ofold]; [eexists; reflexivity|].
  unfold lap_step at 1. cbv zeta. rewrite map_length.
  destruct (Nat.leb_spec (m_ncols m) (List.length (m_rows m))); [lia|].
  destruct (negb _); [apply IH|]. destruct (_ || _); [apply IH|].
  destruct (solve _ _); cbn [bind]; apply IH.
Qed.
Print Assumptions C65_returns.
Example C65_example : (1 <= List.length (m_rows half))%nat /\ (List.length (m_rows half) < m_ncols half)%nat.
Proof. cbn. lia. Qed.

(** In the canonical form the comments ask for, where every binary column has
    two rows for its bounds, there are at least as many rows as columns, and
    then the call always reads past the end of the array of column types. *)
Theorem C65_canonical_refuted : forall solve ins inf m gaps x beta cs,
  no_gaps gaps -> (1 <= m_ncols m <= List.length (m_rows m))%nat ->
  generateCuts solve ins inf m gaps x beta cs = Undef OutOfBounds.
Proof.
  intros solve ins inf m gaps x beta cs G L. rewrite generate_eq by exact G.
  destruct (Nat.eqb_spec (List.length (m_rows m)) 0); [lia|].
  destruct (m_ncols m) as [|nc] eqn:N; [lia|]. cbn [seq ofold]. unfold lap_step at 1. cbv zeta. rewrite N, map_length.
  destruct (Nat.leb_spec (S nc) (List.length (m_rows m))); [reflexivity|lia].
Qed.
Print Assumptions C65_canonical_refuted.

(** A matrix with gaps: the first column of B is right, the second starts at
    a place never written. *)
Theorem C65_gaps_refuted : exists m gaps, wf_mip m /\ forall solve ins inf x beta cs,
  generateCuts solve ins inf m gaps x beta cs = Undef Uninitialised.
Proof.
  exists (Mip 3 [Row [(0%nat, 2)] (Some 1) None; Row [(0%nat, 2)] (Some 1) None] zero one (fun _ => true)), [3%nat]. split.
  - apply wfb_ok. vm_compute. reflexivity.
  - intros. reflexivity.
Qed.
Print Assumptions C65_gaps_refuted.

(** No rows: BStarts[-1] is read. *)
Theorem C65_no_rows_refuted : forall solve ins inf n clo chi int gaps x beta cs,
  generateCuts solve ins inf (Mip n [] clo chi int) gaps x beta cs = Undef OutOfBounds.
Proof. intros. reflexivity. Qed.
Print Assumptions C65_no_rows_refuted.

(** ** C66: the cut is a deepest one *)

(** A cut for column [j]: coefficients that both sides of the disjunction
    x_j <= 0 or x_j >= 1 give with nonnegative multipliers of the rows. *)
Definition row_entry (r : row) (p : nat) : Q := coef (r_form r) p.
Fixpoint weigh (u : list Q) (f : row -> Q) (rows : list row) : Q :=
  match u, rows with a :: u', r :: rows' => a * f r + weigh u' f rows' | _, _ => 0 end.
Definition disjunctive (m : mip) (beta : Q) (j : nat) (a : nat -> Q) : Prop :=
  exists u v u0 v0,
    List.length u = List.length (m_rows m) /\ List.length v = List.length (m_rows m) /\
    (forall q, In q u -> 0 <= q) /\ (forall q, In q v -> 0 <= q) /\
    (forall p, (p < m_ncols m)%nat ->
       a p == weigh u (fun r => row_entry r p) (m_rows m) + (if Nat.eqb p j then u0 else 0) /\
       a p == weigh v (fun r => row_entry r p) (m_rows m) + (if Nat.eqb p j then v0 else 0)) /\
    weigh u (fun r => match r_lo r with Some q => q | None => 0 end) (m_rows m) == beta /\
    weigh v (fun r => match r_lo r with Some q => q | None => 0 end) (m_rows m) + v0 == beta.

Lemma weigh_comb rows p : forall u, weigh u (fun r => row_entry r p) rows = comb u (map r_form rows) p.
Proof. induction rows as [|r rows IH]; intros [|a u]; cbn; try reflexivity. rewrite IH. reflexivity. Qed.
Lemma weigh_lower inf rows : (forall r, In r rows -> r_lo r <> None) -> forall u,
  weigh u (fun r => match r_lo r with Some q => q | None => 0 end) rows = wsum u (map (row_lower inf) rows).
Proof.
  induction rows as [|r rows IH]; intros H [|a u]; cbn [weigh map wsum]; try reflexivity.
  rewrite IH by (intros; apply H; right; assumption). unfold row_lower.
  specialize (H r (or_introl eq_refl)). destruct (r_lo r); [reflexivity|contradiction H; reflexivity].
Qed.
Lemma obj_alpha inf m x beta j u v v0 u0 : List.length u = List.length (m_rows m) -> List.length v = List.length (m_rows m) ->
  objective (c_cols (the_cone inf m x beta j)) (u ++ v ++ [v0; u0]) ==
  wsum u (map (fun r => value (r_form r) x) (m_rows m)) + u0 * x j.
Proof.
  intros L1 L2. rewrite objective_wsum. unfold the_cone. cbn [c_cols]. unfold bcols.
  rewrite !map_app, !map_map. cbn [map fst snd]. rewrite <- app_assoc.
  rewrite wsum_app by (rewrite map_length; exact L1).
  rewrite wsum_app by (rewrite map_length; exact L2).
  assert (Z : forall w, wsum w (map (fun _ : row => 0) (m_rows m)) == 0).
  { clear. induction (m_rows m) as [|b l IH]; intros [|a u]; cbn [map wsum]; try lra. rewrite IH. lra. }
  rewrite Z. cbn [wsum]. lra.
Qed.

(** When the solver of the cone program is right about optimality, each new
    cut is violated at least as much as any cut of the same kind and
    right-hand side for the same column. *)
Theorem C66_deepest : forall solve ins inf m gaps x beta cs cs',
  wf_mip m -> no_gaps gaps -> solver_optimal solve -> ins_plain ins ->
  (forall r, In r (m_rows m) -> r_lo r <> None) ->
  generateCuts solve ins inf m gaps x beta cs = Done cs' ->
  forall c, In c cs' -> In c cs \/
    exists j, (j < m_ncols m)%nat /\ rc_lb c = Some beta /\ rc_ub c = None /\
      forall a, disjunctive m beta j a ->
        value (rc_form c) x <= value (map (fun p => (p, a p)) (seq 0 (m_ncols m))) x.
Proof.
  intros solve ins inf m gaps x beta cs cs' WF G SF IP LO E. rewrite generate_eq in E by exact G.
  destruct (_ =? 0)%nat; [discriminate|].
  set (js := seq 0 (m_ncols m)) in E.
  assert (IJ : forall j, In j js -> (j < m_ncols m)%nat) by (intros j I; apply in_seq in I; lia).
  clearbody js. revert cs E. induction js as [|j js IH]; intros cs E c C; cbn [ofold] in E.
  - apply Done_inj in E. subst. left. exact C.
  - apply bind_done in E. destruct E as (cs1 & E1 & E2).
    destruct (IH (fun j' I => IJ j' (or_intror I)) cs1 E2 c C) as [H|H]; [|right; exact H].
    unfold lap_step in E1. cbv zeta in E1.
    destruct (_ <=? _)%nat; [discriminate|]. destruct (negb _); [apply Done_inj in E1; subst; left; exact H|].
    destruct (rel_eq (x j) 0 || rel_eq (x j) 1) eqn:RE; [apply Done_inj in E1; subst; left; exact H|].
    destruct (solve _ _) as [w|] eqn:SO; [|apply Done_inj in E1; subst; left; exact H].
    apply Done_inj in E1. subst cs1. destruct (IP _ _ _ H) as [H1| ->]; [left; exact H1|right].
    assert (J : (j < m_ncols m)%nat) by (apply IJ; left; reflexivity).
    exists j. conjs; try assumption; try reflexivity.
    intros a (u & v & u0 & v0 & L1 & L2 & PU & PV & EQ & B1 & B2).
    apply SF in SO. destruct SO as [CS OPT].
    destruct (sat_multipliers inf m x beta j w WF J CS) as (u' & v' & v0' & u0' & -> & MU').
    assert (MU : multipliers m inf beta j u v v0 u0).
    { constructor.
      - split; assumption.
      - split; assumption.
      - intros p P. destruct (EQ p P) as [Q1 Q2]. rewrite !weigh_comb in *. lra.
      - rewrite <- weigh_lower by exact LO. exact B1.
      - rewrite <- weigh_lower by exact LO. exact B2. }
    specialize (OPT _ (multipliers_sat inf m x beta j u v v0 u0 WF J MU)).
    destruct MU' as [[L1' L2'] _ _ _ _].
    unfold the_cone in OPT, CS. 
    pose proof (obj_alpha inf m x beta j u v v0 u0 L1 L2) as O1.
    pose proof (obj_alpha inf m x beta j u' v' v0' u0' L1' L2') as O2.
    unfold the_cone in O1, O2. rewrite O1, O2 in OPT.
    unfold lap_cut. cbn [rc_form]. rewrite alpha_value by assumption.
    assert (A : value (map (fun p => (p, a p)) (seq 0 (m_ncols m))) x ==
       wsum u (map (fun r => value (r_form r) x) (m_rows m)) + u0 * x j).
    { rewrite (sum_ext _ (fun p => comb u (map r_form (m_rows m)) p + (if Nat.eqb p j then u0 else 0))).
      - change (sumf (fun p => comb u (map r_form (m_rows m)) p + (if Nat.eqb p j then u0 else 0)) (m_ncols m) x ==
          wsum u (map (fun r => value (r_form r) x) (m_rows m)) + u0 * x j).
        rewrite sumf_add, sum_comb by (apply rows_in; exact WF). rewrite sum_j by exact J. rewrite map_map. reflexivity.
      - intros p P. apply in_seq in P. destruct (EQ p ltac:(lia)) as [Q1 _]. rewrite weigh_comb in Q1. exact Q1. }
    rewrite A. exact OPT.
Qed.
Print Assumptions C66_deepest.
Example C66_example : disjunctive half 1 0 (fun p => if (p =? 0)%nat then 2 else 0).
Proof.
  exists [1], [1], 0, 0. conjs; try reflexivity.
  - intros q [<-|[]]. lra.
  - intros q [<-|[]]. lra.
  - intros p P. cbn in P. destruct p as [|[|p]]; [split; reflexivity|split; reflexivity|lia].
Qed.

(** A cut is added even if the solution satisfies it. *)
Theorem C66_violated_refuted : exists solve m gaps x cs' c,
  wf_mip m /\ no_gaps gaps /\ solver_optimal solve /\ (forall r, In r (m_rows m) -> r_lo r <> None) /\
  (forall r, In r (m_rows m) -> row_sat r x) /\ in_bounds m x /\
  generateCuts solve insert_new (10 ^ 100) m gaps x 1 [] = Done cs' /\ In c cs' /\ rowcut_sat c x.
Proof.
  exists (certified (fun j => if (j =? 0)%nat then Some ([1; 1; 0; 0], [1 # 2; - (1 # 4); 0; 3 # 2; 1 # 2]) else None)).
  exists (Mip 3 [Row [(0%nat, 2); (1%nat, 2)] (Some (1)) None] zero one (fun _ => true)), [].
  exists (fun j => if (j <? 2)%nat then 1 # 2 else 0). eexists. eexists. conjs.
  - apply wfb_ok. vm_compute. reflexivity.
  - intros g [].
  - apply certified_optimal.
  - intros r [<-|[]]. discriminate.
  - intros r [<-|[]]. split; vm_compute; [discriminate|exact Logic.I].
  - apply bounds_b_ok. vm_compute. reflexivity.
  - vm_compute. reflexivity.
  - left. reflexivity.
  - apply rowcut_b_ok. vm_compute. reflexivity.
Qed.
Print Assumptions C66_violated_refuted.

(** ** C67: the normalization *)

(** A history of setBeta calls; a refused value throws and changes nothing. *)
Definition call_beta (beta : Q) (b : Z) : Q := match setBeta b beta with Done q => q | _ => beta end.
Definition last_good (l : list Z) : Q :=
  match filter (fun b => (b =? 1)%Z || (b =? -1)%Z) (rev l) with [] => 1 | b :: _ => inject_Z b end.
Theorem C67_beta : forall l b,
  fold_left call_beta l new_beta = last_good l /\
  (fold_left call_beta l new_beta == 1 \/ fold_left call_beta l new_beta == - (1)) /\
  (setBeta b (fold_left call_beta l new_beta) = Throws <-> (b <> 1 /\ b <> -1)%Z).
Proof.
  intros l b.
  assert (E : forall l, fold_left call_beta l new_beta = last_good l).
  { intros k. induction k as [|z k IH] using rev_ind; [reflexivity|].
    rewrite fold_left_app, IH. cbn [fold_left]. unfold last_good. rewrite rev_unit. cbn [filter].
    unfold call_beta, setBeta. destruct ((z =? 1)%Z || (z =? -1)%Z); reflexivity. }
  conjs.
  - apply E.
  - rewrite E. unfold last_good. destruct (filter _ (rev l)) as [|z f] eqn:F; [left; reflexivity|].
    assert (I : In z (filter (fun b => (b =? 1)%Z || (b =? -1)%Z) (rev l))) by (rewrite F; left; reflexivity).
    apply filter_In in I. destruct I as [_ I]. apply orb_true_iff in I. destruct I as [I|I]; apply Z.eqb_eq in I; subst z; [left|right]; reflexivity.
  - unfold setBeta. destruct (Z.eqb_spec b 1), (Z.eqb_spec b (-1)); cbn [orb]; split; intros H; try discriminate; try lia; try tauto.
Qed.
Print Assumptions C67_beta.
Example C67_example : fold_left call_beta [-1; 5; 0]%Z new_beta = inject_Z (-1).
Proof. reflexivity. Qed.
