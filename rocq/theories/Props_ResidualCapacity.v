(** * Properties of CglResidualCapacity: C15, C16, C39 *)

From Coq Require Import Qabs.
From Verif Require Import Base Model_ResidualCapacity Proofs_ResidualCapacity.
Local Open Scope Q_scope.

(** ** Specification *)
(** The data of the linear form is not below the tolerance [e]: coefficients,
    differences of coefficients of integer columns, negative lower bounds and
    coefficients times upper bounds are zero or larger than [e]. *)
Definition clear_of (e q : Q) : Prop := q == 0 \/ e < Qabs q.
Definition clean_form (e : Q) (m : mip) (v : vec) : Prop :=
  (forall j a, In (j, a) v ->
     clear_of e a /\
     match m_clo m j with Some l => 0 <= l \/ l < - e | None => True end /\
     match m_chi m j with Some u => clear_of e (a * u) | None => True end) /\
  (forall j a k b, In (j, a) v -> In (k, b) v ->
     m_int m j = true -> m_int m k = true -> clear_of e (a - b)).
Definition clean (e : Q) (m : mip) : Prop := forall r, In r (m_rows m) -> clean_form e m (r_form r).

(** [m] is [root] with the same or tighter column bounds, as in branch and
    cut. *)
Definition subproblem (root m : mip) : Prop :=
  m_ncols m = m_ncols root /\ m_rows m = m_rows root /\
  (forall j, m_int m j = m_int root j) /\
  (forall j q, ge_opt_lo q (m_clo m j) -> ge_opt_lo q (m_clo root j)) /\
  (forall j q, le_opt_hi q (m_chi m j) -> le_opt_hi q (m_chi root j)).

(** The calls a user can make. *)
Inductive op :=
  | OpEpsilon (q : Q) | OpTolerance (q : Q) | OpMode (z : Z) | OpRefresh
  | OpGenerate (c : call).
(** A call that throws leaves the generator as it is (setDoPreproc throws
    before assigning; generateCuts throws only when it did not preprocess). *)
Definition step (g : resgen) (o : op) : resgen :=
  match o with
  | OpEpsilon q => setEpsilon g q
  | OpTolerance q => setTolerance g q
  | OpMode z => match setDoPreproc g z with Done g' => g' | _ => g end
  | OpRefresh => refreshPrep g
  | OpGenerate c => match generateCuts g c [] with Done (g', _) => g' | _ => g end
  end.
Definition run (g : resgen) (ops : list op) : resgen := fold_left step ops g.
(** All tolerances used before are at most [e], and all earlier calls were
    made on models with clean data of which [m] is a subproblem. *)
Definition op_ok (e : Q) (m : mip) (o : op) : Prop :=
  match o with
  | OpEpsilon q => 0 <= q <= e
  | OpGenerate c => subproblem (c_mip c) m /\ clean e (c_mip c)
  | _ => True
  end.

(** ** Lemmas *)
Lemma clear_pos e e1 q : 0 <= e1 <= e -> clear_of e q -> (e1 <? q) = (0 <? q).
Proof.
  intros E [Z|Z]; destruct (e1 <? q) eqn:A, (0 <? q) eqn:B; qb; try reflexivity; try lra.
  revert Z. apply Qabs_case; intros; lra.
Qed.
Lemma clear_neg e e1 q : 0 <= e1 <= e -> clear_of e q -> (q <? - e1) = (q <? 0).
Proof.
  intros E [Z|Z]; destruct (q <? - e1) eqn:A, (q <? 0) eqn:B; qb; try reflexivity; try lra.
  revert Z. apply Qabs_case; intros; lra.
Qed.
Lemma clear_opp e q : clear_of e q -> clear_of e (- q).
Proof. intros [H|H]; [left; rewrite H; reflexivity|right; rewrite Qabs_opp; exact H]. Qed.
Lemma clear_eq e q q' : q == q' -> clear_of e q -> clear_of e q'.
Proof. intros E [H|H]; [left; rewrite <- E; exact H|right; rewrite <- E; exact H]. Qed.
Lemma clean_negate e m v : clean_form e m v -> clean_form e m (negate v).
Proof.
  intros (A & B). unfold negate. split.
  - intros j a H. apply in_map_iff in H as ([j' a'] & E & H). simpl in E. injection E as <- <-.
    destruct (A _ _ H) as (A1 & A2 & A3). split; [apply clear_opp; exact A1|]. split; [exact A2|].
    destruct (m_chi m j'); [|exact I]. apply (clear_eq e (- (a' * q))); [ring|apply clear_opp; exact A3].
  - intros j a k b H K Ij Ik. apply in_map_iff in H as ([j' a'] & E & H). simpl in E. injection E as <- <-.
    apply in_map_iff in K as ([k' b'] & E & K). simpl in E. injection E as <- <-.
    apply (clear_eq e (- (a' - b'))); [ring|]. apply clear_opp. apply (B j' a' k' b'); assumption.
Qed.
Lemma value_negate v y : value (negate v) y == - value v y.
Proof. induction v as [|[j a] v IH]; simpl; [lra|]. fold (negate v). rewrite IH. lra. Qed.

(** One row, classified with [e1] on [m0] and separated with [e2] on [m]. *)
Lemma sep_valid e e1 e2 tol m0 m x v rhs cut y :
  0 <= e1 <= e -> 0 <= e2 <= e ->
  subproblem m0 m -> clean_form e m0 v -> clean_form e m v ->
  (forall j a, In (j, a) v -> (j < m_ncols m)%nat) ->
  treatAsLessThan e1 m0 v = true -> feasible m y -> value v y <= rhs ->
  separate e2 tol m x v rhs = Some cut -> rowcut_sat cut y.
Proof.
  intros E1 E2 (_ & _ & Int & L1 & U1) C0 C W T (_ & IB & II) R.
  destruct C0 as (C0 & _). destruct C as (C & Cd).
  assert (Sc : forall p, In p v -> is_cont e1 m0 p = is_cont e2 m p /\ is_int e1 m0 p = is_int e2 m p).
  { intros [j a] P. destruct (C _ _ P) as (Ca & _). unfold is_cont, is_int. simpl.
    rewrite Int, (clear_pos e e1 a), (clear_pos e e2 a), (clear_neg e e1 a), (clear_neg e e2 a) by assumption. auto. }
  destruct (treat_spec e1 m0 v None false T) as (B & c & _ & N & D).
  destruct (N eq_refl) as (e0 & P0 & Q0 & K0). clear N.
  assert (NotCont : forall p, In p v -> is_int e2 m p = true -> is_cont e2 m p = false).
  { intros [j a] P H. unfold is_int, is_cont in *. simpl in *.
    apply andb_true_iff in H as (H1 & H2). rewrite H2. simpl.
    rewrite orb_false_r. apply Qltb_lt in H1. apply Qltb_ge. lra. }
  apply (separate_valid e2 tol m x y (proj1 E2) v rhs c cut); [|exact R| |].
  - intros [j a] P. destruct (C _ _ P) as (Ca & Cl & Cu). destruct (C0 _ _ P) as (_ & Cl0 & _).
    split; [|split]; simpl.
    + destruct Ca as [Ca|Ca]; [left; exact Ca|right; lra].
    + intro H. destruct (Sc _ P) as (Sc1 & _). rewrite <- Sc1 in H. specialize (B _ P H). simpl in B.
      destruct (IB j (W j a P)) as (IBl & IBu).
      unfold bad_bounds in B. apply orb_false_iff in B as (B1 & B2).
      destruct (m_clo m0 j) as [l0|] eqn:El; [|discriminate].
      destruct (m_chi m0 j) as [u0|] eqn:Eu; [|discriminate]. apply Qltb_ge in B1, B2.
      assert (l00 : 0 <= l0) by (destruct Cl0; lra).
      specialize (L1 j (y j) IBl). rewrite El in L1. simpl in L1.
      unfold scaled, upper. simpl. destruct (m_chi m j) as [u|] eqn:Eu1.
      * simpl in IBu. split; [lra|]. destruct Cu as [Cu|Cu]; [left; lra|].
        revert Cu. apply Qabs_case; intros; [left|right]; lra.
      * exfalso. specialize (U1 j (u0 + 1)). rewrite Eu1, Eu in U1. specialize (U1 I). simpl in U1. lra.
    + intro H. unfold is_int in H. apply andb_true_iff in H as (_ & H). apply (II j (W j a P) H).
  - intros [j a] P. apply filter_In in P as (P & H). simpl.
    assert (K : Qabs (a - c) <= e1 \/ a = c).
    { apply (D (j, a) P); destruct (Sc _ P) as (S1 & S2); [rewrite S1; apply NotCont; assumption|rewrite S2; exact H]. }
    destruct K as [K| ->]; [|reflexivity].
    destruct (Sc _ P0) as (_ & S3). rewrite S3 in Q0. destruct e0 as [k b]. simpl in K0. subst b.
    unfold is_int in H, Q0. apply andb_true_iff in H as (_ & H). apply andb_true_iff in Q0 as (_ & Q0).
    destruct (Cd j a k c P P0 H Q0) as [X|X]; lra.
  - intro X. assert (In e0 (filter (is_int e2 m) v)) as Y; [|rewrite X in Y; exact Y].
    apply filter_In. split; [exact P0|]. destruct (Sc _ P0) as (_ & <-). exact Q0.
Qed.

(** The right-hand side kept for a row. *)
Lemma row_info_spec e1 m0 r act y :
  row_sat r y ->
  (ri_L (row_info e1 m0 r act) = true ->
     treatAsLessThan e1 m0 (r_form r) = true /\ value (r_form r) y <= ri_rhs (row_info e1 m0 r act)) /\
  (ri_G (row_info e1 m0 r act) = true ->
     treatAsLessThan e1 m0 (negate (r_form r)) = true /\
     value (negate (r_form r)) y <= - ri_rhs (row_info e1 m0 r act)).
Proof.
  intros (L & U). rewrite value_negate. unfold row_info, row_sense, row_rhs.
  destruct (r_lo r) as [l|], (r_hi r) as [u|]; simpl in L, U.
  - destruct (Qeq_bool l u) eqn:Q; qb; simpl.
    + split; intro H; apply andb_true_iff in H as (_ & H); (split; [exact H|lra]).
    + destruct (act - l <? u - act); simpl; split; intro H; try discriminate;
        apply andb_true_iff in H as (_ & H); (split; [exact H|lra]).
  - simpl. split; intro H; [discriminate|]. apply andb_true_iff in H as (_ & H). split; [exact H|lra].
  - simpl. split; intro H; [|discriminate]. apply andb_true_iff in H as (_ & H). split; [exact H|lra].
  - simpl. split; discriminate.
Qed.

(** Where the cuts come from. *)
Lemma fold_add {A} (sel : A -> bool) (sep : A -> option rowcut) l : forall cs c,
  In c (fold_left (fun cs a => if sel a then add_cut cs (sep a) else cs) l cs) ->
  In c cs \/ exists a, In a l /\ sel a = true /\ sep a = Some c.
Proof.
  induction l as [|a l IH]; simpl; intros cs c H; [auto|].
  apply IH in H as [H|(a' & A1 & A2 & A3)]; [|right; exists a'; auto].
  destruct (sel a) eqn:S; [|auto]. unfold add_cut in H. destruct (sep a) as [d|] eqn:D; [|auto].
  apply insert_new_in in H as [H| ->]; [auto|]. right. exists a. auto.
Qed.
Lemma cuts_from eps tol m x info cs c :
  In c (resCapCuts eps tol m x info cs) -> In c cs \/
  exists ri r, In (ri, r) (combine info (m_rows m)) /\
    ((ri_L ri = true /\ separate eps tol m x (r_form r) (ri_rhs ri) = Some c) \/
     (ri_G ri = true /\ separate eps tol m x (negate (r_form r)) (- ri_rhs ri) = Some c)).
Proof.
  unfold resCapCuts. intro H. apply fold_add in H as [H|((ri & r) & A1 & A2 & A3)].
  - apply fold_add in H as [H|((ri & r) & A1 & A2 & A3)]; [auto|]. right. exists ri, r. auto.
  - right. exists ri, r. auto.
Qed.
Lemma combine_preprocess e1 c0 ri r :
  In (ri, r) (combine (preprocess e1 c0) (m_rows (c_mip c0))) ->
  In r (m_rows (c_mip c0)) /\ exists act, ri = row_info e1 (c_mip c0) r act.
Proof.
  unfold preprocess. generalize 0%nat as n. generalize (m_rows (c_mip c0)) as l.
  induction l as [|r0 l IH]; intros n H; simpl in H; [destruct H|].
  destruct H as [H|H].
  - injection H as <- <-. split; [left; reflexivity|]. eexists. reflexivity.
  - apply IH in H as (H1 & H2). split; [right; exact H1|exact H2].
Qed.

(** Invariant of the histories. *)
Definition cache_ok (e : Q) (m : mip) (g : resgen) : Prop :=
  0 <= rg_eps g <= e /\
  (rg_done g = true -> exists e1 c0, 0 <= e1 <= e /\ rg_info g = preprocess e1 c0 /\
     subproblem (c_mip c0) m /\ clean e (c_mip c0)).
Lemma must_not g c : must_preprocess g c = false -> rg_done g = true.
Proof.
  unfold must_preprocess. destruct (_ && _); [intro H; qb; exact H|].
  destruct (_ =? _)%Z; [discriminate|intro H; qb; exact H].
Qed.
Lemma step_ok e m g o : op_ok e m o -> cache_ok e m g -> cache_ok e m (step g o).
Proof.
  intros O (A & B). destruct o; simpl in *.
  - split; simpl; [exact O|exact B].
  - split; simpl; [exact A|exact B].
  - unfold setDoPreproc. destruct (_ && _); split; simpl; auto.
  - split; simpl; [exact A|discriminate].
  - unfold generateCuts. destruct (must_preprocess g c); simpl; destruct (_ <? _)%nat; simpl;
      (split; [exact A|]); auto. simpl. intros _. exists (rg_eps g), c. tauto.
Qed.
Lemma run_ok e m ops : forall g, Forall (op_ok e m) ops -> cache_ok e m g -> cache_ok e m (run g ops).
Proof.
  induction ops as [|o ops IH]; simpl; intros g F C; [exact C|].
  inversion F; subst. apply IH; [assumption|]. apply step_ok; assumption.
Qed.
Lemma subproblem_refl m : subproblem m m.
Proof. unfold subproblem. auto. Qed.

(** ** C15 *)
(** In every history of calls the cuts of a generateCuts call keep every
    feasible point of the model they were generated for. *)
Theorem C15_cuts_valid e e0 ops c cs g' cs' cut :
  0 <= e0 <= e -> Forall (op_ok e (c_mip c)) ops -> wf_mip (c_mip c) -> clean e (c_mip c) ->
  generateCuts (run (rg_new_eps e0) ops) c cs = Done (g', cs') ->
  In cut cs' -> In cut cs \/ keeps_all (c_mip c) cut.
Proof.
  intros E0 F W C G H.
  assert (K : cache_ok e (c_mip c) (run (rg_new_eps e0) ops)).
  { apply run_ok; [exact F|]. split; simpl; [exact E0|discriminate]. }
  set (g := run (rg_new_eps e0) ops) in *. clearbody g.
  assert (K' : 0 <= rg_eps g' <= e /\ exists e1 c0, 0 <= e1 <= e /\ rg_info g' = preprocess e1 c0 /\
     subproblem (c_mip c0) (c_mip c) /\ clean e (c_mip c0) /\
     cs' = resCapCuts (rg_eps g') (rg_tol g') (c_mip c) (c_x c) (rg_info g') cs).
  { destruct K as (K1 & K2). unfold generateCuts in G. destruct (must_preprocess g c) eqn:M; cbv zeta in G.
    - destruct (_ <? _)%nat; [discriminate|]. apply Done_inj in G. injection G as <- <-.
      split; [exact K1|]. exists (rg_eps g), c. split; [exact K1|]. split; [reflexivity|].
      split; [apply subproblem_refl|]. split; [exact C|reflexivity].
    - destruct (_ <? _)%nat; [discriminate|]. apply Done_inj in G. injection G as <- <-.
      split; [exact K1|]. destruct (K2 (must_not _ _ M)) as (e1 & c0 & X1 & X2 & X3 & X4).
      exists e1, c0. auto. }
  destruct K' as (E2 & e1 & c0 & E1 & I & S & C0 & Ecs).
  rewrite Ecs in H. apply cuts_from in H as [H|(ri & r & P & H)]; [left; exact H|right].
  assert (Rows : m_rows (c_mip c) = m_rows (c_mip c0)) by apply S.
  rewrite I, Rows in P. apply combine_preprocess in P as (P & act & ->).
  assert (P' : In r (m_rows (c_mip c))) by (rewrite Rows; exact P).
  intros y Fy.
  destruct (row_info_spec e1 (c_mip c0) r act y) as (RL & RG); [apply Fy; exact P'|].
  destruct H as [(H1 & H2)|(H1 & H2)].
  - destruct (RL H1) as (T & V).
    apply (sep_valid e e1 (rg_eps g') (rg_tol g') (c_mip c0) (c_mip c) (c_x c) _ _ cut y E1 E2 S) in H2; auto.
    apply (W r P').
  - destruct (RG H1) as (T & V).
    apply (sep_valid e e1 (rg_eps g') (rg_tol g') (c_mip c0) (c_mip c) (c_x c) _ _ cut y E1 E2 S) in H2; auto.
    + apply clean_negate. apply C0. exact P.
    + apply clean_negate. apply C. exact P'.
    + intros j a Ha. apply in_map_iff in Ha as ([j' a'] & Ea & Ha). simpl in Ea. injection Ea as <- _.
      apply (proj2 (W r P') j' a' Ha).
Qed.
Print Assumptions C15_cuts_valid.

(** *** A concrete case *)
(** x - 3 y <= 0 with 0 <= x <= 4 continuous and y integer in 0..5; column 2
    is a continuous column that occurs with a negative coefficient. *)
Definition ex_mip (b lo0 : Q) : mip :=
  Mip 3 [Row [(0%nat, 1); (1%nat, -3); (2%nat, -1)] None (Some b)]
    (fun j => match j with 0%nat => Some lo0 | _ => Some 0 end)
    (fun j => match j with 0%nat => Some 4 | 1%nat => Some 5 | _ => Some 1 end)
    (fun j => Nat.eqb j 1).
Definition ex_x (j : nat) : Q := match j with 0%nat => 4 | 1%nat => 1 | _ => 1 end.
Definition ex_x2 (j : nat) : Q := match j with 0%nat => 4 | 1%nat => 4 # 3 | _ => 0 end.
Definition ex_call (m : mip) (x : nat -> Q) : call := Call m x (fun _ => 0) false false.

Lemma ex_clean b lo0 : 0 <= lo0 -> clean (1 # 1000000) (ex_mip b lo0).
Proof.
  intros L r [<-|[]]. split; simpl.
  - intros j a H. repeat (destruct H as [H|H]; [injection H as <- <-; unfold clear_of; simpl;
      split; [right; vm_compute; reflexivity|split; [left; solve [exact L|vm_compute; discriminate]|
        right; vm_compute; reflexivity]]|]). destruct H.
  - intros j a k b' H K Ij Ik.
    repeat (destruct H as [H|H]; [injection H as <- <-; simpl in Ij; try discriminate|]); [|destruct H].
    repeat (destruct K as [K|K]; [injection K as <- <-; simpl in Ik; try discriminate|]); [|destruct K].
    left. reflexivity.
Qed.
(** Two calls, the second on the model with a tightened bound. *)
Example C15_example :
  let c1 := ex_call (ex_mip 0 0) (fun _ => 0) in
  let c2 := ex_call (ex_mip 0 1) ex_x2 in
  Forall (op_ok (1 # 1000000) (c_mip c2)) [OpMode 0; OpGenerate c1] /\ wf_mip (c_mip c2) /\
  clean (1 # 1000000) (c_mip c2) /\
  match generateCuts (run rg_new [OpMode 0; OpGenerate c1]) c2 [] with
  | Done (_, [RowCut form None (Some ub)]) =>
      value form ex_x2 > ub /\ length form = 3%nat
  | _ => False
  end.
Proof.
  cbv zeta. conjs.
  - constructor; [exact I|]. constructor; [|constructor]. split; [|apply ex_clean; vm_compute; discriminate].
    unfold subproblem. conjs; try reflexivity; intros [|j] q; simpl; auto. lra.
  - intros r [<-|[]]. split; simpl; [repeat constructor; simpl; intuition discriminate|].
    intros j a H. repeat (destruct H as [H|H]; [injection H as <- <-; lia|]). destruct H.
  - apply ex_clean. lra.
  - vm_compute. split; reflexivity.
Qed.

(** A nonzero coefficient below the tolerance is dropped although its column
    can take a large value: the cut x - y <= 2 cuts off x = 4, y = 0,
    z = 40000000 of  x - 3 y - 0.0000001 z <= 0. *)
Definition tiny_mip : mip :=
  Mip 3 [Row [(0%nat, 1); (1%nat, -3); (2%nat, -(1 # 10000000))] None (Some 0)]
    (fun j => Some 0)
    (fun j => match j with 0%nat => Some 4 | 1%nat => Some 5 | _ => Some 100000000 end)
    (fun j => negb (Nat.eqb j 0)).
Theorem C15_tiny_coefficient_refuted :
  exists g' cut, generateCuts rg_new (ex_call tiny_mip ex_x2) [] = Done (g', [cut]) /\
    ~ keeps_all tiny_mip cut.
Proof.
  exists (ResGen (1 # 1000000) (1 # 10000) (-1) true [RowInfo true false 0]),
    (RowCut [(0%nat, 1); (1%nat, -(1))] None (Some 2)). split.
  - unfold generateCuts. cbn -[resCapCuts preprocess].
    replace (preprocess (1 # 1000000) (ex_call tiny_mip ex_x2)) with [RowInfo true false 0]
      by (vm_compute; reflexivity).
    reflexivity.
  - intro K. specialize (K (fun j => match j with 0%nat => 4 | 1%nat => 0 | _ => 40000000 end)).
    destruct K as (_ & K).
    + unfold feasible. conjs.
      * intros r [<-|[]]. split; [exact I|]. vm_compute. discriminate.
      * intros j J. destruct j as [|[|[|j]]]; [| | |simpl in J; lia]; split; vm_compute; discriminate.
      * intros j J _. destruct j as [|[|[|j]]]; [| | |simpl in J; lia].
        -- exists 4%Z. reflexivity.
        -- exists 0%Z. reflexivity.
        -- exists 40000000%Z. reflexivity.
    + vm_compute in K. apply K. reflexivity.
Qed.
Print Assumptions C15_tiny_coefficient_refuted.

(** The order of the calls matters: rows are classified once, on the first
    model seen.  If that one had tighter bounds (here z >= 0) than the model
    of a later call (z >= -12), the later cut is invalid:
    x - y <= 2 from  x - 3 y + z <= 0  cuts off x = 4, y = 0, z = -12. *)
Definition loose_mip (b lo : Q) : mip :=
  Mip 3 [Row [(0%nat, 1); (1%nat, -3); (2%nat, 1)] None (Some b)]
    (fun j => match j with 2%nat => Some lo | _ => Some 0 end)
    (fun j => match j with 0%nat => Some 4 | 1%nat => Some 5 | _ => Some 4 end)
    (fun j => Nat.eqb j 1).
Definition loose_cut : rowcut := RowCut [(0%nat, 1); (1%nat, -(1))] None (Some 2).
Theorem C15_looser_bounds_later_refuted :
  exists c1 c2 g' cut,
    subproblem (c_mip c2) (c_mip c1) /\
    generateCuts (run rg_new [OpGenerate c1]) c2 [] = Done (g', [cut]) /\
    ~ keeps_all (c_mip c2) cut.
Proof.
  exists (ex_call (loose_mip 0 0) ex_x2), (ex_call (loose_mip 0 (-12)) ex_x2).
  exists (ResGen (1 # 1000000) (1 # 10000) (-1) true [RowInfo true false 0]), loose_cut.
  split; [|split; [vm_compute; reflexivity|]].
  { unfold subproblem. conjs; try reflexivity; intros [|[|[|j]]] q; simpl; auto. lra. }
  intro K. specialize (K (fun j => match j with 0%nat => 4 | 1%nat => 0 | _ => -12 end)).
  destruct K as (_ & K).
  - unfold feasible. conjs.
    + intros r [<-|[]]. split; [exact I|]. vm_compute. discriminate.
    + intros j J. destruct j as [|[|[|j]]]; [| | |simpl in J; lia]; split; vm_compute; discriminate.
    + intros j J Ij. destruct j as [|[|[|j]]]; [discriminate| |discriminate|simpl in J; lia].
      exists 0%Z. reflexivity.
  - vm_compute in K. apply K. reflexivity.
Qed.
Print Assumptions C15_looser_bounds_later_refuted.

(** ** C16: the preprocessing mode *)
(** The mode the calls ask for: the last accepted one, -1 at first. *)
Definition mode_step (z : Z) (o : op) : Z :=
  match o with
  | OpMode v => if existsb (Z.eqb v) [-1; 0; 1]%Z then v else z
  | _ => z
  end.
Theorem C16_mode_setter g v :
  (exists g', setDoPreproc g v = Done g' /\ rg_mode g' = v /\ getDoPreproc g' = negb (v =? 0)%Z /\
     rg_eps g' = rg_eps g /\ rg_tol g' = rg_tol g /\ (v = -1 \/ v = 0 \/ v = 1)%Z) \/
  (setDoPreproc g v = Throws /\ ~ (v = -1 \/ v = 0 \/ v = 1)%Z).
Proof.
  unfold setDoPreproc.
  destruct (Z.eqb_spec v (-1)) as [A|A], (Z.eqb_spec v 0) as [B|B], (Z.eqb_spec v 1) as [C|C];
    try lia; simpl.
  - left. eexists. split; [reflexivity|]. subst v. simpl. unfold getDoPreproc. simpl. conjs; auto.
  - left. eexists. split; [reflexivity|]. subst v. simpl. unfold getDoPreproc. simpl. conjs; auto.
  - left. eexists. split; [reflexivity|]. subst v. simpl. unfold getDoPreproc. simpl. conjs; auto.
  - right. split; [reflexivity|lia].
Qed.
Print Assumptions C16_mode_setter.
Theorem C16_mode_history ops e0 :
  rg_mode (run (rg_new_eps e0) ops) = fold_left mode_step ops (-1)%Z /\
  (getDoPreproc (run (rg_new_eps e0) ops) = true <-> fold_left mode_step ops (-1)%Z <> 0%Z).
Proof.
  assert (K : forall ops g, rg_mode (run g ops) = fold_left mode_step ops (rg_mode g)).
  { clear. induction ops as [|o ops IH]; intro g; [reflexivity|]. simpl. rewrite IH. f_equal.
    destruct o as [q|q|z| |c]; simpl; try reflexivity.
    - destruct (C16_mode_setter g z) as [(g' & E & M & _ & _ & _ & V)|(E & V)]; rewrite E.
      + rewrite M. destruct V as [->|[->| ->]]; reflexivity.
      + destruct (Z.eqb_spec z (-1)), (Z.eqb_spec z 0), (Z.eqb_spec z 1); try (exfalso; tauto). reflexivity.
    - unfold generateCuts. destruct (must_preprocess g c); simpl; destruct (_ <? _)%nat; reflexivity. }
  split; [apply K|]. unfold getDoPreproc. rewrite K. simpl rg_mode.
  rewrite negb_true_iff, Z.eqb_neq. tauto.
Qed.
Print Assumptions C16_mode_history.
Example C16_example :
  getDoPreproc (run rg_new [OpMode 0; OpMode 7; OpRefresh]) = false /\
  getDoPreproc (run rg_new [OpMode 0; OpMode 1; OpMode (-3)]) = true.
Proof. split; reflexivity. Qed.

(** ** C39: when earlier calls matter *)
(** A generator with the same parameters that has never generated cuts. *)
Definition fresh (g : resgen) : resgen := ResGen (rg_eps g) (rg_tol g) (rg_mode g) false [].
Definition cuts_of (o : outcome (resgen * list rowcut)) : outcome (list rowcut) :=
  match o with Done (_, cs) => Done cs | Throws => Throws | Aborts => Aborts | Undef k => Undef k | OutOfFuel => OutOfFuel end.
(** In mode 1, and in every mode directly after refreshPrep, the cuts are
    those of a fresh generator. *)
Theorem C39_history_does_not_matter g c cs :
  (rg_mode g = 1%Z -> cuts_of (generateCuts g c cs) = cuts_of (generateCuts (fresh g) c cs)) /\
  cuts_of (generateCuts (refreshPrep g) c cs) = cuts_of (generateCuts (fresh g) c cs).
Proof.
  assert (P : forall h, rg_done h = false -> must_preprocess h c = true).
  { intros h D. unfold must_preprocess. rewrite D. destruct (_ && _); [reflexivity|]. destruct (_ =? _)%Z; reflexivity. }
  split.
  - intro M. assert (X : must_preprocess g c = true).
    { unfold must_preprocess. rewrite M. simpl. rewrite andb_false_r. reflexivity. }
    unfold generateCuts. rewrite X, (P (fresh g)) by reflexivity. reflexivity.
  - unfold generateCuts. rewrite (P (refreshPrep g)), (P (fresh g)) by reflexivity. reflexivity.
Qed.
Print Assumptions C39_history_does_not_matter.
(** In every mode, history does not matter if all calls are on the same rows,
    integrality and bounds with the same row activities and tolerance. *)
Theorem C39_same_model g c1 c2 cs g1 cs1 :
  generateCuts (fresh g) c1 [] = Done (g1, cs1) ->
  c_mip c2 = c_mip c1 -> (forall i, c_act c2 i = c_act c1 i) ->
  cuts_of (generateCuts g1 c2 cs) = cuts_of (generateCuts (fresh g) c2 cs).
Proof.
  intros G M A.
  assert (P : forall c, must_preprocess (fresh g) c = true).
  { intro c. unfold must_preprocess. simpl. destruct (_ && _); [reflexivity|]. destruct (_ =? _)%Z; reflexivity. }
  assert (Pr : preprocess (rg_eps g) c1 = preprocess (rg_eps g) c2).
  { unfold preprocess. rewrite M. apply map_ext. intros [i r]. simpl. rewrite A. reflexivity. }
  unfold generateCuts in G. rewrite P in G. cbv zeta in G. destruct (_ <? _)%nat; [discriminate|].
  apply Done_inj in G. injection G as <- _.
  unfold generateCuts. rewrite P. cbn [rg_eps rg_tol rg_mode rg_info fresh].
  destruct (must_preprocess _ c2); cbn [rg_info rg_eps rg_tol]; [reflexivity|]. rewrite Pr. reflexivity.
Qed.
Print Assumptions C39_same_model.
Example C39_example :
  let c1 := ex_call (loose_mip 0 0) ex_x2 in
  let c2 := ex_call (loose_mip 2 0) (fun j => match j with 0%nat => 4 | 1%nat => 2 # 3 | _ => 0 end) in
  rg_mode (run rg_new [OpMode 1; OpGenerate c1]) = 1%Z /\
  cuts_of (generateCuts (run rg_new [OpMode 1; OpGenerate c1]) c2 []) = Done [RowCut [(0%nat, 1); (1%nat, -(2))] None (Some 2)].
Proof. cbv zeta. split; vm_compute; reflexivity. Qed.
(** In mode -1 the presolve hints are meant to force the preprocessing to be
    redone ("if presolve is used, then need to redo preprocessing every time")
    but do not: after the right-hand side of the row changed from 0 to 2, a
    call with both hints set still uses the old one and produces an invalid
    cut. *)
Theorem C39_presolve_hints_refuted :
  exists c1 c2 cut,
    c_hint_initial c2 = true /\ c_hint_resolve c2 = true /\ rg_mode (run rg_new [OpGenerate c1]) = (-1)%Z /\
    cuts_of (generateCuts (run rg_new [OpGenerate c1]) c2 []) = Done [cut] /\
    ~ In cut (match cuts_of (generateCuts rg_new c2 []) with Done l => l | _ => [] end) /\
    ~ keeps_all (c_mip c2) cut.
Proof.
  exists (Call (loose_mip 0 0) ex_x2 (fun _ => 0) true true), (Call (loose_mip 2 0) ex_x2 (fun _ => 0) true true), loose_cut.
  conjs; try reflexivity.
  - vm_compute. intros [].
  - intro K. specialize (K (fun j => match j with 0%nat => 4 | 1%nat => 1 | _ => 0 end)).
    destruct K as (_ & K).
    + unfold feasible. conjs.
      * intros r [<-|[]]. split; [exact I|]. vm_compute. discriminate.
      * intros j J. destruct j as [|[|[|j]]]; [| | |simpl in J; lia]; split; vm_compute; discriminate.
      * intros j J Ij. destruct j as [|[|[|j]]]; [discriminate| |discriminate|simpl in J; lia].
        exists 1%Z. reflexivity.
    + vm_compute in K. apply K. reflexivity.
Qed.
Print Assumptions C39_presolve_hints_refuted.
