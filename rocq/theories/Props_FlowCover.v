(** * Properties of CglFlowCover *)

From Coq Require Import Qabs Lqa Lia.
From Verif Require Import Base Decide Model_FlowCover Proofs_FlowCover Proofs_FlowBack Proofs_FlowRow Proofs_FlowGen.
Local Open Scope Q_scope.

(** ** Hypotheses on the problem, in terms of the solver's data *)

(** The tolerance of the generator. *)
Definition eps : Q := 1 # 1000000.

(** An integer column both of whose bounds are 0 or 1. *)
Definition binary (m : mip) (j : nat) : Prop :=
  m_int m j = true /\
  (exists l, m_clo m j = Some l /\ (l == 0 \/ l == 1)) /\
  (exists u, m_chi m j = Some u /\ (u == 0 \/ u == 1)).

(** A row with two entries of which exactly one is in a binary column is not
    free; and if it is an equation or a one-sided inequality with a right-hand
    side within the tolerance of 0, the right-hand side is 0, its coefficients
    are not tiny, and in an equation they have opposite signs. *)
Definition clean_pair (r : row) (a b : Q) : Prop :=
  match r_lo r, r_hi r with
  | None, None => False
  | Some l, Some h => l == h -> Qabs h <= eps -> h == 0 /\ eps < Qabs a /\ eps < Qabs b /\ a * b < 0
  | Some q, None | None, Some q => Qabs q <= eps -> q == 0 /\ eps < Qabs a /\ eps < Qabs b
  end.
Definition clean_pairs (m : mip) : Prop :=
  forall r i a k b, In r (m_rows m) -> r_form r = [(i, a); (k, b)] ->
    (binary m i /\ ~ binary m k) \/ (~ binary m i /\ binary m k) -> clean_pair r a b.
(** No lower bound of a non-binary column is just below 0. *)
Definition clean_lower (m : mip) : Prop :=
  forall j l, ~ binary m j -> m_clo m j = Some l -> 0 <= l \/ l < - eps.

(** Multiples of 1/D. *)
Definition on_grid (D : positive) (q : Q) : Prop := exists z : Z, q == z # D.
(** Coefficients are multiples of 1/D1, bounds of columns and the ratios of
    pairs multiples of 1/D2, bounds of rows of 1/(D1 D2).  (With D1 = D2 = 1:
    integer data.) *)
Record grid_data (m : mip) (D1 D2 : positive) : Prop := {
  gd_small : (Zpos (D1 * D2) < 1000000)%Z;
  gd_row : forall r q, In r (m_rows m) -> r_lo r = Some q \/ r_hi r = Some q -> on_grid (D1 * D2) q;
  gd_coef : forall r j a, In r (m_rows m) -> In (j, a) (r_form r) -> on_grid D1 a;
  gd_bound : forall j q, m_clo m j = Some q \/ m_chi m j = Some q -> on_grid D2 q;
  gd_ratio : forall r i a k b, In r (m_rows m) ->
    r_form r = [(i, a); (k, b)] \/ r_form r = [(k, b); (i, a)] ->
    binary m i -> ~ binary m k -> on_grid D2 (- a / b) }.

(** OsiCuts::insertIfNotDuplicateAndClean: keeps the collection and adds the
    new cut (or not), possibly weakened; the plain form for claims about the
    numbers in a cut. *)
Definition ins_ok (ins : list rowcut -> rowcut -> list rowcut) : Prop :=
  forall cs d e, In e (ins cs d) -> In e cs \/ (forall y, rowcut_sat d y -> rowcut_sat e y).
Definition ins_plain (ins : list rowcut -> rowcut -> list rowcut) : Prop :=
  forall cs d e, In e (ins cs d) -> In e cs \/ e = d.
Definition ins_one (ins : list rowcut -> rowcut -> list rowcut) : Prop :=
  forall cs d, (length (ins cs d) <= S (length cs))%nat.
Lemma insert_new_ok : ins_ok insert_new.
Proof. intros cs d e H. apply insert_new_in in H as [H| ->]; [now left|right; auto]. Qed.
Lemma insert_new_plain : ins_plain insert_new.
Proof. intros cs d e H. now apply insert_new_in in H. Qed.

(** ** From the specification to the model's tests *)
Lemma zero_one_iff b : zero_one b = true <-> exists q, b = Some q /\ (q == 0 \/ q == 1).
Proof.
  split; [apply zero_one_spec|]. intros (q & -> & [H|H]); simpl; apply orb_true_iff; [left|right]; now apply Qeq_bool_iff.
Qed.
Lemma binary_iff m j : binary m j <-> is_bin m j = true.
Proof.
  unfold binary, is_bin. rewrite !andb_true_iff, !zero_one_iff. tauto.
Qed.
Lemma not_binary m j : ~ binary m j <-> is_bin m j = false.
Proof. rewrite binary_iff. destruct (is_bin m j); split; intros; congruence. Qed.

Lemma clean_pairs_ok m : clean_pairs m -> vb_rows_ok m.
Proof.
  intros H r i a k b Hr F X Hq Hs.
  assert (C : clean_pair r a b).
  { apply (H r i a k b Hr F). rewrite !binary_iff. destruct (is_bin m i), (is_bin m k); try discriminate X; [left|right]; split; congruence. }
  change fEPS with eps in *. unfold clean_pair in C. unfold row_sense, row_rhs in *.
  destruct (r_lo r) as [l|], (r_hi r) as [h|].
  - destruct (Qeq_bool l h) eqn:E; [|congruence]. apply Qeq_bool_iff in E.
    destruct (C E Hq) as (C1 & C2 & C3 & C4). split; [discriminate|]. auto.
  - destruct (C Hq) as (C1 & C2 & C3). split; [discriminate|]. repeat split; auto. discriminate.
  - destruct (C Hq) as (C1 & C2 & C3). split; [discriminate|]. repeat split; auto. discriminate.
  - destruct C.
Qed.
Lemma clean_lower_ok m : clean_lower m -> lows_ok m.
Proof. intros H j l B L. apply (H j l); [now apply not_binary|exact L]. Qed.

(** ** Grids *)
Lemma grid_0 D : on_grid D 0.
Proof. exists 0%Z. reflexivity. Qed.
Lemma grid_plus D a b : on_grid D a -> on_grid D b -> on_grid D (a + b).
Proof. intros [x Hx] [y Hy]. exists (x + y)%Z. rewrite Hx, Hy. unfold Qeq. simpl. rewrite Pos2Z.inj_mul. ring. Qed.
Lemma grid_opp D a : on_grid D a -> on_grid D (- a).
Proof. intros [x Hx]. exists (- x)%Z. rewrite Hx. reflexivity. Qed.
Lemma grid_eq D a b : a == b -> on_grid D a -> on_grid D b.
Proof. intros E [x Hx]. exists x. rewrite <- E. exact Hx. Qed.
Lemma grid_mult D1 D2 a b : on_grid D1 a -> on_grid D2 b -> on_grid (D1 * D2) (a * b).
Proof. intros [x Hx] [y Hy]. exists (x * y)%Z. rewrite Hx, Hy. reflexivity. Qed.
Lemma grid_finer D1 D2 a : on_grid D1 a -> on_grid (D1 * D2) a.
Proof. intros [x Hx]. exists (x * Zpos D2)%Z. rewrite Hx. unfold Qeq. simpl. rewrite Pos2Z.inj_mul. ring. Qed.
Lemma grid_small D q : (Zpos D < 1000000)%Z -> on_grid D q -> Qabs q <= eps -> Qabs q <= 0.
Proof.
  intros HD [z Hz] H. rewrite Hz in *. unfold Qabs, Qle, eps in *. simpl in *.
  assert (z = 0)%Z as -> by nia. simpl. lia.
Qed.

Lemma grid_ratios m D1 D2 : grid_data m D1 D2 -> ratios_ok m (on_grid D2).
Proof.
  intros H r i a k b Hr F. split; intros B1 B2.
  - apply (gd_ratio _ _ _ H r i a k b Hr); [now left|now apply binary_iff|now apply not_binary].
  - apply (gd_ratio _ _ _ H r k b i a Hr); [now right|now apply binary_iff|now apply not_binary].
Qed.
Lemma grid_rows m D1 D2 : grid_data m D1 D2 ->
  forall r, In r (m_rows m) -> on_grid (D1 * D2) (row_rhs r) /\ forall j c, In (j, c) (r_form r) ->
    (is_bin m j = true -> on_grid (D1 * D2) c) /\
    (forall l, m_clo m j = Some l -> on_grid (D1 * D2) (c * l)) /\
    (forall u, m_chi m j = Some u -> on_grid (D1 * D2) (c * u)) /\
    (forall q, on_grid D2 q -> on_grid (D1 * D2) (c * q)).
Proof.
  intros H r Hr. split.
  - unfold row_rhs. pose proof (gd_row _ _ _ H r) as Gr. destruct (r_lo r) as [l|], (r_hi r) as [h|].
    + apply (Gr h Hr); auto.
    + apply (Gr l Hr); auto.
    + apply (Gr h Hr); auto.
    + apply grid_0.
  - intros j c Hc. pose proof (gd_coef _ _ _ H r j c Hr Hc) as C. split; [intros; now apply grid_finer|].
    split; [|split]; intros q Hq; apply grid_mult; auto; apply (gd_bound _ _ _ H j); auto.
Qed.

Definition violation_ub (form : vec) (ub : Q) (x : point) : Q := value form x - ub.
Lemma violation_upper form ub p t : 0 <= t -> value form p <= ub + t ->
  rowcut_violation (RowCut form None (Some ub)) p <= t.
Proof.
  intros H0 H. unfold rowcut_violation. cbn [rc_form rc_lb rc_ub].
  destruct (Qle_bool 0 (value form p - ub)); destruct (Qle_bool _ 0); lra.
Qed.
Lemma violation_lower form ub p t : 0 <= t -> t < value form p - ub ->
  t < rowcut_violation (RowCut form None (Some ub)) p.
Proof.
  intros H0 H. unfold rowcut_violation. cbn [rc_form rc_lb rc_ub].
  destruct (Qle_bool 0 (value form p - ub)) eqn:E.
  - destruct (Qle_bool (value form p - ub) 0) eqn:E2; [apply Qle_bool_iff in E2; lra|exact H].
  - assert (Qle_bool 0 (value form p - ub) = true) by (apply Qle_bool_iff; lra). congruence.
Qed.
Lemma inserted_in ins (P : rowcut -> Prop) : (forall cs d e, P d -> In e (ins cs d) -> In e cs \/ P e) ->
  forall l cs e, Forall P l -> In e (inserted ins cs l) -> In e cs \/ P e.
Proof.
  intros H. unfold inserted. induction l as [|d l IH]; intros cs e F He; cbn [fold_left] in He; [auto|].
  inversion F; subst. destruct (IH _ _ H3 He) as [K|K]; [|auto]. exact (H _ _ _ H2 K).
Qed.

(** ** C57: cuts keep the feasible points *)

(** Problems in general: no feasible point violates a cut by more than
    2e-6 times the number of entries of one of the rows. *)
Theorem C57_valid debug ins g m x cs g' cs' :
  wf_mip m -> clean_pairs m -> clean_lower m -> ins_plain ins ->
  generateCuts debug ins g m x cs = Done (g', cs') ->
  forall e, In e cs' -> In e cs \/
    forall p, feasible m p -> exists r, In r (m_rows m) /\
      rowcut_violation e p <= 2 * eps * inject_Z (Z.of_nat (length (r_form r))).
Proof.
  intros Hwf Hp Hl Hi E e He. apply generate_trace in E. destruct E as (l & -> & F & _).
  apply (inserted_in ins (fun e => forall p, feasible m p -> exists r, In r (m_rows m) /\
      rowcut_violation e p <= 2 * eps * inject_Z (Z.of_nat (length (r_form r))))) with (l := l); [|clear He|exact He].
  - intros cs0 d e0 Hd H0. destruct (Hi cs0 d e0 H0) as [K| ->]; auto.
  - eapply Forall_impl; [|exact F]. intros c Hc p Hf.
    destruct (from_row_valid debug m x Hwf (clean_pairs_ok m Hp) (clean_lower_ok m Hl)
                (fun _ => True) (fun _ _ _ _ _ _ _ => conj (fun _ _ => Logic.I) (fun _ _ => Logic.I))
                (fun _ => True) eps) with (c := c) (p := p) as (r & form & ub & H1 & -> & H3); auto.
    + discriminate.
    + exists r. split; [exact H1|]. apply violation_upper.
      * apply Qmult_le_0_compat; [discriminate|]. change 0 with (inject_Z 0). rewrite <- Zle_Qle. lia.
      * rewrite (Qmult_comm 2 eps). exact H3.
Qed.

(** Data on a grid, integer data in particular: exactly. *)
Theorem C57_valid_exact debug ins g m x cs g' cs' D1 D2 :
  wf_mip m -> clean_pairs m -> clean_lower m -> grid_data m D1 D2 -> ins_ok ins ->
  generateCuts debug ins g m x cs = Done (g', cs') ->
  forall e, In e cs' -> In e cs \/ keeps_all m e.
Proof.
  intros Hwf Hp Hl Hg Hi E e He. apply generate_trace in E. destruct E as (l & -> & F & _).
  apply (inserted_in ins (keeps_all m)) with (l := l); [|clear He|exact He].
  - intros cs0 d e0 Hd H0. destruct (Hi cs0 d e0 H0) as [K|K]; [auto|right]. intros p Hf. auto.
  - eapply Forall_impl; [|exact F]. intros c Hc p Hf.
    destruct (from_row_valid debug m x Hwf (clean_pairs_ok m Hp) (clean_lower_ok m Hl)
                (on_grid D2) (grid_ratios m D1 D2 Hg) (on_grid (D1 * D2)) 0) with (c := c) (p := p)
      as (r & form & ub & H1 & -> & H3); auto.
    + lra.
    + apply grid_0.
    + apply grid_plus.
    + apply grid_opp.
    + apply grid_eq.
    + intros a Ha. apply (grid_small (D1 * D2)); [apply Hg|exact Ha].
    + apply (grid_rows m D1 D2 Hg).
    + split; [exact Logic.I|]. cbn [rc_form rc_ub le_opt_hi]. lra.
Qed.

(** ** C58: cuts cut, and there are no more than asked for *)
Theorem C58_violated debug ins g m x cs g' cs' :
  ins_plain ins -> generateCuts debug ins g m x cs = Done (g', cs') ->
  forall e, In e cs' -> In e cs \/ (1 # 20) < rowcut_violation e x.
Proof.
  intros Hi E e He. apply generate_trace in E. destruct E as (l & -> & F & _).
  apply (inserted_in ins (fun e => (1 # 20) < rowcut_violation e x)) with (l := l); [|clear He|exact He].
  - intros cs0 d e0 Hd H0. destruct (Hi cs0 d e0 H0) as [K| ->]; auto.
  - eapply Forall_impl; [|exact F]. intros c (t & r & isG & _ & _ & _ & Hc).
    apply call_violated in Hc. destruct Hc as (form & ub & -> & _ & H).
    apply violation_lower; [discriminate|exact H].
Qed.

(** The calls of one generator; the total growth of the collections. *)
Inductive calls debug ins : fgen -> nat -> fgen -> Prop :=
  | calls_none g : calls debug ins g 0 g
  | calls_more g m x cs g1 cs1 n g2 : generateCuts debug ins g m x cs = Done (g1, cs1) ->
      calls debug ins g1 n g2 -> calls debug ins g ((length cs1 - length cs) + n) g2.
Theorem C58_limited debug ins g n g' :
  ins_one ins -> calls debug ins g n g' ->
  fg_max g' = fg_max g /\ (Z.of_nat n <= Z.max 0 (fg_max g - fg_num g))%Z /\
  (Z.of_nat n <= fg_num g' - fg_num g)%Z.
Proof.
  intros Hi H.
  assert (Le : forall l cs, (length (inserted ins cs l) <= length cs + length l)%nat).
  { unfold inserted. induction l as [|d l IH]; intros cs; cbn [fold_left length]; [lia|].
    specialize (IH (ins cs d)). pose proof (Hi cs d). lia. }
  assert (K : fg_max g' = fg_max g /\ (Z.of_nat n <= fg_num g' - fg_num g)%Z /\
              (fg_num g' <= Z.max (fg_num g) (fg_max g))%Z).
  { induction H as [g|g m x cs g1 cs1 n g2 E H IH]; [split; [reflexivity|lia]|].
    apply generate_trace in E. destruct E as (l & -> & _ & E1 & E2 & E3).
    destruct IH as (I1 & I2 & I3). specialize (Le l cs). split; [congruence|].
    destruct l as [|c l]; [cbn [inserted fold_left length] in *; lia|].
    assert (N : c :: l <> []) by discriminate. specialize (E3 N). lia. }
  destruct K as (K1 & K2 & K3). split; [exact K1|]. lia.
Qed.
(** No call after the limit. *)
Theorem C58_off debug ins g m x cs :
  (fg_max g <= 0 \/ fg_max g <= fg_num g)%Z -> generateCuts debug ins g m x cs = Done (g, cs).
Proof.
  intros H. unfold generateCuts. destruct (fg_max g <=? 0)%Z eqn:E; [reflexivity|].
  apply Z.leb_gt in E. destruct (fg_max g <=? fg_num g)%Z eqn:E2; [reflexivity|]. apply Z.leb_gt in E2. lia.
Qed.

(** ** C59: every call returns *)
Theorem C59_returns debug ins g m x cs :
  wf_mip m -> clean_pairs m -> clean_lower m ->
  in_bounds m x -> (forall r, In r (m_rows m) -> row_sat r x) ->
  (debug = true -> forall r, In r (m_rows m) -> (length (r_form r) < 5000)%nat) ->
  exists g' cs', generateCuts debug ins g m x cs = Done (g', cs').
Proof.
  intros Hwf Hp Hl Hb Hx Hd.
  apply (generate_total debug ins m x Hwf (clean_pairs_ok m Hp) (clean_lower_ok m Hl)
           (fun _ => True) (fun _ _ _ _ _ _ _ => conj (fun _ _ => Logic.I) (fun _ _ => Logic.I))
           (fun _ => True) eps); auto.
  - discriminate.
  - intros D r Hr. specialize (Hd D r Hr).
    assert (L : inject_Z (Z.of_nat (length (r_form r))) <= inject_Z 4999) by (rewrite <- Zle_Qle; lia).
    set (n := inject_Z _) in *. change (inject_Z 4999) with 4999 in L. unfold eps. lra.
Qed.
(** In debugging builds, grid data need no limit on the rows. *)
Theorem C59_returns_grid debug ins g m x cs D1 D2 :
  wf_mip m -> clean_pairs m -> clean_lower m -> grid_data m D1 D2 ->
  in_bounds m x -> (forall r, In r (m_rows m) -> row_sat r x) ->
  exists g' cs', generateCuts debug ins g m x cs = Done (g', cs').
Proof.
  intros Hwf Hp Hl Hg Hb Hx.
  apply (generate_total debug ins m x Hwf (clean_pairs_ok m Hp) (clean_lower_ok m Hl)
           (on_grid D2) (grid_ratios m D1 D2 Hg) (on_grid (D1 * D2)) 0); auto.
  - lra.
  - apply grid_0.
  - apply grid_plus.
  - apply grid_opp.
  - apply grid_eq.
  - intros a Ha. apply (grid_small (D1 * D2)); [apply Hg|exact Ha].
  - apply (grid_rows m D1 D2 Hg).
  - intros _ r _. lra.
Qed.

Print Assumptions C57_valid.
Print Assumptions C57_valid_exact.
Print Assumptions C58_violated.
Print Assumptions C58_limited.
Print Assumptions C58_off.
Print Assumptions C59_returns.
Print Assumptions C59_returns_grid.

(** ** A case *)

(** Columns 0, 1 are flows, 2, 3 binary: y0 + y1 <= 5, y0 <= 4 x2, y1 <= 4 x3. *)
Definition ex_rows : list row :=
  [Row [(0%nat, 1); (2%nat, - (4))] None (Some 0);
   Row [(1%nat, 1); (3%nat, - (4))] None (Some 0);
   Row [(0%nat, 1); (1%nat, 1)] None (Some 5)].
Definition ex_lo (j : nat) : option Q := if (j <? 4)%nat then Some 0 else None.
Definition ex_hi (j : nat) : option Q := match j with 2%nat | 3%nat => Some 1 | _ => None end.
Definition ex_int (j : nat) : bool := match j with 2%nat | 3%nat => true | _ => false end.
Definition ex_m : mip := Mip 4 ex_rows ex_lo ex_hi ex_int.
Definition pt (l : list Q) : point := fun j => nth j l 0.
Definition ex_x : point := pt [7 # 2; 3 # 2; 7 # 8; 3 # 8].

(** A decision procedure for the hypotheses. *)
Definition clean_pair_b (r : row) (a b : Q) : bool :=
  let big q := eps <? Qabs q in
  match r_lo r, r_hi r with
  | None, None => false
  | Some l, Some h => negb (Qeq_bool l h) || negb (Qabs h <=? eps) || (Qeq_bool h 0 && big a && big b && (a * b <? 0))
  | Some q, None | None, Some q => negb (Qabs q <=? eps) || (Qeq_bool q 0 && big a && big b)
  end.
Definition clean_pairs_b (m : mip) : bool :=
  forallb (fun r => match r_form r with
                    | [(i, a); (k, b)] => negb (xorb (is_bin m i) (is_bin m k)) || clean_pair_b r a b
                    | _ => true
                    end) (m_rows m).
Lemma clean_pair_b_ok r a b : clean_pair_b r a b = true -> clean_pair r a b.
Proof.
  unfold clean_pair_b, clean_pair. destruct (r_lo r) as [l|], (r_hi r) as [h|]; cbv zeta; try discriminate.
  - intros H E Q1. apply Qeq_bool_iff in E. rewrite E in H. cbn [negb orb] in H.
    assert (Qabs h <=? eps = true) as Q2 by (destruct (Qabs h <=? eps) eqn:T; [reflexivity|qb; lra]).
    rewrite Q2 in H. cbn [negb orb] in H. rewrite !andb_true_iff in H. destruct H as (((H1 & H2) & H3) & H4).
    apply Qeq_bool_iff in H1. qb. auto.
  - intros H Q1.
    assert (Qabs l <=? eps = true) as Q2 by (destruct (Qabs l <=? eps) eqn:T; [reflexivity|qb; lra]).
    rewrite Q2 in H. cbn [negb orb] in H. rewrite !andb_true_iff in H. destruct H as ((H1 & H2) & H3).
    apply Qeq_bool_iff in H1. qb. auto.
  - intros H Q1.
    assert (Qabs h <=? eps = true) as Q2 by (destruct (Qabs h <=? eps) eqn:T; [reflexivity|qb; lra]).
    rewrite Q2 in H. cbn [negb orb] in H. rewrite !andb_true_iff in H. destruct H as ((H1 & H2) & H3).
    apply Qeq_bool_iff in H1. qb. auto.
Qed.
Lemma clean_pairs_b_ok m : clean_pairs_b m = true -> clean_pairs m.
Proof.
  unfold clean_pairs_b. rewrite forallb_forall. intros H r i a k b Hr F X. specialize (H r Hr). rewrite F in H.
  apply clean_pair_b_ok. rewrite !not_binary, !binary_iff in X.
  destruct X as [[X1 X2]|[X1 X2]]; rewrite X1, X2 in H; exact H.
Qed.

Example ex_wf : wf_mip ex_m.
Proof. apply wfb_ok. vm_compute. reflexivity. Qed.
Example ex_clean : clean_pairs ex_m.
Proof. apply clean_pairs_b_ok. vm_compute. reflexivity. Qed.
Example ex_lower : clean_lower ex_m.
Proof. intros j l _ H. simpl in H. unfold ex_lo in H. destruct (j <? 4)%nat; [|discriminate]. injection H as <-. left. discriminate. Qed.
Lemma grid_b D q z : q == z # D -> on_grid D q. Proof. intros H. now exists z. Qed.
Example ex_grid : grid_data ex_m 1 1.
Proof.
  constructor.
  - reflexivity.
  - intros r q Hr H. simpl in Hr. destruct Hr as [<-|[<-|[<-|[]]]]; simpl in H; destruct H as [H|H]; try discriminate;
      injection H as <-; eexists; symmetry; apply Qeq_refl || reflexivity.
  - intros r j a Hr H. simpl in Hr. destruct Hr as [<-|[<-|[<-|[]]]]; simpl in H;
      destruct H as [H|[H|[]]]; injection H as <- <-; ((exists 1%Z; reflexivity) || (exists (-4)%Z; reflexivity)).
  - intros j q [H|H]; simpl in H.
    + unfold ex_lo in H. destruct (j <? 4)%nat; [|discriminate]. injection H as <-. exists 0%Z. reflexivity.
    + destruct j as [|[|[|[|j]]]]; try discriminate; injection H as <-; exists 1%Z; reflexivity.
  - intros r i a k b Hr F B1 B2. apply binary_iff in B1. apply not_binary in B2.
    simpl in Hr. destruct Hr as [<-|[<-|[<-|[]]]]; simpl in F; destruct F as [F|F]; injection F as <- <- <- <-;
      try discriminate B1; try discriminate B2; exists 4%Z; reflexivity.
Qed.
Example ex_lp : in_bounds ex_m ex_x /\ forall r, In r (m_rows ex_m) -> row_sat r ex_x.
Proof.
  split; [apply bounds_b_ok; vm_compute; reflexivity|].
  intros r Hr. simpl in Hr. destruct Hr as [<-|[<-|[<-|[]]]]; split; simpl; try exact Logic.I; vm_compute; discriminate.
Qed.
(** y0 + y1 - x2 - x3 <= 3 *)
Example ex_cut : exists g' form ub, generateCuts true insert_new fg_new ex_m ex_x [] = Done (g', [RowCut form None (Some ub)]) /\
  map fst form = [0; 1; 2; 3]%nat /\ ub == 3 /\ (1 # 20) < rowcut_violation (RowCut form None (Some ub)) ex_x.
Proof. eexists _, _, _. split; [vm_compute; reflexivity|]. vm_compute. auto. Qed.

(** ** The hypotheses are needed *)

(** A free row y0 - 4 x2 (no bounds) is taken for the equation y0 = 4 x2: the
    cut removes a feasible point. *)
Definition free_rows : list row :=
  [Row [(0%nat, 1); (2%nat, - (4))] None None;
   Row [(1%nat, 1); (3%nat, - (4))] None (Some 0);
   Row [(0%nat, 1); (1%nat, 1)] None (Some 5)].
Definition free_m : mip := Mip 4 free_rows ex_lo ex_hi ex_int.
Theorem C57_free_row_refuted : exists m x p g' e,
  wf_mip m /\ clean_lower m /\ in_bounds m x /\
  generateCuts true insert_new fg_new m x [] = Done (g', [e]) /\
  feasible m p /\ rowcut_violation e p == 2.
Proof.
  exists free_m, ex_x, (pt [5; 0; 0; 0]). eexists _, _.
  split; [apply wfb_ok; vm_compute; reflexivity|]. split; [exact ex_lower|].
  split; [apply bounds_b_ok; vm_compute; reflexivity|].
  split; [vm_compute; reflexivity|].
  split; [apply feasible_b_ok; vm_compute; reflexivity|vm_compute; reflexivity].
Qed.

(** y0 + 4 x2 = 0 gives y0 the upper bound -4 x2; a later row y0 >= x2
    replaces its lower bound -4 x2, and the negative upper bound is used. *)
Definition over_rows : list row :=
  [Row [(0%nat, 1); (2%nat, 4)] (Some 0) (Some 0);
   Row [(0%nat, - (1)); (2%nat, 1)] None (Some 0);
   Row [(1%nat, 1); (3%nat, - (10))] None (Some 0);
   Row [(1%nat, 1); (0%nat, - (1))] None (Some 12)].
Definition over_m : mip := Mip 4 over_rows ex_lo ex_hi ex_int.
Theorem C57_same_sign_refuted : exists m x p g' e,
  wf_mip m /\ clean_lower m /\ in_bounds m x /\ (forall r, In r (m_rows m) -> row_sat r x) /\
  generateCuts true insert_new fg_new m x [] = Done (g', [e]) /\
  feasible m p /\ 1 < rowcut_violation e p.
Proof.
  exists over_m, (pt [0; 19 # 2; 0; 19 # 20]), (pt [0; 10; 0; 1]). eexists _, _.
  split; [apply wfb_ok; vm_compute; reflexivity|]. split; [exact ex_lower|].
  split; [apply bounds_b_ok; vm_compute; reflexivity|].
  split. { intros r Hr. simpl in Hr. destruct Hr as [<-|[<-|[<-|[<-|[]]]]]; split; simpl; try exact Logic.I; vm_compute; discriminate. }
  split; [vm_compute; reflexivity|].
  split; [apply feasible_b_ok; vm_compute; reflexivity|vm_compute; reflexivity].
Qed.

(** Coefficients of one column that nearly cancel are dropped: off the grid
    the cut may remove a feasible point by a little.  y0 + 4 x1 <= 6 + t,
    y0 <= (4 + t) x1 with t = 5e-7 gives y0 <= 2 instead of y0 - t x1 <= 2. *)
Definition off_t : Q := 1 # 2000000.
Definition off_rows : list row :=
  [Row [(0%nat, 1); (1%nat, - (4 + off_t))] None (Some 0);
   Row [(0%nat, 1); (1%nat, 4)] None (Some (6 + off_t))].
Definition off_m : mip :=
  Mip 2 off_rows (fun _ => Some 0) (fun j => if Nat.eqb j 1 then Some 1 else None) (fun j => Nat.eqb j 1).
Theorem C57_exact_refuted : exists m x p g' e,
  wf_mip m /\ clean_pairs m /\ clean_lower m /\ in_bounds m x /\ (forall r, In r (m_rows m) -> row_sat r x) /\
  generateCuts true insert_new fg_new m x [] = Done (g', [e]) /\
  feasible m p /\ ~ rowcut_sat e p.
Proof.
  exists off_m, (pt [3; 3 # 4]), (pt [2 + off_t; 1]). eexists _, _.
  split; [apply wfb_ok; vm_compute; reflexivity|]. split; [apply clean_pairs_b_ok; vm_compute; reflexivity|].
  split. { intros j l _ H. injection H as <-. left. discriminate. }
  split; [apply bounds_b_ok; vm_compute; reflexivity|].
  split. { intros r Hr. simpl in Hr. destruct Hr as [<-|[<-|[]]]; split; simpl; try exact Logic.I; vm_compute; discriminate. }
  split; [vm_compute; reflexivity|].
  split; [apply feasible_b_ok; vm_compute; reflexivity|]. apply rowcut_b_no. vm_compute. reflexivity.
Qed.

(** An equation with an explicit zero for the continuous column: division by
    zero. *)
Definition zero_m : mip :=
  Mip 2 [Row [(0%nat, 0); (1%nat, 1)] (Some 0) (Some 0)] (fun _ => Some 0)
      (fun j => if Nat.eqb j 1 then Some 1 else None) (fun j => Nat.eqb j 1).
Theorem C59_zero_coefficient_refuted : exists m x,
  wf_mip m /\ clean_lower m /\ feasible m x /\
  generateCuts false insert_new fg_new m x [] = Undef IntDivByZero.
Proof.
  exists zero_m, (pt []). split; [apply wfb_ok; vm_compute; reflexivity|].
  split. { intros j l _ H. injection H as <-. left. discriminate. }
  split; [apply feasible_b_ok; vm_compute; reflexivity|vm_compute; reflexivity].
Qed.
(** A column with bounds -5e-7 and 0 in a row with a negative coefficient:
    the assertion fails (division by zero without assertions). *)
Definition tiny_m : mip :=
  Mip 2 [Row [(0%nat, - (1)); (1%nat, 1)] None (Some 1)]
      (fun j => if Nat.eqb j 0 then Some (- off_t) else Some 0)
      (fun j => if Nat.eqb j 0 then Some 0 else None) (fun _ => false).
Theorem C59_tiny_lower_bound_refuted : exists m x,
  wf_mip m /\ clean_pairs m /\ in_bounds m x /\ (forall r, In r (m_rows m) -> row_sat r x) /\
  generateCuts true insert_new fg_new m x [] = Aborts /\
  generateCuts false insert_new fg_new m x [] = Undef IntDivByZero.
Proof.
  exists tiny_m, (pt [- off_t; 1 # 2]). split; [apply wfb_ok; vm_compute; reflexivity|].
  split; [apply clean_pairs_b_ok; vm_compute; reflexivity|].
  split; [apply bounds_b_ok; vm_compute; reflexivity|].
  split. { intros r Hr. simpl in Hr. destruct Hr as [<-|[]]; split; simpl; try exact Logic.I; vm_compute; discriminate. }
  split; vm_compute; reflexivity.
Qed.
Print Assumptions C57_free_row_refuted.
Print Assumptions C57_same_sign_refuted.
Print Assumptions C57_exact_refuted.
Print Assumptions C59_zero_coefficient_refuted.
Print Assumptions C59_tiny_lower_bound_refuted.
