(** * CglRedSplit: proofs about the cuts *)

From Coq Require Import Qabs.
From Verif Require Import Base Model_RedSplit Proofs_RedSplitReduce.
Local Open Scope Q_scope.

(** ** Sums *)
Lemma qsum_plus k f g : qsum k (fun i => f i + g i) == qsum k f + qsum k g.
Proof. induction k; cbn [qsum]; [ring|]. rewrite IHk. ring. Qed.
Lemma qsum_scale k a f : qsum k (fun i => a * f i) == a * qsum k f.
Proof. induction k; cbn [qsum]; [ring|]. rewrite IHk. ring. Qed.
Lemma qsum_zero k f : (forall i, (i < k)%nat -> f i == 0) -> qsum k f == 0.
Proof. induction k; intro H; cbn [qsum]; [reflexivity|]. rewrite IHk, (H k); auto. reflexivity. Qed.
Lemma qsum_le k f g : (forall i, (i < k)%nat -> f i <= g i) -> qsum k f <= qsum k g.
Proof. induction k; intro H; cbn [qsum]; [lra|]. specialize (IHk ltac:(auto)). specialize (H k ltac:(lia)). lra. Qed.
Lemma qsum_app n k f : qsum (n + k) f == qsum n f + qsum k (fun i => f (n + i)%nat).
Proof.
  induction k; [rewrite Nat.add_0_r; cbn [qsum]; ring|].
  rewrite Nat.add_succ_r. cbn [qsum]. rewrite IHk. ring.
Qed.
Lemma qsum_swap n k f : qsum n (fun i => qsum k (f i)) == qsum k (fun j => qsum n (fun i => f i j)).
Proof.
  induction n; cbn [qsum]; [symmetry; apply qsum_zero; reflexivity|].
  rewrite IHn, <- qsum_plus. reflexivity.
Qed.
Lemma qsum_one k f j : (j < k)%nat -> qsum k (fun i => if Nat.eqb i j then f i else 0) == f j.
Proof.
  induction k as [|k IH]; intro L; [lia|]. cbn [qsum]. destruct (Nat.eqb_spec k j) as [->|N].
  - rewrite qsum_zero; [ring|]. intros i Hi. destruct (Nat.eqb_spec i j); [lia|reflexivity].
  - rewrite IH by lia. ring.
Qed.
Lemma fold_qsum (f : nat -> Q) k : forall b, fold_left (fun s j => s + f j) (seq 0 k) b == b + qsum k f.
Proof.
  induction k; intro b; [cbn; ring|]. rewrite seq_S, fold_left_app. cbn [fold_left qsum]. rewrite IHk. cbn. ring.
Qed.
Lemma coef_cons j e v : coef (e :: v) j = if Nat.eqb (fst e) j then snd e else coef v j.
Proof. unfold coef. cbn [find]. destruct (Nat.eqb (fst e) j); reflexivity. Qed.
Lemma coef_out v j : ~ In j (map fst v) -> coef v j = 0.
Proof.
  induction v as [|e v IH]; intro H; [reflexivity|]. rewrite coef_cons. cbn in H.
  destruct (Nat.eqb_spec (fst e) j); [tauto|]. apply IH. tauto.
Qed.
Lemma value_coef n v (y : point) : NoDup (map fst v) -> (forall j a, In (j, a) v -> (j < n)%nat) ->
  value v y == qsum n (fun j => coef v j * y j).
Proof.
  induction v as [|(k, a) v IH]; intros N B; cbn [value].
  - symmetry. apply qsum_zero. intros. unfold coef. cbn. ring.
  - cbn in N. inversion N; subst. rewrite IH; [|assumption|intros; eapply B; right; eassumption].
    rewrite (qsum_ext n (fun j => coef ((k, a) :: v) j * y j)
               (fun j => (if Nat.eqb j k then a * y j else 0) + coef v j * y j)).
    + rewrite qsum_plus, (qsum_one n (fun j => a * y j) k) by (eapply B; left; reflexivity). reflexivity.
    + intros j _. rewrite coef_cons. cbn [fst snd]. rewrite (Nat.eqb_sym k j).
      destruct (Nat.eqb_spec j k) as [->|]; [rewrite (coef_out v k) by assumption; ring|ring].
Qed.

(** ** The split *)
Lemma split_ineq B b s : integral B -> 0 <= s -> B <= b + s -> B <= b - frac b + s / (1 - frac b).
Proof.
  intros I Ps L. pose proof (frac_lt1 b) as F1. pose proof (frac_nonneg b) as F0.
  assert (E : b - frac b == qfloor b) by (unfold frac; ring).
  assert (Pd : 0 <= s / (1 - frac b)) by (apply Qle_shift_div_l; lra).
  destruct (Qlt_le_dec b B) as [H|H].
  - assert (K : qfloor b + 1 <= B).
    { apply integral_lt_le1; [apply integral_inject|exact I|]. pose proof (qfloor_le b). lra. }
    assert (G : B - qfloor b <= s / (1 - frac b)); [|lra].
    apply Qle_shift_div_l; [lra|]. assert (b == qfloor b + frac b) by (unfold frac; ring). nra.
  - pose proof (integral_le_floor B b I H). lra.
Qed.

(** ** Dot products as sums *)
Lemma zdot_lin (pi : list Z) (rows : list nat) (f g h : nat -> Q) a :
  (forall r, In r rows -> f r == g r + a * h r) ->
  zdot pi (map f rows) == zdot pi (map g rows) + a * zdot pi (map h rows).
Proof.
  revert rows. unfold zdot. induction pi as [|z pi IH]; intros [|r rows] H; cbn [map dot]; try ring.
  rewrite (H r (or_introl eq_refl)), IH; [ring|]. intros; apply H; right; assumption.
Qed.
Lemma zdot_qsum (pi : list Z) (rows : list nat) k (f : nat -> nat -> Q) (u : nat -> Q) :
  zdot pi (map (fun r => qsum k (fun v => f r v * u v)) rows) == qsum k (fun v => zdot pi (map (fun r => f r v) rows) * u v).
Proof.
  revert rows. unfold zdot. induction pi as [|z pi IH]; intros [|r rows]; cbn [map dot];
    try (symmetry; apply qsum_zero; intros; ring).
  rewrite IH, <- qsum_scale, <- qsum_plus. apply qsum_ext. intros. ring.
Qed.
Lemma zdot_ext (pi : list Z) (rows : list nat) (f g : nat -> Q) :
  (forall r, In r rows -> f r == g r) -> zdot pi (map f rows) == zdot pi (map g rows).
Proof.
  intro H. rewrite (zdot_lin pi rows f g (fun _ => 0) 0); [ring|]. intros r Hr. rewrite (H r Hr). ring.
Qed.
Lemma zdot_zero (pi : list Z) (rows : list nat) (f : nat -> Q) : (forall r, In r rows -> f r == 0) -> zdot pi (map f rows) == 0.
Proof.
  revert rows. unfold zdot. induction pi as [|z pi IH]; intros [|r rows] H; cbn [map dot]; try reflexivity.
  rewrite (H r (or_introl eq_refl)), IH; [ring|]. intros; apply H; right; assumption.
Qed.
Lemma zdot_integral (pi : list Z) (rows : list nat) (f : nat -> Q) :
  (forall r, In r rows -> integral (f r)) -> integral (zdot pi (map f rows)).
Proof.
  revert rows. unfold zdot. induction pi as [|z pi IH]; intros [|r rows] H; cbn [map dot]; try apply integral_0.
  apply integral_plus; [apply integral_mult; [apply integral_inject|apply H; left; reflexivity]|].
  apply IH. intros; apply H; right; assumption.
Qed.
Lemma qsum_integral k f : (forall i, (i < k)%nat -> integral (f i)) -> integral (qsum k f).
Proof. induction k; intro H; cbn [qsum]; [apply integral_0|]. apply integral_plus; auto. Qed.

(** ** Stores *)
Lemma store_out l : forall f v, ~ In v (map fst l) -> store l f v = f v.
Proof.
  induction l as [|e l IH]; intros f v H; [reflexivity|]. cbn [store fold_left]. cbn in H.
  change (store l (upd f (fst e) (snd e)) v = f v). rewrite IH by tauto. apply upd_other. intro E. apply H. left. symmetry. exact E.
Qed.
Lemma store_map (g : nat -> Q) l : forall f v, In v l -> store (map (fun w => (w, g w)) l) f v = g v.
Proof.
  induction l as [|e l IH]; intros f v H; [destruct H|]. cbn [map store fold_left fst snd].
  change (store (map (fun w => (w, g w)) l) (upd f e (g e)) v = g v).
  destruct (in_dec Nat.eq_dec v l) as [H'|H']; [apply IH; exact H'|].
  destruct H as [->|H]; [|contradiction]. rewrite store_out; [apply upd_same|].
  rewrite map_map. cbn [fst]. rewrite map_id. exact H'.
Qed.
Lemma store_combine l : forall (T : list Q) f i, NoDup l -> length T = length l -> (i < length l)%nat ->
  store (combine l T) f (nth i l 0%nat) = nth i T 0.
Proof.
  induction l as [|e l IH]; intros T f i N L Li; [cbn in Li; lia|].
  destruct T as [|q T]; [discriminate L|]. inversion N; subst. cbn [combine store fold_left fst snd].
  change (store (combine l T) (upd f e q) (nth i (e :: l) 0%nat) = nth i (q :: T) 0).
  destruct i as [|i]; cbn [nth].
  - rewrite store_out; [apply upd_same|]. intro H. apply in_map_iff in H. destruct H as ((a & b) & E & H). cbn in E. subst a.
    apply in_combine_l in H. contradiction.
  - apply IH; [assumption|cbn in L; lia|cbn in Li; lia].
Qed.
Lemma store_add_sum k l (u : nat -> Q) : forall f, (forall v q, In (v, q) l -> (v < k)%nat) ->
  qsum k (fun v => store_add l f v * u v) == qsum k (fun v => f v * u v) + value l u.
Proof.
  induction l as [|(a, q) l IH]; intros f B; cbn [value]; [cbn; ring|].
  change (store_add ((a, q) :: l) f) with (store_add l (upd f a (f a + q))).
  rewrite IH by (intros; eapply B; right; eassumption).
  assert (La : (a < k)%nat) by (eapply B; left; reflexivity).
  rewrite (qsum_ext k (fun v => upd f a (f a + q) v * u v) (upd (fun v => f v * u v) a ((f a + q) * u a))).
  - rewrite qsum_upd by exact La. ring.
  - intros v _. unfold upd. destruct (Nat.eqb_spec v a) as [->|]; reflexivity.
Qed.
Lemma store_add_out l : forall f v, ~ In v (map fst l) -> store_add l f v = f v.
Proof.
  induction l as [|e l IH]; intros f v H; [reflexivity|].
  change (store_add (e :: l) f) with (store_add l (upd f (fst e) (f (fst e) + snd e))). cbn in H.
  rewrite IH by tauto. apply upd_other. intro E. apply H. left. symmetry. exact E.
Qed.

(** ** Comparisons of equal numbers *)
Lemma ltb_ext a b a' b' : a == a' -> b == b' -> (a <? b) = (a' <? b').
Proof.
  intros E1 E2. destruct (a <? b) eqn:H1, (a' <? b') eqn:H2; try reflexivity; qb; lra.
Qed.
Lemma qfloor_ext a b : a == b -> qfloor a = qfloor b.
Proof. intro E. unfold qfloor. rewrite E. reflexivity. Qed.
Lemma frac_ext a b : a == b -> frac a == frac b.
Proof. intro E. unfold frac. rewrite (qfloor_ext a b E), E. reflexivity. Qed.

(** ** Valid data *)
Section Valid.
  Variable sqrt cbrt : Q -> Q.
  Variable ins : list rowcut -> rowcut -> list rowcut.
  Variable p : rsparam.
  Variable c : call.
  Notation m := (c_mip c).
  Notation ncol := (m_ncols (c_mip c)).
  Notation nrow := (length (m_rows (c_mip c))).
  Notation x := (c_x c).
  Notation N := (ncol + nrow)%nat.

  (** the slack of row i at y *)
  Definition slack_at (y : point) (i : nat) : Q := row_rhs (row_of c i) - value (r_form (row_of c i)) y.
  Definition tval (y : point) (v : nat) : Q := if (v <? ncol)%nat then y v else slack_at y (v - ncol).

  (** The solution is the basic solution of the basis, and the rows of the tableau
      are exact. *)
  Record lp_ok : Prop := {
    l_wf : wf_mip m;
    l_act : forall i, (i < nrow)%nat -> c_act c i == value (r_form (row_of c i)) x;
    l_col : forall j, (j < ncol)%nat ->
      match c_cstat c j with
      | Upper => exists u, m_chi m j = Some u /\ u == x j
      | Lower => exists l, m_clo m j = Some l /\ l == x j
      | _ => True
      end;
    l_row : forall i, (i < nrow)%nat ->
      match c_rstat c i with
      | Upper => exists l, r_lo (row_of c i) = Some l /\ l == c_act c i
      | Lower => exists u, r_hi (row_of c i) = Some u /\ u == c_act c i
      | _ => True
      end;
    l_tab : forall r, (r < nrow)%nat -> (c_basis c r < ncol)%nat ->
      (forall j, (j < ncol)%nat ->
         fst (c_binva c r) j == qsum nrow (fun i => snd (c_binva c r) i * coef (r_form (row_of c i)) j)) /\
      (forall j, (j < ncol)%nat -> c_cstat c j = Basic -> fst (c_binva c r) j == if Nat.eqb j (c_basis c r) then 1 else 0) /\
      (forall i, (i < nrow)%nat -> c_rstat c i = Basic -> snd (c_binva c r) i == 0)
  }.
  (** Finite bounds of integer columns are integers, a column fixed near an integer
      is fixed at it, and rows whose bounds compare equal are equations. *)
  Record data_ok : Prop := {
    d_int : forall j, (j < ncol)%nat -> m_int m j = true ->
      (forall l, m_clo m j = Some l -> integral l) /\ (forall u, m_chi m j = Some u -> integral u);
    d_fix : forall j l u, (j < ncol)%nat -> m_clo m j = Some l -> m_chi m j = Some u -> u - l < p_eps p ->
      above p u < p_eps p -> l == u /\ integral u;
    d_eq : forall i l u, (i < nrow)%nat -> r_lo (row_of c i) = Some l -> r_hi (row_of c i) = Some u -> u - p_eps p < l -> l == u
  }.
  Record param_ok : Prop := {
    po_eps : 0 <= p_eps p; po_elim : 0 <= p_eps_elim p; po_away : 0 < p_away p;
    po_abs : 0 <= p_relax_abs p; po_rel : 0 <= p_relax_rel p;
    po_coeff : 0 <= p_eps_coeff p; po_lub : 0 <= p_eps_coeff_lub p
  }.
  Hypothesis LO : lp_ok.
  Hypothesis DO : data_ok.
  Hypothesis PO : param_ok.

  Lemma row_in i : (i < nrow)%nat -> In (row_of c i) (m_rows m).
  Proof. intro L. apply nth_In. exact L. Qed.
  Lemma row_value i (y : point) : (i < nrow)%nat ->
    value (r_form (row_of c i)) y == qsum ncol (fun j => coef (r_form (row_of c i)) j * y j).
  Proof.
    intro L. destruct (l_wf LO (row_of c i) (row_in i L)) as (W1 & W2). apply value_coef; assumption.
  Qed.

  (** ** One row of the tableau *)
  Lemma tableau_eq r (y : point) : (r < nrow)%nat -> (c_basis c r < ncol)%nat ->
    qsum N (fun v => entry c r v * (tval y v - tval x v)) == 0.
  Proof.
    intros Lr Lb. destruct (l_tab LO r Lr Lb) as (T1 & _). rewrite qsum_app.
    rewrite (qsum_ext ncol _ (fun j => qsum nrow (fun i => snd (c_binva c r) i * coef (r_form (row_of c i)) j * (y j - x j)))).
    2:{ intros j Lj. unfold entry, tval. apply Nat.ltb_lt in Lj as Lj'. rewrite Lj', (T1 j Lj).
        rewrite (Qmult_comm (qsum _ _)), <- qsum_scale. apply qsum_ext. intros. ring. }
    rewrite qsum_swap, <- qsum_plus. apply qsum_zero. intros i Li. unfold entry, tval, slack_at.
    destruct (Nat.ltb_spec (ncol + i) ncol); [lia|]. replace (ncol + i - ncol)%nat with i by lia.
    rewrite (row_value i y Li), (row_value i x Li).
    rewrite (qsum_ext ncol _ (fun j => snd (c_binva c r) i * (coef (r_form (row_of c i)) j * y j) +
                                       - snd (c_binva c r) i * (coef (r_form (row_of c i)) j * x j))) by (intros; ring).
    rewrite qsum_plus, !qsum_scale. ring.
  Qed.

  Hypothesis GM : good_model c = true.
  Lemma not_free v : (v < N)%nat -> vstat c v <> Free.
  Proof.
    intros L E. unfold good_model in GM. rewrite forallb_forall in GM. specialize (GM v). rewrite E in GM.
    discriminate GM. apply in_seq. lia.
  Qed.
  (** the part of the nonbasic variables *)
  Definition nb (f : nat -> Q) (v : nat) : Q := if nonbasic c v then f v else 0.
  Lemma tableau_nb r (y : point) : (r < nrow)%nat -> (c_basis c r < ncol)%nat -> c_cstat c (c_basis c r) = Basic ->
    y (c_basis c r) - x (c_basis c r) == - qsum N (fun v => entry c r v * nb (fun v => tval y v - tval x v) v).
  Proof.
    intros Lr Lb Bb. pose proof (tableau_eq r y Lr Lb) as E. destruct (l_tab LO r Lr Lb) as (_ & T2 & T3).
    rewrite (qsum_ext N _ (fun v => (if Nat.eqb v (c_basis c r) then y v - x v else 0) +
               entry c r v * nb (fun v => tval y v - tval x v) v)) in E.
    - rewrite qsum_plus, (qsum_one N (fun v => y v - x v)) in E by lia. lra.
    - intros v Lv. unfold nb, nonbasic. pose proof (not_free v Lv) as NF. destruct (vstat c v) eqn:Ev; try congruence.
      + assert (Ee : entry c r v == if Nat.eqb v (c_basis c r) then 1 else 0).
        { unfold entry, vstat in *. destruct (Nat.ltb_spec v ncol); [apply T2; assumption|].
          rewrite T3; [|lia|assumption]. destruct (Nat.eqb_spec v (c_basis c r)); [lia|reflexivity]. }
        rewrite Ee. destruct (Nat.eqb_spec v (c_basis c r)) as [->|]; [|ring].
        unfold tval. apply Nat.ltb_lt in Lb. rewrite Lb. ring.
      + destruct (Nat.eqb_spec v (c_basis c r)) as [->|]; [|ring]. unfold vstat in Ev. apply Nat.ltb_lt in Lb. rewrite Lb in Ev. congruence.
      + destruct (Nat.eqb_spec v (c_basis c r)) as [->|]; [|ring]. unfold vstat in Ev. apply Nat.ltb_lt in Lb. rewrite Lb in Ev. congruence.
  Qed.

  (** ** Combinations of rows *)
  Variable rows : list nat.
  Hypothesis RO : forall r, In r rows -> (r < nrow)%nat /\ (c_basis c r < ncol)%nat /\ frac_basic p c (c_basis c r) = true.
  Lemma frac_basic_ok k : frac_basic p c k = true -> c_cstat c k = Basic /\ is_integer p c k = true.
  Proof.
    unfold frac_basic. destruct (c_cstat c k); try discriminate. intro H. apply andb_true_iff in H. destruct H as (H & _).
    apply andb_true_iff in H. destruct H as (H & _). auto.
  Qed.
  Variable pi : list Z.
  (** the coefficients of the combination *)
  Definition acoef (v : nat) : Q := zdot pi (map (fun r => entry c r v) rows).
  Definition beta : Q := zdot pi (map (fun r => x (c_basis c r)) rows).
  Definition bvalue (y : point) : Q := zdot pi (map (fun r => y (c_basis c r)) rows).
  Lemma comb_eq (y : point) : bvalue y + qsum N (fun v => acoef v * nb (fun v => tval y v - tval x v) v) == beta.
  Proof.
    unfold bvalue, beta, acoef. rewrite <- (zdot_qsum pi rows N (entry c)).
    rewrite (zdot_lin pi rows (fun r => y (c_basis c r)) (fun r => x (c_basis c r))
              (fun r => qsum N (fun v => entry c r v * nb (fun v => tval y v - tval x v) v)) (-(1))); [ring|].
    intros r Hr. destruct (RO r Hr) as (R1 & R2 & R3). apply frac_basic_ok in R3.
    pose proof (tableau_nb r y R1 R2 (proj1 R3)). lra.
  Qed.

  Lemma is_integer_ok j (y : point) : (j < ncol)%nat -> is_integer p c j = true -> feasible m y -> integral (y j).
  Proof.
    intros L H (_ & Bd & Ig). unfold is_integer in H. apply orb_true_iff in H. destruct H as [H|H]; [apply Ig; assumption|].
    destruct (m_clo m j) as [l|] eqn:El; [|discriminate]. destruct (m_chi m j) as [u|] eqn:Eu; [|discriminate].
    apply andb_true_iff in H. destruct H as (H1 & H2). qb. destruct (d_fix DO j l u L El Eu H1 H2) as (E & I).
    destruct (Bd j L) as (B1 & B2). rewrite El in B1. rewrite Eu in B2. simpl in B1, B2. apply integral_eq with u; [lra|exact I].
  Qed.

  (** ** The row that is handed to the rounding *)
  Variable T : list Q.
  Hypothesis LT : length T = length (contVars p c).
  Hypothesis CT : forall k, (k < length (contVars p c))%nat ->
    nth k T 0 == zdot pi (map (fun r => entry c r (nth k (contVars p c) 0%nat)) rows).
  Lemma contVars_in v : In v (contVars p c) <-> (v < N)%nat /\ nonbasic c v = true /\ int_var p c v = false.
  Proof.
    unfold contVars. rewrite filter_In, in_seq, andb_true_iff, negb_true_iff. split; intros H; conjs; try apply H; lia.
  Qed.
  Lemma intVars_in v : In v (intVars p c) <-> (v < N)%nat /\ nonbasic c v = true /\ int_var p c v = true.
  Proof.
    unfold intVars. rewrite filter_In, in_seq, andb_true_iff. split; intros H; conjs; try apply H; lia.
  Qed.
  Notation grow := (generate_row p c rows pi T).
  Lemma combine_key (l : list nat) (l' : list Q) v : In v (map fst (combine l l')) -> In v l.
  Proof.
    intro H. apply in_map_iff in H. destruct H as ((a & b) & E & H). cbn in E. subst a. apply in_combine_l in H. exact H.
  Qed.
  Lemma grow_nb v : (v < N)%nat -> nonbasic c v = true -> grow v == acoef v.
  Proof.
    intros L H. unfold generate_row. destruct (int_var p c v) eqn:Iv.
    - rewrite store_out.
      + rewrite (store_map (fun v => zdot pi (map (fun r => entry c r v) rows))); [reflexivity|]. apply intVars_in. auto.
      + intro K. apply combine_key, contVars_in in K. destruct K as (_ & _ & K). congruence.
    - assert (K : In v (contVars p c)) by (apply contVars_in; auto). apply (In_nth _ _ 0%nat) in K.
      destruct K as (k & Lk & E). rewrite <- E at 1. rewrite store_combine; [|apply NoDup_filter, seq_NoDup|exact LT|exact Lk].
      rewrite (CT k Lk), E. reflexivity.
  Qed.
  Definition basics : list (nat * Q) := if p_cg2 p then [] else combine (map (c_basis c) rows) (map inject_Z pi).
  Lemma grow_b v : nonbasic c v = false -> grow v = store_add basics (fun _ => 0) v.
  Proof.
    intro H. unfold generate_row. rewrite store_out.
    - rewrite store_out; [reflexivity|]. rewrite map_map. cbn [fst]. rewrite map_id. intro K. apply intVars_in in K. destruct K as (_ & K & _). congruence.
    - intro K. apply combine_key, contVars_in in K. destruct K as (_ & K & _). congruence.
  Qed.
  Lemma basics_key v q : In (v, q) basics -> (v < ncol)%nat /\ c_cstat c v = Basic.
  Proof.
    unfold basics. destruct (p_cg2 p); [intros []|]. intro H. apply in_combine_l, in_map_iff in H.
    destruct H as (r & <- & Hr). destruct (RO r Hr) as (_ & R2 & R3). split; [exact R2|]. apply (frac_basic_ok _ R3).
  Qed.
  Lemma basics_value (u : point) : value basics u == if p_cg2 p then 0 else bvalue u.
  Proof.
    unfold basics, bvalue. destruct (p_cg2 p); [reflexivity|]. clear. revert rows. unfold zdot.
    induction pi as [|z l IH]; intros [|r rows]; cbn [map combine value dot]; try reflexivity. rewrite IH. ring.
  Qed.
  Lemma basic_stat v : (v < N)%nat -> nonbasic c v = false -> vstat c v = Basic.
  Proof. intros L H. pose proof (not_free v L). unfold nonbasic in H. destruct (vstat c v); congruence. Qed.
  Lemma grow_sum (u : point) (w : nat -> Q) : (forall v, (v < ncol)%nat -> w v == u v) ->
    qsum N (fun v => if nonbasic c v then 0 else grow v * w v) == if p_cg2 p then 0 else bvalue u.
  Proof.
    intro W. rewrite <- basics_value.
    assert (E : value basics u == value basics w).
    { assert (G : forall l, (forall v q, In (v, q) l -> (v < ncol)%nat) -> value l u == value l w).
      { induction l as [|(a, q) l IH]; intro B; cbn [value]; [reflexivity|].
        rewrite IH by (intros; eapply B; right; eassumption). rewrite (W a); [reflexivity|]. eapply B. left. reflexivity. }
      apply G. intros v q H. apply (basics_key v q H). }
    rewrite E. pose proof (store_add_sum N basics w (fun _ => 0)) as K.
    rewrite (qsum_zero N (fun v => 0 * w v)) in K by (intros; ring). rewrite Qplus_0_l in K.
    rewrite <- K by (intros v q H; pose proof (proj1 (basics_key v q H)); lia).
    apply qsum_ext. intros v Lv. destruct (nonbasic c v) eqn:H; [|rewrite grow_b by exact H; reflexivity].
    rewrite store_add_out; [ring|]. intro K'. apply in_map_iff in K'. destruct K' as ((a & q) & <- & H').
    destruct (basics_key a q H') as (L1 & L2). cbn [fst] in H. unfold nonbasic, vstat in H. apply Nat.ltb_lt in L1. rewrite L1, L2 in H. discriminate.
  Qed.
  Notation frow := (flip c grow).

  Definition bcoef (v : nat) : Q := match vstat c v with Upper => - acoef v | _ => acoef v end.
  Lemma flip_in row v : (v < N)%nat -> flip c row v = match vstat c v with Upper => - row v | _ => row v end.
  Proof. intro L. unfold flip. apply Nat.ltb_lt in L. rewrite L. reflexivity. Qed.
  Lemma frow_nb v : (v < N)%nat -> nonbasic c v = true -> frow v == bcoef v.
  Proof.
    intros L H. rewrite flip_in by exact L. unfold bcoef. destruct (vstat c v); rewrite (grow_nb v L H); reflexivity.
  Qed.
  Lemma frow_b v : (v < N)%nat -> nonbasic c v = false -> frow v = grow v.
  Proof. intros L H. rewrite flip_in by exact L. rewrite (basic_stat v L H). reflexivity. Qed.

  Lemma at_value_ok v : (v < N)%nat -> nonbasic c v = true -> at_value c v == tval x v.
  Proof.
    intros L H. unfold at_value, tval, nonbasic, vstat, slack_at, slack_val in *. destruct (Nat.ltb_spec v ncol) as [Lv|Lv].
    - pose proof (l_col LO v Lv) as C. destruct (c_cstat c v); try discriminate; destruct C as (b & Eb & E); rewrite Eb; exact E.
    - rewrite (l_act LO (v - ncol)) by lia. reflexivity.
  Qed.

  Section Point.
    Variable y : point.
    Hypothesis Feas : feasible m y.
    (** the distance of a nonbasic variable from its bound *)
    Definition gap (v : nat) : Q := match vstat c v with
                                    | Upper => tval x v - tval y v
                                    | Lower => tval y v - tval x v
                                    | _ => 0
                                    end.
    Lemma gap_ok v : (v < N)%nat -> 0 <= gap v /\ (int_var p c v = true -> integral (gap v)).
    Proof.
      intro L. unfold gap, vstat, tval, int_var. destruct (Nat.ltb_spec v ncol) as [Lv|Lv]; cbn [andb].
      - pose proof (l_col LO v Lv) as C. destruct Feas as (_ & Bd & _). destruct (Bd v Lv) as (B1 & B2).
        destruct (c_cstat c v).
        1,2: split; [lra|intros; apply integral_0].
        + destruct C as (u & Eu & E). rewrite Eu in B2. simpl in B2. split; [lra|]. intro Hi.
          apply integral_minus; [|apply is_integer_ok; assumption]. apply integral_eq with u; [exact E|].
          unfold is_integer in Hi. apply orb_true_iff in Hi. destruct Hi as [Hi|Hi]; [apply (proj2 (d_int DO v Lv Hi)); exact Eu|].
          destruct (m_clo m v) as [l|] eqn:El; [|discriminate]. rewrite Eu in Hi. apply andb_true_iff in Hi. destruct Hi as (H1 & H2). qb.
          apply (d_fix DO v l u); assumption.
        + destruct C as (l & El & E). rewrite El in B1. simpl in B1. split; [lra|]. intro Hi.
          apply integral_minus; [apply is_integer_ok; assumption|]. apply integral_eq with l; [exact E|].
          unfold is_integer in Hi. apply orb_true_iff in Hi. destruct Hi as [Hi|Hi]; [apply (proj1 (d_int DO v Lv Hi)); exact El|].
          rewrite El in Hi. destruct (m_chi m v) as [u|] eqn:Eu; [|discriminate]. apply andb_true_iff in Hi. destruct Hi as (H1 & H2). qb.
          destruct (d_fix DO v l u Lv El Eu H1 H2) as (E1 & E2). apply integral_eq with u; [lra|exact E2].
      - split; [|discriminate]. set (i := (v - ncol)%nat) in *. assert (Li : (i < nrow)%nat) by (unfold i; lia).
        pose proof (l_row LO i Li) as C. pose proof (l_act LO i Li) as A. destruct Feas as (Rs & _).
        destruct (Rs _ (row_in i Li)) as (B1 & B2). unfold slack_at. destruct (c_rstat c i); try lra.
        + destruct C as (l & El & E). rewrite El in B1. simpl in B1. lra.
        + destruct C as (u & Eu & E). rewrite Eu in B2. simpl in B2. lra.
    Qed.
    Lemma flip_term v : acoef v * nb (fun v => tval y v - tval x v) v == bcoef v * gap v.
    Proof. unfold nb, nonbasic, bcoef, gap. destruct (vstat c v); ring. Qed.

    (** ** Rounding *)
    Definition near (q : Q) : bool := Qabs (qfloor (q + (1 # 2)) - q) <? p_eps p * (Qabs (qfloor (q + (1 # 2))) + 1).
    Lemma above_cases q : (near q = true /\ above p q = 0) \/ (near q = false /\ above p q = frac q).
    Proof. unfold near, above, frac. cbv zeta. destruct (_ <? _); auto. Qed.
    Variable f0 : Q.
    Hypothesis F0 : p_away p <= f0.
    Hypothesis F1 : p_away p <= 1 - f0.
    Hypothesis FB : f0 == frac beta.
    (** integer part, error, and the two remainders of a coefficient *)
    Definition ip (v : nat) : Q :=
      if int_var p c v then
        if near (bcoef v) then qfloor (bcoef v + (1 # 2))
        else if f0 <? frac (bcoef v) then qfloor (bcoef v) + 1 else qfloor (bcoef v)
      else 0.
    Definition ep (v : nat) : Q :=
      if int_var p c v then if near (bcoef v) then bcoef v - qfloor (bcoef v + (1 # 2)) else 0 else 0.
    Definition sp (v : nat) : Q :=
      if int_var p c v then
        if near (bcoef v) then 0 else if f0 <? frac (bcoef v) then 1 - frac (bcoef v) else 0
      else if bcoef v <? 0 then - bcoef v else 0.
    Definition rp (v : nat) : Q :=
      if int_var p c v then
        if near (bcoef v) then 0 else if f0 <? frac (bcoef v) then 0 else frac (bcoef v)
      else if bcoef v <? 0 then 0 else bcoef v.
    Lemma parts v : bcoef v == ip v + ep v - sp v + rp v.
    Proof.
      unfold ip, ep, sp, rp. destruct (int_var p c v).
      - destruct (near (bcoef v)); [ring|]. destruct (f0 <? frac (bcoef v)); unfold frac; ring.
      - destruct (bcoef v <? 0); ring.
    Qed.
    Lemma sp_nonneg v : 0 <= sp v /\ 0 <= rp v.
    Proof.
      unfold sp, rp. pose proof (frac_lt1 (bcoef v)). pose proof (frac_nonneg (bcoef v)).
      destruct (int_var p c v), (near (bcoef v)), (f0 <? frac (bcoef v)), (bcoef v <? 0) eqn:E; qb; split; lra.
    Qed.
    Lemma ip_integral v : integral (ip v).
    Proof.
      unfold ip. destruct (int_var p c v); [|apply integral_0]. destruct (near (bcoef v)); [apply integral_inject|].
      destruct (f0 <? frac (bcoef v)); [apply integral_plus; [apply integral_inject|apply integral_1]|apply integral_inject].
    Qed.
    Definition ebound (v : nat) : Q := if int_var p c v then p_eps p * (Qabs (acoef v) + 2) else 0.
    Lemma ep_bound v : Qabs (ep v) <= ebound v.
    Proof.
      unfold ep, ebound. assert (Ab : Qabs (bcoef v) == Qabs (acoef v)).
      { unfold bcoef. destruct (vstat c v); try reflexivity. apply Qabs_opp. }
      assert (P : 0 <= p_eps p * (Qabs (acoef v) + 2)).
      { pose proof (Qabs_nonneg (acoef v)). pose proof (po_eps PO). nra. }
      destruct (int_var p c v); [|cbn; lra].
      destruct (near (bcoef v)) eqn:E; [|cbn; exact P]. unfold near in E. qb.
      set (q := bcoef v) in *. set (k := qfloor (q + (1 # 2))) in *.
      assert (K : Qabs k <= Qabs q + (1 # 2)).
      { pose proof (qfloor_le (q + (1 # 2))) as H1. pose proof (qfloor_lt (q + (1 # 2))) as H2. fold k in H1, H2.
        apply Qabs_Qle_condition. pose proof (Qle_Qabs q). pose proof (Qle_Qabs (- q)) as H4. rewrite Qabs_opp in H4. split; lra. }
      rewrite Qabs_Qminus in E. rewrite <- Ab. pose proof (po_eps PO). nra.
    Qed.

    (** the two sums *)
    Definition esum : Q := qsum N (fun v => ebound v * gap v).
    Lemma err_bound : Qabs (qsum N (fun v => ep v * gap v)) <= esum.
    Proof.
      unfold esum. assert (G : forall k, (k <= N)%nat -> Qabs (qsum k (fun v => ep v * gap v)) <= qsum k (fun v => ebound v * gap v)).
      { induction k as [|k IH]; intro L; cbn [qsum]; [apply Qle_refl|].
        eapply Qle_trans; [apply Qabs_triangle|]. apply Qplus_le_compat; [apply IH; lia|].
        rewrite Qabs_Qmult. destruct (gap_ok k ltac:(lia)) as (G0 & _). rewrite (Qabs_pos (gap k)) by exact G0.
        apply Qmult_le_compat_r; [apply ep_bound|exact G0]. }
      apply G. lia.
    Qed.
    Definition S_sum : Q := qsum N (fun v => sp v * gap v).
    Definition R_sum : Q := qsum N (fun v => rp v * gap v).
    Definition E_sum : Q := qsum N (fun v => ep v * gap v).
    Definition B_sum : Q := bvalue y + qsum N (fun v => ip v * gap v).
    Lemma sums : B_sum == beta - E_sum + S_sum - R_sum.
    Proof.
      unfold B_sum, E_sum, S_sum, R_sum. rewrite <- (comb_eq y).
      rewrite (qsum_ext N (fun v => acoef v * nb (fun v => tval y v - tval x v) v)
        (fun v => ip v * gap v + ep v * gap v + (-(1)) * (sp v * gap v) + rp v * gap v)).
      - rewrite !qsum_plus, qsum_scale. ring.
      - intros v _. rewrite flip_term, (parts v). ring.
    Qed.
    Lemma B_integral : integral B_sum.
    Proof.
      unfold B_sum. apply integral_plus.
      - apply zdot_integral. intros r Hr. destruct (RO r Hr) as (_ & R2 & R3). apply frac_basic_ok in R3.
        apply is_integer_ok; [exact R2|apply R3|exact Feas].
      - apply qsum_integral. intros v Lv. destruct (int_var p c v) eqn:E.
        + apply integral_mult; [apply ip_integral|apply (gap_ok v Lv); exact E].
        + apply integral_eq with 0; [|apply integral_0]. unfold ip. rewrite E. ring.
    Qed.
    Lemma S_nonneg : 0 <= S_sum /\ 0 <= R_sum.
    Proof.
      split; apply qsum_nonneg; intros v Lv; apply Qmult_le_0_compat; try apply sp_nonneg; apply (gap_ok v Lv).
    Qed.
    Lemma split_core : B_sum - S_sum / (1 - f0) + E_sum <= beta - f0 + 2 * esum / p_away p.
    Proof.
      pose proof err_bound as EB. fold E_sum in EB. pose proof sums as Su. destruct S_nonneg as (Sn & Rn).
      pose proof (po_away PO) as Pa. assert (En : 0 <= esum) by (eapply Qle_trans; [apply Qabs_nonneg|exact EB]).
      pose proof (Qle_Qabs E_sum) as E1. pose proof (Qle_Qabs (- E_sum)) as E2. rewrite Qabs_opp in E2.
      pose proof (split_ineq B_sum beta (S_sum + esum) B_integral ltac:(lra) ltac:(lra)) as G. rewrite <- FB in G.
      assert (D1 : (S_sum + esum) / (1 - f0) == S_sum / (1 - f0) + esum / (1 - f0)) by (field; lra).
      assert (D2 : esum / (1 - f0) <= esum / p_away p).
      { apply Qle_shift_div_r; [lra|]. assert (Te : esum / p_away p * p_away p == esum) by (field; lra).
        assert (0 <= esum / p_away p) by (apply Qle_shift_div_l; lra). nra. }
      assert (A1 : p_away p <= 1 # 2) by lra.
      assert (D3 : esum <= esum / p_away p) by (apply Qle_shift_div_l; [lra|nra]).
      assert (D4 : 2 * esum / p_away p == esum / p_away p + esum / p_away p) by (field; lra). lra.
    Qed.

    (** ** The rounded row *)
    Lemma near_ext a b : a == b -> near a = near b.
    Proof.
      intro E. assert (E' : a + (1 # 2) == b + (1 # 2)) by (rewrite E; reflexivity).
      unfold near. rewrite (qfloor_ext _ _ E'). apply ltb_ext; [rewrite E|]; reflexivity.
    Qed.
    Lemma above_ext a b : a == b -> above p a == above p b.
    Proof.
      intro E. pose proof (near_ext a b E) as Ne.
      destruct (above_cases a) as [(H1 & ->)|(H1 & ->)], (above_cases b) as [(H2 & ->)|(H2 & ->)]; try congruence; try reflexivity;
      apply frac_ext; exact E.
    Qed.
    Lemma nonbasic_split v : (v < N)%nat -> nonbasic c v = true ->
      (In v (intVars p c) /\ ~ In v (contVars p c) /\ int_var p c v = true) \/
      (In v (contVars p c) /\ int_var p c v = false).
    Proof.
      intros L H. rewrite contVars_in, intVars_in. destruct (int_var p c v) eqn:E; [left|right]; conjs; auto.
      intros (_ & _ & K). discriminate.
    Qed.
    Lemma map_keys (g : nat -> Q) (l : list nat) : map fst (map (fun w => (w, g w)) l) = l.
    Proof. rewrite map_map. cbn [fst]. apply map_id. Qed.
    (** storing one formula for the integer and one for the continuous nonbasic variables *)
    Lemma stored (gc gi : nat -> Q) (row : nat -> Q) v : (v < N)%nat ->
      let row1 := store (map (fun v => (v, gc v)) (contVars p c)) (store (map (fun v => (v, gi v)) (intVars p c)) row) in
      row1 v = if nonbasic c v then if int_var p c v then gi v else gc v else row v.
    Proof.
      intros L. cbv zeta. destruct (nonbasic c v) eqn:H.
      - destruct (nonbasic_split v L H) as [(I1 & I2 & I3)|(I1 & I3)]; rewrite I3.
        + rewrite store_out by (rewrite map_keys; exact I2). apply store_map. exact I1.
        + apply store_map. exact I1.
      - rewrite store_out, store_out; [reflexivity| |]; rewrite map_keys; intro K;
          [apply intVars_in in K|apply contVars_in in K]; destruct K as (_ & K & _); congruence.
    Qed.
    (** the left-hand side with the nonbasic variables measured from their bounds *)
    Definition lhs1 (row1 : nat -> Q) : Q :=
      qsum N (fun v => if nonbasic c v then row1 v * gap v else row1 v * tval y v).
    Lemma lhs1_split (row1 cv : nat -> Q) :
      (forall v, (v < N)%nat -> nonbasic c v = true -> row1 v == cv v) ->
      (forall v, (v < N)%nat -> nonbasic c v = false -> row1 v = grow v) ->
      lhs1 row1 == (if p_cg2 p then 0 else bvalue y) + qsum N (fun v => cv v * gap v).
    Proof.
      intros H1 H2. rewrite <- (grow_sum y (tval y)).
      - rewrite <- qsum_plus. apply qsum_ext. intros v Lv. destruct (nonbasic c v) eqn:H.
        + rewrite (H1 v Lv H). ring.
        + rewrite (H2 v Lv H). unfold gap. rewrite (basic_stat v Lv H). ring.
      - intros v Lv. unfold tval. apply Nat.ltb_lt in Lv. rewrite Lv. reflexivity.
    Qed.
    Notation bound := (2 * esum / p_away p).
    Definition f0_eq : Prop := f0 = above p beta.
    Lemma cgcut_ok row1 rhs1 : p_cg2 p = false -> f0_eq -> cgcut p c frow beta = Some (row1, rhs1) -> lhs1 row1 <= rhs1 + bound.
    Proof.
      intros CG FE E. unfold cgcut in E. cbv zeta in E. rewrite <- FE in E. destruct (_ || _); [discriminate|].
      apply Some_inj in E. apply pair_equal_spec in E. destruct E as (<- & <-). pose proof (po_away PO) as Pa.
      rewrite (lhs1_split _ (fun v => ip v + (- / (1 - f0)) * sp v + ep v)), CG.
      - rewrite (qsum_ext N _ (fun v => ip v * gap v + (- / (1 - f0)) * (sp v * gap v) + ep v * gap v)) by (intros; ring).
        rewrite !qsum_plus, qsum_scale. pose proof split_core as G. unfold B_sum, S_sum, E_sum in G. unfold Qdiv in G at 1. lra.
      - intros v Lv H. rewrite (stored (fun v => if frow v <? 0 then frow v / (1 - f0) else 0) _ frow v Lv), H.
        pose proof (frow_nb v Lv H) as Fv. unfold ip, sp, ep. cbv zeta. destruct (int_var p c v).
        + rewrite <- !(near_ext _ _ Fv), <- (ltb_ext f0 _ f0 _ (Qeq_refl f0) (frac_ext _ _ Fv)).
          pose proof (frac_ext _ _ Fv) as Ff.
          destruct (above_cases (frow v)) as [(N1 & A1)|(N1 & A1)]; rewrite N1, A1.
          * destruct (f0 <? 0) eqn:Z0; qb; [lra|]. rewrite Fv. ring.
          * destruct (f0 <? frac (frow v)) eqn:Z0.
            -- rewrite Ff, Fv. unfold frac at 1 2 3. field. lra.
            -- rewrite Ff, Fv. unfold frac. ring.
        + rewrite <- !(ltb_ext _ 0 _ 0 Fv (Qeq_refl 0)). destruct (frow v <? 0); [rewrite Fv; field; lra|ring].
      - intros v Lv H. rewrite (stored _ _ frow v Lv), H. apply frow_b; assumption.
    Qed.
    Lemma cgcut_2_ok row1 rhs1 : p_cg2 p = true -> f0_eq -> cgcut_2 p c frow beta = Some (row1, rhs1) -> lhs1 row1 <= rhs1 + bound.
    Proof.
      intros CG FE E. unfold cgcut_2 in E. cbv zeta in E. rewrite <- FE in E. destruct (_ || _); [discriminate|].
      apply Some_inj in E. apply pair_equal_spec in E. destruct E as (<- & <-). pose proof (po_away PO) as Pa.
      rewrite (lhs1_split _ (fun v => (- (f0 / (1 - f0))) * sp v + (-(1)) * rp v)), CG.
      - rewrite (qsum_ext N _ (fun v => (- (f0 / (1 - f0))) * (sp v * gap v) + (-(1)) * (rp v * gap v))) by (intros; ring).
        rewrite !qsum_plus, !qsum_scale. pose proof split_core as G. pose proof sums as Su.
        fold S_sum R_sum. assert (Q : S_sum / (1 - f0) == S_sum + f0 / (1 - f0) * S_sum) by (field; lra). lra.
      - intros v Lv H. rewrite (stored (fun v => if frow v <? 0 then frow v * (f0 / (1 - f0)) else - frow v) _ frow v Lv), H.
        pose proof (frow_nb v Lv H) as Fv. unfold rp, sp. cbv zeta. destruct (int_var p c v).
        + rewrite <- !(near_ext _ _ Fv), <- !(ltb_ext f0 _ f0 _ (Qeq_refl f0) (frac_ext _ _ Fv)).
          pose proof (frac_ext _ _ Fv) as Ff.
          destruct (above_cases (frow v)) as [(N1 & A1)|(N1 & A1)]; rewrite N1, A1.
          * destruct (f0 <? 0) eqn:Z0; qb; [lra|]. ring.
          * destruct (f0 <? frac (frow v)) eqn:Z0; rewrite Ff; ring.
        + rewrite <- !(ltb_ext _ 0 _ 0 Fv (Qeq_refl 0)). destruct (frow v <? 0); rewrite Fv; ring.
      - intros v Lv H. rewrite (stored _ _ frow v Lv), H. apply frow_b; assumption.
    Qed.
    (** ** Back to the columns *)
    Definition lhs2 (row2 : nat -> Q) : Q := qsum N (fun v => row2 v * tval y v).
    Lemma unflip_ok row1 rhs1 row2 rhs2 : unflip c row1 rhs1 = (row2, rhs2) ->
      lhs2 row2 - rhs2 == lhs1 row1 - rhs1.
    Proof.
      unfold unflip. cbv zeta. intro E. apply pair_equal_spec in E. destruct E as (<- & <-).
      set (fl := fold_left _ _ _).
      assert (F : fl == rhs1 + qsum N (nb (fun v => flip c row1 v * at_value c v))).
      { unfold fl. rewrite <- fold_qsum. generalize (seq 0 N). intro l.
        assert (G : forall l a b, a == b ->
           fold_left (fun s v => if nonbasic c v then s + flip c row1 v * at_value c v else s) l a ==
           fold_left (fun s j => s + nb (fun v => flip c row1 v * at_value c v) j) l b).
        { clear. induction l as [|v l IH]; intros a b E; cbn [fold_left]; [exact E|]. apply IH. unfold nb.
          destruct (nonbasic c v); rewrite E; ring. }
        apply G. reflexivity. }
      rewrite F. unfold lhs1, lhs2.
      rewrite (qsum_ext N (fun v => flip c row1 v * tval y v)
        (fun v => (if nonbasic c v then row1 v * gap v else row1 v * tval y v) + nb (fun v => flip c row1 v * at_value c v) v)).
      - rewrite qsum_plus. ring.
      - intros v Lv. unfold nb. destruct (nonbasic c v) eqn:H.
        + rewrite (at_value_ok v Lv H), flip_in by exact Lv. unfold gap. unfold nonbasic in H. destruct (vstat c v); try discriminate; ring.
        + rewrite flip_in by exact Lv. rewrite (basic_stat v Lv H). ring.
    Qed.
    Definition lhs3 (row3 : nat -> Q) : Q := qsum ncol (fun j => row3 j * y j).
    Definition act_row (row2 : nat -> Q) (i : nat) : bool :=
      (p_eps_elim p <? Qabs (row2 (ncol + i)%nat)) && negb (equality p (row_of c i)).
    Lemma elim_fold row2 rhs2 k : (k <= nrow)%nat ->
      let s := fold_left (elim_step p c row2) (seq 0 k) (row2, rhs2) in
      lhs3 (fst s) - snd s == lhs3 row2 - rhs2 + qsum k (fun i => if act_row row2 i then row2 (ncol + i)%nat * slack_at y i else 0).
    Proof.
      induction k as [|k IH]; intro L; cbv zeta in *; [cbn; ring|].
      rewrite seq_S, fold_left_app. cbn [fold_left qsum Nat.add]. specialize (IH ltac:(lia)).
      set (s := fold_left (elim_step p c row2) (seq 0 k) (row2, rhs2)) in *. unfold elim_step. cbv zeta. fold (act_row row2 k).
      destruct (act_row row2 k); cbn [fst snd]; [|rewrite IH; ring].
      assert (Sk : slack_at y k == row_rhs (row_of c k) - qsum ncol (fun j => coef (r_form (row_of c k)) j * y j))
        by (unfold slack_at; rewrite (row_value k y) by lia; reflexivity).
      rewrite Sk. unfold lhs3 in *.
      rewrite (qsum_ext ncol (fun j => (fst s j - row2 (ncol + k)%nat * coef (r_form (row_of c k)) j) * y j)
         (fun j => fst s j * y j + (- row2 (ncol + k)%nat) * (coef (r_form (row_of c k)) j * y j))) by (intros; ring).
      rewrite qsum_plus, qsum_scale. lra.
    Qed.
    Definition slack_sum : Q := qsum nrow (fun i => Qabs (slack_at y i)).
    Lemma eliminate_ok row2 rhs2 row3 rhs3 : eliminate_slacks p c row2 rhs2 = (row3, rhs3) ->
      lhs3 row3 - rhs3 <= lhs2 row2 - rhs2 + p_eps_elim p * slack_sum.
    Proof.
      intro E. pose proof (elim_fold row2 rhs2 nrow (le_n _)) as G. cbv zeta in G. unfold eliminate_slacks in E. rewrite E in G.
      cbn [fst snd] in G. rewrite G. unfold lhs2. rewrite qsum_app. unfold lhs3.
      rewrite (qsum_ext ncol (fun v => row2 v * tval y v) (fun v => row2 v * y v)).
      2:{ intros v Lv. unfold tval. apply Nat.ltb_lt in Lv. rewrite Lv. reflexivity. }
      unfold slack_sum. rewrite <- qsum_scale.
      assert (H : qsum nrow (fun i => if act_row row2 i then row2 (ncol + i)%nat * slack_at y i else 0) <=
        qsum nrow (fun i => row2 (ncol + i)%nat * tval y (ncol + i)) + qsum nrow (fun i => p_eps_elim p * Qabs (slack_at y i))); [|lra].
      rewrite <- qsum_plus. apply qsum_le. intros i Li. unfold tval.
      destruct (Nat.ltb_spec (ncol + i) ncol); [lia|]. replace (ncol + i - ncol)%nat with i by lia.
      pose proof (Qabs_nonneg (slack_at y i)) as A0. pose proof (po_elim PO) as Pe.
      assert (A1 : 0 <= p_eps_elim p * Qabs (slack_at y i)) by (apply Qmult_le_0_compat; assumption).
      unfold act_row. destruct (p_eps_elim p <? Qabs (row2 (ncol + i)%nat)) eqn:H1; cbn [andb].
      - destruct (equality p (row_of c i)) eqn:H2; cbn [negb]; [|lra].
        assert (Z : slack_at y i == 0).
        { unfold equality in H2. destruct (r_lo (row_of c i)) as [l|] eqn:El; [|discriminate].
          destruct (r_hi (row_of c i)) as [u|] eqn:Eu; [|discriminate]. qb. pose proof (d_eq DO i l u Li El Eu H2) as Q.
          destruct Feas as (Rs & _). destruct (Rs _ (row_in i Li)) as (B1 & B2). rewrite El in B1. rewrite Eu in B2. simpl in B1, B2.
          unfold slack_at, row_rhs. rewrite El, Eu. lra. }
        rewrite Z at 1. lra.
      - qb. set (a := row2 (ncol + i)%nat) in *. set (t := slack_at y i) in *.
        assert (A2 : - (a * t) <= Qabs a * Qabs t) by (rewrite <- Qabs_Qmult, <- Qabs_opp; apply Qle_Qabs).
        assert (A3 : Qabs a * Qabs t <= p_eps_elim p * Qabs t) by (apply Qmult_le_compat_r; assumption). lra.
    Qed.
    (** ** Packing *)
    Definition drop : Q := if p_eps_coeff p <? p_eps_coeff_lub p then p_eps_coeff p else p_eps_coeff_lub p.
    Lemma pack_fold row sc rhs k v rhs' : (k <= ncol)%nat ->
      fold_left (pack_step p c row sc) (seq 0 k) (Some ([], rhs)) = Some (v, rhs') ->
      value v y - rhs' <= qsum k (fun j => row j / sc * y j) - rhs + drop * qsum k (fun j => Qabs (y j)).
    Proof.
      revert v rhs'. induction k as [|k IH]; intros v rhs' L E.
      - cbn in E. apply Some_inj in E. apply pair_equal_spec in E. destruct E as (<- & <-). cbn [value qsum]. lra.
      - rewrite seq_S, fold_left_app in E. cbn [fold_left Nat.add] in E.
        destruct (fold_left (pack_step p c row sc) (seq 0 k) (Some ([], rhs))) as [(v0, rhs0)|] eqn:E0; [|discriminate].
        specialize (IH v0 rhs0 ltac:(lia) eq_refl). cbn [qsum]. unfold pack_step in E. cbv zeta in E.
        set (a := row k / sc) in *. pose proof (Qabs_nonneg (y k)) as Ak. pose proof (po_coeff PO) as P1. pose proof (po_lub PO) as P2.
        assert (Pd : 0 <= drop) by (unfold drop; destruct (p_eps_coeff p <? p_eps_coeff_lub p); lra).
        assert (Pk : 0 <= drop * Qabs (y k)) by (apply Qmult_le_0_compat; assumption).
        destruct Feas as (_ & Bd & _). destruct (Bd k ltac:(lia)) as (B1 & B2).
        assert (Take : (if (p_max_support p <? Z.of_nat (length (v0 ++ [(k, a)])))%Z then None else Some (v0 ++ [(k, a)], rhs0)) = Some (v, rhs') ->
          value v y - rhs' <= qsum k (fun j => row j / sc * y j) + a * y k - rhs + drop * (qsum k (fun j => Qabs (y j)) + Qabs (y k))).
        { clear E. intro E. destruct (_ <? _)%Z; [discriminate|]. apply Some_inj in E. apply pair_equal_spec in E. destruct E as (<- & <-).
          rewrite value_app. cbn [value]. lra. }
        destruct (p_eps_coeff p <? Qabs a) eqn:C1; [apply Take; exact E|].
        destruct ((0 <? a) && _) eqn:C2.
        { apply Some_inj in E. apply pair_equal_spec in E. destruct E as (<- & <-). apply andb_true_iff in C2. destruct C2 as (C2 & C3).
          apply negb_true_iff in C3. unfold is_lub in C3. destruct (m_clo m k) as [l|]; [|discriminate]. simpl in B1. cbn [opt0]. qb.
          assert (0 <= a * (y k - l)) by (apply Qmult_le_0_compat; lra). lra. }
        destruct ((a <? 0) && _) eqn:C3.
        { apply Some_inj in E. apply pair_equal_spec in E. destruct E as (<- & <-). apply andb_true_iff in C3. destruct C3 as (C3 & C4).
          apply negb_true_iff in C4. unfold is_lub in C4. destruct (m_chi m k) as [u|]; [|discriminate]. simpl in B2. cbn [opt0]. qb.
          assert (0 <= - a * (u - y k)) by (apply Qmult_le_0_compat; lra). lra. }
        destruct (p_eps_coeff_lub p <? Qabs a) eqn:C4; [apply Take; exact E|].
        apply Some_inj in E. apply pair_equal_spec in E. destruct E as (<- & <-). qb.
        assert (A1 : Qabs a <= drop) by (unfold drop; destruct (p_eps_coeff p <? p_eps_coeff_lub p); lra).
        assert (A2 : - (a * y k) <= Qabs a * Qabs (y k)) by (rewrite <- Qabs_Qmult, <- Qabs_opp; apply Qle_Qabs).
        assert (A3 : Qabs a * Qabs (y k) <= drop * Qabs (y k)) by (apply Qmult_le_compat_r; assumption). lra.
    Qed.
    Lemma scale_range row sc : row_scale_factor sqrt p c row = Some sc -> (1 # 50) <= sc <= 50.
    Proof.
      unfold row_scale_factor. cbv zeta. destruct (filter _ _); [discriminate|]. set (rv := if _ <? _ then _ else _).
      destruct (_ || _) eqn:R; [discriminate|]. destruct (_ && _); [|discriminate]. intro E. apply Some_inj in E. subst sc. qb. lra.
    Qed.
    Definition col_sum : Q := qsum ncol (fun j => Qabs (y j)).
    Lemma packed_ok row rhs v rhs' : generate_packed_row sqrt p c row rhs = Some (v, rhs') ->
      forall e, 0 <= e -> lhs3 row - rhs <= e -> value v y <= rhs' + 50 * e + drop * col_sum.
    Proof.
      unfold generate_packed_row. destruct (row_scale_factor sqrt p c row) as [sc|] eqn:Sc; [|discriminate].
      destruct (fold_left _ _ _) as [(v0, rhs0)|] eqn:E; [|discriminate]. cbv zeta. destruct (_ && _); [discriminate|].
      intro E'. apply Some_inj in E'. apply pair_equal_spec in E'. destruct E' as (<- & <-). intros e Pe He.
      apply pack_fold in E; [|lia]. pose proof (scale_range row sc Sc) as Sr. fold col_sum in E.
      rewrite (qsum_ext ncol (fun j => row j / sc * y j) (fun j => / sc * (row j * y j))) in E by (intros; unfold Qdiv; ring).
      rewrite qsum_scale in E. fold (lhs3 row) in E.
      assert (G : / sc * lhs3 row - rhs / sc <= 50 * e); [|lra].
      assert (Q : / sc * lhs3 row - rhs / sc == (lhs3 row - rhs) / sc) by (field; lra). rewrite Q.
      apply Qle_shift_div_r; [lra|]. nra.
    Qed.
  End Point.
  (** ** The cut of a row *)
  Lemma cut_valid (s : rst) i rc (y : point) : feasible m y -> s_pi s i = pi -> s_T s i = T -> cut_of sqrt p c rows s i = Some rc ->
    exists ub, rc_lb rc = None /\ rc_ub rc = Some ub /\
      value (rc_form rc) y <=
        ub - p_relax_abs p + 50 * (2 * esum y / p_away p + p_eps_elim p * slack_sum y) + drop * col_sum y.
  Proof.
    intros Fy Epi ET E. unfold cut_of, raw_cut in E. cbv zeta in E. rewrite Epi, ET in E. fold beta in E.
    destruct (if p_cg2 p then _ else _) as [(row1, rhs1)|] eqn:E1; [|discriminate].
    destruct (unflip c row1 rhs1) as (row2, rhs2) eqn:E2. destruct (eliminate_slacks p c row2 rhs2) as (row3, rhs3) eqn:E3.
    destruct (generate_packed_row sqrt p c row3 rhs3) as [(v, rhs4)|] eqn:E4; [|discriminate].
    destruct (length v <? 300)%nat; [|discriminate]. apply Some_inj in E. subst rc. cbn [rc_form rc_lb rc_ub].
    eexists. split; [reflexivity|]. split; [reflexivity|]. pose proof (po_away PO) as Pa.
    assert (H : p_away p <= above p beta /\ p_away p <= 1 - above p beta /\ above p beta == frac beta).
    { assert (H : (above p beta <? p_away p) || (1 - above p beta <? p_away p) = false).
      { destruct (p_cg2 p); unfold cgcut_2, cgcut in E1; cbv zeta in E1; destruct (_ || _); [discriminate|reflexivity|discriminate|reflexivity]. }
      qb. conjs; [assumption..|]. destruct (above_cases beta) as [(_ & A)|(_ & A)]; rewrite A in *; [lra|reflexivity]. }
    destruct H as (F0 & F1 & FB).
    assert (L1 : lhs1 y row1 <= rhs1 + 2 * esum y / p_away p).
    { destruct (p_cg2 p) eqn:CG.
      - eapply cgcut_2_ok with (f0 := above p beta); try eassumption. reflexivity.
      - eapply cgcut_ok with (f0 := above p beta); try eassumption. reflexivity. }
    pose proof (unflip_ok y row1 rhs1 row2 rhs2 E2) as L2.
    pose proof (eliminate_ok y Fy row2 rhs2 row3 rhs3 E3) as L3.
    assert (Pe : 0 <= 2 * esum y / p_away p + p_eps_elim p * slack_sum y).
    { assert (A : 0 <= esum y) by (eapply Qle_trans; [apply Qabs_nonneg|apply err_bound; eassumption]).
      assert (B : 0 <= p_eps_elim p * slack_sum y).
      { apply Qmult_le_0_compat; [apply PO|]. apply qsum_nonneg. intros. apply Qabs_nonneg. }
      assert (0 <= 2 * esum y / p_away p) by (apply Qle_shift_div_l; lra). lra. }
    pose proof (packed_ok y Fy row3 rhs3 v rhs4 E4 _ Pe ltac:(lra)) as L4.
    assert (A : p_relax_abs p <= if 0 <? p_relax_rel p then p_relax_abs p + Qabs rhs4 * p_relax_rel p else p_relax_abs p).
    { pose proof (po_abs PO). pose proof (po_rel PO). pose proof (Qabs_nonneg rhs4).
      destruct (_ <? _); [assert (0 <= Qabs rhs4 * p_relax_rel p) by (apply Qmult_le_0_compat; assumption); lra|lra]. }
    lra.
  Qed.
End Valid.
