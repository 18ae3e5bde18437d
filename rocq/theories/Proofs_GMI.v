(** * Proofs about CglGMI *)

From Coq Require Import Qabs Lqa Lia.
From Verif Require Import Base Model_ResidualCapacity Proofs_ResidualCapacity Model_GMI.
Local Open Scope Q_scope.

(** ** The Gomory mixed-integer inequality *)
(** Each term's coefficient split as integer part + p - n. *)
Definition ipart (f0 : Q) (i : bool) (a : Q) : Q :=
  if i then (if f0 <? frac a then qfloor a + 1 else qfloor a) else 0.
Definition ppart (f0 : Q) (i : bool) (a : Q) : Q :=
  if i then (if f0 <? frac a then 0 else frac a) else (if a <? 0 then 0 else a).
Definition npart (f0 : Q) (i : bool) (a : Q) : Q :=
  if i then (if f0 <? frac a then 1 - frac a else 0) else (if a <? 0 then - a else 0).
Lemma parts_sum f0 i a : a == ipart f0 i a + ppart f0 i a - npart f0 i a.
Proof.
  unfold ipart, ppart, npart, frac. destruct i; [destruct (f0 <? _)|destruct (a <? 0)]; ring.
Qed.
Lemma ppart_nonneg f0 i a : 0 <= ppart f0 i a.
Proof.
  unfold ppart. pose proof (frac_nonneg a). destruct i; [destruct (f0 <? _); lra|destruct (a <? 0) eqn:E; qb; lra].
Qed.
Lemma npart_nonneg f0 i a : 0 <= npart f0 i a.
Proof.
  unfold npart. pose proof (frac_lt1 a). destruct i; [destruct (f0 <? _); lra|destruct (a <? 0) eqn:E; qb; lra].
Qed.
Lemma ipart_integral f0 i a : integral (ipart f0 i a).
Proof.
  unfold ipart. destruct i; [destruct (f0 <? _)|].
  - apply integral_plus; [apply integral_inject|apply integral_1].
  - apply integral_inject.
  - apply integral_0.
Qed.
Lemma cut_parts f0 i a : cutCoefficient f0 i a == - ppart f0 i a - f0 / (1 - f0) * npart f0 i a.
Proof.
  unfold cutCoefficient, ppart, npart. destruct i; [destruct (f0 <? _)|destruct (a <? 0)]; ring.
Qed.

Lemma gmi_sum {A} (isint : A -> bool) (e z : A -> Q) l b w :
  (forall a, In a l -> 0 <= z a /\ (isint a = true -> integral (z a))) ->
  integral w -> w + sumq (map (fun a => e a * z a) l) == b ->
  sumq (map (fun a => cutCoefficient (frac b) (isint a) (e a) * z a) l) <= - frac b.
Proof.
  intros Hz W E. set (f0 := frac b) in *.
  pose proof (frac_nonneg b) as F0. pose proof (frac_lt1 b) as F1. fold f0 in F0, F1.
  set (N := sumq (map (fun a => ipart f0 (isint a) (e a) * z a) l)).
  set (P := sumq (map (fun a => ppart f0 (isint a) (e a) * z a) l)).
  set (M := sumq (map (fun a => npart f0 (isint a) (e a) * z a) l)).
  assert (S1 : sumq (map (fun a => e a * z a) l) == N + P - M).
  { unfold N, P, M. rewrite <- sumq_plus. 
    assert (X : forall u v, u - v == u + - v) by (intros; ring). rewrite X, <- sumq_opp, <- sumq_plus.
    apply sumq_ext. intros a _. rewrite (parts_sum f0 (isint a) (e a)) at 1. ring. }
  assert (S2 : sumq (map (fun a => cutCoefficient f0 (isint a) (e a) * z a) l) == - P - f0 / (1 - f0) * M).
  { unfold P, M. assert (X : forall u v, - u - v == - (u + v)) by (intros; ring).
    rewrite X, <- sumq_scale, <- sumq_plus, <- sumq_opp.
    apply sumq_ext. intros a _. rewrite cut_parts. ring. }
  assert (Nint : integral N).
  { apply sumq_integral. intros a Ia. destruct (Hz a Ia) as (_ & Hi). destruct (isint a) eqn:Ei.
    - apply integral_mult; [apply ipart_integral|auto].
    - apply integral_eq with 0; [unfold ipart; ring|apply integral_0]. }
  assert (nn : forall f : A -> Q, (forall a, 0 <= f a) -> 0 <= sumq (map (fun a => f a * z a) l)).
  { intros f Hf. clear -Hz Hf. induction l as [|a l IH]; simpl; [lra|].
    assert (0 <= f a * z a) by (apply Qmult_le_0_compat; [auto|apply Hz; simpl; auto]).
    assert (0 <= sumq (map (fun a => f a * z a) l)) by (apply IH; intros; apply Hz; simpl; auto). lra. }
  assert (P0 : 0 <= P) by (apply nn; intros; apply ppart_nonneg).
  assert (M0 : 0 <= M) by (apply nn; intros; apply npart_nonneg).
  assert (B : b == qfloor b + f0) by (unfold f0, frac; ring).
  assert (T : integral (w + N)) by (apply integral_plus; auto).
  rewrite S2. set (r := f0 / (1 - f0)).
  assert (R : r * (1 - f0) == f0) by (unfold r; field; lra).
  assert (R0 : 0 <= r).
  { unfold r, Qdiv. apply Qmult_le_0_compat; [lra|]. apply Qinv_le_0_compat. lra. }
  destruct (Qlt_le_dec (qfloor b) (w + N)) as [L|L].
  - assert (qfloor b + 1 <= w + N) by (apply integral_lt_le1; auto; apply integral_inject).
    assert (0 <= r * (M - (1 - f0))) by (apply Qmult_le_0_compat; lra). lra.
  - assert (0 <= r * M) by (apply Qmult_le_0_compat; lra). lra.
Qed.

(** ** Dense rows *)
Definition dval (n : nat) (cut : nat -> Q) (y : point) : Q := sumq (map (fun j => cut j * y j) (seq 0 n)).
Definition gap (n : nat) (s : dense) (y : point) : Q := dval n (fst s) y - snd s.

Lemma sum_delta (f : nat -> Q) n j : (j < n)%nat ->
  sumq (map (fun i => if Nat.eqb i j then f i else 0) (seq 0 n)) == f j.
Proof.
  intro L.
  assert (G : forall k a, sumq (map (fun i => if Nat.eqb i j then f i else 0) (seq a k))
               == if (Nat.leb a j && Nat.ltb j (a + k))%bool then f j else 0).
  { induction k as [|k IH]; intro a; cbn [seq map sumq fold_right].
    - destruct (Nat.leb a j) eqn:E1; cbn [andb]; [|reflexivity].
      apply Nat.leb_le in E1. destruct (Nat.ltb_spec j (a + 0)); [lia|reflexivity].
    - change (fold_right Qplus 0 ?l) with (sumq l). rewrite IH. replace (S a + k)%nat with (a + S k)%nat by lia.
      destruct (Nat.eqb_spec a j) as [->|N].
      + destruct (Nat.leb_spec (S j) j); [lia|]. destruct (Nat.leb_spec j j); [|lia].
        destruct (Nat.ltb_spec j (j + S k)); [|lia]. cbn [andb]. ring.
      + destruct (Nat.leb_spec (S a) j), (Nat.leb_spec a j); try lia; cbn [andb]; ring. }
  rewrite G. destruct (Nat.leb_spec 0 j); [|lia]. destruct (Nat.ltb_spec j (0 + n)); [|lia]. reflexivity.
Qed.
Lemma coef_cons j e v : coef (e :: v) j = if Nat.eqb (fst e) j then snd e else coef v j.
Proof. unfold coef. simpl. destruct (Nat.eqb (fst e) j); reflexivity. Qed.
Lemma coef_out v j : ~ In j (map fst v) -> coef v j = 0.
Proof.
  induction v as [|e v IH]; intro H; [reflexivity|]. rewrite coef_cons. simpl in H.
  destruct (Nat.eqb_spec (fst e) j); [exfalso; auto|auto].
Qed.
Lemma dval_coef n v y : NoDup (map fst v) -> (forall j a, In (j, a) v -> (j < n)%nat) ->
  dval n (coef v) y == value v y.
Proof.
  unfold dval. induction v as [|[j a] v IH]; intros ND L.
  - cbn [value]. transitivity (sumq (map (fun _ : nat => 0 * 0) (seq 0 n))).
    + apply sumq_ext. intros. unfold coef. simpl. ring.
    + rewrite (sumq_scale 0 (fun _ => 0)). ring.
  - cbn [value]. simpl in ND. inversion ND as [|? ? N1 N2]; subst.
    rewrite <- IH by (auto; intros; eapply L; simpl; eauto).
    rewrite <- (sum_delta (fun i => a * y i) n j) by (eapply L; simpl; eauto).
    rewrite <- sumq_plus. apply sumq_ext. intros i _. rewrite coef_cons. cbn [fst snd].
    rewrite Nat.eqb_sym. destruct (Nat.eqb_spec i j) as [->|]; [|ring].
    rewrite coef_out by auto. ring.
Qed.
Lemma dval_upd n cut j q y : (j < n)%nat -> cut j == 0 -> dval n (upd cut j q) y == dval n cut y + q * y j.
Proof.
  intros L Z. unfold dval. rewrite <- (sum_delta (fun i => q * y i) n j L), <- sumq_plus.
  apply sumq_ext. intros i _. unfold upd. destruct (Nat.eqb_spec i j) as [->|]; [rewrite Z|]; ring.
Qed.
Lemma dval_minus n cut q g y : dval n (fun j => cut j - q * g j) y == dval n cut y - q * dval n g y.
Proof.
  unfold dval. rewrite <- sumq_scale. assert (X : forall u v, u - v == u + - v) by (intros; ring).
  rewrite X, <- sumq_opp, <- sumq_plus. apply sumq_ext. intros. ring.
Qed.

Lemma isZero_false_nz a : isZero a = false -> ~ a == 0.
Proof.
  unfold isZero. intros H Z. qb. assert (Qabs a == 0) by (rewrite Z; reflexivity).
  unfold ezero in H. lra.
Qed.
(** zero, or too large for isZero *)
Definition clear0 (a : Q) : Prop := a == 0 \/ ezero < Qabs a.
Lemma clear_isZero a : clear0 a -> isZero a = true -> a == 0.
Proof. unfold clear0, isZero. intros [H|H] E; [exact H|qb; lra]. Qed.

Lemma pack_value (c : call) cut y :
  (forall j, (j < m_ncols (c_mip c))%nat -> clear0 (cut j)) ->
  value (packRow c cut) y == dval (m_ncols (c_mip c)) cut y.
Proof.
  intro C. unfold packRow, dval. rewrite value_sum.
  assert (G : forall l, (forall j, In j l -> clear0 (cut j)) ->
     sumq (map (fun e : nat * Q => snd e * y (fst e)) (filter (fun e => negb (isZero (snd e))) (map (fun j => (j, cut j)) l)))
     == sumq (map (fun j => cut j * y j) l)).
  { induction l as [|j l IH]; intro H; [reflexivity|]. cbn [map filter snd].
    destruct (isZero (cut j)) eqn:E; cbn [negb map sumq fold_right fst snd];
      change (fold_right Qplus 0 ?l) with (sumq l); rewrite IH by (intros; apply H; simpl; auto).
    - rewrite (clear_isZero (cut j)) by (auto; apply H; simpl; auto). ring.
    - reflexivity. }
  apply G. intros j Hj. apply in_seq in Hj. apply C. lia.
Qed.

(** ** The raw cut *)
(** within the tolerance, absolute or relative to either number *)
Definition near (e l u : Q) : Prop :=
  Qabs (l - u) <= e \/ Qabs (l - u) <= e * Qabs l \/ Qabs (l - u) <= e * Qabs u.
Lemma Qmax_or a b : Qmax a b = a \/ Qmax a b = b.
Proof. unfold Qmax. destruct (a <? b); auto. Qed.
Lemma Qmax_le1 a b : a <= Qmax a b.
Proof. unfold Qmax. destruct (a <? b) eqn:E; qb; lra. Qed.
Lemma areEqual_near e l u : areEqual e (Some l) (Some u) = true -> near e l u.
Proof.
  unfold areEqual, near. intro H. qb. destruct (Qmax_or e (e * Qmax (Qabs l) (Qabs u))) as [E|E]; rewrite E in H; [auto|].
  destruct (Qmax_or (Qabs l) (Qabs u)) as [E1|E1]; rewrite E1 in H; auto.
Qed.
Lemma eq_areEqual e l u : 0 <= e -> l == u -> areEqual e (Some l) (Some u) = true.
Proof.
  intros E H. unfold areEqual. apply Qle_bool_iff. pose proof (Qmax_le1 e (e * Qmax (Qabs l) (Qabs u))).
  assert (Z : Qabs (l - u) == 0) by (assert (Z : l - u == 0) by lra; rewrite Z; reflexivity). lra.
Qed.
Section Raw.
  Variable p : gparam.
  Variable c : call.
  Notation m := (c_mip c).
  Notation n := (m_ncols m).
  Notation x := (c_x c).

  (** How far a nonbasic column, or the slack of a row, is from the bound it
      sits at. *)
  Definition zcol (y : point) (j : nat) : Q :=
    if areEqual (gp_eps p) (m_clo m j) (m_chi m j) then 0
    else match c_cstat c j with Upper => x j - y j | Lower => y j - x j | _ => 0 end.
  Definition zrow (y : point) (i : nat) : Q :=
    match c_rstat c i with
    | Upper => value (r_form (row_of c i)) y - c_act c i
    | Lower => c_act c i - value (r_form (row_of c i)) y
    | _ => 0
    end.

  (** The tableau row [rho] of basic column [k] is exact and the solution is the
      basic solution. *)
  Record basis_ok (rho : vec) (k : nat) : Prop := {
    bo_wf : wf_mip m;
    bo_k : (k < n)%nat;
    bo_kbasic : c_cstat c k = Basic;
    bo_rows : forall i a, In (i, a) rho -> (i < length (m_rows m))%nat;
    bo_act : forall i a, In (i, a) rho -> c_act c i == value (r_form (row_of c i)) x;
    bo_basic : forall j, (j < n)%nat -> c_cstat c j = Basic -> rowElem c rho j == if Nat.eqb j k then 1 else 0;
    bo_col : forall j, (j < n)%nat ->
      match c_cstat c j with
      | Basic => True
      | Upper => exists u, m_chi m j = Some u /\ u == x j
      | Lower => exists l, m_clo m j = Some l /\ l == x j
      | Free => rowElem c rho j == 0 \/
                exists l u, m_clo m j = Some l /\ m_chi m j = Some u /\ l == u
      end;
    bo_row : forall i a, In (i, a) rho ->
      match c_rstat c i with
      | Upper => exists l, r_lo (row_of c i) = Some l /\ l == c_act c i
      | Lower => exists u, r_hi (row_of c i) = Some u /\ u == c_act c i
      | _ => a == 0 \/ exists l u, r_lo (row_of c i) = Some l /\ r_hi (row_of c i) = Some u /\
                                   l == c_act c i /\ u == c_act c i
      end
  }.
  (** No tolerance decides anything: bounds that compare equal are equal, and
      small numbers are zero. *)
  Record clear_ok (f0 : Q) (rho : vec) : Prop := {
    co_eps : 0 <= gp_eps p;
    co_col : forall j l u, (j < n)%nat -> m_clo m j = Some l -> m_chi m j = Some u -> near (gp_eps p) l u -> l == u;
    co_row : forall i l u, (i < length (m_rows m))%nat -> r_lo (row_of c i) = Some l -> r_hi (row_of c i) = Some u ->
      near (gp_eps p) l u -> l == u;
    co_elem : forall j, (j < n)%nat -> clear0 (rowElem c rho j);
    co_cut : forall j, (j < n)%nat ->
      clear0 (cutCoefficient f0 (isInteger p c j) (flip (c_cstat c j) (rowElem c rho j)));
    co_rho : forall i a, In (i, a) rho -> clear0 a;
    co_slack : forall i a, In (i, a) rho ->
      let q := cutCoefficient f0 false (flip (c_rstat c i) a) in
      clear0 q /\ (q == 0 \/ gp_eps_elim p < Qabs q);
    co_pack : forall j, (j < n)%nat -> clear0 (fst (rawCut p c f0 rho) j)
  }.
  (** Bounds of integer columns, when finite, are integers; and a column fixed
      near an integer is fixed at one. *)
  Definition int_bounds : Prop := forall j, (j < n)%nat ->
    (m_int m j = true -> (forall l, m_clo m j = Some l -> integral l) /\ (forall u, m_chi m j = Some u -> integral u)) /\
    (forall l u, m_clo m j = Some l -> m_chi m j = Some u -> l == u -> isIntegerValue u = true -> integral u).

  Variable rho : vec.
  Variable k : nat.
  Hypothesis BO : basis_ok rho k.
  Hypothesis CO : clear_ok (frac (x k)) rho.
  Hypothesis IB : int_bounds.
  Hypothesis XB : in_bounds m x.
  Notation f0 := (frac (x k)).

  Lemma row_in i : (i < length (m_rows m))%nat -> In (row_of c i) (m_rows m).
  Proof. intro L. apply nth_In. exact L. Qed.

  Lemma slack_rhs i : (i < length (m_rows m))%nat -> forall l u,
    r_lo (row_of c i) = Some l -> r_hi (row_of c i) = Some u ->
    areEqual (gp_eps p) (Some l) (Some u) = true -> row_rhs (row_of c i) == u.
  Proof.
    intros L l u El Eu A. pose proof (co_row _ _ CO i l u L El Eu (areEqual_near _ _ _ A)) as E.
    unfold row_rhs, row_sense. rewrite El, Eu. destruct (Qeq_bool l u); assumption || reflexivity.
  Qed.

  Section Point.
    Variable y : point.
    Hypothesis Feas : feasible m y.

    Lemma z_col_ok j : (j < n)%nat -> 0 <= zcol y j /\ (isInteger p c j = true -> integral (zcol y j)).
    Proof.
      intro L. unfold zcol. destruct (areEqual _ (m_clo m j) (m_chi m j)) eqn:A; [split; [lra|intro; apply integral_0]|].
      destruct Feas as (_ & Bd & Ig). destruct (Bd j L) as (Bl & Bu). pose proof (bo_col _ _ BO j L) as C.
      assert (Ii : isInteger p c j = true -> m_int m j = true).
      { intro H. unfold isInteger in H. rewrite A in H. cbn [andb] in H. rewrite orb_false_r in H. exact H. }
      assert (Yi : isInteger p c j = true -> integral (y j)) by auto.
      destruct (c_cstat c j).
      - split; [lra|intro; apply integral_0].
      - split; [lra|intro; apply integral_0].
      - destruct C as (u & E & Eu). rewrite E in Bu. simpl in Bu. split; [lra|].
        intro H. apply integral_minus; [|auto]. apply integral_eq with u; [exact Eu|]. exact (proj2 (proj1 (IB j L) (Ii H)) u E).
      - destruct C as (l & E & El). rewrite E in Bl. simpl in Bl. split; [lra|].
        intro H. apply integral_minus; [auto|]. apply integral_eq with l; [exact El|]. exact (proj1 (proj1 (IB j L) (Ii H)) l E).
    Qed.
    Lemma z_row_ok i a : In (i, a) rho -> 0 <= zrow y i.
    Proof.
      intro Hi. unfold zrow. pose proof (bo_row _ _ BO i a Hi) as R. pose proof (row_in i (bo_rows _ _ BO i a Hi)) as Ri.
      destruct Feas as (Rs & _). destruct (Rs _ Ri) as (Rl & Ru). destruct (c_rstat c i); try lra.
      - destruct R as (l & E & El). rewrite E in Rl. simpl in Rl. lra.
      - destruct R as (u & E & Eu). rewrite E in Ru. simpl in Ru. lra.
    Qed.

    (** each column's term of the tableau row *)
    Lemma term_col j : (j < n)%nat -> c_cstat c j <> Basic ->
      rowElem c rho j * (y j - x j) == flip (c_cstat c j) (rowElem c rho j) * zcol y j.
    Proof.
      intros L NB. pose proof (bo_col _ _ BO j L) as C. unfold zcol.
      destruct Feas as (_ & Bd & _). destruct (Bd j L) as (Bl & Bu). destruct (XB j L) as (Xl & Xu).
      destruct (areEqual _ (m_clo m j) (m_chi m j)) eqn:A.
      - assert (Eq : y j == x j).
        { destruct (m_clo m j) as [l|] eqn:El, (m_chi m j) as [u|] eqn:Eu; try discriminate A.
          pose proof (co_col _ _ CO j l u L El Eu (areEqual_near _ _ _ A)). simpl in *. lra. }
        rewrite Eq. ring.
      - destruct (c_cstat c j); try congruence; unfold flip; try ring.
        destruct C as [C|(l & u & El & Eu & C)]; [rewrite C; ring|].
        rewrite El, Eu, (eq_areEqual _ _ _ (co_eps _ _ CO) C) in A. discriminate.
    Qed.
    Lemma term_row i a : In (i, a) rho ->
      - (a * (value (r_form (row_of c i)) y - c_act c i)) == flip (c_rstat c i) a * zrow y i.
    Proof.
      intro Hi. pose proof (bo_row _ _ BO i a Hi) as R. unfold zrow.
      pose proof (row_in i (bo_rows _ _ BO i a Hi)) as Ri. destruct Feas as (Rs & _). destruct (Rs _ Ri) as (Rl & Ru).
      assert (Z : (a == 0 \/ exists l u, r_lo (row_of c i) = Some l /\ r_hi (row_of c i) = Some u /\
                                   l == c_act c i /\ u == c_act c i) ->
                  - (a * (value (r_form (row_of c i)) y - c_act c i)) == a * 0).
      { intros [Z|(l & u & El & Eu & Al & Au)]; [rewrite Z; ring|].
        rewrite El in Rl. rewrite Eu in Ru. simpl in Rl, Ru.
        assert (E : value (r_form (row_of c i)) y == c_act c i) by lra. rewrite E. ring. }
      destruct (c_rstat c i); unfold flip; auto; ring.
    Qed.

    Lemma rowElem_sum r j : rowElem c r j == sumq (map (fun e => coef (r_form (row_of c (fst e))) j * snd e) r).
    Proof.
      unfold rowElem. assert (G : forall l s, fold_left (fun s e => s + coef (r_form (row_of c (fst e))) j * snd e) l s
        == s + sumq (map (fun e : nat * Q => coef (r_form (row_of c (fst e))) j * snd e) l)).
      { induction l as [|e l IH]; intro s; cbn [fold_left map sumq fold_right]; [ring|].
        change (fold_right Qplus 0 ?l) with (sumq l). rewrite IH. ring. }
      rewrite G. ring.
    Qed.
    Lemma dval_rowElem r : (forall i a, In (i, a) r -> (i < length (m_rows m))%nat) -> forall w : point,
      dval n (rowElem c r) w == sumq (map (fun e => snd e * value (r_form (row_of c (fst e))) w) r).
    Proof.
      induction r as [|[i a] r IH]; intros L w.
      - unfold dval. cbn [map sumq fold_right]. transitivity (sumq (map (fun _ : nat => 0 * 0) (seq 0 n))).
        + apply sumq_ext. intros. rewrite rowElem_sum. cbn. ring.
        + rewrite (sumq_scale 0 (fun _ => 0)). ring.
      - cbn [map sumq fold_right fst snd]. change (fold_right Qplus 0 ?l) with (sumq l).
        rewrite <- IH by (intros; eapply L; simpl; eauto).
        destruct (bo_wf _ _ BO (row_of c i)) as (ND & Lt); [apply row_in; eapply L; simpl; eauto|].
        rewrite <- (dval_coef n _ w ND Lt). unfold dval. rewrite <- sumq_scale, <- sumq_plus.
        apply sumq_ext. intros j _. rewrite !rowElem_sum. cbn [map sumq fold_right fst snd].
        change (fold_right Qplus 0 ?l) with (sumq l). ring.
    Qed.

    (** The items of the tableau row: nonbasic columns and slacks. *)
    Definition items : list (nat + nat * Q) :=
      map inl (filter (fun j => match c_cstat c j with Basic => false | _ => true end) (seq 0 n)) ++ map inr rho.
    Definition iint (a : nat + nat * Q) : bool := match a with inl j => isInteger p c j | inr _ => false end.
    Definition ielem (a : nat + nat * Q) : Q :=
      match a with inl j => flip (c_cstat c j) (rowElem c rho j) | inr (i, b) => flip (c_rstat c i) b end.
    Definition iz (a : nat + nat * Q) : Q := match a with inl j => zcol y j | inr (i, b) => zrow y i end.

    Lemma tableau : y k + sumq (map (fun a => ielem a * iz a) items) == x k.
    Proof.
      unfold items. rewrite map_app, sumq_app, !map_map.
      assert (R : sumq (map (fun e => ielem (inr e) * iz (inr e)) rho) ==
                  - (dval n (rowElem c rho) y - dval n (rowElem c rho) x)).
      { rewrite !(dval_rowElem rho) by (intros; eapply (bo_rows _ _ BO); eauto).
        assert (X : forall u v, - (u - v) == - u + v) by (intros; ring). rewrite X, <- sumq_opp, <- sumq_plus.
        apply sumq_ext. intros [i a] Hi. unfold ielem, iz. rewrite <- term_row by exact Hi.
        rewrite (bo_act _ _ BO i a Hi). cbn [fst snd]. ring. }
      rewrite R. unfold dval.
      assert (X : forall u v, - (u - v) == - (u + - v)) by (intros; ring). rewrite X, <- sumq_opp, <- sumq_plus.
      rewrite (sumq_sel (fun j => ielem (inl j) * iz (inl j))).
      assert (K : y k - x k == sumq (map (fun i => if Nat.eqb i k then y i - x i else 0) (seq 0 n)))
        by (rewrite (sum_delta (fun i => y i - x i)); [reflexivity|apply (bo_k _ _ BO)]).
      enough (T : y k - x k + sumq (map (fun a => if match c_cstat c a with Basic => false | _ => true end
                    then ielem (inl a) * iz (inl a) else 0) (seq 0 n))
                 == sumq (map (fun a => rowElem c rho a * y a + - (rowElem c rho a * x a)) (seq 0 n))) by lra.
      rewrite K, <- sumq_plus. apply sumq_ext. intros j Hj. apply in_seq in Hj. unfold ielem, iz.
      assert (L : (j < n)%nat) by lia.
      pose proof (bo_basic _ _ BO j L) as B. pose proof (term_col j L) as T.
      destruct (Nat.eqb_spec j k) as [->|NE].
      - rewrite (bo_kbasic _ _ BO) in *. rewrite B by reflexivity. ring.
      - destruct (c_cstat c j) eqn:Es; try (rewrite <- T by congruence; ring).
        rewrite B by reflexivity. ring.
    Qed.

    Lemma item_ok a : In a items -> 0 <= iz a /\ (iint a = true -> integral (iz a)).
    Proof.
      unfold items. intro H. apply in_app_or in H. destruct H as [H|H]; apply in_map_iff in H; destruct H as (e & <- & H).
      - apply filter_In in H. destruct H as (H & _). apply in_seq in H. apply z_col_ok. lia.
      - destruct e as [i b]. split; [eapply z_row_ok; eauto|discriminate].
    Qed.

    (** the columns' contribution *)
    Definition icol (j : nat) : Q :=
      match c_cstat c j with
      | Basic => 0
      | st => cutCoefficient f0 (isInteger p c j) (flip st (rowElem c rho j)) * zcol y j
      end.
    Lemma cutCoefficient_0 f b : cutCoefficient f b 0 == 0 \/ f < 0.
    Proof.
      unfold cutCoefficient. destruct b.
      - assert (F : frac 0 == 0) by reflexivity. destruct (f <? frac 0) eqn:E; qb; [right; lra|left; rewrite F; ring].
      - left. reflexivity.
    Qed.
    Lemma cutCoefficient_zero f b a : 0 <= f -> a == 0 -> cutCoefficient f b a == 0.
    Proof.
      intros F Z. unfold cutCoefficient. destruct b.
      - assert (Fz : frac a == 0).
        { unfold frac, qfloor. assert (Fz : Qfloor a = 0%Z) by (apply Qfloor_unique; change (inject_Z 0) with 0; lra).
          rewrite Fz. change (inject_Z 0) with 0. lra. }
        destruct (f <? frac a) eqn:E; qb; lra.
      - destruct (a <? 0) eqn:E; qb; lra.
    Qed.

    Lemma col_step_gap s j : (j < n)%nat -> fst s j == 0 ->
      gap n (col_step p c f0 rho s j) y == gap n s y + icol j /\
      (forall i, i <> j -> fst (col_step p c f0 rho s j) i = fst s i).
    Proof.
      intros L Z. destruct s as [cut rhs]. unfold col_step, icol. cbn [fst] in Z.
      pose proof (bo_col _ _ BO j L) as C. pose proof (frac_nonneg (x k)) as Fn.
      pose proof (co_cut _ _ CO j L) as CC.
      assert (same : forall v, v == 0 -> gap n (cut, rhs) y == gap n (cut, rhs) y + v /\
                     (forall i, i <> j -> fst (cut, rhs) i = fst (cut, rhs) i)) by (intros v V; split; [rewrite V; ring|auto]).
      destruct (c_cstat c j) eqn:Es; [| apply same; reflexivity | |];
        (destruct (areEqual (gp_eps p) (m_clo m j) (m_chi m j)) eqn:A;
          [apply same; unfold zcol; rewrite A; ring|];
         destruct (isZero (rowElem c rho j)) eqn:Ze;
          [apply same; apply clear_isZero in Ze; [|apply (co_elem _ _ CO j L)];
           rewrite (cutCoefficient_zero f0 (isInteger p c j)); [ring|exact Fn|unfold flip; lra]|];
         cbv zeta;
         match goal with |- context [isZero ?q] => destruct (isZero q) eqn:Zq end;
          [apply same; apply clear_isZero in Zq; [|exact CC]; rewrite Zq; ring|]).
      - destruct C as [C|(l & u & El & Eu & C)].
        + apply isZero_false_nz in Ze. contradiction.
        + rewrite El, Eu, (eq_areEqual _ _ _ (co_eps _ _ CO) C) in A. discriminate.
      - destruct C as (u & Eu & Xu). rewrite Eu in *. unfold gap. cbn [fst snd opt0]. split.
        + rewrite dval_upd by auto. unfold zcol. rewrite Es, Eu, A, Xu. ring.
        + intros i Hi. unfold upd. destruct (Nat.eqb_spec i j); congruence.
      - destruct C as (u & Eu & Xu). rewrite Eu in *. unfold gap. cbn [fst snd opt0]. split.
        + rewrite dval_upd by auto. unfold zcol. rewrite Es, Eu, A, Xu. ring.
        + intros i Hi. unfold upd. destruct (Nat.eqb_spec i j); congruence.
    Qed.
    Lemma cols_gap l s : NoDup l -> (forall j, In j l -> (j < n)%nat /\ fst s j == 0) ->
      gap n (fold_left (col_step p c f0 rho) l s) y == gap n s y + sumq (map icol l).
    Proof.
      revert s. induction l as [|j l IH]; intros s ND H; cbn [fold_left map sumq fold_right]; [ring|].
      change (fold_right Qplus 0 ?l) with (sumq l). inversion ND as [|? ? N1 N2]; subst.
      destruct (H j) as (L & Z); [simpl; auto|]. destruct (col_step_gap s j L Z) as (G & Fr).
      rewrite IH; [rewrite G; ring|exact N2|]. intros i Hi. destruct (H i) as (Li & Zi); [simpl; auto|].
      split; [exact Li|]. rewrite Fr; [exact Zi|]. intros ->. contradiction.
    Qed.

    Lemma eliminate_gap q i s : (i < length (m_rows m))%nat -> (q == 0 \/ gp_eps_elim p < Qabs q) ->
      gap n (eliminateSlack p c q i s) y == gap n s y - q * (value (r_form (row_of c i)) y - row_rhs (row_of c i)).
    Proof.
      intros L Q0. destruct s as [cut rhs]. unfold eliminateSlack. cbv zeta.
      destruct (bo_wf _ _ BO (row_of c i) (row_in i L)) as (ND & Lt).
      destruct Feas as (Rs & _). destruct (Rs _ (row_in i L)) as (Rl & Ru).
      destruct (areEqual (gp_eps p) (r_lo (row_of c i)) (r_hi (row_of c i))) eqn:A.
      - rewrite orb_true_r.
        destruct (r_lo (row_of c i)) as [l|] eqn:El, (r_hi (row_of c i)) as [u|] eqn:Eu; try discriminate A.
        pose proof (co_row _ _ CO i l u L El Eu (areEqual_near _ _ _ A)) as E. rewrite (slack_rhs i L l u El Eu A). simpl in Rl, Ru.
        assert (V : value (r_form (row_of c i)) y == u) by lra. rewrite V. ring.
      - rewrite orb_false_r. destruct (gp_eps_elim p <? Qabs q) eqn:E; cbn [negb].
        + unfold gap. cbn [fst snd]. rewrite dval_minus, (dval_coef n _ y ND Lt). ring.
        + qb. destruct Q0 as [Q0|Q0]; [|lra]. rewrite Q0. ring.
    Qed.
    Definition irow (e : nat * Q) : Q :=
      cutCoefficient f0 false (flip (c_rstat c (fst e)) (snd e)) * zrow y (fst e).
    Lemma slack_step_gap s i a : In (i, a) rho ->
      gap n (slack_step p c f0 s (i, a)) y == gap n s y + irow (i, a).
    Proof.
      intro Hi. destruct s as [cut rhs]. unfold slack_step, irow. cbn [fst snd].
      pose proof (bo_rows _ _ BO i a Hi) as L. pose proof (bo_row _ _ BO i a Hi) as R.
      destruct (co_slack _ _ CO i a Hi) as (C1 & C2). pose proof (frac_nonneg (x k)) as Fn.
      destruct (isZero a) eqn:Za.
      - apply clear_isZero in Za; [|apply (co_rho _ _ CO i a Hi)].
        rewrite (cutCoefficient_zero f0 false); [ring|exact Fn|]. unfold flip. destruct (c_rstat c i); lra.
      - cbv zeta. match goal with |- context [isZero ?q] => set (q0 := q) in *; destruct (isZero q0) eqn:Zq end.
        + apply clear_isZero in Zq; [|exact C1]. rewrite Zq. ring.
        + assert (C2' : - q0 == 0 \/ gp_eps_elim p < Qabs (- q0)).
          { destruct C2 as [C2|C2]; [left; lra|right]. rewrite Qabs_opp. exact C2. }
          assert (fx : (a == 0 \/ exists l u, r_lo (row_of c i) = Some l /\ r_hi (row_of c i) = Some u /\
                                   l == c_act c i /\ u == c_act c i) ->
                   gap n (eliminateSlack p c q0 i (cut, rhs)) y == gap n (cut, rhs) y + q0 * 0).
          { intros [Z|(l & u & El & Eu & Al & Au)]; [apply isZero_false_nz in Za; contradiction|].
            rewrite eliminate_gap by auto. destruct Feas as (Rs & _). destruct (Rs _ (row_in i L)) as (Rl & Ru).
            rewrite El in Rl. rewrite Eu in Ru. simpl in Rl, Ru.
            assert (V : value (r_form (row_of c i)) y == u) by lra.
            assert (W : row_rhs (row_of c i) == u).
            { unfold row_rhs, row_sense. rewrite El, Eu. destruct (Qeq_bool l u); lra. }
            rewrite V, W. ring. }
          unfold zrow. destruct (c_rstat c i) eqn:Es; [apply fx; exact R|apply fx; exact R| |];
            rewrite eliminate_gap by auto; unfold gap, slackVal; cbn [fst snd]; ring.
    Qed.
    Lemma slacks_gap l s : incl l rho ->
      gap n (fold_left (slack_step p c f0) l s) y == gap n s y + sumq (map irow l).
    Proof.
      revert s. induction l as [|[i a] l IH]; intros s H; cbn [fold_left map sumq fold_right]; [ring|].
      change (fold_right Qplus 0 ?l) with (sumq l).
      rewrite IH by (intros e He; apply H; simpl; auto).
      rewrite slack_step_gap by (apply H; simpl; auto). ring.
    Qed.

    Lemma raw_gap : gap n (rawCut p c f0 rho) y ==
      f0 + sumq (map (fun a => cutCoefficient f0 (iint a) (ielem a) * iz a) items).
    Proof.
      unfold rawCut. rewrite slacks_gap by apply incl_refl.
      rewrite cols_gap; [|apply seq_NoDup|].
      2: { intros j Hj. apply in_seq in Hj. split; [lia|reflexivity]. }
      unfold items. rewrite map_app, sumq_app, !map_map.
      assert (E1 : sumq (map icol (seq 0 n)) == sumq (map (fun j => cutCoefficient f0 (iint (inl j)) (ielem (inl j)) * iz (inl j))
        (filter (fun j => match c_cstat c j with Basic => false | _ => true end) (seq 0 n)))).
      { rewrite (sumq_sel (fun j => cutCoefficient f0 (iint (inl j)) (ielem (inl j)) * iz (inl j))).
        apply sumq_ext. intros j _. unfold icol, iint, ielem, iz. destruct (c_cstat c j); reflexivity. }
      assert (E2 : sumq (map irow rho) == sumq (map (fun e => cutCoefficient f0 (iint (inr e)) (ielem (inr e)) * iz (inr e)) rho)).
      { apply sumq_ext. intros [i a] _. reflexivity. }
      rewrite E1, E2. unfold gap. cbn [fst snd].
      assert (D : dval n (fun _ => 0) y == 0).
      { unfold dval. rewrite (sumq_scale 0 y). ring. }
      rewrite D. ring.
    Qed.
    Lemma basic_integral : isInteger p c k = true -> integral (y k).
    Proof.
      pose proof (bo_k _ _ BO) as L. unfold isInteger. destruct Feas as (_ & Bd & Ig). intro H.
      apply orb_prop in H. destruct H as [H|H]; [apply Ig; auto|]. apply andb_prop in H. destruct H as (A & U).
      destruct (Bd k L) as (Bl & Bu).
      destruct (m_clo m k) as [l|] eqn:El, (m_chi m k) as [u|] eqn:Eu; try discriminate.
      pose proof (co_col _ _ CO k l u L El Eu (areEqual_near _ _ _ A)) as E. simpl in Bl, Bu.
      apply integral_eq with u; [lra|]. exact (proj2 (IB k L) l u El Eu E U).
    Qed.
    Lemma raw_valid : isInteger p c k = true -> gap n (rawCut p c f0 rho) y <= 0.
    Proof.
      intro Ik. pose proof (basic_integral Ik) as Yk. rewrite raw_gap.
      pose proof (gmi_sum iint ielem iz items (x k) (y k) item_ok Yk tableau). lra.
    Qed.
  End Point.

  (** The solution itself is cut off, by the fractional part. *)
  Lemma raw_at_x : (forall i, (i < length (m_rows m))%nat -> row_sat (row_of c i) x) -> gap n (rawCut p c f0 rho) x == f0.
  Proof.
    intro Rx.
    assert (Zr : forall i a, In (i, a) rho -> zrow x i == 0).
    { intros i a Hi. unfold zrow. pose proof (bo_act _ _ BO i a Hi). destruct (c_rstat c i); lra. }
    assert (Zc : forall j, zcol x j == 0) by (intro j; unfold zcol; destruct (areEqual _ _ _); destruct (c_cstat c j); lra).
    unfold rawCut.
    assert (G1 : forall l s, NoDup l -> (forall j, In j l -> (j < n)%nat /\ fst s j == 0) ->
              gap n (fold_left (col_step p c f0 rho) l s) x == gap n s x).
    { induction l as [|j l IH]; intros s ND H; cbn [fold_left]; [reflexivity|]. inversion ND as [|? ? N1 N2]; subst.
      destruct (H j) as (L & Z); [simpl; auto|].
      assert (G : gap n (col_step p c f0 rho s j) x == gap n s x /\
                  (forall i, i <> j -> fst (col_step p c f0 rho s j) i = fst s i)).
      { destruct s as [cut rhs]. unfold col_step. cbn [fst] in Z. pose proof (bo_col _ _ BO j L) as C.
        destruct (c_cstat c j) eqn:Es; [| split; [reflexivity|auto] | |];
          (destruct (areEqual (gp_eps p) (m_clo m j) (m_chi m j)) eqn:A; [split; [reflexivity|auto]|];
           destruct (isZero (rowElem c rho j)) eqn:Ze; [split; [reflexivity|auto]|]; cbv zeta;
           match goal with |- context [isZero ?q] => destruct (isZero q) eqn:Zq end; [split; [reflexivity|auto]|]).
        - destruct C as [C|(l0 & u & El & Eu & C)].
          + apply isZero_false_nz in Ze. contradiction.
          + rewrite El, Eu, (eq_areEqual _ _ _ (co_eps _ _ CO) C) in A. discriminate.
        - destruct C as (u & Eu & Xu). rewrite Eu. unfold gap. cbn [fst snd opt0]. split.
          + rewrite dval_upd by auto. rewrite Xu. ring.
          + intros i Hi. unfold upd. destruct (Nat.eqb_spec i j); congruence.
        - destruct C as (u & Eu & Xu). rewrite Eu. unfold gap. cbn [fst snd opt0]. split.
          + rewrite dval_upd by auto. rewrite Xu. ring.
          + intros i Hi. unfold upd. destruct (Nat.eqb_spec i j); congruence. }
      destruct G as (G & Fr). rewrite IH; [exact G|exact N2|]. intros i Hi. destruct (H i) as (Li & Zi); [simpl; auto|].
      split; [exact Li|]. rewrite Fr; [exact Zi|]. intros ->. contradiction. }
    assert (G2 : forall l s, incl l rho -> gap n (fold_left (slack_step p c f0) l s) x == gap n s x).
    { induction l as [|[i a] l IH]; intros s H; cbn [fold_left]; [reflexivity|].
      rewrite IH by (intros e He; apply H; simpl; auto). assert (Hi : In (i, a) rho) by (apply H; simpl; auto).
      destruct s as [cut rhs]. unfold slack_step.
      destruct (isZero a) eqn:Za; [reflexivity|]. cbv zeta.
      match goal with |- context [isZero ?q] => set (q0 := q) in *; destruct (isZero q0) eqn:Zq end; [reflexivity|].
      pose proof (bo_rows _ _ BO i a Hi) as L. pose proof (bo_row _ _ BO i a Hi) as R.
      pose proof (bo_act _ _ BO i a Hi) as Ac.
      destruct (bo_wf _ _ BO (row_of c i) (row_in i L)) as (ND & Lt). destruct (Rx i L) as (Rl & Ru).
      destruct (co_slack _ _ CO i a Hi) as (_ & C2). fold q0 in C2.
      assert (El : forall q s, (q == 0 \/ gp_eps_elim p < Qabs q) -> gap n (eliminateSlack p c q i s) x ==
                  gap n s x - q * (value (r_form (row_of c i)) x - row_rhs (row_of c i))).
      { intros q [cut' rhs'] Q0. unfold eliminateSlack. cbv zeta.
        destruct (areEqual (gp_eps p) (r_lo (row_of c i)) (r_hi (row_of c i))) eqn:A.
        - rewrite orb_true_r.
          destruct (r_lo (row_of c i)) as [l0|] eqn:El, (r_hi (row_of c i)) as [u|] eqn:Eu; try discriminate A.
          pose proof (co_row _ _ CO i l0 u L El Eu (areEqual_near _ _ _ A)) as E.
          rewrite (slack_rhs i L l0 u El Eu A). simpl in Rl, Ru.
          assert (V : value (r_form (row_of c i)) x == u) by lra. rewrite V. ring.
        - rewrite orb_false_r. destruct (gp_eps_elim p <? Qabs q) eqn:E; cbn [negb].
          + unfold gap. cbn [fst snd]. rewrite dval_minus, (dval_coef n _ x ND Lt). ring.
          + qb. destruct Q0 as [Q0|Q0]; [|lra]. rewrite Q0. ring. }
      assert (C2' : - q0 == 0 \/ gp_eps_elim p < Qabs (- q0)).
      { destruct C2 as [C2|C2]; [left; lra|right]. rewrite Qabs_opp. exact C2. }
      destruct (c_rstat c i) eqn:Es.
      - destruct R as [R|(l0 & u & E1 & E2 & A1 & A2)]; [apply isZero_false_nz in Za; contradiction|].
        rewrite El by auto. assert (W : row_rhs (row_of c i) == u).
        { unfold row_rhs, row_sense. rewrite E1, E2. destruct (Qeq_bool l0 u); lra. }
        rewrite W, <- Ac, A2. ring.
      - destruct R as [R|(l0 & u & E1 & E2 & A1 & A2)]; [apply isZero_false_nz in Za; contradiction|].
        rewrite El by auto. assert (W : row_rhs (row_of c i) == u).
        { unfold row_rhs, row_sense. rewrite E1, E2. destruct (Qeq_bool l0 u); lra. }
        rewrite W, <- Ac, A2. ring.
      - rewrite El by auto. unfold gap, slackVal. cbn [fst snd]. rewrite <- Ac. ring.
      - rewrite El by auto. unfold gap, slackVal. cbn [fst snd]. rewrite <- Ac. ring. }
    rewrite G2 by apply incl_refl. rewrite G1; [|apply seq_NoDup|].
    - unfold gap. cbn [fst snd]. assert (D : dval n (fun _ => 0) x == 0) by (unfold dval; rewrite (sumq_scale 0 x); ring).
      rewrite D. ring.
    - intros j Hj. apply in_seq in Hj. split; [lia|reflexivity].
  Qed.
End Raw.

(** ** Cleaning *)
Section Clean.
  Variable sqrt : Q -> Q.
  Variable rat : Q -> Z * Z.
  Variable p : gparam.
  Variable c : call.
  Notation m := (c_mip c).
  Notation n := (m_ncols m).
  Notation x := (c_x c).

  (** A coefficient may be dropped when it is zero, or when it is not minute and
      the bound that has to replace its column is finite. *)
  Definition droppable (j : nat) (a : Q) : Prop :=
    a == 0 \/ (ezero < Qabs a /\ (0 < a -> m_clo m j <> None) /\ (a < 0 -> m_chi m j <> None)).
  (** What has to hold when a step is reached: dropped coefficients are
      droppable, and a cut scaled to integers still cuts off the solution. *)
  Definition step_ok (t : cstep) (s : vec * Q) : Prop :=
    match t with
    | Remove => forall j a, In (j, a) (fst s) -> Qabs a <= gp_eps_coeff p -> droppable j a
    | Scale 0 | ScaleOrRelax => snd s < value (fst s) x
    | _ => True
    end.
  Fixpoint run_ok (l : list cstep) (s : vec * Q) : Prop :=
    match l with
    | [] => True
    | t :: l' => step_ok t s /\ forall s', do_step sqrt rat p c t s = Done (Some s') -> run_ok l' s'
    end.
  Record params_ok : Prop := {
    po_eps : 0 < gp_eps p; po_abs : 0 <= gp_relax_abs p; po_viol : 0 <= gp_minviol p
  }.
  Hypothesis PO : params_ok.

  Definition cols_in (v : vec) : Prop := forall j a, In (j, a) v -> (j < n)%nat.
  Definition ok_at (y : point) (s : vec * Q) : Prop := value (fst s) y <= snd s.

  Lemma value_map_mult q v y : value (map (fun e => (fst e, snd e * q)) v) y == q * value v y.
  Proof. induction v as [|[j a] v IH]; simpl; [ring|]. rewrite IH. ring. Qed.
  Lemma value_map_div q v y : value (map (fun e => (fst e, snd e / q)) v) y == value v y / q.
  Proof. induction v as [|[j a] v IH]; simpl; [unfold Qdiv; ring|]. rewrite IH. unfold Qdiv. ring. Qed.
  Lemma cols_in_map (f : Q -> Q) v : cols_in v -> cols_in (map (fun e => (fst e, f (snd e))) v).
  Proof. intros H j a Hi. apply in_map_iff in Hi. destruct Hi as ([i b] & E & Hi). inversion E; subst. eapply H; eauto. Qed.

  Lemma relax_ok y s : ok_at y s -> ok_at y (relaxRhs p s).
  Proof.
    unfold ok_at, relaxRhs. cbn [fst snd]. intro H. pose proof (po_abs PO).
    destruct (0 <? gp_relax_rel p) eqn:E; qb; [|lra].
    assert (0 <= Qabs (snd s) * gp_relax_rel p) by (apply Qmult_le_0_compat; [apply Qabs_nonneg|lra]). lra.
  Qed.
  Lemma div_ok y q s : 0 < q -> ok_at y s -> ok_at y (div_by q s).
  Proof.
    unfold ok_at, div_by. cbn [fst snd]. intros Hq H. rewrite value_map_div. unfold Qdiv.
    apply Qmult_le_compat_r; [exact H|]. apply Qinv_le_0_compat. lra.
  Qed.
  Lemma fold_remove l : forall v b y,
    in_bounds m y -> cols_in l ->
    (forall j a, In (j, a) l -> Qabs a <= gp_eps_coeff p -> droppable j a) ->
    let r := fold_left (remove_step p c) l (v, b) in
    value (fst r) y - snd r <= value v y + value l y - b /\
    (cols_in v -> cols_in (fst r)).
  Proof.
    induction l as [|[j a] l IH]; intros v b y Y C D; [cbn; split; [lra|auto]|].
    cbv zeta. cbn [fold_left value].
    assert (D' : forall j0 a0, In (j0, a0) l -> Qabs a0 <= gp_eps_coeff p -> droppable j0 a0) by (intros; apply D; simpl; auto).
    assert (C' : cols_in l) by (intros j0 a0 H0; eapply C; simpl; eauto).
    assert (Lj : (j < n)%nat) by (eapply C; simpl; eauto).
    destruct (Y j Lj) as (Yl & Yu).
    destruct (small p a) eqn:Sm.
    - unfold small in Sm. apply andb_prop in Sm. destruct Sm as (Nz & Le). apply negb_true_iff in Nz.
      apply isZero_false_nz in Nz. apply Qle_bool_iff in Le.
      destruct (D j a (or_introl eq_refl) Le) as [Z|(_ & Lo & Hi)]; [contradiction|].
      remember (remove_step p c (v, b) (j, a)) as st eqn:Est. unfold remove_step in Est.
      assert (Sm : small p a = true).
      { unfold small. apply andb_true_intro. split; [|apply Qle_bool_iff; exact Le].
        unfold isZero. apply negb_true_iff. destruct (Qabs a <=? ezero) eqn:E; [|reflexivity].
        destruct (D j a (or_introl eq_refl) Le) as [Z|(G & _)]; [contradiction|]. qb. lra. }
      rewrite Sm in Est. destruct (0 <? a) eqn:Pa; qb.
      + destruct (m_clo m j) as [lo|]; [|exfalso; apply Lo; auto]. simpl in Yl. subst st.
        destruct (IH v (b - a * lo) y Y C' D') as (I1 & I2). split; [|exact I2].
        assert (0 <= a * (y j - lo)) by (apply Qmult_le_0_compat; lra). lra.
      + assert (a < 0) by (apply Qle_lteq in Pa; destruct Pa as [Pa|Pa]; [exact Pa|contradiction]).
        destruct (m_chi m j) as [hi|]; [|exfalso; apply Hi; auto]. simpl in Yu. subst st.
        destruct (IH v (b - a * hi) y Y C' D') as (I1 & I2). split; [|exact I2].
        assert (0 <= - a * (hi - y j)) by (apply Qmult_le_0_compat; lra). lra.
    - remember (remove_step p c (v, b) (j, a)) as st eqn:Est. unfold remove_step in Est. rewrite Sm in Est.
      destruct (gp_eps_coeff p <? Qabs a) eqn:E; subst st.
      + destruct (IH (v ++ [(j, a)]) b y Y C' D') as (I1 & I2). split.
        * pose proof (value_app v [(j, a)] y) as Va. cbn [value] in Va. rewrite Va in I1. eapply Qle_trans; [exact I1|]. lra.
        * intro Cv. apply I2. intros j0 a0 H0. apply in_app_or in H0. destruct H0 as [H0|[H0|[]]]; [eapply Cv; eauto|].
          inversion H0; subst. exact Lj.
      + destruct (IH v b y Y C' D') as (I1 & I2). split; [|exact I2].
        assert (Z : a == 0).
        { qb. destruct (D j a (or_introl eq_refl) E) as [Z|(G & _)]; [exact Z|].
          unfold small, isZero in Sm. apply Qle_bool_iff in E. rewrite E, andb_true_r in Sm.
          apply negb_false_iff in Sm. qb. lra. }
        rewrite Z. lra.
  Qed.
  Lemma max_abs_ge v b : b <= max_abs v b.
  Proof.
    unfold max_abs. revert b. induction v as [|e v IH]; intro b; cbn [fold_left]; [lra|].
    destruct (isZero (snd e)); [apply IH|]. pose proof (IH (Qmax b (Qabs (snd e)))). pose proof (Qmax_le1 b (Qabs (snd e))). lra.
  Qed.
  Lemma scale_ok y t s s' : scaleCut sqrt rat p c t s = Done (Some s') -> t <> 0%nat ->
    (ok_at y s -> ok_at y s') /\ (cols_in (fst s) -> cols_in (fst s')).
  Proof.
    intros E T. pose proof (po_eps PO) as P0.
    assert (G : forall q, 0 < q -> s' = div_by q s -> (ok_at y s -> ok_at y s') /\ (cols_in (fst s) -> cols_in (fst s'))).
    { intros q Q0 ->. split; [apply div_ok; exact Q0|]. apply (cols_in_map (fun a => a / q)). }
    destruct t as [|[|[|[|t]]]]; [congruence| | | |discriminate]; unfold scaleCut in E; cbv zeta in E.
    - destruct (_ || _) eqn:O; [discriminate|]. apply orb_false_elim in O. destruct O as (O1 & O2). qb.
      apply Done_inj, Some_inj in E. symmetry in E. eapply G; [|exact E]. lra.
    - destruct (_ || _) eqn:O; [discriminate|]. apply orb_false_elim in O. destruct O as (O1 & O2). qb.
      apply Done_inj, Some_inj in E. symmetry in E. eapply G; [|exact E]. lra.
    - destruct (_ || _) eqn:O; [discriminate|]. apply orb_false_elim in O. destruct O as (O1 & O2). qb.
      apply Done_inj, Some_inj in E. symmetry in E. eapply G; [|exact E]. lra.
  Qed.
  (** Scaling to integers multiplies by some number; when that number is
      negative the cut no longer cuts off the solution. *)
  Lemma scale_int s s' : scaleCut sqrt rat p c 0 s = Done (Some s') -> exists q, s' = scale_by q s.
  Proof.
    unfold scaleCut, scaleCutIntegral. destruct (rat (snd s)) as [nu d]. destruct (nu =? 0)%Z; [discriminate|].
    intro E. apply bind_done in E. destruct E as (r & _ & E). destruct r as [[g l]|]; [|discriminate].
    cbv zeta in E. destruct (1000 <? _); [discriminate|]. apply Done_inj, Some_inj in E. eauto.
  Qed.
  Definition good (y : point) (s : vec * Q) : Prop := ok_at y s \/ value (fst s) x < snd s.
  Lemma scale_int_good y q s : ok_at y s -> snd s < value (fst s) x ->
    good y (scale_by q s) /\ (cols_in (fst s) -> cols_in (fst (scale_by q s))).
  Proof.
    intros V X. split; [|apply (cols_in_map (fun a => a * q))].
    unfold good, ok_at, scale_by in *. cbn [fst snd]. rewrite !value_map_mult.
    destruct (Qlt_le_dec q 0) as [N|N].
    - right. assert (0 < - q * (value (fst s) x - snd s)) by (apply Qmult_lt_0_compat; lra). lra.
    - left. assert (0 <= q * (snd s - value (fst s) y)) by (apply Qmult_le_0_compat; lra). lra.
  Qed.
  Lemma viol_good y s : good y s -> checkViolation p c s = true -> ok_at y s.
  Proof.
    intros [G|G] H; [exact G|]. exfalso. unfold checkViolation in H. cbv zeta in H. pose proof (po_viol PO).
    destruct (1 <? Qabs (snd s)) eqn:E; apply Qle_bool_iff in H; [|lra].
    qb. assert (0 <= / Qabs (snd s)) by (apply Qinv_le_0_compat; lra).
    assert (I0 : Qabs (snd s) * / Qabs (snd s) == 1) by (apply Qmult_inv_r; lra).
    assert (P : 0 < / Qabs (snd s)) by (apply Qinv_lt_0_compat; lra).
    assert (0 < (snd s - value (fst s) x) * / Qabs (snd s)) by (apply Qmult_lt_0_compat; lra).
    unfold Qdiv in H. lra.
  Qed.

  (** Steps after integral scaling are only the violation check. *)
  Definition int_step (t : cstep) : bool := match t with Scale 0 | ScaleOrRelax => true | _ => false end.
  Fixpoint shape (l : list cstep) : Prop :=
    match l with
    | [] => True
    | t :: l' => if int_step t then l' = [CheckViol] else shape l'
    end.
  Lemma steps_shape q : shape (steps q).
  Proof. destruct q; cbn; auto. Qed.

  Lemma clean_ok y l s s' : in_bounds m y -> shape l -> run_ok l s -> cols_in (fst s) -> ok_at y s ->
    do_steps sqrt rat p c l s = Done (Some s') -> ok_at y s' /\ cols_in (fst s').
  Proof.
    intros Y. revert s. induction l as [|t l IH]; intros s Sh R C V E.
    - cbn in E. apply Done_inj, Some_inj in E. subst. auto.
    - cbn [do_steps] in E. apply bind_done in E. destruct E as (r & E1 & E2). destruct r as [s1|]; [|discriminate].
      destruct R as (R1 & R2). specialize (R2 _ E1).
      destruct (int_step t) eqn:It.
      + assert (Sh' : l = [CheckViol]) by (cbn [shape] in Sh; rewrite It in Sh; exact Sh). subst l.
        assert (X : snd s < value (fst s) x) by (destruct t as [| | | | |[|k]|]; try discriminate It; exact R1).
        assert (G : good y s1 /\ cols_in (fst s1)).
        { destruct t as [| | | | |[|k]|]; try discriminate It; cbn [do_step] in E1;
            apply bind_done in E1; destruct E1 as (r & E0 & E1); apply Done_inj in E1.
          - destruct r as [s2|]; [apply Some_inj in E1; subst|].
            + destruct (scale_int _ _ E0) as (q & ->). destruct (scale_int_good y q s V X); auto.
            + destruct (gp_enforce p); [discriminate|]. apply Some_inj in E1. subst. split; [left|]; auto.
          - destruct r as [s2|]; [apply Some_inj in E1; subst|].
            + destruct (scale_int _ _ E0) as (q & ->). destruct (scale_int_good y q s V X); auto.
            + destruct (gp_enforce p); [discriminate|]. apply Some_inj in E1. subst.
              split; [left; apply relax_ok|]; auto. }
        destruct G as (G & C1). cbn [do_steps do_step] in E2. unfold test in E2. cbn [bind] in E2.
        destruct (checkViolation p c s1) eqn:Vi; [|discriminate]. cbn in E2. apply Done_inj, Some_inj in E2. subst.
        split; [apply viol_good|]; auto.
      + assert (Sh' : shape l) by (cbn [shape] in Sh; rewrite It in Sh; exact Sh).
        assert (G : ok_at y s1 /\ cols_in (fst s1)).
        { destruct t as [| | | | |k|]; cbn [do_step] in E1; unfold test in E1; try discriminate It.
          - destruct (checkViolation p c s); [|discriminate]. apply Done_inj, Some_inj in E1. subst. auto.
          - destruct (checkDynamism p s); [|discriminate]. apply Done_inj, Some_inj in E1. subst. auto.
          - destruct (checkSupport p c s); [|discriminate]. apply Done_inj, Some_inj in E1. subst. auto.
          - apply Done_inj, Some_inj in E1. subst. split; [apply relax_ok; auto|exact C].
          - apply Done_inj, Some_inj in E1. subst. cbn [step_ok] in R1.
            destruct (fold_remove (fst s) [] (snd s) y Y C R1) as (I1 & I2). unfold ok_at in *.
            assert (I1' : value (fst (removeSmall p c s)) y - snd (removeSmall p c s) <= 0 + value (fst s) y - snd s)
              by exact I1.
            split; [lra|]. apply I2. intros j a [].
          - apply bind_done in E1. destruct E1 as (r & E0 & E1). apply Done_inj in E1.
            destruct k as [|k]; [discriminate It|].
            destruct r as [s2|]; [apply Some_inj in E1; subst; destruct (scale_ok y _ _ _ E0 ltac:(congruence)); auto|].
            destruct (gp_enforce p); [discriminate|]. apply Some_inj in E1. subst. auto. }
        destruct G as (G1 & G2). exact (IH s1 Sh' R2 G2 G1 E2).
  Qed.
  Lemma relax_large_ok q l : forall b, (forall u, b = Some u -> q <= u) -> forall u, fold_left (relax_large p c) l b = Some u -> q <= u.
  Proof.
    induction l as [|e l IH]; intros b H u E; [apply H; exact E|]. cbn [fold_left] in E. revert E. apply IH.
    intros u' E'. unfold relax_large in E'. destruct (isInteger p c (fst e)); [|apply H; exact E'].
    destruct b as [r|]; [|discriminate]. pose proof (H r eq_refl) as Hr. destruct (m_clo m (fst e)) as [lo|]; [|discriminate].
    destruct (m_chi m (fst e)) as [hi|]; [|discriminate].
    destruct (10 <? hi - lo) eqn:W; apply Some_inj in E'; subst u'; qb; lra.
  Qed.
End Clean.
