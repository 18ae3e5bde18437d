(** * Proofs about the CglCliqueStrengthening model *)

From Verif Require Import Spec Base Spec_Literals Model_CliqueStrengthening.
From Coq Require Import Lia Lqa String Arith Qabs.
Open Scope Q_scope.

(** ** Detection of set packing rows *)

Definition neg_of (mult a : Q) : bool := Qle_bool (a * mult) (- CLQ_STR_EPS).
Definition lit_of (n : nat) (mult : Q) (p : nat * Q) : nat :=
  if neg_of mult (snd p) then (fst p + n)%nat else fst p.
Definition coef_of (mult a : Q) : Q := if neg_of mult a then - (a * mult) else a * mult.

Fixpoint wsum (n : nat) (mult : Q) (v : vec) (y : point) : Q :=
  match v with
  | [] => 0
  | p :: v' => coef_of mult (snd p) * lit_val n (lit_of n mult p) y + wsum n mult v' y
  end.
Fixpoint negs (mult : Q) (v : vec) : Q :=
  match v with
  | [] => 0
  | p :: v' => (if neg_of mult (snd p) then coef_of mult (snd p) else 0) + negs mult v'
  end.

Lemma lit_of_val n mult p y : (fst p < n)%nat ->
  lit_val n (lit_of n mult p) y = if neg_of mult (snd p) then 1 - y (fst p) else y (fst p).
Proof.
  intros H. unfold lit_of, lit_val. destruct (neg_of mult (snd p)).
  - destruct (Nat.ltb_spec (fst p + n) n); [lia|]. replace (fst p + n - n)%nat with (fst p) by lia. reflexivity.
  - destruct (Nat.ltb_spec (fst p) n); [reflexivity|lia].
Qed.
Lemma lit_of_col n mult p : (fst p < n)%nat -> lit_col n (lit_of n mult p) = fst p.
Proof.
  intros H. unfold lit_of, lit_col. destruct (neg_of mult (snd p)).
  - destruct (Nat.ltb_spec (fst p + n) n); [lia|]. lia.
  - destruct (Nat.ltb_spec (fst p) n); [reflexivity|lia].
Qed.
Lemma lit_of_lt n mult p : (fst p < n)%nat -> (lit_of n mult p < 2 * n)%nat.
Proof. intros H. unfold lit_of. destruct (neg_of mult (snd p)); lia. Qed.

Lemma wsum_value n mult v y : (forall j a, In (j, a) v -> (j < n)%nat) ->
  wsum n mult v y == mult * value v y + negs mult v.
Proof.
  induction v as [|[j a] v IH]; intros H; cbn [wsum value negs]; [ring|].
  rewrite IH by (intros; eapply H; right; eassumption).
  rewrite lit_of_val by (eapply H; left; reflexivity). cbn [fst snd]. unfold coef_of.
  destruct (neg_of mult a); ring.
Qed.

Lemma detect_entries_eq n bin mult v : forall lits rhs m1 m2 lits' rhs' m1' m2',
  detect_entries n bin mult v lits rhs m1 m2 = Done (Some (lits', rhs', m1', m2')) ->
  lits' = lits ++ map (lit_of n mult) v /\ rhs' == rhs + negs mult v /\
  (forall j a, In (j, a) v -> bin j = true).
Proof.
  induction v as [|[j a] v IH]; intros lits rhs m1 m2 lits' rhs' m1' m2' E; cbn [detect_entries] in E.
  - apply Done_inj in E. apply Some_inj in E. inversion E; subst. cbn [map negs]. rewrite app_nil_r.
    conjs; [reflexivity|ring|intros ? ? []].
  - destruct (n <=? List.length lits)%nat; [discriminate|].
    destruct (bin j) eqn:EB; cbn [negb] in E; [|discriminate].
    fold (neg_of mult a) in E. fold (coef_of mult a) in E.
    assert (G : exists q1 q2, detect_entries n bin mult v
        (lits ++ [if neg_of mult a then (j + n)%nat else j])
        (if neg_of mult a then rhs + coef_of mult a else rhs) q1 q2 = Done (Some (lits', rhs', m1', m2'))).
    { destruct (below (coef_of mult a) m1); [eexists _, _; exact E|].
      destruct (below (coef_of mult a) m2); eexists _, _; exact E. }
    destruct G as (q1 & q2 & G). apply IH in G. destruct G as (G1 & G2 & G3). conjs.
    + rewrite G1, <- app_assoc. reflexivity.
    + rewrite G2. cbn [negs snd]. destruct (neg_of mult a); ring.
    + intros j' a' [H|H]; [inversion H; subst; assumption|eauto].
Qed.

(** Coefficients that the tolerance cannot confuse. *)
Definition spaced (cs : list Q) : Prop :=
  (forall a, In a cs -> a == 0 \/ CLQ_STR_EPS <= Qabs a) /\
  (forall a b, In a cs -> In b cs ->
     Qabs a == Qabs b \/ Qabs a + CLQ_STR_EPS <= Qabs b \/ Qabs b + CLQ_STR_EPS <= Qabs a).

Lemma coef_of_abs mult a : mult == 1 \/ mult == -(1) -> a == 0 \/ CLQ_STR_EPS <= Qabs a ->
  coef_of mult a == Qabs a.
Proof.
  intros M H. unfold coef_of, neg_of, CLQ_STR_EPS in *.
  destruct (Qle_bool (a * mult) (- (1 # 1000000))) eqn:E; qb.
  - destruct M as [M|M]; rewrite M in *.
    + rewrite (Qabs_neg a) by lra. ring.
    + rewrite (Qabs_pos a) by lra. ring.
  - destruct M as [M|M]; rewrite M in *.
    + assert (0 <= a). { destruct H as [H|H]; [lra|]. revert H. apply Qabs_case; intros; lra. }
      rewrite (Qabs_pos a) by lra. ring.
    + assert (a <= 0). { destruct H as [H|H]; [lra|]. revert H. apply Qabs_case; intros; lra. }
      rewrite (Qabs_neg a) by lra. ring.
Qed.

(** The tracked minima at a 0/1 point: [s] is the number of literals at one
    so far, [sc] the weight of those literals. *)
Definition mins_ok (s sc : Q) (m1 m2 : option Q) : Prop :=
  0 <= s /\ 0 <= sc /\
  (1 <= s -> exists a, m1 = Some a /\ a <= sc) /\
  (2 <= s -> exists a b, m1 = Some a /\ m2 = Some b /\ a + b <= sc).
Definition from (cs : list Q) (m : option Q) : Prop :=
  forall q, m = Some q -> exists a, In a cs /\ q == Qabs a.

Lemma below_exact cs a c m : spaced cs -> In a cs -> c == Qabs a -> from cs m -> below c m = false ->
  exists q, m = Some q /\ q <= c.
Proof.
  intros [_ S2] A C F B. destruct m as [q|]; [|discriminate]. exists q. split; [reflexivity|].
  destruct (F q eq_refl) as (b & IB & E). cbn [below] in B. apply Qleb_gt in B.
  destruct (S2 a b A IB) as [H|[H|H]]; rewrite E in *; rewrite C in *; unfold CLQ_STR_EPS in *; lra.
Qed.
Lemma below_le c m q : below c m = true -> m = Some q -> c <= q.
Proof. intros B ->. cbn [below] in B. qb. unfold CLQ_STR_EPS in *. lra. Qed.

Definition ordered (m1 m2 : option Q) : Prop :=
  forall b, m2 = Some b -> exists a, m1 = Some a /\ a <= b.

Lemma mins_step cs a c m1 m2 s sc x : spaced cs -> In a cs -> c == Qabs a -> x == 0 \/ x == 1 ->
  from cs m1 -> from cs m2 -> mins_ok s sc m1 m2 -> ordered m1 m2 ->
  let m1' := if below c m1 then Some c else m1 in
  let m2' := if below c m1 then m1 else if below c m2 then Some c else m2 in
  from cs m1' /\ from cs m2' /\ mins_ok (s + x) (sc + c * x) m1' m2' /\ ordered m1' m2'.
Proof.
  intros SP A C X F1 F2 (S0 & S1 & S2 & S3) NN m1' m2'.
  assert (C0 : 0 <= c) by (rewrite C; apply Qabs_nonneg).
  assert (FC : from cs (Some c)). { intros q E. apply Some_inj in E. subst. exists a. split; assumption. }
  conjs.
  - subst m1'. destruct (below c m1); assumption.
  - subst m2'. destruct (below c m1); [assumption|]. destruct (below c m2); assumption.
  - unfold mins_ok. conjs.
    + destruct X as [X|X]; rewrite X; lra.
    + destruct X as [X|X]; rewrite X; lra.
    + intros H. subst m1'. destruct (below c m1) eqn:B1.
      * exists c. split; [reflexivity|]. destruct X as [X|X]; rewrite X in *; [|lra].
        destruct S2 as (a1 & E1 & L1); [lra|]. pose proof (below_le _ _ _ B1 E1). lra.
      * destruct (below_exact cs a c m1 SP A C F1 B1) as (q & E & L). exists q. split; [assumption|].
        destruct X as [X|X]; rewrite X in *; [|lra].
        destruct S2 as (a1 & E1 & L1); [lra|]. rewrite E in E1. apply Some_inj in E1. subst. lra.
    + intros H. subst m1' m2'. destruct (below c m1) eqn:B1.
      * destruct X as [X|X]; rewrite X in *.
        -- destruct S3 as (a1 & b1 & E1 & E2 & L1); [lra|]. exists c, a1.
           conjs; [reflexivity|assumption|]. pose proof (below_le _ _ _ B1 E1).
           destruct (NN b1 E2) as (a2 & E3 & L2). rewrite E1 in E3. apply Some_inj in E3. subst. try rewrite X; lra.
        -- destruct S2 as (a1 & E1 & L1); [lra|]. exists c, a1. conjs; [reflexivity|assumption|try rewrite X; lra].
      * destruct (below_exact cs a c m1 SP A C F1 B1) as (q & E & L).
        destruct X as [X|X]; rewrite X in *.
        -- destruct S3 as (a1 & b1 & E1 & E2 & L1); [lra|]. destruct (below c m2) eqn:B2.
           ++ exists a1, c. conjs; [assumption|reflexivity|]. pose proof (below_le _ _ _ B2 E2). try rewrite X; lra.
           ++ exists a1, b1. conjs; [assumption|assumption|try rewrite X; lra].
        -- destruct S2 as (a1 & E1 & L1); [lra|]. destruct (below c m2) eqn:B2.
           ++ exists a1, c. conjs; [assumption|reflexivity|]. try rewrite X; lra.
           ++ destruct (below_exact cs a c m2 SP A C F2 B2) as (q2 & E2 & L2). exists a1, q2.
              conjs; [assumption|assumption|try rewrite X; lra].
  - subst m1' m2'. intros b E. destruct (below c m1) eqn:B1.
    + exists c. split; [reflexivity|]. apply (below_le _ _ _ B1 E).
    + destruct (below_exact cs a c m1 SP A C F1 B1) as (q & E1 & L). destruct (below c m2).
      * apply Some_inj in E. subst. exists q. split; [reflexivity|assumption].
      * apply NN. assumption.
Qed.

Lemma mins_ok_eq s s' sc sc' m1 m2 : s == s' -> sc == sc' -> mins_ok s sc m1 m2 -> mins_ok s' sc' m1 m2.
Proof.
  intros E1 E2 (A & B & C & D). unfold mins_ok. rewrite <- E1, <- E2. conjs; try assumption.
  - intros H. destruct C as (a & C1 & C2); [assumption|]. exists a. split; [assumption|]. lra.
  - intros H. destruct D as (a & b & C1 & C2 & C3); [assumption|]. exists a, b. conjs; try assumption. lra.
Qed.

Lemma detect_entries_mins n bin mult y cs v : forall lits rhs m1 m2 lits' rhs' m1' m2' s sc,
  detect_entries n bin mult v lits rhs m1 m2 = Done (Some (lits', rhs', m1', m2')) ->
  mult == 1 \/ mult == -(1) -> spaced cs -> incl (map snd v) cs ->
  (forall j a, In (j, a) v -> (j < n)%nat /\ (y j == 0 \/ y j == 1)) ->
  from cs m1 -> from cs m2 -> mins_ok s sc m1 m2 -> ordered m1 m2 ->
  mins_ok (s + lits_sum n (map (lit_of n mult) v) y) (sc + wsum n mult v y) m1' m2'.
Proof.
  induction v as [|[j a] v IH]; intros lits rhs m1 m2 lits' rhs' m1' m2' s sc E M SP IN YV F1 F2 MO OR;
    cbn [detect_entries] in E.
  - apply Done_inj in E. apply Some_inj in E. inversion E; subst. cbn [map lits_sum wsum].
    eapply mins_ok_eq; [| |exact MO]; ring.
  - destruct (n <=? List.length lits)%nat; [discriminate|].
    destruct (bin j) eqn:EB; cbn [negb] in E; [|discriminate].
    fold (neg_of mult a) in E. fold (coef_of mult a) in E.
    assert (AC : In a cs) by (apply IN; left; reflexivity).
    assert (CA : coef_of mult a == Qabs a) by (apply coef_of_abs; [assumption|apply SP; assumption]).
    destruct (YV j a (or_introl eq_refl)) as [J Y].
    assert (X : lit_val n (lit_of n mult (j, a)) y == 0 \/ lit_val n (lit_of n mult (j, a)) y == 1).
    { apply lit_val_01. rewrite lit_of_col by assumption. exact Y. }
    pose proof (mins_step cs a (coef_of mult a) m1 m2 s sc _ SP AC CA X F1 F2 MO OR) as ST.
    cbv zeta in ST.
    assert (G : mins_ok ((s + lit_val n (lit_of n mult (j, a)) y) + lits_sum n (map (lit_of n mult) v) y)
                  ((sc + coef_of mult a * lit_val n (lit_of n mult (j, a)) y) + wsum n mult v y) m1' m2').
    { destruct ST as (ST1 & ST2 & ST3 & ST4).
      destruct (below (coef_of mult a) m1).
      - eapply IH; [exact E|assumption|assumption| | |exact ST1|exact ST2|exact ST3|exact ST4].
        + intros z Z. apply IN. right. assumption.
        + intros j' a' H. apply (YV j' a'). right. assumption.
      - destruct (below (coef_of mult a) m2).
        + eapply IH; [exact E|assumption|assumption| | |exact ST1|exact ST2|exact ST3|exact ST4].
          * intros z Z. apply IN. right. assumption.
          * intros j' a' H. apply (YV j' a'). right. assumption.
        + eapply IH; [exact E|assumption|assumption| | |exact ST1|exact ST2|exact ST3|exact ST4].
          * intros z Z. apply IN. right. assumption.
          * intros j' a' H. apply (YV j' a'). right. assumption. }
    eapply mins_ok_eq; [| |exact G]; cbn [map lits_sum wsum snd]; ring.
Qed.

(** ** What a detected row says *)

Definition mult_of (r : row) : Q := match row_sense r with SenseG => -(1) | _ => 1 end.
Lemma mult_of_pm r : mult_of r == 1 \/ mult_of r == -(1).
Proof. unfold mult_of. destruct (row_sense r); solve [left; reflexivity | right; reflexivity]. Qed.

Lemma detect_row_inv n bin r lits : detect_row n bin r = Done (Some lits) ->
  (row_sense r = SenseL \/ row_sense r = SenseG) /\
  (2 <= List.length (r_form r))%nat /\
  lits = map (lit_of n (mult_of r)) (r_form r) /\
  (forall j a, In (j, a) (r_form r) -> bin j = true) /\
  exists rhs m1 m2,
    detect_entries n bin (mult_of r) (r_form r) [] (mult_of r * row_rhs r) None None =
      Done (Some (lits, rhs, m1, m2)) /\
    rhs == mult_of r * row_rhs r + negs (mult_of r) (r_form r) /\
    min_sum_ge m1 m2 (rhs + CLQ_STR_EPS) = true.
Proof.
  unfold detect_row. intros E.
  destruct ((List.length (r_form r) <=? 1)%nat || (MAX_SIZE_CLIQUE <? List.length (r_form r))%nat) eqn:EN; [discriminate|].
  apply orb_false_elim in EN. destruct EN as [EN _]. apply Nat.leb_gt in EN.
  assert (G : (row_sense r = SenseL \/ row_sense r = SenseG) /\
    bind (detect_entries n bin (mult_of r) (r_form r) [] (mult_of r * row_rhs r) None None)
      (fun e => match e with
      | None => Done None
      | Some (lits, rhs, m1, m2) =>
          if min_sum_ge m1 m2 (rhs + CLQ_STR_EPS) then Done (Some lits) else Done None
      end) = Done (Some lits)).
  { unfold mult_of. destruct (row_sense r) eqn:ES; try discriminate; (split; [tauto|exact E]). }
  clear E. destruct G as [SE G]. apply bind_done in G. destruct G as ([[[[l0 rhs] m1] m2]|] & E & G); [|discriminate].
  destruct (min_sum_ge m1 m2 (rhs + CLQ_STR_EPS)) eqn:EM; [|discriminate].
  apply Done_inj in G. apply Some_inj in G. subst l0.
  pose proof (detect_entries_eq _ _ _ _ _ _ _ _ _ _ _ _ E) as (H1 & H2 & H3). cbn [app] in H1.
  conjs; [assumption|lia|assumption|assumption|]. exists rhs, m1, m2. conjs; assumption.
Qed.

Lemma row_mult r y : row_sense r = SenseL \/ row_sense r = SenseG ->
  (row_sat r y <-> mult_of r * value (r_form r) y <= mult_of r * row_rhs r).
Proof.
  unfold mult_of, row_sense, row_rhs, row_sat. destruct r as [v [lo|] [hi|]]; cbn [r_lo r_hi r_form].
  - destruct (Qeq_bool lo hi); intros [H|H]; discriminate.
  - intros _. cbn. split; [intros [H _]; lra|intros H; split; [lra|exact Logic.I]].
  - intros _. cbn. split; [intros [_ H]; lra|intros H; split; [exact Logic.I|lra]].
  - intros [H|H]; discriminate.
Qed.

Lemma is_bin_col clo chi int rows n j : is_bin clo chi int j = true -> bin_col (Mip n rows clo chi int) j.
Proof.
  unfold is_bin, bin_col. cbn [m_int m_clo m_chi]. intros H. apply andb_prop in H. destruct H as [H H3].
  apply andb_prop in H. destruct H as [H1 H2]. conjs; [assumption| |].
  - unfold opt_is in H2. destruct (clo j) as [l|]; [|discriminate]. exists l. split; [reflexivity|].
    apply orb_prop in H2. destruct H2 as [H2|H2]; apply Qeqb_eq in H2; rewrite H2; lra.
  - unfold opt_is in H3. destruct (chi j) as [l|]; [|discriminate]. exists l. split; [reflexivity|].
    apply orb_prop in H3. destruct H3 as [H3|H3]; apply Qeqb_eq in H3; rewrite H3; lra.
Qed.

(** A detected row keeps at most one of its literals at one. *)
Lemma detect_row_conflict n bin r lits y : wf_row n r -> spaced (map snd (r_form r)) ->
  detect_row n bin r = Done (Some lits) -> row_sat r y ->
  (forall j a, In (j, a) (r_form r) -> y j == 0 \/ y j == 1) ->
  lits_sum n lits y < 2.
Proof.
  intros [_ WF] SP D RS Y. apply detect_row_inv in D.
  destruct D as (SE & LN & -> & BN & rhs & m1 & m2 & E & RH & MS).
  assert (MO : mins_ok (0 + lits_sum n (map (lit_of n (mult_of r)) (r_form r)) y)
                 (0 + wsum n (mult_of r) (r_form r) y) m1 m2).
  { eapply detect_entries_mins; [exact E|apply mult_of_pm|exact SP|apply incl_refl| | | | |].
    - intros j a H. split; [eapply WF; exact H|eapply Y; exact H].
    - intros q H. discriminate.
    - intros q H. discriminate.
    - unfold mins_ok. conjs; try lra; intros H; exfalso; lra.
    - intros b H. discriminate. }
  destruct (Qlt_le_dec (lits_sum n (map (lit_of n (mult_of r)) (r_form r)) y) 2) as [|G]; [assumption|].
  exfalso. destruct MO as (_ & _ & _ & MO). destruct MO as (a & b & -> & -> & MO); [lra|].
  cbn [min_sum_ge] in MS. apply Qleb_le in MS.
  apply row_mult in RS; [|assumption].
  rewrite wsum_value in MO by exact WF. unfold CLQ_STR_EPS in MS. lra.
Qed.

(** ** The condition under which a set packing row says all that the row
    says: no single literal is too large for the row. *)

(** Smallest value a form over 0/1 columns can take. *)
Fixpoint min_act (v : vec) : Q :=
  match v with [] => 0 | (_, a) :: v' => (if Qle_bool 0 a then 0 else a) + min_act v' end.
Fixpoint max_act (v : vec) : Q :=
  match v with [] => 0 | (_, a) :: v' => (if Qle_bool 0 a then a else 0) + max_act v' end.

(** Every 0/1 assignment in which at most one column of the row is away from
    its cheap value satisfies the row. *)
Definition singles_ok (r : row) : Prop :=
  (forall h, r_hi r = Some h -> forall j a, In (j, a) (r_form r) -> min_act (r_form r) + Qabs a <= h) /\
  (forall l, r_lo r = Some l -> forall j a, In (j, a) (r_form r) -> l <= max_act (r_form r) - Qabs a).

Definition no_tiny (r : row) : Prop :=
  forall j a, In (j, a) (r_form r) -> a == 0 \/ CLQ_STR_EPS <= Qabs a.

Lemma neg_of_spec mult a : a == 0 \/ CLQ_STR_EPS <= Qabs a -> mult == 1 \/ mult == -(1) ->
  neg_of mult a = true <-> a * mult < 0.
Proof.
  unfold neg_of, CLQ_STR_EPS. intros T M. rewrite Qleb_le. split; [lra|]. intros H.
  destruct T as [T|T]; [rewrite T in H; lra|].
  revert T. destruct M as [M|M]; rewrite M in *; apply Qabs_case; intros; lra.
Qed.

Lemma negs_min v mult : (forall j a, In (j, a) v -> a == 0 \/ CLQ_STR_EPS <= Qabs a) ->
  (mult == 1 -> negs mult v == - min_act v) /\ (mult == -(1) -> negs mult v == max_act v).
Proof.
  induction v as [|[j a] v IH]; intros T; cbn [negs min_act max_act snd]; [split; intros; ring|].
  destruct IH as [I1 I2]; [intros; eapply T; right; eassumption|].
  assert (TA := T j a (or_introl eq_refl)). split; intros M.
  - rewrite (I1 M). pose proof (neg_of_spec mult a TA (or_introl M)) as NS.
    assert (MA : a * mult == a) by (rewrite M; ring).
    destruct (neg_of mult a) eqn:EN.
    + assert (a * mult < 0) by (apply NS; reflexivity). destruct (Qle_bool 0 a) eqn:E; qb; [lra|].
      unfold coef_of. rewrite EN, M. ring.
    + assert (~ (a * mult < 0)) by (intros H; apply NS in H; discriminate).
      destruct (Qle_bool 0 a) eqn:E; qb; [ring|lra].
  - rewrite (I2 M). pose proof (neg_of_spec mult a TA (or_intror M)) as NS.
    assert (MA : a * mult == - a) by (rewrite M; ring).
    destruct (neg_of mult a) eqn:EN.
    + assert (a * mult < 0) by (apply NS; reflexivity). destruct (Qle_bool 0 a) eqn:E; qb; [|lra].
      unfold coef_of. rewrite EN, M. ring.
    + assert (~ (a * mult < 0)) by (intros H; apply NS in H; discriminate).
      destruct (Qle_bool 0 a) eqn:E; qb; [|ring]. assert (A0 : a == 0) by lra. rewrite A0. ring.
Qed.

Lemma wsum_bound n mult v y rhs : 0 <= rhs ->
  (forall p, In p v -> (fst p < n)%nat /\ 0 <= y (fst p) <= 1 /\ coef_of mult (snd p) <= rhs) ->
  wsum n mult v y <= rhs * lits_sum n (map (lit_of n mult) v) y.
Proof.
  intros R. induction v as [|p v IH]; intros H; cbn [wsum map lits_sum]; [lra|].
  destruct (H p (or_introl eq_refl)) as (H1 & H2 & H3).
  assert (I0 := IH (fun q Q => H q (or_intror Q))).
  assert (0 <= lit_val n (lit_of n mult p) y <= 1).
  { apply lit_val_box. rewrite lit_of_col by assumption. assumption. }
  set (x := lit_val n (lit_of n mult p) y) in *. set (c := coef_of mult (snd p)) in *.
  assert (c * x <= rhs * x) by (apply Qmult_le_compat_r; lra). lra.
Qed.

(** If at most one literal of the row can be at one, the row holds: for
    fractional points too. *)
Lemma detect_row_back n bin r lits y : wf_row n r -> no_tiny r -> singles_ok r ->
  detect_row n bin r = Done (Some lits) ->
  (forall j a, In (j, a) (r_form r) -> 0 <= y j <= 1) ->
  lits_sum n lits y <= 1 -> row_sat r y.
Proof.
  intros [_ WF] NT [SO1 SO2] D Y LS. apply detect_row_inv in D.
  destruct D as (SE & LN & -> & BN & _). apply row_mult; [assumption|].
  set (mu := mult_of r) in *.
  assert (B : forall j a, In (j, a) (r_form r) -> Qabs a <= mu * row_rhs r + negs mu (r_form r)).
  { intros j a H. destruct (negs_min (r_form r) mu NT) as [N1 N2].
    subst mu. unfold mult_of, row_sense, row_rhs in *. destruct r as [v [lo|] [hi|]]; cbn [r_lo r_hi r_form] in *.
    - destruct (Qeq_bool lo hi); destruct SE; discriminate.
    - rewrite N2 by reflexivity. specialize (SO2 lo eq_refl j a H). lra.
    - rewrite N1 by reflexivity. specialize (SO1 hi eq_refl j a H). lra.
    - destruct SE; discriminate. }
  assert (R0 : 0 <= mu * row_rhs r + negs mu (r_form r)).
  { destruct (r_form r) as [|[j a] w] eqn:EV; [cbn in LN; lia|].
    specialize (B j a (or_introl eq_refl)). pose proof (Qabs_nonneg a). lra. }
  pose proof (wsum_bound n mu (r_form r) y _ R0) as W.
  assert (W' : wsum n mu (r_form r) y <=
    (mu * row_rhs r + negs mu (r_form r)) * lits_sum n (map (lit_of n mu) (r_form r)) y).
  { apply W. intros [j a] H. cbn [fst snd]. conjs.
    - eapply WF; exact H. - eapply Y; exact H. - eapply Y; exact H.
    - rewrite coef_of_abs; [eapply B; exact H|apply mult_of_pm|eapply NT; exact H]. }
  rewrite wsum_value in W' by exact WF.
  assert ((mu * row_rhs r + negs mu (r_form r)) * lits_sum n (map (lit_of n mu) (r_form r)) y <=
          (mu * row_rhs r + negs mu (r_form r)) * 1).
  { rewrite !(Qmult_comm (mu * row_rhs r + negs mu (r_form r))). apply Qmult_le_compat_r; assumption. }
  lra.
Qed.

(** Literals of a detected row. *)
Lemma detect_row_lits n bin r lits : wf_row n r -> detect_row n bin r = Done (Some lits) ->
  NoDup lits /\ (forall l, In l lits -> (l < 2 * n)%nat /\ bin (lit_col n l) = true) /\
  (2 <= List.length lits)%nat /\ List.length lits = List.length (r_form r).
Proof.
  intros [ND WF] D. apply detect_row_inv in D. destruct D as (SE & LN & -> & BN & _). conjs.
  - clear - ND WF. induction (r_form r) as [|p v IH]; cbn [map]; [constructor|].
    cbn [map] in ND. inversion ND as [|? ? N1 N2]; subst. constructor.
    + intros H. apply in_map_iff in H. destruct H as (q & E & H). apply N1.
      apply in_map_iff. exists q. split; [|assumption].
      rewrite <- (lit_of_col n (mult_of r) q), <- (lit_of_col n (mult_of r) p), E; [reflexivity| |].
      * apply (WF (fst p) (snd p)). left. destruct p; reflexivity.
      * apply (WF (fst q) (snd q)). right. destruct q; assumption.
    + apply IH; [assumption|]. intros; eapply WF; right; eassumption.
  - intros l H. apply in_map_iff in H. destruct H as ([j a] & <- & H).
    pose proof (WF j a H). split; [apply lit_of_lt; assumption|].
    rewrite lit_of_col by assumption. eapply BN; exact H.
  - rewrite map_length. lia.
  - apply map_length.
Qed.
