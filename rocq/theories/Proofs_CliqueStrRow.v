(** * The row built from a clique of literals (CglCliqueStrengthening) *)

From Verif Require Import Spec Base Spec_Literals Model_CliqueStrengthening.
From Coq Require Import Lia Lqa String Arith.
Open Scope Q_scope.

(** Number of entries with coefficient -1. *)
Fixpoint nneg (v : vec) : Q :=
  match v with [] => 0 | p :: v' => (if Qeq_bool (snd p) (-(1)) then 1 else 0) + nneg v' end.

Lemma nneg_app v w : nneg (v ++ w) == nneg v + nneg w.
Proof. induction v as [|p v IH]; cbn [app nneg]; [ring|]. rewrite IH. ring. Qed.

Lemma bump_none j s v : bump j s v = None -> ~ In j (map fst v).
Proof.
  induction v as [|[i a] v IH]; cbn [bump map fst]; intros H; [intros []|].
  destruct (Nat.eqb_spec i j); [discriminate|]. destruct (bump j s v); [discriminate|].
  intros [E|E]; [contradiction|]. apply IH; [reflexivity|assumption].
Qed.
Lemma bump_some j s v : forall w, bump j s v = Some w ->
  exists v1 a v2, v = v1 ++ (j, a) :: v2 /\ w = v1 ++ (j, a + s) :: v2 /\ ~ In j (map fst v1).
Proof.
  induction v as [|[i a] v IH]; cbn [bump]; intros w H; [discriminate|].
  destruct (Nat.eqb_spec i j).
  - apply Some_inj in H. subst. exists [], a, v. conjs; [reflexivity|reflexivity|intros []].
  - destruct (bump j s v) as [u|] eqn:E; [|discriminate]. apply Some_inj in H. subst.
    destruct (IH u eq_refl) as (v1 & b & v2 & -> & -> & N). exists ((i, a) :: v1), b, v2.
    conjs; [reflexivity|reflexivity|]. cbn [map fst]. intros [F|F]; [contradiction|contradiction].
Qed.
Lemma coef_at_split j v1 a v2 : ~ In j (map fst v1) -> coef_at j (v1 ++ (j, a) :: v2) = a.
Proof.
  unfold coef_at. induction v1 as [|[i b] v1 IH]; cbn [app find map fst]; intros N.
  - rewrite Nat.eqb_refl. reflexivity.
  - destruct (Nat.eqb_spec i j); [exfalso; apply N; left; assumption|].
    apply IH. intros H. apply N. right. assumption.
Qed.

(** What the entries mean, relative to the literals [p] seen so far. *)
Definition entry_ok (n : nat) (p : list nat) (j : nat) (a : Q) : Prop :=
  (j < n)%nat /\
  ((a == 1 /\ In j p /\ ~ In (j + n)%nat p) \/
   (a == -(1) /\ In (j + n)%nat p /\ ~ In j p) \/
   (a == 0 /\ In j p /\ In (j + n)%nat p)).

Definition row_inv (n : nat) (p : list nat) (v : vec) (rhs : Q) (dup : nat) : Prop :=
  NoDup (map fst v) /\
  (forall j a, In (j, a) v -> entry_ok n p j a) /\
  (forall l, In l p -> In (lit_col n l) (map fst v)) /\
  rhs == 1 - nneg v - inject_Z (Z.of_nat dup) /\
  (forall y, value v y - rhs == lits_sum n p y - 1).

Lemma entry_ok_other n p l j a : (l < 2 * n)%nat -> lit_col n l <> j -> entry_ok n p j a ->
  entry_ok n (p ++ [l]) j a.
Proof.
  intros L N (J & H). split; [assumption|].
  assert (N1 : l <> j). { intros ->. apply N. unfold lit_col. destruct (Nat.ltb_spec j n); [reflexivity|lia]. }
  assert (N2 : l <> (j + n)%nat).
  { intros ->. apply N. unfold lit_col. destruct (Nat.ltb_spec (j + n) n); lia. }
  rewrite !in_app_iff. cbn [In].
  destruct H as [(E & A & B)|[(E & A & B)|(E & A & B)]]; tauto.
Qed.

Lemma row_inv_step n p v rhs dup l : row_inv n p v rhs dup -> (l < 2 * n)%nat -> ~ In l p ->
  exists v' rhs' dup', lit_step n (v, rhs, dup) l = Done (v', rhs', dup') /\
    row_inv n (p ++ [l]) v' rhs' dup'.
Proof.
  intros (ND & EO & CO & RH & VA) L NI. unfold lit_step.
  assert (EC : (if (l <? n)%nat then l else (l - n)%nat) = lit_col n l) by reflexivity.
  rewrite EC. pose proof (lit_col_lt n l L) as JL.
  destruct (Nat.leb_spec n (lit_col n l)); [lia|]. clear H.
  set (s := if (l <? n)%nat then 1 else -(1)). set (j := lit_col n l) in *.
  set (rhs' := if (l <? n)%nat then rhs else rhs - 1).
  assert (LV : forall y, s * y j - rhs' + rhs == lit_val n l y).
  { intros y. subst s rhs' j. unfold lit_val, lit_col. destruct (l <? n)%nat; ring. }
  destruct (bump j s v) as [w|] eqn:EB.
  - apply bump_some in EB. destruct EB as (v1 & a & v2 & -> & -> & N1).
    rewrite coef_at_split by assumption.
    assert (AE : entry_ok n p j a) by (apply EO; apply in_elt).
    assert (AS : a + s == 0 /\ entry_ok n (p ++ [l]) j (a + s) /\
              nneg [(j, a + s)] == nneg [(j, a)] - (if (l <? n)%nat then 1 else 0)).
    { destruct AE as (_ & AE). subst s j. unfold entry_ok, lit_col in *. cbn [nneg snd].
      rewrite !in_app_iff. cbn [In].
      destruct (Nat.ltb_spec l n) as [H|H].
      - destruct AE as [(E & A & B)|[(E & A & B)|(E & A & B)]]; [contradiction| |contradiction].
        assert (Z : a + 1 == 0) by (rewrite E; ring). conjs.
        + assumption. + lia. + right. right. tauto.
        + rewrite (proj2 (Qeqb_eq a (-(1)))) by assumption.
          destruct (Qeq_bool (a + 1) (-(1))) eqn:EQ; [apply Qeqb_eq in EQ; lra|ring].
      - assert (EL : (l - n + n = l)%nat) by lia. rewrite EL in *.
        destruct AE as [(E & A & B)|[(E & A & B)|(E & A & B)]]; [|contradiction|contradiction].
        assert (Z : a + -(1) == 0) by (rewrite E; ring). conjs.
        + assumption. + lia. + right. right. tauto.
        + destruct (Qeq_bool a (-(1))) eqn:EQ1; [apply Qeqb_eq in EQ1; lra|].
          destruct (Qeq_bool (a + -(1)) (-(1))) eqn:EQ; [apply Qeqb_eq in EQ; lra|ring]. }
    destruct AS as (AS & AE2 & NN). rewrite (proj2 (Qeqb_eq _ _) AS).
    exists (v1 ++ (j, a + s) :: v2), rhs', (S dup). split; [reflexivity|].
    assert (MF : map fst (v1 ++ (j, a + s) :: v2) = map fst (v1 ++ (j, a) :: v2)) by (rewrite !map_app; reflexivity).
    unfold row_inv. rewrite MF. conjs.
    + assumption.
    + intros j' a' H. apply in_app_iff in H. destruct H as [H|[H|H]].
      * apply entry_ok_other; [assumption| |apply EO; apply in_app_iff; left; assumption].
        fold j. intros ->. apply N1. apply in_map_iff. exists (j', a'). split; [reflexivity|assumption].
      * inversion H; subst. assumption.
      * apply entry_ok_other; [assumption| |apply EO; apply in_app_iff; right; right; assumption].
        fold j. intros ->. rewrite map_app in ND. cbn [map fst] in ND. apply NoDup_remove_2 in ND.
        apply ND. apply in_app_iff. right. apply in_map_iff. exists (j', a'). split; [reflexivity|assumption].
    + intros l' H. apply in_app_iff in H. destruct H as [H|[<-|[]]]; [apply CO; assumption|].
      rewrite map_app. fold j. apply in_app_iff. right. left. reflexivity.
    + rewrite Nat2Z.inj_succ. unfold Z.succ. rewrite inject_Z_plus. change (inject_Z 1) with 1.
      change (v1 ++ (j, a + s) :: v2) with (v1 ++ [(j, a + s)] ++ v2).
      change (v1 ++ (j, a) :: v2) with (v1 ++ [(j, a)] ++ v2) in RH.
      rewrite !nneg_app, NN. rewrite !nneg_app in RH. subst rhs'. destruct (l <? n)%nat; lra.
    + intros y. rewrite lits_sum_app. cbn [lits_sum]. specialize (VA y). specialize (LV y).
      rewrite !value_app in *. cbn [value] in *. lra.
  - apply bump_none in EB. exists (v ++ [(j, s)]), rhs', dup. split; [reflexivity|].
    unfold row_inv. rewrite map_app. cbn [map fst]. conjs.
    + apply NoDup_rev in ND. rewrite <- (rev_involutive (map fst v ++ [j])). apply NoDup_rev.
      rewrite rev_app_distr. cbn [rev app]. constructor; [rewrite <- in_rev; assumption|assumption].
    + intros j' a' H. apply in_app_iff in H. destruct H as [H|[H|[]]].
      * apply entry_ok_other; [assumption| |apply EO; assumption].
        fold j. intros ->. apply EB. apply in_map_iff. exists (j', a'). split; [reflexivity|assumption].
      * inversion H; subst j' a'. split; [assumption|].
        assert (NJ : forall l', In l' p -> lit_col n l' <> j).
        { intros l' H' E. apply EB. rewrite <- E. apply CO. assumption. }
        rewrite !in_app_iff. cbn [In]. subst s j. unfold lit_col in *. destruct (Nat.ltb_spec l n).
        -- left. conjs; [reflexivity|right; left; reflexivity|]. intros [F|[F|[]]]; [|lia].
           apply (NJ _ F). destruct (Nat.ltb_spec (l + n) n); lia.
        -- right. left. conjs; [reflexivity|right; left; lia|]. intros [F|[F|[]]]; [|lia].
           apply (NJ _ F). destruct (Nat.ltb_spec (l - n) n); lia.
    + intros l' H. apply in_app_iff. apply in_app_iff in H. destruct H as [H|[<-|[]]].
      * left. apply CO. assumption. * right. left. reflexivity.
    + rewrite nneg_app. cbn [nneg snd]. subst s rhs'. destruct (l <? n)%nat.
      * cbn [Qeq_bool]. destruct (Qeq_bool 1 (-(1))) eqn:EQ; [apply Qeqb_eq in EQ; lra|lra].
      * destruct (Qeq_bool (-(1)) (-(1))) eqn:EQ; [lra|apply Qeqb_neq in EQ; exfalso; apply EQ; reflexivity].
    + intros y. rewrite lits_sum_app, value_app. cbn [lits_sum value]. specialize (VA y). specialize (LV y). lra.
Qed.

Lemma row_inv_fold n d : forall p v rhs dup, row_inv n p v rhs dup ->
  (forall l, In l d -> (l < 2 * n)%nat) -> NoDup (p ++ d) ->
  exists v' rhs' dup', ofold (lit_step n) d (v, rhs, dup) = Done (v', rhs', dup') /\
    row_inv n (p ++ d) v' rhs' dup'.
Proof.
  induction d as [|l d IH]; intros p v rhs dup J L ND.
  - exists v, rhs, dup. rewrite app_nil_r. split; [reflexivity|assumption].
  - destruct (row_inv_step n p v rhs dup l J) as (v1 & r1 & d1 & E & J1).
    + apply L. left. reflexivity.
    + apply NoDup_remove_2 in ND. intros H. apply ND. apply in_app_iff. left. assumption.
    + destruct (IH (p ++ [l]) v1 r1 d1 J1) as (v2 & r2 & d2 & E2 & J2).
      * intros; apply L; right; assumption.
      * rewrite <- app_assoc. exact ND.
      * exists v2, r2, d2. cbn [ofold]. rewrite E. cbn [bind]. rewrite <- app_assoc in J2.
        split; [exact E2|exact J2].
Qed.

Lemma entries_nonneg v y : (forall j a, In (j, a) v -> (a == 1 \/ a == -(1) \/ a == 0) /\ 0 <= y j <= 1) ->
  0 <= value v y + nneg v.
Proof.
  induction v as [|[j a] v IH]; intros H; cbn [value nneg snd]; [lra|].
  assert (I0 := IH (fun j' a' Q => H j' a' (or_intror Q))).
  destruct (H j a (or_introl eq_refl)) as ([E|[E|E]] & Y).
  - assert (EA : a * y j == y j) by (rewrite E; ring). destruct (Qeq_bool a (-(1))) eqn:EQ; [apply Qeqb_eq in EQ|]; lra.
  - assert (EA : a * y j == - y j) by (rewrite E; ring). rewrite (proj2 (Qeqb_eq a (-(1))) E). lra.
  - assert (EA : a * y j == 0) by (rewrite E; ring). destruct (Qeq_bool a (-(1))) eqn:EQ; [apply Qeqb_eq in EQ|]; lra.
Qed.

Definition keepb (p : nat * Q) : bool := Qeq_bool (snd p) (-(1)) || Qeq_bool (snd p) 1.
Lemma keep_value v y : (forall j a, In (j, a) v -> a == 1 \/ a == -(1) \/ a == 0) ->
  value (filter keepb v) y == value v y.
Proof.
  induction v as [|[j a] v IH]; intros H; cbn [filter]; [reflexivity|].
  assert (I0 := IH (fun j' a' Q => H j' a' (or_intror Q))).
  destruct (keepb (j, a)) eqn:E; cbn [value]; [rewrite I0; reflexivity|].
  unfold keepb in E. cbn [snd] in E. apply orb_false_elim in E. destruct E as [E1 E2].
  apply Qeqb_neq in E1. apply Qeqb_neq in E2.
  destruct (H j a (or_introl eq_refl)) as [E|[E|E]]; [contradiction|contradiction|]. rewrite I0, E. ring.
Qed.
Lemma keep_nneg v :
  inject_Z (Z.of_nat (List.length (filter (fun p => Qeq_bool (snd p) (-(1))) (filter keepb v)))) == nneg v.
Proof.
  induction v as [|[j a] v IH]; cbn [filter nneg snd]; [reflexivity|].
  unfold keepb at 1. cbn [snd]. destruct (Qeq_bool a (-(1))) eqn:E; cbn [orb].
  - cbn [filter snd]. rewrite E. cbn [List.length]. rewrite Nat2Z.inj_succ. unfold Z.succ.
    rewrite inject_Z_plus, IH. change (inject_Z 1) with 1. ring.
  - destruct (Qeq_bool a 1); cbn [filter snd]; [rewrite E|]; rewrite IH; ring.
Qed.

(** The row built from a clique says exactly that its literals sum to at
    most one, and two complementary pairs are reported only if they cannot. *)
Lemma clique_row_ok n d : NoDup d -> (forall l, In l d -> (l < 2 * n)%nat) ->
  exists res, clique_row n d = Done res /\
  match res with
  | None => forall y, (forall l, In l d -> 0 <= y (lit_col n l) <= 1) -> 2 <= lits_sum n d y
  | Some (v, rhs, b) =>
      NoDup (map fst v) /\ (forall j a, In (j, a) v -> (j < n)%nat) /\
      forall y, value v y - rhs == lits_sum n d y - 1
  end.
Proof.
  intros ND L. destruct (row_inv_fold n d [] [] 1 0) as (v & rhs & dup & E & J).
  { unfold row_inv. conjs; [constructor|intros ? ? []|intros ? []|cbn; reflexivity|intros y; cbn [value lits_sum]; ring]. }
  { assumption. } { exact ND. }
  cbn [app] in J. unfold clique_row.
  match goal with |- context [ofold ?f ?l ?s0] => replace (ofold f l s0) with (Done (v, rhs, dup)) by (symmetry; exact E) end.
  cbn [bind].
  destruct J as (ND2 & EO & CO & RH & VA).
  assert (SG : forall j a, In (j, a) v -> a == 1 \/ a == -(1) \/ a == 0).
  { intros j a H. destruct (EO j a H) as (_ & [(A & _)|[(A & _)|(A & _)]]); tauto. }
  destruct (Nat.ltb_spec 1 dup) as [D|D].
  - eexists. split; [reflexivity|]. intros y Y.
    assert (0 <= value v y + nneg v).
    { apply entries_nonneg. intros j a H. split; [eapply SG; exact H|].
      destruct (EO j a H) as (J & EE). assert (G : In j d \/ In (j + n)%nat d) by tauto.
      destruct G as [G|G]; specialize (Y _ G); unfold lit_col in Y.
      - destruct (Nat.ltb_spec j n); [assumption|lia].
      - destruct (Nat.ltb_spec (j + n) n); [lia|]. replace (j + n - n)%nat with j in Y by lia. assumption. }
    specialize (VA y).
    assert (inject_Z 2 <= inject_Z (Z.of_nat dup)) by (rewrite <- Zle_Qle; lia).
    change (inject_Z 2) with 2 in *. lra.
  - destruct (Nat.eqb_spec dup 1) as [->|N].
    + eexists. split; [reflexivity|]. cbv beta iota.
      change (fun p : nat * Q => Qeq_bool (snd p) (-(1)) || Qeq_bool (snd p) 1) with keepb. conjs.
      * clear - ND2. induction v as [|p v IH]; cbn [filter]; [constructor|].
        cbn [map] in ND2. inversion ND2 as [|? ? N1 N2]; subst. specialize (IH N2).
        destruct (keepb p); cbn [map]; [|assumption]. constructor; [|assumption].
        intros H. apply N1. apply in_map_iff in H. destruct H as (q & Q1 & Q2).
        apply filter_In in Q2. apply in_map_iff. exists q. tauto.
      * intros j a H. apply filter_In in H. apply (EO j a). tauto.
      * intros y. rewrite keep_value by assumption. rewrite keep_nneg.
        specialize (VA y). change (inject_Z (Z.of_nat 1)) with 1 in RH. lra.
    + eexists. split; [reflexivity|]. cbv beta iota. conjs; [assumption|intros j a H; apply (EO j a H)|assumption].
Qed.
