(** * Lemmas for CglResidualCapacity *)

From Coq Require Import Qabs.
From Verif Require Import Base Model_ResidualCapacity.
Local Open Scope Q_scope.

(** ** The residual capacity argument *)
Lemma rescap_core (A b d s : Q) (Y : Z) :
  0 < d -> s <= A -> s - d * inject_Z Y <= b ->
  let t := (A - b) / d in
  let r := A - b - d * qfloor t in
  s - r * inject_Z Y <= A - r * qceil t.
Proof.
  intros D S R t r.
  assert (T : A - b == d * t) by (unfold t; field; lra).
  pose proof (qfloor_le t) as F1. pose proof (qfloor_lt t) as F2.
  pose proof (qceil_ge t) as C1. pose proof (qceil_lt t) as C2.
  assert (Er : r == d * (t - qfloor t)) by (unfold r; rewrite T; ring).
  assert (R0 : 0 <= r) by (rewrite Er; nra).
  assert (Rd : r <= d) by (rewrite Er; nra).
  destruct (Z_le_gt_dec (Qceiling t) Y) as [G|L].
  - assert (qceil t <= inject_Z Y) by (unfold qceil; rewrite <- Zle_Qle; exact G). nra.
  - assert (Y1 : inject_Z Y + 1 <= qceil t).
    { unfold qceil. change 1 with (inject_Z 1). rewrite <- inject_Z_plus, <- Zle_Qle. lia. }
    destruct (Qeq_dec t (qfloor t)) as [E|N].
    + assert (r == 0) by (rewrite Er, <- E; ring).
      assert (qceil t == t).
      { assert (qceil t <= qfloor t) by (apply int_ge_ceil; rewrite <- E; apply Qle_refl). lra. }
      assert (inject_Z Y <= t - 1) by lra. nra.
    + assert (qceil t == qfloor t + 1).
      { assert (U : (Qceiling t <= Qfloor t + 1)%Z).
        { assert (X : qceil t < qfloor t + 1 + 1) by lra. unfold qceil, qfloor in X.
          change 1 with (inject_Z 1) in X. rewrite <- !inject_Z_plus, <- Zlt_Qlt in X. lia. }
        assert (V : (Qfloor t < Qceiling t)%Z).
        { rewrite Zlt_Qlt. fold (qfloor t) (qceil t). lra. }
        unfold qceil, qfloor. change 1 with (inject_Z 1). rewrite <- inject_Z_plus.
        assert (Qceiling t = Qfloor t + 1)%Z as -> by lia. reflexivity. }
      assert (A - b == d * (qceil t - 1) + r) by (rewrite Er, T; rewrite H; ring).
      assert (0 <= (d - r) * (qceil t - 1 - inject_Z Y)) by (apply Qmult_le_0_compat; lra). nra.
Qed.

(** ** Sums *)
Lemma sumq_app l l' : sumq (l ++ l') == sumq l + sumq l'.
Proof. induction l as [|a l IH]; simpl; [lra|]. rewrite IH. lra. Qed.
Lemma sumq_le {A} (f g : A -> Q) l :
  (forall a, In a l -> f a <= g a) -> sumq (map f l) <= sumq (map g l).
Proof.
  induction l as [|a l IH]; simpl; intro H; [lra|].
  pose proof (H a (or_introl eq_refl)). pose proof (IH ltac:(auto)). lra.
Qed.
Lemma sumq_filter_le {A} (f : A -> Q) p l :
  (forall a, In a l -> 0 <= f a) -> sumq (map f (filter p l)) <= sumq (map f l).
Proof.
  induction l as [|a l IH]; simpl; intro H; [lra|].
  pose proof (H a (or_introl eq_refl)). pose proof (IH ltac:(auto)).
  destruct (p a); simpl; lra.
Qed.
Lemma sumq_ext {A} (f g : A -> Q) l :
  (forall a, In a l -> f a == g a) -> sumq (map f l) == sumq (map g l).
Proof.
  induction l as [|a l IH]; simpl; intro H; [lra|].
  rewrite (H a) by auto. rewrite IH by auto. reflexivity.
Qed.
Lemma sumq_integral {A} (f : A -> Q) l :
  (forall a, In a l -> integral (f a)) -> integral (sumq (map f l)).
Proof.
  induction l as [|a l IH]; simpl; intro H; [apply integral_0|].
  apply integral_plus; auto.
Qed.
Lemma value_sum v y : value v y == sumq (map (fun e => snd e * y (fst e)) v).
Proof. induction v as [|[j a] v IH]; simpl; [lra|]. rewrite IH. reflexivity. Qed.
(** A sum over part of a list, as a sum with a selection. *)
Lemma sumq_sel {A} (f : A -> Q) p l :
  sumq (map f (filter p l)) == sumq (map (fun a => if p a then f a else 0) l).
Proof.
  induction l as [|a l IH]; simpl; [lra|]. destruct (p a); simpl; rewrite IH; lra.
Qed.
Lemma sumq_plus {A} (f g : A -> Q) l :
  sumq (map (fun a => f a + g a) l) == sumq (map f l) + sumq (map g l).
Proof. induction l as [|a l IH]; simpl; [lra|]. rewrite IH. lra. Qed.
Lemma sumq_opp {A} (f : A -> Q) l : sumq (map (fun a => - f a) l) == - sumq (map f l).
Proof. induction l as [|a l IH]; simpl; [lra|]. rewrite IH. lra. Qed.
Lemma sumq_scale {A} k (f : A -> Q) l : sumq (map (fun a => k * f a) l) == k * sumq (map f l).
Proof. induction l as [|a l IH]; simpl; [lra|]. rewrite IH. lra. Qed.

(** ** One row *)
Section Row.
  Variable eps tol : Q.
  Variable m : mip.
  Variable xlp y : nat -> Q.
  Hypothesis eps0 : 0 <= eps.
  Local Notation is_cont := (is_cont eps m).
  Local Notation is_int := (is_int eps m).
  Local Notation upper := (upper m).
  Local Notation scaled := (scaled m).
  Local Notation complemented := (complemented eps m).
  Local Notation newcoef := (newcoef eps m).

  (** the variable of the canonical row *)
  Definition zed (e : nat * Q) : Q :=
    if complemented e then snd e * y (fst e) - scaled e else snd e * y (fst e).

  (** an entry whose data is not below the tolerance, for the point y *)
  Definition entry_fine (e : nat * Q) : Prop :=
    (snd e == 0 \/ eps < Qabs (snd e)) /\
    (is_cont e = true -> 0 <= y (fst e) <= upper (fst e) /\ (0 <= scaled e \/ scaled e < - eps)) /\
    (is_int e = true -> integral (y (fst e))).

  Lemma zed_range e : is_cont e = true -> entry_fine e -> 0 <= zed e <= newcoef e.
  Proof.
    intros C (F1 & F2 & _). destruct (F2 C) as ((Y0 & Yu) & S).
    unfold zed, Model_ResidualCapacity.newcoef. destruct (complemented e) eqn:K; unfold Model_ResidualCapacity.complemented in K; qb.
    - unfold Model_ResidualCapacity.scaled in *.
      assert (snd e < 0) by (destruct (Qlt_le_dec (snd e) 0); [assumption|exfalso; nra]). nra.
    - destruct S as [S|S]; [|lra]. unfold Model_ResidualCapacity.scaled in *.
      destruct (Qlt_le_dec (snd e) 0) as [N|N].
      + assert (y (fst e) == 0) by nra. rewrite H. nra.
      + nra.
  Qed.
  Lemma scaled_nonneg_or e : is_cont e = true -> entry_fine e ->
    (if snd e <? - eps then scaled e else 0) == (if complemented e then scaled e else 0).
  Proof.
    intros C (F1 & F2 & _). destruct (F2 C) as ((Y0 & Yu) & S).
    destruct (complemented e) eqn:K; unfold Model_ResidualCapacity.complemented in K;
      destruct (snd e <? - eps) eqn:L; qb; try reflexivity.
    - unfold Model_ResidualCapacity.scaled in *. destruct F1 as [F1|F1]; [rewrite F1 in K; lra|].
      revert F1. apply Qabs_case; intros; try lra. nra.
    - unfold Model_ResidualCapacity.scaled in *. destruct S as [S|S]; [|lra]. nra.
  Qed.

  Definition fine (v : vec) : Prop := forall e, In e v -> entry_fine e.

  Lemma split_value v :
    fine v -> value v y == value (filter is_cont v) y + value (filter is_int v) y.
  Proof.
    intro F. rewrite !value_sum, !sumq_sel, <- sumq_plus. apply sumq_ext.
    intros [j a] E. destruct (F _ E) as (F1 & _ & _). simpl in *.
    unfold Model_ResidualCapacity.is_cont, Model_ResidualCapacity.is_int. simpl.
    destruct (eps <? a) eqn:K1, (a <? - eps) eqn:K2, (m_int m j); simpl; qb; try lra.
    destruct F1 as [F1|F1]; [rewrite F1; lra|]. revert F1. apply Qabs_case; intros; lra.
  Qed.

  Lemma last_coef l c d0 :
    (forall e, In e l -> snd e == c) -> l <> [] -> fold_left (fun _ (e : nat * Q) => - snd e) l d0 == - c.
  Proof.
    revert d0. induction l as [|e l IH]; intros d0 H N; [congruence|]. simpl.
    destruct l as [|e' l].
    - simpl. rewrite (H e) by (left; reflexivity). reflexivity.
    - apply IH; [auto|discriminate]. intros e0 E0. apply H. right. exact E0.
  Qed.

  Theorem separate_valid v rhs c cut :
    fine v -> value v y <= rhs ->
    (forall e, In e (filter is_int v) -> snd e == c) -> filter is_int v <> [] ->
    separate eps tol m xlp v rhs = Some cut -> rowcut_sat cut y.
  Proof.
    intros F R Cc Ni. unfold separate.
    set (ints := filter is_int v) in *. set (conts := filter is_cont v) in *. cbv zeta.
    set (lambda := _ - qfloor _). set (sbar := filter (above eps m xlp lambda) conts).
    destruct sbar as [|e0 sb] eqn:Es; [discriminate|]. rewrite <- Es. clear e0 sb Es.
    set (d := fold_left _ _ _). set (newRHS := rhs + _). set (sumCoef := sumq (map newcoef sbar)).
    set (t := (sumCoef - newRHS) / d). set (r := sumCoef - newRHS - d * qfloor t).
    destruct (tol <? _); [|discriminate]. intro H. apply Some_inj in H. subst cut.
    split; [exact I|]. simpl.
    assert (Dc : d == - c) by (apply last_coef; assumption).
    assert (Fc : forall e, In e conts -> is_cont e = true /\ entry_fine e).
    { intros e E. apply filter_In in E as (E1 & E2). split; auto. }
    assert (Fs : forall e, In e sbar -> is_cont e = true /\ entry_fine e).
    { intros e E. apply filter_In in E as (E1 & E2). auto. }
    assert (D0 : 0 < d).
    { destruct ints as [|e l] eqn:Ei; [congruence|].
      assert (In e ints) as E by (rewrite Ei; left; reflexivity).
      rewrite Dc, <- (Cc e) by (left; reflexivity). unfold ints in E. apply filter_In in E as (_ & E).
      unfold Model_ResidualCapacity.is_int in E. qb. lra. }
    assert (Yi : integral (sumq (map (fun e => y (fst e)) ints))).
    { apply sumq_integral. intros e E. apply filter_In in E as (E1 & E2). apply (F e E1). exact E2. }
    destruct Yi as [Y HY].
    assert (Vi : value ints y == - d * inject_Z Y).
    { rewrite value_sum, <- HY, <- sumq_scale. apply sumq_ext. intros e E.
      rewrite (Cc e E), Dc. ring. }
    assert (Vz : value conts y == sumq (map zed conts) - sumq (map newcoef (filter complemented conts))).
    { rewrite value_sum, sumq_sel. setoid_replace (sumq (map zed conts) - sumq (map (fun a => if complemented a then newcoef a else 0) conts))
        with (sumq (map zed conts) + - sumq (map (fun a => if complemented a then newcoef a else 0) conts)) by ring.
      rewrite <- sumq_opp, <- sumq_plus. apply sumq_ext. intros e _. unfold zed, Model_ResidualCapacity.newcoef.
      destruct (complemented e); ring. }
    assert (Zle : sumq (map zed sbar) <= sumq (map zed conts)).
    { apply sumq_filter_le. intros e E. destruct (Fc e E) as (E1 & E2). apply (zed_range e E1 E2). }
    assert (Zs : sumq (map zed sbar) <= sumCoef).
    { apply sumq_le. intros e E. destruct (Fs e E) as (E1 & E2). apply (zed_range e E1 E2). }
    assert (Row : sumq (map zed sbar) - d * inject_Z Y <= newRHS).
    { rewrite (split_value v F) in R. fold conts ints in R. rewrite Vi, Vz in R. unfold newRHS. lra. }
    pose proof (rescap_core sumCoef newRHS d _ Y D0 Zs Row) as Core. cbv zeta in Core. fold t r in Core.
    rewrite value_app.
    assert (Vs : value sbar y == sumq (map zed sbar) + sumq (map scaled (filter (fun e => snd e <? - eps) sbar))).
    { rewrite value_sum, sumq_sel, <- sumq_plus. apply sumq_ext. intros e E.
      destruct (Fs e E) as (E1 & E2). rewrite (scaled_nonneg_or e E1 E2). unfold zed.
      destruct (complemented e); ring. }
    assert (Vr : value (map (fun e : nat * Q => (fst e, - r)) ints) y == - r * inject_Z Y).
    { rewrite value_sum, map_map, <- HY, <- sumq_scale. apply sumq_ext. intros e E. simpl. ring. }
    rewrite Vs, Vr. lra.
  Qed.
End Row.

(** ** What the classification guarantees *)
Section Treat.
  Variable eps : Q.
  Variable m : mip.
  Lemma treat_spec : forall v ic cont,
    treat eps m v ic cont = true ->
    (forall e, In e v -> is_cont eps m e = true -> bad_bounds eps m (fst e) = false) /\
    (exists c, (ic = None \/ ic = Some c) /\ (ic = None -> exists e, In e v /\ is_int eps m e = true /\ snd e = c) /\
               forall e, In e v -> is_cont eps m e = false -> is_int eps m e = true -> Qabs (snd e - c) <= eps \/ snd e = c).
  Proof.
    induction v as [|e v IH]; cbn [treat]; intros ic cont H.
    - split; [simpl; tauto|]. destruct ic as [c|]; [|rewrite andb_false_r in H; discriminate].
      exists c. split; [auto|]. split; [discriminate|simpl; tauto].
    - destruct (is_cont eps m e) eqn:C.
      + destruct (bad_bounds eps m (fst e)) eqn:B; [discriminate|].
        destruct (IH _ _ H) as (A & c & I1 & I2 & I3). split.
        * intros e' [<-|E] K; auto.
        * exists c. split; [exact I1|]. split.
          -- intro N. destruct (I2 N) as (e' & X & Y). exists e'. split; [right; exact X|exact Y].
          -- intros e' [<-|E] K; [congruence|exact (I3 e' E K)].
      + destruct ic as [c|].
        * destruct (is_int eps m e && (eps <? Qabs (snd e - c))) eqn:K; [discriminate|].
          destruct (IH _ _ H) as (A & c' & I1 & I2 & I3).
          assert (c' = c) by (destruct I1; congruence). subst c'. split.
          -- intros e' [<-|E] L; [congruence|auto].
          -- exists c. split; [auto|]. split; [discriminate|]. intros e' [<-|E] L M; [|exact (I3 e' E L M)].
             rewrite M in K. simpl in K. qb. auto.
        * destruct (is_int eps m e) eqn:M.
          -- destruct (IH _ _ H) as (A & c' & I1 & I2 & I3).
             assert (c' = snd e) by (destruct I1; congruence). subst c'. split.
             ++ intros e' [<-|E] L; [congruence|auto].
             ++ exists (snd e). split; [auto|]. split; [discriminate || (intros _; exists e; split; [left; reflexivity|auto])|]. intros e' [<-|E] L N; [auto|exact (I3 e' E L N)].
          -- destruct (IH _ _ H) as (A & c' & I1 & I2 & I3). split.
             ++ intros e' [<-|E] L; [congruence|auto].
             ++ exists c'. split; [auto|]. split.
                ** intro N. destruct (I2 N) as (e' & X & Y). exists e'. split; [right; exact X|exact Y].
                ** intros e' [<-|E] L N; [congruence|exact (I3 e' E L N)].
  Qed.
End Treat.
