(** * Proofs about CglPreProcess::tightenPrimalBounds *)
From Coq Require Import Permutation.
From Verif Require Import Model_TightenPrimal.
Local Open Scope Q_scope.

(** ** Dividing by a coefficient *)
Lemma div_ge_pos a p q x : 0 < a -> q <= a * (x - p) -> p + q / a <= x.
Proof.
  intros A H. assert (E : (q / a) * a == q) by (field; lra).
  assert ((q / a) * a <= (x - p) * a) by lra. apply Qmult_le_r in H0; lra.
Qed.
Lemma div_le_pos a p q x : 0 < a -> a * (x - p) <= q -> x <= p + q / a.
Proof.
  intros A H. assert (E : (q / a) * a == q) by (field; lra).
  assert ((x - p) * a <= (q / a) * a) by lra. apply Qmult_le_r in H0; lra.
Qed.
Lemma div_ge_neg a p q x : a < 0 -> a * (x - p) <= q -> p + q / a <= x.
Proof.
  intros A H. assert (E : (q / a) * a == q) by (field; lra).
  assert (K : (q / a) * (- a) <= (x - p) * (- a)) by lra. apply Qmult_le_r in K; lra.
Qed.
Lemma div_le_neg a p q x : a < 0 -> q <= a * (x - p) -> x <= p + q / a.
Proof.
  intros A H. assert (E : (q / a) * a == q) by (field; lra).
  assert (K : (x - p) * (- a) <= (q / a) * (- a)) by lra. apply Qmult_le_r in K; lra.
Qed.

(** ** Boxes and sums over a row *)
Definition within (lo hi : option Q) (q : Q) : Prop := ge_opt_lo q lo /\ le_opt_hi q hi.
Definition no_zero (v : vec) : Prop := forall j a, In (j, a) v -> ~ a == 0.
Definition is_none (o : option Q) : nat := match o with None => 1 | _ => 0 end.
Definition or0 (o : option Q) : Q := match o with Some q => q | None => 0 end.
Lemma value_mid v1 v2 j a x : value (v1 ++ (j, a) :: v2) x == a * x j + value (v1 ++ v2) x.
Proof. rewrite !value_app. cbn [value]. ring. Qed.
Lemma infinite_app l1 l2 : infinite (l1 ++ l2) = (infinite l1 + infinite l2)%nat.
Proof. unfold infinite. now rewrite filter_app, app_length. Qed.
Lemma infinite_cons o l : infinite (o :: l) = (is_none o + infinite l)%nat.
Proof. destruct o; reflexivity. Qed.
Lemma finite_sum_cons o l : finite_sum (o :: l) == or0 o + finite_sum l.
Proof. destruct o; unfold finite_sum; cbn [fold_right or0]; ring. Qed.
Lemma finite_sum_app l1 l2 : finite_sum (l1 ++ l2) == finite_sum l1 + finite_sum l2.
Proof.
  induction l1 as [|o l1 IH]; cbn [app].
  - change (finite_sum []) with 0. ring.
  - rewrite !finite_sum_cons, IH. ring.
Qed.
Lemma infinite_mid (f : nat * Q -> option Q) v1 v2 e :
  infinite (map f (v1 ++ e :: v2)) = (is_none (f e) + infinite (map f (v1 ++ v2)))%nat.
Proof.
  rewrite !map_app, !infinite_app. cbn [map]. change (f e :: map f v2) with ([f e] ++ map f v2).
  rewrite infinite_app. replace (infinite [f e]) with (is_none (f e)) by (destruct (f e); reflexivity). lia.
Qed.
Lemma finite_sum_mid (f : nat * Q -> option Q) v1 v2 e :
  finite_sum (map f (v1 ++ e :: v2)) == or0 (f e) + finite_sum (map f (v1 ++ v2)).
Proof.
  rewrite !map_app, !finite_sum_app. cbn [map]. change (f e :: map f v2) with ([f e] ++ map f v2).
  rewrite finite_sum_app, finite_sum_cons. change (finite_sum []) with 0. ring.
Qed.
Lemma pos_neg a : ~ a == 0 -> {0 < a} + {a < 0}.
Proof. intro H. destruct (Q_dec a 0) as [[L|L]|L]; [right; exact L|left; exact L|contradiction]. Qed.
Lemma ltb_pos a : 0 < a -> (0 <? a) = true. Proof. intro H. apply Qltb_lt. exact H. Qed.
Lemma ltb_neg a : a < 0 -> (0 <? a) = false. Proof. intro H. apply Qltb_ge. lra. Qed.
Section Sums.
Variables (lo hi : nat -> option Q) (x : point).
Lemma top_ge j a q : ~ a == 0 -> within (lo j) (hi j) (x j) -> top3 lo hi (j, a) = Some q -> a * x j <= q.
Proof.
  intros Na [L H] E. unfold top3 in E. cbn [fst snd] in E. destruct (pos_neg a Na) as [P|P].
  - rewrite (ltb_pos a P) in E. destruct (hi j) as [u|]; [|discriminate E]. apply Some_inj in E. subst q. cbn in H.
    assert (x j * a <= u * a) by (apply Qmult_le_compat_r; lra). lra.
  - rewrite (ltb_neg a P) in E. destruct (lo j) as [l|]; [|discriminate E]. apply Some_inj in E. subst q. cbn in L.
    assert (l * - a <= x j * - a) by (apply Qmult_le_compat_r; lra). lra.
Qed.
Lemma bottom_le j a q : ~ a == 0 -> within (lo j) (hi j) (x j) -> bottom3 lo hi (j, a) = Some q -> q <= a * x j.
Proof.
  intros Na [L H] E. unfold bottom3 in E. cbn [fst snd] in E. destruct (pos_neg a Na) as [P|P].
  - rewrite (ltb_pos a P) in E. destruct (lo j) as [l|]; [|discriminate E]. apply Some_inj in E. subst q. cbn in L.
    assert (l * a <= x j * a) by (apply Qmult_le_compat_r; lra). lra.
  - rewrite (ltb_neg a P) in E. destruct (hi j) as [u|]; [|discriminate E]. apply Some_inj in E. subst q. cbn in H.
    assert (x j * - a <= u * - a) by (apply Qmult_le_compat_r; lra). lra.
Qed.
Lemma tops_ge v : no_zero v -> (forall j a, In (j, a) v -> within (lo j) (hi j) (x j)) ->
  infinite (map (top3 lo hi) v) = 0%nat -> value v x <= finite_sum (map (top3 lo hi) v).
Proof.
  induction v as [|[j a] v IH]; intros Z B I; cbn [map value]; [apply Qle_refl|].
  cbn [map] in I. rewrite infinite_cons in I. rewrite finite_sum_cons.
  destruct (top3 lo hi (j, a)) as [q|] eqn:E; [|discriminate I]. cbn [or0].
  pose proof (top_ge j a q (Z j a (or_introl eq_refl)) (B j a (or_introl eq_refl)) E).
  assert (value v x <= finite_sum (map (top3 lo hi) v)); [|lra].
  apply IH; [intros k b K; apply (Z k b); now right|intros k b K; apply (B k b); now right|exact I].
Qed.
Lemma bots_le v : no_zero v -> (forall j a, In (j, a) v -> within (lo j) (hi j) (x j)) ->
  infinite (map (bottom3 lo hi) v) = 0%nat -> finite_sum (map (bottom3 lo hi) v) <= value v x.
Proof.
  induction v as [|[j a] v IH]; intros Z B I; cbn [map value]; [apply Qle_refl|].
  cbn [map] in I. rewrite infinite_cons in I. rewrite finite_sum_cons.
  destruct (bottom3 lo hi (j, a)) as [q|] eqn:E; [|discriminate I]. cbn [or0].
  pose proof (bottom_le j a q (Z j a (or_introl eq_refl)) (B j a (or_introl eq_refl)) E).
  assert (finite_sum (map (bottom3 lo hi) v) <= value v x); [|lra].
  apply IH; [intros k b K; apply (Z k b); now right|intros k b K; apply (B k b); now right|exact I].
Qed.
End Sums.
Lemma no_zero_mid v1 v2 e : no_zero (v1 ++ e :: v2) -> no_zero (v1 ++ v2).
Proof. intros Z j a I. apply (Z j a). apply in_app_iff in I. apply in_app_iff. destruct I; [now left|right; now right]. Qed.

(** ** Stage 1 *)
Section Stage1.
Variables (m : mip) (x : point) (forms : nat -> vec) (nr : nat) (tol : Q).
Hypothesis forms_ok : forall i, (i < nr)%nat -> no_zero (forms i) /\
  forall j a, In (j, a) (forms i) -> (j < m_ncols m)%nat.
Hypothesis ints_ok : forall j, (j < m_ncols m)%nat -> m_int m j = true -> integral (x j).
Definition ok1 (s : t1) : Prop :=
  (forall j, (j < m_ncols m)%nat -> within (a_lo s j) (a_hi s j) (x j)) /\
  (forall i, (i < nr)%nat -> within (a_rl s i) (a_ru s i) (value (forms i) x)).
(** bounds of [s] at least as tight as those of [s0] *)
Definition tighter (lo hi lo' hi' : nat -> option Q) : Prop := forall j,
  (forall l, lo j = Some l -> exists l', lo' j = Some l' /\ l <= l') /\
  (forall u, hi j = Some u -> exists u', hi' j = Some u' /\ u' <= u).
Lemma tighter_refl lo hi : tighter lo hi lo hi.
Proof. intro j. split; intros q E; exists q; (split; [exact E|apply Qle_refl]). Qed.
Lemma tighter_trans lo hi lo1 hi1 lo2 hi2 : tighter lo hi lo1 hi1 -> tighter lo1 hi1 lo2 hi2 -> tighter lo hi lo2 hi2.
Proof.
  intros A B j. destruct (A j) as [A1 A2], (B j) as [B1 B2]. split; intros q E.
  - destruct (A1 q E) as (p & E1 & L1). destruct (B1 p E1) as (r & E2 & L2). exists r. split; [exact E2|lra].
  - destruct (A2 q E) as (p & E1 & L1). destruct (B2 p E1) as (r & E2 & L2). exists r. split; [exact E2|lra].
Qed.
Lemma tighter_set_lo lo hi j b : above_lo (lo j) b = true -> tighter lo hi (set_at lo j (Some b)) hi.
Proof.
  intros A k. split; intros q E; [|exists q; split; [exact E|apply Qle_refl]].
  unfold set_at. destruct (Nat.eqb_spec k j) as [->|]; [|exists q; split; [exact E|apply Qle_refl]].
  exists b. split; [reflexivity|]. rewrite E in A. cbn in A. qb. lra.
Qed.
Lemma tighter_set_hi lo hi j b : below_hi (hi j) b = true -> tighter lo hi lo (set_at hi j (Some b)).
Proof.
  intros A k. split; intros q E; [exists q; split; [exact E|apply Qle_refl]|].
  unfold set_at. destruct (Nat.eqb_spec k j) as [->|]; [|exists q; split; [exact E|apply Qle_refl]].
  exists b. split; [reflexivity|]. rewrite E in A. cbn in A. qb. lra.
Qed.
Lemma above_weaker o q b : 0 <= q -> above_lo (option_map (fun l => l + q) o) b = true -> above_lo o b = true.
Proof. intros N H. destruct o as [l|]; [|reflexivity]. cbn in *. qb. apply Qltb_lt. lra. Qed.
Lemma below_weaker o q b : 0 <= q -> below_hi (option_map (fun l => l - q) o) b = true -> below_hi o b = true.
Proof. intros N H. destruct o as [l|]; [|reflexivity]. cbn in *. qb. apply Qltb_lt. lra. Qed.
Lemma within_set_lo lo hi j b k : within (lo k) (hi k) (x k) -> b <= x j ->
  within (set_at lo j (Some b) k) (hi k) (x k).
Proof. intros [A B] H. unfold set_at. destruct (Nat.eqb_spec k j) as [->|]; split; assumption. Qed.
Lemma within_set_hi lo hi j b k : within (lo k) (hi k) (x k) -> x j <= b ->
  within (lo k) (set_at hi j (Some b) k) (x k).
Proof. intros [A B] H. unfold set_at. destruct (Nat.eqb_spec k j) as [->|]; split; assumption. Qed.
Lemma fin_lo_some o q : fin_lo o = Some q -> o = Some q.
Proof. destruct o as [l|]; cbn; [|discriminate]. destruct (_ <? _); [auto|discriminate]. Qed.
Lemma fin_hi_some o q : fin_hi o = Some q -> o = Some q.
Proof. destruct o as [l|]; cbn; [|discriminate]. destruct (_ <? _); [auto|discriminate]. Qed.
Lemma fin_within lo hi q : within lo hi q -> within (fin_lo lo) (fin_hi hi) q.
Proof.
  intros [A B]. split.
  - destruct (fin_lo lo) eqn:E; [|exact I]. apply fin_lo_some in E. now subst lo.
  - destruct (fin_hi hi) eqn:E; [|exact I]. apply fin_hi_some in E. now subst hi.
Qed.
(** The bound got from the entry (j, a) of a row *)
Lemma implied_up s0 v j a side : no_zero v -> (forall k b, In (k, b) v -> (k < m_ncols m)%nat) ->
  (forall k, (k < m_ncols m)%nat -> within (a_lo s0 k) (a_hi s0 k) (x k)) ->
  In (j, a) v -> infinite (map (top1 s0) v) = 0%nat -> side <= value v x ->
  exists p, (if 0 <? a then a_hi s0 j else a_lo s0 j) = Some p /\
    side - finite_sum (map (top1 s0) v) <= a * (x j - p).
Proof.
  intros Z R B I F S. apply in_split in I. destruct I as (v1 & v2 & ->).
  change (top1 s0) with (top3 (fun k => fin_lo (a_lo s0 k)) (fun k => fin_hi (a_hi s0 k))) in *.
  rewrite value_mid in S. rewrite infinite_mid in F.
  set (T := top3 _ _) in *. pose proof (finite_sum_mid T v1 v2 (j, a)) as FS.
  assert (V : value (v1 ++ v2) x <= finite_sum (map T (v1 ++ v2))).
  { apply tops_ge; [now apply no_zero_mid in Z| |idtac; clear - F; fold T; lia]. intros k b K. apply fin_within, B, (R k b).
    apply in_app_iff in K. apply in_app_iff. destruct K; [now left|right; now right]. }
  destruct (T (j, a)) as [q|] eqn:Eq; [|discriminate F]. unfold T, top3 in Eq. cbn [fst snd or0] in *.
  destruct (0 <? a).
  - destruct (fin_hi (a_hi s0 j)) as [u|] eqn:E; [|discriminate Eq]. apply fin_hi_some in E. apply Some_inj in Eq. subst q. exists u. split; [exact E|]. lra.
  - destruct (fin_lo (a_lo s0 j)) as [u|] eqn:E; [|discriminate Eq]. apply fin_lo_some in E. apply Some_inj in Eq. subst q. exists u. split; [exact E|]. lra.
Qed.
Lemma implied_down s0 v j a side : no_zero v -> (forall k b, In (k, b) v -> (k < m_ncols m)%nat) ->
  (forall k, (k < m_ncols m)%nat -> within (a_lo s0 k) (a_hi s0 k) (x k)) ->
  In (j, a) v -> infinite (map (bottom1 s0) v) = 0%nat -> value v x <= side ->
  exists p, (if 0 <? a then a_lo s0 j else a_hi s0 j) = Some p /\
    a * (x j - p) <= side - finite_sum (map (bottom1 s0) v).
Proof.
  intros Z R B I F S. apply in_split in I. destruct I as (v1 & v2 & ->).
  change (bottom1 s0) with (bottom3 (fun k => fin_lo (a_lo s0 k)) (fun k => fin_hi (a_hi s0 k))) in *.
  rewrite value_mid in S. rewrite infinite_mid in F.
  set (T := bottom3 _ _) in *. pose proof (finite_sum_mid T v1 v2 (j, a)) as FS.
  assert (V : finite_sum (map T (v1 ++ v2)) <= value (v1 ++ v2) x).
  { apply bots_le; [now apply no_zero_mid in Z| |idtac; clear - F; fold T; lia]. intros k b K. apply fin_within, B, (R k b).
    apply in_app_iff in K. apply in_app_iff. destruct K; [now left|right; now right]. }
  destruct (T (j, a)) as [q|] eqn:Eq; [|discriminate F]. unfold T, bottom3 in Eq. cbn [fst snd or0] in *.
  destruct (0 <? a).
  - destruct (fin_lo (a_lo s0 j)) as [u|] eqn:E; [|discriminate Eq]. apply fin_lo_some in E. apply Some_inj in Eq. subst q. exists u. split; [exact E|]. lra.
  - destruct (fin_hi (a_hi s0 j)) as [u|] eqn:E; [|discriminate Eq]. apply fin_hi_some in E. apply Some_inj in Eq. subst q. exists u. split; [exact E|]. lra.
Qed.
Definition same_rows (s s' : t1) : Prop := a_rl s' = a_rl s /\ a_ru s' = a_ru s /\ a_stop s' = a_stop s.
Lemma entry1_ok up side sum s0 s j a : ~ a == 0 ->
  (forall k, (k < m_ncols m)%nat -> within (a_lo s k) (a_hi s k) (x k)) ->
  tighter (a_lo s0) (a_hi s0) (a_lo s) (a_hi s) ->
  (exists p, (if Bool.eqb up (0 <? a) then a_hi s0 j else a_lo s0 j) = Some p /\
     (if up then side - sum <= a * (x j - p) else a * (x j - p) <= side - sum)) ->
  let s' := entry1 tol up side sum s (j, a) in
  (forall k, (k < m_ncols m)%nat -> within (a_lo s' k) (a_hi s' k) (x k)) /\
  tighter (a_lo s) (a_hi s) (a_lo s') (a_hi s') /\ same_rows s s'.
Proof.
  intros Na B T (p & Ep & H). cbn zeta. unfold entry1.
  destruct (T j) as [T1 T2]. destruct (Bool.eqb up (0 <? a)) eqn:D.
  - destruct (fin_hi (a_hi s j)) as [u|] eqn:Eu; [|split; [exact B|split; [apply tighter_refl|repeat split]]].
    apply fin_hi_some in Eu. destruct (T2 p Ep) as (u' & Eu' & Lu). rewrite Eu in Eu'. apply Some_inj in Eu'. subst u'.
    set (b := u + (side - sum) / a).
    destruct (above_lo _ b) eqn:Ab; [|split; [exact B|split; [apply tighter_refl|repeat split]]].
    apply above_weaker in Ab; [|unfold te8; lra].
    assert (Bx : b <= x j).
    { assert (p + (side - sum) / a <= x j); [|unfold b; lra].
      destruct up; cbn in D.
      - apply div_ge_pos; [|exact H]. destruct (0 <? a) eqn:P; [qb; exact P|discriminate D].
      - apply div_ge_neg; [|exact H]. destruct (0 <? a) eqn:P; [discriminate D|qb]. destruct (pos_neg a Na); lra. }
    cbn [set_lo1 a_lo a_hi]. split; [|split; [now apply tighter_set_lo|repeat split]].
    intros k Lk. now apply within_set_lo; [apply B|].
  - destruct (fin_lo (a_lo s j)) as [u|] eqn:Eu; [|split; [exact B|split; [apply tighter_refl|repeat split]]].
    apply fin_lo_some in Eu. destruct (T1 p Ep) as (u' & Eu' & Lu). rewrite Eu in Eu'. apply Some_inj in Eu'. subst u'.
    set (b := u + (side - sum) / a).
    destruct (below_hi _ b) eqn:Ab; [|split; [exact B|split; [apply tighter_refl|repeat split]]].
    apply below_weaker in Ab; [|unfold te8; lra].
    assert (Bx : x j <= b).
    { assert (x j <= p + (side - sum) / a); [|unfold b; lra].
      destruct up; cbn in D.
      - apply div_le_neg; [|exact H]. destruct (0 <? a) eqn:P; [discriminate D|qb]. destruct (pos_neg a Na); lra.
      - apply div_le_pos; [|exact H]. destruct (0 <? a) eqn:P; [qb; exact P|discriminate D]. }
    cbn [set_hi1 a_lo a_hi]. split; [|split; [now apply tighter_set_hi|repeat split]].
    intros k Lk. now apply within_set_hi; [apply B|].
Qed.
Lemma entries1_ok up side sum s0 v : forall s,
  (forall j a, In (j, a) v -> ~ a == 0 /\ exists p, (if Bool.eqb up (0 <? a) then a_hi s0 j else a_lo s0 j) = Some p /\
     (if up then side - sum <= a * (x j - p) else a * (x j - p) <= side - sum)) ->
  (forall k, (k < m_ncols m)%nat -> within (a_lo s k) (a_hi s k) (x k)) ->
  tighter (a_lo s0) (a_hi s0) (a_lo s) (a_hi s) ->
  let s' := fold_left (entry1 tol up side sum) v s in
  (forall k, (k < m_ncols m)%nat -> within (a_lo s' k) (a_hi s' k) (x k)) /\
  tighter (a_lo s0) (a_hi s0) (a_lo s') (a_hi s') /\ same_rows s s'.
Proof.
  induction v as [|[j a] v IH]; intros s H B T; [split; [exact B|split; [exact T|repeat split]]|].
  cbn [fold_left]. destruct (H j a (or_introl eq_refl)) as [Na Ex].
  destruct (entry1_ok up side sum s0 s j a Na B T Ex) as (B1 & T1 & R1).
  destruct (IH (entry1 tol up side sum s (j, a))) as (B2 & T2 & R2);
    [intros k b K; apply H; now right|exact B1|eapply tighter_trans; eassumption|].
  split; [exact B2|]. split; [exact T2|].
  destruct R1 as (r1 & r2 & r3), R2 as (q1 & q2 & q3). split; [|split]; congruence.
Qed.
Lemma row1_ok odd s i : (i < nr)%nat -> ok1 s -> ok1 (row1 tol odd forms s i).
Proof.
  intros Li [B R]. unfold row1. destruct (a_stop s || _); [now split|].
  destruct (forms_ok i Li) as [Z C]. pose proof (R i Li) as [Rl Ru].
  set (rl := a_rl s i) in *. set (ru := a_ru s i) in *. set (v := forms i) in *.
  cbn zeta.
  set (iu := negb (Nat.eqb (infinite (map (top1 s) v)) 0)).
  set (il := negb (Nat.eqb (infinite (map (bottom1 s) v)) 0)).
  destruct (match ru with Some u => (if iu then t31 else finite_sum (map (top1 s) v)) <=? u + tol | None => true end && _).
  { split; [exact B|]. intros k Lk. cbn [a_rl a_ru]. unfold set_at. destruct (Nat.eqb k i); [split; exact I|now apply R]. }
  destruct (_ || _); [split; [exact B|exact R]|].
  set (both := negb iu && negb il && _ && _).
  assert (S1 : forall l, rl = Some l -> iu = false -> let s1 := fold_left (entry1 tol true l (finite_sum (map (top1 s) v))) v s in
    (forall k, (k < m_ncols m)%nat -> within (a_lo s1 k) (a_hi s1 k) (x k)) /\
    tighter (a_lo s) (a_hi s) (a_lo s1) (a_hi s1) /\ same_rows s s1).
  { intros l El Eu. rewrite El in Rl. cbn in Rl. apply entries1_ok; [|exact B|apply tighter_refl].
    intros j a I. split; [exact (Z j a I)|].
    destruct (implied_up s v j a l Z C B I) as (p & Ep & Hp); [unfold iu in Eu; qb; now apply Nat.eqb_eq in Eu|exact Rl|].
    exists p. split; [destruct (0 <? a); exact Ep|exact Hp]. }
  set (s1 := match rl with Some l => if negb (iu || both && odd) && (- t15 <? l) then _ else s | None => s end).
  assert (K : (forall k, (k < m_ncols m)%nat -> within (a_lo s1 k) (a_hi s1 k) (x k)) /\
    tighter (a_lo s) (a_hi s) (a_lo s1) (a_hi s1) /\ same_rows s s1).
  { unfold s1. destruct rl as [l|] eqn:El; [|split; [exact B|split; [apply tighter_refl|repeat split]]].
    destruct (negb (iu || both && odd) && (- t15 <? l)) eqn:D; [|split; [exact B|split; [apply tighter_refl|repeat split]]].
    apply andb_true_iff in D. destruct D as [D _]. apply negb_true_iff, orb_false_iff in D. destruct D as [D _].
    rewrite D. now apply S1. }
  clearbody s1. destruct K as (B1 & T1 & Q1 & Q2 & Q3).
  assert (N1 : ok1 s1) by (split; [exact B1|]; rewrite Q1, Q2; exact R).
  destruct ru as [u|] eqn:Eu; [|exact N1].
  destruct (negb (il || both && negb odd) && (u <? t15)) eqn:D; [|exact N1].
  apply andb_true_iff in D. destruct D as [D _]. apply negb_true_iff, orb_false_iff in D. destruct D as [D _].
  rewrite D. cbn in Ru.
  destruct (entries1_ok false u (finite_sum (map (bottom1 s) v)) s v s1) as (B2 & T2 & P1 & P2 & P3); [|exact B1|exact T1|].
  - intros j a I. split; [exact (Z j a I)|].
    destruct (implied_down s v j a u Z C B I) as (p & Ep & Hp); [unfold il in D; qb; now apply Nat.eqb_eq in D|exact Ru|].
    exists p. split; [destruct (0 <? a); exact Ep|exact Hp].
  - split; [exact B2|]. rewrite P1, P2, Q1, Q2. exact R.
Qed.
Lemma round1_ok s j : (j < m_ncols m)%nat -> ok1 s -> ok1 (round1 (m_int m) s j).
Proof.
  intros Lj [B R]. unfold round1. destruct (m_int m j) eqn:Mj; [|now split]. split; [|exact R].
  intros k Lk. cbn [a_lo a_hi]. unfold set_at. destruct (Nat.eqb_spec k j) as [->|]; [|now apply B].
  destruct (B j Lj) as [A1 A2]. pose proof (ints_ok j Lj Mj) as X. split.
  - destruct (a_lo s j) as [l|]; [|exact I]. cbn in *. apply integral_ge_ceil; [exact X|unfold te4; lra].
  - destruct (a_hi s j) as [u|]; [|exact I]. cbn in *. apply integral_le_floor; [exact X|unfold te4; lra].
Qed.
Lemma fold_ok {A} (f : t1 -> A -> t1) l : (forall s a, In a l -> ok1 s -> ok1 (f s a)) ->
  forall s, ok1 s -> ok1 (fold_left f l s).
Proof.
  induction l as [|a l IH]; intros H s K; [exact K|]. cbn. apply IH; [intros; apply H; [now right|assumption]|].
  apply H; [now left|exact K].
Qed.
Lemma pass1_ok odd s : ok1 s -> ok1 (pass1 tol odd (m_int m) (m_ncols m) nr forms s).
Proof.
  intro K. unfold pass1. apply fold_ok; [intros t j I; apply round1_ok; apply in_seq in I; lia|].
  apply fold_ok; [intros t j I; apply row1_ok; apply in_seq in I; lia|]. exact K.
Qed.
Lemma tighten_ok k : forall odd s, ok1 s -> ok1 (tighten k tol odd (m_int m) (m_ncols m) nr forms s).
Proof.
  induction k as [|k IH]; intros odd s K; [exact K|]. cbn [tighten].
  destruct (_ || _); [now apply pass1_ok|]. apply IH. now apply pass1_ok.
Qed.
End Stage1.

(** ** Stage 2 *)
Section Stage2.
Variables (m : mip) (x : point) (forms : nat -> vec) (nr : nat) (tol : Q).
Hypothesis tol_pos : 0 <= tol.
Hypothesis forms_ok : forall i, (i < nr)%nat -> no_zero (forms i) /\ NoDup (map fst (forms i)) /\
  forall j a, In (j, a) (forms i) -> (j < m_ncols m)%nat.
Definition box2 (s : t2) : Prop :=
  forall j, (j < m_ncols m)%nat -> within (b_lo s j) (b_hi s j) (x j).
Definition ok2 (s : t2) : Prop := box2 s /\
  (forall i, (i < nr)%nat -> within (b_rl s i) (b_ru s i) (value (forms i) x)) /\
  b_inf s = 0%nat /\ b_stop s = false.
Definition tight2 (s s' : t2) : Prop := tighter (b_lo s) (b_hi s) (b_lo s') (b_hi s') /\
  (forall i, (b_rl s' i = b_rl s i /\ b_ru s' i = b_ru s i) \/ (b_rl s' i = None /\ b_ru s' i = None)).
Definition rest (s s' : t2) : Prop := b_rl s' = b_rl s /\ b_ru s' = b_ru s /\ b_inf s' = b_inf s /\ b_stop s' = b_stop s.
(** The counts and sums kept while a row is gone through *)
Definition good (v : vec) (w : wk) : Prop :=
  w_iu w = infinite (map (top2 (w_s w)) v) /\ finite_sum (map (top2 (w_s w)) v) <= w_mu w /\
  w_il w = infinite (map (bottom2 (w_s w)) v) /\ w_md w <= finite_sum (map (bottom2 (w_s w)) v).
Lemma map_same (f g : nat * Q -> option Q) v j : ~ In j (map fst v) ->
  (forall e, fst e <> j -> f e = g e) -> map f v = map g v.
Proof.
  intros N H. apply map_ext_in. intros e I. apply H. intros <-. apply N. now apply in_map.
Qed.
Lemma nodup_mid (v1 v2 : vec) j (a : Q) : NoDup (map fst (v1 ++ (j, a) :: v2)) -> ~ In j (map fst (v1 ++ v2)).
Proof. rewrite !map_app. cbn [map fst]. apply NoDup_remove_2. Qed.
(** How counts and sums follow a change of the bounds of one column *)
Lemma follow (f g : nat * Q -> option Q) v j a : NoDup (map fst v) -> In (j, a) v ->
  (forall e, fst e <> j -> f e = g e) ->
  exists c q, infinite (map f v) = (is_none (f (j, a)) + c)%nat /\ finite_sum (map f v) == or0 (f (j, a)) + q /\
              infinite (map g v) = (is_none (g (j, a)) + c)%nat /\ finite_sum (map g v) == or0 (g (j, a)) + q.
Proof.
  intros N I H. apply in_split in I. destruct I as (v1 & v2 & ->). apply nodup_mid in N.
  exists (infinite (map f (v1 ++ v2))), (finite_sum (map f (v1 ++ v2))).
  pose proof (map_same f g (v1 ++ v2) j N H) as E.
  split; [apply infinite_mid|]. split; [apply finite_sum_mid|]. rewrite E. split; [apply infinite_mid|apply finite_sum_mid].
Qed.
Lemma slack_nonneg q : 0 <= slack q.
Proof.
  unfold slack. destruct (_ <? _); [|apply Qle_refl]. apply Qmult_le_0_compat; [unfold te12; lra|apply Qabs_nonneg].
Qed.
(** Bounds implied by a row, with the sums at hand *)
Lemma implied2_up s v j a side M : no_zero v -> (forall k b, In (k, b) v -> (k < m_ncols m)%nat) ->
  box2 s -> In (j, a) v -> side <= value v x -> finite_sum (map (top2 s) v) <= M ->
  let o := if 0 <? a then b_hi s j else b_lo s j in
  (infinite (map (top2 s) v) = 0%nat -> exists p, o = Some p /\ side - M <= a * (x j - p)) /\
  (infinite (map (top2 s) v) = 1%nat -> o = None -> side - M <= a * (x j - 0)).
Proof.
  intros Z R B I S HM o. apply in_split in I. destruct I as (v1 & v2 & ->). rewrite value_mid in S.
  change (top2 s) with (top3 (b_lo s) (b_hi s)) in *. set (T := top3 _ _) in *.
  pose proof (finite_sum_mid T v1 v2 (j, a)) as FS. rewrite infinite_mid.
  assert (V : infinite (map T (v1 ++ v2)) = 0%nat -> value (v1 ++ v2) x <= finite_sum (map T (v1 ++ v2))).
  { intro F. apply tops_ge; [now apply no_zero_mid in Z| |exact F]. intros k b K. apply B, (R k b).
    apply in_app_iff in K. apply in_app_iff. destruct K; [now left|right; now right]. }
  assert (E : T (j, a) = match o with Some q => Some (q * a) | None => None end) by reflexivity.
  rewrite E in *. destruct o as [p|]; cbn [is_none or0] in *.
  - split; [|intros _ K; discriminate K]. intro F. exists p. split; [reflexivity|]. specialize (V F). lra.
  - split; [intro F; discriminate F|]. intros F _. assert (F0 : infinite (map T (v1 ++ v2)) = 0%nat) by (clear - F; lia).
    specialize (V F0). lra.
Qed.
Lemma implied2_down s v j a side M : no_zero v -> (forall k b, In (k, b) v -> (k < m_ncols m)%nat) ->
  box2 s -> In (j, a) v -> value v x <= side -> M <= finite_sum (map (bottom2 s) v) ->
  let o := if 0 <? a then b_lo s j else b_hi s j in
  (infinite (map (bottom2 s) v) = 0%nat -> exists p, o = Some p /\ a * (x j - p) <= side - M) /\
  (infinite (map (bottom2 s) v) = 1%nat -> o = None -> a * (x j - 0) <= side - M).
Proof.
  intros Z R B I S HM o. apply in_split in I. destruct I as (v1 & v2 & ->). rewrite value_mid in S.
  change (bottom2 s) with (bottom3 (b_lo s) (b_hi s)) in *. set (T := bottom3 _ _) in *.
  pose proof (finite_sum_mid T v1 v2 (j, a)) as FS. rewrite infinite_mid.
  assert (V : infinite (map T (v1 ++ v2)) = 0%nat -> finite_sum (map T (v1 ++ v2)) <= value (v1 ++ v2) x).
  { intro F. apply bots_le; [now apply no_zero_mid in Z| |exact F]. intros k b K. apply B, (R k b).
    apply in_app_iff in K. apply in_app_iff. destruct K; [now left|right; now right]. }
  assert (E : T (j, a) = match o with Some q => Some (q * a) | None => None end) by reflexivity.
  rewrite E in *. destruct o as [p|]; cbn [is_none or0] in *.
  - split; [|intros _ K; discriminate K]. intro F. exists p. split; [reflexivity|]. specialize (V F). lra.
  - split; [intro F; discriminate F|]. intros F _. assert (F0 : infinite (map T (v1 ++ v2)) = 0%nat) by (clear - F; lia).
    specialize (V F0). lra.
Qed.
Lemma set_lo2_rest s j b : (j < m_ncols m)%nat -> box2 s -> b <= x j ->
  box2 (set_lo2 tol s j b) /\ rest s (set_lo2 tol s j b).
Proof.
  intros L B H. split.
  - intros k Lk. cbn [set_lo2 b_lo b_hi]. apply within_set_lo; [now apply B|exact H].
  - split; [reflexivity|]. split; [reflexivity|]. split; [|reflexivity]. cbn [set_lo2 b_inf].
    destruct (B j L) as [_ U]. destruct (b_hi s j) as [u|]; [|reflexivity]. cbn in U.
    replace (u - b <? - (100 * tol)) with false; [reflexivity|]. symmetry. apply Qltb_ge. lra.
Qed.
Lemma set_hi2_rest s j b : (j < m_ncols m)%nat -> box2 s -> x j <= b ->
  box2 (set_hi2 tol s j b) /\ rest s (set_hi2 tol s j b).
Proof.
  intros L B H. split.
  - intros k Lk. cbn [set_hi2 b_lo b_hi]. apply within_set_hi; [now apply B|exact H].
  - split; [reflexivity|]. split; [reflexivity|]. split; [|reflexivity]. cbn [set_hi2 b_inf].
    destruct (B j L) as [U _]. destruct (b_lo s j) as [u|]; [|reflexivity]. cbn in U.
    replace (b - u <? - (100 * tol)) with false; [reflexivity|]. symmetry. apply Qltb_ge. lra.
Qed.
Lemma other_lo s j b e : fst e <> j -> top2 s e = top2 (set_lo2 tol s j b) e /\ bottom2 s e = bottom2 (set_lo2 tol s j b) e.
Proof.
  intro N. unfold top2, bottom2. cbn [set_lo2 b_lo b_hi]. unfold set_at. apply Nat.eqb_neq in N. rewrite N. now split.
Qed.
Lemma other_hi s j b e : fst e <> j -> top2 s e = top2 (set_hi2 tol s j b) e /\ bottom2 s e = bottom2 (set_hi2 tol s j b) e.
Proof.
  intro N. unfold top2, bottom2. cbn [set_hi2 b_lo b_hi]. unfold set_at. apply Nat.eqb_neq in N. rewrite N. now split.
Qed.
Definition row_ok (v : vec) : Prop := no_zero v /\ NoDup (map fst v) /\ forall j a, In (j, a) v -> (j < m_ncols m)%nat.
Definition tb (s s' : t2) : Prop := tighter (b_lo s) (b_hi s) (b_lo s') (b_hi s').
Lemma lower2_ok v side w j a : row_ok v -> In (j, a) v -> box2 (w_s w) -> good v w ->
  (if 0 <? a then side <= value v x else value v x <= side) ->
  exists w' c, lower2 tol side w j a = Done (w', c) /\ box2 (w_s w') /\ good v w' /\
    rest (w_s w) (w_s w') /\ tb (w_s w) (w_s w').
Proof.
  intros (Z & N & R) I B (G1 & G2 & G3 & G4) S. unfold lower2. set (s := w_s w) in *.
  pose proof (R j a I) as Lj. pose proof (Z j a I) as Na.
  assert (ND : exists w' c, Done (w, false) = Done (w', c) /\ box2 (w_s w') /\ good v w' /\ rest s (w_s w') /\ tb s (w_s w')).
  { exists w, false. split; [reflexivity|]. split; [exact B|]. split; [now split|]. split; [repeat split|apply tighter_refl]. }
  (* what to do with a valid bound *)
  assert (K : forall b, b <= x j ->
    exists w' c, (if above_lo (option_map (fun l => l + te12) (b_lo s j)) b then
        let '(dec, now) := match b_lo s j with None => (1%nat, 0) | Some l => (0%nat, l) end in
        let d := (b - now) * a in
        Done (if 0 <? a
              then {| w_s := set_lo2 tol s j b; w_iu := w_iu w; w_mu := w_mu w;
                      w_il := (w_il w - dec)%nat; w_md := w_md w + d |}
              else {| w_s := set_lo2 tol s j b; w_iu := (w_iu w - dec)%nat; w_mu := w_mu w + d;
                      w_il := w_il w; w_md := w_md w |}, true)
      else Done (w, false)) = Done (w', c) /\ box2 (w_s w') /\ good v w' /\ rest s (w_s w') /\ tb s (w_s w')).
  { intros b Hb. destruct (above_lo _ b) eqn:Ab; [|exact ND]. apply above_weaker in Ab; [|unfold te12; lra].
    destruct (set_lo2_rest s j b Lj B Hb) as [B' R'].
    assert (T' : tb s (set_lo2 tol s j b)) by (now apply tighter_set_lo).
    destruct (follow (top2 s) (top2 (set_lo2 tol s j b)) v j a N I) as (c1 & q1 & F1 & F2 & F3 & F4); [intros e Ne; now apply other_lo|].
    destruct (follow (bottom2 s) (bottom2 (set_lo2 tol s j b)) v j a N I) as (c2 & q2 & F5 & F6 & F7 & F8); [intros e Ne; now apply other_lo|].
    unfold top2 in F1 at 2, F2 at 2, F3 at 2, F4 at 2. unfold bottom2 in F5 at 2, F6 at 2, F7 at 2, F8 at 2.
    cbn [fst snd set_lo2 b_lo b_hi] in F1, F2, F3, F4, F5, F6, F7, F8. unfold set_at in F3, F4, F7, F8. rewrite Nat.eqb_refl in F3, F4, F7, F8.
    unfold good. destruct (0 <? a); destruct (b_lo s j) as [l|]; eexists; eexists; (split; [reflexivity|]); cbn [w_s w_iu w_mu w_il w_md];
      (split; [exact B'|]); (split; [|split; [exact R'|exact T']]); destruct (b_hi s j) as [u|]; cbn [is_none or0] in *;
      (split; [lia|]); (split; [lra|]); (split; [lia|lra]). }
  pose proof (slack_nonneg (w_mu w)) as S1. pose proof (slack_nonneg (w_md w)) as S2.
  destruct (pos_neg a Na) as [P|P].
  - rewrite (ltb_pos a P) in *.
    destruct (implied2_up s v j a side (w_mu w) Z R B I S G2) as [I0 I1]. rewrite (ltb_pos a P) in I0, I1. rewrite <- G1 in I0, I1.
    destruct (w_iu w) as [|[|n]] eqn:Ew.
    + destruct (I0 eq_refl) as (p & Ep & Hp). rewrite Ep. cbn [bind]. apply K. pose proof (div_ge_pos a p _ _ P Hp). lra.
    + destruct (b_hi s j) as [u|] eqn:Eu; [exact ND|]. cbn [bind]. apply K. pose proof (div_ge_pos a 0 _ _ P (I1 eq_refl eq_refl)). lra.
    + destruct (b_hi s j); exact ND.
  - rewrite (ltb_neg a P) in *.
    destruct (implied2_down s v j a side (w_md w) Z R B I S G4) as [I0 I1]. rewrite (ltb_neg a P) in I0, I1. rewrite <- G3 in I0, I1.
    destruct (w_il w) as [|[|n]] eqn:Ew.
    + destruct (I0 eq_refl) as (p & Ep & Hp). rewrite Ep. cbn [bind]. apply K. pose proof (div_ge_neg a p _ _ P Hp). lra.
    + destruct (b_hi s j) as [u|] eqn:Eu; [exact ND|]. cbn [bind]. apply K. pose proof (div_ge_neg a 0 _ _ P (I1 eq_refl eq_refl)). lra.
    + destruct (b_hi s j); exact ND.
Qed.
Lemma upper2_ok v side w j a : row_ok v -> In (j, a) v -> box2 (w_s w) -> good v w ->
  (if 0 <? a then value v x <= side else side <= value v x) ->
  exists w' c, upper2 tol side w j a = Done (w', c) /\ box2 (w_s w') /\ good v w' /\
    rest (w_s w) (w_s w') /\ tb (w_s w) (w_s w').
Proof.
  intros (Z & N & R) I B (G1 & G2 & G3 & G4) S. unfold upper2. set (s := w_s w) in *.
  pose proof (R j a I) as Lj. pose proof (Z j a I) as Na.
  assert (ND : exists w' c, Done (w, false) = Done (w', c) /\ box2 (w_s w') /\ good v w' /\ rest s (w_s w') /\ tb s (w_s w')).
  { exists w, false. split; [reflexivity|]. split; [exact B|]. split; [now split|]. split; [repeat split|apply tighter_refl]. }
  assert (K : forall b, x j <= b ->
    exists w' c, (if below_hi (option_map (fun u => u - te12) (b_hi s j)) b then
        let '(dec, now) := match b_hi s j with None => (1%nat, 0) | Some u => (0%nat, u) end in
        let d := (b - now) * a in
        Done (if 0 <? a
              then {| w_s := set_hi2 tol s j b; w_iu := (w_iu w - dec)%nat; w_mu := w_mu w + d;
                      w_il := w_il w; w_md := w_md w |}
              else {| w_s := set_hi2 tol s j b; w_iu := w_iu w; w_mu := w_mu w;
                      w_il := (w_il w - dec)%nat; w_md := w_md w + d |}, true)
      else Done (w, false)) = Done (w', c) /\ box2 (w_s w') /\ good v w' /\ rest s (w_s w') /\ tb s (w_s w')).
  { intros b Hb. destruct (below_hi _ b) eqn:Ab; [|exact ND]. apply below_weaker in Ab; [|unfold te12; lra].
    destruct (set_hi2_rest s j b Lj B Hb) as [B' R'].
    assert (T' : tb s (set_hi2 tol s j b)) by (now apply tighter_set_hi).
    destruct (follow (top2 s) (top2 (set_hi2 tol s j b)) v j a N I) as (c1 & q1 & F1 & F2 & F3 & F4); [intros e Ne; now apply other_hi|].
    destruct (follow (bottom2 s) (bottom2 (set_hi2 tol s j b)) v j a N I) as (c2 & q2 & F5 & F6 & F7 & F8); [intros e Ne; now apply other_hi|].
    unfold top2 in F1 at 2, F2 at 2, F3 at 2, F4 at 2. unfold bottom2 in F5 at 2, F6 at 2, F7 at 2, F8 at 2.
    cbn [fst snd set_hi2 b_lo b_hi] in F1, F2, F3, F4, F5, F6, F7, F8. unfold set_at in F3, F4, F7, F8. rewrite Nat.eqb_refl in F3, F4, F7, F8.
    unfold good. destruct (0 <? a); destruct (b_hi s j) as [l|]; eexists; eexists; (split; [reflexivity|]); cbn [w_s w_iu w_mu w_il w_md];
      (split; [exact B'|]); (split; [|split; [exact R'|exact T']]); destruct (b_lo s j) as [u|]; cbn [is_none or0] in *;
      (split; [lia|]); (split; [lra|]); (split; [lia|lra]). }
  pose proof (slack_nonneg (w_mu w)) as S1. pose proof (slack_nonneg (w_md w)) as S2.
  destruct (pos_neg a Na) as [P|P].
  - rewrite (ltb_pos a P) in *.
    destruct (implied2_down s v j a side (w_md w) Z R B I S G4) as [I0 I1]. rewrite (ltb_pos a P) in I0, I1. rewrite <- G3 in I0, I1.
    destruct (w_il w) as [|[|n]] eqn:Ew.
    + destruct (I0 eq_refl) as (p & Ep & Hp). rewrite Ep. cbn [bind]. apply K. pose proof (div_le_pos a p _ _ P Hp). lra.
    + destruct (b_lo s j) as [u|] eqn:Eu; [exact ND|]. cbn [bind]. apply K. pose proof (div_le_pos a 0 _ _ P (I1 eq_refl eq_refl)). lra.
    + destruct (b_lo s j); exact ND.
  - rewrite (ltb_neg a P) in *.
    destruct (implied2_up s v j a side (w_mu w) Z R B I S G2) as [I0 I1]. rewrite (ltb_neg a P) in I0, I1. rewrite <- G1 in I0, I1.
    destruct (w_iu w) as [|[|n]] eqn:Ew.
    + destruct (I0 eq_refl) as (p & Ep & Hp). rewrite Ep. cbn [bind]. apply K. pose proof (div_le_neg a p _ _ P Hp). lra.
    + destruct (b_lo s j) as [u|] eqn:Eu; [exact ND|]. cbn [bind]. apply K. pose proof (div_le_neg a 0 _ _ P (I1 eq_refl eq_refl)). lra.
    + destruct (b_lo s j); exact ND.
Qed.
Lemma rest_trans a b c : rest a b -> rest b c -> rest a c.
Proof. intros (A1 & A2 & A3 & A4) (B1 & B2 & B3 & B4). split; [congruence|]. split; [congruence|]. split; congruence. Qed.
Lemma entry2_ok v rl ru w j a : row_ok v -> In (j, a) v -> box2 (w_s w) -> good v w -> within rl ru (value v x) ->
  exists w', entry2 tol rl ru w (j, a) = Done w' /\ box2 (w_s w') /\ good v w' /\
    rest (w_s w) (w_s w') /\ tb (w_s w) (w_s w').
Proof.
  intros V I B G [Wl Wu]. unfold entry2.
  assert (P : exists w1 c, match rl with
          | Some l => if 0 <? a then lower2 tol l w j a else upper2 tol l w j a
          | None => Done (w, false) end = Done (w1, c) /\ box2 (w_s w1) /\ good v w1 /\ rest (w_s w) (w_s w1) /\ tb (w_s w) (w_s w1)).
  { destruct rl as [l|].
    - cbn in Wl. destruct (0 <? a) eqn:A; [apply (lower2_ok v)|apply (upper2_ok v)]; try assumption; rewrite A; exact Wl.
    - exists w, false. split; [reflexivity|]. split; [exact B|]. split; [exact G|]. split; [repeat split|apply tighter_refl]. }
  destruct P as (w1 & c1 & -> & B1 & G1 & R1 & T1). cbn [bind fst snd].
  assert (P : exists w2 c, match ru with
          | Some u => if 0 <? a then upper2 tol u w1 j a else lower2 tol u w1 j a
          | None => Done (w1, false) end = Done (w2, c) /\ box2 (w_s w2) /\ good v w2 /\ rest (w_s w1) (w_s w2) /\ tb (w_s w1) (w_s w2)).
  { destruct ru as [u|].
    - cbn in Wu. destruct (0 <? a) eqn:A; [apply (upper2_ok v)|apply (lower2_ok v)]; try assumption; rewrite A; exact Wu.
    - exists w1, false. split; [reflexivity|]. split; [exact B1|]. split; [exact G1|]. split; [repeat split|apply tighter_refl]. }
  destruct P as (w2 & c2 & -> & B2 & G2 & R2 & T2). cbn [bind fst snd].
  eexists. split; [reflexivity|]. unfold note2.
  assert (R3 := rest_trans _ _ _ R1 R2). assert (T3 : tb (w_s w) (w_s w2)) by (eapply tighter_trans; eassumption).
  destruct (c1 || c2); [|now split].
  split; [exact B2|]. split; [exact G2|]. split; [exact R3|exact T3].
Qed.
Lemma entries2_ok v rl ru : row_ok v -> within rl ru (value v x) -> forall l w, incl l v -> box2 (w_s w) -> good v w ->
  exists w', ofold (entry2 tol rl ru) l w = Done w' /\ box2 (w_s w') /\ rest (w_s w) (w_s w') /\ tb (w_s w) (w_s w').
Proof.
  intros V W. induction l as [|[j a] l IH]; intros w I B G; cbn [ofold].
  - exists w. split; [reflexivity|]. split; [exact B|]. split; [repeat split|apply tighter_refl].
  - destruct (entry2_ok v rl ru w j a V (I _ (or_introl eq_refl)) B G W) as (w1 & -> & B1 & G1 & R1 & T1). cbn [bind].
    destruct (IH w1) as (w2 & E & B2 & R2 & T2); [intros e H; apply I; now right|exact B1|exact G1|].
    exists w2. split; [exact E|]. split; [exact B2|]. split; [eapply rest_trans; eassumption|eapply tighter_trans; eassumption].
Qed.
Lemma tight2_refl s : tight2 s s.
Proof. split; [apply tighter_refl|]. intro i. left. now split. Qed.
Lemma tight2_trans a b c : tight2 a b -> tight2 b c -> tight2 a c.
Proof.
  intros [A1 A2] [B1 B2]. split; [eapply tighter_trans; eassumption|]. intro i.
  destruct (A2 i) as [[E1 E2]|[E1 E2]], (B2 i) as [[F1 F2]|[F1 F2]]; [left|right|right|right]; split; congruence.
Qed.
Lemma row2_ok s i : (i < nr)%nat -> ok2 s -> exists s', row2 tol forms s i = Done s' /\ ok2 s' /\ tight2 s s'.
Proof.
  intros Li (B & R & Ni & Ns). unfold row2. rewrite Ns. cbn [orb].
  destruct (no_sides _ _); [exists s; split; [reflexivity|split; [now split|apply tight2_refl]]|]. cbn zeta.
  pose proof (R i Li) as W. pose proof (forms_ok i Li) as V. set (v := forms i) in *. set (rl := b_rl s i) in *. set (ru := b_ru s i) in *.
  pose proof V as (Z & N & C).
  set (tops := map (top2 s) v). set (bots := map (bottom2 s) v).
  pose proof (Qabs_nonneg (finite_sum tops)) as A1. pose proof (Qabs_nonneg (finite_sum bots)) as A2.
  set (mu := finite_sum tops + te8 * Qabs (finite_sum tops)). set (md := finite_sum bots - te8 * Qabs (finite_sum bots)).
  assert (M1 : finite_sum tops <= mu).
  { assert (0 <= te8 * Qabs (finite_sum tops)) by (apply Qmult_le_0_compat; [unfold te8; lra|exact A1]). unfold mu. lra. }
  assert (M2 : md <= finite_sum bots).
  { assert (0 <= te8 * Qabs (finite_sum bots)) by (apply Qmult_le_0_compat; [unfold te8; lra|exact A2]). unfold md. lra. }
  clearbody mu md.
  destruct (_ && match rl with Some _ => _ | None => _ end).
  { eexists. split; [reflexivity|]. split.
    - split; [exact B|]. split; [|now split]. intros k Lk. cbn [b_rl b_ru]. unfold set_at.
      destruct (Nat.eqb k i); [split; exact I|now apply R].
    - split; [apply tighter_refl|]. intro k. cbn [b_rl b_ru]. unfold set_at. destruct (Nat.eqb k i); [right|left]; now split. }
  assert (Bv : forall k b, In (k, b) v -> within (b_lo s k) (b_hi s k) (x k)) by (intros k b K; apply B, (C k b K)).
  replace (match rl with Some l => Nat.eqb (infinite tops) 0 && (mu <? l - 100 * tol) | None => false end) with false.
  2:{ symmetry. destruct W as [Wl _]. destruct rl as [l|]; [|reflexivity]. cbn in Wl.
      destruct (Nat.eqb_spec (infinite tops) 0) as [F|F]; [|reflexivity].
      pose proof (tops_ge (b_lo s) (b_hi s) x v Z Bv F) as T. cbn [andb]. apply Qltb_ge.
      change (finite_sum (map (top3 (b_lo s) (b_hi s)) v)) with (finite_sum tops) in T. lra. }
  replace (match ru with Some u => Nat.eqb (infinite bots) 0 && (u + 100 * tol <? md) | None => false end) with false.
  2:{ symmetry. destruct W as [_ Wl]. destruct ru as [l|]; [|reflexivity]. cbn in Wl.
      destruct (Nat.eqb_spec (infinite bots) 0) as [F|F]; [|reflexivity].
      pose proof (bots_le (b_lo s) (b_hi s) x v Z Bv F) as T. cbn [andb]. apply Qltb_ge.
      change (finite_sum (map (bottom3 (b_lo s) (b_hi s)) v)) with (finite_sum bots) in T. lra. }
  cbn [orb].
  destruct (entries2_ok v rl ru V W v {| w_s := s; w_iu := infinite tops; w_mu := mu; w_il := infinite bots; w_md := md |})
    as (w & E & B' & R' & T'); [apply incl_refl|exact B|cbn; now split|].
  rewrite E. cbn [bind]. exists (w_s w). split; [reflexivity|]. cbn [w_s] in R', T'. destruct R' as (r1 & r2 & r3 & r4).
  split.
  - split; [exact B'|]. rewrite r1, r2, r3, r4. now split.
  - split; [exact T'|]. intro k. left. rewrite r1, r2. now split.
Qed.
Lemma rows2_ok l : (forall i, In i l -> (i < nr)%nat) -> forall s, ok2 s ->
  exists s', ofold (row2 tol forms) l s = Done s' /\ ok2 s' /\ tight2 s s'.
Proof.
  induction l as [|i l IH]; intros Hl s K; cbn [ofold]; [exists s; split; [reflexivity|split; [exact K|apply tight2_refl]]|].
  destruct (row2_ok s i (Hl i (or_introl eq_refl)) K) as (s1 & -> & K1 & T1). cbn [bind].
  destruct (IH (fun k H => Hl k (or_intror H)) s1 K1) as (s2 & E & K2 & T2). exists s2. split; [exact E|]. split; [exact K2|eapply tight2_trans; eassumption].
Qed.
Lemma passes2_ok k : forall check total s, ok2 s ->
  exists s' total', passes2 k check tol nr forms total s = Done (s', total') /\ ok2 s' /\ tight2 s s'.
Proof.
  induction k as [|k IH]; intros check total s K; cbn [passes2].
  - exists s, total. split; [reflexivity|]. split; [exact K|apply tight2_refl].
  - destruct (rows2_ok (seq 0 nr)) with (s := {| b_lo := b_lo s; b_hi := b_hi s; b_rl := b_rl s; b_ru := b_ru s;
           b_change := 0; b_inf := b_inf s; b_stop := false |}) as (s1 & E & K1 & T1).
    { intros i I. apply in_seq in I. lia. }
    { destruct K as (A1 & A2 & A3 & A4). now split. }
    rewrite E. cbn [bind]. destruct (_ || _).
    + eexists; eexists. split; [reflexivity|]. split; [exact K1|exact T1].
    + match goal with |- context [passes2 k ?c tol nr forms ?t s1] => destruct (IH c t s1 K1) as (s2 & t2 & E2 & K2 & T2) end.
      exists s2, t2. split; [exact E2|]. split; [exact K2|]. eapply tight2_trans; [exact T1|exact T2].
Qed.
End Stage2.

(** ** The final bounds *)
Definition nearly (lo hi : option Q) (q : Q) : Prop :=
  (forall l, lo = Some l -> l - te8 <= q) /\ (forall u, hi = Some u -> q <= u + te8).
Lemma within_nearly lo hi q : within lo hi q -> nearly lo hi q.
Proof.
  intros [A B]. split; intros z E; subst.
  - cbn in A. unfold te8. lra.
  - cbn in B. unfold te8. lra.
Qed.
Lemma within_max lo1 hi1 lo2 hi2 q : within lo1 hi1 q -> within lo2 hi2 q -> within (max_lo lo1 lo2) (min_hi hi1 hi2) q.
Proof.
  intros [A B] [C D]. split.
  - destruct lo1 as [p|], lo2 as [r|]; cbn in *; try assumption. destruct (r <? p); assumption.
  - destruct hi1 as [p|], hi2 as [r|]; cbn in *; try assumption. destruct (p <? r); assumption.
Qed.
Lemma off_le l e : off l <= e -> round_half l - e <= l /\ l <= round_half l + e.
Proof. unfold off. intro H. apply Qabs_Qle_condition in H. split; lra. Qed.
Lemma final_int clo chi lo hi q : integral q -> within lo hi q -> within (final_lo true clo lo hi) (final_hi true chi lo hi) q.
Proof.
  intros X [A B]. split.
  - destruct lo as [l|]; [|exact I]. cbn in A |- *. destruct (_ <? _); [|now apply integral_ge_ceil].
    unfold round_half. apply Qnot_lt_le. intro L.
    pose proof (integral_lt_le1 q _ X (integral_inject _) L) as K. pose proof (qfloor_le (l + (1 # 2))) as F.
    fold (qfloor (l + (1 # 2))) in K. lra.
  - destruct hi as [u|]; [|exact I]. cbn in B |- *. destruct (_ <? _); apply integral_le_floor; try assumption. lra.
Qed.
Lemma final_int_integral clo chi lo hi : (forall l, final_lo true clo lo hi = Some l -> integral l) /\
  (forall u, final_hi true chi lo hi = Some u -> integral u).
Proof.
  split; intros q E.
  - destruct lo as [l|]; [|discriminate E]. cbn in E. apply Some_inj in E. subst q. destruct (_ <? _); apply integral_inject.
  - destruct hi as [l|]; [|discriminate E]. cbn in E. apply Some_inj in E. subst q. destruct (_ <? _); apply integral_inject.
Qed.
Lemma final_cont clo chi lo hi q : within clo chi q -> within lo hi q ->
  nearly (final_lo false clo lo hi) (final_hi false chi lo hi) q.
Proof.
  intros [C1 C2] [A B]. unfold final_lo, final_hi. destruct (tiny hi && tiny lo) eqn:T.
  - apply andb_true_iff in T. destruct T as [T1 T2]. destruct lo as [l|]; [|discriminate T2]. destruct hi as [u|]; [|discriminate T1].
    cbn in *. qb. apply Qabs_Qlt_condition in T1. apply Qabs_Qlt_condition in T2.
    split; intros z E; apply Some_inj in E; subst z; lra.
  - split; intros z E.
    + assert (K : forall l, lo = Some l -> (if te9 <? off l then l - te5 else round_half l) <= q + te8).
      { intros l ->. cbn in A. destruct (te9 <? off l) eqn:D; qb; [unfold te5, te8; lra|].
        apply off_le in D. unfold te9, te8 in *. lra. }
      destruct lo as [l|]; [specialize (K l eq_refl)|]; destruct clo as [c|]; cbn [option_map max_lo] in E; try discriminate E;
        apply Some_inj in E; subst z; cbn in C1; try (destruct (_ <? c)); unfold te8 in *; lra.
    + assert (K : forall l, hi = Some l -> q - te8 <= (if te9 <? off l then l + te5 else round_half l)).
      { intros l ->. cbn in B. destruct (te9 <? off l) eqn:D; qb; [unfold te5, te8; lra|].
        apply off_le in D. unfold te9, te8 in *. lra. }
      destruct hi as [l|]; [specialize (K l eq_refl)|]; destruct chi as [c|]; cbn [option_map min_hi] in E; try discriminate E;
        apply Some_inj in E; subst z; cbn in C2; try (destruct (c <? _)); unfold te8 in *; lra.
Qed.
Lemma bad_col_false int clo chi lo hi q : (int = true -> integral q) -> within clo chi q -> within lo hi q ->
  bad_col int clo chi lo hi = false.
Proof.
  intros X C B. unfold bad_col. destruct (open2 clo chi).
  - destruct int; [|reflexivity]. destruct (final_int clo chi lo hi q (X eq_refl) B) as [F1 F2]. cbn [andb].
    destruct (final_lo _ _ _ _) as [l|]; [|reflexivity]. destruct (final_hi _ _ _ _) as [u|]; [|reflexivity].
    cbn in F1, F2. apply Qltb_ge. lra.
  - destruct C as [C1 C2]. destruct clo as [l|]; [|reflexivity]. destruct chi as [u|]; [|reflexivity].
    cbn in C1, C2. apply Qltb_ge. unfold te7. lra.
Qed.

(** ** Coefficients *)
Lemma within_eq rl ru y z : y == z -> within rl ru y -> within rl ru z.
Proof. intros E [A B]. split; [destruct rl|destruct ru]; cbn in *; try exact I; lra. Qed.
Lemma within_shift rl ru q y : within rl ru (y + q) -> within (shift rl q) (shift ru q) y.
Proof. intros [A B]. split; [destruct rl|destruct ru]; cbn in *; try exact I; lra. Qed.
Section Coefs.
Variables (ints : nat -> bool) (lo hi : nat -> option Q) (x : point) (gap : Q).
Definition part (e : nat * Q) : Q :=
  match new_coef ints lo hi gap e with
  | Some b => b * x (fst e) + match lo (fst e) with Some l => l * (snd e - b) | None => 0 end
  | None => snd e * x (fst e)
  end.
Definition total (f : nat * Q -> Q) (v : vec) : Q := fold_right (fun e s => f e + s) 0 v.
Lemma fold3 v : forall w rl ru k, within rl ru (value w x + total part v) ->
  row_sat (fst (fold_left (entry3 ints lo hi gap) v (Row w rl ru, k))) x.
Proof.
  induction v as [|e v IH]; intros w rl ru k H; cbn [fold_left total fold_right] in *.
  - apply within_eq with (z := value w x) in H; [exact H|ring].
  - fold (total part v) in H. unfold part in H at 1. unfold entry3 at 2.
    destruct (new_coef ints lo hi gap e) as [b|].
    + apply IH. apply within_shift. apply (within_eq _ _ _ _) with (2 := H). rewrite value_app. cbn [value]. ring.
    + apply IH. apply (within_eq _ _ _ _) with (2 := H). destruct e as [j a]. rewrite value_app. cbn [value fst snd]. ring.
Qed.
(** The extreme value of an entry *)
Definition least (e : nat * Q) : Q :=
  if wide lo hi e then or0 (bottom3 lo hi e) else match lo (fst e) with Some l => l * snd e | None => 0 end.
Definition most (e : nat * Q) : Q :=
  if wide lo hi e then or0 (top3 lo hi e) else match lo (fst e) with Some l => l * snd e | None => 0 end.
Lemma new_coef_inv j a b : new_coef ints lo hi gap (j, a) = Some b ->
  exists l u, lo j = Some l /\ hi j = Some u /\ 0 < u - l /\ u - l <= 1 /\ 0 < a * gap /\ ints j = true /\
    Qabs gap < Qabs (a * (u - l)) /\ b * (u - l) == gap.
Proof.
  unfold new_coef. destruct (lo j) as [l|]; [|discriminate]. destruct (hi j) as [u|]; [|discriminate].
  destruct ((0 <? u - l) && (u - l <=? 1) && (0 <? a * gap) && ints j) eqn:C; [|discriminate].
  apply andb_true_iff in C. destruct C as [C Ci]. qb. intro E. exists l, u. do 6 (split; [assumption || reflexivity|]).
  destruct (Qabs gap <? Qabs (a * (u - l))) eqn:D.
  - destruct (te12 <? _); [|discriminate E]. apply Some_inj in E. subst b. qb. split; [exact D|]. field. lra.
  - exfalso. destruct (te12 <? Qabs (a - a)) eqn:T; [|discriminate E]. qb.
    rewrite (Qabs_wd (a - a) 0) in T by ring. vm_compute in T. discriminate T.
Qed.
Hypothesis box : forall j, ints j = true -> forall l u, lo j = Some l -> hi j = Some u -> 0 < u - l ->
  integral l.
Lemma not_wide e : within (lo (fst e)) (hi (fst e)) (x (fst e)) -> wide lo hi e = false ->
  exists l, lo (fst e) = Some l /\ x (fst e) == l.
Proof.
  intros [A B] W. unfold wide, open2 in W. destruct (lo (fst e)) as [l|]; [|discriminate W].
  destruct (hi (fst e)) as [u|]; [|discriminate W]. cbn in A, B. qb. exists l. split; [reflexivity|lra].
Qed.
Lemma part_up j a : 0 < gap -> ~ a == 0 -> within (lo j) (hi j) (x j) -> (ints j = true -> integral (x j)) ->
  (wide lo hi (j, a) = true -> bottom3 lo hi (j, a) <> None) ->
  least (j, a) <= part (j, a) /\ part (j, a) <= a * x j /\
  (least (j, a) + gap <= part (j, a) \/ part (j, a) == a * x j).
Proof.
  intros G Na W X F. unfold part. cbn [fst snd]. destruct (new_coef ints lo hi gap (j, a)) as [b|] eqn:E.
  - destruct (new_coef_inv j a b E) as (l & u & El & Eu & D0 & D1 & P & Ij & Ab & Bd).
    assert (Pa : 0 < a).
    { destruct (pos_neg a Na) as [H|H]; [exact H|exfalso]. assert (0 <= (- a) * gap) by (apply Qmult_le_0_compat; lra). lra. }
    pose proof (box j Ij l u El Eu D0) as Il. pose proof (X Ij) as Ix.
    rewrite El, Eu in *. destruct W as [W1 W2]. cbn in W1, W2.
    rewrite (Qabs_pos gap) in Ab by lra. rewrite (Qabs_pos (a * (u - l))) in Ab by (apply Qmult_le_0_compat; lra).
    assert (Pb : 0 < b).
    { destruct (Qlt_le_dec 0 b) as [H|H]; [exact H|exfalso]. assert (0 <= (- b) * (u - l)) by (apply Qmult_le_0_compat; lra). lra. }
    assert (Lb : b <= a).
    { apply Qnot_lt_le. intro H. assert (0 <= (b - a) * (u - l)) by (apply Qmult_le_0_compat; lra). lra. }
    assert (Q1 : 0 <= b * (x j - l)) by (apply Qmult_le_0_compat; lra).
    assert (Q2 : 0 <= (a - b) * (x j - l)) by (apply Qmult_le_0_compat; lra).
    unfold least, wide, open2, bottom3. cbn [fst snd]. rewrite El, Eu.
    replace (l <? u) with true by (symmetry; apply Qltb_lt; lra). rewrite (ltb_pos a Pa). cbn [or0].
    split; [lra|]. split; [lra|]. destruct (Qlt_le_dec l (x j)) as [H|H].
    + left. pose proof (integral_lt_le1 l (x j) Il Ix H).
      assert (0 <= b * (x j - l - 1)) by (apply Qmult_le_0_compat; lra).
      assert (0 <= b * (1 - (u - l))) by (apply Qmult_le_0_compat; lra). lra.
    + right. assert (x j == l) by lra. rewrite H0. ring.
  - split; [|split; [apply Qle_refl|right; reflexivity]].
    unfold least. destruct (wide lo hi (j, a)) eqn:Wd.
    + destruct (bottom3 lo hi (j, a)) as [q|] eqn:Eq; [|now exfalso; apply F]. cbn [or0]. now apply (bottom_le lo hi x j a q).
    + destruct (not_wide (j, a) W Wd) as (l & El & Ex). cbn [fst snd] in *. rewrite El, Ex. lra.
Qed.
Lemma part_down j a : gap < 0 -> ~ a == 0 -> within (lo j) (hi j) (x j) -> (ints j = true -> integral (x j)) ->
  (wide lo hi (j, a) = true -> top3 lo hi (j, a) <> None) ->
  part (j, a) <= most (j, a) /\ a * x j <= part (j, a) /\
  (part (j, a) <= most (j, a) + gap \/ part (j, a) == a * x j).
Proof.
  intros G Na W X F. unfold part. cbn [fst snd]. destruct (new_coef ints lo hi gap (j, a)) as [b|] eqn:E.
  - destruct (new_coef_inv j a b E) as (l & u & El & Eu & D0 & D1 & P & Ij & Ab & Bd).
    assert (Pa : a < 0).
    { destruct (pos_neg a Na) as [H|H]; [exfalso|exact H]. assert (0 <= a * (- gap)) by (apply Qmult_le_0_compat; lra). lra. }
    pose proof (box j Ij l u El Eu D0) as Il. pose proof (X Ij) as Ix.
    rewrite El, Eu in *. destruct W as [W1 W2]. cbn in W1, W2.
    assert (Na2 : 0 <= (- a) * (u - l)) by (apply Qmult_le_0_compat; lra).
    rewrite (Qabs_neg gap) in Ab by lra. rewrite (Qabs_neg (a * (u - l))) in Ab by lra.
    assert (Pb : b < 0).
    { destruct (Qlt_le_dec b 0) as [H|H]; [exact H|exfalso]. assert (0 <= b * (u - l)) by (apply Qmult_le_0_compat; lra). lra. }
    assert (Lb : a <= b).
    { apply Qnot_lt_le. intro H. assert (0 <= (a - b) * (u - l)) by (apply Qmult_le_0_compat; lra). lra. }
    assert (Q1 : 0 <= (- b) * (x j - l)) by (apply Qmult_le_0_compat; lra).
    assert (Q2 : 0 <= (b - a) * (x j - l)) by (apply Qmult_le_0_compat; lra).
    unfold most, wide, open2, top3. cbn [fst snd]. rewrite El, Eu.
    replace (l <? u) with true by (symmetry; apply Qltb_lt; lra). rewrite (ltb_neg a Pa). cbn [or0].
    split; [lra|]. split; [lra|]. destruct (Qlt_le_dec l (x j)) as [H|H].
    + left. pose proof (integral_lt_le1 l (x j) Il Ix H).
      assert (0 <= (- b) * (x j - l - 1)) by (apply Qmult_le_0_compat; lra).
      assert (0 <= (- b) * (1 - (u - l))) by (apply Qmult_le_0_compat; lra). lra.
    + right. assert (x j == l) by lra. rewrite H0. ring.
  - split; [|split; [apply Qle_refl|right; reflexivity]].
    unfold most. destruct (wide lo hi (j, a)) eqn:Wd.
    + destruct (top3 lo hi (j, a)) as [q|] eqn:Eq; [|now exfalso; apply F]. cbn [or0]. now apply (top_ge lo hi x j a q).
    + destruct (not_wide (j, a) W Wd) as (l & El & Ex). cbn [fst snd] in *. rewrite El, Ex. lra.
Qed.
Lemma total_value v : total (fun e => snd e * x (fst e)) v == value v x.
Proof. induction v as [|[j a] v IH]; cbn [total fold_right value fst snd]; [reflexivity|]. fold (total (fun e => snd e * x (fst e)) v). rewrite IH. reflexivity. Qed.
Lemma total_up v : 0 < gap -> (forall e, In e v -> least e <= part e /\ part e <= snd e * x (fst e) /\
  (least e + gap <= part e \/ part e == snd e * x (fst e))) ->
  total least v <= total part v /\ total part v <= value v x /\
  (total least v + gap <= total part v \/ total part v == value v x).
Proof.
  intro G. induction v as [|[j a] v IH]; intro H; cbn [total fold_right value]; [split; [lra|split; [lra|right; reflexivity]]|].
  fold (total least v) (total part v).
  destruct (H _ (or_introl eq_refl)) as (A1 & A2 & A3). destruct IH as (B1 & B2 & B3); [intros e I; apply H; now right|].
  cbn [fst snd] in A2, A3. split; [lra|]. split; [lra|].
  destruct A3 as [A3|A3]; [left; lra|]. destruct B3 as [B3|B3]; [left; lra|right; lra].
Qed.
Lemma total_down v : gap < 0 -> (forall e, In e v -> part e <= most e /\ snd e * x (fst e) <= part e /\
  (part e <= most e + gap \/ part e == snd e * x (fst e))) ->
  total part v <= total most v /\ value v x <= total part v /\
  (total part v <= total most v + gap \/ total part v == value v x).
Proof.
  intro G. induction v as [|[j a] v IH]; intro H; cbn [total fold_right value]; [split; [lra|split; [lra|right; reflexivity]]|].
  fold (total most v) (total part v).
  destruct (H _ (or_introl eq_refl)) as (A1 & A2 & A3). destruct IH as (B1 & B2 & B3); [intros e I; apply H; now right|].
  cbn [fst snd] in A2, A3. split; [lra|]. split; [lra|].
  destruct A3 as [A3|A3]; [left; lra|]. destruct B3 as [B3|B3]; [left; lra|right; lra].
Qed.
Lemma total_least v : (forall e, In e v -> within (lo (fst e)) (hi (fst e)) (x (fst e))) ->
  total least v == finite_sum (map (bottom3 lo hi) (filter (wide lo hi) v)) + fixed_sum lo hi v.
Proof.
  induction v as [|e v IH]; intro W; cbn [total fold_right filter fixed_sum]; [reflexivity|].
  fold (total least v) (fixed_sum lo hi v). rewrite IH by (intros; apply W; now right). unfold least at 1.
  destruct (wide lo hi e) eqn:E; [cbn [map]; rewrite finite_sum_cons; ring|]. destruct (lo (fst e)); ring.
Qed.
Lemma total_most v : (forall e, In e v -> within (lo (fst e)) (hi (fst e)) (x (fst e))) ->
  total most v == finite_sum (map (top3 lo hi) (filter (wide lo hi) v)) + fixed_sum lo hi v.
Proof.
  induction v as [|e v IH]; intro W; cbn [total fold_right filter fixed_sum]; [reflexivity|].
  fold (total most v) (fixed_sum lo hi v). rewrite IH by (intros; apply W; now right). unfold most at 1.
  destruct (wide lo hi e) eqn:E; [cbn [map]; rewrite finite_sum_cons; ring|]. destruct (lo (fst e)); ring.
Qed.
End Coefs.
Lemma infinite_zero (l : list (option Q)) o : infinite l = 0%nat -> In o l -> o <> None.
Proof.
  induction l as [|p l IH]; intros F I; [destruct I|]. rewrite infinite_cons in F. destruct I as [->|I].
  - intros ->. discriminate F.
  - apply IH; [lia|exact I].
Qed.
Lemma row3_ok ints lo hi v rl ru x : no_zero v ->
  (forall j a, In (j, a) v -> within (lo j) (hi j) (x j) /\ (ints j = true -> integral (x j))) ->
  (forall j, ints j = true -> forall l u, lo j = Some l -> hi j = Some u -> 0 < u - l -> integral l) ->
  within rl ru (value v x) -> row_sat (fst (row3 ints lo hi v rl ru)) x.
Proof.
  intros Z B C W. unfold row3. destruct (negb (no_sides rl ru) && _) eqn:D; [|exact W].
  apply andb_true_iff in D. destruct D as [_ D]. apply fold3. cbn [value].
  assert (Bw : forall e, In e v -> within (lo (fst e)) (hi (fst e)) (x (fst e))) by (intros [j a] I; apply (B j a I)).
  assert (K : within rl ru (total (part ints lo hi x (gap3 lo hi v rl ru)) v));
    [|apply (within_eq _ _ _ _) with (2 := K); ring].
  set (g := gap3 lo hi v rl ru) in *.
  assert (Gd : g = gap3 lo hi v rl ru) by reflexivity. clearbody g. unfold gap3 in Gd.
  pose proof (total_least lo hi x v Bw) as TL. pose proof (total_most lo hi x v Bw) as TM.
  set (w := filter (wide lo hi) v) in *.
  set (md := finite_sum (map (bottom3 lo hi) w) + fixed_sum lo hi v) in *.
  set (mu := finite_sum (map (top3 lo hi) w) + fixed_sum lo hi v) in *.
  assert (N0 : ~ g == 0). { intro E. qb. rewrite (Qabs_wd _ _ E) in D. vm_compute in D. discriminate D. }
  destruct W as [W1 W2].
  destruct (match rl with Some l => (md <? l) && (l - md <? largest w) | None => false end &&
            match ru with Some u => (mu <=? u) && Nat.eqb (infinite (map (top3 lo hi) w)) 0 | None => true end) eqn:C1.
  - apply andb_true_iff in C1. destruct C1 as [C1 _]. destruct rl as [l|]; [|discriminate C1].
    apply andb_true_iff in C1. destruct C1 as [C1 _]. qb.
    destruct (Nat.eqb_spec (infinite (map (bottom3 lo hi) w)) 0) as [F|F]; [|exfalso; apply N0; rewrite Gd; reflexivity].
    assert (Gp : 0 < g) by (rewrite Gd; lra).
    destruct (total_up ints lo hi x g v Gp) as (A1 & A2 & A3).
    { intros [j a] I. destruct (B j a I) as [Bj Xj]. cbn [fst snd]. apply part_up; try assumption; [exact (Z j a I)|].
      intros Wd. apply (infinite_zero _ _ F). apply in_map. apply filter_In. now split. }
    cbn in W1. split.
    + cbn. destruct A3 as [A3|A3]; [|lra]. assert (Gq : g == l - md) by (rewrite Gd; reflexivity). lra.
    + destruct ru as [u|]; [|exact I]. cbn in *. lra.
  - destruct (match ru with Some u => (u <? mu) && (mu - u <? largest w) | None => false end &&
              match rl with Some l => (l <=? md) && Nat.eqb (infinite (map (bottom3 lo hi) w)) 0 | None => true end) eqn:C2;
      [|exfalso; apply N0; rewrite Gd; reflexivity].
    apply andb_true_iff in C2. destruct C2 as [C2 _]. destruct ru as [u|]; [|discriminate C2].
    apply andb_true_iff in C2. destruct C2 as [C2 _]. qb.
    destruct (Nat.eqb_spec (infinite (map (top3 lo hi) w)) 0) as [F|F]; [|exfalso; apply N0; rewrite Gd; reflexivity].
    assert (Gp : g < 0) by (rewrite Gd; lra).
    destruct (total_down ints lo hi x g v Gp) as (A1 & A2 & A3).
    { intros [j a] I. destruct (B j a I) as [Bj Xj]. cbn [fst snd]. apply part_down; try assumption; [exact (Z j a I)|].
      intros Wd. apply (infinite_zero _ _ F). apply in_map. apply filter_In. now split. }
    cbn in W2. split.
    + destruct rl as [l|]; [|exact I]. cbn in *. lra.
    + cbn. destruct A3 as [A3|A3]; [|lra]. assert (Gq : g == - (mu - u)) by (rewrite Gd; reflexivity). lra.
Qed.
