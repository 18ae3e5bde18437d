(** * CglGomory: what the rational stage can end in *)

From Coq Require Import Qabs Lqa Lia Zquot.
From Verif Require Import Base Model_GMI Proofs_GMI Model_Gomory Proofs_Gomory.
Local Open Scope Q_scope.

(** ** nearestRational *)
Definition denominator_ok (o : option (Z * Z)) : Prop := match o with Some (_, d) => (1 <= d <= 100000)%Z | None => True end.
Lemma floor_ge1 w e : 1 <= w -> 0 <= e -> (1 <= Qfloor (w + e))%Z.
Proof. intros W E. rewrite Zle_Qle. apply (int_le_floor 1 (w + e)). change (inject_Z 1) with 1. lra. Qed.
Lemma loop_ok fuel : forall v an ad bn bd, v < 1 -> (1 <= bd)%Z -> (0 <= ad)%Z -> (bd <= 100000 \/ 1 <= ad <= 100000)%Z ->
  rational_loop fuel v an ad bn bd = Undef IntOverflow \/
  exists o, rational_loop fuel v an ad bn bd = Done o /\ denominator_ok o.
Proof.
  induction fuel as [|f IH]; intros v an ad bn bd V B A R; cbn [rational_loop]; cbv zeta.
  - destruct (_ && _); [right; exists None; split; [reflexivity|exact Logic.I]|].
    destruct (Z.leb_spec bd 100000); right; eexists; (split; [reflexivity|]); cbn; lia.
  - destruct ((ten (-14) <? v) && (bd <=? 100000)%Z) eqn:C.
    + apply andb_prop in C. destruct C as (C1 & C2). apply Qltb_lt in C1. apply Z.leb_le in C2. pose proof (ten_pos (-14)) as T.
      destruct (_ && _); [|left; reflexivity].
      assert (W : 1 <= 1 / v) by (apply Qle_shift_div_l; lra).
      pose proof (floor_ge1 (1 / v) (ten (-14)) W ltac:(lra)) as F. apply IH; [|nia|lia|lia].
      pose proof (qfloor_lt (1 / v + ten (-14))) as Q1. unfold qfloor in Q1. lra.
    + destruct (Z.leb_spec bd 100000); right; eexists; (split; [reflexivity|]); cbn; lia.
Qed.
Lemma nearestRational_ok v : 0 <= v -> v < 1 -> nearestRational v = Undef IntOverflow \/
  exists o, nearestRational v = Done o /\ denominator_ok o.
Proof.
  intros V0 V1. unfold nearestRational. destruct (_ <? _); [right; eexists; split; [reflexivity|cbn; lia]|].
  apply loop_ok; try lia. pose proof (qfloor_lt v). lra.
Qed.
(** exact on rationals with a denominator up to 10^13 *)
Lemma loop_exact fuel : forall v an ad bn bd r0 r1 D N,
  (0 <= r1 < r0)%Z -> (1 <= bd)%Z -> (0 <= ad)%Z -> (0 <= bn)%Z -> (0 <= an)%Z ->
  v * inject_Z r0 == inject_Z r1 -> (bd * r0 + ad * r1 = D)%Z -> (bn * r0 + an * r1 = N)%Z ->
  (D <= 10 ^ 13)%Z -> (N <= 10 ^ 13)%Z -> (bd <= 100000 \/ 1 <= ad <= 100000)%Z ->
  exists o, rational_loop fuel v an ad bn bd = Done o /\ denominator_ok o.
Proof.
  induction fuel as [|f IH]; intros v an ad bn bd r0 r1 D N R B A Bn An V ED EN LD LN R2; cbn [rational_loop]; cbv zeta.
  - destruct (_ && _); [exists None; split; [reflexivity|exact Logic.I]|].
    destruct (Z.leb_spec bd 100000); eexists; (split; [reflexivity|]); cbn; lia.
  - destruct ((ten (-14) <? v) && (bd <=? 100000)%Z) eqn:C.
    2: destruct (Z.leb_spec bd 100000); eexists; (split; [reflexivity|]); cbn; lia.
    apply andb_prop in C. destruct C as (C1 & C2). apply Qltb_lt in C1. apply Z.leb_le in C2. pose proof (ten_pos (-14)) as T.
    assert (R0q : 0 < inject_Z r0) by (change 0 with (inject_Z 0); rewrite <- Zlt_Qlt; lia).
    assert (R1p : (0 < r1)%Z).
    { rewrite Zlt_Qlt. change (inject_Z 0) with 0. rewrite <- V. apply Qmult_lt_0_compat; lra. }
    assert (R1q : 0 < inject_Z r1) by (change 0 with (inject_Z 0); rewrite <- Zlt_Qlt; lia).
    assert (W : 1 / v == inject_Z r0 / inject_Z r1).
    { rewrite <- V. field. split; lra. }
    assert (Lr : (r0 <= 10 ^ 13)%Z) by nia.
    assert (F : Qfloor (1 / v + ten (-14)) = (r0 / r1)%Z).
    { pose proof (Z.div_mod r0 r1 ltac:(lia)) as DM. pose proof (Z.mod_pos_bound r0 r1 R1p) as MB.
      set (q := (r0 / r1)%Z) in *. set (t := (r0 mod r1)%Z) in *.
      assert (W2 : 1 / v == inject_Z q + inject_Z t / inject_Z r1).
      { rewrite W. rewrite DM at 1. rewrite inject_Z_plus, inject_Z_mult. field. lra. }
      assert (T0 : 0 <= inject_Z t / inject_Z r1) by (apply Qle_shift_div_l; [lra|]; rewrite Qmult_0_l; change 0 with (inject_Z 0); rewrite <- Zle_Qle; lia).
      assert (T1 : inject_Z t / inject_Z r1 <= 1 - ten (-13)).
      { apply Qle_shift_div_r; [lra|].
        assert (X1 : inject_Z t <= inject_Z r1 - 1).
        { change 1 with (inject_Z 1). unfold Qminus. rewrite <- inject_Z_opp, <- inject_Z_plus, <- Zle_Qle. lia. }
        assert (X2 : ten (-13) * inject_Z r1 <= 1).
        { apply Qle_trans with (ten (-13) * inject_Z (10 ^ 13)); [|vm_compute; discriminate].
          apply Qmult_le_l; [apply ten_pos|]. rewrite <- Zle_Qle. lia. }
        lra. }
      assert (T13 : ten (-14) < ten (-13)) by reflexivity.
      assert (H1 : (q <= Qfloor (1 / v + ten (-14)))%Z).
      { rewrite Zle_Qle. apply (int_le_floor q). rewrite W2. lra. }
      assert (H2 : (Qfloor (1 / v + ten (-14)) < q + 1)%Z).
      { rewrite Zlt_Qlt, inject_Z_plus. change (inject_Z 1) with 1. pose proof (qfloor_le (1 / v + ten (-14))) as X. unfold qfloor in X. rewrite W2 in X at 2. lra. }
      lia. }
    rewrite F. set (q := (r0 / r1)%Z). pose proof (Z.div_mod r0 r1 ltac:(lia)) as DM. pose proof (Z.mod_pos_bound r0 r1 R1p) as MB. fold q in DM.
    set (t := (r0 mod r1)%Z) in *. assert (Q1 : (1 <= q)%Z) by nia.
    assert (H1 : (0 <= bn * q + an <= 10 ^ 13)%Z) by nia.
    assert (H2 : (1 <= bd * q + ad <= 10 ^ 13)%Z) by nia.
    assert (I1 : int64 (bn * q + an) = true).
    { unfold int64. apply andb_true_intro. split; [apply Z.leb_le|apply Z.ltb_lt]; lia. }
    assert (I2 : int64 (bd * q + ad) = true).
    { unfold int64. apply andb_true_intro. split; [apply Z.leb_le|apply Z.ltb_lt]; lia. }
    rewrite I1, I2. cbn [andb].
    assert (ED' : ((bd * q + ad) * r1 + bd * t = D)%Z) by (rewrite <- ED, DM; ring).
    assert (EN' : ((bn * q + an) * r1 + bn * t = N)%Z) by (rewrite <- EN, DM; ring).
    apply (IH _ _ _ _ _ r1 t D N); try assumption; try (clear - MB H1 H2 B Bn A An C2; lia).
    rewrite W. setoid_replace ((inject_Z r0 / inject_Z r1 - inject_Z q) * inject_Z r1) with (inject_Z r0 - inject_Z q * inject_Z r1) by (field; lra).
    rewrite <- inject_Z_mult. unfold Qminus. rewrite <- inject_Z_opp, <- inject_Z_plus. apply inject_Z_injective. rewrite DM. ring.
Qed.
Lemma nearestRational_exact D v : (1 <= D <= 10 ^ 13)%Z -> integral (inject_Z D * v) -> 0 <= v -> v < 1 ->
  exists o, nearestRational v = Done o /\ denominator_ok o.
Proof.
  intros LD (w & W) V0 V1. unfold nearestRational. destruct (_ <? _); [eexists; split; [reflexivity|cbn; lia]|].
  assert (F : Qfloor v = 0%Z).
  { assert (H1 : (0 <= Qfloor v)%Z) by (rewrite Zle_Qle; apply (int_le_floor 0); exact V0).
    assert (H2 : (Qfloor v < 1)%Z) by (rewrite Zlt_Qlt; eapply Qle_lt_trans; [apply Qfloor_le|exact V1]). lia. }
  unfold qfloor. rewrite F. assert (Dq : 0 < inject_Z D) by (change 0 with (inject_Z 0); rewrite <- Zlt_Qlt; lia).
  assert (w0 : (0 <= w)%Z) by (rewrite Zle_Qle, <- W; apply Qmult_le_0_compat; lra).
  assert (w1 : (w < D)%Z).
  { rewrite Zlt_Qlt, <- W. setoid_replace (inject_Z D) with (inject_Z D * 1) at 2 by ring. apply Qmult_lt_l; assumption. }
  apply (loop_exact 50 _ 1 0 0 1 D w D w); try lia. change (inject_Z 0) with 0. rewrite <- W. ring.
Qed.

(** ** The common denominator *)
Definition lcm_inv (s : option Z * nat) : Prop := match fst s with Some l => (0 < l <= 10 ^ 18)%Z | None => True end.
Lemma above_integer_range q : 0 <= q -> 0 <= above_integer q /\ above_integer q < 1.
Proof.
  intro P. unfold above_integer. destruct (_ <? _); [lra|]. pose proof (qfloor_le q). pose proof (qfloor_lt q). lra.
Qed.
Lemma lcm_step_ok s a : lcm_inv s ->
  (lcm_step s a = Undef IntOverflow /\ nearestRational (above_integer (Qabs a)) = Undef IntOverflow) \/ exists s', lcm_step s a = Done s' /\ lcm_inv s'.
Proof.
  intro I. destruct s as [[l|] ns]; [|right; eexists; split; [reflexivity|exact Logic.I]]. unfold lcm_step. cbv zeta.
  destruct (_ <? _); [right; eexists; split; [reflexivity|exact I]|].
  destruct (above_integer_range (Qabs a) (Qabs_nonneg a)) as (A0 & A1).
  destruct (nearestRational_ok _ A0 A1) as [E|(o & E & Do)]; rewrite E; cbn [bind]; [left; auto|right].
  destruct o as [[nu d]|]; [|eexists; split; [reflexivity|exact Logic.I]]. cbn in Do. unfold lcm_inv in I. cbn [fst] in I.
  rewrite computeGcd_pos by lia. cbn [bind]. destruct (_ <? ten 18) eqn:T; [|eexists; split; [reflexivity|exact Logic.I]].
  eexists. split; [reflexivity|]. unfold lcm_inv. cbn [fst]. apply Qltb_lt in T. rewrite <- inject_Z_mult in T.
  change (ten 18) with (inject_Z (10 ^ 18)) in T. rewrite <- Zlt_Qlt in T. split; [|lia].
  assert (G : (0 < Z.gcd l d)%Z).
  { pose proof (Z.gcd_nonneg l d). destruct (Z.eq_dec (Z.gcd l d) 0) as [Q0|]; [|lia]. apply Z.gcd_eq_0_l in Q0. lia. }
  destruct (Z.gcd_divide_l l d) as (q & Eq). assert (Q : (Z.quot l (Z.gcd l d) = q)%Z) by (rewrite Eq at 1; apply Z.quot_mul; lia).
  rewrite Q. nia.
Qed.
Lemma lcm_ok l s : lcm_inv s ->
  (ofold lcm_step l s = Undef IntOverflow /\ exists a, In a l /\ nearestRational (above_integer (Qabs a)) = Undef IntOverflow)
  \/ exists s', ofold lcm_step l s = Done s' /\ lcm_inv s'.
Proof.
  revert s. induction l as [|a l IH]; intros s I; cbn [ofold]; [right; eauto|].
  destruct (lcm_step_ok s a I) as [(E & X)|(s' & E & I')]; rewrite E; cbn [bind].
  - left. split; [reflexivity|]. exists a. split; [left; reflexivity|exact X].
  - destruct (IH s' I') as [(E2 & b & Hb & X)|H]; [left|right; exact H]. split; [exact E2|]. exists b. split; [right; exact Hb|exact X].
Qed.

(** ** The ratios *)
Lemma ratio_range l g a xi : (0 < l)%Z -> (0 < g)%Z -> (g | xi)%Z -> close_int l a xi -> ~ new_coef g a xi == 0 ->
  ~ a == 0 /\ (99999 # 100000) * (inject_Z l / inject_Z g) <= new_coef g a xi / a /\ new_coef g a xi / a <= (100001 # 100000) * (inject_Z l / inject_Z g).
Proof.
  intros L G Dv (X0 & X) NZ.
  assert (Lq : 0 < inject_Z l) by (change 0 with (inject_Z 0); rewrite <- Zlt_Qlt; exact L).
  assert (Gq : 0 < inject_Z g) by (change 0 with (inject_Z 0); rewrite <- Zlt_Qlt; exact G).
  pose proof (new_coef_signed g a xi G Dv) as S.
  assert (X1 : (0 < xi)%Z).
  { destruct (Z.eq_dec xi 0) as [->|]; [|lia]. exfalso. apply NZ. unfold new_coef. rewrite Zquot_0_l. destruct (0 <? a); reflexivity. }
  assert (Xq : 1 <= inject_Z xi) by (change 1 with (inject_Z 1); rewrite <- Zle_Qle; lia).
  apply Qabs_Qle_condition in X. assert (T8 : ten (-8) < 1 # 1000000) by reflexivity.
  set (u := Qabs a * inject_Z l) in *.
  assert (Na : ~ a == 0).
  { intro Z. assert (E : u == 0) by (unfold u; rewrite Z; reflexivity). lra. }
  assert (Ap : 0 < Qabs a).
  { destruct (Qlt_le_dec a 0); [rewrite (Qabs_neg a) by lra; lra|rewrite (Qabs_pos a) by lra]. destruct (Qeq_dec a 0); [contradiction|]. lra. }
  assert (E : new_coef g a xi / a == inject_Z xi / (inject_Z g * Qabs a)).
  { unfold signed in S. destruct (0 <? a) eqn:Pa; qb.
    - rewrite (Qabs_pos a) by lra. rewrite <- S. field. split; lra.
    - rewrite (Qabs_neg a) by lra. rewrite inject_Z_opp in S. assert (S' : inject_Z xi == - (inject_Z g * new_coef g a xi)) by lra. rewrite S'. field. split; lra. }
  assert (E2 : inject_Z xi / (inject_Z g * Qabs a) == (inject_Z l / inject_Z g) * (inject_Z xi / u)) by (unfold u; field; conjs; lra).
  assert (Up : 0 < u) by lra.
  assert (B1 : (99999 # 100000) <= inject_Z xi / u) by (apply Qle_shift_div_l; lra).
  assert (B2 : inject_Z xi / u <= (100001 # 100000)) by (apply Qle_shift_div_r; lra).
  assert (Rp : 0 < inject_Z l / inject_Z g) by (apply Qlt_shift_div_l; lra).
  split; [exact Na|]. rewrite E, E2. split; [rewrite Qmult_comm|rewrite (Qmult_comm (100001 # 100000))]; apply Qmult_le_l; assumption.
Qed.
Definition in_range (r t : Q) : Prop := (99999 # 100000) * r <= t /\ t <= (100001 # 100000) * r.
Lemma ratio_fold r l : 0 < r -> r <= ten 18 -> forall mn mx, (in_range r mn \/ mn = ten 100) -> (in_range r mx \/ mx = 0) ->
  (forall o w, In (o, w) l -> ~ w == 0 -> ~ o == 0 /\ in_range r (w / o)) ->
  (in_range r mn /\ in_range r mx \/ exists o w, In (o, w) l /\ ~ w == 0) ->
  let s := fold_left ratio_step l (mn, mx) in in_range r (fst s) /\ in_range r (snd s).
Proof.
  intros R0 R1. induction l as [|[o w] l IH]; intros mn mx Hn Hx H P; cbn [fold_left]; cbv zeta.
  - destruct P as [P|(o & w & [] & _)]. exact P.
  - assert (H' : forall o w, In (o, w) l -> ~ w == 0 -> ~ o == 0 /\ in_range r (w / o)) by (intros; apply H; [right|]; assumption).
    unfold ratio_step at 2 4. destruct (Qeq_bool w 0) eqn:Z.
    + apply IH; auto. destruct P as [P|(o' & w' & [Hi|Hi] & N)]; [auto| |right; eauto].
      injection Hi as -> ->. qb. contradiction.
    + qb. destruct (H o w (or_introl eq_refl) Z) as (No & (G1 & G2)).
      assert (Op : 0 < Qabs o).
      { destruct (Qlt_le_dec o 0); [rewrite (Qabs_neg o) by lra; lra|rewrite (Qabs_pos o) by lra]. destruct (Qeq_dec o 0); [contradiction|]. lra. }
      assert (Ew : Qabs w == (w / o) * Qabs o).
      { assert (Pq : 0 < w / o) by lra. rewrite <- (Qabs_pos (w / o)) by lra. rewrite <- Qabs_Qmult. apply Qabs_wd. field. exact No. }
      assert (T : ten 100 > (100001 # 100000) * ten 18) by reflexivity.
      assert (A1 : in_range r (if Qabs w <? mn * Qabs o then w / o else mn)).
      { destruct Hn as [Hn| ->]; destruct (_ <? _) eqn:C; try (split; assumption); try exact Hn.
        exfalso. qb. rewrite Ew in C. apply Qmult_le_r in C; [|exact Op]. lra. }
      assert (A2 : in_range r (if mx * Qabs o <? Qabs w then w / o else mx)).
      { destruct Hx as [Hx| ->]; match goal with |- in_range r (if ?b then _ else _) => destruct b eqn:C end; try (split; assumption); try exact Hx.
        exfalso. qb. assert (0 < Qabs w) by (rewrite Ew; apply Qmult_lt_0_compat; lra). rewrite Qmult_0_l in C. lra. }
      apply IH; auto.
Qed.

Section Rational.
  Variable stale : Z.
  Variable c : gcall.
  Notation m := (g_mip c).
  Lemma news_zero g olds xs : Forall (fun z => z = 0%Z) xs -> forall o w,
    In (o, w) (combine olds (map (fun ax => new_coef g (fst ax) (snd ax)) (combine olds xs))) -> w == 0.
  Proof.
    revert xs. induction olds as [|a olds IH]; intros xs Z o w H; [destruct H|]. destruct xs as [|z xs]; [destruct H|].
    inversion Z as [|? ? Z1 Z2]; subst. cbn [combine map fst snd] in H. destruct H as [H|H]; [|eapply IH; eauto].
    injection H as <- <-. unfold new_coef. rewrite Zquot_0_l. destruct (0 <? a); reflexivity.
  Qed.
  Lemma news_in g olds xs : forall o w, In (o, w) (combine olds (map (fun ax => new_coef g (fst ax) (snd ax)) (combine olds xs))) ->
    exists xi, In (o, xi) (combine olds xs) /\ w = new_coef g o xi.
  Proof.
    revert xs. induction olds as [|a olds IH]; intros xs o w H; [destruct H|]. destruct xs as [|z xs]; [destruct H|].
    cbn [combine map fst snd] in H. destruct H as [H|H].
    - injection H as <- <-. exists z. split; [left; reflexivity|reflexivity].
    - destruct (IH _ _ _ H) as (xi & H1 & H2). exists xi. split; [right; exact H1|exact H2].
  Qed.
  Lemma news_of g olds xs a xi : In (a, xi) (combine olds xs) ->
    In (a, new_coef g a xi) (combine olds (map (fun ax => new_coef g (fst ax) (snd ax)) (combine olds xs))).
  Proof.
    revert xs. induction olds as [|b olds IH]; intros xs H; [destruct H|]. destruct xs as [|z xs]; [destruct H|].
    cbn [combine map fst snd] in *. destruct H as [H|H]; [left; congruence|right; apply IH; exact H].
  Qed.
  Lemma forall2_in {A B} (P : A -> B -> Prop) l l' a b : Forall2 P l l' -> In (a, b) (combine l l') -> P a b.
  Proof. induction 1 as [|x y l l' H F IH]; intro I; [destruct I|]. destruct I as [I|I]; [injection I as -> ->; exact H|auto]. Qed.
  Lemma in_second {A B} (l : list A) (l' : list B) b : length l = length l' -> In b l' -> exists a, In (a, b) (combine l l').
  Proof.
    revert l'. induction l as [|a l IH]; intros [|b' l'] E H; try discriminate; [destruct H|].
    destruct H as [->|H]; [exists a; left; reflexivity|]. injection E as E. destruct (IH l' E H) as (a' & Ha). exists a'. right. exact Ha.
  Qed.
  Lemma in_swap {A B} (l : list A) (l' : list B) a b : In (a, b) (combine l l') -> In (b, a) (combine l' l).
  Proof.
    revert l'. induction l as [|a' l IH]; intros [|b' l'] H; cbn [combine] in *; try (destruct H; fail).
    destruct H as [H|H]; [left; congruence|right; apply IH; exact H].
  Qed.
  (** the assertion on the ratios of new to old coefficients never fails *)
  Lemma ratio_always l g olds xs : (0 < l)%Z -> (0 < g)%Z -> Forall2 (close_int l) olds xs -> Forall (fun z => (g | z)%Z) xs ->
    (l <= 10 ^ 18)%Z -> (exists z, In z xs /\ (0 < z)%Z) ->
    ratios_ok olds (map (fun ax => new_coef g (fst ax) (snd ax)) (combine olds xs)) = true.
  Proof.
    intros L G F Dv L18 (z & Hz & Zp). unfold ratios_ok.
    assert (Lq : 0 < inject_Z l) by (change 0 with (inject_Z 0); rewrite <- Zlt_Qlt; exact L).
    assert (Gq : 1 <= inject_Z g) by (change 1 with (inject_Z 1); rewrite <- Zle_Qle; lia).
    set (r := inject_Z l / inject_Z g).
    assert (R0 : 0 < r) by (apply Qlt_shift_div_l; lra).
    assert (R1 : r <= ten 18).
    { apply Qle_shift_div_r; [lra|]. apply Qle_trans with (ten 18 * 1); [|apply Qmult_le_l; [apply ten_pos|exact Gq]].
      rewrite Qmult_1_r. change (ten 18) with (inject_Z (10 ^ 18)). rewrite <- Zle_Qle. exact L18. }
    destruct (fold_left ratio_step _ (ten 100, 0)) as [mn mx] eqn:E.
    assert (K : in_range r (fst (mn, mx)) /\ in_range r (snd (mn, mx))).
    { rewrite <- E. apply ratio_fold; auto.
      - intros o w H N. destruct (news_in _ _ _ _ _ H) as (xi & H1 & ->). apply ratio_range; auto.
        + apply (proj1 (Forall_forall _ _) Dv). apply in_combine_r in H1. exact H1.
        + exact (forall2_in _ _ _ _ _ F H1).
      - right. destruct (in_second olds xs z (forall2_len _ _ _ F) Hz) as (a & Ha). exists a, (new_coef g a z).
        split; [apply news_of; exact Ha|]. intro Q0.
        pose proof (new_coef_signed g a z G (proj1 (Forall_forall _ _) Dv z Hz)) as S. rewrite Q0 in S.
        assert (S2 : inject_Z (signed a z) == inject_Z 0) by (rewrite <- S; change (inject_Z 0) with 0; ring).
        apply (proj1 (inject_Z_injective _ _)) in S2. unfold signed in S2. destruct (0 <? a); lia. }
    cbn [fst snd] in K. destruct K as ((N1 & N2) & (X1 & X2)).
    assert (Mn : 0 < mn) by lra. apply andb_true_intro. split; apply Qltb_lt.
    - apply Qlt_shift_div_l; lra.
    - apply Qlt_shift_div_r; lra.
  Qed.
  Lemma ratio_one l g olds xs a xi : (0 < l <= 10 ^ 18)%Z -> (g <> 0)%Z -> (Z.abs g | xi)%Z -> close_int l a xi -> (0 < xi)%Z ->
    length olds = length xs -> Forall (fun z => z = 0%Z) xs ->
    ratios_ok (olds ++ [a]) (map (fun ax => new_coef g (fst ax) (snd ax)) (combine (olds ++ [a]) (xs ++ [xi]))) = true.
  Proof.
    intros L G Dv (X0 & X) Xp Ln Z. unfold ratios_ok.
    rewrite combine_snoc by exact Ln. rewrite map_app. cbn [map fst snd].
    rewrite combine_snoc by (rewrite map_length, combine_length; lia). rewrite fold_left_app.
    assert (E0 : forall l0, (forall o w, In (o, w) l0 -> w == 0) -> fold_left ratio_step l0 (ten 100, 0) = (ten 100, 0)).
    { induction l0 as [|[o w] l0 IH]; intro H; [reflexivity|]. cbn [fold_left]. unfold ratio_step at 2.
      assert (W : Qeq_bool w 0 = true) by (apply Qeq_bool_iff; eapply H; left; reflexivity). rewrite W. apply IH. intros; eapply H; right; eauto. }
    rewrite E0 by (intros o w H; apply (news_zero g olds xs Z o w H)). cbn [fold_left]. unfold ratio_step.
    set (w := new_coef g a xi).
    assert (Q1 : (1 <= Z.abs (Z.quot xi g) <= xi)%Z).
    { destruct Dv as (q & Eq). assert (Qa : (Z.abs (Z.quot xi g) = q)%Z).
      { rewrite <- Z.quot_abs by exact G. rewrite (Z.abs_eq xi) by lia. rewrite Eq. apply Z.quot_mul. lia. }
      rewrite Qa. nia. }
    assert (Aw : Qabs w == inject_Z (Z.abs (Z.quot xi g))).
    { unfold w, new_coef. destruct (0 <? a); [|rewrite Qabs_opp]; reflexivity. }
    assert (W1 : 1 <= Qabs w) by (rewrite Aw; change 1 with (inject_Z 1); rewrite <- Zle_Qle; lia).
    assert (W2 : Qabs w <= inject_Z xi) by (rewrite Aw, <- Zle_Qle; lia).
    assert (Nw : Qeq_bool w 0 = false) by (apply Qeqb_neq; intro Q0; rewrite Q0 in W1; vm_compute in W1; congruence).
    rewrite Nw. apply Qabs_Qle_condition in X. assert (T8 : ten (-8) < 1 # 2) by reflexivity.
    assert (Lq : inject_Z l <= ten 18) by (change (ten 18) with (inject_Z (10 ^ 18)); rewrite <- Zle_Qle; lia).
    assert (Xq : 1 <= inject_Z xi) by (change 1 with (inject_Z 1); rewrite <- Zle_Qle; lia).
    assert (A18 : Qabs a * inject_Z l <= Qabs a * ten 18) by (rewrite !(Qmult_comm (Qabs a)); apply Qmult_le_compat_r; [exact Lq|apply Qabs_nonneg]).
    assert (C1 : Qabs w <? ten 100 * Qabs a = true).
    { apply Qltb_lt. assert (T : ten 100 * Qabs a == ten 82 * (Qabs a * ten 18)) by (change (ten 100) with (ten 82 * ten 18); ring).
      rewrite T. assert (ten 82 * (1 # 2) * inject_Z xi <= ten 82 * (Qabs a * ten 18)).
      { rewrite <- Qmult_assoc. apply Qmult_le_l; [apply ten_pos|lra]. }
      assert (2 * inject_Z xi <= ten 82 * (1 # 2) * inject_Z xi) by (apply Qmult_le_compat_r; [vm_compute; discriminate|lra]). lra. }
    assert (C2 : 0 * Qabs a <? Qabs w = true) by (apply Qltb_lt; rewrite Qmult_0_l; lra).
    rewrite C1, C2.
    assert (Na : ~ a == 0) by (intro Q0; assert (E : Qabs a * inject_Z l == 0) by (rewrite Q0; reflexivity); lra).
    assert (Nw' : ~ w == 0) by (intro Q0; rewrite Q0 in W1; vm_compute in W1; congruence).
    assert (One : w / a / (w / a) == 1) by (field; split; assumption).
    apply andb_true_intro. split; apply Qltb_lt; rewrite One; reflexivity.
  Qed.

  (** ** What the stage can end in *)
  Definition all_tiny (v : vec) (rhs : Q) : Prop := forall a, In a (map snd v ++ [rhs]) -> Qabs a <= ten (-8).
  Lemma rationalize_total v rhs :
    (exists k, rationalize stale c v rhs = Done k) \/
    (rationalize stale c v rhs = Undef OutOfBounds /\ v <> [] /\ all_tiny v rhs) \/
    (rationalize stale c v rhs = Undef IntOverflow /\ exists a, In a (map snd v ++ [rhs]) /\ nearestRational (above_integer (Qabs a)) = Undef IntOverflow).
  Proof.
    unfold rationalize. cbv zeta. destruct (_ && _) eqn:St; [|left; eauto].
    destruct (lcm_ok (map snd v ++ [rhs]) (Some 1%Z, 0%nat)) as [(E & X)|(s & E & Inv)]; [unfold lcm_inv; cbn; lia| |]; rewrite E; cbn [bind]; [right; right; auto|].
    destruct s as [[l|] [|ns]]; try (left; eauto; fail). unfold lcm_inv in Inv. cbn [fst] in Inv.
    destruct (Z.ltb_spec 0 l) as [Lp|Lp]; [|left; eauto].
    destruct (to_ints l (map snd v ++ [rhs])) as [xs|] eqn:T; [|left; eauto].
    apply to_ints_spec in T; [|lia]. rename T into F.
    assert (NN : Forall (fun z => (0 <= z)%Z) xs).
    { clear -F. induction F as [|a z l1 l2 (H & _) F IH]; constructor; auto. }
    pose proof (gcd_all_spec stale _ NN) as GS. pose proof (from_nonzero_spec _ NN) as FS.
    destruct (from_nonzero xs) as [[z rest]|] eqn:FZ.
    2: { right. left. rewrite GS. cbn [bind]. conjs; [reflexivity| |].
         - intros ->. rewrite andb_false_r in St. discriminate.
         - intros a Ha. destruct (in_second xs (map snd v ++ [rhs]) a (eq_sym (forall2_len _ _ _ F)) Ha) as (xi & H).
           assert (H' : In (a, xi) (combine (map snd v ++ [rhs]) xs)).
           { apply in_swap. exact H. }
           destruct (forall2_in _ _ _ _ _ F H') as (_ & Cl).
           assert (xi = 0%Z) by (apply (proj1 (Forall_forall _ _) FS); apply in_combine_l in H; exact H). subst xi.
           change (inject_Z 0) with 0 in Cl.
           assert (Lq : 1 <= inject_Z l) by (change 1 with (inject_Z 1); rewrite <- Zle_Qle; lia).
           assert (M : Qabs a * 1 <= Qabs a * inject_Z l) by (rewrite !(Qmult_comm (Qabs a)); apply Qmult_le_compat_r; [exact Lq|apply Qabs_nonneg]).
           apply Qabs_Qle_condition in Cl. lra. }
    left. destruct FS as (Zp & pre & Epre & Zpre). destruct rest as [|z' rest].
    - subst xs. pose proof F as F'. apply Forall2_app_inv_l in F'. destruct F' as (xv & xr & F1 & F2 & Ex).
      inversion F2 as [|? xb ? ? CB F3]; subst. inversion F3; subst. apply app_inj_tail in Ex. destruct Ex as (-> & ->). rename xv into pre. rename xb into z.
      unfold gcd_all. rewrite FZ. 
      assert (G : exists g, computeGcd z stale = Done g /\ (g <> 0)%Z /\ (Z.abs g | z)%Z).
      { unfold computeGcd. cbv zeta. destruct (Z.eqb_spec (Z.min z stale) 0) as [E0|E0].
        - destruct (Z.eqb_spec (Z.max z stale) 0) as [E1|E1]; [lia|]. exists (Z.max z stale). conjs; [reflexivity|exact E1|].
          assert (stale = 0%Z) by lia. subst. rewrite Z.max_l by lia. rewrite Z.abs_eq by lia. apply Z.divide_refl.
        - eexists. split; [reflexivity|].
          assert (EG : forall fuel a b, (Z.abs_nat a < fuel)%nat -> Z.abs (euclid fuel a b) = Z.gcd a b).
          { clear. induction fuel as [|f IH]; intros a b L; [lia|]. cbn [euclid]. destruct (Z.eqb_spec a 0) as [->|N].
            - symmetry. apply Z.gcd_0_l.
            - rewrite IH; [apply Z.gcd_rem; exact N|]. pose proof (Z.rem_bound_abs b a N). lia. }
          set (e := euclid _ _ _). assert (EA : Z.abs e = Z.gcd z stale).
          { unfold e. rewrite EG by lia. destruct (Z.le_ge_cases z stale); [rewrite Z.min_l, Z.max_r by lia; reflexivity|].
            rewrite Z.min_r, Z.max_l by lia. apply Z.gcd_comm. }
          split; [|rewrite EA; apply Z.gcd_divide_l]. intro Q0. rewrite Q0 in EA. cbn in EA. symmetry in EA. apply Z.gcd_eq_0_l in EA. lia. }
      destruct G as (g & -> & G1 & G2). cbn [bind ofold].
      rewrite (ratio_one l g (map snd v) pre rhs z); auto; [eauto|exact (forall2_len _ _ _ F1)].
    - destruct GS as (g & Eg & Gp & Gd). rewrite Eg. cbn [bind].
      rewrite (ratio_always l g _ xs); auto; [eauto|lia|]. exists z. split; [|exact Zp]. rewrite Epre. apply in_or_app. right. left. reflexivity.
  Qed.

  Lemma above_grid D q : integral (inject_Z D * q) -> integral (inject_Z D * above_integer q).
  Proof.
    intro H. unfold above_integer. destruct (_ <? _); [exists 0%Z; change (inject_Z 0) with 0; ring|].
    apply integral_eq with (inject_Z D * q - inject_Z D * qfloor q); [ring|].
    apply integral_minus; [exact H|]. apply integral_mult; apply integral_inject.
  Qed.
  (** it does not overflow on numbers with a common denominator up to 10^13 *)
  Lemma rationalize_grid D (v : vec) rhs : (1 <= D <= 10 ^ 13)%Z ->
    (forall a, In a (map snd v ++ [rhs]) -> integral (inject_Z D * a)) ->
    ~ (exists a, In a (map snd v ++ [rhs]) /\ nearestRational (above_integer (Qabs a)) = Undef IntOverflow).
  Proof.
    intros LD H (a & Ha & E).
    assert (Ia : integral (inject_Z D * Qabs a)).
    { pose proof (H a Ha) as K. destruct (Qlt_le_dec a 0).
      - apply integral_eq with (- (inject_Z D * a)); [rewrite (Qabs_neg a) by lra; ring|]. apply integral_opp. exact K.
      - apply integral_eq with (inject_Z D * a); [rewrite (Qabs_pos a) by lra; reflexivity|]. exact K. }
    destruct (above_integer_range (Qabs a) (Qabs_nonneg a)) as (A0 & A1).
    destruct (nearestRational_exact D (above_integer (Qabs a)) LD (above_grid D _ Ia) A0 A1) as (o & Eo & _). congruence.
  Qed.
End Rational.
