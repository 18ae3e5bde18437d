(** * The reduction of the tableau rows in CglRedSplit: proofs *)

From Coq Require Import Qabs.
From Verif Require Import Base Model_RedSplit.
Local Open Scope Q_scope.

(** ** Products of rows *)
Lemma dot_comm u : forall v, dot u v == dot v u.
Proof. induction u as [|a u IH]; intros [|b v]; cbn [dot]; try reflexivity. rewrite IH. ring. Qed.
Lemma dot_nonneg u : 0 <= dot u u.
Proof. induction u as [|a u IH]; cbn [dot]; [lra|]. assert (0 <= a * a) by nra. lra. Qed.
Lemma dot_zero u : forall v, dot u u == 0 -> dot u v == 0.
Proof.
  induction u as [|a u IH]; intros [|b v] E; cbn [dot] in *; try reflexivity.
  pose proof (dot_nonneg u). assert (0 <= a * a) by nra.
  assert (A : a * a == 0) by lra. assert (dot u u == 0) by lra.
  assert (a == 0) by (apply Qmult_integral in A; destruct A; assumption). rewrite IH by assumption. rewrite H2. ring.
Qed.
Lemma sub_row_len u z : forall v, length (sub_row u z v) = length u.
Proof. induction u as [|a u IH]; intros [|b v]; cbn [sub_row length]; auto. Qed.
Lemma sub_row_dot u z w : forall v, length u = length v -> dot (sub_row u z v) w == dot u w - inject_Z z * dot v w.
Proof.
  revert w. induction u as [|a u IH]; intros w [|b v] L; try discriminate L; destruct w as [|d w]; cbn [sub_row dot]; try ring.
  cbn in L. rewrite IH by lia. ring.
Qed.
Lemma sub_row_norm u z v : length u = length v ->
  dot (sub_row u z v) (sub_row u z v) == dot u u + inject_Z z * inject_Z z * dot v v - 2 * dot u v * inject_Z z.
Proof.
  intro L. rewrite sub_row_dot by exact L. rewrite (dot_comm u), (dot_comm v), !sub_row_dot by exact L.
  rewrite (dot_comm v u). ring.
Qed.
Lemma sub_row_nth u z k : forall v, length u = length v ->
  nth k (sub_row u z v) 0 == nth k u 0 - inject_Z z * nth k v 0.
Proof.
  revert k. induction u as [|a u IH]; intros k [|b v] L; try discriminate L.
  - cbn [sub_row]. destruct k; cbn [nth]; ring.
  - destruct k; cbn [sub_row nth]; [reflexivity|]. cbn in L. apply IH. lia.
Qed.
Lemma zdot_sub_pi u z w : forall v u', length u = length v -> sub_pi u z v = Done u' ->
  length u' = length u /\ zdot u' w == zdot u w - inject_Z z * zdot v w.
Proof.
  revert w. induction u as [|a u IH]; intros w [|b v] u' L E; try discriminate L; cbn [sub_pi] in E.
  - apply Done_inj in E. subst. split; [reflexivity|]. unfold zdot. cbn [map dot]. ring.
  - destruct (_ && _); [|discriminate]. apply bind_done in E. destruct E as (w' & E1 & E2). apply Done_inj in E2. subst u'.
    cbn in L. destruct w as [|d w].
    + destruct (IH [] v w' ltac:(lia) E1) as (E3 & _). split; [cbn; lia|]. unfold zdot. cbn [map dot]. ring.
    + destruct (IH w v w' ltac:(lia) E1) as (E3 & E4). split; [cbn; lia|]. unfold zdot in *. cbn [map dot]. rewrite E4.
      unfold Z.sub. rewrite inject_Z_plus, inject_Z_opp, inject_Z_mult. ring.
Qed.
Lemma sub_pi_fuel u z : forall v, sub_pi u z v <> OutOfFuel.
Proof.
  induction u as [|a u IH]; intros [|b v]; cbn [sub_pi]; try discriminate.
  destruct (_ && _); [|discriminate]. specialize (IH v). destruct (sub_pi u z v); cbn; congruence.
Qed.

(** ** The best step *)
(** No multiple of [v] taken from [u] shortens it by the fraction [d]. *)
Definition irreducible (d : Q) (u v : list Q) : Prop :=
  dot u u == 0 \/ forall z : Z, (1 - d) * dot u u < dot (sub_row u z v) (sub_row u z v).

Lemma step_best n1 n2 b (z : Z) : 0 < n2 ->
  let f := Qfloor (b / n2) in
  let val (z : Z) := n1 + inject_Z z * inject_Z z * n2 - 2 * b * inject_Z z in
  val (if val f <=? val (f + 1)%Z then f else (f + 1)%Z) <= val z.
Proof.
  intros P f val.
  assert (F1 : inject_Z f * n2 <= b).
  { pose proof (Qfloor_le (b / n2)) as G. fold f in G.
    assert (b / n2 * n2 == b) by (field; lra). nra. }
  assert (F2 : b < inject_Z (f + 1) * n2).
  { pose proof (Qlt_floor (b / n2)) as G. fold f in G. assert (b / n2 * n2 == b) by (field; lra). nra. }
  assert (G : forall a : Z, (z <= a)%Z -> inject_Z a * n2 <= b -> val a <= val z).
  { intros a L H. assert (L' : inject_Z z <= inject_Z a) by (rewrite <- Zle_Qle; exact L). unfold val.
    assert (0 <= (inject_Z a - inject_Z z) * (2 * b - n2 * (inject_Z z + inject_Z a))).
    { apply Qmult_le_0_compat; [lra|]. nra. }
    lra. }
  assert (G2 : forall a : Z, (a <= z)%Z -> b <= inject_Z a * n2 -> val a <= val z).
  { intros a L H. assert (L' : inject_Z a <= inject_Z z) by (rewrite <- Zle_Qle; exact L). unfold val.
    assert (0 <= (inject_Z z - inject_Z a) * (n2 * (inject_Z z + inject_Z a) - 2 * b)).
    { apply Qmult_le_0_compat; [lra|]. nra. }
    lra. }
  destruct (Z.le_gt_cases z f) as [L|L].
  - specialize (G f L F1). destruct (val f <=? val (f + 1)%Z) eqn:E; qb; lra.
  - specialize (G2 (f + 1)%Z ltac:(lia) ltac:(lra)). destruct (val f <=? val (f + 1)%Z) eqn:E; qb; lra.
Qed.

Lemma upd_same {A} (f : nat -> A) j a : upd f j a j = a.
Proof. unfold upd. rewrite Nat.eqb_refl. reflexivity. Qed.
Lemma upd_other {A} (f : nat -> A) j a k : k <> j -> upd f j a k = f k.
Proof. intro N. unfold upd. apply Nat.eqb_neq in N. rewrite N. reflexivity. Qed.

(** ** The loop *)
Section Loop.
  Variables nz d : Q.
  Variable m n : nat.
  Variable T0 : nat -> list Q.
  Hypothesis NZ : 0 < nz.
  Hypothesis D : 0 < d.

  Fixpoint qsum (k : nat) (f : nat -> Q) : Q := match k with O => 0 | S k' => qsum k' f + f k' end.
  Lemma qsum_ext k f g : (forall i, (i < k)%nat -> f i == g i) -> qsum k f == qsum k g.
  Proof. induction k; intro H; cbn [qsum]; [reflexivity|]. rewrite IHk, (H k); auto; reflexivity. Qed.
  Lemma qsum_upd k f j a : (j < k)%nat -> qsum k (upd f j a) == qsum k f + a - f j.
  Proof.
    induction k as [|k IH]; intro L; [lia|]. cbn [qsum]. destruct (Nat.eq_dec j k) as [->|N].
    - rewrite upd_same. rewrite (qsum_ext k (upd f k a) f); [ring|]. intros i Hi. rewrite upd_other by lia. reflexivity.
    - rewrite upd_other by lia. rewrite IH by lia. ring.
  Qed.
  Lemma qsum_nonneg k f : (forall i, (i < k)%nat -> 0 <= f i) -> 0 <= qsum k f.
  Proof. induction k; intro H; cbn [qsum]; [lra|]. specialize (IHk ltac:(auto)). specialize (H k ltac:(lia)). lra. Qed.

  (** column k of the given rows *)
  Definition col0 (k : nat) : list Q := map (fun j => nth k (T0 j) 0) (seq 0 m).

  (** the integer combinations of rows *)
  Definition lattice (T : nat -> list Q) (u : list Q) : Prop :=
    exists f : nat -> Z, forall k, nth k u 0 == qsum m (fun j => inject_Z (f j) * nth k (T j) 0).
  Lemma lattice_step T a b z u : (a < m)%nat -> (b < m)%nat -> a <> b -> length (T a) = length (T b) ->
    lattice T u <-> lattice (upd T a (sub_row (T a) z (T b))) u.
  Proof.
    intros La Lb N L.
    assert (G : forall (f : nat -> Z) k,
      qsum m (fun j => inject_Z (f j) * nth k (upd T a (sub_row (T a) z (T b)) j) 0) ==
      qsum m (fun j => inject_Z (upd f b (f b - z * f a)%Z j) * nth k (T j) 0)).
    { intros f k.
      rewrite (qsum_ext m _ (upd (fun j => inject_Z (f j) * nth k (T j) 0) a (inject_Z (f a) * nth k (sub_row (T a) z (T b)) 0))).
      2:{ intros i _. unfold upd. destruct (Nat.eqb_spec i a) as [->|]; reflexivity. }
      rewrite (qsum_ext m (fun j => inject_Z (upd f b (f b - z * f a)%Z j) * nth k (T j) 0)
        (upd (fun j => inject_Z (f j) * nth k (T j) 0) b (inject_Z (f b - z * f a) * nth k (T b) 0))).
      2:{ intros i _. unfold upd. destruct (Nat.eqb_spec i b) as [->|]; reflexivity. }
      rewrite !qsum_upd by assumption. rewrite sub_row_nth by exact L.
      unfold Z.sub. rewrite inject_Z_plus, inject_Z_opp, inject_Z_mult. ring. }
    split; intros (f & H).
    - exists (upd f b (f b + z * f a)%Z). intro k. rewrite G, H. apply qsum_ext. intros j _.
      destruct (Nat.eq_dec j b) as [->|Nj]; [|rewrite !upd_other by assumption; reflexivity].
      rewrite !upd_same, (upd_other f b _ a) by assumption. replace (f b + z * f a - z * f a)%Z with (f b) by lia. reflexivity.
    - exists (upd f b (f b - z * f a)%Z). intro k. rewrite <- G. apply H.
  Qed.

  Record inv (s : rst) : Prop := {
    i_lat : forall u, lattice T0 u <-> lattice (s_T s) u;
    i_len : forall r, (r < m)%nat -> length (s_T s r) = n;
    i_pi : forall r, (r < m)%nat -> length (s_pi s r) = m;
    i_norm : forall r, (r < m)%nat -> s_norm s r == dot (s_T s r) (s_T s r);
    i_comb : forall r k, (r < m)%nat -> nth k (s_T s r) 0 == zdot (s_pi s r) (col0 k);
    i_chk : forall a b, (a < m)%nat -> (b < m)%nat -> a <> b ->
      (s_chg s a <= s_chk s a b)%Z -> (s_chg s b <= s_chk s a b)%Z -> irreducible d (s_T s a) (s_T s b)
  }.
  Definition sym (s : rst) : Prop := forall a b, (a < b)%nat -> (b < m)%nat ->
    (s_chg s a <= s_chk s a b)%Z -> (s_chg s b <= s_chk s a b)%Z ->
    (s_chg s a <= s_chk s b a)%Z /\ (s_chg s b <= s_chk s b a)%Z.
  Definition stamps (iter : Z) (s : rst) : Prop :=
    (forall a, (s_chg s a <= iter + 1)%Z) /\ (forall a b, (s_chk s a b <= iter)%Z) /\
    (s_done s = true -> forall a, (s_chg s a <= iter)%Z).

  (** One test: nothing but the stamp changes, or the first row is shortened. *)
  Definition same (s s' : rst) : Prop :=
    s_T s' = s_T s /\ s_pi s' = s_pi s /\ s_norm s' = s_norm s /\ s_chg s' = s_chg s /\ s_done s' = s_done s.
  Lemma test_spec iter s a b s' : inv s -> (a < m)%nat -> (b < m)%nat -> a <> b -> test d iter s a b = Done s' ->
    s_chk s' = upd (s_chk s) a (upd (s_chk s a) b iter) /\
    ((same s s' /\ irreducible d (s_T s a) (s_T s b)) \/
     (s_done s' = false /\ s_chg s' = upd (s_chg s) a (iter + 1)%Z /\
      (exists z w, s_T s' = upd (s_T s) a (sub_row (s_T s a) z (s_T s b)) /\
                   sub_pi (s_pi s a) z (s_pi s b) = Done w /\ s_pi s' = upd (s_pi s) a w) /\
      (exists q, s_norm s' = upd (s_norm s) a q /\ q <= (1 - d) * s_norm s a /\
                 q == dot (s_T s' a) (s_T s' a)) /\ 0 < s_norm s a)).
  Proof.
    intros J La Lb N E. unfold test in E. apply bind_done in E. destruct E as ((b0 & s0) & E1 & E2).
    unfold test_pair in E1. apply bind_done in E1. destruct E1 as ((z & rd) & E0 & E1). cbn [fst snd] in E1.
    unfold find_step in E0. cbv zeta in E0. destruct (Qeq_bool (s_norm s b) 0) eqn:Z2; [discriminate|].
    pose proof (i_norm s J a La) as Na. pose proof (i_norm s J b Lb) as Nb.
    assert (P2 : 0 < s_norm s b).
    { pose proof (dot_nonneg (s_T s b)). apply Qeq_bool_neq in Z2. apply Qnot_le_lt. intro. apply Z2. lra. }
    assert (P1 : 0 <= s_norm s a) by (rewrite Na; apply dot_nonneg).
    assert (Le : length (s_T s a) = length (s_T s b)) by (rewrite !(i_len s J) by assumption; reflexivity).
    pose proof (step_best (s_norm s a) (s_norm s b) (dot (s_T s a) (s_T s b))) as Best. cbv zeta in Best.
    set (z0 := if _ <=? _ then _ else _) in E0, Best.
    destruct (int_range z0); [|discriminate]. apply Done_inj in E0. apply pair_equal_spec in E0. destruct E0 as (<- & <-).
    assert (V : forall y : Z, s_norm s a + inject_Z y * inject_Z y * s_norm s b - 2 * dot (s_T s a) (s_T s b) * inject_Z y ==
                          dot (sub_row (s_T s a) y (s_T s b)) (sub_row (s_T s a) y (s_T s b))).
    { intro y. rewrite sub_row_norm by exact Le. rewrite Na, Nb. reflexivity. }
    destruct (negb (Qeq_bool (s_norm s a) 0) && _) eqn:C.
    - apply bind_done in E1. destruct E1 as (w & W & E1). apply Done_inj in E1. apply pair_equal_spec in E1.
      destruct E1 as (<- & <-). apply Done_inj in E2. subst s'. cbn [s_T s_pi s_norm s_chg s_chk s_done].
      split; [reflexivity|]. right. split; [reflexivity|]. split; [reflexivity|].
      apply andb_true_iff in C. destruct C as (C1 & C2). apply negb_true_iff, Qeq_bool_neq in C1.
      assert (P1' : 0 < s_norm s a) by (apply Qnot_le_lt; intro; apply C1; lra).
      split; [exists z0, w; auto|]. split; [|exact P1']. eexists. split; [reflexivity|].
      rewrite upd_same. split; [|reflexivity]. qb. rewrite <- V.
      set (vz := s_norm s a + inject_Z z0 * inject_Z z0 * s_norm s b - 2 * dot (s_T s a) (s_T s b) * inject_Z z0) in *.
      assert (E : (s_norm s a - vz) / s_norm s a * s_norm s a == s_norm s a - vz) by (field; lra). nra.
    - apply Done_inj in E1. apply pair_equal_spec in E1. destruct E1 as (<- & <-). apply Done_inj in E2. subst s'.
      cbn [s_T s_pi s_norm s_chg s_chk s_done]. split; [reflexivity|]. left. split; [repeat split|].
      apply andb_false_iff in C. destruct C as [C|C].
      + apply negb_false_iff, Qeq_bool_eq in C. left. lra.
      + destruct (Qlt_le_dec 0 (s_norm s a)) as [P|P]; [right|left; lra].
        intro y. specialize (Best y P2). rewrite <- V, <- Na. qb.
        set (vz := s_norm s a + inject_Z z0 * inject_Z z0 * s_norm s b - 2 * dot (s_T s a) (s_T s b) * inject_Z z0) in *.
        assert (E : (s_norm s a - vz) / s_norm s a * s_norm s a == s_norm s a - vz) by (field; lra).
        apply (Qmult_lt_compat_r _ _ _ P) in C. cbv beta in Best. lra.
  Qed.

  Lemma chk_upd (f : nat -> nat -> Z) a b t x y :
    upd f a (upd (f a) b t) x y = if (Nat.eqb x a && Nat.eqb y b)%bool then t else f x y.
  Proof. unfold upd. destruct (Nat.eqb_spec x a) as [->|]; cbn [andb]; [|reflexivity]. destruct (Nat.eqb y b); reflexivity. Qed.

  Definition total (s : rst) : Q := qsum m (s_norm s).

  Lemma test_keeps iter s a b s' : inv s -> stamps iter s -> (a < m)%nat -> (b < m)%nat -> a <> b ->
    test d iter s a b = Done s' ->
    inv s' /\ stamps iter s' /\ (forall x, s_chg s' x = s_chg s x \/ s_chg s' x = (iter + 1)%Z) /\
    (forall x, x <> a -> s_norm s' x = s_norm s x) /\
    ((s_done s' = s_done s /\ s_norm s' = s_norm s) \/
     (s_done s' = false /\ total s' <= total s - d * s_norm s a /\ 0 < s_norm s a)).
  Proof.
    intros J (St1 & St2 & St3) La Lb N E. destruct (test_spec iter s a b s' J La Lb N E) as (Ck & [(Sm & Ir)|H]).
    - destruct Sm as (E1 & E2 & E3 & E4 & E5). conjs.
      + constructor; try rewrite E1; try rewrite E2; try rewrite E3; try (apply J).
        intros x y Lx Ly Nx. rewrite E4, Ck, chk_upd. destruct (Nat.eqb_spec x a) as [->|]; cbn [andb]; [|apply J; assumption].
        destruct (Nat.eqb_spec y b) as [->|]; [intros; exact Ir|apply J; assumption].
      + unfold stamps. rewrite E4, E5, Ck. conjs; [exact St1| |exact St3].
        intros x y. rewrite chk_upd. destruct (_ && _); [lia|apply St2].
      + intro x. rewrite E4. auto.
      + intros x _. rewrite E3. reflexivity.
      + left. auto.
    - destruct H as (Dn & Cg & (z & w & ET & Ew & EP) & (q & EN & Lq & Eq) & Pa). conjs.
      + constructor.
        * intro u. rewrite (i_lat s J u), ET. apply lattice_step; try assumption. rewrite !(i_len s J) by assumption. reflexivity.
        * intros r Lr. rewrite ET. destruct (Nat.eq_dec r a) as [->|Nr]; [rewrite upd_same, sub_row_len|rewrite upd_other by exact Nr]; apply J; assumption.
        * intros r Lr. rewrite EP. destruct (Nat.eq_dec r a) as [->|Nr]; [rewrite upd_same|rewrite upd_other by exact Nr; apply J; assumption].
          destruct (zdot_sub_pi _ _ [] _ _ (eq_trans (i_pi s J a La) (eq_sym (i_pi s J b Lb))) Ew) as (L & _).
          rewrite L. apply J; assumption.
        * intros r Lr. destruct (Nat.eq_dec r a) as [->|Nr]; [rewrite EN, upd_same; exact Eq|].
          rewrite EN, ET, !upd_other by exact Nr. apply J; assumption.
        * intros r k Lr. destruct (Nat.eq_dec r a) as [->|Nr].
          -- rewrite ET, EP, !upd_same.
             rewrite sub_row_nth by (rewrite !(i_len s J) by assumption; reflexivity).
             destruct (zdot_sub_pi _ _ (col0 k) _ _ (eq_trans (i_pi s J a La) (eq_sym (i_pi s J b Lb))) Ew) as (_ & L).
             rewrite L, (i_comb s J a k La), (i_comb s J b k Lb). reflexivity.
          -- rewrite ET, EP, !upd_other by exact Nr. apply J; assumption.
        * intros x y Lx Ly Nx. rewrite Cg, Ck, chk_upd. intros H1 H2.
          assert (B : ((if (Nat.eqb x a && Nat.eqb y b)%bool then iter else s_chk s x y) <= iter)%Z)
            by (destruct (_ && _); [lia|apply St2]).
          destruct (Nat.eq_dec x a) as [->|Nxa]; [rewrite upd_same in H1; lia|].
          destruct (Nat.eq_dec y a) as [->|Nya]; [rewrite upd_same in H2; lia|].
          rewrite upd_other in H1, H2 by assumption. rewrite ET, !upd_other by assumption.
          apply Nat.eqb_neq in Nxa. rewrite Nxa in H1, H2. cbn [andb] in H1, H2. apply J; assumption.
      + unfold stamps. rewrite Cg, Ck, Dn. conjs.
        * intro x. unfold upd. destruct (Nat.eqb x a); [lia|apply St1].
        * intros x y. rewrite chk_upd. destruct (_ && _); [lia|apply St2].
        * discriminate.
      + intro x. rewrite Cg. unfold upd. destruct (Nat.eqb x a); auto.
      + intros x Nx. rewrite EN. apply upd_other. exact Nx.
      + right. split; [exact Dn|]. split; [|exact Pa]. unfold total. rewrite EN, qsum_upd by exact La. lra.
  Qed.

  (** the invariant of an iteration that starts with the total [t0] *)
  Record good (iter : Z) (t0 : Q) (s : rst) : Prop := {
    g_inv : inv s; g_sym : sym s; g_st : stamps iter s;
    g_le : total s <= t0; g_lt : s_done s = false -> total s <= t0 - d * nz
  }.
  Lemma stale_false s r1 r2 i j : stale s r1 r2 i j = false -> (s_chg s i <= s_chk s r1 r2)%Z /\ (s_chg s j <= s_chk s r1 r2)%Z.
  Proof. unfold stale. intro H. apply orb_false_iff in H. destruct H as (H1 & H2). apply Z.ltb_ge in H1, H2. lia. Qed.

  Lemma pair_good iter t0 i s j s' : (i < j)%nat -> (j < m)%nat -> good iter t0 s ->
    nz < s_norm s i \/ s_done s = false -> pair_step nz d iter i s j = Done s' ->
    good iter t0 s' /\ (nz < s_norm s' i \/ s_done s' = false).
  Proof.
    intros Lij Lj G K E. unfold pair_step in E.
    destruct (nz <? s_norm s j) eqn:Nj; [|apply Done_inj in E; subst; auto].
    destruct (stale s i j i j) eqn:S0; [|apply Done_inj in E; subst; auto].
    apply bind_done in E. destruct E as (s1 & E1 & E2). destruct G as [Gi Gs Gt Gl Gd].
    assert (Li : (i < m)%nat) by lia. assert (Nij : i <> j) by lia.
    destruct (test_keeps iter s i j s1 Gi Gt Li Lj Nij E1) as (I1 & T1 & C1 & N1 & R1).
    destruct (test_spec iter s i j s1 Gi Li Lj Nij E1) as (Ck1 & _).
    assert (G1 : total s1 <= t0 /\ (s_done s1 = false -> total s1 <= t0 - d * nz) /\ (nz < s_norm s1 i \/ s_done s1 = false)).
    { destruct R1 as [(D1 & M1)|(D1 & M1 & P1)].
      - unfold total. rewrite M1, D1. conjs; auto.
      - assert (0 < d * s_norm s i) by (apply Qmult_lt_0_compat; assumption). conjs; [lra| |auto].
        intros _. destruct K as [K|K]; [|specialize (Gd K); lra]. assert (d * nz < d * s_norm s i) by (apply Qmult_lt_l; assumption). lra. }
    qb. assert (Nj1 : nz < s_norm s1 j) by (rewrite N1 by lia; exact Nj).
    assert (SymGen : forall s2, (forall x, s_chg s2 x = s_chg s x \/ s_chg s2 x = (iter + 1)%Z) ->
       (forall x y, (x <> i \/ y <> j) -> (x <> j \/ y <> i) -> s_chk s2 x y = s_chk s x y) ->
       ((s_chg s2 i <= s_chk s2 i j)%Z -> (s_chg s2 j <= s_chk s2 i j)%Z ->
        (s_chg s2 i <= s_chk s2 j i)%Z /\ (s_chg s2 j <= s_chk s2 j i)%Z) -> sym s2).
    { clear - Gs Gt Lij. intros s2 C H Hij a b Lab Lb Ha Hb.
      destruct (Nat.eq_dec a i) as [Ea|Na]; [destruct (Nat.eq_dec b j) as [Eb|Nb]; [subst; auto|]|].
      all: assert (F : (a <> i \/ b <> j) /\ (a <> j \/ b <> i) /\ (b <> i \/ a <> j) /\ (b <> j \/ a <> i)) by lia;
        destruct F as (F1 & F2 & F3 & F4); rewrite (H a b F1 F2) in Ha, Hb; rewrite (H b a F3 F4);
        destruct Gt as (_ & Gt & _); pose proof (Gt a b);
        destruct (C a) as [Ca|Ca]; [|lia]; destruct (C b) as [Cb|Cb]; [|lia]; rewrite Ca, Cb in *; apply Gs; assumption. }
    destruct (stale s1 j i i j) eqn:S1.
    - destruct (test_keeps iter s1 j i s' I1 T1 Lj Li ltac:(lia) E2) as (I2 & T2 & C2 & N2 & R2).
      destruct (test_spec iter s1 j i s' I1 Lj Li ltac:(lia) E2) as (Ck2 & _).
      destruct G1 as (G1 & G2 & G3).
      assert (Sy : sym s').
      { apply SymGen.
        - intro x. destruct (C2 x) as [Hx|Hx]; [rewrite Hx; apply C1|auto].
        - intros x y H1 H2. rewrite Ck2, chk_upd, Ck1, chk_upd.
          destruct (Nat.eqb_spec x j), (Nat.eqb_spec y i), (Nat.eqb_spec x i), (Nat.eqb_spec y j); cbn [andb]; try reflexivity; lia.
        - rewrite Ck2, !chk_upd, Ck1, !chk_upd, !Nat.eqb_refl. cbn [andb].
          apply Nat.eqb_neq in Nij. rewrite Nij. cbn [andb]. lia. }
      assert (M2 : nz < s_norm s' i \/ s_done s' = false).
      { destruct R2 as [(D2 & M2)|(D2 & _)]; [|auto]. rewrite M2, D2. exact G3. }
      split; [|exact M2]. constructor; try assumption.
      + destruct R2 as [(D2 & M2')|(D2 & M2' & P2)]; [unfold total; rewrite M2'; exact G1|].
        assert (0 < d * s_norm s1 j) by (apply Qmult_lt_0_compat; assumption). lra.
      + destruct R2 as [(D2 & M2')|(D2 & M2' & P2)]; [unfold total; rewrite M2', D2; exact G2|].
        intros _. assert (d * nz < d * s_norm s1 j) by (apply Qmult_lt_l; assumption). lra.
    - apply Done_inj in E2. subst s'. destruct G1 as (G1 & G2 & G3). split; [|exact G3]. constructor; try assumption.
      apply SymGen; [exact C1| |].
      + intros x y H1 _. rewrite Ck1, chk_upd. destruct (Nat.eqb_spec x i), (Nat.eqb_spec y j); cbn [andb]; try reflexivity; lia.
      + intros _ _. apply stale_false. exact S1.
  Qed.

  Lemma row_good iter t0 s i s' : (i < m)%nat -> good iter t0 s -> row_step nz d m iter s i = Done s' -> good iter t0 s'.
  Proof.
    intros Li G E. unfold row_step in E. destruct (nz <? s_norm s i) eqn:Ni; [|apply Done_inj in E; subst; auto].
    qb. assert (H : good iter t0 s' /\ (nz < s_norm s' i \/ s_done s' = false)); [|apply H].
    revert E. apply (ofold_inv (fun s => good iter t0 s /\ (nz < s_norm s i \/ s_done s = false))); [|auto].
    intros s1 j s2 Hj (G1 & K1) E. apply in_seq in Hj. apply (pair_good iter t0 i s1 j s2); auto; lia.
  Qed.
  Lemma iter_good iter t0 s s' : good iter t0 s -> ofold (row_step nz d m iter) (seq 0 m) s = Done s' -> good iter t0 s'.
  Proof.
    intro G. apply (ofold_inv (good iter t0)); [|exact G].
    intros s1 i s2 Hi G1 E. apply in_seq in Hi. apply (row_good iter t0 s1 i); auto; lia.
  Qed.

  (** An iteration that ends with nothing done has changed the stamps only. *)
  Definition calm (s s' : rst) : Prop :=
    same s s' /\ forall x y, (s_chk s x y <= s_chk s' x y)%Z.
  Lemma calm_refl s : calm s s.
  Proof. split; [repeat split|]. intros; lia. Qed.
  Lemma calm_trans a b c : calm a b -> calm b c -> calm a c.
  Proof.
    intros ((A1 & A2 & A3 & A4 & A5) & A6) ((B1 & B2 & B3 & B4 & B5) & B6).
    split; [repeat split; congruence|]. intros x y. specialize (A6 x y). specialize (B6 x y). lia.
  Qed.
  Definition fresh (s : rst) (i j : nat) : Prop := (s_chg s i <= s_chk s i j)%Z /\ (s_chg s j <= s_chk s i j)%Z.
  Lemma fresh_calm s s' i j : calm s s' -> fresh s i j -> fresh s' i j.
  Proof. intros ((_ & _ & _ & A4 & _) & A6) (F1 & F2). unfold fresh. rewrite A4. specialize (A6 i j). lia. Qed.

  Lemma test_quiet iter s a b s' : inv s -> stamps iter s -> (a < m)%nat -> (b < m)%nat -> a <> b ->
    test d iter s a b = Done s' -> s_done s' = true -> calm s s' /\ fresh s' a b.
  Proof.
    intros J St La Lb N E Dn. destruct (test_keeps iter s a b s' J St La Lb N E) as (_ & (_ & _ & St') & _).
    destruct (test_spec iter s a b s' J La Lb N E) as (Ck & [(Sm & _)|(Dn' & _)]); [|congruence].
    specialize (St' Dn). destruct St as (_ & St2 & _). split; [split; [exact Sm|]|].
    - intros x y. rewrite Ck, chk_upd. destruct (_ && _); [apply St2|lia].
    - unfold fresh. rewrite Ck, chk_upd, !Nat.eqb_refl. cbn [andb]. auto.
  Qed.
  Lemma pair_quiet iter t0 i s j s' : (i < j)%nat -> (j < m)%nat -> good iter t0 s ->
    pair_step nz d iter i s j = Done s' -> s_done s' = true -> calm s s' /\ (nz < s_norm s j -> fresh s' i j).
  Proof.
    intros Lij Lj G E Dn. unfold pair_step in E.
    destruct (nz <? s_norm s j) eqn:Nj; qb; [|apply Done_inj in E; subst; split; [apply calm_refl|intro; lra]].
    destruct (stale s i j i j) eqn:S0.
    2:{ apply Done_inj in E; subst. split; [apply calm_refl|]. intros _. apply stale_false in S0. exact S0. }
    apply bind_done in E. destruct E as (s1 & E1 & E2). destruct G as [Gi Gs Gt Gl Gd].
    destruct (test_keeps iter s i j s1 Gi Gt ltac:(lia) Lj ltac:(lia) E1) as (I1 & T1 & _).
    destruct (stale s1 j i i j) eqn:S1.
    - destruct (test_quiet iter s1 j i s' I1 T1 Lj ltac:(lia) ltac:(lia) E2 Dn) as (Q1 & Q2).
      assert (D1 : s_done s1 = true) by (destruct Q1 as ((_ & _ & _ & _ & Q1) & _); congruence).
      destruct (test_quiet iter s i j s1 Gi Gt ltac:(lia) Lj ltac:(lia) E1 D1) as (Q3 & Q4).
      split; [apply (calm_trans _ s1); assumption|]. intros _. apply (fresh_calm s1); assumption.
    - apply Done_inj in E2. subst s'. destruct (test_quiet iter s i j s1 Gi Gt ltac:(lia) Lj ltac:(lia) E1 Dn) as (Q3 & Q4). auto.
  Qed.

  (** folding steps that keep [P] and, when nothing is done at the end, are calm *)
  Lemma fold_calm {A} (f : rst -> A -> outcome rst) (P : rst -> Prop) (F : rst -> A -> rst -> Prop) l :
    (forall s a s', In a l -> P s -> f s a = Done s' -> P s') ->
    (forall s a s', In a l -> P s -> f s a = Done s' -> s_done s' = true -> calm s s' /\ F s a s') ->
    (forall s0 s s1 a, calm s0 s -> F s a s1 -> F s0 a s1) -> (forall s a s1 s2, F s a s1 -> calm s1 s2 -> F s a s2) ->
    forall s s', P s -> ofold f l s = Done s' -> s_done s' = true -> calm s s' /\ forall a, In a l -> F s a s'.
  Proof.
    intros Keep Calm Fl Fr. induction l as [|a l IH]; intros s s' Ps E Dn; cbn [ofold] in E.
    - apply Done_inj in E. subst. split; [apply calm_refl|intros a []].
    - apply bind_done in E. destruct E as (s1 & E1 & E2).
      destruct (IH (fun s b s' Hb => Keep s b s' (or_intror Hb)) (fun s b s' Hb => Calm s b s' (or_intror Hb)) s1 s'
                  (Keep s a s1 (or_introl eq_refl) Ps E1) E2 Dn) as (C1 & F1).
      assert (D1 : s_done s1 = true) by (destruct C1 as ((_ & _ & _ & _ & C1) & _); congruence).
      destruct (Calm s a s1 (or_introl eq_refl) Ps E1 D1) as (C0 & F0).
      split; [apply (calm_trans _ s1); assumption|]. intros b [<-|Hb]; [apply (Fr _ _ s1); assumption|].
      apply (Fl _ s1); auto.
  Qed.

  Lemma row_quiet iter t0 s i s' : (i < m)%nat -> good iter t0 s -> row_step nz d m iter s i = Done s' -> s_done s' = true ->
    calm s s' /\ forall j, (i < j)%nat -> (j < m)%nat -> nz < s_norm s i -> nz < s_norm s j -> fresh s' i j.
  Proof.
    intros Li G E Dn. unfold row_step in E.
    destruct (nz <? s_norm s i) eqn:Ni; qb; [|apply Done_inj in E; subst; split; [apply calm_refl|intros; lra]].
    destruct (fold_calm (pair_step nz d iter i) (fun s => good iter t0 s /\ (nz < s_norm s i \/ s_done s = false))
       (fun s j s' => nz < s_norm s j -> fresh s' i j) (seq (S i) (m - S i))) with (s := s) (s' := s') as (C & F); auto.
    - intros s1 j s2 Hj (G1 & K1) E1. apply in_seq in Hj. apply (pair_good iter t0 i s1 j s2); auto; lia.
    - intros s1 j s2 Hj (G1 & K1) E1 Dn1. apply in_seq in Hj. apply (pair_quiet iter t0 i s1 j s2); auto; lia.
    - intros s0 s1 s2 j ((_ & _ & C & _) & _) H L. apply H. rewrite C. exact L.
    - intros s0 j s1 s2 H C L. apply (fresh_calm s1); auto.
    - split; [exact C|]. intros j L1 L2 _ L3. apply F; [apply in_seq; lia|exact L3].
  Qed.
  Lemma iter_quiet iter t0 s s' : good iter t0 s -> ofold (row_step nz d m iter) (seq 0 m) s = Done s' -> s_done s' = true ->
    calm s s' /\ forall i j, (i < j)%nat -> (j < m)%nat -> nz < s_norm s i -> nz < s_norm s j -> fresh s' i j.
  Proof.
    intros G E Dn.
    destruct (fold_calm (row_step nz d m iter) (good iter t0)
       (fun s i s' => forall j, (i < j)%nat -> (j < m)%nat -> nz < s_norm s i -> nz < s_norm s j -> fresh s' i j) (seq 0 m))
      with (s := s) (s' := s') as (C & F); auto.
    - intros s1 i s2 Hi G1 E1. apply in_seq in Hi. apply (row_good iter t0 s1 i); auto; lia.
    - intros s1 i s2 Hi G1 E1 Dn1. apply in_seq in Hi. apply (row_quiet iter t0 s1 i s2); auto; lia.
    - intros s0 s1 s2 i ((_ & _ & C & _) & _) H j L1 L2 L3 L4. rewrite <- C in L3, L4. apply H; assumption.
    - intros s0 i s1 s2 H C j L1 L2 L3 L4. apply (fresh_calm s1); auto.
    - split; [exact C|]. intros i j L1 L2 L3 L4. apply F; [apply in_seq; lia| | | |]; assumption.
  Qed.

  (** ** The whole loop *)
  Definition begin (s : rst) : rst := RS (s_T s) (s_pi s) (s_norm s) (s_chg s) (s_chk s) true.
  Record ready (iter : Z) (s : rst) : Prop := {
    y_inv : inv s; y_sym : sym s;
    y_chg : forall a, (s_chg s a <= iter)%Z; y_chk : forall a b, (s_chk s a b <= iter)%Z
  }.
  Lemma begin_good iter s : ready iter s -> good iter (total s) (begin s).
  Proof.
    intros [J Sy Cg Ck]. constructor.
    - destruct J. constructor; assumption.
    - exact Sy.
    - unfold stamps. cbn [begin s_chg s_chk s_done]. conjs; auto. intro a. specialize (Cg a). lia.
    - apply Qle_refl.
    - discriminate.
  Qed.
  Lemma good_ready iter t0 s : good iter t0 s -> ready (iter + 1) s.
  Proof.
    intros [J Sy (S1 & S2 & _) _ _]. constructor; auto. intros a b. specialize (S2 a b). lia.
  Qed.
  Definition reduced (s : rst) : Prop := forall i j, (i < m)%nat -> (j < m)%nat -> i <> j ->
    nz < dot (s_T s i) (s_T s i) -> nz < dot (s_T s j) (s_T s j) -> irreducible d (s_T s i) (s_T s j).

  Lemma loop_ok fuel : forall iter s s', ready iter s -> reduce_loop nz d fuel m iter s = Done s' -> inv s' /\ reduced s'.
  Proof.
    induction fuel as [|fuel IH]; intros iter s s' R E; [discriminate|]. cbn [reduce_loop] in E.
    apply bind_done in E. destruct E as (s1 & E1 & E2). change (RS _ _ _ _ _ true) with (begin s) in E1.
    pose proof (begin_good iter s R) as B. pose proof (iter_good iter (total s) _ _ B E1) as G1.
    destruct (s_done s1) eqn:Dn.
    - apply Done_inj in E2. subst s'. split; [apply G1|].
      destruct (iter_quiet iter (total s) _ _ B E1 Dn) as (((_ & _ & C3 & _) & _) & F).
      assert (H : forall i j, (i < j)%nat -> (j < m)%nat -> nz < dot (s_T s1 i) (s_T s1 i) -> nz < dot (s_T s1 j) (s_T s1 j) ->
         irreducible d (s_T s1 i) (s_T s1 j) /\ irreducible d (s_T s1 j) (s_T s1 i)).
      { intros i j L1 L2 L3 L4. assert (N1 := i_norm s1 (g_inv _ _ _ G1) i ltac:(lia)). assert (N2 := i_norm s1 (g_inv _ _ _ G1) j ltac:(lia)).
        destruct (F i j L1 L2) as (F1 & F2); [rewrite <- C3; lra|rewrite <- C3; lra|].
        split; [apply (i_chk s1 (g_inv _ _ _ G1)); auto; lia|].
        destruct (g_sym _ _ _ G1 i j L1 L2 F1 F2). apply (i_chk s1 (g_inv _ _ _ G1)); auto; lia. }
      intros i j Li Lj N Hi Hj. destruct (Nat.lt_ge_cases i j).
      + apply (proj1 (H i j ltac:(lia) Lj Hi Hj)).
      + apply (proj2 (H j i ltac:(lia) Li Hj Hi)).
    - apply (IH (iter + 1)%Z s1); [apply (good_ready iter (total s)); exact G1|exact E2].
  Qed.

  Lemma start_ready : (forall r, (r < m)%nat -> length (T0 r) = n) -> ready 0 (start_rst m T0).
  Proof.
    intro L. constructor.
    - constructor; cbn [start_rst s_T s_pi s_norm s_chg s_chk].
      + reflexivity.
      + exact L.
      + intros r _. unfold unit_row. rewrite map_length, seq_length. reflexivity.
      + intros r _. reflexivity.
      + intros r k Lr. unfold unit_row, zdot, col0.
        assert (G : forall l i, dot (map inject_Z (map (fun k0 => if Nat.eqb k0 r then 1%Z else 0%Z) (seq i l)))
                        (map (fun j => nth k (T0 j) 0) (seq i l)) ==
                    if ((i <=? r) && (r <? i + l))%nat then nth k (T0 r) 0 else 0).
        { induction l as [|l IHl]; intro i; cbn [seq map dot].
          - destruct (Nat.leb_spec i r), (Nat.ltb_spec r (i + 0)); cbn [andb]; try reflexivity; lia.
          - rewrite IHl. destruct (Nat.eqb_spec i r) as [->|Nr].
            + destruct (Nat.leb_spec (S r) r), (Nat.ltb_spec r (S r + l)), (Nat.leb_spec r r), (Nat.ltb_spec r (r + S l)); cbn [andb]; try lia;
              change (inject_Z 1) with 1; ring.
            + change (inject_Z 0) with 0.
              destruct (Nat.leb_spec (S i) r), (Nat.ltb_spec r (S i + l)), (Nat.leb_spec i r), (Nat.ltb_spec r (i + S l)); cbn [andb]; try lia; ring. }
        rewrite G. destruct (Nat.leb_spec 0 r), (Nat.ltb_spec r (0 + m)); cbn [andb]; first [lia|reflexivity].
      + intros a b _ _ N H. apply Nat.eqb_neq in N. rewrite N in H. lia.
    - intros a b Lab _ H. cbn [start_rst s_chg s_chk] in H. assert (N : a <> b) by lia. apply Nat.eqb_neq in N. rewrite N in H. lia.
    - intro a. cbn. lia.
    - intros a b. cbn. destruct (Nat.eqb a b); lia.
  Qed.

  (** ** Termination *)
  Lemma test_fuel iter s a b : test d iter s a b <> OutOfFuel.
  Proof.
    unfold test, test_pair, find_step. cbv zeta. destruct (Qeq_bool _ 0); [discriminate|].
    set (z := if _ <=? _ then _ else _). destruct (int_range z); [|discriminate]. cbn [bind fst snd].
    destruct (_ && _); cbn [bind]; [|discriminate].
    pose proof (sub_pi_fuel (s_pi s a) z (s_pi s b)). destruct (sub_pi _ _ _); cbn [bind]; congruence.
  Qed.
  Lemma ofold_fuel {A S} (f : S -> A -> outcome S) l : (forall s a, f s a <> OutOfFuel) -> forall s, ofold f l s <> OutOfFuel.
  Proof.
    intro H. induction l as [|a l IH]; intro s; cbn [ofold]; [discriminate|]. specialize (H s a).
    destruct (f s a); cbn [bind]; try congruence.
  Qed.
  Lemma pair_fuel iter i s j : pair_step nz d iter i s j <> OutOfFuel.
  Proof.
    unfold pair_step. destruct (_ <? _); [|discriminate]. destruct (stale _ _ _ _ _); [|discriminate].
    pose proof (test_fuel iter s i j). destruct (test d iter s i j); cbn [bind]; try congruence.
    destruct (stale _ _ _ _ _); [apply test_fuel|discriminate].
  Qed.
  Lemma row_fuel iter s i : row_step nz d m iter s i <> OutOfFuel.
  Proof. unfold row_step. destruct (_ <? _); [|discriminate]. apply ofold_fuel. intros. apply pair_fuel. Qed.
  Lemma total_nonneg s : inv s -> 0 <= total s.
  Proof. intro J. apply qsum_nonneg. intros i L. rewrite (i_norm s J i L). apply dot_nonneg. Qed.
  Lemma loop_fuel fuel : forall iter s, ready iter s -> total s < inject_Z (Z.of_nat fuel) * (d * nz) ->
    reduce_loop nz d fuel m iter s <> OutOfFuel.
  Proof.
    induction fuel as [|fuel IH]; intros iter s R L.
    - pose proof (total_nonneg s (y_inv _ _ R)). change (inject_Z (Z.of_nat 0)) with 0 in L. lra.
    - cbn [reduce_loop]. change (RS _ _ _ _ _ true) with (begin s).
      pose proof (ofold_fuel (row_step nz d m iter) (seq 0 m) (fun s a => row_fuel iter s a) (begin s)) as F.
      destruct (ofold (row_step nz d m iter) (seq 0 m) (begin s)) as [s1| | | |] eqn:E; cbn [bind]; try congruence.
      pose proof (iter_good iter (total s) _ _ (begin_good iter s R) E) as G. destruct (s_done s1) eqn:Dn; [discriminate|].
      apply IH; [apply (good_ready iter (total s)); exact G|]. pose proof (g_lt _ _ _ G Dn).
      rewrite Nat2Z.inj_succ in L. unfold Z.succ in L. rewrite inject_Z_plus in L. change (inject_Z 1) with 1 in L. lra.
  Qed.
End Loop.
