(** * Lemmas on the scaling of rows *)
From Verif Require Import Model_CleanRows.
From Coq Require Import Lqa.
Local Open Scope Q_scope.

Definition within (lo hi : option Q) (q : Q) : Prop := ge_opt_lo q lo /\ le_opt_hi q hi.
Lemma within_eq rl ru y z : y == z -> within rl ru y -> within rl ru z.
Proof. intros E [A B]. split; [destruct rl|destruct ru]; cbn in *; try exact I; lra. Qed.
Lemma mul_le_pos q a b : 0 < q -> (a * q <= b * q <-> a <= b).
Proof. intro P. apply Qmult_le_r. exact P. Qed.
(** Sides of a row times a number *)
Lemma scaled_sides_ok q lo hi y : ~ q == 0 ->
  (within (fst (scaled_sides q lo hi)) (snd (scaled_sides q lo hi)) (q * y) <-> within lo hi y).
Proof.
  intro N. unfold scaled_sides. destruct (Qeq_bool q 1) eqn:E1.
  { apply Qeq_bool_iff in E1. cbn [fst snd]. split; apply within_eq; rewrite E1; ring. }
  destruct (q <? 0) eqn:S; qb; cbn [fst snd].
  - assert (A : Qabs q == - q) by (apply Qabs_neg; lra). assert (P : 0 < - q) by lra.
    assert (K : forall b, - b * Qabs q <= q * y <-> y <= b).
    { intro b. rewrite <- (mul_le_pos (- q) y b P). rewrite A. split; intro H; lra. }
    assert (K2 : forall b, q * y <= - b * Qabs q <-> b <= y).
    { intro b. rewrite <- (mul_le_pos (- q) b y P). rewrite A. split; intro H; lra. }
    split; intros [H1 H2]; split.
    + destruct lo as [b|]; [|exact I]. cbn in *. now apply K2.
    + destruct hi as [b|]; [|exact I]. cbn in *. now apply K.
    + destruct hi as [b|]; [|exact I]. cbn in *. now apply K.
    + destruct lo as [b|]; [|exact I]. cbn in *. now apply K2.
  - assert (A : Qabs q == q) by (apply Qabs_pos; lra). assert (P : 0 < q) by lra.
    assert (K : forall b, b * Qabs q <= q * y <-> b <= y).
    { intro b. rewrite <- (mul_le_pos q b y P). rewrite A. split; intro H; lra. }
    assert (K2 : forall b, q * y <= b * Qabs q <-> y <= b).
    { intro b. rewrite <- (mul_le_pos q y b P). rewrite A. split; intro H; lra. }
    split; intros [H1 H2]; split; (destruct lo as [b|] || idtac); (destruct hi as [c|] || idtac); cbn in *;
      try exact I; try (now apply K); try (now apply K2).
Qed.

(** ** Where a multiplier comes from *)
Definition mult_form (v : vec) (q : Q) : Prop :=
  q == 1 \/ q == -1 \/ integral q \/
  exists t j a w, v = (j, a) :: w /\ integral t /\ q == t / a.
Lemma sign_cases r : sign_of r = 1 \/ sign_of r = -1.
Proof. unfold sign_of. destruct (_ && _); [right|left]; reflexivity. Qed.
Lemma sr_head rat q t b l : scaleRowIntegral rat (q :: t) = Done (b, l) -> b = true -> exists z w, l = z :: w /\ integral z.
Proof.
  unfold scaleRowIntegral. destruct (rat q) as [n d]. destruct (n =? 0)%Z; [intro E; apply Done_inj in E; injection E as <- <-; discriminate|].
  destruct (ofold _ _ _) as [[[g k]|]| | | |]; cbn [bind]; try discriminate; intros E T.
  - destruct (1000 <? _); apply Done_inj in E; [injection E as <- <-; discriminate T|].
    cbn [sr_apply] in E. destruct (ce10 <? _); [injection E as <- <-; discriminate T|].
    destruct (sr_apply _ t) as [b' t']. injection E as <- <-. exists (qfloor (q * Qabs (inject_Z k / inject_Z g) + (1 # 2))), t'. split; [reflexivity|apply integral_inject].
  - apply Done_inj in E. injection E as <- <-. discriminate T.
Qed.
Lemma multiplier_form rat r q copy : r_form r <> [] -> multiplier rat r = Done (q, copy) -> mult_form (r_form r) q.
Proof.
  intros Ne. unfold multiplier. assert (S : mult_form (r_form r) (sign_of r)).
  { destruct (sign_cases r) as [->| ->]; [left|right; left]; reflexivity. }
  destruct (Qeq_bool (smallest (r_form r)) 1); [intro E; apply Done_inj in E; injection E as <- <-; exact S|].
  destruct (r_form r) as [|[j a] w] eqn:F; [now exfalso|]. cbn [map app snd].
  destruct (scaleRowIntegral rat _) as [[b l]| | | |] eqn:R; cbn [bind fst snd]; try discriminate.
  destruct b; intro E; apply Done_inj in E; apply pair_equal_spec in E; destruct E as [E _]; subst q; [|exact S].
  destruct (sr_head _ _ _ _ _ R eq_refl) as (z & t & -> & Iz). cbn [hd].
  destruct (small_error _ _); [|exact S]. unfold snap. destruct (_ <? ce12).
  - right. right. left. apply integral_inject.
  - right. right. right. exists z, j, a, w. split; [reflexivity|]. split; [exact Iz|reflexivity].
Qed.

(** ** Exactness *)
Definition on_grid (D : Z) (a : Q) : Prop := exists n : Z, a * inject_Z D == inject_Z n /\ (Z.abs n <= 1000000000)%Z.
Lemma near_exact (p d z : Z) v : (0 < Z.abs d <= 1000000000)%Z -> v * inject_Z d == inject_Z p ->
  Qabs (v - inject_Z z) < ce9 -> v == inject_Z z.
Proof.
  intros D E H. assert (K : (p = z * d)%Z).
  { assert (A : Qabs (inject_Z (p - z * d)) < 1).
    { assert (B : inject_Z (p - z * d) == (v - inject_Z z) * inject_Z d).
      { unfold Z.sub. rewrite inject_Z_plus, inject_Z_opp, inject_Z_mult, <- E. ring. }
      rewrite B, Qabs_Qmult. assert (L : Qabs (inject_Z d) <= 1000000000).
      { change (inject_Z (Z.abs d) <= inject_Z 1000000000). rewrite <- Zle_Qle. lia. }
      assert (L0 : 0 < Qabs (inject_Z d)). { change (inject_Z 0 < inject_Z (Z.abs d)). rewrite <- Zlt_Qlt. lia. }
      assert (G : 0 < (ce9 - Qabs (v - inject_Z z)) * Qabs (inject_Z d)) by (apply Qmult_lt_0_compat; lra).
      unfold ce9 in G. lra. }
    change (inject_Z (Z.abs (p - z * d)) < inject_Z 1) in A. rewrite <- Zlt_Qlt in A. lia. }
  subst p. rewrite inject_Z_mult in E. assert (N : ~ inject_Z d == 0).
  { intro C. change (inject_Z d == inject_Z 0) in C. apply (proj1 (inject_Z_injective _ _)) in C. lia. }
  apply Qmult_inj_r with (z := inject_Z d); assumption.
Qed.
Lemma grid_nonzero D a : on_grid D a -> (0 < D)%Z -> ~ a == 0 -> exists n, (0 < Z.abs n <= 1000000000)%Z /\
  forall v t b m, integral t -> v == t / a * b -> b * inject_Z D == inject_Z m -> exists p, v * inject_Z n == inject_Z p.
Proof.
  intros (n & En & Ln) Dp Na. exists n.
  assert (Nn : n <> 0%Z).
  { intros ->. apply Na. assert (ND : ~ inject_Z D == 0).
    { intro C. change (inject_Z D == inject_Z 0) in C. apply (proj1 (inject_Z_injective _ _)) in C. lia. }
    change (inject_Z 0) with 0 in En. apply Qmult_integral in En. destruct En as [En|En]; [exact En|now exfalso]. }
  split; [lia|]. intros v t b m (tz & Et) Ev Em. exists (tz * m)%Z.
  rewrite Ev, <- En, inject_Z_mult, <- Em, Et. field. exact Na.
Qed.
Lemma column_elem_ok v q D j a b : mult_form v q -> (0 < D <= 1000000000)%Z -> (forall k c, In (k, c) v -> on_grid D c) ->
  In (j, a) v -> column_elem true q a = Done b -> b == q * a /\ ~ q == 0.
Proof.
  intros F Dp G I E. unfold column_elem in E. destruct (Qeq_bool (Qabs q) 1) eqn:A; cbn [negb] in E.
  - apply Qeq_bool_iff in A. destruct (Qeq_bool q (-1)) eqn:M; apply Done_inj in E; subst b.
    + apply Qeq_bool_iff in M. rewrite M. split; [ring|lra].
    + apply Qeq_bool_neq in M. assert (q == 1).
      { revert A. apply Qabs_case; intros; lra. }
      rewrite H. split; [ring|lra].
  - cbn [andb] in E. destruct (ce9 <=? _) eqn:B1; [discriminate E|]. destruct (Qabs _ <=? _) eqn:B2; [discriminate E|].
    apply Done_inj in E. qb. unfold qfloor in *. set (z := Qfloor (a * q + (1 # 100))) in *.
    assert (Nq : ~ q == 0).
    { intro Z0. assert (z = 0%Z). { unfold z. assert (Ez : a * q + (1 # 100) == 1 # 100) by (rewrite Z0; ring). rewrite (Qfloor_comp _ _ Ez). reflexivity. }
      rewrite H in B2. vm_compute in B2. discriminate B2. }
    split; [|exact Nq]. subst b. symmetry. rewrite Qmult_comm. destruct (G j a I) as (n & En & Ln).
    destruct F as [F|[F|[F|F]]].
    + exfalso. apply A. rewrite F. reflexivity.
    + exfalso. apply A. rewrite F. reflexivity.
    + destruct F as (y & Ey). apply (near_exact (y * n) D); [lia| |exact B1].
      rewrite inject_Z_mult, <- En, Ey. ring.
    + destruct F as (t & j0 & a0 & w & Ev & It & Eq). assert (Na : ~ a0 == 0).
      { intro Z0. apply Nq. rewrite Eq. rewrite Z0. unfold Qdiv. change (/ 0) with 0. ring. }
      destruct (grid_nonzero D a0 (G j0 a0 ltac:(rewrite Ev; now left)) ltac:(lia) Na) as (n0 & Ln0 & K).
      destruct (K (a * q) t a n It) as (p & Ep); [rewrite Eq; ring|exact En|]. now apply (near_exact p n0).
Qed.
Lemma column_elem_close q a b : column_elem true q a = Done b -> Qabs (b - q * a) < ce9 /\ ~ q == 0.
Proof.
  intros E. unfold column_elem in E. destruct (Qeq_bool (Qabs q) 1) eqn:A; cbn [negb] in E.
  - apply Qeq_bool_iff in A. destruct (Qeq_bool q (-1)) eqn:M; apply Done_inj in E; subst b.
    + apply Qeq_bool_iff in M. split; [|lra]. rewrite (Qabs_wd _ 0) by (rewrite M; ring). reflexivity.
    + apply Qeq_bool_neq in M. assert (q == 1) by (revert A; apply Qabs_case; intros; lra).
      split; [|lra]. rewrite (Qabs_wd _ 0) by (rewrite H; ring). reflexivity.
  - cbn [andb] in E. destruct (ce9 <=? _) eqn:B1; [discriminate E|]. destruct (Qabs _ <=? _) eqn:B2; [discriminate E|].
    apply Done_inj in E. qb. unfold qfloor in *. set (z := Qfloor (a * q + (1 # 100))) in *. subst b. split.
    + rewrite (Qabs_wd _ (- (a * q - inject_Z z))) by ring. rewrite Qabs_opp. exact B1.
    + intro Z0. assert (z = 0%Z). { unfold z. assert (Ez : a * q + (1 # 100) == 1 # 100) by (rewrite Z0; ring). rewrite (Qfloor_comp _ _ Ez). reflexivity. }
      rewrite H in B2. vm_compute in B2. discriminate B2.
Qed.
Lemma omap_inv {A B} (f : A -> outcome B) l : forall bs, omap f l = Done bs -> Forall2 (fun a b => f a = Done b) l bs.
Proof.
  induction l as [|a l IH]; intros bs E; cbn [omap] in E; [apply Done_inj in E; subst; constructor|].
  destruct (f a) as [b| | | |] eqn:Fa; cbn [bind] in E; try discriminate E.
  destruct (omap f l) as [cs| | | |]; cbn [bind] in E; try discriminate E. apply Done_inj in E. subst bs. constructor; [exact Fa|now apply IH].
Qed.
(** A row that comes out *)
Lemma clean_row_inv rat debug r r' copy : clean_row rat debug r = Done (r', copy) ->
  (r_form r = [] /\ r' = r) \/
  (r_form r <> [] /\ exists q, mult_form (r_form r) q /\
     Forall2 (fun e e' => fst e' = fst e /\ column_elem debug q (snd e) = Done (snd e')) (r_form r) (r_form r') /\
     r_lo r' = fst (scaled_sides q (r_lo r) (r_hi r)) /\ r_hi r' = snd (scaled_sides q (r_lo r) (r_hi r))).
Proof.
  unfold clean_row. destruct (r_form r) as [|e v] eqn:F; [intro E; apply Done_inj in E; injection E as <- _; left; now split|].
  assert (Ne : r_form r <> []) by (rewrite F; discriminate). rewrite <- F in *. clear F e v.
  destruct (multiplier rat r) as [[q cp]| | | |] eqn:Mq; cbn [bind]; try discriminate.
  destruct (omap _ (r_form r)) as [v| | | |] eqn:O; cbn [bind]; try discriminate.
  destruct (scaled_sides q (r_lo r) (r_hi r)) as [lo hi] eqn:S. intro E. apply Done_inj in E. injection E as <- _.
  right. split; [exact Ne|]. exists q. split; [now apply (multiplier_form rat r q cp)|]. cbn [r_form r_lo r_hi]. rewrite S.
  split; [|now split]. apply omap_inv in O. clear - O. induction O as [|e e' l l' H O IH]; constructor; [|exact IH].
  destruct (column_elem debug q (snd e)) as [b| | | |]; cbn [bind] in H; try discriminate H. apply Done_inj in H. subst e'. now split.
Qed.
Lemma value_scaled q (v v' : vec) x : Forall2 (fun e e' => fst e' = fst e /\ snd e' == q * snd e) v v' -> value v' x == q * value v x.
Proof.
  induction 1 as [|[j a] [k b] l l' [H1 H2] F IH]; cbn [value]; [ring|]. cbn [fst snd] in *. subst k. rewrite IH, H2. ring.
Qed.
