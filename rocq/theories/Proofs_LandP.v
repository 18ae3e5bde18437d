(** * CglLandP: proofs about the validator and about one cut *)

From Coq Require Import Qabs Permutation.
From Verif Require Import Base Model_LandP.
Local Open Scope Q_scope.

(** ** Sums *)
Fixpoint qsum (k : nat) (f : nat -> Q) : Q := match k with O => 0 | S k' => qsum k' f + f k' end.
Fixpoint lsum (l : list nat) (f : nat -> Q) : Q := match l with [] => 0 | v :: l' => f v + lsum l' f end.
Lemma qsum_ext k f g : (forall i, (i < k)%nat -> f i == g i) -> qsum k f == qsum k g.
Proof. induction k; intro H; cbn [qsum]; [reflexivity|]. rewrite IHk, (H k); auto. reflexivity. Qed.
Lemma qsum_plus k f g : qsum k (fun i => f i + g i) == qsum k f + qsum k g.
Proof. induction k; cbn [qsum]; [ring|]. rewrite IHk. ring. Qed.
Lemma qsum_scale k a f : qsum k (fun i => a * f i) == a * qsum k f.
Proof. induction k; cbn [qsum]; [ring|]. rewrite IHk. ring. Qed.
Lemma qsum_zero k f : (forall i, (i < k)%nat -> f i == 0) -> qsum k f == 0.
Proof. induction k; intro H; cbn [qsum]; [reflexivity|]. rewrite IHk, (H k); auto. reflexivity. Qed.
Lemma qsum_le k f g : (forall i, (i < k)%nat -> f i <= g i) -> qsum k f <= qsum k g.
Proof. induction k; intro H; cbn [qsum]; [lra|]. specialize (IHk ltac:(auto)). specialize (H k ltac:(lia)). lra. Qed.
Lemma qsum_nonneg k f : (forall i, (i < k)%nat -> 0 <= f i) -> 0 <= qsum k f.
Proof. induction k; intro H; cbn [qsum]; [lra|]. specialize (IHk ltac:(auto)). specialize (H k ltac:(lia)). lra. Qed.
Lemma qsum_app n k f : qsum (n + k) f == qsum n f + qsum k (fun i => f (n + i)%nat).
Proof.
  induction k; [rewrite Nat.add_0_r; cbn [qsum]; ring|].
  rewrite Nat.add_succ_r. cbn [qsum]. rewrite IHk. ring.
Qed.
Lemma qsum_swap n k f : qsum n (fun i => qsum k (f i)) == qsum k (fun j => qsum n (fun i => f i j)).
Proof.
  induction n; cbn [qsum]; [symmetry; apply qsum_zero; reflexivity|].
  rewrite IHn, <- qsum_plus. reflexivity.
Qed.
Lemma qsum_one k f j : (j < k)%nat -> qsum k (fun i => if Nat.eqb i j then f i else 0) == f j.
Proof.
  induction k as [|k IH]; intro L; [lia|]. cbn [qsum]. destruct (Nat.eqb_spec k j) as [->|N].
  - rewrite qsum_zero; [ring|]. intros i Hi. destruct (Nat.eqb_spec i j); [lia|reflexivity].
  - rewrite IH by lia. ring.
Qed.
Lemma upd_same {A} (f : nat -> A) j a : upd f j a j = a.
Proof. unfold upd. rewrite Nat.eqb_refl. reflexivity. Qed.
Lemma upd_other {A} (f : nat -> A) j a k : k <> j -> upd f j a k = f k.
Proof. unfold upd. intro H. apply Nat.eqb_neq in H. rewrite H. reflexivity. Qed.
Lemma qsum_upd k f v w (y : nat -> Q) : (v < k)%nat ->
  qsum k (fun j => upd f v w j * y j) == qsum k (fun j => f j * y j) + (w - f v) * y v.
Proof.
  intro L. rewrite <- (qsum_one k (fun j => (w - f v) * y j) v L), <- qsum_plus. apply qsum_ext. intros j _.
  unfold upd. destruct (Nat.eqb_spec j v) as [->|]; ring.
Qed.
Lemma lsum_ext l f g : (forall v, In v l -> f v == g v) -> lsum l f == lsum l g.
Proof.
  induction l as [|v l IH]; intro H; cbn [lsum]; [reflexivity|].
  rewrite IH, (H v (or_introl eq_refl)); [reflexivity|]. intros; apply H; right; assumption.
Qed.
Lemma lsum_plus l f g : lsum l (fun i => f i + g i) == lsum l f + lsum l g.
Proof. induction l as [|v l IH]; cbn [lsum]; [ring|]. rewrite IH. ring. Qed.
Lemma lsum_scale l a f : lsum l (fun i => a * f i) == a * lsum l f.
Proof. induction l as [|v l IH]; cbn [lsum]; [ring|]. rewrite IH. ring. Qed.
Lemma lsum_le l f g : (forall v, In v l -> f v <= g v) -> lsum l f <= lsum l g.
Proof.
  induction l as [|v l IH]; intro H; cbn [lsum]; [lra|].
  specialize (IH ltac:(intros; apply H; right; assumption)). specialize (H v (or_introl eq_refl)). lra.
Qed.
Lemma lsum_integral l f : (forall v, In v l -> integral (f v)) -> integral (lsum l f).
Proof.
  induction l as [|v l IH]; intro H; cbn [lsum]; [apply integral_0|].
  apply integral_plus; [apply H; left; reflexivity|]. apply IH. intros; apply H; right; assumption.
Qed.
(** a sum over the variables reduces to the ones that are in a list *)
Lemma qsum_list k l f : NoDup l -> (forall v, In v l -> (v < k)%nat) -> (forall v, (v < k)%nat -> ~ In v l -> f v == 0) ->
  qsum k f == lsum l f.
Proof.
  intros ND B Z.
  rewrite (qsum_ext k f (fun v => if existsb (Nat.eqb v) l then f v else 0)).
  2:{ intros v L. destruct (existsb (Nat.eqb v) l) eqn:E; [reflexivity|]. apply Z; [exact L|]. intro I.
      assert (existsb (Nat.eqb v) l = true); [|congruence]. apply existsb_exists. exists v. rewrite Nat.eqb_refl. auto. }
  clear Z. induction l as [|w l IH]; cbn [lsum existsb].
  - apply qsum_zero. reflexivity.
  - inversion ND; subst. rewrite <- IH; auto; [|intros; apply B; right; assumption].
    rewrite <- (qsum_one k f w (B w (or_introl eq_refl))), <- qsum_plus. apply qsum_ext. intros v L.
    destruct (Nat.eqb_spec v w) as [->|N]; cbn [orb]; [|ring].
    destruct (existsb (Nat.eqb w) l) eqn:E; [|ring]. apply existsb_exists in E. destruct E as (u & I & Eu).
    apply Nat.eqb_eq in Eu. subst. contradiction.
Qed.
Lemma in_existsb v l : existsb (Nat.eqb v) l = true <-> In v l.
Proof.
  rewrite existsb_exists. split; [intros (u & I & E); apply Nat.eqb_eq in E; subst; exact I|].
  intro I. exists v. rewrite Nat.eqb_refl. auto.
Qed.
Lemma lsum_le_qsum k l f : NoDup l -> (forall v, In v l -> (v < k)%nat) -> (forall v, (v < k)%nat -> 0 <= f v) ->
  lsum l f <= qsum k f.
Proof.
  intros ND B P.
  assert (E : qsum k (fun v => if existsb (Nat.eqb v) l then f v else 0) == lsum l f).
  { rewrite (qsum_list k l _ ND B).
    - apply lsum_ext. intros v I. apply in_existsb in I. rewrite I. reflexivity.
    - intros v _ N. destruct (existsb (Nat.eqb v) l) eqn:E; [apply in_existsb in E; contradiction|reflexivity]. }
  rewrite <- E. apply qsum_le. intros v L. destruct (existsb (Nat.eqb v) l); [lra|apply P; exact L].
Qed.

Lemma coef_cons j e v : coef (e :: v) j = if Nat.eqb (fst e) j then snd e else coef v j.
Proof. unfold coef. cbn [find]. destruct (Nat.eqb (fst e) j); reflexivity. Qed.
Lemma coef_out v j : ~ In j (map fst v) -> coef v j = 0.
Proof.
  induction v as [|e v IH]; intro H; [reflexivity|]. rewrite coef_cons. cbn in H.
  destruct (Nat.eqb_spec (fst e) j); [tauto|]. apply IH. tauto.
Qed.
Lemma value_coef n v (y : point) : NoDup (map fst v) -> (forall j a, In (j, a) v -> (j < n)%nat) ->
  value v y == qsum n (fun j => coef v j * y j).
Proof.
  induction v as [|(k, a) v IH]; intros N B; cbn [value].
  - symmetry. apply qsum_zero. intros. unfold coef. cbn. ring.
  - cbn in N. inversion N; subst. rewrite IH; [|assumption|intros; eapply B; right; eassumption].
    rewrite (qsum_ext n (fun j => coef ((k, a) :: v) j * y j)
               (fun j => (if Nat.eqb j k then a * y j else 0) + coef v j * y j)).
    + rewrite qsum_plus, (qsum_one n (fun j => a * y j) k) by (eapply B; left; reflexivity). reflexivity.
    + intros j _. rewrite coef_cons. cbn [fst snd]. rewrite (Nat.eqb_sym k j).
      destruct (Nat.eqb_spec j k) as [->|]; [rewrite (coef_out v k) by assumption; ring|ring].
Qed.

(** ** The disjunctive argument *)
Lemma icoef_ge a f t : 0 <= f -> f <= 1 -> 0 <= t -> (1 - f) * (a * t) <= icoef a f * t /\ - f * (a * t) <= icoef a f * t.
Proof.
  intros F0 F1 T. unfold icoef. destruct (0 <? a) eqn:E; qb.
  - assert (0 <= a * t) by (apply Qmult_le_0_compat; lra). split; nra.
  - assert (0 <= - a * t) by (apply Qmult_le_0_compat; lra). split; nra.
Qed.
Lemma icoef_bound a f : 0 <= f -> f <= 1 -> 0 <= icoef a f /\ icoef a f <= Qabs a.
Proof.
  intros F0 F1. unfold icoef. destruct (0 <? a) eqn:E; qb.
  - rewrite Qabs_pos by lra. nra.
  - rewrite Qabs_neg by lra. nra.
Qed.
Lemma split_sum l (a t : nat -> Q) f : 0 <= f -> f < 1 -> (forall v, In v l -> 0 <= t v) ->
  integral (lsum l (fun v => a v * t v) - f) -> f * (1 - f) <= lsum l (fun v => icoef (a v) f * t v).
Proof.
  intros F0 F1 T (N & E).
  assert (S1 : (1 - f) * lsum l (fun v => a v * t v) <= lsum l (fun v => icoef (a v) f * t v)).
  { rewrite <- lsum_scale. apply lsum_le. intros v I. apply (icoef_ge (a v) f (t v)); auto; lra. }
  assert (S2 : - f * lsum l (fun v => a v * t v) <= lsum l (fun v => icoef (a v) f * t v)).
  { rewrite <- lsum_scale. apply lsum_le. intros v I. apply (icoef_ge (a v) f (t v)); auto; lra. }
  set (A := lsum l (fun v => a v * t v)) in *.
  destruct (Z_le_gt_dec 0 N) as [H|H].
  - assert (K : 0 <= inject_Z N) by (change 0 with (inject_Z 0); rewrite <- Zle_Qle; exact H). nra.
  - assert (K : inject_Z N <= - (1)) by (change (- (1)) with (inject_Z (-1)); rewrite <- Zle_Qle; lia). nra.
Qed.
(** The coefficient of an integer variable is that of its residue. *)
Definition residue (isint : bool) (a f : Q) : Q := if isint then (if frac a <? f then frac a else frac a - 1) else a.
Lemma residue_int a f isint : integral (a - residue isint a f) /\ (isint = false -> residue isint a f = a).
Proof.
  unfold residue. destruct isint; [|split; [apply (integral_eq 0); [ring|apply integral_0]|reflexivity]]. split; [|discriminate].
  destruct (frac a <? f); unfold frac.
  - apply (integral_eq (qfloor a)); [ring|apply integral_inject].
  - apply (integral_eq (qfloor a + 1)); [ring|]. apply integral_plus; [apply integral_inject|apply integral_1].
Qed.
Lemma frac_shift a b : integral (a - b) -> frac a == frac b.
Proof.
  intros (N & E). unfold frac, qfloor. assert (K : Qfloor a = (Qfloor b + N)%Z).
  { apply Qfloor_unique; rewrite inject_Z_plus.
    - pose proof (Qfloor_le b). lra.
    - pose proof (qfloor_lt b). unfold qfloor in *. lra. }
  rewrite K, inject_Z_plus. lra.
Qed.
Lemma frac_eq a b : a == b -> frac a == frac b.
Proof. intro E. apply frac_shift. apply (integral_eq 0); [rewrite E; ring|apply integral_0]. Qed.
Lemma frac_range a : 0 <= a -> a < 1 -> frac a == a.
Proof. intros H1 H2. unfold frac, qfloor. rewrite (Qfloor_unique a 0); change (inject_Z 0) with 0; lra. Qed.

(** ** The validator *)
Lemma below_q_some o b q : below_q o b = Some q -> o = Some q.
Proof. unfold below_q. destruct o as [r|]; [|discriminate]. destruct (r <? b); congruence. Qed.
Lemma above_q_some o b q : above_q o b = Some q -> o = Some q.
Proof. unfold above_q. destruct o as [r|]; [|discriminate]. destruct (b <? r); congruence. Qed.

Fixpoint labs (v : vec) (y : point) : Q := match v with [] => 0 | e :: v' => Qabs (y (fst e)) + labs v' y end.
Lemma labs_nonneg v y : 0 <= labs v y.
Proof. induction v as [|e v IH]; cbn [labs]; [lra|]. pose proof (Qabs_nonneg (y (fst e))). lra. Qed.

Section Clean.
  Variables (eps ratio : Q) (nb : nat) (lo up : nat -> option Q) (y : point).
  Definition keeps_bounds (v : vec) : Prop :=
    forall j a, In (j, a) v -> (j < nb)%nat -> ge_opt_lo (y j) (lo j) /\ le_opt_hi (y j) (up j).
  (** the cleaned form is at least as high above its right-hand side *)
  Lemma clean_loop_weaker l : forall s s', keeps_bounds l -> clean_loop eps ratio nb lo up l s = Done (VGo s') ->
    value (w_kept s) y + value l y - w_rhs s <= value (w_kept s') y - w_rhs s' + c1e20 * labs l y.
  Proof.
    induction l as [|(j, a) l IH]; intros s s' K E; cbn [clean_loop] in E.
    - apply Done_inj in E. injection E as <-. cbn. lra.
    - apply bind_done in E. destruct E as (r & E1 & E2). destruct r as [s1|]; [|discriminate].
      specialize (IH s1 s' ltac:(intros i b I; apply (K i b); right; exact I) E2).
      cbn [value labs fst].
      pose proof (Qabs_nonneg (y j)) as A0.
      specialize (K j a (or_introl eq_refl)).
      unfold clean_step in E1. destruct (Qabs a <=? eps) eqn:C1.
      + destruct ((0 <? Qabs a) && (Qabs a <? c1e20)) eqn:C2.
        * apply Done_inj in E1. injection E1 as <-. qb.
          assert (G : a * y j <= c1e20 * Qabs (y j)).
          { apply Qle_trans with (Qabs (a * y j)); [apply Qle_Qabs|]. rewrite Qabs_Qmult. nra. }
          nra.
        * assert (C20 : 0 <= c1e20 * Qabs (y j)) by (apply Qmult_le_0_compat; [vm_compute; discriminate|exact A0]).
          destruct (Qeq_bool (Qabs a) 0) eqn:C3.
          -- apply Done_inj in E1. injection E1 as <-. qb.
             assert (Z : a == 0). { pose proof (Qle_Qabs a). pose proof (Qle_Qabs (- a)). rewrite Qabs_opp in *. lra. }
             rewrite Z. lra.
          -- destruct (Nat.leb_spec nb j) as [LB|LB]; [discriminate|]. destruct (K LB) as (KL & KU).
             destruct (0 <? a) eqn:Ca.
             ++ destruct (below_q (up j) 10000) eqn:B; [|discriminate]. apply below_q_some in B. rewrite B in KU.
                apply Done_inj in E1. injection E1 as <-. cbn [w_kept w_rhs] in *. qb. cbn in KU.
                assert (a * y j <= a * q) by (apply Qmult_le_l; assumption). lra.
             ++ destruct (above_q (lo j) (-10000)) eqn:B; [|discriminate]. apply above_q_some in B. rewrite B in KL.
                apply Done_inj in E1. injection E1 as <-. cbn [w_kept w_rhs] in *. qb. cbn in KL. nra.
      + assert (C20 : 0 <= c1e20 * Qabs (y j)) by (apply Qmult_le_0_compat; [vm_compute; discriminate|exact A0]).
        destruct (ratio * _ <? _); [discriminate|]. apply Done_inj in E1. injection E1 as <-. cbn [w_kept w_rhs] in *.
        rewrite value_app in IH. cbn [value] in IH. lra.
  Qed.
End Clean.

Inductive sub : vec -> vec -> Prop :=
| sub_nil : sub [] []
| sub_skip e u v : sub u v -> sub u (e :: v)
| sub_keep e u v : sub u v -> sub (e :: u) (e :: v).
Lemma sub_refl v : sub v v.
Proof. induction v; constructor; assumption. Qed.
Lemma sub_in u v e : sub u v -> In e u -> In e v.
Proof. induction 1; cbn; intuition. Qed.
Lemma sub_nodup u v : sub u v -> NoDup (map fst v) -> NoDup (map fst u).
Proof.
  induction 1 as [|e u v S IH|e u v S IH]; cbn; intro N; [exact N| |]; inversion N; subst; [auto|].
  constructor; [|auto]. intro I. apply in_map_iff in I. destruct I as (e' & E & I). apply H1. rewrite <- E.
  apply in_map. eapply sub_in; eassumption.
Qed.
Lemma sub_len u v : sub u v -> (length u <= length v)%nat.
Proof. induction 1; cbn; lia. Qed.
(** what the accepted form looks like *)
Section CleanShape.
  Variables (eps ratio : Q) (nb : nat) (lo up : nat -> option Q).
  Definition shape (v : vec) (sm : option Q) (bg : Q) : Prop :=
    forall j a, In (j, a) v -> eps < Qabs a /\ osmall sm <= Qabs a /\ Qabs a <= bg.
  Lemma clean_loop_shape l : forall s s', clean_loop eps ratio nb lo up l s = Done (VGo s') ->
    shape (w_kept s) (w_small s) (w_big s) ->
    (w_kept s <> [] -> w_big s <= ratio * osmall (w_small s)) ->
    shape (w_kept s') (w_small s') (w_big s') /\ (w_kept s' <> [] -> w_big s' <= ratio * osmall (w_small s')) /\
    exists u, w_kept s' = w_kept s ++ u /\ sub u l.
  Proof.
    induction l as [|(j, a) l IH]; intros s s' E SH R; cbn [clean_loop] in E.
    - apply Done_inj in E. injection E as <-. split; [exact SH|]. split; [exact R|]. exists []. rewrite app_nil_r. split; [reflexivity|constructor].
    - apply bind_done in E. destruct E as (r & E1 & E2). destruct r as [s1|]; [|discriminate].
      assert (G : (w_kept s1 = w_kept s /\ w_small s1 = w_small s /\ w_big s1 = w_big s) \/
                  (w_kept s1 = w_kept s ++ [(j, a)] /\ shape (w_kept s1) (w_small s1) (w_big s1) /\ w_big s1 <= ratio * osmall (w_small s1))).
      { unfold clean_step in E1. destruct (Qabs a <=? eps) eqn:C1.
        - left. destruct ((0 <? Qabs a) && (Qabs a <? c1e20)); [apply Done_inj in E1; injection E1 as <-; auto|].
          destruct (Qeq_bool (Qabs a) 0); [apply Done_inj in E1; injection E1 as <-; auto|].
          destruct (nb <=? j)%nat; [discriminate|].
          destruct (if 0 <? a then below_q (up j) 10000 else above_q (lo j) (-10000)); [|discriminate].
          apply Done_inj in E1. injection E1 as <-. auto.
        - right. destruct (ratio * _ <? _) eqn:C2; [discriminate|]. apply Done_inj in E1. injection E1 as <-. cbn [w_kept w_small w_big osmall]. qb.
          split; [reflexivity|]. split; [|exact C2].
          intros i b I. apply in_app_or in I. unfold osmall at 1. destruct I as [I|[I|[]]].
          + destruct (SH i b I) as (S1 & S2 & S3). split; [exact S1|].
            destruct (Qabs a <? osmall (w_small s)) eqn:D1; destruct (w_big s <? Qabs a) eqn:D2; qb; split; lra.
          + injection I as <- <-. split; [exact C1|].
            destruct (Qabs a <? osmall (w_small s)) eqn:D1; destruct (w_big s <? Qabs a) eqn:D2; qb; split; lra. }
      destruct G as [(G1 & G2 & G3)|(G1 & G2 & G3)].
      + rewrite <- G1, <- G2, <- G3 in *. destruct (IH s1 s' E2 SH R) as (A & B & u & U1 & U2).
        split; [exact A|]. split; [exact B|]. exists u. split; [exact U1|constructor; exact U2].
      + destruct (IH s1 s' E2 G2 (fun _ => G3)) as (A & B & u & U1 & U2). split; [exact A|]. split; [exact B|].
        exists ((j, a) :: u). rewrite U1, G1, <- app_assoc. split; [reflexivity|constructor; exact U2].
  Qed.
End CleanShape.

(** What an accepted cut satisfies. *)
Record clean_cut (eps : Q) (v : validator) (ncols : nat) (x : nat -> Q) (c c' : frow) : Prop := {
  cc_sub : sub (fst c') (fst c);
  cc_nonempty : fst c' <> [];
  cc_coef : forall j a, In (j, a) (fst c') -> eps < Qabs a;
  cc_ratio : forall j a i b, In (j, a) (fst c') -> In (i, b) (fst c') -> 0 <= v_ratio v -> Qabs a <= v_ratio v * Qabs b;
  cc_dense : exists z, max_nnz v ncols = Done z /\ (Z.of_nat (length (fst c')) <= z)%Z;
  cc_viol : v_minviol v <= violated c' x
}.
Lemma cleanCut_accepts eps v ncols nb lo up x c c' :
  cleanCut eps v ncols nb lo up x c = Done (NoneAccepted, c') -> clean_cut eps v ncols x c c'.
Proof.
  unfold cleanCut. intro E. apply bind_done in E. destruct E as (mx & Em & E).
  destruct (violated c x <? v_minviol v); [discriminate|]. apply bind_done in E. destruct E as (r & Er & E).
  destruct r as [s|k].
  - destruct (mx <? Z.of_nat (length (w_kept s)))%Z eqn:D1; [discriminate|].
    destruct (Nat.eqb (length (w_kept s)) 0) eqn:D2; [discriminate|].
    destruct (violated (w_kept s, w_rhs s) x <? v_minviol v) eqn:D3; [discriminate|].
    apply Done_inj in E. injection E as <-. apply clean_loop_shape in Er; [|intros j a []|intros K; cbn in K; congruence].
    destruct Er as (S1 & S2 & u & U1 & U2). cbn in U1. assert (NE : w_kept s <> []) by (intro K; rewrite K in D2; discriminate).
    constructor; cbn [fst].
    + rewrite U1. exact U2.
    + exact NE.
    + intros j a I. apply (S1 j a I).
    + intros j a i b I J P. specialize (S2 NE). destruct (S1 j a I) as (_ & _ & A). destruct (S1 i b J) as (_ & B & _). nra.
    + exists mx. split; [exact Em|]. apply Z.ltb_ge in D1. exact D1.
    + qb. exact D3.
  - exfalso. destruct k; try discriminate. revert Er. clear.
    assert (G : forall l s k, clean_loop eps (v_ratio v) nb lo up l s = Done (VStop k) -> k <> NoneAccepted).
    { induction l as [|(j, a) l IH]; intros s k E; cbn [clean_loop] in E; [discriminate|].
      apply bind_done in E. destruct E as (r & E1 & E2). destruct r as [s1|k1]; [eapply IH; exact E2|].
      apply Done_inj in E2. injection E2 as <-. unfold clean_step in E1. destruct (Qabs a <=? eps).
      - destruct (_ && _); [discriminate|]. destruct (Qeq_bool _ _); [discriminate|]. destruct (nb <=? j)%nat; [discriminate|].
        destruct (if 0 <? a then _ else _); [discriminate|]. apply Done_inj in E1. injection E1 as <-. discriminate.
      - destruct (_ <? _); [|discriminate]. apply Done_inj in E1. injection E1 as <-. discriminate. }
    intro E. apply G in E. congruence.
Qed.
Lemma cleanCut_weaker eps v ncols nb lo up x c c' y :
  keeps_bounds nb lo up y (fst c) -> cleanCut eps v ncols nb lo up x c = Done (NoneAccepted, c') ->
  value (fst c) y - snd c + (1 # 10000000) <= value (fst c') y - snd c' + c1e20 * labs (fst c) y.
Proof.
  intros K E. unfold cleanCut in E. apply bind_done in E. destruct E as (mx & Em & E).
  destruct (violated c x <? v_minviol v); [discriminate|]. apply bind_done in E. destruct E as (r & Er & E).
  destruct r as [s|k]; [|destruct k; discriminate || idtac].
  - destruct (mx <? Z.of_nat (length (w_kept s)))%Z; [discriminate|].
    destruct (Nat.eqb (length (w_kept s)) 0); [discriminate|].
    destruct (violated (w_kept s, w_rhs s) x <? v_minviol v); [discriminate|].
    apply Done_inj in E. injection E as <-. apply (clean_loop_weaker _ _ _ _ _ y) in Er; [|exact K]. cbn [w_kept w_rhs value fst snd] in *. lra.
  - exfalso. revert Er.
    assert (G : forall l s k, clean_loop eps (v_ratio v) nb lo up l s = Done (VStop k) -> k <> NoneAccepted).
    { clear. induction l as [|(j, a) l IH]; intros s k E; cbn [clean_loop] in E; [discriminate|].
      apply bind_done in E. destruct E as (r & E1 & E2). destruct r as [s1|k1]; [eapply IH; exact E2|].
      apply Done_inj in E2. injection E2 as <-. unfold clean_step in E1. destruct (Qabs a <=? eps).
      - destruct (_ && _); [discriminate|]. destruct (Qeq_bool _ _); [discriminate|]. destruct (nb <=? j)%nat; [discriminate|].
        destruct (if 0 <? a then _ else _); [discriminate|]. apply Done_inj in E1. injection E1 as <-. discriminate.
      - destruct (_ <? _); [|discriminate]. apply Done_inj in E1. injection E1 as <-. discriminate. }
    intro Er. apply G in Er. congruence.
Qed.

(** cleanCut2 *)
Lemma labs_scale k v y : labs (scale k v) y = labs v y.
Proof. induction v as [|e v IH]; cbn [labs scale map fst]; [reflexivity|]. change (map _ v) with (scale k v). rewrite IH. reflexivity. Qed.
Lemma keeps_bounds_scale nb lo up y k v : keeps_bounds nb lo up y v -> keeps_bounds nb lo up y (scale k v).
Proof. intros K j a I. apply in_map_iff in I. destruct I as ((i, b) & E & I). cbn in E. injection E as <- <-. apply (K i b I). Qed.
Lemma clean2_loop_weaker tiny vtiny nb lo up y l : 0 <= vtiny -> forall s s', keeps_bounds nb lo up y l ->
  clean2_loop tiny vtiny nb lo up l s = Done (Some s') ->
  value (fst s) y + value l y - snd s <= value (fst s') y - snd s' + vtiny * labs l y.
Proof.
  intro V. induction l as [|(j, a) l IH]; intros s s' K E; cbn [clean2_loop] in E.
  - apply Done_inj in E. injection E as <-. cbn. lra.
  - apply bind_done in E. destruct E as (r & E1 & E2). destruct r as [s1|]; [|discriminate].
    specialize (IH s1 s' ltac:(intros i b I; apply (K i b); right; exact I) E2). cbn [value labs fst].
    pose proof (Qabs_nonneg (y j)) as A0. assert (VA : 0 <= vtiny * Qabs (y j)) by (apply Qmult_le_0_compat; assumption).
    specialize (K j a (or_introl eq_refl)). unfold clean2_step in E1.
    destruct (Qabs a <? tiny).
    + destruct (Qabs a <? vtiny) eqn:C1.
      * apply Done_inj in E1. injection E1 as <-. qb.
        assert (G : a * y j <= vtiny * Qabs (y j)).
        { apply Qle_trans with (Qabs (a * y j)); [apply Qle_Qabs|]. rewrite Qabs_Qmult. nra. }
        lra.
      * destruct (Nat.leb_spec nb j) as [LB|LB]; [discriminate|]. destruct (K LB) as (KL & KU). destruct (0 <? a) eqn:Ca.
        -- destruct (below_q (up j) 1000) eqn:B; [|discriminate]. apply below_q_some in B. rewrite B in KU.
           apply Done_inj in E1. injection E1 as <-. cbn [fst snd] in *. qb. cbn in KU.
           assert (a * y j <= a * q) by (apply Qmult_le_l; assumption). lra.
        -- destruct (a <? 0); [|discriminate].
           destruct (above_q (lo j) (-1000)) eqn:B; [|discriminate]. apply above_q_some in B. rewrite B in KL.
           apply Done_inj in E1. injection E1 as <-. cbn [fst snd] in *. qb. cbn in KL. nra.
    + apply Done_inj in E1. injection E1 as <-. cbn [fst snd] in *. rewrite value_app in IH. cbn [value] in IH. lra.
Qed.
Lemma qmax_fold_ge l : forall q0, q0 <= fold_left (fun s (e : nat * Q) => qmax s (Qabs (snd e))) l q0.
Proof.
  induction l as [|e l IH]; intro q0; cbn [fold_left]; [lra|]. eapply Qle_trans; [|apply IH].
  unfold qmax. destruct (q0 <? Qabs (snd e)) eqn:E; qb; lra.
Qed.
Lemma qmax_fold_in l : forall q0 e, In e l -> Qabs (snd e) <= fold_left (fun s (e : nat * Q) => qmax s (Qabs (snd e))) l q0.
Proof.
  induction l as [|e' l IH]; intros q0 e I; [destruct I|]. cbn [fold_left]. destruct I as [->|I]; [|apply IH; exact I].
  eapply Qle_trans; [|apply qmax_fold_ge]. unfold qmax. destruct (q0 <? Qabs (snd e)) eqn:E; qb; lra.
Qed.
(** the scaling factor: rhsScale over the largest of the elements and the relaxed
    right-hand side *)
Definition scale2 (v : validator) (c : frow) : Q :=
  v_rhsscale v / fold_left (fun s e => qmax s (Qabs (snd e))) (filter (fun e => c1e20 <? Qabs (snd e)) (fst c))
                           (Qabs (snd c - (1 # 10000000000))).
Lemma scale2_nonneg v c : 0 <= v_rhsscale v -> 0 <= scale2 v c.
Proof.
  intro H. unfold scale2.
  set (b := fold_left _ _ _).
  assert (B : 0 <= b). { eapply Qle_trans; [apply Qabs_nonneg|]. apply qmax_fold_ge. }
  destruct (Qlt_le_dec 0 b) as [P|N].
  - apply Qle_shift_div_l; [exact P|]. lra.
  - assert (Z : b == 0) by lra. rewrite Z. unfold Qdiv. setoid_replace (/ 0) with 0 by reflexivity. lra.
Qed.
Lemma cleanCut2_weaker v ncols nb lo up x c c' y : 0 <= v_rhsscale v ->
  keeps_bounds nb lo up y (fst c) -> cleanCut2 v ncols nb lo up x c = Done (NoneAccepted, c') ->
  scale2 v c * (value (fst c) y - snd c + (1 # 10000000000) - c1e20 * labs (fst c) y) <= value (fst c') y - snd c'.
Proof.
  intros RS K E. unfold cleanCut2 in E. apply bind_done in E. destruct E as (mx & Em & E).
  destruct (Nat.eqb (length (fst c)) 0); [discriminate|]. destruct (violated c x <? v_minviol v); [discriminate|].
  fold (scale2 v c) in E. pose proof (scale2_nonneg v c RS) as SC. set (sc := scale2 v c) in *.
  destruct (c1e9 <? _); [discriminate|]. apply bind_done in E. destruct E as (r & Er & E).
  destruct r as [(els, rhs)|]; [|discriminate].
  assert (G : value (scale sc (fst c)) y - (snd c - (1 # 10000000000)) * sc <= value els y - rhs + c1e20 * sc * labs (fst c) y).
  { destruct (v_ratio v * _ <? _).
    - apply (clean2_loop_weaker _ _ _ _ _ y) in Er.
      + cbn [fst snd value] in Er. rewrite labs_scale in Er. lra.
      + apply Qmult_le_0_compat; [vm_compute; discriminate|exact SC].
      + apply keeps_bounds_scale. exact K.
    - apply Done_inj in Er. injection Er as <- <-.
      assert (0 <= c1e20 * sc * labs (fst c) y); [|lra].
      apply Qmult_le_0_compat; [apply Qmult_le_0_compat; [vm_compute; discriminate|exact SC]|apply labs_nonneg]. }
  rewrite value_scale in G.
  destruct (mx <? Z.of_nat (length els))%Z; [discriminate|]. destruct (Nat.eqb (length els) 0); [discriminate|].
  destruct (violated (els, rhs) x <? v_minviol v); [discriminate|]. destruct (Qabs rhs <? c1e9); [|discriminate].
  apply Done_inj in E. injection E as <-. cbn [fst snd].
  assert (R : sc * (value (fst c) y - snd c + (1 # 10000000000) - c1e20 * labs (fst c) y) ==
              sc * value (fst c) y - (snd c - (1 # 10000000000)) * sc - c1e20 * sc * labs (fst c) y) by ring.
  rewrite R. lra.
Qed.
Lemma cleanCut2_accepts v ncols nb lo up x c c' : cleanCut2 v ncols nb lo up x c = Done (NoneAccepted, c') ->
  fst c' <> [] /\ Qabs (snd c') < 1000000000 /\ v_minviol v <= violated c' x /\
  (exists z, max_nnz v ncols = Done z /\ (Z.of_nat (length (fst c')) <= z)%Z).
Proof.
  unfold cleanCut2. intro E. apply bind_done in E. destruct E as (mx & Em & E).
  destruct (Nat.eqb (length (fst c)) 0); [discriminate|]. destruct (violated c x <? v_minviol v); [discriminate|].
  destruct (c1e9 <? _); [discriminate|]. apply bind_done in E. destruct E as (r & Er & E).
  destruct r as [(els, rhs)|]; [|discriminate].
  destruct (mx <? Z.of_nat (length els))%Z eqn:D1; [discriminate|]. destruct (Nat.eqb (length els) 0) eqn:D2; [discriminate|].
  destruct (violated (els, rhs) x <? v_minviol v) eqn:D3; [discriminate|]. destruct (Qabs rhs <? c1e9) eqn:D4; [|discriminate].
  apply Done_inj in E. injection E as <-. cbn [fst snd]. qb. conjs.
  - intro K. rewrite K in D2. discriminate.
  - exact D4.
  - exact D3.
  - exists mx. split; [exact Em|]. apply Z.ltb_ge in D1. exact D1.
Qed.
