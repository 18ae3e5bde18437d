(** * Proofs about the flow cover model: the cover, its cut, and validity *)

From Verif Require Import Base Model_FlowCover Proofs_FlowLift.
From Coq Require Import Lia Lqa Qabs.
Local Open Scope Q_scope.

(** ** Sums *)
Lemma sumq_ext {A} (f g : A -> Q) l :
  (forall a, In a l -> f a == g a) -> sumq f l == sumq g l.
Proof.
  induction l as [|a l IH]; intros H; simpl; [reflexivity|].
  rewrite (H a (or_introl eq_refl)), IH; [reflexivity|intros b Hb; apply H; now right].
Qed.
Lemma sumq_le {A} (f g : A -> Q) l :
  (forall a, In a l -> f a <= g a) -> sumq f l <= sumq g l.
Proof.
  induction l as [|a l IH]; intros H; simpl; [lra|].
  pose proof (H a (or_introl eq_refl)).
  pose proof (IH (fun b Hb => H b (or_intror Hb))). lra.
Qed.
Lemma sumq_le_one {A} (f g : A -> Q) d l c :
  (forall a, In a l -> f a <= g a) -> In c l -> f c + d <= g c -> sumq f l + d <= sumq g l.
Proof.
  induction l as [|a l IH]; intros H Hc Hd; simpl; [destruct Hc|].
  destruct Hc as [->|Hc].
  - pose proof (sumq_le f g l (fun b Hb => H b (or_intror Hb))). lra.
  - pose proof (IH (fun b Hb => H b (or_intror Hb)) Hc Hd).
    pose proof (H a (or_introl eq_refl)). lra.
Qed.
Lemma sumq_plus {A} (f g : A -> Q) l : sumq (fun a => f a + g a) l == sumq f l + sumq g l.
Proof. induction l as [|a l IH]; simpl; [ring|rewrite IH; ring]. Qed.
Lemma sumq_minus {A} (f g : A -> Q) l : sumq (fun a => f a - g a) l == sumq f l - sumq g l.
Proof. induction l as [|a l IH]; simpl; [ring|rewrite IH; ring]. Qed.
Lemma sumq_scale {A} k (f : A -> Q) l : sumq (fun a => k * f a) l == k * sumq f l.
Proof. induction l as [|a l IH]; simpl; [ring|rewrite IH; ring]. Qed.
Lemma sumq_app {A} (f : A -> Q) l l' : sumq f (l ++ l') == sumq f l + sumq f l'.
Proof. induction l as [|a l IH]; simpl; [ring|rewrite IH; ring]. Qed.
Lemma sumq_map {A B} (g : A -> B) (f : B -> Q) l : sumq f (map g l) = sumq (fun a => f (g a)) l.
Proof. induction l as [|a l IH]; simpl; [reflexivity|now rewrite IH]. Qed.
Lemma sumq_zero {A} (f : A -> Q) l : (forall a, In a l -> f a == 0) -> sumq f l == 0.
Proof.
  induction l as [|a l IH]; intros H; simpl; [reflexivity|].
  rewrite (H a (or_introl eq_refl)), IH; [ring|intros b Hb; apply H; now right].
Qed.
Lemma sumq_nonneg {A} (f : A -> Q) l : (forall a, In a l -> 0 <= f a) -> 0 <= sumq f l.
Proof.
  intros H. rewrite <- (sumq_zero (fun _ : A => 0) l) by (intros; reflexivity).
  now apply sumq_le.
Qed.
Lemma sumq_filter {A} (f : A -> Q) (p : A -> bool) l :
  sumq f (filter p l) == sumq (fun a => only (p a) (f a)) l.
Proof.
  induction l as [|a l IH]; simpl; [reflexivity|].
  destruct (p a); simpl; rewrite IH; unfold only; ring.
Qed.

Lemma fEPS_pos : 0 < fEPS. Proof. reflexivity. Qed.

(** ** The cover *)

Definition infneg (it : fitem) : bool := negb (i_pos it) && up_gt it ((1 - fEPS) * fINF).
Definition fin (it : fitem) : Prop := exists u, i_up it = Some u.
(** What is known of an item with its candidate and label. *)
Definition okst (s : fstat) : Prop :=
  if i_pos (s_it s) then
    (s_in s = true -> s_cand s = CPrime) /\ (s_cand s = CPrime -> fin (s_it s))
  else
    (infneg (s_it s) = true -> is_prime s = false) /\
    (infneg (s_it s) = false -> s_in s = true -> s_cand s = CPrime) /\
    (s_in s = false -> fin (s_it s)) /\ s_cand s <> CSecondary.
(** Its contribution to tempSum. *)
Definition dsum (s : fstat) : Q :=
  if is_prime s then only (s_in s) (upv (s_it s))
  else if infneg (s_it s) then only (negb (s_in s)) (- upv (s_it s)) else 0.
Definition kpart (it : fitem) : Q := only (negb (i_pos it) && negb (infneg it)) (upv it).

Lemma okst_prime_fin s : okst s -> s_cand s = CPrime -> fin (s_it s).
Proof.
  unfold okst, infneg. intros H E. destruct (i_pos (s_it s)) eqn:P; [apply H, E|].
  destruct H as (H1 & _). unfold is_prime in H1. rewrite E in H1. simpl in H1.
  destruct (up_gt (s_it s) _) eqn:U; [discriminate (H1 eq_refl)|].
  unfold up_gt in U. destruct (i_up (s_it s)) eqn:W; [eexists; eauto|discriminate].
Qed.
Lemma infneg_false_fin it : i_pos it = false -> infneg it = false -> fin it.
Proof.
  unfold infneg. intros -> H. simpl in H. unfold up_gt in H.
  destruct (i_up it) eqn:W; [eexists; eauto|discriminate].
Qed.

Lemma classify_inv debug its : forall l t k l' t' k' rhs,
  Forall okst l -> Forall (fun s => dsum s == 0) l ->
  k == rhs + sumq kpart (map s_it l) ->
  ofold (classify_item debug) its (l, t, k) = Done (l', t', k') ->
  Forall okst l' /\ Forall (fun s => dsum s == 0) l' /\
  k' == rhs + sumq kpart (map s_it l') /\ map s_it l' = map s_it l ++ its.
Proof.
  induction its as [|it its IH]; intros l t k l' t' k' rhs H1 H2 H3 E; simpl in E.
  - apply Done_inj in E. inversion E; subst. rewrite app_nil_r. auto.
  - apply bind_done in E. destruct E as ([[l1 t1] k1] & E1 & E).
    assert (G : exists s, l1 = l ++ [s] /\ s_it s = it /\ okst s /\ dsum s == 0 /\ k1 == k + kpart it).
    { unfold classify_item in E1. unfold kpart.
      destruct (i_pos it) eqn:P; simpl.
      - destruct (fEPS <? i_y it).
        + destruct (i_up it) as [u|] eqn:U.
          * destruct (Qeq_bool u 0); [discriminate|].
            destruct (u * i_x it - fEPS <? i_y it); apply Done_inj in E1; inversion E1; subst;
              eexists; (split; [reflexivity|]); cbn [s_it]; (split; [reflexivity|]);
              unfold okst, dsum, infneg, fin; cbn; rewrite P; cbn;
              (split; [split; [discriminate|intros; try discriminate; eexists; eauto]|]);
              (split; [reflexivity|]); unfold only; ring.
          * apply Done_inj in E1; inversion E1; subst;
              eexists; (split; [reflexivity|]); cbn [s_it]; (split; [reflexivity|]);
              unfold okst, dsum, infneg, fin; cbn; rewrite P; cbn;
              (split; [split; [discriminate|discriminate]|]);
              (split; [reflexivity|]); unfold only; ring.
        + apply Done_inj in E1; inversion E1; subst;
            eexists; (split; [reflexivity|]); cbn [s_it]; (split; [reflexivity|]);
            unfold okst, dsum, infneg, fin; cbn; rewrite P; cbn;
            (split; [split; [discriminate|discriminate]|]);
            (split; [reflexivity|]); unfold only; ring.
      - destruct (up_gt it ((1 - fEPS) * fINF)) eqn:U.
        + apply Done_inj in E1; inversion E1; subst.
          eexists; (split; [reflexivity|]); cbn [s_it]; (split; [reflexivity|]).
          assert (N : infneg it = true) by (unfold infneg; rewrite P, U; reflexivity).
          unfold okst, dsum. cbn [s_it s_in s_cand is_prime]. rewrite P, N.
          split; [|split; [reflexivity|cbn; ring]].
          split; [reflexivity|]. split; [discriminate|]. split; [discriminate|discriminate].
        + assert (N : infneg it = false) by (unfold infneg; rewrite P, U; reflexivity).
          pose proof (infneg_false_fin it P N) as F.
          destruct (i_y it <? upv it).
          * destruct (Qeq_bool (upv it) 0); [destruct debug; discriminate|].
            apply Done_inj in E1; inversion E1; subst.
            eexists; (split; [reflexivity|]); cbn [s_it]; (split; [reflexivity|]).
            unfold okst, dsum. cbn [s_it s_in s_cand is_prime]. rewrite P, N.
            split; [|split; [reflexivity|cbn; ring]].
            split; [discriminate|]. split; [reflexivity|]. split; [auto|discriminate].
          * apply Done_inj in E1; inversion E1; subst.
            eexists; (split; [reflexivity|]); cbn [s_it]; (split; [reflexivity|]).
            unfold okst, dsum. cbn [s_it s_in s_cand is_prime]. rewrite P, N.
            split; [|split; [reflexivity|cbn; ring]].
            split; [discriminate|]. split; [discriminate|]. split; [auto|discriminate]. }
    destruct G as (s & -> & Es & Os & Ds & K1).
    destruct (IH (l ++ [s]) t1 k1 l' t' k' rhs) as (A & B & C & D); auto.
    + apply Forall_app; auto.
    + apply Forall_app; auto.
    + rewrite map_app, sumq_app. simpl. rewrite K1, H3, Es. ring.
    + split; [exact A|]. split; [exact B|]. split; [exact C|].
      rewrite D, map_app. simpl. rewrite Es, <- app_assoc. reflexivity.
Qed.

Lemma upd_spec {A} (f : A -> A) : forall l n s,
  nth_error l n = Some s ->
  (forall h : A -> Q, sumq h (upd n f l) == sumq h l - h s + h (f s)) /\
  (forall P : A -> Prop, Forall P l -> P (f s) -> Forall P (upd n f l)) /\
  (forall B (g : A -> B), g (f s) = g s -> map g (upd n f l) = map g l).
Proof.
  induction l as [|a l IH]; intros n s H; [destruct n; discriminate|].
  destruct n as [|n]; simpl in *.
  - apply Some_inj in H; subst s. split; [intros h; ring|]. split.
    + intros P HP Hf. inversion HP; subst. now constructor.
    + intros B g E. now rewrite E.
  - destruct (IH n s H) as (A1 & A2 & A3). split; [intros h; rewrite A1; ring|]. split.
    + intros P HP Hf. inversion HP; subst. constructor; auto.
    + intros B g E. now rewrite A3.
Qed.

Lemma best_secondary_spec : forall l i diff best d n,
  best_secondary l i diff best = (d, Some n) ->
  best = Some n \/
  (i <= n)%nat /\ exists s, nth_error l (n - i) = Some s /\ s_cand s = CSecondary /\ fin (s_it s).
Proof.
  induction l as [|s l IH]; intros i diff best d n E; simpl in E.
  - inversion E; subst; now left.
  - destruct (is_secondary s && _) eqn:T.
    + apply IH in E. destruct E as [E|(L & s' & E1 & E2)].
      * inversion E; subst. right. split; [lia|]. exists s. rewrite Nat.sub_diag.
        apply andb_prop in T. destruct T as [T1 T2].
        split; [reflexivity|]. split.
        { unfold is_secondary in T1. destruct (s_cand s); auto; discriminate. }
        { destruct (i_up (s_it s)) eqn:U; [eexists; eauto|discriminate]. }
      * right. split; [lia|]. exists s'. split; [|exact E2].
        replace (n - i)%nat with (S (n - S i)) by lia. exact E1.
    + apply IH in E. destruct E as [E|(L & s' & E1 & E2)]; [now left|].
      right. split; [lia|]. exists s'. split; [|exact E2].
      replace (n - i)%nat with (S (n - S i)) by lia. exact E1.
Qed.
Lemma least_ratio_spec : forall l i tmin best n,
  least_ratio l i tmin best = Some n ->
  best = Some n \/
  (i <= n)%nat /\ exists s, nth_error l (n - i) = Some s /\ s_cand s = CPrime /\ s_in s = false.
Proof.
  induction l as [|s l IH]; intros i tmin best n E; simpl in E.
  - now left.
  - destruct (is_prime s && negb (s_in s) && (s_ratio s <? tmin)) eqn:T.
    + apply IH in E. destruct E as [E|(L & s' & E1 & E2)].
      * inversion E; subst. right. split; [lia|]. exists s. rewrite Nat.sub_diag.
        apply andb_prop in T. destruct T as [T _]. apply andb_prop in T. destruct T as [T1 T2].
        split; [reflexivity|]. split.
        { unfold is_prime in T1. destruct (s_cand s); auto; discriminate. }
        { now apply negb_true_iff in T2. }
      * right. split; [lia|]. exists s'. split; [|exact E2].
        replace (n - i)%nat with (S (n - S i)) by lia. exact E1.
    + apply IH in E. destruct E as [E|(L & s' & E1 & E2)]; [now left|].
      right. split; [lia|]. exists s'. split; [|exact E2].
      replace (n - i)%nat with (S (n - S i)) by lia. exact E1.
Qed.

Lemma Forall_nth_error {A} (P : A -> Prop) l n a : Forall P l -> nth_error l n = Some a -> P a.
Proof. intros H E. rewrite Forall_forall in H. apply H. eapply nth_error_In; eauto. Qed.

Lemma extend_inv : forall fuel l t k l',
  Forall okst l -> Forall (fun s => dsum s == 0) l ->
  extend_cover fuel l t k = Done (Some l') ->
  Forall okst l' /\ Forall (fun s => dsum s == 0) l' /\ map s_it l' = map s_it l.
Proof.
  induction fuel as [|f IH]; intros l t k l' H1 H2 E; simpl in E; [discriminate|].
  destruct (t <? k + fEPS).
  2:{ apply Done_inj, Some_inj in E. subst; auto. }
  destruct (best_secondary l 0 fINF None) as [d best] eqn:B.
  destruct ((1 - fEPS) * fINF <? d); [discriminate|].
  destruct best as [n|]; [|discriminate].
  apply best_secondary_spec in B. destruct B as [B|(_ & s & B1 & B2 & B3)]; [discriminate|].
  rewrite Nat.sub_0_r in B1.
  destruct (upd_spec with_prime l n s B1) as (U1 & U2 & U3).
  pose proof (Forall_nth_error _ _ _ _ H1 B1) as Os.
  assert (P : i_pos (s_it s) = true).
  { unfold okst in Os. destruct (i_pos (s_it s)); [reflexivity|].
    destruct Os as (_ & _ & _ & Os). contradiction. }
  assert (In0 : s_in s = false).
  { unfold okst in Os. rewrite P in Os. destruct (s_in s) eqn:Z; [|reflexivity].
    destruct Os as (Os & _). specialize (Os eq_refl). congruence. }
  apply IH in E.
  - destruct E as (E1 & E2 & E3). split; [exact E1|]. split; [exact E2|].
    rewrite E3. apply U3. reflexivity.
  - apply U2; [exact H1|]. unfold okst, with_prime; cbn. rewrite P. split; [reflexivity|auto].
  - apply U2; [exact H2|]. unfold dsum, with_prime; cbn. rewrite In0. reflexivity.
Qed.

Lemma zero_ratio_inv : forall l acc t,
  Forall okst l -> Forall (fun s => dsum s == 0) l ->
  Forall okst acc -> t == sumq dsum acc ->
  let z := fold_left zero_ratio l (acc, t) in
  Forall okst (fst z) /\ snd z == sumq dsum (fst z) /\ map s_it (fst z) = map s_it acc ++ map s_it l.
Proof.
  induction l as [|s l IH]; intros acc t H1 H2 H3 H4; simpl.
  - rewrite app_nil_r. auto.
  - inversion H1 as [|? ? O1 O2]; inversion H2 as [|? ? D1 D2]; subst.
    destruct (zero_ratio (acc, t) s) as [acc' t'] eqn:Zr.
    unfold zero_ratio in Zr. cbn [fst snd] in Zr.
    destruct (is_prime s && (s_ratio s <? fEPS)) eqn:T; injection Zr as <- <-.
    + apply andb_prop in T. destruct T as [T _].
      assert (C : s_cand s = CPrime) by (unfold is_prime in T; destruct (s_cand s); auto; discriminate).
      edestruct (IH (acc ++ [with_in true s]) (t + upv (s_it s)) O2 D2) as (A & B & E).
      * apply Forall_app; split; [exact H3|]. constructor; [|constructor].
        pose proof (okst_prime_fin s O1 C) as F.
        unfold okst in *; cbn in *. destruct (i_pos (s_it s)).
        { split; auto. }
        { destruct O1 as (X1 & X2 & X3 & X4). split; [|auto].
          intros Y. specialize (X1 Y). unfold is_prime in *; cbn in *. exact X1. }
      * rewrite sumq_app, H4. simpl. unfold dsum at 3. unfold is_prime in *; cbn.
        rewrite C. cbn. ring.
      * split; [exact A|]. split; [exact B|]. rewrite E, map_app, <- app_assoc. reflexivity.
    + edestruct (IH (acc ++ [s]) t O2 D2) as (A & B & E).
      * apply Forall_app; split; [exact H3|]. constructor; [exact O1|constructor].
      * rewrite sumq_app, H4. simpl. rewrite D1. ring.
      * split; [exact A|]. split; [exact B|]. rewrite E, map_app, <- app_assoc. reflexivity.
Qed.

Lemma fill_inv : forall fuel l t k l' t',
  Forall okst l -> t == sumq dsum l ->
  fill_cover fuel l t k = Done (Some (l', t')) ->
  Forall okst l' /\ t' == sumq dsum l' /\ map s_it l' = map s_it l /\ k + fEPS <= t'.
Proof.
  induction fuel as [|f IH]; intros l t k l' t' H1 H2 E; simpl in E; [discriminate|].
  destruct (t <? k + fEPS) eqn:T.
  2:{ apply Done_inj, Some_inj in E. inversion E; subst. qb. auto. }
  destruct (least_ratio l 0 fINF None) as [n|] eqn:B; [|discriminate].
  apply least_ratio_spec in B. destruct B as [B|(_ & s & B1 & B2 & B3)]; [discriminate|].
  rewrite Nat.sub_0_r in B1.
  destruct (upd_spec (with_in true) l n s B1) as (U1 & U2 & U3).
  pose proof (Forall_nth_error _ _ _ _ H1 B1) as Os.
  apply IH in E.
  - destruct E as (E1 & E2 & E3 & E4). split; [exact E1|]. split; [exact E2|].
    split; [|exact E4]. rewrite E3. apply U3. reflexivity.
  - apply U2; [exact H1|]. pose proof (okst_prime_fin s Os B2) as F.
    unfold okst in *; cbn in *. destruct (i_pos (s_it s)).
    + split; auto.
    + destruct Os as (X1 & X2 & X3 & X4). split; [|auto].
      intros Y. specialize (X1 Y). unfold is_prime in *; cbn in *. exact X1.
  - rewrite U1, H2. unfold up_at. rewrite B1. unfold dsum at 3 4. unfold is_prime; cbn.
    rewrite B2, B3. cbn. ring.
Qed.

Lemma reduce_inv krhs which : forall l acc t,
  Forall okst l -> Forall okst acc -> t == sumq dsum acc + sumq dsum l -> krhs + fEPS <= t ->
  let z := fold_left (reduce_step krhs which) l (acc, t) in
  Forall okst (fst z) /\ snd z == sumq dsum (fst z) /\
  map s_it (fst z) = map s_it acc ++ map s_it l /\ krhs + fEPS <= snd z.
Proof.
  induction l as [|s l IH]; intros acc t H1 H2 H3 H4; simpl.
  - rewrite app_nil_r. simpl in H3. split; [exact H2|]. split; [rewrite H3; ring|]. auto.
  - inversion H1 as [|? ? O1 O2]; subst. destruct (reduce_step krhs which (acc, t) s) as [acc' t'] eqn:Zr.
    unfold reduce_step in Zr. cbn [fst snd] in Zr.
    destruct (s_in s && which (s_ratio s) && _) eqn:T; injection Zr as <- <-.
    + apply andb_prop in T. destruct T as [T T3]. apply andb_prop in T. destruct T as [T1 _].
      destruct (i_up (s_it s)) as [u|] eqn:U; [|discriminate].
      assert (Eu : upv (s_it s) = u) by (unfold upv; now rewrite U).
      edestruct (IH (acc ++ [with_in false s]) (t - upv (s_it s)) O2) as (A & B & E & F).
      * apply Forall_app; split; [exact H2|]. constructor; [|constructor].
        unfold okst in *; cbn in *. destruct (i_pos (s_it s)).
        { split; [discriminate|]. intros; eexists; eauto. }
        { destruct O1 as (X1 & X2 & X3 & X4). split; [|split; [discriminate|split; [|exact X4]]].
          - intros Y. specialize (X1 Y). unfold is_prime in *; cbn in *. exact X1.
          - intros; eexists; eauto. }
      * rewrite sumq_app, H3. simpl. unfold dsum at 2 5. unfold is_prime; cbn.
        rewrite T1.
        assert (P : s_cand s = CPrime \/ is_prime s = false /\ infneg (s_it s) = true).
        { unfold okst in O1. destruct (i_pos (s_it s)); [left; now apply O1|].
          destruct (infneg (s_it s)) eqn:N; [right; split; [now apply O1|reflexivity]|left; now apply O1]. }
        destruct P as [P|[P N]].
        { rewrite P. cbn. ring. }
        { unfold is_prime in P. rewrite N. destruct (s_cand s); try discriminate; cbn; ring. }
      * rewrite Eu. qb. lra.
      * split; [exact A|]. split; [exact B|]. split; [|exact F].
        rewrite E, map_app, <- app_assoc. reflexivity.
    + edestruct (IH (acc ++ [s]) t O2) as (A & B & E & F).
      * apply Forall_app; split; [exact H2|]. constructor; [exact O1|constructor].
      * rewrite sumq_app, H3. simpl. ring.
      * exact H4.
      * split; [exact A|]. split; [exact B|]. split; [|exact F].
        rewrite E, map_app, <- app_assoc. reflexivity.
Qed.

(** The cover that is found. *)
Record cover_ok (its : list fitem) (rhs : Q) (cov : list (fitem * bool)) (lam : Q) : Prop := {
  ck_items : map fst cov = its;
  ck_plus : forall c, In c cov -> cplus c = true -> fin (fst c);
  ck_minus : forall c, In c cov -> cminus c = true -> fin (fst c);
  ck_lam : lam == sumq (fun c => only (cplus c) (upv (fst c))) cov - rhs
                  - sumq (fun c => only (cminus c) (upv (fst c))) cov;
  ck_pos : fEPS <= lam }.

Lemma find_cover_ok debug its rhs cov lam :
  find_cover debug its rhs = Done (Some (cov, lam)) -> cover_ok its rhs cov lam.
Proof.
  unfold find_cover. intros E. apply bind_done in E.
  destruct E as ([[l t] k] & E1 & E).
  apply classify_inv with (rhs := rhs) in E1; auto; [|simpl; ring].
  destruct E1 as (A1 & A2 & A3 & A4). simpl in A4.
  destruct (fBIG <? k); [discriminate|].
  apply bind_done in E. destruct E as (ol & E2 & E). destruct ol as [l1|]; [|discriminate].
  apply extend_inv in E2; auto. destruct E2 as (B1 & B2 & B3).
  destruct (zero_ratio_inv l1 [] 0 B1 B2 (Forall_nil _) (Qeq_refl _)) as (C1 & C2 & C3).
  set (z := fold_left zero_ratio l1 ([], 0)) in *. simpl in C3.
  apply bind_done in E. destruct E as (oz & E3 & E). destruct oz as [[l2 t2]|]; [|discriminate].
  apply fill_inv in E3; auto. destruct E3 as (D1 & D2 & D3 & D4).
  unfold reduce_cover in E.
  destruct (reduce_inv k (fun r => fEPS <? r) l2 [] t2 D1 (Forall_nil _)) as (F1 & F2 & F3 & F4); auto.
  { simpl. rewrite D2. ring. }
  set (z1 := fold_left (reduce_step k (fun r => fEPS <? r)) l2 ([], t2)) in *. simpl in F3.
  destruct (reduce_inv k (fun r => r <? fEPS) (fst z1) [] (snd z1) F1 (Forall_nil _))
    as (G1 & G2 & G3 & G4); auto.
  { simpl. rewrite F2. ring. }
  set (z2 := fold_left (reduce_step k (fun r => r <? fEPS)) (fst z1) ([], snd z1)) in *. simpl in G3.
  destruct (existsb snd (map flip_neg (fst z2))); [|discriminate].
  apply Done_inj, Some_inj in E. inversion E; subst cov lam; clear E.
  assert (Its : map s_it (fst z2) = its) by (rewrite G3, F3, D3, C3, B3, A4; reflexivity).
  rewrite Forall_forall in G1. constructor.
  - rewrite map_map. simpl. rewrite <- Its. reflexivity.
  - intros c Hc Pc. apply in_map_iff in Hc. destruct Hc as (s & <- & Hs).
    specialize (G1 s Hs). unfold okst, cplus, flip_neg in *. cbn in Pc.
    destruct (i_pos (s_it s)); [|discriminate]. cbn in Pc. cbn. apply G1, G1, Pc.
  - intros c Hc Pc. apply in_map_iff in Hc. destruct Hc as (s & <- & Hs).
    specialize (G1 s Hs). unfold okst, cminus, flip_neg in *. cbn in Pc.
    destruct (i_pos (s_it s)); [discriminate|]. cbn in Pc. cbn. apply G1.
    now apply negb_true_iff in Pc.
  - assert (K : k == rhs + sumq (fun s => kpart (s_it s)) (fst z2)).
    { rewrite A3. rewrite A4, <- Its, sumq_map. reflexivity. }
    rewrite K, G2. rewrite !sumq_map.
    assert (R : sumq dsum (fst z2) - sumq (fun s => kpart (s_it s)) (fst z2) ==
            sumq (fun s => only (cplus (flip_neg s)) (upv (fst (flip_neg s)))) (fst z2) -
            sumq (fun s => only (cminus (flip_neg s)) (upv (fst (flip_neg s)))) (fst z2)).
    { rewrite <- !sumq_minus. apply sumq_ext. intros s Hs. specialize (G1 s Hs).
      unfold okst, dsum, kpart, cplus, cminus, flip_neg, is_prime in *. cbn [fst snd].
      destruct (i_pos (s_it s)) eqn:P.
      - unfold infneg. rewrite P. cbn [negb andb]. destruct G1 as [X1 _].
        destruct (s_in s); [rewrite (X1 eq_refl)|destruct (s_cand s)]; cbn; ring.
      - cbn [negb andb]. destruct G1 as (X1 & X2 & _).
        destruct (infneg (s_it s)) eqn:N.
        + specialize (X1 eq_refl). destruct (s_cand s); try discriminate; destruct (s_in s); cbn; ring.
        + destruct (s_in s); [rewrite (X2 eq_refl eq_refl)|destruct (s_cand s)]; cbn; ring. }
    lra.
  - lra.
Qed.
