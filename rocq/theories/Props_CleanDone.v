(** * The row scaling of CglPreProcess::preProcessNonDefault comes to an end *)
From Verif Require Import Model_CleanRows Proofs_CleanRows Props_CleanRows.
From Verif Require Proofs_Gomory Props_GMI.
From Coq Require Import Lqa Znumtheory.
From Coq Require Qcanon.
Local Open Scope Q_scope.

Definition num (q : Q) : Z := Qnum (Qred q).
Definition den (q : Q) : Z := Zpos (Qden (Qred q)).
Lemma num_den q : q * inject_Z (den q) == inject_Z (num q).
Proof.
  rewrite <- (Qred_correct q) at 1. unfold num, den. destruct (Qred q) as [n d]. cbn [Qnum Qden].
  unfold Qeq, Qmult, inject_Z. cbn [Qnum Qden]. lia.
Qed.
Lemma num_zero q : num q = 0%Z <-> q == 0.
Proof.
  unfold num. split; intro H.
  - rewrite <- (Qred_correct q). destruct (Qred q) as [n d]. cbn in H. subst n. reflexivity.
  - apply Qred_complete in H. rewrite H. reflexivity.
Qed.
Lemma den_divides D q : on_grid D q -> (den q | D)%Z.
Proof.
  intros (k & E & _). assert (G : Z.gcd (num q) (den q) = 1%Z).
  { unfold num, den. apply Qcanon.Qred_identity2. apply Qcanon.Qred_involutive. }
  assert (Dn : (num q * D = k * den q)%Z).
  { apply (proj1 (inject_Z_injective _ _)). rewrite !inject_Z_mult, <- (num_den q), <- E. ring. }
  apply Z.gauss with (m := num q); [exists k; lia|]. rewrite Z.gcd_comm. exact G.
Qed.
Lemma floor_int v e : integral v -> 0 <= e -> e < 1 -> qfloor (v + e) == v.
Proof.
  intros (z & E) A B. unfold qfloor. assert (F : Qfloor (v + e) = z); [|rewrite F, E; reflexivity].
  rewrite (Qfloor_comp (v + e) (inject_Z z + e)) by (rewrite E; reflexivity).
  pose proof (Qfloor_le (inject_Z z + e)) as F1. pose proof (Qlt_floor (inject_Z z + e)) as F2.
  set (f := Qfloor (inject_Z z + e)) in *. rewrite inject_Z_plus in F2.
  assert (inject_Z f < inject_Z z + inject_Z 1) by (change (inject_Z 1) with 1; lra).
  assert (inject_Z z < inject_Z f + inject_Z 1) by (change (inject_Z 1) with 1 in *; lra).
  rewrite <- inject_Z_plus, <- Zlt_Qlt in H, H0. lia.
Qed.

(** What is known of gcd and lcm *)
Definition inv (D : Z) (done : list Q) (g l : Z) : Prop :=
  g <> 0%Z /\ (0 < l)%Z /\ (l | D)%Z /\ forall q, In q done -> ~ q == 0 -> (g | num q)%Z /\ (den q | l)%Z.
Lemma sr_step_ok rat D done g l q : (0 < D <= 1000000000)%Z -> on_grid D q -> rat q = reduced q -> inv D done g l ->
  exists g' l', sr_step rat (Some (g, l)) q = Done (Some (g', l')) /\ inv D (q :: done) g' l'.
Proof.
  intros Dp G R (Ng & Pl & Ld & H). unfold sr_step. destruct (Qeq_bool q 0) eqn:Z0.
  { apply Qeq_bool_iff in Z0. exists g, l. split; [reflexivity|]. split; [exact Ng|]. split; [exact Pl|]. split; [exact Ld|].
    intros p [<-|I] N; [now exfalso|now apply H]. }
  apply Qeq_bool_neq in Z0. rewrite R. unfold reduced. fold (num q) (den q).
  assert (Nn : num q <> 0%Z) by (rewrite num_zero; exact Z0). destruct (Z.eqb_spec (num q) 0) as [C|_]; [now exfalso|].
  destruct (Props_GMI.C43_gcd g (num q) (or_introl Ng)) as (g' & -> & Eg). cbn [bind].
  assert (Pd : (0 < den q)%Z) by (unfold den; lia).
  rewrite Proofs_Gomory.computeGcd_pos by lia. cbn [bind].
  assert (Gp : (0 < Z.gcd l (den q))%Z). { pose proof (Z.gcd_nonneg l (den q)). assert (Z.gcd l (den q) <> 0%Z) by (rewrite Z.gcd_eq_0; lia). lia. }
  destruct (Z.gcd_divide_r l (den q)) as (k & Ek). destruct (Z.gcd_divide_l l (den q)) as (k2 & Ek2).
  set (h := Z.gcd l (den q)) in *. assert (Eq : Z.quot (den q) h = k). { rewrite Ek. apply Z.quot_mul. lia. }
  rewrite Eq. assert (Kp : (0 < k)%Z) by nia. assert (K2p : (0 < k2)%Z) by nia.
  assert (L1 : (l | l * k)%Z) by (exists k; lia). assert (L2 : (den q | l * k)%Z) by (exists k2; rewrite Ek2, Ek; ring).
  assert (LD : (l * k | D)%Z).
  { assert (Lc : (l * k = Z.lcm l (den q))%Z).
    { unfold Z.lcm. fold h. rewrite Ek. rewrite Z.div_mul by lia. symmetry. apply Z.abs_eq. nia. }
    rewrite Lc. apply Z.lcm_least; [exact Ld|now apply den_divides]. }
  assert (LB : (0 < l * k <= D)%Z) by (split; [nia|apply Z.divide_pos_le; [lia|exact LD]]).
  assert (I64 : Model_GMI.int64 (l * k) = true). { unfold Model_GMI.int64. apply andb_true_iff. split; [apply Z.leb_le|apply Z.ltb_lt]; lia. }
  rewrite I64. exists g', (l * k)%Z. split; [reflexivity|]. split; [|split; [lia|split; [exact LD|]]].
  - intros ->. cbn in Eg. symmetry in Eg. rewrite Z.gcd_eq_0 in Eg. lia.
  - assert (Dg : (g' | g)%Z) by (apply Z.divide_abs_l; rewrite Eg; apply Z.gcd_divide_l).
    assert (Dn : (g' | num q)%Z) by (apply Z.divide_abs_l; rewrite Eg; apply Z.gcd_divide_r).
    intros p [<-|I] N; [split; assumption|]. destruct (H p I N) as [A B].
    split; [now apply Z.divide_trans with g|now apply Z.divide_trans with l].
Qed.
Lemma sr_steps_ok rat D t : (0 < D <= 1000000000)%Z -> forall done g l, (forall q, In q t -> on_grid D q /\ rat q = reduced q) ->
  inv D done g l -> exists g' l', ofold (sr_step rat) t (Some (g, l)) = Done (Some (g', l')) /\ inv D (rev t ++ done) g' l'.
Proof.
  intro Dp. induction t as [|q t IH]; intros done g l G H; cbn [ofold rev app]; [exists g, l; now split|].
  destruct (G q (or_introl eq_refl)) as [Gq Rq]. destruct (sr_step_ok rat D done g l q Dp Gq Rq H) as (g1 & l1 & -> & H1). cbn [bind].
  destruct (IH (q :: done) g1 l1 (fun p I => G p (or_intror I)) H1) as (g2 & l2 & E & H2). exists g2, l2. split; [exact E|].
  rewrite <- app_assoc. exact H2.
Qed.
Lemma scaled_integral g l q : g <> 0%Z -> (0 < l)%Z -> (g | num q)%Z -> (den q | l)%Z ->
  integral (q * Qabs (inject_Z l / inject_Z g)).
Proof.
  intros Ng Pl (a & Ea) (b & Eb).
  assert (NG : ~ inject_Z g == 0). { intro C. apply (proj1 (inject_Z_injective g 0)) in C. now apply Ng. }
  assert (E : q * (inject_Z l / inject_Z g) == inject_Z (a * b)).
  { rewrite Eb, !inject_Z_mult. pose proof (num_den q) as N. rewrite Ea, inject_Z_mult in N.
    transitivity (q * inject_Z (den q) * inject_Z b / inject_Z g); [field; exact NG|]. rewrite N. field. exact NG. }
  destruct (Qlt_le_dec (inject_Z l / inject_Z g) 0) as [S|S].
  - exists (- (a * b))%Z. rewrite Qabs_neg by lra. rewrite inject_Z_opp, <- E. ring.
  - exists (a * b)%Z. rewrite Qabs_pos by exact S. exact E.
Qed.
Lemma sr_apply_ok s l : (forall q, In q l -> integral (q * s)) ->
  fst (sr_apply s l) = true /\ Forall2 (fun q r => r == q * s) l (snd (sr_apply s l)).
Proof.
  induction l as [|q l IH]; intro H; cbn [sr_apply]; [split; [reflexivity|constructor]|].
  assert (F : qfloor (q * s + (1 # 2)) == q * s) by (apply floor_int; [apply H; now left|lra|lra]).
  destruct (ce10 <? _) eqn:C.
  { exfalso. qb. assert (Z0 : qfloor (q * s + (1 # 2)) - q * s == 0) by (rewrite F; ring). rewrite (Qabs_wd _ _ Z0) in C.
    vm_compute in C. discriminate C. }
  destruct IH as [I1 I2]; [intros p I; apply H; now right|]. destruct (sr_apply s l) as [b t]. cbn [fst snd] in *.
  split; [exact I1|]. constructor; [exact F|exact I2].
Qed.
(** scaleRowIntegral either gives up or multiplies by a positive number *)
Lemma scaleRow_ok rat D q t : (0 < D <= 1000000000)%Z -> (forall p, In p (q :: t) -> on_grid D p /\ rat p = reduced p) -> ~ q == 0 ->
  exists b l, scaleRowIntegral rat (q :: t) = Done (b, l) /\ (b = true -> exists s, 0 < s /\
    (forall p, In p (q :: t) -> integral (p * s)) /\ Forall2 (fun p r => r == p * s) (q :: t) l).
Proof.
  intros Dp G Nq. unfold scaleRowIntegral. destruct (G q (or_introl eq_refl)) as [Gq Rq]. rewrite Rq. unfold reduced. fold (num q) (den q).
  assert (Nn : num q <> 0%Z) by (rewrite num_zero; exact Nq). destruct (Z.eqb_spec (num q) 0) as [C|_]; [now exfalso|].
  assert (I0 : inv D [q] (Z.abs (num q)) (den q)).
  { split; [lia|]. split; [unfold den; lia|]. split; [now apply den_divides|]. intros p [<-|[]] _.
    split; [apply Z.divide_abs_l; apply Z.divide_refl|apply Z.divide_refl]. }
  destruct (sr_steps_ok rat D t Dp [q] (Z.abs (num q)) (den q) (fun p I => G p (or_intror I)) I0) as (g & l & -> & Ng & Pl & _ & H).
  cbn [bind]. destruct (1000 <? _); [exists false, (q :: t); split; [reflexivity|discriminate]|].
  set (s := Qabs (inject_Z l / inject_Z g)). assert (A : forall p, In p (q :: t) -> integral (p * s)).
  { intros p I. destruct (Qeq_dec p 0) as [Z0|N0]; [exists 0%Z; rewrite Z0; change (inject_Z 0) with 0; ring|].
    destruct (H p) as [H1 H2]; [|exact N0|now apply scaled_integral].
    apply in_or_app. destruct I as [<-|I]; [right; now left|left; now apply -> in_rev]. }
  destruct (sr_apply_ok s (q :: t) A) as [S1 S2]. exists (fst (sr_apply s (q :: t))), (snd (sr_apply s (q :: t))).
  split; [now rewrite <- surjective_pairing|]. intros _. exists s. split; [|split; [exact A|exact S2]].
  assert (NG : ~ inject_Z g == 0). { intro C. apply (proj1 (inject_Z_injective g 0)) in C. now apply Ng. }
  assert (PL : 0 < inject_Z l) by (change 0 with (inject_Z 0); rewrite <- Zlt_Qlt; exact Pl).
  unfold s. pose proof (Qabs_nonneg (inject_Z l / inject_Z g)) as P. destruct (Qlt_le_dec 0 (Qabs (inject_Z l / inject_Z g))) as [Y|Y]; [exact Y|exfalso].
  assert (Z0 : Qabs (inject_Z l / inject_Z g) == 0) by lra. assert (Z1 : inject_Z l / inject_Z g == 0) by (revert Z0; apply Qabs_case; intros; lra).
  assert (Z2 : inject_Z l == 0). { transitivity (inject_Z l / inject_Z g * inject_Z g); [field; exact NG|]. rewrite Z1. ring. } lra.
Qed.
Lemma snap_ok D a t : (0 < D <= 1000000000)%Z -> on_grid D a -> ~ a == 0 -> integral t -> snap (t / a) == t / a.
Proof.
  intros Dp G Na It. unfold snap. destruct (Qabs _ <? ce12) eqn:C; [|reflexivity]. qb.
  destruct (grid_nonzero D a G ltac:(lia) Na) as (n & Ln & K). destruct (K (t / a) t 1 D It) as (p & Ep); [ring|ring|].
  symmetry. unfold qfloor in *. apply (near_exact p n); [exact Ln|exact Ep|]. unfold ce12, ce9 in *. lra.
Qed.
Lemma elem_integral_done q a : integral (a * q) -> ~ a == 0 -> ~ q == 0 -> exists b, column_elem true q a = Done b.
Proof.
  intros I Na Nq. unfold column_elem. destruct (negb _); [|destruct (Qeq_bool q (-1)); eexists; reflexivity].
  assert (F : qfloor (a * q + (1 # 100)) == a * q) by (apply floor_int; [exact I|lra|lra]). cbn [andb].
  destruct (ce9 <=? _) eqn:C.
  { exfalso. qb. assert (Z0 : a * q - qfloor (a * q + (1 # 100)) == 0) by (rewrite F; ring). rewrite (Qabs_wd _ _ Z0) in C. vm_compute in C. now apply C. }
  destruct (Qabs _ <=? _) eqn:C2; [|eexists; reflexivity]. exfalso. qb. rewrite (Qabs_wd _ _ F) in C2.
  destruct I as (z & Ez). rewrite (Qabs_wd _ _ Ez) in C2. change (inject_Z (Z.abs z) <= 9 # 10) in C2.
  assert (Z0 : (Z.abs z < 1)%Z) by (rewrite Zlt_Qlt; change (inject_Z 1) with 1; lra).
  assert (z = 0%Z) by lia. subst z. change (inject_Z 0) with 0 in Ez. apply Qmult_integral in Ez. tauto.
Qed.
Lemma elem_sign_done s a : s = 1 \/ s = -1 -> exists b, column_elem true s a = Done b.
Proof. intros [-> | ->]; eexists; reflexivity. Qed.
Lemma omap_done {A B} (f : A -> outcome B) l : (forall a, In a l -> exists b, f a = Done b) -> exists bs, omap f l = Done bs.
Proof.
  induction l as [|a l IH]; intro H; cbn [omap]; [eexists; reflexivity|].
  destruct (H a (or_introl eq_refl)) as (b & ->). cbn [bind]. destruct IH as (bs & ->); [intros c I; apply H; now right|].
  eexists. reflexivity.
Qed.
Lemma grid_sign D s q : s = 1 \/ s = -1 -> on_grid D q -> on_grid D (s * q).
Proof.
  intros [-> | ->] (n & E & L); [exists n|exists (- n)%Z]; (split; [|lia]).
  - rewrite <- E. ring.
  - rewrite inject_Z_opp, <- E. ring.
Qed.

(** ** C124 *)
(** All numbers of the problem are multiples of 1/D and have at most nine digits,
    there are no stored zeros, and the rational found for such a number is the
    number itself in lowest terms. *)
Definition tame (rat : Q -> Z * Z) (m : mip) : Prop := exists D, (0 < D <= 1000000000)%Z /\
  (forall r j a, In r (m_rows m) -> In (j, a) (r_form r) -> on_grid D a /\ ~ a == 0) /\
  (forall r q, In r (m_rows m) -> r_lo r = Some q \/ r_hi r = Some q -> on_grid D q) /\
  (forall q, on_grid D q -> rat q = reduced q).
Lemma clean_row_done rat D r : (0 < D <= 1000000000)%Z ->
  (forall j a, In (j, a) (r_form r) -> on_grid D a /\ ~ a == 0) ->
  (forall q, r_lo r = Some q \/ r_hi r = Some q -> on_grid D q) ->
  (forall q, on_grid D q -> rat q = reduced q) -> exists p, clean_row rat true r = Done p.
Proof.
  intros Dp G Gs R. unfold clean_row. destruct (r_form r) as [|e0 w] eqn:F; [eexists; reflexivity|]. rewrite <- F in *.
  assert (Sg := sign_cases r).
  assert (M : exists q cp, multiplier rat r = Done (q, cp) /\ forall j a, In (j, a) (r_form r) -> exists b, column_elem true q a = Done b).
  { unfold multiplier. destruct (Qeq_bool (smallest (r_form r)) 1).
    { eexists. eexists. split; [reflexivity|]. intros j a _. now apply elem_sign_done. }
    destruct e0 as [j0 a0]. set (saved := map (fun e => sign_of r * snd e) (r_form r) ++ side_elem (sign_of r) (r_lo r) ++ side_elem (sign_of r) (r_hi r)).
    assert (Gv : forall p, In p saved -> on_grid D p /\ rat p = reduced p).
    { intros p I. assert (Gp : on_grid D p); [|split; [exact Gp|now apply R]]. unfold saved in I.
      apply in_app_or in I. destruct I as [I|I]; [|apply in_app_or in I; destruct I as [I|I]].
      - apply in_map_iff in I. destruct I as ([j a] & <- & I). apply grid_sign; [exact Sg|]. now apply (G j a).
      - destruct (r_lo r) as [q|]; [|destruct I]. destruct I as [<-|[]]. apply grid_sign; [exact Sg|]. apply Gs. now left.
      - destruct (r_hi r) as [q|]; [|destruct I]. destruct I as [<-|[]]. apply grid_sign; [exact Sg|]. apply Gs. now right. }
    assert (Hs : exists t, saved = (sign_of r * a0) :: t) by (unfold saved; rewrite F; eexists; reflexivity).
    destruct Hs as (t & Es). destruct (G j0 a0) as [G0 N0]; [rewrite F; now left|].
    assert (Nh : ~ sign_of r * a0 == 0) by (destruct Sg as [-> | ->]; lra).
    assert (Gv' := Gv). rewrite Es in Gv'.
    destruct (scaleRow_ok rat D _ t Dp Gv' Nh) as (b & l & E & K). rewrite <- Es in E. rewrite E. cbn [bind fst snd].
    destruct b; [|eexists; eexists; split; [reflexivity|]; intros j a _; now apply elem_sign_done].
    destruct (K eq_refl) as (s & Ps & Is & Fs). destruct l as [|z l]; [inversion Fs|]. cbn [hd]. rewrite F. rewrite <- F.
    inversion Fs as [|? ? ? ? Ez _]; subst. cbn [snd].
    assert (Iz : integral z). { destruct (Is _ (or_introl eq_refl)) as (y & Ey). exists y. rewrite Ez. exact Ey. }
    pose proof (snap_ok D a0 z Dp G0 N0 Iz) as Sn.
    assert (Em : snap (z / a0) == sign_of r * s). { rewrite Sn, Ez. field. exact N0. }
    eexists. eexists. split; [reflexivity|]. intros j a I. destruct (small_error _ saved); [|now apply elem_sign_done].
    destruct (G j a I) as [_ Na]. apply elem_integral_done; [|exact Na|].
    - assert (J : In (sign_of r * a) saved). { unfold saved. apply in_or_app. left. apply in_map_iff. exists (j, a). now split. }
      rewrite Es in J. destruct (Is _ J) as (y & Ey). exists y. rewrite Em, <- Ey. ring.
    - intro Z0. rewrite Em in Z0. destruct Sg as [Sg|Sg]; rewrite Sg in Z0; lra. }
  destruct M as (q & cp & -> & C). cbn [bind].
  destruct (omap_done (fun e => do b <- column_elem true q (snd e); Done (fst e, b)) (r_form r)) as (v & ->).
  { intros [j a] I. destruct (C j a I) as (b & Eb). cbn [fst snd]. rewrite Eb. eexists. reflexivity. }
  cbn [bind]. destruct (scaled_sides q (r_lo r) (r_hi r)). eexists. reflexivity.
Qed.
Theorem C124_done : forall rat m, tame rat m -> exists m' copies, clean_matrix rat true m = Done (m', copies).
Proof.
  intros rat m (D & Dp & G & Gs & R). unfold clean_matrix.
  destruct (omap_done (clean_row rat true) (m_rows m)) as (l & ->).
  - intros r I. apply (clean_row_done rat D r Dp); [intros j a J; now apply (G r j a)|intros q J; now apply (Gs r q)|exact R].
  - cbn [bind]. eexists. eexists. reflexivity.
Qed.
Print Assumptions C124_done.
Example C124_hypotheses : tame reduced ex1.
Proof.
  exists 4%Z. split; [lia|]. split; [|split; [|reflexivity]].
  - intros r j a I J. cbn in I. repeat (destruct I as [<-|I]); try destruct I; cbn in J;
      repeat (destruct J as [J|J]; [injection J as _ <-|]); try destruct J; (split; [|intro H; vm_compute in H; discriminate H]).
    + exists (-2)%Z. split; [reflexivity|lia].
    + exists (-3)%Z. split; [reflexivity|lia].
    + exists 4%Z. split; [reflexivity|lia].
    + exists 4%Z. split; [reflexivity|lia].
    + exists (-4)%Z. split; [reflexivity|lia].
  - intros r q I J. cbn in I. repeat (destruct I as [<-|I]); try destruct I; cbn in J; destruct J as [J|J]; try discriminate J; apply Some_inj in J; subst q.
    + exists (-4)%Z. split; [reflexivity|lia].
    + exists 0%Z. split; [reflexivity|lia].
    + exists 4%Z. split; [reflexivity|lia].
Qed.
