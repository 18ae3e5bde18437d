(** * Properties of CglZeroHalf *)

From Coq Require Import Qabs Lqa Lia.
From Verif Require Import Base Decide Model_ZeroHalf Proofs_ZeroHalf Proofs_ZeroHalfTotal.
Local Open Scope Q_scope.

(** ** Hypotheses on the problems, in terms of the solver's data *)

(** Coefficients within 1e-15 of an integer are that integer. *)
Definition exact_coefs (m : mip) : Prop :=
  forall r j a z, In r (m_rows m) -> In (j, a) (r_form r) ->
    Qabs (a - inject_Z z) <= (1 # 1000000000000000) -> a == inject_Z z.
(** The values of integer columns are well within int. *)
Definition small_point (m : mip) (x : point) : Prop :=
  forall j, (j < m_ncols m)%nat -> m_int m j = true ->
    inject_Z (1 - INT_MAX) < x j /\ x j < inject_Z (INT_MAX - 1).
(** The lower bounds of integer columns are below INT_MAX. *)
Definition small_lower (m b : mip) : Prop :=
  forall j l, (j < m_ncols m)%nat -> m_int m j = true -> m_clo b j = Some l ->
    l <= inject_Z (INT_MAX - 1).
Lemma small_lower_fine m b : small_lower m b -> lower_fine m b.
Proof.
  intros H j Hj Ij E. specialize (H j). unfold int_lower in E.
  destruct (m_clo b j) as [l|] eqn:El; [|discriminate]. specialize (H l Hj Ij eq_refl).
  destruct (l <? inject_Z (- INT_MAX)); [discriminate|]. unfold castint in E.
  destruct (int_range (Qceiling l)); [|discriminate]. apply Done_inj in E.
  pose proof (qceil_lt l) as C. unfold qceil in C. rewrite E in C.
  assert (inject_Z (INT_MAX - 1) == inject_Z INT_MAX - 1) by reflexivity. lra.
Qed.

(** The life of a generator that was refreshed with [m]: parameters are set,
    it is copied, cuts are generated at nodes [si].  [b] is the problem whose
    bounds the generator holds: that of the last call without the flag. *)
Inductive zlife (m : mip) : mip -> zhalf -> Prop :=
  | life_refresh debug h0 h : m_rows m <> [] -> small_lower m m ->
      refreshSolver debug h0 (Some m) = Done h -> zlife m m h
  | life_flags b h f : zlife m b h -> zlife m b (zh_setFlags h f)
  | life_pairs b h v : zlife m b h -> zlife m b (zh_setRowMaxPairCount h v)
  | life_fractional b h v : zlife m b h -> zlife m b (zh_setRowMaxFractionalCount h v)
  | life_copy b h : zlife m b h -> zlife m b (zh_copy h)
  | life_call b h env si x cs h' out mark : zlife m b h -> small_lower m si ->
      generateCuts env h si x cs = Done (h', out, mark) -> zlife m (if mark then b else si) h'.

Lemma call_loaded m b h env si x cs h' out mark :
  loaded_from m b h -> small_lower m si -> generateCuts env h si x cs = Done (h', out, mark) ->
  loaded_from m (if mark then b else si) h'.
Proof.
  intros L Hs E. apply generate_parts in E as (-> & [(Hm & -> & _)|(Hm & ks & Hh & _)]).
  - left. right. exact Hm.
  - destruct (Z.odd (h_flags h)); [subst h'; exact L|]. destruct Hh as [Hc Hr].
    exact (redo_loaded m b h si h' L Hc (small_lower_fine m si Hs) Hr).
Qed.
Lemma life_loaded m b h : zlife m b h -> loaded_from m b h.
Proof.
  induction 1 as [debug h0 h Hr Hs E|b h f H IH|b h f H IH|b h f H IH|b h H IH|b h env si x cs h' out mark H IH Hs E].
  - exact (refresh_loaded debug h0 m h Hr (small_lower_fine m m Hs) E).
  - exact IH.
  - exact IH.
  - exact IH.
  - left. left. reflexivity.
  - exact (call_loaded _ _ _ _ _ _ _ _ _ _ IH Hs E).
Qed.

(** ** C51: no cut removes a solution *)

(** With the bounds held after the call. *)
Theorem C51_cuts_valid m b h env si x cs h' out mark c :
  zlife m b h -> wf_mip m -> exact_coefs m -> small_point m x -> small_lower m si ->
  generateCuts env h si x cs = Done (h', out, mark) -> In c out ->
  In c cs \/ keeps_all (with_bounds m (if mark then b else si)) c.
Proof.
  intros L W Ce Ps Hs E Hc. apply life_loaded in L.
  pose proof (call_loaded _ _ _ _ _ _ _ _ _ _ L Hs E) as L'.
  apply generate_parts in E as (Em & [(Hm & -> & ->)|(Hm & ks & Hh & Ek & ->)]); [left; exact Hc|].
  apply fold_insert_in in Hc as [Hc|(k & Hk & ->)]; [left; exact Hc|]. right.
  refine (sep_keeps m _ env h' x ks k W Ce Ps L' _ Ek Hk).
  destruct (Z.odd (h_flags h)); [subst h'; exact Hm|]. destruct Hh as [_ Hr].
  apply redo_keeps in Hr as (_ & _ & _ & ->). exact Hm.
Qed.
Print Assumptions C51_cuts_valid.

(** For the node itself: a solver with the rows and integer columns of the
    problem and its own bounds, flag off. *)
Theorem C51_cuts_valid_at_node m b h env si x cs h' out mark c :
  zlife m b h -> wf_mip m -> exact_coefs m -> small_point m x -> small_lower m si ->
  m_ncols si = m_ncols m -> m_rows si = m_rows m ->
  (forall j, (j < m_ncols m)%nat -> m_int si j = m_int m j) ->
  Z.odd (h_flags h) = false ->
  generateCuts env h si x cs = Done (h', out, mark) -> In c out -> In c cs \/ keeps_all si c.
Proof.
  intros L W Ce Ps Hs En Er Ei Ef E Hc.
  pose proof (C51_cuts_valid m b h env si x cs h' out mark c L W Ce Ps Hs E Hc) as K.
  apply generate_parts in E as (-> & _). rewrite Ef in K. destruct K as [K|K]; [left; exact K|right].
  intros y (F1 & F2 & F3). apply K. split; [|split].
  - cbn [with_bounds m_rows]. rewrite <- Er. exact F1.
  - intros j Hj. apply F2. rewrite En. exact Hj.
  - intros j Hj Ij. cbn [with_bounds m_int m_ncols] in *. apply F3; [rewrite En; exact Hj|rewrite Ei by exact Hj; exact Ij].
Qed.
Print Assumptions C51_cuts_valid_at_node.

(** ** C52: shape and violation *)
Theorem C52_cuts_violated m b h env si x cs h' out mark c :
  zlife m b h -> wf_mip m -> small_lower m si ->
  generateCuts env h si x cs = Done (h', out, mark) -> In c out ->
  In c cs \/
  (rc_lb c = None /\ NoDup (map fst (rc_form c)) /\
   (forall j a, In (j, a) (rc_form c) ->
      (j < m_ncols m)%nat /\ m_int m j = true /\ integral a /\ ~ a == 0) /\
   exists u, rc_ub c = Some (inject_Z u) /\ (1 # 1000) < value (rc_form c) x - inject_Z u).
Proof.
  intros L W Hs E Hc. apply life_loaded in L. pose proof (call_loaded _ _ _ _ _ _ _ _ _ _ L Hs E) as L'.
  apply generate_parts in E as (Em & [(Hm & -> & ->)|(Hm & ks & Hh & Ek & ->)]); [left; exact Hc|].
  apply fold_insert_in in Hc as [Hc|(k & Hk & ->)]; [left; exact Hc|]. right.
  pose proof (sep_loaded env h' x ks k Ek Hk) as Hl.
  assert (Hm' : h_mnz h' <> 0%nat).
  { destruct (Z.odd (h_flags h)); [subst h'; exact Hm|]. destruct Hh as [_ Hr].
    apply redo_keeps in Hr as (_ & _ & _ & ->). exact Hm. }
  pose proof (loaded_entries m _ h' W L' Hl Hm') as En.
  destruct (sep_shape env h' (icol_of m) x ks k En Ek Hk) as ((S1 & S2 & S3) & V).
  split; [reflexivity|]. split; [|split].
  - cbn [to_row rc_form]. rewrite map_map. exact S1.
  - cbn [to_row rc_form]. intros j a H. apply in_map_iff in H as ([i z] & E & Hi). cbn [fst snd] in E.
    injection E as -> <-. destruct (S2 j z Hi) as (N & _ & Hj & Ij).
    split; [exact Hj|]. split; [exact Ij|]. split; [apply integral_inject|].
    intro Z0. apply N. unfold Qeq in Z0. cbn in Z0. lia.
  - exists (k_rhs k). split; [reflexivity|]. cbn [to_row rc_form].
    change (value _ x) with (zvalue (k_form k) x). rewrite <- S3.
    unfold MIN_VIOLATION, zEPS in V. lra.
Qed.
Print Assumptions C52_cuts_violated.
(** In terms of the violation of the cut. *)
Theorem C52_violation_amount m b h env si x cs h' out mark c :
  zlife m b h -> wf_mip m -> small_lower m si ->
  generateCuts env h si x cs = Done (h', out, mark) -> In c out ->
  In c cs \/ (1 # 1000) < rowcut_violation c x.
Proof.
  intros L W Hs E Hc. destruct (C52_cuts_violated m b h env si x cs h' out mark c L W Hs E Hc)
    as [H|(Hl & _ & _ & u & Hu & V)]; [left; exact H|right].
  unfold rowcut_violation. rewrite Hl, Hu. cbv zeta.
  replace (Qle_bool 0 (value (rc_form c) x - inject_Z u)) with true by (symmetry; apply Qle_bool_iff; lra).
  destruct (Qle_bool _ 0) eqn:B; [|exact V]. apply Qle_bool_iff in B. lra.
Qed.
Print Assumptions C52_violation_amount.

(** ** C53: the mark "globally valid" *)

(** Every call so far was made with the flag. *)
Inductive zlife_global (m : mip) : zhalf -> Prop :=
  | glob_refresh debug h0 h : m_rows m <> [] -> small_lower m m ->
      refreshSolver debug h0 (Some m) = Done h -> zlife_global m h
  | glob_flags h f : zlife_global m h -> zlife_global m (zh_setFlags h f)
  | glob_call h env si x cs h' out : zlife_global m h -> small_lower m si ->
      generateCuts env h si x cs = Done (h', out, true) -> zlife_global m h'.
Lemma global_life m h : zlife_global m h -> zlife m m h.
Proof.
  induction 1 as [debug h0 h Hr Hs E|h f H IH|h env si x cs h' out H IH Hs E].
  - exact (life_refresh m debug h0 h Hr Hs E).
  - exact (life_flags m m h f IH).
  - exact (life_call m m h env si x cs h' out true IH Hs E).
Qed.
Theorem C53_marked_cuts_global_partial m h env si x cs h' out mark c :
  zlife_global m h -> wf_mip m -> exact_coefs m -> small_point m x -> small_lower m si ->
  Z.odd (h_flags h) = true ->
  generateCuts env h si x cs = Done (h', out, mark) -> In c out ->
  mark = true /\ (In c cs \/ keeps_all m c).
Proof.
  intros L W Ce Ps Hs Ef E Hc. assert (Em := E). apply generate_parts in Em as (-> & _).
  split; [exact Ef|].
  pose proof (C51_cuts_valid m m h env si x cs h' out _ c (global_life m h L) W Ce Ps Hs E Hc) as K.
  rewrite Ef in K. destruct K as [K|K]; [left; exact K|right].
  destruct m. exact K.
Qed.
Print Assumptions C53_marked_cuts_global_partial.

(** ** C54: the call returns *)

(** Sizes of the data, as integers: coefficients of the rows whose columns are
    all integer (each row is kept at most twice), their sides, and the values
    of the integer columns. *)
Definition qsize (q : Q) : Z := Qceiling (Qabs q).
Definition all_integer (m : mip) (r : row) : bool := forallb (fun e => m_int m (fst e)) (r_form r).
Definition coef_size (m : mip) : Z :=
  sumZ (fun r => if all_integer m r then 2 * sumZ (fun e : nat * Q => qsize (snd e)) (r_form r) else 0)%Z (m_rows m).
Definition side_size (o : option Q) : Z := match o with Some q => qsize q | None => 0%Z end.
Definition sides_size (m : mip) : Z :=
  sumZ (fun r => if all_integer m r then side_size (r_lo r) + side_size (r_hi r) else 0)%Z (m_rows m).
Definition point_size (m : mip) (x : point) : Z :=
  sumZ (fun j => if m_int m j then qsize (x j) + 2 else 0)%Z (seq 0 (m_ncols m)).
Definition sizes_fit (m : mip) (x : point) : Prop :=
  (coef_size m + 1 <= INT_MAX)%Z /\ (sides_size m + point_size m x + 1 <= INT_MAX)%Z /\
  forall r, In r (m_rows m) -> all_integer m r = true ->
    (Z.of_nat (length (r_form r)) * (Z.of_nat (length (r_form r)) - 1) <= INT_MAX)%Z.
(** The point is within the bounds up to 1 (any tolerance of a solver). *)
Definition loosely_in_bounds (m b : mip) (x : point) : Prop :=
  forall j, (j < m_ncols m)%nat -> m_int m j = true ->
    ge_opt_lo (x j + 1) (m_clo b j) /\ le_opt_hi (x j - 1) (m_chi b j).
Definition no_zeros (m : mip) : Prop :=
  forall r j a, In r (m_rows m) -> In (j, a) (r_form r) -> ~ a == 0.

Section Sizes.
  Local Open Scope Z_scope.
  Lemma sumZ_le {A} (f g : A -> Z) l : (forall a, In a l -> f a <= g a) -> sumZ f l <= sumZ g l.
  Proof.
    induction l as [|a l IH]; intro H; cbn [sumZ fold_right]; [lia|].
    fold (sumZ f l) (sumZ g l). specialize (IH (fun b Hb => H b (or_intror Hb))).
    specialize (H a (or_introl eq_refl)). lia.
  Qed.
  Lemma sumZ_app {A} (f : A -> Z) l l' : sumZ f (l ++ l') = sumZ f l + sumZ f l'.
  Proof. induction l as [|a l IH]; cbn [app sumZ fold_right]; [reflexivity|]. fold (sumZ f (l ++ l')) (sumZ f l). lia. Qed.
  Lemma sumZ_concat {A B} (f : B -> Z) (g : A -> list B) l :
    sumZ f (concat (map g l)) = sumZ (fun a => sumZ f (g a)) l.
  Proof. induction l as [|a l IH]; [reflexivity|]. cbn [map concat]. rewrite sumZ_app, IH. reflexivity. Qed.
  Lemma nearest_size q : Z.abs (nearest q) <= qsize q.
  Proof.
    destruct (nearest_bounds q) as [A B]. unfold qsize.
    pose proof (qceil_ge (Qabs q)) as C. unfold qceil in C.
    pose proof (Qle_Qabs q) as D1. pose proof (Qle_Qabs (- q)) as D2. rewrite Qabs_opp in D2.
    assert (G : forall z, (inject_Z z < inject_Z (Qceiling (Qabs q)) + 1)%Q -> z <= Qceiling (Qabs q)).
    { intros z Hz. change 1%Q with (inject_Z 1) in Hz. rewrite <- inject_Z_plus, <- Zlt_Qlt in Hz. lia. }
    apply Z.abs_le. split.
    - assert (- nearest q <= Qceiling (Qabs q)); [|lia]. apply G. rewrite inject_Z_opp. lra.
    - apply G. lra.
  Qed.
  Lemma qsize_nonneg q : 0 <= qsize q.
  Proof. pose proof (nearest_size q). lia. Qed.
  Lemma side_nonneg o : 0 <= side_size o.
  Proof. destruct o; [apply qsize_nonneg|reflexivity]. Qed.

  Lemma good_all_integer m lb0 r :
    (forall j, (j < m_ncols m)%nat -> m_int m j = false -> lb0 j = INT_MAX) ->
    wf_row (m_ncols m) r -> row_good lb0 r = true -> all_integer m r = true.
  Proof.
    intros Hb [_ W] G. unfold row_good in G. apply andb_true_iff in G as [_ G].
    unfold all_integer. rewrite forallb_forall in *. intros [j a] Hj. specialize (G (j, a) Hj).
    cbn [fst snd] in *. unfold entry_good in G. apply andb_true_iff in G as [G _]. cbn [fst] in G.
    destruct (m_int m j) eqn:Ej; [reflexivity|]. rewrite (Hb j (W j a Hj) Ej), Z.eqb_refl in G. discriminate.
  Qed.
  Lemma entries_size r : sumZ (fun e : nat * Z => Z.abs (snd e)) (row_entries r) <= sumZ (fun e : nat * Q => qsize (snd e)) (r_form r).
  Proof.
    unfold row_entries. induction (r_form r) as [|[j a] f IH]; [cbn; lia|].
    cbn [map filter fst snd]. pose proof (nearest_size a) as N.
    change (sumZ (fun e : nat * Q => qsize (snd e)) ((j, a) :: f)) with (qsize a + sumZ (fun e : nat * Q => qsize (snd e)) f).
    destruct (negb (nearest a =? 0)).
    - cbn [sumZ fold_right snd] in *. fold (sumZ (fun e : nat * Z => Z.abs (snd e))) in *. unfold sumZ in *. lia.
    - lia.
  Qed.
  Lemma copies_size r :
    sumZ row_abs (copies r) <= 2 * sumZ (fun e : nat * Q => qsize (snd e)) (r_form r) /\
    sumZ (fun z => Z.abs (z_rhs z)) (copies r) <= side_size (r_lo r) + side_size (r_hi r).
  Proof.
    split.
    - pose proof (entries_size r) as E. pose proof (copies_len r) as L. pose proof (copies_form r) as F.
      assert (N : 0 <= sumZ (fun e : nat * Z => Z.abs (snd e)) (row_entries r)) by (apply sumZ_nonneg; intro; lia).
      destruct (copies r) as [|z1 [|z2 [|z3 l]]]; cbn [length] in L; try lia; cbn [sumZ fold_right].
      + lia.
      + unfold row_abs. rewrite (F z1) by (left; reflexivity). lia.
      + unfold row_abs. rewrite (F z1) by (left; reflexivity). rewrite (F z2) by (right; left; reflexivity). lia.
    - unfold copies.
      assert (S1 := side_nonneg (r_lo r)). assert (S2 := side_nonneg (r_hi r)).
      assert (L : forall l, row_lo r = Some l -> Z.abs (nearest l) <= side_size (r_lo r)).
      { intros l El. unfold row_lo in El. destruct (r_lo r) as [l'|]; [|discriminate].
        destruct (_ <? _)%Q; [|discriminate]. injection El as <-. apply nearest_size. }
      assert (U : forall u, row_up r = Some u -> Z.abs (nearest u) <= side_size (r_hi r)).
      { intros u Eu. unfold row_up in Eu. destruct (r_hi r) as [u'|]; [|discriminate].
        destruct (_ <? _)%Q; [|discriminate]. injection Eu as <-. apply nearest_size. }
      destruct (row_lo r) as [l|], (row_up r) as [u|]; try specialize (L _ eq_refl); try specialize (U _ eq_refl);
        try (destruct (_ && _)); try (destruct (Qeq_bool l u)); cbn [sumZ fold_right z_rhs]; lia.
  Qed.
  Lemma rows_sizes m lb0 :
    (forall j, (j < m_ncols m)%nat -> m_int m j = false -> lb0 j = INT_MAX) -> wf_mip m ->
    sumZ row_abs (concat (map (row_copies lb0) (m_rows m))) <= coef_size m /\
    sumZ (fun z => Z.abs (z_rhs z)) (concat (map (row_copies lb0) (m_rows m))) <= sides_size m.
  Proof.
    intros Hb W. rewrite !sumZ_concat. split; apply sumZ_le; intros r Hr; unfold row_copies;
      destruct (row_good lb0 r) eqn:G;
      try (rewrite (good_all_integer m lb0 r Hb (W r Hr) G); apply copies_size);
      cbn [sumZ fold_right]; destruct (all_integer m r); try lia.
    - assert (0 <= sumZ (fun e : nat * Q => qsize (snd e)) (r_form r)); [|lia].
      apply sumZ_nonneg. intro. apply qsize_nonneg.
    - pose proof (side_nonneg (r_lo r)). pose proof (side_nonneg (r_hi r)). lia.
  Qed.
End Sizes.

(** Continuous columns stay marked. *)
Definition marks_kept (m : mip) (h : zhalf) : Prop :=
  h_mnz h = 0%nat \/
  (h_mc h = m_ncols m /\ forall j, (j < m_ncols m)%nat -> m_int m j = false -> h_lb h j = INT_MAX).
Lemma life_marks m b h : zlife m b h -> marks_kept m h.
Proof.
  induction 1 as [debug h0 h Hr Hs E|b h f H IH|b h f H IH|b h f H IH|b h H IH|b h env si x cs h' out mark H IH Hs E];
    try exact IH.
  - unfold refreshSolver in E. destruct (Nat.eqb (length (m_rows m)) 0) eqn:E0.
    { apply Nat.eqb_eq in E0. destruct (m_rows m); [contradiction|discriminate]. }
    apply bind_done in E as (b & Eb & E). cbv zeta in E.
    destruct (Nat.eqb (sum_nat _) 0); [apply Done_inj in E; subst; left; reflexivity|].
    destruct (debug && _); [discriminate|]. apply Done_inj in E; subst h. right.
    split; [reflexivity|]. intros j Hj Ij. pose proof (load_bounds_ok m _ _ _ Eb j Hj) as B. rewrite Ij in B. exact (proj1 B).
  - apply generate_parts in E as (-> & [(Hm & -> & _)|(Hm & ks & Hh & _)]); [left; exact Hm|].
    destruct (Z.odd (h_flags h)); [subst h'; exact IH|]. destruct Hh as [_ Hr].
    unfold redo_bounds in Hr. apply bind_done in Hr as (p & Ep & Hr). apply Done_inj in Hr; subst h'.
    destruct IH as [IH|[I1 I2]]; [left; exact IH|right]. split; [exact I1|].
    intros j Hj Ij. cbn [h_lb]. pose proof (redo_bounds_ok si _ _ _ Ep j) as R. cbn [fst snd] in R.
    rewrite (I2 j Hj Ij), Z.eqb_refl, andb_false_r in R. exact (proj1 R).
Qed.
Lemma int_bounds_done m b x j :
  small_point m x -> loosely_in_bounds m b x -> (j < m_ncols m)%nat -> m_int m j = true ->
  (exists l, int_lower (m_clo b j) = Done l) /\ (exists u, int_upper (m_chi b j) = Done u).
Proof.
  intros Ps Lb Hj Ij. destruct (Ps j Hj Ij) as [P1 P2]. destruct (Lb j Hj Ij) as [B1 B2].
  assert (K1 : inject_Z (INT_MAX - 1) == inject_Z INT_MAX - 1) by reflexivity.
  assert (K2 : inject_Z (1 - INT_MAX) == inject_Z (- INT_MAX) + 1) by reflexivity.
  split.
  - unfold int_lower. destruct (m_clo b j) as [l|]; [|eexists; reflexivity]. cbn in B1.
    destruct (l <? inject_Z (- INT_MAX)) eqn:E; [eexists; reflexivity|]. qb.
    unfold castint. replace (int_range (Qceiling l)) with true; [eexists; reflexivity|].
    symmetry. unfold int_range. apply andb_true_iff. split; apply Z.leb_le; rewrite Zle_Qle.
    + pose proof (qceil_ge l) as C. unfold qceil in C. assert (inject_Z INT_MIN <= inject_Z (- INT_MAX)) by discriminate. lra.
    + pose proof (qceil_lt l) as C. unfold qceil in C.
      assert (L : (Qceiling l < INT_MAX + 1)%Z); [|rewrite <- Zle_Qle; lia].
      rewrite Zlt_Qlt, inject_Z_plus. change (inject_Z 1) with 1. lra.
  - unfold int_upper. destruct (m_chi b j) as [u|]; [|eexists; reflexivity]. cbn in B2.
    destruct (inject_Z INT_MAX <? u) eqn:E; [eexists; reflexivity|]. qb.
    unfold castint. replace (int_range (Qfloor u)) with true; [eexists; reflexivity|].
    symmetry. unfold int_range. apply andb_true_iff. split; apply Z.leb_le.
    + pose proof (qfloor_lt u) as C. unfold qfloor in C.
      assert (L : (- INT_MAX - 1 < Qfloor u)%Z); [|unfold INT_MIN, INT_MAX in *; lia].
      rewrite Zlt_Qlt. unfold Z.sub. rewrite inject_Z_plus. change (inject_Z (- (1))) with (- (1)). lra.
    + pose proof (qfloor_le u) as C. unfold qfloor in C. rewrite Zle_Qle. lra.
Qed.

Lemma near_size m b x h j t :
  small_point m x -> loosely_in_bounds m b x -> bounds_of m b (h_lb h) (h_ub h) ->
  (j < m_ncols m)%nat -> m_int m j = true -> bound_near h x j t ->
  (Z.abs (if t then h_lb h j else h_ub h j) <= qsize (x j) + 2)%Z.
Proof.
  intros Ps Lb Bo Hj Ij Nr. destruct (Ps j Hj Ij) as [P1 P2]. destruct (Lb j Hj Ij) as [B1 B2].
  specialize (Bo j Hj). rewrite Ij in Bo. destruct Bo as [L U].
  assert (K1 : inject_Z (INT_MAX - 1) == inject_Z INT_MAX - 1) by reflexivity.
  assert (K2 : inject_Z (1 - INT_MAX) == inject_Z (- INT_MAX) + 1) by reflexivity.
  pose proof (qceil_ge (Qabs (x j))) as C. unfold qceil in C. unfold qsize.
  pose proof (Qle_Qabs (x j)) as D1. pose proof (Qle_Qabs (- x j)) as D2. rewrite Qabs_opp in D2.
  assert (G : forall z, x j - 2 <= inject_Z z -> inject_Z z <= x j + 2 -> (Z.abs z <= Qceiling (Qabs (x j)) + 2)%Z).
  { intros z A B. apply Z.abs_le. split; rewrite Zle_Qle; rewrite ?inject_Z_opp, inject_Z_plus; change (inject_Z 2) with 2; lra. }
  destruct t; cbn [bound_near] in Nr; apply G.
  - lra.
  - unfold int_lower in L. destruct (m_clo b j) as [l|]; cbn in B1.
    + destruct (l <? inject_Z (- INT_MAX)) eqn:E; [apply Done_inj in L; rewrite <- L; lra|].
      unfold castint in L. destruct (int_range _); [|discriminate]. apply Done_inj in L. rewrite <- L.
      pose proof (qceil_lt l) as F. unfold qceil in F. lra.
    + apply Done_inj in L. rewrite <- L. lra.
  - unfold int_upper in U. destruct (m_chi b j) as [u|]; cbn in B2.
    + destruct (inject_Z INT_MAX <? u) eqn:E; [apply Done_inj in U; rewrite <- U; lra|].
      unfold castint in U. destruct (int_range _); [|discriminate]. apply Done_inj in U. rewrite <- U.
      pose proof (qfloor_lt u) as F. unfold qfloor in F. lra.
    + apply Done_inj in U. rewrite <- U. lra.
  - lra.
Qed.

Lemma loaded_fits m b h x :
  wf_mip m -> small_point m x -> loosely_in_bounds m b x -> sizes_fit m x ->
  loaded_from m b h -> h_loaded h = true -> h_mnz h <> 0%nat ->
  data_fits h (icol_of m) x (fun j => if m_int m j then qsize (x j) + 2 else 0)%Z.
Proof.
  intros W Ps Lb (S1 & S2 & _) L Hl Hm.
  destruct L as [[L|L]|(L1 & (lb0 & L2 & L2') & L3 & L4)]; [congruence|congruence|].
  destruct (rows_sizes m lb0 L2' W) as [R1 R2]. constructor.
  - intro j. pose proof (qsize_nonneg (x j)). destruct (m_int m j); lia.
  - intros j t _ [Hj Ij] Nr. rewrite Ij. exact (near_size m b x h j t Ps Lb L3 Hj Ij Nr).
  - rewrite L2. lia.
  - rewrite L2. unfold cols. rewrite L1. fold (point_size m x). lia.
Qed.
Lemma loaded_gcd m b h :
  wf_mip m -> exact_coefs m -> no_zeros m -> loaded_from m b h -> h_loaded h = true -> h_mnz h <> 0%nat ->
  forall z, In z (h_rows h) -> row_gcd z <> 0%Z.
Proof.
  intros W Ce Nz L Hl Hm z Hz.
  destruct L as [[L|L]|(L1 & (lb0 & L2 & L2') & L3 & L4)]; [congruence|congruence|].
  rewrite L2 in Hz. apply in_concat in Hz as (l & Hi & Hz). apply in_map_iff in Hi as (r & <- & Hi).
  unfold row_copies in Hz. destruct (row_good lb0 r) eqn:G; [|destruct Hz].
  pose proof (copies_form r z Hz) as F. unfold row_good in G. apply andb_true_iff in G as [G1 G2].
  assert (Ne : forall j a, In (j, a) (r_form r) -> (nearest a =? 0)%Z = false).
  { intros j a Hj. rewrite forallb_forall in G2. specialize (G2 (j, a) Hj). unfold entry_good in G2. cbn [fst snd] in G2.
    apply andb_true_iff in G2 as [_ G2]. apply andb_true_iff in G2 as [G2 _]. apply near_int_ok in G2.
    pose proof (Ce r j a _ Hi Hj G2) as E. apply Z.eqb_neq. intro Z0. rewrite Z0 in E.
    exact (Nz r j a Hi Hj E). }
  apply row_gcd_nonzero.
  - rewrite F. unfold row_entries. destruct (r_form r) as [|[j a] f]; [discriminate|].
    cbn [map filter fst snd]. rewrite (Ne j a (or_introl eq_refl)). discriminate.
  - rewrite F. intros j a Hj. apply row_entries_in in Hj as (_ & _ & _ & N). exact N.
Qed.
Lemma loaded_short m b h x :
  wf_mip m -> sizes_fit m x -> loaded_from m b h -> h_loaded h = true -> h_mnz h <> 0%nat ->
  forall z, In z (h_rows h) -> row_short z.
Proof.
  intros W (_ & _ & S3) L Hl Hm z Hz.
  destruct L as [[L|L]|(L1 & (lb0 & L2 & L2') & L3 & L4)]; [congruence|congruence|].
  rewrite L2 in Hz. apply in_concat in Hz as (l & Hi & Hz). apply in_map_iff in Hi as (r & <- & Hi).
  unfold row_copies in Hz. destruct (row_good lb0 r) eqn:G; [|destruct Hz].
  specialize (S3 r Hi (good_all_integer m lb0 r L2' (W r Hi) G)).
  unfold row_short. rewrite (copies_form r z Hz).
  assert (Le : (length (row_entries r) <= length (r_form r))%nat).
  { unfold row_entries. eapply Nat.le_trans; [apply filter_len_le|]. rewrite map_length. lia. }
  refine (Z.le_trans _ _ _ _ S3). clear - Le. apply inj_le in Le.
  pose proof (Nat2Z.is_nonneg (length (row_entries r))) as P.
  revert Le P. generalize (Z.of_nat (length (row_entries r))) (Z.of_nat (length (r_form r))). intros a b Le P.
  destruct (Z.eq_dec b 0) as [->|N]; [replace a with 0%Z by lia; lia|]. nia.
Qed.

Theorem C54_call_returns m b h env si x cs :
  zlife m b h -> wf_mip m -> exact_coefs m -> no_zeros m -> small_point m x -> small_lower m si ->
  m_ncols si = m_ncols m -> sizes_fit m x ->
  loosely_in_bounds m (if Z.odd (h_flags h) then b else si) x ->
  (exists r, generateCuts env h si x cs = Done r) \/
  (v_wrapv env = false /\ generateCuts env h si x cs = Undef IntOverflow).
Proof.
  intros Lf W Ce Nz Ps Hs En Sf Lb. change (fine (v_wrapv env) (generateCuts env h si x cs)).
  pose proof (life_loaded m b h Lf) as L. pose proof (life_marks m b h Lf) as Mk.
  unfold generateCuts. cbv zeta.
  destruct (Nat.eqb (h_mnz h) 0) eqn:E0; [apply fine_done|]. apply Nat.eqb_neq in E0.
  destruct Mk as [Mk|[M1 M2]]; [contradiction|].
  replace (m_ncols si <? h_mc h)%nat with false by (symmetry; apply Nat.ltb_ge; lia).
  replace (h_mc h <? m_ncols si)%nat with false by (symmetry; apply Nat.ltb_ge; lia).
  rewrite !andb_false_r.
  assert (Sep : forall b' h', loaded_from m b' h' -> h_mnz h' <> 0%nat -> loosely_in_bounds m b' x ->
                 fine (v_wrapv env) (sep_012_cut env h' x)).
  { intros b' h' L' Hm' Lb'. destruct (h_loaded h') eqn:El; [|unfold sep_012_cut; rewrite El; apply fine_done].
    apply (sep_fine env h' (icol_of m) x (fun j => if m_int m j then qsize (x j) + 2 else 0)%Z).
    - exact (loaded_fits m b' h' x W Ps Lb' Sf L' El Hm').
    - exact (loaded_entries m b' h' W L' El Hm').
    - exact (loaded_gcd m b' h' W Ce Nz L' El Hm').
    - exact (loaded_short m b' h' x W Sf L' El Hm'). }
  destruct (Z.odd (h_flags h)) eqn:Ef.
  - cbn [bind]. apply fine_bind; [exact (Sep b h L E0 Lb)|intros; apply fine_done].
  - assert (R : exists h', redo_bounds h si = Done h').
    { unfold redo_bounds.
      assert (F : fine true (ofold (redo_bound si) (seq 0 (m_ncols si)) (h_lb h, h_ub h))).
      { apply (fine_ofold true (fun s : bounds_state => forall j, (j < m_ncols m)%nat -> m_int m j = false -> fst s j = INT_MAX));
          [|exact M2].
        intros s j Hj Hp. apply in_seq in Hj. unfold redo_bound.
        destruct (fst s j =? INT_MAX)%Z eqn:Ej.
        - split; [apply fine_done|]. intros s' E. apply Done_inj in E; subst. exact Hp.
        - assert (Ij : m_int m j = true).
          { destruct (m_int m j) eqn:Ij; [reflexivity|]. rewrite (Hp j ltac:(lia) Ij), Z.eqb_refl in Ej. discriminate. }
          destruct (int_bounds_done m si x j Ps Lb ltac:(lia) Ij) as [[l El] [u Eu]]. rewrite El, Eu. cbn [bind].
          split; [apply fine_done|]. intros s' E. apply Done_inj in E; subst s'. intros i Hi Ii. cbn [fst].
          rewrite put_other by congruence. exact (Hp i Hi Ii). }
      destruct F as [[p ->]|[F _]]; [|discriminate]. cbn [bind]. eexists. reflexivity. }
    destruct R as (h' & R). rewrite R. cbn [bind].
    assert (Hm' : h_mnz h' <> 0%nat) by (apply redo_keeps in R as (_ & _ & _ & ->); exact E0).
    apply fine_bind; [|intros; apply fine_done].
    refine (Sep si h' _ Hm' Lb).
    refine (redo_loaded m b h si h' L _ (small_lower_fine m si Hs) R). left. lia.
Qed.
Print Assumptions C54_call_returns.

(** refreshSolver returns too. *)
Theorem C54_refresh_returns debug h m x :
  wf_mip m -> exact_coefs m -> no_zeros m -> small_point m x -> loosely_in_bounds m m x ->
  exists h', refreshSolver debug h (Some m) = Done h'.
Proof.
  intros W Ce Nz Ps Lb. unfold refreshSolver. destruct (Nat.eqb (length (m_rows m)) 0); [eexists; reflexivity|].
  assert (F : fine true (ofold (load_bound m) (seq 0 (m_ncols m)) (fun _ => 0%Z, fun _ => 0%Z))).
  { apply (fine_ofold true (fun _ => True)); [|exact Logic.I]. intros s j Hj _. split; [|auto].
    apply in_seq in Hj. unfold load_bound. destruct (m_int m j) eqn:Ij; [|apply fine_done].
    destruct (int_bounds_done m m x j Ps Lb ltac:(lia) Ij) as [[l El] [u Eu]]. rewrite El, Eu. cbn [bind]. apply fine_done. }
  destruct F as [[p ->]|[F _]]; [|discriminate]. cbn [bind]. cbv zeta.
  destruct (Nat.eqb (sum_nat _) 0); [eexists; reflexivity|].
  match goal with |- context [debug && negb ?t] => assert (T : t = true); [|rewrite T; cbn [negb]; rewrite andb_false_r; eexists; reflexivity] end.
  apply Nat.eqb_eq. unfold h_mnz. cbn [h_rows].
  assert (Each : forall r, In r (m_rows m) -> length (concat (map z_form (row_copies (fst p) r))) = counted (fst p) r).
  { intros r Hr. unfold counted, row_copies. destruct (row_good (fst p) r) eqn:G; [|reflexivity].
    assert (Len : length (row_entries r) = length (r_form r)).
    { unfold row_good in G. apply andb_true_iff in G as [_ G]. rewrite forallb_forall in G.
      assert (Ne : forall j a, In (j, a) (r_form r) -> (nearest a =? 0)%Z = false).
      { intros j a Hj. specialize (G (j, a) Hj). unfold entry_good in G. cbn [fst snd] in G.
        apply andb_true_iff in G as [_ G]. apply andb_true_iff in G as [G _]. apply near_int_ok in G.
        pose proof (Ce r j a _ Hr Hj G) as E. apply Z.eqb_neq. intro Z0. rewrite Z0 in E. exact (Nz r j a Hr Hj E). }
      unfold row_entries. clear - Ne. induction (r_form r) as [|[j a] f IH]; [reflexivity|].
      cbn [map filter fst snd]. rewrite (Ne j a (or_introl eq_refl)). cbn [negb length]. f_equal. apply IH.
      intros i b Hb. exact (Ne i b (or_intror Hb)). }
    pose proof (copies_form r) as F. induction (copies r) as [|z l IH]; [reflexivity|].
    cbn [map concat length]. rewrite app_length, IH by (intros; apply F; right; assumption).
    rewrite (F z) by (left; reflexivity). rewrite Len. lia. }
  induction (m_rows m) as [|r rs IH]; [reflexivity|]. cbn [map concat sum_nat fold_right].
  rewrite map_app, concat_app, app_length, IH by (intros; apply Each; right; assumption).
  rewrite (Each r) by (left; reflexivity). reflexivity.
Qed.
Print Assumptions C54_refresh_returns.

(** ** C55: copies *)

(** A copy yields no cuts until it is refreshed. *)
Theorem C55_copy_is_silent env h si x cs h' out mark :
  generateCuts env (zh_copy h) si x cs = Done (h', out, mark) -> out = cs.
Proof.
  intro E. apply generate_parts in E as (_ & [(_ & _ & E)|(_ & ks & Hh & Ek & E)]); [exact E|].
  assert (L : h_loaded h' = false).
  { destruct (Z.odd (h_flags (zh_copy h))); [subst h'; reflexivity|]. destruct Hh as [_ Hr].
    apply redo_keeps in Hr as (_ & _ & -> & _). reflexivity. }
  unfold sep_012_cut in Ek. rewrite L in Ek. apply Done_inj in Ek; subst ks. exact E.
Qed.
Print Assumptions C55_copy_is_silent.
(** Refreshed with the same problem, it behaves like the original refreshed. *)
Theorem C55_copy_refreshed debug h m :
  m_rows m <> [] -> refreshSolver debug (zh_copy h) (Some m) = refreshSolver debug h (Some m).
Proof.
  intro H. unfold refreshSolver. destruct (Nat.eqb (length (m_rows m)) 0) eqn:E; [|reflexivity].
  apply Nat.eqb_eq in E. destruct (m_rows m); [contradiction|discriminate].
Qed.
Print Assumptions C55_copy_refreshed.
(** Assigning to a generator that holds a problem aborts. *)
Theorem C55_assign_aborts debug h0 m h rhs :
  m_rows m <> [] -> refreshSolver debug h0 (Some m) = Done h -> h_mnz h <> 0%nat -> zh_assign h rhs = Aborts.
Proof.
  intros Hr E Hm. unfold refreshSolver in E. destruct (Nat.eqb (length (m_rows m)) 0) eqn:E0.
  { apply Nat.eqb_eq in E0. destruct (m_rows m); [contradiction|discriminate]. }
  apply bind_done in E as (b & _ & E). cbv zeta in E.
  destruct (Nat.eqb (sum_nat _) 0); [apply Done_inj in E; subst h; exfalso; apply Hm; reflexivity|].
  destruct (debug && _); [discriminate|]. apply Done_inj in E; subst h. reflexivity.
Qed.
Print Assumptions C55_assign_aborts.

(** ** C56: refreshing replaces the problem *)
Theorem C56_refresh_forgets debug h1 h2 m :
  m_rows m <> [] -> h_flags h1 = h_flags h2 -> h_pairs h1 = h_pairs h2 -> h_fractional h1 = h_fractional h2 ->
  refreshSolver debug h1 (Some m) = refreshSolver debug h2 (Some m).
Proof.
  intros H E1 E2 E3. unfold refreshSolver. rewrite E1, E2, E3.
  destruct (Nat.eqb (length (m_rows m)) 0) eqn:E; [|reflexivity].
  apply Nat.eqb_eq in E. destruct (m_rows m); [contradiction|discriminate].
Qed.
Print Assumptions C56_refresh_forgets.

(** ** Examples *)

(** Any element may be taken from the vector; here one of least distance. *)
Fixpoint argmin (d : nat -> Z) (l : list nat) (i best : nat) (bd : Z) : nat :=
  match l with
  | [] => best
  | a :: l' => if (d a <? bd)%Z then argmin d l' (S i) i (d a) else argmin d l' (S i) best bd
  end.
Definition ex_env (wrapv : bool) : zenv :=
  ZEnv true wrapv (fun d l => argmin d l 0 0 INT_MAX) false (fun _ _ => false).

(** A boolean test of the hypotheses. *)
Definition all_intb (m : mip) (x : point) : bool :=
  forallb (fun r => forallb (fun e : nat * Q => integralb (snd e) && negb (Qeq_bool (snd e) 0)) (r_form r)) (m_rows m) &&
  forallb (fun j => (inject_Z (1 - INT_MAX) <? x j) && (x j <? inject_Z (INT_MAX - 1))) (seq 0 (m_ncols m)).
Definition lowerb (m b : mip) : bool :=
  forallb (fun j => match m_clo b j with Some l => l <=? inject_Z (INT_MAX - 1) | None => true end) (seq 0 (m_ncols m)).
Definition looseb (m b : mip) (x : point) : bool :=
  forallb (fun j => geb_lo (x j + 1) (m_clo b j) && leb_hi (x j - 1) (m_chi b j)) (seq 0 (m_ncols m)).
Definition sizesb (m : mip) (x : point) : bool :=
  ((coef_size m + 1 <=? INT_MAX) && (sides_size m + point_size m x + 1 <=? INT_MAX))%Z &&
  forallb (fun r => (Z.of_nat (length (r_form r)) * (Z.of_nat (length (r_form r)) - 1) <=? INT_MAX)%Z) (m_rows m).
Lemma all_intb_ok m x : all_intb m x = true -> exact_coefs m /\ no_zeros m /\ small_point m x.
Proof.
  unfold all_intb. intro H. apply andb_true_iff in H as [H1 H2]. rewrite forallb_forall in H1, H2.
  assert (E : forall r j a, In r (m_rows m) -> In (j, a) (r_form r) -> integral a /\ ~ a == 0).
  { intros r j a Hr Hj. specialize (H1 r Hr). rewrite forallb_forall in H1. specialize (H1 (j, a) Hj). cbn [snd] in H1.
    apply andb_true_iff in H1 as [A B]. split; [apply integralb_ok; exact A|].
    intro Z0. apply Qeq_bool_iff in Z0. rewrite Z0 in B. discriminate. }
  split; [|split].
  - intros r j a z Hr Hj D. destruct (E r j a Hr Hj) as [[k Ek] _]. rewrite Ek in D |- *.
    assert (D' : Qabs (inject_Z k - inject_Z z) < 1 # 2) by (eapply Qle_lt_trans; [exact D|reflexivity]).
    apply nearest_unique in D'. assert (Qabs (inject_Z k - inject_Z k) < 1 # 2) as D2.
    { setoid_replace (inject_Z k - inject_Z k) with 0 by ring. reflexivity. }
    apply nearest_unique in D2. rewrite <- D', D2. reflexivity.
  - intros r j a Hr Hj. exact (proj2 (E r j a Hr Hj)).
  - intros j Hj _. specialize (H2 j). assert (In j (seq 0 (m_ncols m))) by (apply in_seq; lia).
    specialize (H2 H). apply andb_true_iff in H2 as [A B]. qb. split; assumption.
Qed.
Lemma lowerb_ok m b : lowerb m b = true -> small_lower m b.
Proof.
  unfold lowerb. intro H. rewrite forallb_forall in H. intros j l Hj _ El. specialize (H j).
  assert (Hi : In j (seq 0 (m_ncols m))) by (apply in_seq; lia). specialize (H Hi). rewrite El in H. qb. exact H.
Qed.
Lemma looseb_ok m b x : looseb m b x = true -> loosely_in_bounds m b x.
Proof.
  unfold looseb. intro H. rewrite forallb_forall in H. intros j Hj _.
  assert (Hi : In j (seq 0 (m_ncols m))) by (apply in_seq; lia). specialize (H j Hi).
  apply andb_true_iff in H as [A B]. split; [apply geb_lo_ok|apply leb_hi_ok]; assumption.
Qed.
Lemma sizesb_ok m x : sizesb m x = true -> sizes_fit m x.
Proof.
  unfold sizesb. intro H. apply andb_true_iff in H as [H H3]. apply andb_true_iff in H as [H1 H2].
  apply Z.leb_le in H1, H2. split; [exact H1|]. split; [exact H2|]. rewrite forallb_forall in H3.
  intros r Hr _. apply Z.leb_le. exact (H3 r Hr).
Qed.
Ltac vmt := vm_compute; reflexivity.

Definition refreshed (m : mip) : zhalf :=
  match refreshSolver true zh_new (Some m) with Done h => h | _ => zh_new end.
Definition cuts_of (o : outcome (zhalf * list rowcut * bool)) : option (list rowcut * bool) :=
  match o with Done (_, out, mark) => Some (out, mark) | _ => None end.
Lemma cuts_of_done o out mark : cuts_of o = Some (out, mark) -> exists h, o = Done (h, out, mark).
Proof. destruct o as [[[h o] k]| | | |]; try discriminate. intro E. injection E as -> ->. exists h. reflexivity. Qed.

(** An odd cycle of three packing rows: the cut x0 + x1 + x2 <= 1. *)
Definition bin_rows (rs : list row) (n : nat) : mip :=
  Mip n rs (fun _ => Some 0) (fun _ => Some 1) (fun _ => true).
Definition tri : mip := bin_rows
  [Row [(0%nat, 1); (1%nat, 1)] None (Some 1);
   Row [(1%nat, 1); (2%nat, 1)] None (Some 1);
   Row [(0%nat, 1); (2%nat, 1)] None (Some 1)] 3.
Definition half : point := fun _ => 1 # 2.
Definition tri_cut : rowcut := RowCut [(0%nat, 1); (1%nat, 1); (2%nat, 1)] None (Some 1).
Lemma tri_life : zlife tri tri (refreshed tri).
Proof.
  apply (life_refresh tri true zh_new); [discriminate|apply lowerb_ok; vmt|]. unfold refreshed.
  destruct (C54_refresh_returns true zh_new tri half) as (h & ->); [apply wfb_ok; vmt| | | | |reflexivity].
  - apply (all_intb_ok tri half). vmt.
  - apply (all_intb_ok tri half). vmt.
  - apply (all_intb_ok tri half). vmt.
  - apply looseb_ok. vmt.
Qed.
Example C51_C52_hyp_met :
  zlife tri tri (refreshed tri) /\ wf_mip tri /\ exact_coefs tri /\ small_point tri half /\ small_lower tri tri /\
  Z.odd (h_flags (refreshed tri)) = false /\
  (exists h', generateCuts (ex_env true) (refreshed tri) tri half [] = Done (h', [tri_cut], false)).
Proof.
  split; [exact tri_life|]. split; [apply wfb_ok; vmt|].
  split; [apply (all_intb_ok tri half); vmt|]. split; [apply (all_intb_ok tri half); vmt|].
  split; [apply lowerb_ok; vmt|]. split; [vmt|]. apply cuts_of_done. vmt.
Qed.
Example C54_hyp_met :
  no_zeros tri /\ sizes_fit tri half /\ loosely_in_bounds tri tri half /\
  (exists r, generateCuts (ex_env false) (refreshed tri) tri half [] = Done r).
Proof.
  split; [apply (all_intb_ok tri half); vmt|]. split; [apply sizesb_ok; vmt|]. split; [apply looseb_ok; vmt|].
  destruct (cuts_of_done (generateCuts (ex_env false) (refreshed tri) tri half []) [tri_cut] false) as (h & ->); [vmt|eexists; reflexivity].
Qed.

(** A general integer column and a bound: 2 x1 <= x0 <= 3 at the node, so
    x1 <= 1 there; the root has x0 <= 4. *)
Definition gen (u : Q) : mip :=
  Mip 2 [Row [(0%nat, - (1)); (1%nat, 2)] None (Some 0)] (fun _ => Some 0)
      (fun j => Some (match j with 0%nat => u | _ => 2 end)) (fun _ => true).
Definition gen_x : point := fun j => match j with 0%nat => 11 # 4 | _ => 11 # 8 end.
Definition gen_cut : rowcut := RowCut [(1%nat, 1)] None (Some 1).
Lemma gen_life : zlife (gen 4) (gen 4) (refreshed (gen 4)).
Proof.
  apply (life_refresh (gen 4) true zh_new); [discriminate|apply lowerb_ok; vmt|]. unfold refreshed.
  destruct (C54_refresh_returns true zh_new (gen 4) gen_x) as (h & ->); [apply wfb_ok; vmt| | | | |reflexivity].
  - apply (all_intb_ok (gen 4) gen_x). vmt.
  - apply (all_intb_ok (gen 4) gen_x). vmt.
  - apply (all_intb_ok (gen 4) gen_x). vmt.
  - apply looseb_ok. vmt.
Qed.
Example C51_node_hyp_met :
  (exists h', generateCuts (ex_env true) (refreshed (gen 4)) (gen 3) gen_x [] = Done (h', [gen_cut], false)) /\
  m_ncols (gen 3) = m_ncols (gen 4) /\ m_rows (gen 3) = m_rows (gen 4) /\ small_lower (gen 4) (gen 3).
Proof. split; [apply cuts_of_done; vmt|]. split; [reflexivity|]. split; [reflexivity|apply lowerb_ok; vmt]. Qed.
Example C53_hyp_met :
  zlife_global tri (zh_setFlags (refreshed tri) 1) /\ Z.odd (h_flags (zh_setFlags (refreshed tri) 1)) = true /\
  (exists h', generateCuts (ex_env true) (zh_setFlags (refreshed tri) 1) tri half [] = Done (h', [tri_cut], true)).
Proof.
  split; [|split; [reflexivity|apply cuts_of_done; vmt]]. apply glob_flags.
  apply (glob_refresh tri true zh_new); [discriminate|apply lowerb_ok; vmt|]. unfold refreshed.
  destruct (C54_refresh_returns true zh_new tri half) as (h & ->); [apply wfb_ok; vmt| | | | |reflexivity].
  - apply (all_intb_ok tri half). vmt.
  - apply (all_intb_ok tri half). vmt.
  - apply (all_intb_ok tri half). vmt.
  - apply looseb_ok. vmt.
Qed.

(** The full statement of C53 is false: a call without the flag at a node
    leaves the node's bounds behind, and with the flag set afterwards a cut
    that relies on them is marked as globally valid. *)
Definition state_after (o : outcome (zhalf * list rowcut * bool)) : zhalf :=
  match o with Done (h, _, _) => h | _ => zh_new end.
Definition stale : zhalf :=
  zh_setFlags (state_after (generateCuts (ex_env true) (refreshed (gen 4)) (gen 3) gen_x [])) 1.
Theorem C53_marked_cuts_global_refuted :
  exists m b h env si x h' c y,
    zlife m b h /\ wf_mip m /\ exact_coefs m /\ small_point m x /\ small_lower m si /\
    generateCuts env h si x [] = Done (h', [c], true) /\
    feasible m y /\ ~ rowcut_sat c y.
Proof.
  destruct (cuts_of_done (generateCuts (ex_env true) stale (gen 4) gen_x []) [gen_cut] true) as (h' & E); [vmt|].
  exists (gen 4), (gen 3), stale, (ex_env true), (gen 4), gen_x, h', gen_cut,
    (fun j => match j with 0%nat => 4 | _ => 2 end).
  split.
  { unfold stale. apply life_flags.
    destruct (cuts_of_done (generateCuts (ex_env true) (refreshed (gen 4)) (gen 3) gen_x []) [gen_cut] false) as (h1 & E1); [vmt|].
    rewrite E1. cbn [state_after].
    refine (life_call (gen 4) (gen 4) _ _ (gen 3) gen_x _ h1 _ false gen_life _ E1). apply lowerb_ok. vmt. }
  split; [apply wfb_ok; vmt|]. split; [apply (all_intb_ok (gen 4) gen_x); vmt|].
  split; [apply (all_intb_ok (gen 4) gen_x); vmt|]. split; [apply lowerb_ok; vmt|].
  split; [exact E|]. split; [apply feasible_b_ok; vmt|]. apply rowcut_b_no. vmt.
Qed.
Print Assumptions C53_marked_cuts_global_refuted.

(** Without [small_point], C51 is false: an infinite bound is replaced by
    INT_MAX, and near that value it is used like a real bound. *)
Definition huge : mip :=
  Mip 2 [Row [(0%nat, - (1)); (1%nat, 2)] None (Some 0)] (fun _ => Some 0) (fun _ => None) (fun _ => true).
Definition huge_x : point := fun j => match j with 0%nat => inject_Z INT_MAX - (1 # 4) | _ => (inject_Z INT_MAX - (1 # 4)) / 2 end.
Theorem C51_huge_values_refuted :
  exists m b h env si x h' c y,
    zlife m b h /\ wf_mip m /\ exact_coefs m /\ small_lower m si /\ si = m /\
    generateCuts env h si x [] = Done (h', [c], false) /\
    feasible m y /\ ~ rowcut_sat c y.
Proof.
  destruct (cuts_of_done (generateCuts (ex_env true) (refreshed huge) huge huge_x [])
             [RowCut [(1%nat, 1)] None (Some (inject_Z 1073741823))] false) as (h' & E); [vmt|].
  exists huge, huge, (refreshed huge), (ex_env true), huge, huge_x, h',
    (RowCut [(1%nat, 1)] None (Some (inject_Z 1073741823))),
    (fun j => match j with 0%nat => inject_Z 2147483648 | _ => inject_Z 1073741824 end).
  split.
  { apply (life_refresh huge true zh_new); [discriminate|apply lowerb_ok; vmt|]. unfold refreshed.
    destruct (C54_refresh_returns true zh_new huge (fun _ => 0)) as (h & ->); [apply wfb_ok; vmt| | | | |reflexivity].
    - apply (all_intb_ok huge (fun _ => 0)). vmt.
    - apply (all_intb_ok huge (fun _ => 0)). vmt.
    - apply (all_intb_ok huge (fun _ => 0)). vmt.
    - apply looseb_ok. vmt. }
  split; [apply wfb_ok; vmt|]. split; [apply (all_intb_ok huge (fun _ => 0)); vmt|]. split; [apply lowerb_ok; vmt|].
  split; [reflexivity|]. split; [exact E|]. split; [apply feasible_b_ok; vmt|]. apply rowcut_b_no. vmt.
Qed.
Print Assumptions C51_huge_values_refuted.

(** Without wrapping, the second case of C54 happens on ordinary data: one
    column that no edge reaches is enough, for two distances COIN_INT_MAX are
    added (Cgl012cut.cpp:1893-1895). *)
Definition apart : mip :=
  Mip 4 (m_rows tri ++ [Row [(0%nat, 1); (3%nat, 1)] None (Some 20)]) (fun _ => Some 0)
      (fun j => Some (match j with 3%nat => 10 | _ => 1 end)) (fun _ => true).
Definition apart_x : point := fun j => match j with 3%nat => 11 # 2 | _ => 1 # 2 end.
Theorem C54_no_overflow_refuted :
  exists m b h env si x,
    zlife m b h /\ wf_mip m /\ exact_coefs m /\ no_zeros m /\ small_point m x /\ small_lower m si /\
    m_ncols si = m_ncols m /\ sizes_fit m x /\ loosely_in_bounds m si x /\ Z.odd (h_flags h) = false /\
    v_wrapv env = false /\ generateCuts env h si x [] = Undef IntOverflow.
Proof.
  exists apart, apart, (refreshed apart), (ex_env false), apart, apart_x.
  assert (K := all_intb_ok apart apart_x ltac:(vmt)). destruct K as (K1 & K2 & K3).
  split.
  { apply (life_refresh apart true zh_new); [discriminate|apply lowerb_ok; vmt|]. unfold refreshed.
    destruct (C54_refresh_returns true zh_new apart apart_x) as (h & ->); auto; [apply wfb_ok; vmt|apply looseb_ok; vmt]. }
  split; [apply wfb_ok; vmt|]. split; [exact K1|]. split; [exact K2|]. split; [exact K3|].
  split; [apply lowerb_ok; vmt|]. split; [reflexivity|]. split; [apply sizesb_ok; vmt|].
  split; [apply looseb_ok; vmt|]. split; [vmt|]. split; [reflexivity|vmt].
Qed.
Print Assumptions C54_no_overflow_refuted.

(** A copy is not equivalent to the original, and assignment may abort. *)
Theorem C55_copy_equivalent_refuted :
  exists m h env x h1 h2, zlife m m h /\
    generateCuts env h m x [] = Done (h1, [tri_cut], false) /\
    generateCuts env (zh_copy h) m x [] = Done (h2, [], false) /\ zh_assign h h = Aborts.
Proof.
  destruct (cuts_of_done (generateCuts (ex_env true) (refreshed tri) tri half []) [tri_cut] false) as (h1 & E1); [vmt|].
  destruct (cuts_of_done (generateCuts (ex_env true) (zh_copy (refreshed tri)) tri half []) [] false) as (h2 & E2); [vmt|].
  exists tri, (refreshed tri), (ex_env true), half, h1, h2. split; [exact tri_life|]. split; [exact E1|]. split; [exact E2|vmt].
Qed.
Print Assumptions C55_copy_equivalent_refuted.

(** Refreshing with a solver without rows keeps the rows of the old problem,
    and the cuts then remove solutions of the new one. *)
Theorem C56_refresh_no_rows_refuted :
  exists h m env x h' c y, refreshSolver true (refreshed tri) (Some m) = Done h /\
    generateCuts env h m x [] = Done (h', [c], false) /\ feasible m y /\ ~ rowcut_sat c y.
Proof.
  destruct (cuts_of_done (generateCuts (ex_env true) (refreshed tri) (bin_rows [] 3) half []) [tri_cut] false) as (h1 & E1); [vmt|].
  exists (refreshed tri), (bin_rows [] 3), (ex_env true), half, h1, tri_cut, (fun _ => 1).
  split; [reflexivity|]. split; [exact E1|]. split; [apply feasible_b_ok; vmt|]. apply rowcut_b_no. vmt.
Qed.
Print Assumptions C56_refresh_no_rows_refuted.

(** Explicit zeros: the assertion of refreshSolver fails; without assertions
    a row of zeros with right-hand side 0 is divided by its gcd 0. *)
Definition zeros : mip := bin_rows (m_rows tri ++ [Row [(0%nat, 0)] None (Some 0)]) 3.
Theorem C54_explicit_zeros_refuted :
  wf_mip zeros /\ exact_coefs zeros /\ refreshSolver true zh_new (Some zeros) = Aborts /\
  exists h, refreshSolver false zh_new (Some zeros) = Done h /\
    generateCuts (ex_env true) h zeros half [] = Undef IntDivByZero.
Proof.
  split; [apply wfb_ok; vmt|]. split.
  { intros r j a z Hr Hj D. assert (I : integral a).
    { apply integralb_ok. assert (Hb : forallb (fun r => forallb (fun e : nat * Q => integralb (snd e)) (r_form r)) (m_rows zeros) = true) by vmt.
      rewrite forallb_forall in Hb. specialize (Hb r Hr). rewrite forallb_forall in Hb. exact (Hb (j, a) Hj). }
    destruct I as [k Ek]. rewrite Ek in D |- *.
    assert (D' : Qabs (inject_Z k - inject_Z z) < 1 # 2) by (eapply Qle_lt_trans; [exact D|reflexivity]).
    apply nearest_unique in D'. assert (Qabs (inject_Z k - inject_Z k) < 1 # 2) as D2.
    { setoid_replace (inject_Z k - inject_Z k) with 0 by ring. reflexivity. }
    apply nearest_unique in D2. rewrite <- D', D2. reflexivity. }
  split; [vmt|].
  assert (N : match refreshSolver false zh_new (Some zeros) with
              | Done h => match generateCuts (ex_env true) h zeros half [] with Undef IntDivByZero => true | _ => false end
              | _ => false end = true) by vmt.
  destruct (refreshSolver false zh_new (Some zeros)) as [h| | | |]; try discriminate. exists h. split; [reflexivity|].
  destruct (generateCuts (ex_env true) h zeros half []) as [| | |[]|]; try discriminate. reflexivity.
Qed.
Print Assumptions C54_explicit_zeros_refuted.

Example C55_C56_hyp_met : m_rows tri <> [] /\ h_mnz (refreshed tri) = 6%nat /\
  h_flags (refreshed tri) = h_flags zh_new.
Proof. split; [discriminate|]. split; vmt. Qed.
