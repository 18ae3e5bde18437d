(** * Properties of the bound-tightening stage of CglProbing

    C44: no feasible point is lost and "infeasible" is only said when nothing
    is feasible.  C45: the stage always finishes, within the arrays it
    allocates and without failing an assertion.  C46: the row bounds handed
    back in mode 3. *)

From Coq Require Import Qabs.
From Verif Require Import Base Decide Model_ResidualCapacity Proofs_ResidualCapacity
  Model_Probing Proofs_Probing.
Local Open Scope Q_scope.

(** ** Vocabulary of the statements *)

(** Finite row bounds are smaller than 1e20 in absolute value. *)
Definition small_rows (p : mip) : Prop := forall r, In r (m_rows p) ->
  (forall l, r_lo r = Some l -> - inject_Z (10 ^ 20) < l /\ l < inject_Z (10 ^ 20)) /\
  (forall u, r_hi r = Some u -> - inject_Z (10 ^ 20) < u /\ u < inject_Z (10 ^ 20)).

(** The point is of moderate size: at most 1e29 everywhere, at most
    12345678900 on integer columns whose bound is infinite or beyond 1e12,
    and the terms of every row add up to at most 1e30. *)
Definition beyond_hi (h : option Q) : Prop :=
  match h with Some u => inject_Z (10 ^ 12) < u | None => True end.
Definition beyond_lo (l : option Q) : Prop :=
  match l with Some b => b < - inject_Z (10 ^ 12) | None => True end.
Fixpoint mass (v : vec) (y : point) : Q :=
  match v with [] => 0 | (j, a) :: v' => Qabs (a * y j) + mass v' y end.
Definition moderate (p : mip) (y : point) : Prop :=
  (forall j, (j < m_ncols p)%nat ->
     - inject_Z (10 ^ 29) <= y j /\ y j <= inject_Z (10 ^ 29) /\
     (m_int p j = true ->
        (beyond_hi (m_chi p j) -> y j <= inject_Z 12345678900) /\
        (beyond_lo (m_clo p j) -> - inject_Z 12345678900 <= y j))) /\
  (forall r, In r (m_rows p) -> mass (r_form r) y <= inject_Z (10 ^ 30)).

(** Objective value of a point, and being at least as good as the cutoff.
    (OSI: the offset is subtracted.) *)
Definition objective (p : mip) (c : probe_in) (y : point) : Q :=
  value (map (fun j => (j, pi_obj c j)) (seq 0 (m_ncols p))) y - pi_offset c.
Definition within_cutoff (p : mip) (c : probe_in) (y : point) : Prop :=
  pi_using c = true -> forall cut, pi_cutoff c = Some cut ->
    if pi_max c then cut <= objective p c y else objective p c y <= cut.
(** The cutoff and the objective terms are of moderate size; no offset when
    maximising. *)
Definition cutoff_ok (p : mip) (c : probe_in) (y : point) : Prop :=
  pi_using c = true -> forall cut, pi_cutoff c = Some cut ->
    (pi_max c = true -> pi_offset c == 0) /\
    (let u := (if pi_max c then - cut else cut) + pi_offset c in
     - inject_Z (10 ^ 20) < u /\ u < inject_Z (10 ^ 20)) /\
    mass (map (fun j => (j, pi_obj c j)) (seq 0 (m_ncols p))) y <= inject_Z (10 ^ 30).

Definition tight_sat (p : mip) (o : probe_out) (y : point) : Prop :=
  forall j, (j < m_ncols p)%nat -> ge_opt_lo (y j) (po_lower o j) /\ le_opt_hi (y j) (po_upper o j).

(** ** The clipped bounds *)

Lemma clip_box p x y : in_bounds p y -> moderate p y ->
  box (m_ncols p) (clip_lo p x) (clip_hi p x) y.
Proof.
  intros B [M _] j J. destruct (B j J) as [L U]. destruct (M j J) as (M1 & M2 & M3).
  unfold clip_lo, clip_hi. fold e29 in M1, M2.
  assert (G : Nat.eqb (colType p j) 2 = true -> m_int p j = true).
  { unfold colType. destruct (m_int p j); [auto|discriminate]. }
  split.
  - set (l := match m_clo p j with Some l => if - e29 <=? l then l else - e29 | None => - e29 end).
    assert (Hl : l <= y j).
    { unfold l. destruct (m_clo p j) as [b|]; [|exact M1]. destruct (- e29 <=? b); [exact L|exact M1]. }
    destruct (Nat.eqb (colType p j) 2 && (- e10 <? x j) && (l <? - e12)) eqn:E; [|exact Hl].
    apply andb_true_iff in E as [E1 E2]. apply andb_true_iff in E1 as [E1 _]. apply Qltb_lt in E2.
    destruct (M3 (G E1)) as [_ M4]. apply M4. unfold beyond_lo. destruct (m_clo p j) as [b|]; [|auto].
    unfold l in E2. destruct (- e29 <=? b) eqn:C; [exact E2|]. qb.
    assert (- e29 < - e12) by (vm_compute; reflexivity). fold e12. lra.
  - set (u := match m_chi p j with Some u => if u <=? e29 then u else e29 | None => e29 end).
    assert (Hu : y j <= u).
    { unfold u. destruct (m_chi p j) as [b|]; [|exact M2]. destruct (b <=? e29); [exact U|exact M2]. }
    destruct (Nat.eqb (colType p j) 2 && (x j <? e10) && (e12 <? u)) eqn:E; [|exact Hu].
    apply andb_true_iff in E as [E1 E2]. apply andb_true_iff in E1 as [E1 _]. apply Qltb_lt in E2.
    destruct (M3 (G E1)) as [M4 _]. apply M4. unfold beyond_hi. destruct (m_chi p j) as [b|]; [|auto].
    unfold u in E2. destruct (b <=? e29) eqn:C; [exact E2|]. qb.
    assert (e12 < e29) by (vm_compute; reflexivity). fold e12. lra.
Qed.

(** ** The rows of the working copy *)

Lemma mass_abs v y : Qabs (value v y) <= mass v y.
Proof.
  induction v as [|[j a] v IH]; cbn [value mass]; [apply Qle_refl|].
  eapply Qle_trans; [apply Qabs_triangle|]. apply Qplus_le_compat; [apply Qle_refl|exact IH].
Qed.
Lemma mass_nonneg v y : 0 <= mass v y.
Proof. eapply Qle_trans; [apply Qabs_nonneg|apply mass_abs]. Qed.
Lemma mass_filter f v y : mass (filter f v) y <= mass v y.
Proof.
  induction v as [|[j a] v IH]; cbn [filter mass]; [lra|]. pose proof (Qabs_nonneg (a * y j)).
  destruct (f (j, a)); cbn [mass]; lra.
Qed.
Lemma abs_bounds q b : Qabs q <= b -> - b <= q /\ q <= b.
Proof. intro H. apply Qabs_Qle_condition in H. exact H. Qed.

(** A row as the working copy wants it. *)
Definition usable (r : row) (y : point) : Prop :=
  row_sat r y /\ mass (r_form r) y <= e30 + e20 /\
  (forall l, r_lo r = Some l -> - e20 < l /\ l < e20) /\
  (forall u, r_hi r = Some u -> - e20 < u /\ u < e20).

Lemma fixed_part_value cl cu n y v : box n cl cu y -> cols_in n v ->
  fixed_part cl cu v == value (filter (fun e => negb (live cl cu e)) v) y.
Proof.
  intros B C. unfold fixed_part. induction v as [|[j a] v IH]; [reflexivity|].
  assert (C' : cols_in n v) by (intros e I; apply C; now right).
  cbn [filter]. destruct (negb (live cl cu (j, a))) eqn:E; [|exact (IH C')].
  cbn [map fold_right fst snd value]. rewrite (IH C').
  unfold live in E. cbn [fst] in E. qb.
  destruct (B j) as [L U]; [apply (C (j, a)); now left|].
  assert (cu j == y j) as -> by lra. lra.
Qed.
Lemma split_value cl cu y v :
  value v y == value (filter (fun e => negb (live cl cu e)) v) y
             + (value (filter (fun e => live cl cu e && is_neg e) v) y
                + value (filter (fun e => live cl cu e && is_pos e) v) y).
Proof.
  induction v as [|[j a] v IH]; [simpl; lra|]. cbn [filter value].
  destruct (live cl cu (j, a)) eqn:E; cbn [negb andb value].
  - unfold is_neg, is_pos. cbn [snd].
    destruct (a <? 0) eqn:N; destruct (0 <? a) eqn:P; cbn [value]; qb; [lra| | |].
    + rewrite IH. unfold is_neg, is_pos. lra.
    + rewrite IH. unfold is_neg, is_pos. lra.
    + assert (a == 0) as -> by lra. rewrite IH. unfold is_neg, is_pos. lra.
  - rewrite IH. lra.
Qed.

Lemma prepare_ok n cl cu y i r : box n cl cu y -> cols_in n (r_form r) -> usable r y ->
  let q := prepare cl cu (i, r) in
  ge_opt_lo (value (p_form q) y) (p_lo q) /\ le_opt_hi (value (p_form q) y) (p_hi q) /\
  (forall l, p_lo q = Some l -> l <= e31) /\ (forall u, p_hi q = Some u -> - e31 <= u).
Proof.
  intros B C ([S1 S2] & M & L & U). cbv zeta. unfold prepare, p_form. cbn [fst snd p_neg p_pos p_lo p_hi].
  pose proof (fixed_part_value cl cu n y (r_form r) B C) as F.
  pose proof (split_value cl cu y (r_form r)) as V.
  set (off := fixed_part cl cu (r_form r)) in *.
  assert (O : - (e30 + e20) <= off /\ off <= e30 + e20).
  { apply abs_bounds. rewrite F. eapply Qle_trans; [apply mass_abs|].
    eapply Qle_trans; [apply mass_filter|exact M]. }
  assert (X : e30 + e20 + e20 <= e31) by (vm_compute; discriminate).
  pose proof (value_app (filter (fun e => live cl cu e && is_neg e) (r_form r))
                        (filter (fun e => live cl cu e && is_pos e) (r_form r)) y) as VA.
  assert (E20 : 0 < e20) by (vm_compute; reflexivity).
  conjs.
  - destruct (r_lo r) as [l|]; [|exact Logic.I]. cbn [ge_opt_lo] in *. specialize (L l eq_refl).
    destruct (- e20 <? l) eqn:Q; qb; [|lra]. destruct (Qeq_bool off 0) eqn:Z; cbn [negb andb]; qb; lra.
  - destruct (r_hi r) as [u|]; [|exact Logic.I]. cbn [le_opt_hi] in *. specialize (U u eq_refl).
    destruct (u <? e20) eqn:Q; qb; [|lra]. destruct (Qeq_bool off 0) eqn:Z; cbn [negb andb]; qb; lra.
  - intros l H. destruct (r_lo r) as [l0|]; [|discriminate]. apply Some_inj in H. specialize (L l0 eq_refl).
    subst l. destruct ((- e20 <? l0) && negb (Qeq_bool off 0)); lra.
  - intros u H. destruct (r_hi r) as [u0|]; [|discriminate]. apply Some_inj in H. specialize (U u0 eq_refl).
    subst u. destruct ((u0 <? e20) && negb (Qeq_bool off 0)); lra.
Qed.

Lemma prepare_signed cl cu ir : signed (prepare cl cu ir).
Proof.
  split; intros e I; unfold prepare in I; simpl in I; apply filter_In in I as [_ I]; qb;
    unfold is_neg, is_pos in *; qb; assumption.
Qed.
Lemma prepare_cols n cl cu ir : cols_in n (r_form (snd ir)) -> cols_in n (p_form (prepare cl cu ir)).
Proof.
  intros C e I. apply C. unfold prepare, p_form in I. simpl in I.
  apply in_app_or in I as [I|I]; apply filter_In in I; tauto.
Qed.

(** ** Strengthened rows *)

Lemma value_shift (f : nat * Q -> bool) u v y :
  value (map (fun e : nat * Q => if f e then (fst e, snd e - u) else e) v) y
  == value v y - u * value (map (fun e : nat * Q => (fst e, 1)) (filter f v)) y.
Proof.
  induction v as [|[j a] v IH]; cbn [map filter value]; [lra|].
  destruct (f (j, a)); cbn [map value fst snd]; rewrite IH; lra.
Qed.
Lemma value_le0 v y : (forall e, In e v -> snd e * y (fst e) <= 0) -> value v y <= 0.
Proof.
  intro H. induction v as [|[j a] v IH]; cbn [value]; [lra|].
  assert (a * y j <= 0) by (apply (H (j, a)); now left).
  assert (value v y <= 0) by (apply IH; intros; apply H; now right). lra.
Qed.
Lemma value_ge0 v y : (forall e, In e v -> 0 <= snd e * y (fst e)) -> 0 <= value v y.
Proof.
  intro H. induction v as [|[j a] v IH]; cbn [value]; [lra|].
  assert (0 <= a * y j) by (apply (H (j, a)); now left).
  assert (0 <= value v y) by (apply IH; intros; apply H; now right). lra.
Qed.
Lemma count1 {A} (f : A -> bool) l : count f l = 1%nat -> exists a, filter f l = [a] /\ In a l /\ f a = true.
Proof.
  unfold count. destruct (filter f l) as [|a [|b t]] eqn:E; try discriminate. intros _.
  exists a. split; [reflexivity|]. apply filter_In. rewrite E. now left.
Qed.
Lemma binary_cases q : integral q -> 0 <= q -> q <= 1 -> q == 0 \/ q == 1.
Proof.
  intros [z H] A B. rewrite H in *. change 0 with (inject_Z 0) in A. change 1 with (inject_Z 1) in B.
  rewrite <- Zle_Qle in A, B. assert (z = 0 \/ z = 1)%Z as [->| ->] by lia; [left|right]; reflexivity.
Qed.
Lemma mass_shift (f : nat * Q -> bool) u v y : (forall e, In e v -> 0 <= y (fst e) /\ y (fst e) <= 1) ->
  (count f v <= 1)%nat ->
  mass (map (fun e : nat * Q => if f e then (fst e, snd e - u) else e) v) y <= mass v y + Qabs u.
Proof.
  assert (G : forall v, (forall e, In e v -> 0 <= y (fst e) /\ y (fst e) <= 1) -> count f v = 0%nat ->
    mass (map (fun e : nat * Q => if f e then (fst e, snd e - u) else e) v) y <= mass v y).
  { clear v. intros v H E. induction v as [|[j a] v IH]; cbn [map mass]; [lra|]. unfold count in *.
    cbn [filter] in E. destruct (f (j, a)); [discriminate|]. cbn [mass].
    assert (mass (map (fun e : nat * Q => if f e then (fst e, snd e - u) else e) v) y <= mass v y)
      by (apply IH; [intros; apply H; now right|exact E]). lra. }
  induction v as [|[j a] v IH]; cbn [map mass]; intros H C.
  - pose proof (Qabs_nonneg u). lra.
  - unfold count in C. cbn [filter] in C. destruct (f (j, a)) eqn:E; cbn [fst snd mass].
    + cbn [length] in C.
      assert (K : mass (map (fun e : nat * Q => if f e then (fst e, snd e - u) else e) v) y <= mass v y).
      { apply G; [intros; apply H; now right|unfold count; lia]. }
      destruct (H (j, a)) as [H0 H1]; [now left|]. cbn [fst] in *.
      assert (Q : Qabs ((a - u) * y j) <= Qabs (a * y j) + Qabs u).
      { assert (E1 : (a - u) * y j == a * y j + - (u * y j)) by lra. rewrite E1.
        eapply Qle_trans; [apply Qabs_triangle|]. apply Qplus_le_compat; [apply Qle_refl|].
        rewrite Qabs_opp, Qabs_Qmult. rewrite (Qabs_pos (y j)) by exact H0.
        pose proof (Qabs_nonneg u). nra. }
      lra.
    + assert (K : mass (map (fun e : nat * Q => if f e then (fst e, snd e - u) else e) v) y <= mass v y + Qabs u).
      { apply IH; [intros; apply H; now right|exact C]. }
      lra.
Qed.

Lemma strengthen_ok p cl cu r y :
  integer_ok p y -> cols_in (m_ncols p) (r_form r) -> box (m_ncols p) cl cu y ->
  row_sat r y /\ mass (r_form r) y <= e30 /\
    (forall l, r_lo r = Some l -> - e20 < l /\ l < e20) /\
    (forall u, r_hi r = Some u -> - e20 < u /\ u < e20) ->
  usable (fst (strengthen p cl cu r)) y /\ cols_in (m_ncols p) (r_form (fst (strengthen p cl cu r))) /\
  (forall s, snd (strengthen p cl cu r) = Some s ->
     length (rc_form s) = length (r_form r) -> rowcut_sat s y).
Proof.
  intros I C B ([S1 S2] & M & L & U).
  assert (E20 : 0 < e20) by (vm_compute; reflexivity).
  assert (E10 : e10 <= e20) by (vm_compute; discriminate).
  assert (Same : usable r y /\ cols_in (m_ncols p) (r_form r)).
  { split; [|exact C]. unfold usable. conjs; auto; try (unfold row_sat; auto; fail). eapply Qle_trans; [exact M|lra]. }
  unfold strengthen.
  destruct (lo_lt (r_lo r) (- e20) || hi_gt (r_hi r) e20) eqn:One;
    [|cbn [fst snd]; split; [tauto|split; [tauto|discriminate]]].
  cbv zeta.
  assert (Bin : all_binary p cl cu (r_form r) = true ->
                forall e, In e (r_form r) -> y (fst e) == 0 \/ y (fst e) == 1).
  { intros A e K. unfold all_binary in A. rewrite forallb_forall in A. specialize (A e K). qb.
    specialize (C e K). destruct (B _ C). apply binary_cases; [now apply I| |]; lra. }
  assert (Fin : forall s, usable s y -> cols_in (m_ncols p) (r_form s) ->
     length (r_form s) = length (r_form r) ->
     let z := if forallb (fun e => Qeq_bool (snd e) 0) (r_form s) then (s, None)
              else (s, Some (RowCut (tidy (r_form s)) (r_lo s) (r_hi s))) in
     usable (fst z) y /\ cols_in (m_ncols p) (r_form (fst z)) /\
     (forall c, snd z = Some c -> length (rc_form c) = length (r_form r) -> rowcut_sat c y)).
  { intros s Us Cs Ls. cbv zeta. destruct (forallb _ (r_form s)); cbn [fst snd]; conjs; auto; [discriminate|].
    intros c E Lc. apply Some_inj in E. subst c. cbn [rc_form] in Lc. rewrite <- Ls in Lc.
    assert (T : tidy (r_form s) = r_form s).
    { clear -Lc. revert Lc. induction (r_form s) as [|e v IH]; cbn [tidy]; [auto|].
      destruct (Qabs (snd e) <? eps12); cbn [length]; intro H.
      - assert (K : forall (f : nat * Q -> bool) l, (length (filter f l) <= length l)%nat).
        { intros f l. induction l as [|a l IHl]; simpl; [lia|]. destruct (f a); simpl; lia. }
        specialize (K (fun d => eps12 <? Qabs (snd d)) v). lia.
      - f_equal. apply IH. lia. }
    destruct Us as (S & _). rewrite T. exact S. }
  destruct (all_binary p cl cu (r_form r) && Nat.eqb (count is_pos (r_form r)) 1
            && hi_gt (r_hi r) 0 && hi_lt (r_hi r) e10) eqn:E1.
  - destruct (r_hi r) as [u|] eqn:Hu; [|cbn [fst snd]; split; [tauto|split; [tauto|discriminate]]].
    apply Fin; [| |cbn [r_form]; now rewrite map_length].
    + cbn [hi_gt hi_lt] in E1. qb. specialize (Bin H).
      destruct (count1 is_pos (r_form r)) as (e & F & Ie & Pe); [now apply Nat.eqb_eq|].
      assert (Lo : r_lo r = None).
      { destruct (r_lo r) as [l|]; [|reflexivity]. specialize (L l eq_refl).
        apply orb_true_iff in One as [One|One].
        - cbn [lo_lt] in One. qb. lra.
        - cbn [hi_gt] in One. qb. lra. }
      unfold usable. cbn [r_form r_lo r_hi]. rewrite Lo. conjs.
      * unfold row_sat. cbn [r_form r_lo r_hi ge_opt_lo le_opt_hi]. split; [exact Logic.I|].
        rewrite value_shift, F. cbn [map value fst snd]. cbn [le_opt_hi] in S2.
        destruct (Bin e Ie) as [Y|Y].
        -- assert (V : value (r_form r) y <= 0).
           { apply value_le0. intros d Id.
             destruct (is_pos d) eqn:Pd.
             - assert (Dd : In d (filter is_pos (r_form r))) by (apply filter_In; auto).
               rewrite F in Dd. destruct Dd as [<-|[]]. rewrite Y. lra.
             - unfold is_pos in Pd. qb. destruct (Bin d Id) as [Z|Z]; rewrite Z; lra. }
           rewrite Y. lra.
        -- rewrite Y. lra.
      * eapply Qle_trans; [apply mass_shift|].
        -- intros d Id. destruct (Bin d Id) as [Z|Z]; rewrite Z; lra.
        -- apply Nat.eqb_eq in H2. lia.
        -- rewrite (Qabs_pos u) by lra. lra.
      * discriminate.
      * intros w W. apply Some_inj in W. subst w. lra.
    + intros d Id. cbn [r_form] in Id. apply in_map_iff in Id as (e & <- & Ie).
      specialize (C e Ie). destruct (is_pos e); exact C.
  - destruct (all_binary p cl cu (r_form r) && Nat.eqb (count (fun e => negb (is_pos e)) (r_form r)) 1
            && lo_lt (r_lo r) 0 && lo_gt (r_lo r) (- e10)) eqn:E2;
      [|cbn [fst snd]; split; [tauto|split; [tauto|discriminate]]].
    destruct (r_lo r) as [l|] eqn:Hl; [|cbn [fst snd]; split; [tauto|split; [tauto|discriminate]]].
    apply Fin; [| |cbn [r_form]; now rewrite map_length].
    + clear E1. cbn [lo_gt lo_lt] in E2. qb. specialize (Bin H).
      destruct (count1 (fun e => negb (is_pos e)) (r_form r)) as (e & F & Ie & Pe); [now apply Nat.eqb_eq|].
      assert (Hi : r_hi r = None).
      { destruct (r_hi r) as [u|]; [|reflexivity]. specialize (U u eq_refl).
        apply orb_true_iff in One as [One|One].
        - cbn [lo_lt] in One. qb. lra.
        - cbn [hi_gt] in One. qb. lra. }
      assert (Neg : forall d, In d (filter is_neg (r_form r)) -> d = e).
      { intros d Id. apply filter_In in Id as [Id Nd].
        assert (Dd : In d (filter (fun e => negb (is_pos e)) (r_form r))).
        { apply filter_In. split; [exact Id|]. unfold is_neg, is_pos in *. qb.
          apply negb_true_iff, Qltb_ge. lra. }
        rewrite F in Dd. destruct Dd as [<-|[]]. reflexivity. }
      assert (Len : (count is_neg (r_form r) <= 1)%nat).
      { apply Nat.eqb_eq in H2. unfold count in *. rewrite <- H2.
        clear. induction (r_form r) as [|d v IH]; cbn [filter]; [lia|].
        unfold is_neg, is_pos in *. destruct (snd d <? 0) eqn:N.
        - assert ((0 <? snd d) = false) as -> by (qb; apply Qltb_ge; lra). cbn [negb length]. lia.
        - destruct (negb (0 <? snd d)); cbn [length]; lia. }
      unfold usable. cbn [r_form r_lo r_hi]. rewrite Hi. conjs.
      * unfold row_sat. cbn [r_form r_lo r_hi ge_opt_lo le_opt_hi]. split; [|exact Logic.I].
        rewrite value_shift. cbn [ge_opt_lo] in S1.
        destruct (filter is_neg (r_form r)) as [|d t] eqn:Fn.
        -- cbn [map value].
           assert (V : 0 <= value (r_form r) y).
           { apply value_ge0. intros d Id.
             destruct (is_neg d) eqn:Nd.
             - assert (Dd : In d (filter is_neg (r_form r))) by (apply filter_In; auto).
               rewrite Fn in Dd. destruct Dd.
             - unfold is_neg in Nd. qb. destruct (Bin d Id) as [Z|Z]; rewrite Z; lra. }
           lra.
        -- assert (t = []) as ->.
           { unfold count in Len. rewrite Fn in Len. destruct t; [reflexivity|simpl in Len; lia]. }
           assert (d = e) as -> by (apply Neg; now left).
           cbn [map value fst snd]. destruct (Bin e Ie) as [Y|Y].
           ++ assert (V : 0 <= value (r_form r) y).
              { apply value_ge0. intros d Id.
                destruct (is_neg d) eqn:Nd.
                - assert (Dd : In d (filter is_neg (r_form r))) by (apply filter_In; auto).
                  rewrite Fn in Dd. destruct Dd as [<-|[]]. rewrite Y. lra.
                - unfold is_neg in Nd. qb. destruct (Bin d Id) as [Z|Z]; rewrite Z; lra. }
              rewrite Y. lra.
           ++ rewrite Y. lra.
      * eapply Qle_trans; [apply mass_shift; [|exact Len]|].
        -- intros d Id. destruct (Bin d Id) as [Z|Z]; rewrite Z; lra.
        -- rewrite (Qabs_neg l) by lra. lra.
      * intros w W. apply Some_inj in W. subst w. lra.
      * discriminate.
    + intros d Id. cbn [r_form] in Id. apply in_map_iff in Id as (e & <- & Ie).
      specialize (C e Ie). destruct (is_neg e); exact C.
Qed.

(** ** The objective row *)

Lemma sgn_value c l y :
  value (map (fun j => (j, sgn c (pi_obj c j))) (filter (fun j => negb (Qeq_bool (pi_obj c j) 0)) l)) y
  == sgn c (value (map (fun j => (j, pi_obj c j)) l) y).
Proof.
  unfold sgn. destruct (pi_max c); induction l as [|j l IH]; cbn [map filter value]; try lra;
  destruct (Qeq_bool (pi_obj c j) 0) eqn:E; cbn [negb map value]; qb; rewrite IH; nra.
Qed.
Lemma sgn_mass c l y :
  mass (map (fun j => (j, sgn c (pi_obj c j))) (filter (fun j => negb (Qeq_bool (pi_obj c j) 0)) l)) y
  <= mass (map (fun j => (j, pi_obj c j)) l) y.
Proof.
  unfold sgn. induction l as [|j l IH]; cbn [map filter mass]; [lra|].
  pose proof (Qabs_nonneg (pi_obj c j * y j)).
  destruct (Qeq_bool (pi_obj c j) 0) eqn:E; cbn [negb map mass].
  - lra.
  - assert (Q : Qabs ((if pi_max c then - pi_obj c j else pi_obj c j) * y j) == Qabs (pi_obj c j * y j)).
    { destruct (pi_max c); [|reflexivity].
      assert (X : - pi_obj c j * y j == - (pi_obj c j * y j)) by lra. rewrite X. apply Qabs_opp. }
    lra.
Qed.

Definition sound_row (r : row) (y : point) : Prop :=
  row_sat r y /\ mass (r_form r) y <= e30 /\
    (forall l, r_lo r = Some l -> - e20 < l /\ l < e20) /\
    (forall u, r_hi r = Some u -> - e20 < u /\ u < e20).

Lemma all_rows_sound p c y r :
  feasible p y -> small_rows p -> moderate p y -> within_cutoff p c y -> cutoff_ok p c y ->
  In r (m_rows p ++ objective_row p c) -> sound_row r y.
Proof.
  intros (F & _ & _) S [_ M] W K H. apply in_app_or in H as [H|H].
  - specialize (F r H). specialize (M r H). destruct (S r H). unfold sound_row. conjs; auto; apply F.
  - unfold objective_row in H. unfold within_cutoff in W. unfold cutoff_ok in K.
    destruct (pi_cutoff c) as [cut|]; [|destruct H].
    destruct ((sgn c cut <? e30) && pi_using c) eqn:E; [|destruct H].
    apply andb_true_iff in E as [_ E]. specialize (W E cut eq_refl).
    destruct (K E cut eq_refl) as (K1 & K2 & K3). destruct H as [<-|[]].
    unfold sound_row. cbn [r_form r_lo r_hi]. apply conj; [|apply conj; [|apply conj; [discriminate|]]].
    + unfold row_sat. cbn [r_form r_lo r_hi ge_opt_lo le_opt_hi]. split; [exact Logic.I|].
      rewrite sgn_value. unfold sgn, objective in *. destruct (pi_max c).
      * specialize (K1 eq_refl). lra.
      * lra.
    + eapply Qle_trans; [apply sgn_mass|exact K3].
    + intros u U. apply Some_inj in U. subst u. exact K2.
Qed.

Lemma all_rows_cols p c r : wf_mip p -> In r (m_rows p ++ objective_row p c) ->
  cols_in (m_ncols p) (r_form r).
Proof.
  intros W H. apply in_app_or in H as [H|H].
  - intros [j a] I. exact (proj2 (W r H) j a I).
  - unfold objective_row in H. destruct (pi_cutoff c) as [cut|]; [|destruct H].
    destruct ((sgn c cut <? e30) && pi_using c); [|destruct H]. destruct H as [<-|[]].
    intros e I. cbn [r_form] in I. apply in_map_iff in I as (j & <- & I).
    apply filter_In in I as [I _]. apply in_seq in I. cbn [fst]. lia.
Qed.

Lemma numbered_in p c ir : In ir (numbered p c) -> In (snd ir) (m_rows p ++ objective_row p c) /\
  nth_error (m_rows p ++ objective_row p c) (fst ir) = Some (snd ir).
Proof.
  unfold numbered. cbv zeta. set (l := m_rows p ++ objective_row p c).
  assert (G : forall l k, In ir (combine (seq k (length l)) l) ->
              In (snd ir) l /\ (k <= fst ir)%nat /\ nth_error l (fst ir - k) = Some (snd ir)).
  { clear. induction l as [|a l IH]; intros k H; [destruct H|]. cbn [length seq combine] in H.
    destruct H as [<-|H].
    - cbn [fst snd]. rewrite Nat.sub_diag. simpl. auto.
    - apply IH in H as (A & B & C). conjs; [now right|lia|].
      replace (fst ir - k)%nat with (S (fst ir - S k)) by lia. exact C. }
  intro H. apply G in H as (A & _ & B). rewrite Nat.sub_0_r in B. auto.
Qed.

Lemma strengthen_cols p cl cu r n : cols_in n (r_form r) -> cols_in n (r_form (fst (strengthen p cl cu r))).
Proof.
  intro C. unfold strengthen.
  assert (G : forall f u, cols_in n (map (fun e : nat * Q => if f e : bool then (fst e, snd e - u) else e) (r_form r))).
  { intros f u d Id. apply in_map_iff in Id as (e & <- & Ie). specialize (C e Ie). destruct (f e); exact C. }
  destruct (lo_lt (r_lo r) (- e20) || hi_gt (r_hi r) e20); [|exact C]. cbv zeta.
  match goal with |- context [match (if ?b then _ else _) with _ => _ end] => destruct b end.
  - destruct (r_hi r) as [u|]; [|exact C]. destruct (forallb _ _); apply G.
  - match goal with |- context [match (if ?b then _ else _) with _ => _ end] => destruct b end; [|exact C].
    destruct (r_lo r) as [l|]; [|exact C]. destruct (forallb _ _); apply G.
Qed.

Lemma working_in p c q : In q (working p c) -> exists i r r',
  nth_error (m_rows p ++ objective_row p c) i = Some r /\
  (r' = r \/ r' = fst (strengthen p (clip_lo p (pi_x c)) (clip_hi p (pi_x c)) r)) /\
  q = prepare (clip_lo p (pi_x c)) (clip_hi p (pi_x c)) (i, r').
Proof.
  intro H. unfold working in H. cbv zeta in H. apply in_map_iff in H as (ir & <- & H).
  unfold kept_rows in H. apply in_map_iff in H as (jr & <- & H). apply filter_In in H as [H _].
  apply numbered_in in H as [_ H]. cbn [fst snd].
  exists (fst jr), (snd jr). eexists. conjs; [exact H| |reflexivity].
  destruct (pi_strengthen c); auto.
Qed.
Lemma nth_dead (l : list prow) i : In (nth i l dead_row) l \/ nth i l dead_row = dead_row.
Proof. destruct (nth_in_or_default i l dead_row); auto. Qed.
Lemma dead_signed : signed dead_row.
Proof. split; intros e []. Qed.

Lemma working_signed p c i : signed (nth i (working p c) dead_row).
Proof.
  destruct (nth_dead (working p c) i) as [H| ->]; [|apply dead_signed].
  apply working_in in H as (k & r & r' & _ & _ & ->). apply prepare_signed.
Qed.
Lemma working_cols p c i : wf_mip p -> cols_in (m_ncols p) (p_form (nth i (working p c) dead_row)).
Proof.
  intro W. destruct (nth_dead (working p c) i) as [H| ->]; [|intros e []].
  apply working_in in H as (k & r & r' & N & R & ->). apply prepare_cols. cbn [snd].
  apply nth_error_In in N. pose proof (all_rows_cols p c r W N) as C.
  destruct R as [->| ->]; [exact C|now apply strengthen_cols].
Qed.
Lemma rows_of_lt l j i : In i (rows_of l j) -> (i < length l)%nat.
Proof. unfold rows_of. intro H. apply filter_In in H as [H _]. apply in_seq in H. lia. Qed.

Lemma working_sound p c y i : wf_mip p ->
  feasible p y -> small_rows p -> moderate p y -> within_cutoff p c y -> cutoff_ok p c y ->
  let q := nth i (working p c) dead_row in
  ge_opt_lo (value (p_form q) y) (p_lo q) /\ le_opt_hi (value (p_form q) y) (p_hi q) /\
  (forall l, p_lo q = Some l -> l <= e31) /\ (forall u, p_hi q = Some u -> - e31 <= u).
Proof.
  intros W F S M C K. cbv zeta. destruct (nth_dead (working p c) i) as [H| ->].
  2:{ simpl. conjs; auto; discriminate. }
  apply working_in in H as (k & r & r' & N & R & ->). apply nth_error_In in N.
  pose proof (all_rows_sound p c y r F S M C K N) as Sr.
  pose proof (all_rows_cols p c r W N) as Cr.
  destruct F as (_ & B & I). pose proof (clip_box p (pi_x c) y B M) as Bx.
  destruct (strengthen_ok p _ _ r y I Cr Bx Sr) as (U & Cs & _).
  destruct R as [->| ->].
  - apply (prepare_ok (m_ncols p)); auto. destruct Sr as (S1 & S2 & S3 & S4). unfold usable. conjs; auto.
    assert (0 < e20) by (vm_compute; reflexivity). eapply Qle_trans; [exact S2|lra].
  - apply (prepare_ok (m_ncols p)); auto.
Qed.

Lemma tighten_sound p c y st : wf_mip p -> 0 <= pi_tol c ->
  feasible p y -> small_rows p -> moderate p y -> within_cutoff p c y -> cutoff_ok p c y ->
  run_tighten p c = Done st ->
  box (m_ncols p) (t_cl st) (t_cu st) y /\ t_inf st = 0%nat.
Proof.
  intros W T F S M C K E. unfold run_tighten in E. cbv zeta in E. unfold tighten in E.
  assert (V : inv (m_ncols p) (fun i => nth i (working p c) dead_row) y st).
  { refine (passes_inv _ (m_ncols p) (fun i => nth i (working p c) dead_row) _ (m_int p) (10 * pi_tol c) _ _ _ y
             _ _ _ _ _ _ _ E).
    - lra.
    - intro. apply working_signed.
    - intro. now apply working_cols.
    - intros j J I. now apply F.
    - unfold inv, rows_ok, sized. cbn [t_cl t_cu t_rl t_ru t_inf t_stop]. conjs; auto.
      + apply clip_box; [apply F|exact M].
      + intro i. destruct (working_sound p c y i W F S M C K) as (A & B & _). auto.
      + intro i. destruct (working_sound p c y i W F S M C K) as (_ & _ & A & B). auto. }
  destruct V as (V1 & _ & V2 & _). auto.
Qed.

Lemma kept_in p c cl cu irs : In irs (kept_rows p c cl cu) ->
  exists r, nth_error (m_rows p ++ objective_row p c) (fst irs) = Some r /\
  (snd irs = (r, None) \/ snd irs = strengthen p cl cu r).
Proof.
  intro H. unfold kept_rows in H. apply in_map_iff in H as (jr & <- & H). apply filter_In in H as [H _].
  apply numbered_in in H as [_ H]. cbn [fst snd]. exists (snd jr). split; [exact H|].
  destruct (pi_strengthen c); auto.
Qed.

(** ** C44: nothing feasible is lost *)

Lemma put_back_ok p cl cu y j : cl j <= y j -> y j <= cu j -> in_bounds p y -> (j < m_ncols p)%nat ->
  ge_opt_lo (y j) (put_back_lo p cl j) /\ le_opt_hi (y j) (put_back_hi p cu j).
Proof.
  intros A B I J. destruct (I j J) as [L U]. unfold put_back_lo, put_back_hi. split.
  - destruct (_ && _); [exact L|exact A].
  - destruct (_ && _); [exact U|exact B].
Qed.

(** Every feasible point of moderate size (and as good as the cutoff, when
    the objective is used) survives: the stage does not say "infeasible", its
    column cuts and row cuts hold at the point, and so do the tightened
    bounds and the strengthened rows. *)
Theorem C44_no_point_lost : forall p c o y,
  wf_mip p -> small_rows p -> 0 <= pi_tol c ->
  feasible p y -> moderate p y -> within_cutoff p c y -> cutoff_ok p c y ->
  run_probing p c = Done o ->
  po_infeasible o = false /\
  (forall d, In d (po_rows o) -> rowcut_sat d y) /\
  (forall d, In d (po_cols o) -> colcut_sat d y) /\
  tight_sat p o y /\
  (forall i s r, In (i, s) (po_strengthened o) -> nth_error (m_rows p) i = Some r ->
     length (rc_form s) = length (r_form r) -> rowcut_sat s y).
Proof.
  intros p c o y W S T F M C K E. unfold run_probing in E. cbv zeta in E.
  set (cl := clip_lo p (pi_x c)) in *. set (cu := clip_hi p (pi_x c)) in *.
  assert (Bx : box (m_ncols p) cl cu y) by (apply clip_box; [apply F|exact M]).
  assert (Str : forall i s r, In (i, s) (flat_map (fun ir => match snd (snd ir) with
                | Some s => [(fst ir, s)] | None => [] end) (kept_rows p c cl cu)) ->
                nth_error (m_rows p) i = Some r ->
                length (rc_form s) = length (r_form r) -> rowcut_sat s y).
  { intros i s r H N L. apply in_flat_map in H as (irs & H & H1).
    apply kept_in in H as (r0 & N0 & R).
    destruct (snd (snd irs)) as [s'|] eqn:Es; [|destruct H1]. destruct H1 as [H1|[]].
    injection H1 as H2 H3. subst s' i.
    assert (r0 = r).
    { rewrite nth_error_app1 in N0 by (apply nth_error_Some; congruence). congruence. }
    subst r0. apply nth_error_In in N0.
    pose proof (all_rows_sound p c y r F S M C K N0) as Sr.
    pose proof (all_rows_cols p c r W N0) as Cr.
    destruct R as [R|R]; rewrite R in Es; [discriminate|].
    destruct (strengthen_ok p cl cu r y (proj2 (proj2 F)) Cr Bx Sr) as (_ & _ & G). now apply G. }
  destruct (kept_rows p c cl cu) as [|k0 kr] eqn:Kr.
  - apply Done_inj in E. subst o. cbn [po_infeasible po_rows po_cols po_strengthened].
    conjs; [reflexivity|intros d []|intros d []| |intros i s r []].
    intros j J. cbn [po_lower po_upper]. destruct (Bx j J). apply put_back_ok; auto. apply F.
  - apply bind_done in E as (st & E1 & E).
    destruct (tighten_sound p c y st W T F S M C K E1) as [B I]. rewrite I in E. cbn [Nat.eqb] in E.
    apply bind_done in E as (cc & E2 & E). apply Done_inj in E. subst o.
    cbn [po_infeasible po_rows po_cols po_strengthened]. conjs; [reflexivity|intros d []| | |exact Str].
    + intros d Hd. unfold col_cut in E2. cbv zeta in E2.
      destruct (existsb _ _); [discriminate|].
      set (ints := filter (m_int p) (seq 0 (m_ncols p))) in *.
      assert (G : forall f g, colcut_sat (ColCut (map (fun j => (j, t_cl st j)) (filter f ints))
                                                (map (fun j => (j, t_cu st j)) (filter g ints))) y).
      { intros f g. assert (Lt : forall j, In j ints -> (j < m_ncols p)%nat).
        { intros j J. unfold ints in J. apply filter_In in J as [J _]. apply in_seq in J. lia. }
        split; cbn [cc_lbs cc_ubs]; intros j b H; apply in_map_iff in H as (k & Ek & H);
          apply filter_In in H as [H _]; apply Lt, B in H; destruct H; injection Ek as <- <-; auto. }
      match type of E2 with match ?l with _ => _ end = _ => destruct l eqn:El end;
      match type of E2 with match ?l with _ => _ end = _ => destruct l eqn:Eu | _ => idtac end;
      apply Done_inj in E2; subst cc; try (destruct Hd; fail);
      destruct Hd as [<-|[]]; rewrite <- El, <- Eu || rewrite <- El; apply G.
    + intros j J. cbn [po_lower po_upper]. destruct (B j J). apply put_back_ok; auto. apply F.
Qed.
Print Assumptions C44_no_point_lost.

(** ** C45: the stage always finishes properly *)

Definition integral_bounds (p : mip) : Prop := forall j, (j < m_ncols p)%nat -> m_int p j = true ->
  (forall b, m_clo p j = Some b -> integral b) /\ (forall b, m_chi p j = Some b -> integral b).

Lemma clip_integral p x j : (j < m_ncols p)%nat -> integral_bounds p -> m_int p j = true ->
  integral (clip_lo p x j) /\ integral (clip_hi p x j).
Proof.
  intros J I M. destruct (I j J M) as [L U].
  assert (E : integral e29) by apply integral_inject.
  assert (R : integral reasonable) by apply integral_inject.
  assert (E' : integral (- e29)) by now apply integral_opp.
  assert (R' : integral (- reasonable)) by now apply integral_opp.
  unfold clip_lo, clip_hi. split.
  - destruct (_ && _); [exact R'|]. destruct (m_clo p j); [destruct (_ <=? _)|]; auto.
  - destruct (_ && _); [exact R|]. destruct (m_chi p j); [destruct (_ <=? _)|]; auto.
Qed.
Lemma run_tighten_ok p c : wf_mip p -> integral_bounds p ->
  exists st, run_tighten p c = Done st /\ ready (m_ncols p) (m_int p) st.
Proof.
  intros W I. unfold run_tighten, tighten. cbv zeta.
  apply passes_ok.
  - intro. now apply working_cols.
  - intros j i. apply rows_of_lt.
  - intros j J M. cbn [t_cl t_cu]. now apply clip_integral.
Qed.
Lemma not_integer_no q : integral q -> not_integer q = false.
Proof.
  intros [z H]. unfold not_integer. apply negb_false_iff, Qeq_bool_iff.
  unfold qfloor. rewrite (Qfloor_unique (q + (1 # 2)) z) by lra. lra.
Qed.

(** On every problem whose integer columns have integral bounds the call
    returns: at most [pi_passes] passes, no write outside the work arrays, no
    failed assertion. *)
Theorem C45_always_returns : forall p c, wf_mip p -> integral_bounds p ->
  exists o, run_probing p c = Done o.
Proof.
  intros p c W I. unfold run_probing. cbv zeta.
  destruct (kept_rows p c (clip_lo p (pi_x c)) (clip_hi p (pi_x c))) as [|k kr]; [eauto|].
  destruct (run_tighten_ok p c W I) as (st & E & R). rewrite E. cbn [bind].
  destruct (Nat.eqb (t_inf st) 0); [|eauto].
  unfold col_cut. cbv zeta.
  assert (X : existsb (fun j => not_integer (t_cu st j) || not_integer (t_cl st j))
                      (filter (m_int p) (seq 0 (m_ncols p))) = false).
  { apply not_true_iff_false. intro H. apply existsb_exists in H as (j & J & H).
    apply filter_In in J as [J M]. apply in_seq in J.
    destruct (R j) as [A B]; [lia|exact M|].
    rewrite !not_integer_no in H by assumption. discriminate. }
  rewrite X. match goal with |- context [match ?l with [] => _ | _ :: _ => _ end] => destruct l end;
  [match goal with |- context [match ?l with [] => _ | _ :: _ => _ end] => destruct l end|];
  cbn [bind]; eauto.
Qed.
Print Assumptions C45_always_returns.

(** ** C46: row bounds handed back in mode 3 *)

(** Nothing is removed from the working copy: the objective is not used, no
    row is strengthened, every row is short and has a finite side, no column
    is fixed, and finite column bounds are at most 1e10. *)
Definition nothing_removed (p : mip) (c : probe_in) : Prop :=
  pi_using c = false /\ pi_strengthen c = false /\
  (forall r, In r (m_rows p) -> (length (r_form r) <= Nat.min (pi_maxEl c) (m_ncols p))%nat /\
     (r_lo r <> None \/ r_hi r <> None)) /\
  (forall j, (j < m_ncols p)%nat ->
     (forall l, m_clo p j = Some l -> - inject_Z (10 ^ 10) <= l /\ l <= inject_Z (10 ^ 10)) /\
     (forall u, m_chi p j = Some u -> - inject_Z (10 ^ 10) <= u /\ u <= inject_Z (10 ^ 10)) /\
     (forall l u, m_clo p j = Some l -> m_chi p j = Some u -> l < u)).

(** Sum of the absolute values of the coefficients of integer columns. *)
Fixpoint int_mass (p : mip) (v : vec) : Q :=
  match v with
  | [] => 0
  | (j, a) :: v' => (if m_int p j then Qabs a else 0) + int_mass p v'
  end.

Lemma clip_live p c j : nothing_removed p c -> (j < m_ncols p)%nat ->
  clip_lo p (pi_x c) j < clip_hi p (pi_x c) j.
Proof.
  intros (_ & _ & _ & H) J. destruct (H j J) as (L & U & D). fold e10 in L, U.
  assert (E1 : e10 < reasonable) by (vm_compute; reflexivity).
  assert (E2 : reasonable < e29) by (vm_compute; reflexivity).
  assert (E3 : 0 < e10) by (vm_compute; reflexivity).
  unfold clip_lo, clip_hi.
  destruct (m_clo p j) as [l|]; destruct (m_chi p j) as [u|].
  - specialize (L l eq_refl). specialize (U u eq_refl). specialize (D l u eq_refl eq_refl).
    destruct (- e29 <=? l) eqn:A; qb; [|lra]. destruct (u <=? e29) eqn:B; qb; [|lra].
    destruct (_ && _); destruct (_ && _); lra.
  - specialize (L l eq_refl). destruct (- e29 <=? l) eqn:A; qb; [|lra].
    destruct (_ && _); destruct (_ && _); lra.
  - specialize (U u eq_refl). destruct (u <=? e29) eqn:B; qb; [|lra].
    destruct (_ && _); destruct (_ && _); lra.
  - destruct (_ && _); destruct (_ && _); lra.
Qed.

Lemma all_kept p c : small_rows p -> nothing_removed p c ->
  working p c = map (prepare (clip_lo p (pi_x c)) (clip_hi p (pi_x c)))
                    (combine (seq 0 (length (m_rows p))) (m_rows p)) /\
  length (kept_rows p c (clip_lo p (pi_x c)) (clip_hi p (pi_x c))) = length (m_rows p).
Proof.
  intros Sm N. pose proof N as (U & St & R & _).
  assert (O : objective_row p c = []).
  { unfold objective_row. destruct (pi_cutoff c); [|reflexivity]. rewrite U, andb_false_r. reflexivity. }
  assert (Ff : forall r, In r (m_rows p) -> free_row r = false).
  { intros r H. destruct (R r H) as [_ Fr]. destruct (Sm r H) as [S1 S2]. unfold free_row.
    fold e20 in S1, S2.
    destruct Fr as [Fr|Fr].
    - destruct (r_lo r) as [l|]; [|congruence]. specialize (S1 l eq_refl). cbn [lo_lt].
      assert ((l <? - e20) = false) as -> by (apply Qltb_ge; lra). reflexivity.
    - destruct (r_hi r) as [u|]; [|congruence]. specialize (S2 u eq_refl). cbn [hi_gt].
      assert ((e20 <? u) = false) as -> by (apply Qltb_ge; lra). apply andb_false_r. }
  assert (Fl : forall n, (Nat.min (pi_maxEl c) (m_ncols p) <= n)%nat -> forall r, In r (m_rows p) -> too_long n r = false).
  { intros n Hn r H. destruct (R r H) as [Lr _]. unfold too_long. apply Nat.ltb_ge. lia. }
  assert (K : kept_rows p c (clip_lo p (pi_x c)) (clip_hi p (pi_x c))
              = map (fun ir => (fst ir, (snd ir, None))) (combine (seq 0 (length (m_rows p))) (m_rows p))).
  { unfold kept_rows, numbered. cbv zeta. rewrite O, app_nil_r, St.
    assert (G : filter (kept p c) (combine (seq 0 (length (m_rows p))) (m_rows p))
                = combine (seq 0 (length (m_rows p))) (m_rows p)).
    { assert (Q : forall l, (forall x, In x l -> kept p c x = true) -> filter (kept p c) l = l).
      { induction l as [|a l IH]; cbn [filter]; intro H; [reflexivity|].
        rewrite (H a) by now left. f_equal. apply IH. intros; apply H; now right. }
      apply Q. intros [i r] H. apply in_combine_r in H. unfold kept. cbn [fst snd].
      rewrite (Ff r H), (Fl (max_elements p c)); [reflexivity| |exact H].
      unfold max_elements. cbv zeta. destruct (Nat.ltb _ _); lia. }
    rewrite G. reflexivity. }
  split.
  - unfold working. cbv zeta. rewrite K, map_map. apply map_ext. intros [i r]. reflexivity.
  - rewrite K, map_length, combine_length, seq_length. lia.
Qed.

Lemma filter_all {A} (f : A -> bool) l : (forall x, In x l -> f x = false) -> filter f l = [].
Proof.
  induction l as [|a l IH]; cbn [filter]; intro H; [reflexivity|].
  rewrite (H a) by now left. apply IH. intros; apply H; now right.
Qed.
Lemma slack_int_mass p v cl cu :
  sumq (map (fun e => Qabs (snd e) * slackq (m_int p) (fst e))
            (filter (fun e => live cl cu e && is_neg e) v ++ filter (fun e => live cl cu e && is_pos e) v))
  <= eps4 * int_mass p v.
Proof.
  rewrite map_app, sumq_app. induction v as [|[j a] v IH]; cbn [filter map int_mass].
  - change (sumq []) with 0. lra.
  - set (A := filter (fun e => live cl cu e && is_neg e) v) in *.
    set (B := filter (fun e => live cl cu e && is_pos e) v) in *.
    pose proof (Qabs_nonneg a) as Pa. assert (E : 0 < eps4) by (vm_compute; reflexivity).
    unfold is_neg, is_pos in *. cbn [snd].
    assert (Term : Qabs a * slackq (m_int p) j == eps4 * (if m_int p j then Qabs a else 0)).
    { unfold slackq. destruct (m_int p j); lra. }
    assert (T0 : 0 <= eps4 * (if m_int p j then Qabs a else 0)) by (destruct (m_int p j); nra).
    destruct (live cl cu (j, a)); cbn [andb]; [|lra].
    destruct (a <? 0) eqn:Na; destruct (0 <? a) eqn:Pp; qb; [lra| | |lra];
      cbn [map fst snd]; unfold sumq in *; cbn [fold_right]; lra.
Qed.

(** When nothing is removed, entry [i] of the arrays handed back is either the
    bounds of row [i], or the row was freed and every point within the
    tightened bounds meets it, up to ten times the tolerance and 1e-4 times
    the integer coefficients (the rounding of integer bounds). *)
Theorem C46_freed_rows_implied : forall p c o i r y,
  wf_mip p -> small_rows p -> integral_bounds p -> nothing_removed p c ->
  0 <= pi_tol c -> pi_tol c <= 1 ->
  run_probing p c = Done o -> po_infeasible o = false ->
  nth_error (m_rows p) i = Some r -> moderate p y -> tight_sat p o y ->
  (po_rowLower o i = r_lo r /\ po_rowUpper o i = r_hi r) \/
  (let slack := 10 * pi_tol c + (1 # 10000) * int_mass p (r_form r) in
   (forall u, r_hi r = Some u -> value (r_form r) y <= u + slack) /\
   (forall l, r_lo r = Some l -> l - slack <= value (r_form r) y)).
Proof.
  intros p c o i r y W Sm Ib N T0 T1 E F Nr M Ts.
  destruct (all_kept p c Sm N) as [Wk Lk].
  unfold run_probing in E. cbv zeta in E.
  set (cl := clip_lo p (pi_x c)) in *. set (cu := clip_hi p (pi_x c)) in *.
  destruct (kept_rows p c cl cu) as [|k0 kr] eqn:Kr.
  { assert (i < length (m_rows p))%nat by (apply nth_error_Some; congruence). simpl in Lk. lia. }
  apply bind_done in E as (st & E1 & E).
  destruct (Nat.eqb (t_inf st) 0); [|apply Done_inj in E; subst o; discriminate].
  apply bind_done in E as (cc & E2 & E). apply Done_inj in E. subst o.
  cbn [po_rowLower po_rowUpper]. rewrite Lk.
  assert (Li : (i < length (m_rows p))%nat) by (apply nth_error_Some; congruence).
  pose proof Li as Lb. apply Nat.ltb_lt in Lb. rewrite Lb.
  set (rows := fun i => nth i (working p c) dead_row).
  assert (Ri : rows i = prepare cl cu (i, r)).
  { unfold rows. rewrite Wk. apply nth_error_nth with (d := dead_row).
    rewrite nth_error_map. 
    assert (G : forall (l : list row) k n, nth_error l n = Some r ->
                nth_error (combine (seq k (length l)) l) n = Some ((k + n)%nat, r)).
    { induction l as [|a l IH]; intros k n H; [destruct n; discriminate|]. destruct n as [|n].
      - simpl in *. rewrite Nat.add_0_r. congruence.
      - simpl in *. rewrite (IH (S k) n H). do 2 f_equal. lia. }
    rewrite (G (m_rows p) 0%nat i Nr). reflexivity. }
  assert (Cr : cols_in (m_ncols p) (r_form r)).
  { apply nth_error_In in Nr. intros [j a] I. exact (proj2 (W r Nr) j a I). }
  assert (Live : forall e, In e (r_form r) -> live cl cu e = true).
  { intros e I. apply Qltb_lt. apply clip_live; [exact N|exact (Cr e I)]. }
  assert (Off : fixed_part cl cu (r_form r) = 0).
  { unfold fixed_part. rewrite filter_all; [reflexivity|]. intros e I. now rewrite (Live e I). }
  assert (Plo : p_lo (rows i) = r_lo r /\ p_hi (rows i) = r_hi r).
  { rewrite Ri. unfold prepare. cbn [p_lo p_hi fst snd]. rewrite Off.
    change (Qeq_bool 0 0) with true. cbn [negb]. split.
    - destruct (r_lo r); [|reflexivity]. now rewrite andb_false_r.
    - destruct (r_hi r); [|reflexivity]. now rewrite andb_false_r. }
  destruct Plo as [Plo Phi].
  assert (Val : value (p_form (rows i)) y == value (r_form r) y).
  { rewrite (split_value cl cu y (r_form r)). rewrite Ri. unfold p_form, prepare. cbn [p_neg p_pos snd].
    rewrite value_app. rewrite (filter_all (fun e => negb (live cl cu e))); [cbn [value]; lra|].
    intros e I. now rewrite (Live e I). }
  assert (Tight : box (m_ncols p) (t_cl st) (t_cu st) y).
  { intros j J. destruct (Ts j J) as [A B]. cbn [po_lower po_upper] in A, B.
    destruct M as [M _]. destruct (M j J) as (_ & _ & M3).
    assert (G : Nat.eqb (colType p j) 2 = true -> m_int p j = true).
    { unfold colType. destruct (m_int p j); [auto|discriminate]. }
    unfold put_back_lo, put_back_hi in A, B.
    destruct N as (_ & _ & _ & Nj). destruct (Nj j J) as (NL & NU & _).
    fold e10 in NL, NU. assert (E10 : e10 < reasonable) by (vm_compute; reflexivity).
    split.
    - destruct (Nat.eqb (colType p j) 2 && Qeq_bool (t_cl st j) (- reasonable)) eqn:Q; [|exact A].
      apply andb_true_iff in Q as [Q1 Q2]. apply Qeqb_eq in Q2.
      destruct (m_clo p j) as [l|] eqn:El.
      + specialize (NL l eq_refl). cbn [ge_opt_lo] in A. lra.
      + destruct (M3 (G Q1)) as [_ M4]. specialize (M4 Logic.I). fold reasonable in M4. lra.
    - destruct (Nat.eqb (colType p j) 2 && Qeq_bool (t_cu st j) reasonable) eqn:Q; [|exact B].
      apply andb_true_iff in Q as [Q1 Q2]. apply Qeqb_eq in Q2.
      destruct (m_chi p j) as [u|] eqn:El.
      + specialize (NU u eq_refl). cbn [le_opt_hi] in B. lra.
      + destruct (M3 (G Q1)) as [M4 _]. specialize (M4 Logic.I). fold reasonable in M4. lra. }
  assert (Small : forall k, (forall l, p_lo (rows k) = Some l -> - e31 < l - 10 * pi_tol c) /\
                            (forall u, p_hi (rows k) = Some u -> u + 10 * pi_tol c < e31)).
  { assert (E31 : e20 + (10 # 1) < e31) by (vm_compute; reflexivity).
    intro k. unfold rows. destruct (nth_dead (working p c) k) as [H| ->]; [|split; discriminate].
    rewrite Wk in H at 2. apply in_map_iff in H as ([i' r'] & <- & H). apply in_combine_r in H.
    destruct (Sm r' H) as [S1 S2]. fold e20 in S1, S2.
    assert (Off' : fixed_part cl cu (r_form r') = 0).
    { unfold fixed_part. rewrite filter_all; [reflexivity|]. intros e I.
      apply negb_false_iff, Qltb_lt. apply clip_live; [exact N|].
      destruct e as [j a]. exact (proj2 (W r' H) j a I). }
    fold cl. fold cu. unfold prepare. cbn [p_lo p_hi fst snd]. rewrite Off'.
    change (Qeq_bool 0 0) with true. cbn [negb]. split.
    - intros l Hl. destruct (r_lo r') as [l'|]; [|discriminate]. rewrite andb_false_r in Hl.
      apply Some_inj in Hl. subst l. specialize (S1 l' eq_refl). lra.
    - intros u Hu. destruct (r_hi r') as [u'|]; [|discriminate]. rewrite andb_false_r in Hu.
      apply Some_inj in Hu. subst u. specialize (S2 u' eq_refl). lra. }
  assert (Cols : forall k, cols_in (m_ncols p) (p_form (rows k))) by (intro; now apply working_cols).
  assert (Sg : forall k, signed (rows k)) by (intro; apply working_signed).
  assert (Bt : between (m_ncols p) rows (m_int p) (10 * pi_tol c)
                 (fun k => p_lo (rows k)) (fun k => p_hi (rows k)) st).
  { unfold run_tighten, tighten in E1. cbv zeta in E1.
    eapply passes_between; [exact Sg|exact Cols| |exact Small| |exact E1].
    - intros j k. apply rows_of_lt.
    - split.
      + intros j J Mj. cbn [t_cl t_cu]. now apply clip_integral.
      + intro k. left. cbn [t_rl t_ru]. auto. }
  destruct Bt as [_ Bt].
  destruct (row_state_use _ _ _ _ Cols _ _ st i y (Bt i) Tight) as [[A B]|[A B]].
  - left. rewrite A, B. auto.
  - right. cbv zeta. rewrite Plo, Phi in *.
    assert (Sl : rounding_slack rows (m_int p) i <= (1 # 10000) * int_mass p (r_form r)).
    { unfold rounding_slack. rewrite Ri. unfold p_form, prepare. cbn [p_neg p_pos snd].
      apply slack_int_mass. }
    split.
    + intros u Hu. specialize (A u Hu). lra.
    + intros l Hl. specialize (B l Hl). lra.
Qed.
Print Assumptions C46_freed_rows_implied.

(** ** Concrete runs *)

(** Arrays given by a list. *)
Definition arr {A} (d : A) (l : list A) : nat -> A := fun j => nth j l d.
(** Inputs of a call without objective row. *)
Definition plain (x : point) (str : bool) : probe_in :=
  ProbeIn x (fun _ => 0) false None 0 false 1000 (1 # 10000000) 2 str.

Definition lt20 (o : option Q) : bool :=
  match o with Some q => (- inject_Z (10 ^ 20) <? q) && (q <? inject_Z (10 ^ 20)) | None => true end.
Lemma small_rows_b p : forallb (fun r => lt20 (r_lo r) && lt20 (r_hi r)) (m_rows p) = true -> small_rows p.
Proof.
  intros H r Hr. apply (proj1 (forallb_forall _ _) H) in Hr. apply andb_prop in Hr as [A B].
  split; [intros l El; rewrite El in A|intros u Eu; rewrite Eu in B]; cbn [lt20] in *;
    [apply andb_prop in A as [A1 A2]|apply andb_prop in B as [A1 A2]];
    split; apply Qltb_lt; assumption.
Qed.
Definition moderate_b (p : mip) (y : point) : bool :=
  forallb (fun j => (Qabs (y j) <=? inject_Z 12345678900)) (seq 0 (m_ncols p)) &&
  forallb (fun r => mass (r_form r) y <=? inject_Z (10 ^ 30)) (m_rows p).
Lemma moderate_b_ok p y : moderate_b p y = true -> moderate p y.
Proof.
  intro H. apply andb_prop in H as [A B]. split.
  - intros j J. assert (Hi : In j (seq 0 (m_ncols p))) by (apply in_seq; lia).
    apply (proj1 (forallb_forall _ _) A) in Hi. apply Qle_bool_iff in Hi. apply abs_bounds in Hi as [L U].
    assert (E : inject_Z 12345678900 < inject_Z (10 ^ 29)) by (vm_compute; reflexivity).
    conjs; [lra|lra|]. intros _. split; intros _; assumption.
  - intros r Hr. apply (proj1 (forallb_forall _ _) B) in Hr. now apply Qle_bool_iff.
Qed.
Lemma no_cutoff p x b y : within_cutoff p (plain x b) y /\ cutoff_ok p (plain x b) y.
Proof. split; intro H; discriminate H. Qed.
Definition integral_bounds_b (p : mip) : bool :=
  forallb (fun j => negb (m_int p j) ||
     (match m_clo p j with Some b => integralb b | None => true end) &&
     (match m_chi p j with Some b => integralb b | None => true end)) (seq 0 (m_ncols p)).
Lemma integral_bounds_ok p : integral_bounds_b p = true -> integral_bounds p.
Proof.
  intros H j J M. assert (Hi : In j (seq 0 (m_ncols p))) by (apply in_seq; lia).
  apply (proj1 (forallb_forall _ _) H) in Hi. rewrite M in Hi. cbn [negb orb] in Hi.
  apply andb_prop in Hi as [A B].
  split; intros b Eb; rewrite Eb in *; now apply integralb_ok.
Qed.

(** What a run shows: verdict, cuts, strengthened rows, and the arrays handed
    back for [n] columns and [m] rows. *)
Definition seen (n m : nat) (o : probe_out) :=
  (po_infeasible o, po_rows o, po_cols o, po_strengthened o,
   combine (map (po_lower o) (seq 0 n)) (map (po_upper o) (seq 0 n)),
   combine (map (po_rowLower o) (seq 0 m)) (map (po_rowUpper o) (seq 0 m))).
Definition show (n m : nat) (p : mip) (c : probe_in) := do o <- run_probing p c; Done (seen n m o).
Lemma show_run n m p c s : show n m p c = Done s -> exists o, run_probing p c = Done o /\ seen n m o = s.
Proof. unfold show. intro E. apply bind_done in E as (o & E & F). apply Done_inj in F. eauto. Qed.

(** 2x + 3y + z <= 7, x + y >= 3, x - y - z <= 5, x integer in 0..9, y integer in 0..9, z
    continuous in 0..4.  The run tightens x to 2..3 and y to 0..1, in two
    passes, and frees the last row only. *)
Definition ex_p : mip :=
  Mip 3 [Row [(0%nat, 2); (1%nat, 3); (2%nat, 1)] None (Some 7);
         Row [(0%nat, 1); (1%nat, 1)] (Some 3) None;
         Row [(0%nat, 1); (1%nat, -1); (2%nat, -1)] None (Some 5)]
      (arr None [Some 0; Some 0; Some 0]) (arr None [Some 9; Some 9; Some 4]) (arr false [true; true; false]).
Definition ex_c := plain (arr 0 [1 # 2; 1 # 2; 0]) false.
Definition ex_y : point := arr 0 [3; 0; 1].
Example ex_run :
  wf_mip ex_p /\ small_rows ex_p /\ integral_bounds ex_p /\ nothing_removed ex_p ex_c /\
  feasible ex_p ex_y /\ moderate ex_p ex_y /\
  within_cutoff ex_p ex_c ex_y /\ cutoff_ok ex_p ex_c ex_y /\
  show 3 3 ex_p ex_c = Done
    (false, [], [ColCut [(0%nat, 2)] [(0%nat, 3); (1%nat, 1)]], [],
     [(Some 2, Some 3); (Some 0, Some 1); (Some 0, Some 4)], [(None, Some 7); (Some 3, None); (None, None)]).
Proof.
  conjs;
    [apply wfb_ok; vm_compute; reflexivity|apply small_rows_b; vm_compute; reflexivity
    |apply integral_bounds_ok; vm_compute; reflexivity|
    |apply feasible_b_ok; vm_compute; reflexivity|apply moderate_b_ok; vm_compute; reflexivity
    |apply no_cutoff|apply no_cutoff|vm_compute; reflexivity].
  unfold nothing_removed. conjs; [reflexivity|reflexivity| |].
  - intros r [<-|[<-|[<-|[]]]]; (split; [vm_compute; lia|]); [right|left|right]; discriminate.
  - intros j J. assert (C : j = 0%nat \/ j = 1%nat \/ j = 2%nat) by (cbn in J; lia).
    assert (T : 0 < inject_Z (10 ^ 10) - 9) by (vm_compute; reflexivity).
    destruct C as [->|[->| ->]]; unfold ex_p, arr; cbn [m_clo m_chi nth]; conjs;
      first [intros l u El Eu; apply Some_inj in El, Eu; subst l u; lra
            |intros l El; apply Some_inj in El; subst l; split; lra].
Qed.

(** 2x = 1 with x integer in 0..9: said to be infeasible, and so it is. *)
Definition ex_odd : mip :=
  Mip 1 [Row [(0%nat, 2)] (Some 1) (Some 1)] (arr None [Some 0]) (arr None [Some 9]) (arr false [true]).
Example ex_infeasible :
  show 1 1 ex_odd ex_c = Done (true, [RowCut [] (Some dbl_max) (Some 0)], [], [],
                               [(Some 0, Some 9)], [(Some 1, Some 1)]).
Proof. vm_compute. reflexivity. Qed.

(** A maximisation with cutoff 5 on x - y and no offset: x >= 5 follows. *)
Definition ex_cut : mip :=
  Mip 2 [Row [(0%nat, 1); (1%nat, 1)] None (Some 12)] (arr None [Some 0; Some 0])
      (arr None [Some 10; Some 10]) (arr false [true; false]).
Definition ex_cut_c (offset : Q) : probe_in :=
  ProbeIn (fun _ => 0) (arr 0 [1; -1]) true (Some 5) offset true 1000 (1 # 10000000) 2 false.
Example ex_cutoff :
  let y := arr 0 [7; 1] in
  feasible ex_cut y /\ moderate ex_cut y /\ within_cutoff ex_cut (ex_cut_c 0) y /\
  cutoff_ok ex_cut (ex_cut_c 0) y /\
  show 2 1 ex_cut (ex_cut_c 0) = Done
    (false, [], [ColCut [(0%nat, 5)] []], [], [(Some 5, Some 10); (Some 0, Some 5)], [(None, Some 12)]).
Proof.
  cbv zeta. conjs; [apply feasible_b_ok; vm_compute; reflexivity|apply moderate_b_ok; vm_compute; reflexivity| | |].
  - intros _ cut E. apply Some_inj in E. subst cut. vm_compute. discriminate.
  - intros _ cut E. apply Some_inj in E. subst cut.
    conjs; [intros _; reflexivity|split; vm_compute; reflexivity|vm_compute; discriminate].
  - vm_compute. reflexivity.
Qed.

(** 5x - y - z <= 3 over binaries has a single positive element and is
    strengthened to 2x - y - z <= 0. *)
Definition ex_str : mip :=
  Mip 3 [Row [(0%nat, 5); (1%nat, -1); (2%nat, -1)] None (Some 3)]
      (fun _ => Some 0) (fun _ => Some 1) (fun _ => true).
Example ex_strengthened :
  let y := arr 0 [1; 1; 1] in
  wf_mip ex_str /\ small_rows ex_str /\ feasible ex_str y /\ moderate ex_str y /\
  show 3 1 ex_str (plain (fun _ => 0) true) = Done
    (false, [], [], [(0%nat, RowCut [(0%nat, 2); (1%nat, -1); (2%nat, -1)] None (Some 0))],
     [(Some 0, Some 1); (Some 0, Some 1); (Some 0, Some 1)], [(None, Some 0)]).
Proof.
  cbv zeta. conjs;
    [apply wfb_ok; vm_compute; reflexivity|apply small_rows_b; vm_compute; reflexivity
    |apply feasible_b_ok; vm_compute; reflexivity|apply moderate_b_ok; vm_compute; reflexivity
    |vm_compute; reflexivity].
Qed.

(** ** What does not hold *)

(** Without [moderate]: an integer column without upper bound is given one,
    so a feasible point is cut off. *)
Definition ex_big : mip :=
  Mip 2 [Row [(0%nat, 1); (1%nat, 1)] (Some 2) None] (arr None [Some 0; Some 0])
      (arr None [None; Some 1]) (arr false [true; false]).
Theorem C44_reasonable_bound_refuted : exists p c o y d,
  wf_mip p /\ small_rows p /\ feasible p y /\ within_cutoff p c y /\ cutoff_ok p c y /\
  run_probing p c = Done o /\ In d (po_cols o) /\ ~ colcut_sat d y.
Proof.
  assert (E : show 2 1 ex_big ex_c = Done
    (false, [], [ColCut [(0%nat, 1)] [(0%nat, inject_Z 12345678900)]], [],
     [(Some 1, None); (Some 0, Some 1)], [(Some 2, None)])) by (vm_compute; reflexivity).
  apply show_run in E as (o & E & F). unfold seen in F. cbn [map seq combine] in F.
  injection F as F1 F2 F3 F4 L0 U0 L1 U1 Lr Ur.
  exists ex_big, ex_c, o, (arr 0 [inject_Z (2 * 10 ^ 10); 0]), (ColCut [(0%nat, 1)] [(0%nat, inject_Z 12345678900)]).
  conjs; [apply wfb_ok; vm_compute; reflexivity|apply small_rows_b; vm_compute; reflexivity
         |apply feasible_b_ok; vm_compute; reflexivity|apply no_cutoff|apply no_cutoff|exact E|rewrite F3; now left|].
  intros [_ U]. specialize (U 0%nat (inject_Z 12345678900) (or_introl eq_refl)). vm_compute in U. now apply U.
Qed.

(** Without the condition on the offset: maximising x - y + 1 with cutoff 5,
    the point (4, 0) has value 5 but is cut off by x >= 6. *)
Theorem C44_maximise_offset_refuted : exists p c o y d,
  wf_mip p /\ small_rows p /\ feasible p y /\ moderate p y /\ within_cutoff p c y /\
  run_probing p c = Done o /\ In d (po_cols o) /\ ~ colcut_sat d y.
Proof.
  assert (E : show 2 1 ex_cut (ex_cut_c (-1)) = Done
    (false, [], [ColCut [(0%nat, 6)] []], [], [(Some 6, Some 10); (Some 0, Some 4)], [(None, Some 12)]))
    by (vm_compute; reflexivity).
  apply show_run in E as (o & E & F). unfold seen in F. cbn [map seq combine] in F.
  injection F as F1 F2 F3 F4 L0 U0 L1 U1 Lr Ur.
  exists ex_cut, (ex_cut_c (-1)), o, (arr 0 [4; 0]), (ColCut [(0%nat, 6)] []).
  conjs; [apply wfb_ok; vm_compute; reflexivity|apply small_rows_b; vm_compute; reflexivity
         |apply feasible_b_ok; vm_compute; reflexivity|apply moderate_b_ok; vm_compute; reflexivity
         | |exact E|rewrite F3; now left|].
  - intros _ cut Ec. apply Some_inj in Ec. subst cut. vm_compute. discriminate.
  - intros [L _]. specialize (L 0%nat 6 (or_introl eq_refl)). vm_compute in L. now apply L.
Qed.

(** Without the condition on the length of a strengthened row: three elements
    of 0.6e-12 are dropped and the point (1,1,1,1) is lost. *)
Definition tiny : Q := 6 # 10000000000000.
Definition ex_tiny : mip :=
  Mip 4 [Row [(0%nat, 1 + (15 # 10000000000000)); (1%nat, - tiny); (2%nat, - tiny); (3%nat, - tiny)]
             None (Some 1)] (fun _ => Some 0) (fun _ => Some 1) (fun _ => true).
Theorem C44_tiny_elements_refuted : exists p c o y i s,
  wf_mip p /\ small_rows p /\ feasible p y /\ moderate p y /\ within_cutoff p c y /\ cutoff_ok p c y /\
  run_probing p c = Done o /\ In (i, s) (po_strengthened o) /\ ~ rowcut_sat s y.
Proof.
  pose (s := RowCut [(0%nat, 15 # 10000000000000)] None (Some 0)).
  assert (E : show 4 1 ex_tiny (plain (fun _ => 0) true) = Done
    (false, [], [], [(0%nat, s)],
     [(Some 0, Some 1); (Some 0, Some 1); (Some 0, Some 1); (Some 0, Some 1)], [(None, None)]))
    by (vm_compute; reflexivity).
  apply show_run in E as (o & E & F). unfold seen in F. cbn [map seq combine] in F.
  injection F as F1 F2 F3 F4 L0 U0 L1 U1 L2 U2 L3 U3 Lr Ur.
  exists ex_tiny, (plain (fun _ => 0) true), o, (fun _ => 1), 0%nat, s.
  conjs; [apply wfb_ok; vm_compute; reflexivity|apply small_rows_b; vm_compute; reflexivity
         |apply feasible_b_ok; vm_compute; reflexivity|apply moderate_b_ok; vm_compute; reflexivity
         |apply no_cutoff|apply no_cutoff|exact E|rewrite F4; now left|].
  apply rowcut_b_no. vm_compute. reflexivity.
Qed.

(** Without integral bounds on integer columns: the assertion at
    CglProbing.cpp:2287 (or 2305) fails. *)
Definition ex_frac : mip :=
  Mip 2 [Row [(0%nat, 1); (1%nat, 1)] None (Some 20)] (arr None [Some 0; Some 0])
      (arr None [Some (5 # 2); Some 10]) (arr false [true; false]).
Theorem C45_fractional_bound_refuted : exists p c,
  wf_mip p /\ small_rows p /\ run_probing p c = Aborts.
Proof.
  exists ex_frac, ex_c.
  conjs; [apply wfb_ok; vm_compute; reflexivity|apply small_rows_b; vm_compute; reflexivity|vm_compute; reflexivity].
Qed.

(** Mode 3, with a fixed column: x + z + y <= 5 with y fixed at 3 is handed
    back as x + z + y <= 2, which the feasible point (1, 1, 3) violates. *)
Definition ex_fix : mip :=
  Mip 3 [Row [(0%nat, 1); (1%nat, 1); (2%nat, 1)] None (Some 5)] (arr None [Some 0; Some 0; Some 3])
      (arr None [Some 10; Some 10; Some 3]) (fun _ => false).
Theorem C46_fixed_column_refuted : exists p c o i r y,
  wf_mip p /\ small_rows p /\ integral_bounds p /\ feasible p y /\ moderate p y /\
  within_cutoff p c y /\ cutoff_ok p c y /\
  run_probing p c = Done o /\ po_infeasible o = false /\ tight_sat p o y /\
  nth_error (m_rows p) i = Some r /\ ~ le_opt_hi (value (r_form r) y) (po_rowUpper o i).
Proof.
  assert (E : show 3 1 ex_fix ex_c = Done
    (false, [], [], [], [(Some 0, Some 2); (Some 0, Some 2); (Some 3, Some 3)], [(None, Some 2)]))
    by (vm_compute; reflexivity).
  apply show_run in E as (o & E & F). unfold seen in F. cbn [map seq combine] in F.
  injection F as F1 F2 F3 F4 L0 U0 L1 U1 L2 U2 Lr Ur.
  exists ex_fix, ex_c, o, 0%nat, (Row [(0%nat, 1); (1%nat, 1); (2%nat, 1)] None (Some 5)), (arr 0 [1; 1; 3]).
  conjs; [apply wfb_ok; vm_compute; reflexivity|apply small_rows_b; vm_compute; reflexivity
         |apply integral_bounds_ok; vm_compute; reflexivity
         |apply feasible_b_ok; vm_compute; reflexivity|apply moderate_b_ok; vm_compute; reflexivity
         |apply no_cutoff|apply no_cutoff|exact E|exact F1| |reflexivity|].
  - intros j J. assert (C : j = 0%nat \/ j = 1%nat \/ j = 2%nat) by (cbn in J; lia).
    destruct C as [->|[->| ->]]; rewrite ?L0, ?U0, ?L1, ?U1, ?L2, ?U2; split; vm_compute; discriminate.
  - rewrite Ur. vm_compute. intro H. now apply H.
Qed.

(** Mode 3, with a free row: the entries of the remaining rows are moved up,
    so that row 0 (free) is handed back with the bounds of row 1. *)
Definition ex_gone : mip :=
  Mip 2 [Row [(0%nat, 5); (1%nat, 5)] None None; Row [(0%nat, 1); (1%nat, 1)] None (Some 3)]
      (arr None [Some 0; Some 0]) (arr None [Some 10; Some 10]) (fun _ => false).
Theorem C46_removed_row_refuted : exists p c o i r y,
  wf_mip p /\ small_rows p /\ integral_bounds p /\ feasible p y /\ moderate p y /\
  within_cutoff p c y /\ cutoff_ok p c y /\
  run_probing p c = Done o /\ po_infeasible o = false /\ tight_sat p o y /\
  nth_error (m_rows p) i = Some r /\ ~ le_opt_hi (value (r_form r) y) (po_rowUpper o i).
Proof.
  assert (E : show 2 2 ex_gone ex_c = Done
    (false, [], [], [], [(Some 0, Some 3); (Some 0, Some 3)], [(None, Some 3); (None, Some 3)]))
    by (vm_compute; reflexivity).
  apply show_run in E as (o & E & F). unfold seen in F. cbn [map seq combine] in F.
  injection F as F1 F2 F3 F4 L0 U0 L1 U1 Lr Ur Lr1 Ur1.
  exists ex_gone, ex_c, o, 0%nat, (Row [(0%nat, 5); (1%nat, 5)] None None), (arr 0 [1; 1]).
  conjs; [apply wfb_ok; vm_compute; reflexivity|apply small_rows_b; vm_compute; reflexivity
         |apply integral_bounds_ok; vm_compute; reflexivity
         |apply feasible_b_ok; vm_compute; reflexivity|apply moderate_b_ok; vm_compute; reflexivity
         |apply no_cutoff|apply no_cutoff|exact E|exact F1| |reflexivity|].
  - intros j J. assert (C : j = 0%nat \/ j = 1%nat) by (cbn in J; lia).
    destruct C as [->| ->]; rewrite ?L0, ?U0, ?L1, ?U1; split; vm_compute; discriminate.
  - rewrite Ur. vm_compute. intro H. now apply H.
Qed.

(** Mode 3, without [moderate]: the row x <= 2e10 on an unbounded integer
    column is freed because of the bound 12345678900, which is then withdrawn:
    3e10 is within what is handed back. *)
Definition ex_free : mip :=
  Mip 1 [Row [(0%nat, 1)] None (Some (inject_Z 20000000000))] (fun _ => Some 0) (fun _ => None) (fun _ => true).
Theorem C46_reasonable_bound_refuted : exists p c o i r y,
  wf_mip p /\ small_rows p /\ integral_bounds p /\ nothing_removed p c /\
  run_probing p c = Done o /\ po_infeasible o = false /\ tight_sat p o y /\
  nth_error (m_rows p) i = Some r /\ po_rowUpper o i = None /\
  ~ le_opt_hi (value (r_form r) y - 1) (r_hi r).
Proof.
  assert (E : show 1 1 ex_free ex_c = Done
    (false, [], [ColCut [] [(0%nat, inject_Z 12345678900)]], [], [(Some 0, None)], [(None, None)]))
    by (vm_compute; reflexivity).
  apply show_run in E as (o & E & F). unfold seen in F. cbn [map seq combine] in F.
  injection F as F1 F2 F3 F4 L0 U0 Lr Ur.
  exists ex_free, ex_c, o, 0%nat, (Row [(0%nat, 1)] None (Some (inject_Z 20000000000))), (fun _ => inject_Z 30000000000).
  conjs; [apply wfb_ok; vm_compute; reflexivity|apply small_rows_b; vm_compute; reflexivity
         |apply integral_bounds_ok; vm_compute; reflexivity| |exact E|exact F1| |reflexivity|exact Ur|].
  - unfold nothing_removed. conjs; [reflexivity|reflexivity| |].
    + intros r [<-|[]]. split; [vm_compute; lia|right; discriminate].
    + intros j J. assert (T : 0 < inject_Z (10 ^ 10)) by (vm_compute; reflexivity).
      unfold ex_free; cbn [m_clo m_chi]; conjs; [|intros u Eu; discriminate|intros l u El Eu; discriminate].
      intros l El. apply Some_inj in El. subst l. split; lra.
  - intros j J. assert (j = 0%nat) as -> by (cbn in J; lia). rewrite L0, U0. split; [vm_compute; discriminate|exact Logic.I].
  - vm_compute. intro H. now apply H.
Qed.
