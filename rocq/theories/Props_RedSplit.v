(** * Properties of CglRedSplit *)

From Coq Require Import Qabs Lqa Lia.
From Verif Require Import Base Decide Model_RedSplit Proofs_RedSplitReduce Proofs_RedSplit.
Local Open Scope Q_scope.

(** ** What a call that returns has done *)
(** OsiCuts::insertIfNotDuplicate keeps the list or appends the cut. *)
Lemma nodup_snoc (l : list nat) j : NoDup l -> ~ In j l -> NoDup (l ++ [j]).
Proof.
  induction l as [|k l IH]; intros H N; cbn; [constructor; [intros []|constructor]|].
  inversion H; subst. constructor; [|apply IH; [assumption|intro; apply N; right; assumption]].
  rewrite in_app_iff. intros [K|[<-|[]]]; [contradiction|apply N; left; reflexivity].
Qed.
Definition ins_ok (ins : list rowcut -> rowcut -> list rowcut) : Prop :=
  forall cs rc, ins cs rc = cs \/ ins cs rc = cs ++ [rc].
Lemma insert_new_ok : ins_ok insert_new.
Proof. intros cs rc. unfold insert_new. destruct (existsb _ _); auto. Qed.

Section Run.
  Variable sqrt cbrt : Q -> Q.
  Variable ins : list rowcut -> rowcut -> list rowcut.
  Variable p : rsparam.
  Variable c : call.
  Notation m := (c_mip c).
  Notation ncol := (m_ncols (c_mip c)).
  Notation nrow := (length (m_rows (c_mip c))).
  Notation x := (c_x c).
  Hypothesis INS : ins_ok ins.
  Hypothesis MR : 0 < p_min_reduc p.

  Definition usable (r : nat) : Prop := (r < nrow)%nat /\ (c_basis c r < ncol)%nat /\ frac_basic p c (c_basis c r) = true.
  Lemma select_ok start mTab is : forall acc rows, (forall r, In r acc -> usable r) -> (length acc <= mTab)%nat ->
    select p c start mTab is acc = Done rows -> (forall r, In r rows -> usable r) /\ (length rows <= mTab)%nat.
  Proof.
    induction is as [|i is IH]; intros acc rows A L E; cbn [select] in E.
    - apply Done_inj in E. subst. auto.
    - destruct (Nat.leb_spec mTab (length acc)); [apply Done_inj in E; subst; auto|].
      set (r := if (nrow <? start + i)%nat then _ else _) in E.
      destruct (Nat.leb_spec nrow r); [discriminate|].
      destruct ((c_basis c r <? ncol)%nat && frac_basic p c (c_basis c r)) eqn:B.
      + apply (IH _ _) in E; [exact E| |rewrite app_length; cbn; lia].
        intros r' H'. apply in_app_or in H'. destruct H' as [H'|[<-|[]]]; [auto|]. apply andb_true_iff in B.
        destruct B as (B1 & B2). apply Nat.ltb_lt in B1. split; auto.
      + apply (IH _ _ A L E).
  Qed.
  Lemma map_nth_seq {A B} (f : A -> B) (l : list A) d : map (fun j => f (nth j l d)) (seq 0 (length l)) = map f l.
  Proof.
    rewrite <- (map_map (fun j => nth j l d) f). f_equal. induction l as [|a l IH]; [reflexivity|].
    cbn [length seq map nth]. rewrite <- seq_shift, map_map. f_equal. exact IH.
  Qed.

  (** the rows that are read and the reduced tableau *)
  Definition tableau_of (rows : list nat) (s : rst) : Prop :=
    (forall r, In r rows -> usable r) /\
    forall i, (i < length rows)%nat ->
      length (s_pi s i) = length rows /\ length (s_T s i) = length (contVars p c) /\
      forall k, (k < length (contVars p c))%nat ->
        nth k (s_T s i) 0 == zdot (s_pi s i) (map (fun r => entry c r (nth k (contVars p c) 0%nat)) rows).
  Lemma reduce_rows fuel rows s :
    reduce (p_norm_zero p) (p_min_reduc p) fuel (length rows) (tab_row p c rows) = Done s ->
    (forall r, In r rows -> usable r) -> tableau_of rows s.
  Proof.
    intros E U. split; [exact U|]. intros i Li. unfold reduce in E.
    assert (R : ready (p_min_reduc p) (length rows) (length (contVars p c)) (tab_row p c rows) 0 (start_rst (length rows) (tab_row p c rows))).
    { apply start_ready. intros r _. unfold tab_row. apply map_length. }
    destruct (loop_ok _ _ _ _ _ MR _ _ _ _ R E) as (J & _).
    split; [apply (i_pi _ _ _ _ _ J i Li)|]. split; [apply (i_len _ _ _ _ _ J i Li)|]. intros k Lk.
    rewrite (i_comb _ _ _ _ _ J i k Li). unfold col0, tab_row.
    rewrite <- (map_nth_seq (fun r => entry c r (nth k (contVars p c) 0%nat)) rows 0%nat).
    erewrite map_ext; [reflexivity|]. intro j. cbn beta.
    rewrite (nth_indep _ 0 (entry c (nth j rows 0%nat) 0%nat)) by (rewrite map_length; exact Lk). apply map_nth.
  Qed.
  Lemma fold_cuts rows s l : forall cs,
    (forall d, In d (fold_left (add_cut sqrt ins p c rows s) l cs) ->
       In d cs \/ exists i, In i l /\ cut_of sqrt p c rows s i = Some d) /\
    (exists new, fold_left (add_cut sqrt ins p c rows s) l cs = cs ++ new /\ (length new <= length l)%nat).
  Proof.
    induction l as [|i l IH]; intro cs; cbn [fold_left].
    - split; [auto|]. exists []. rewrite app_nil_r. auto.
    - assert (A : add_cut sqrt ins p c rows s cs i = cs \/
                  exists rc, cut_of sqrt p c rows s i = Some rc /\ add_cut sqrt ins p c rows s cs i = cs ++ [rc]).
      { unfold add_cut. destruct (cut_of sqrt p c rows s i) as [rc|]; [|auto]. destruct (INS cs rc) as [A|A]; [auto|]. right. exists rc. auto. }
      destruct (IH (add_cut sqrt ins p c rows s cs i)) as (H & new & E & L). destruct A as [A|(rc & Ec & A)]; rewrite A in *.
      + split; [|exists new; split; [exact E|cbn; lia]].
        intros d Hd. destruct (H d Hd) as [G|(i' & G1 & G2)]; [auto|]. right. exists i'. split; [right|]; auto.
      + split; [|exists (rc :: new); rewrite <- app_assoc in E; split; [exact E|cbn; lia]].
        intros d Hd. destruct (H d Hd) as [G|(i' & G1 & G2)].
        * apply in_app_or in G. destruct G as [G|[<-|[]]]; [auto|]. right. exists i. split; [left|]; auto.
        * right. exists i'. split; [right|]; auto.
  Qed.

  Lemma run_ok basis fuel cs cs' : generateCuts sqrt cbrt ins p c basis fuel cs = Done cs' ->
    (exists new, cs' = cs ++ new /\ (length new <= card_frac p c)%nat) /\
    (cs' = cs \/ good_model c = true) /\
    forall d, In d cs' -> In d cs \/
      exists rows s i, (i < length rows)%nat /\ tableau_of rows s /\ cut_of sqrt p c rows s i = Some d.
  Proof.
    intro E. unfold generateCuts in E.
    assert (N : cs' = cs -> (exists new, cs' = cs ++ new /\ (length new <= card_frac p c)%nat) /\ (cs' = cs \/ good_model c = true) /\
      forall d, In d cs' -> In d cs \/
      exists rows s i, (i < length rows)%nat /\ tableau_of rows s /\ cut_of sqrt p c rows s i = Some d).
    { intros ->. split; [exists []; rewrite app_nil_r; split; [reflexivity|cbn; lia]|]. auto. }
    destruct basis; [|apply Done_inj in E; auto]. unfold generate_inner in E.
    destruct (Nat.eqb _ 0 || _ || negb (good_model c)) eqn:C0; [apply Done_inj in E; auto|].
    apply orb_false_iff in C0. destruct C0 as (C0 & C1). apply negb_false_iff in C1.
    apply bind_done in E. destruct E as (nm & _ & E). destruct (nm =? 0)%Z; [apply Done_inj in E; auto|]. cbv zeta in E.
    destruct ((nm <? Z.of_nat (card_frac p c))%Z && (nm <? 0)%Z); [discriminate|].
    set (mTab := if (nm <? Z.of_nat (card_frac p c))%Z then Z.to_nat nm else card_frac p c) in E.
    assert (Lm : (mTab <= card_frac p c)%nat) by (unfold mTab; destruct (Z.ltb_spec nm (Z.of_nat (card_frac p c))); lia).
    apply bind_done in E. destruct E as (rows & Es & E). destruct (Nat.ltb_spec (length rows) mTab); [discriminate|].
    apply bind_done in E. destruct E as (s & Er & E). apply Done_inj in E. subst cs'.
    apply select_ok in Es; [|intros r []|cbn; lia]. destruct Es as (U & Lr).
    replace mTab with (length rows) in * by lia. apply reduce_rows in Er; [|exact U].
    destruct (fold_cuts rows s (seq 0 (length rows)) cs) as (F & new & F1 & F2). rewrite seq_length in F2. conjs.
    - exists new. split; [exact F1|lia].
    - auto.
    - intros d Hd. destruct (F d Hd) as [G|(i & G1 & G2)]; [auto|]. right. exists rows, s, i. apply in_seq in G1. conjs; auto. lia.
  Qed.

  (** ** C80 *)
  (** By how much a feasible point may violate the cut of the combination [pi] of
      the tableau rows [rows]. *)
  Definition comb (rows : list nat) (pi : list Z) (j : nat) : Q := zdot pi (map (fun r => fst (c_binva c r) j) rows).
  Definition moved (j : nat) : bool :=
    match c_cstat c j with Upper | Lower => is_integer p c j | _ => false end.
  Definition tolerance (rows : list nat) (pi : list Z) (y : point) : Q :=
    50 * (2 * p_eps p / p_away p * qsum ncol (fun j => if moved j then (Qabs (comb rows pi j) + 2) * Qabs (y j - x j) else 0) +
          p_eps_elim p * qsum nrow (fun i => Qabs (slack_at c y i))) +
    drop p * qsum ncol (fun j => Qabs (y j)).

  Lemma esum_le rows pi y : lp_ok c -> data_ok p c -> feasible m y ->
    esum p c rows pi y <= p_eps p * qsum ncol (fun j => if moved j then (Qabs (comb rows pi j) + 2) * Qabs (y j - x j) else 0).
  Proof.
    intros LO DO Fy. unfold esum. rewrite qsum_app.
    rewrite (qsum_zero nrow).
    2:{ intros i _. unfold ebound, int_var. destruct (Nat.ltb_spec (ncol + i) ncol); [lia|]. cbn [andb]. ring. }
    rewrite <- qsum_scale, Qplus_0_r. apply qsum_le. intros j Lj. unfold ebound, int_var, gap, moved, vstat, tval.
    apply Nat.ltb_lt in Lj as Lj'. rewrite Lj'. cbn [andb].
    assert (A : acoef c rows pi j = comb rows pi j).
    { unfold acoef, comb, entry. rewrite Lj'. reflexivity. }
    rewrite A. pose proof (gap_ok p c LO DO (repeat 0 (length (contVars p c))) (repeat_length _ _) y Fy j ltac:(lia)) as (G & _). unfold gap, vstat, tval in G. rewrite Lj' in G.
    destruct (c_cstat c j), (is_integer p c j); try lra.
    - rewrite Qabs_Qminus, (Qabs_pos (x j - y j)) by exact G. lra.
    - rewrite (Qabs_pos (y j - x j)) by exact G. lra.
  Qed.

  Theorem C80_cuts_valid_within_tolerance basis fuel cs cs' :
    lp_ok c -> data_ok p c -> param_ok p ->
    generateCuts sqrt cbrt ins p c basis fuel cs = Done cs' ->
    forall d, In d cs' -> In d cs \/
      exists rows pi ub, rc_lb d = None /\ rc_ub d = Some ub /\
        forall y, feasible m y -> value (rc_form d) y <= ub - p_relax_abs p + tolerance rows pi y.
  Proof.
    intros LO DO PO E d Hd. destruct (run_ok _ _ _ _ E) as (_ & GM & H). destruct GM as [->|GM]; [auto|].
    destruct (H d Hd) as [G|(rows & s & i & Li & (U & TB) & Ec)]; [auto|]. right.
    destruct (TB i Li) as (_ & LT & CT).
    assert (F : exists ub, rc_lb d = None /\ rc_ub d = Some ub).
    { unfold cut_of in Ec. destruct (raw_cut p c rows s i) as [(r3, q3)|]; [|discriminate].
      destruct (generate_packed_row sqrt p c r3 q3) as [(v, q4)|]; [|discriminate].
      destruct (length v <? 300)%nat; [|discriminate]. apply Some_inj in Ec. subst d. eexists. split; reflexivity. }
    destruct F as (ub & F1 & F2). exists rows, (s_pi s i), ub. conjs; [assumption..|]. intros y Fy.
    destruct (cut_valid sqrt p c LO DO PO GM rows U (s_pi s i) (s_T s i) LT CT s i d y Fy eq_refl eq_refl Ec) as (ub' & _ & E2 & V).
    rewrite F2 in E2. apply Some_inj in E2. subst ub'. eapply Qle_trans; [exact V|]. unfold tolerance, slack_sum, col_sum.
    pose proof (esum_le rows (s_pi s i) y LO DO Fy) as L.
    assert (B : esum p c rows (s_pi s i) y / p_away p <= p_eps p * qsum ncol (fun j => if moved j then (Qabs (comb rows (s_pi s i) j) + 2) * Qabs (y j - x j) else 0) / p_away p).
    { apply Qmult_le_compat_r; [exact L|]. apply Qinv_le_0_compat. pose proof (po_away p PO). lra. }
    pose proof (po_away p PO) as Pa.
    match goal with |- _ <= ?r => match type of B with ?u / _ <= p_eps p * ?w / _ =>
      assert (E1 : 2 * u / p_away p == 2 * (u / p_away p)) by (field; lra);
      assert (E2 : 2 * p_eps p / p_away p * w == 2 * (p_eps p * w / p_away p)) by (field; lra) end end.
    rewrite E1, E2. lra.
  Qed.
  (** With the thresholds at zero, which the setters accept, every cut keeps every
      feasible point. *)
  Theorem C80_cuts_valid_exact basis fuel cs cs' :
    lp_ok c -> data_ok p c -> param_ok p -> p_eps p == 0 -> p_eps_elim p == 0 -> p_eps_coeff p == 0 ->
    generateCuts sqrt cbrt ins p c basis fuel cs = Done cs' ->
    forall d, In d cs' -> In d cs \/ keeps_all m d.
  Proof.
    intros LO DO PO Z1 Z2 Z3 E d Hd. destruct (C80_cuts_valid_within_tolerance _ _ _ _ LO DO PO E d Hd) as [G|(rows & pi & ub & E1 & E2 & V)]; [auto|].
    right. intros y Fy. unfold rowcut_sat. rewrite E1, E2. split; [exact Logic.I|]. simpl. specialize (V y Fy).
    assert (T0 : tolerance rows pi y == 0).
    { unfold tolerance. assert (Dz : drop p == 0).
      { unfold drop. pose proof (po_lub p PO). destruct (p_eps_coeff p <? p_eps_coeff_lub p) eqn:C; [exact Z3|]. qb. lra. }
      rewrite Z1, Z2, Dz. unfold Qdiv. ring. }
    pose proof (po_abs p PO). lra.
  Qed.

  (** ** C81 *)
  Lemma pack_shape row sc k : forall v rhs rhs0, (k <= ncol)%nat ->
    fold_left (pack_step p c row sc) (seq 0 k) (Some ([], rhs0)) = Some (v, rhs) ->
    NoDup (map fst v) /\ (forall j a, In (j, a) v -> (j < k)%nat /\ a = row j / sc /\ (p_eps_coeff p < Qabs a \/
       (p_eps_coeff_lub p < Qabs a /\ ((0 < a -> is_lub p (m_clo m j) = true) /\ (a < 0 -> is_lub p (m_chi m j) = true))))) /\
    (v = [] \/ (Z.of_nat (length v) <= p_max_support p)%Z).
  Proof.
    induction k as [|k IH]; intros v rhs rhs0 L E.
    - cbn in E. inversion E; subst. conjs; [constructor|intros j a []|auto].
    - rewrite seq_S, fold_left_app in E. cbn [fold_left] in E. unfold pack_step at 1 in E.
      destruct (fold_left (pack_step p c row sc) (seq 0 k) (Some ([], rhs0))) as [(v0, rhs1)|] eqn:E0; [|discriminate].
      destruct (IH v0 rhs1 rhs0 ltac:(lia) E0) as (I1 & I2 & I3). cbn [Nat.add] in E. cbv zeta in E. set (a := row k / sc) in E.
      assert (Keep : forall w, Some (v0, w) = Some (v, rhs) -> NoDup (map fst v) /\
        (forall j b, In (j, b) v -> (j < S k)%nat /\ b = row j / sc /\ (p_eps_coeff p < Qabs b \/
          (p_eps_coeff_lub p < Qabs b /\ ((0 < b -> is_lub p (m_clo m j) = true) /\ (b < 0 -> is_lub p (m_chi m j) = true))))) /\
        (v = [] \/ (Z.of_nat (length v) <= p_max_support p)%Z)).
      { intros w Ew. apply Some_inj, pair_equal_spec in Ew. destruct Ew as (<- & _). conjs; auto.
        intros j b Hb. destruct (I2 j b Hb) as (J1 & J2). split; [lia|exact J2]. }
      assert (Take : (p_eps_coeff p < Qabs a \/ (p_eps_coeff_lub p < Qabs a /\
                       ((0 < a -> is_lub p (m_clo m k) = true) /\ (a < 0 -> is_lub p (m_chi m k) = true)))) ->
        (if (p_max_support p <? Z.of_nat (length (v0 ++ [(k, a)])))%Z then None else Some (v0 ++ [(k, a)], rhs1)) = Some (v, rhs) ->
        NoDup (map fst v) /\
        (forall j b, In (j, b) v -> (j < S k)%nat /\ b = row j / sc /\ (p_eps_coeff p < Qabs b \/
          (p_eps_coeff_lub p < Qabs b /\ ((0 < b -> is_lub p (m_clo m j) = true) /\ (b < 0 -> is_lub p (m_chi m j) = true))))) /\
        (v = [] \/ (Z.of_nat (length v) <= p_max_support p)%Z)).
      { intros Ha Et. destruct (Z.ltb_spec (p_max_support p) (Z.of_nat (length (v0 ++ [(k, a)])))); [discriminate|].
        apply Some_inj, pair_equal_spec in Et. destruct Et as (<- & _). conjs; [|intros j b Hb|auto].
        - rewrite map_app. cbn [map fst]. apply nodup_snoc; [exact I1|]. intro K. apply in_map_iff in K.
          destruct K as ((j & b) & Ej & Hj). cbn in Ej. subst j. destruct (I2 k b Hj). lia.
        - apply in_app_or in Hb. destruct Hb as [Hb|[Hb|[]]].
          + destruct (I2 j b Hb) as (J1 & J2). split; [lia|exact J2].
          + inversion Hb; subst. conjs; [lia|reflexivity|exact Ha]. }
      destruct (p_eps_coeff p <? Qabs a) eqn:C1; [apply Take; [left; qb; assumption|exact E]|].
      destruct ((0 <? a) && _) eqn:C2; [apply (Keep _ E)|]. destruct ((a <? 0) && _) eqn:C3; [apply (Keep _ E)|].
      destruct (p_eps_coeff_lub p <? Qabs a) eqn:C4; [|apply (Keep _ E)].
      apply Take; [|exact E]. right. conjs; [qb; assumption| |]; intro S0.
      + apply Qltb_lt in S0. rewrite S0 in C2. cbn [andb] in C2. apply negb_false_iff in C2. exact C2.
      + apply Qltb_lt in S0. rewrite S0 in C3. cbn [andb] in C3. apply negb_false_iff in C3. exact C3.
  Qed.

  Lemma cut_shape rows s i d : cut_of sqrt p c rows s i = Some d ->
    exists row sc v rhs, row_scale_factor sqrt p c row = Some sc /\ rc_form d = v /\
      NoDup (map fst v) /\ (forall j a, In (j, a) v -> (j < ncol)%nat /\ a = row j / sc /\ (p_eps_coeff p < Qabs a \/
         (p_eps_coeff_lub p < Qabs a /\ ((0 < a -> is_lub p (m_clo m j) = true) /\ (a < 0 -> is_lub p (m_chi m j) = true))))) /\
      (v = [] \/ (Z.of_nat (length v) <= p_max_support p)%Z) /\ (length v < 300)%nat /\ rc_lb d = None /\
      rc_ub d = Some (rhs + if 0 <? p_relax_rel p then p_relax_abs p + Qabs rhs * p_relax_rel p else p_relax_abs p) /\
      (value v x <= rhs \/ rhs + p_minviol p * inject_Z (Z.of_nat (length v)) <= value v x).
  Proof.
    intro E. unfold cut_of in E. destruct (raw_cut p c rows s i) as [(r3, q3)|]; [|discriminate].
    destruct (generate_packed_row sqrt p c r3 q3) as [(v, q4)|] eqn:Ep; [|discriminate].
    destruct (Nat.ltb_spec (length v) 300); [|discriminate]. cbv zeta in E. apply Some_inj in E. subst d.
    unfold generate_packed_row in Ep. destruct (row_scale_factor sqrt p c r3) as [sc|] eqn:Es; [|discriminate].
    destruct (fold_left (pack_step p c r3 sc) (seq 0 ncol) (Some ([], q3 / sc))) as [(v0, q0)|] eqn:Ef; [|discriminate].
    cbv zeta in Ep. destruct (_ && _) eqn:C; [discriminate|]. apply Some_inj, pair_equal_spec in Ep. destruct Ep as (-> & ->).
    destruct (pack_shape r3 sc ncol v q4 _ (le_n _) Ef) as (P1 & P2 & P3).
    exists r3, sc, v, q4. cbn [rc_form rc_lb rc_ub]. conjs; auto.
    apply andb_false_iff in C. destruct C as [C|C]; qb; [left; exact C|right; lra].
  Qed.
  (** Each new cut is an upper bound on a form in distinct columns, with no more
      elements than allowed and none below the smaller threshold; if the solution
      violates it before it is relaxed, then by MINVIOL for each element. *)
  Theorem C81_cut_form basis fuel cs cs' :
    p_relax_rel p == 0 ->
    generateCuts sqrt cbrt ins p c basis fuel cs = Done cs' ->
    forall d, In d cs' -> In d cs \/
      (NoDup (map fst (rc_form d)) /\
       (forall j a, In (j, a) (rc_form d) -> (j < ncol)%nat /\ (p_eps_coeff p < Qabs a \/
          (p_eps_coeff_lub p < Qabs a /\ (is_lub p (m_clo m j) = true \/ is_lub p (m_chi m j) = true \/ a == 0)))) /\
       (length (rc_form d) < 300)%nat /\ (rc_form d = [] \/ (Z.of_nat (length (rc_form d)) <= p_max_support p)%Z) /\
       rc_lb d = None /\
       exists ub, rc_ub d = Some ub /\
         (value (rc_form d) x <= ub - p_relax_abs p \/
          ub - p_relax_abs p + p_minviol p * inject_Z (Z.of_nat (length (rc_form d))) <= value (rc_form d) x)).
  Proof.
    intros RR E d Hd. destruct (run_ok _ _ _ _ E) as (_ & _ & H). destruct (H d Hd) as [G|(rows & s & i & _ & _ & Ec)]; [auto|]. right.
    destruct (cut_shape _ _ _ _ Ec) as (row & sc & v & rhs & _ & -> & F1 & F2 & F3 & F4 & F5 & F6 & F7).
    assert (R0 : (0 <? p_relax_rel p) = false) by (destruct (0 <? p_relax_rel p) eqn:R; [qb; lra|reflexivity]).
    rewrite R0 in F6. conjs; auto.
    - intros j a Hj. destruct (F2 j a Hj) as (G1 & _ & G2). split; [exact G1|]. destruct G2 as [G2|(G2 & G3 & G4)]; [auto|right].
      split; [exact G2|]. destruct (Qlt_le_dec 0 a); [auto|]. destruct (Qlt_le_dec a 0); [auto|]. right. right. lra.
    - eexists. split; [exact F6|]. destruct F7 as [F7|F7]; [left|right]; lra.
  Qed.
  Lemma Qmax_ge a b : a <= Qmax a b /\ b <= Qmax a b.
  Proof. unfold Qmax. destruct (a <? b) eqn:K; qb; split; lra. Qed.
  (** Without large bounds the coefficients above 50 EPS_COEFF respect MAXDYN. *)
  Theorem C81_dynamism basis fuel cs cs' :
    param_ok p -> (forall j, (j < ncol)%nat -> is_lub p (m_clo m j) = false /\ is_lub p (m_chi m j) = false) ->
    generateCuts sqrt cbrt ins p c basis fuel cs = Done cs' ->
    forall d, In d cs' -> In d cs \/
      forall j a i b, In (j, a) (rc_form d) -> In (i, b) (rc_form d) -> 50 * p_eps_coeff p < Qabs a -> Qabs b < p_maxdyn p * Qabs a.
  Proof.
    intros PO NL E d Hd. destruct (run_ok _ _ _ _ E) as (_ & _ & H). destruct (H d Hd) as [G|(rows & s & i0 & _ & _ & Ec)]; [auto|]. right.
    destruct (cut_shape _ _ _ _ Ec) as (row & sc & v & rhs & Sc & -> & _ & F2 & _). intros j a i b Ha Hb La.
    destruct (F2 j a Ha) as (Lj & Ea & Ta). destruct (F2 i b Hb) as (Li & Eb & _).
    pose proof (scale_range sqrt p c row sc Sc) as Sr. pose proof (po_coeff p PO). pose proof (po_lub p PO).
    assert (Ra : Qabs (row j) == Qabs a * sc).
    { rewrite Ea. unfold Qdiv. rewrite Qabs_Qmult, (Qabs_pos (/ sc)) by (apply Qinv_le_0_compat; lra). field. lra. }
    assert (Rb : Qabs (row i) == Qabs b * sc).
    { rewrite Eb. unfold Qdiv. rewrite Qabs_Qmult, (Qabs_pos (/ sc)) by (apply Qinv_le_0_compat; lra). field. lra. }
    assert (Pa : p_eps_coeff p < Qabs a).
    { destruct (NL j Lj) as (N1 & N2). destruct Ta as [Ta|(T1 & T2 & T3)]; [exact Ta|].
      destruct (Qlt_le_dec 0 a) as [K|K]; [rewrite (T2 K) in N1; discriminate|].
      destruct (Qlt_le_dec a 0) as [K'|K']; [rewrite (T3 K') in N2; discriminate|].
      assert (a == 0) by lra. rewrite H2 in T1. cbn in T1. lra. }
    (* the column j is counted *)
    assert (Lub : forall k, (k < ncol)%nat -> lub_col p c k = false).
    { intros k Lk. unfold lub_col. destruct (NL k Lk) as (-> & ->). reflexivity. }
    assert (Pj : 0 < Qabs (row j)) by (rewrite Ra; apply Qmult_lt_0_compat; lra).
    unfold row_scale_factor in Sc. cbv zeta in Sc.
    destruct (filter (counted p c row) (seq 0 ncol)) as [|u0 us] eqn:Fl; [discriminate|]. rewrite <- Fl in Sc.
    set (rv := if _ <? _ then _ else _) in Sc. destruct (_ || _); [discriminate|].
    assert (Hl : existsb (lub_col p c) (filter (counted p c row) (seq 0 ncol)) = false).
    { apply not_true_iff_false. rewrite existsb_exists. intros (k & Hk & Tk). apply filter_In in Hk. destruct Hk as (Hk & _).
      apply in_seq in Hk. rewrite Lub in Tk by lia. discriminate. }
    rewrite Hl in Sc. destruct (_ && _) eqn:C; [|discriminate]. clear Sc. qb.
    set (mx := fold_left (fun s0 j0 => Qmax s0 (Qabs (row j0))) (seq 0 ncol) 0) in *.
    set (mn := opt0 (fold_left (fun s0 j0 => omin s0 (Qabs (row j0))) (filter (counted p c row) (seq 0 ncol)) None)) in *.
    assert (M1 : Qabs (row i) <= mx).
    { assert (G : forall l q, (q <= fold_left (fun s0 j0 => Qmax s0 (Qabs (row j0))) l q) /\
                    forall k, In k l -> Qabs (row k) <= fold_left (fun s0 j0 => Qmax s0 (Qabs (row j0))) l q).
      { induction l as [|k l IH]; intro q; cbn [fold_left]; [split; [lra|intros k []]|].
        destruct (IH (Qmax q (Qabs (row k)))) as (I1 & I2).
        assert (Q1 : q <= Qmax q (Qabs (row k)) /\ Qabs (row k) <= Qmax q (Qabs (row k))).
        { apply Qmax_ge. }
        split; [lra|]. intros k' [<-|Hk]; [lra|auto]. }
      apply (proj2 (G (seq 0 ncol) 0)). apply in_seq. lia. }
    assert (M2 : 0 < p_maxdyn p -> p_maxdyn p * mn <= p_maxdyn p * Qabs (row j)).
    { intro Pd. rewrite !(Qmult_comm (p_maxdyn p)). apply Qmult_le_compat_r; [|lra]. unfold mn.
      assert (G : forall l o, (forall q, o = Some q -> exists q', fold_left (fun s0 j0 => omin s0 (Qabs (row j0))) l o = Some q' /\ q' <= q) /\
                    forall k, In k l -> exists q', fold_left (fun s0 j0 => omin s0 (Qabs (row j0))) l o = Some q' /\ q' <= Qabs (row k)).
      { induction l as [|k l IH]; intro o; cbn [fold_left].
        - split; [intros q ->; exists q; split; [reflexivity|lra]|intros k []].
        - destruct (IH (omin o (Qabs (row k)))) as (I1 & I2). split.
          + intros q ->. cbn [omin] in *. destruct (I1 _ eq_refl) as (q' & E1 & E2). exists q'. split; [exact E1|].
            destruct (Qabs (row k) <? q) eqn:K; qb; lra.
          + intros k' [<-|Hk]; [|auto]. unfold omin in *. destruct o as [q|].
            * destruct (I1 _ eq_refl) as (q' & E1 & E2). exists q'. split; [exact E1|]. destruct (Qabs (row k) <? q) eqn:K; qb; lra.
            * apply I1. reflexivity. }
      destruct (proj2 (G (filter (counted p c row) (seq 0 ncol)) None) j) as (q' & E1 & E2).
      { apply filter_In. split; [apply in_seq; lia|]. unfold counted. rewrite (Lub j Lj). apply Qltb_lt. rewrite Ra.
        destruct (Qlt_le_dec 0 (p_eps_coeff p)) as [K|K]; [|assert (0 < Qabs a * sc) by (apply Qmult_lt_0_compat; lra); lra].
        assert (0 <= Qabs a * (sc - (1 # 50))) by (apply Qmult_le_0_compat; lra). lra. }
      rewrite E1. cbn [opt0]. exact E2. }
    assert (Mn : 0 <= mn).
    { unfold mn. assert (G : forall l o, (forall q, o = Some q -> 0 <= q) -> 0 <= opt0 (fold_left (fun s0 j0 => omin s0 (Qabs (row j0))) l o)).
      { induction l as [|k l IH]; intros o Ho; cbn [fold_left]; [destruct o; cbn; [auto|lra]|].
        apply IH. intros q Eq. pose proof (Qabs_nonneg (row k)). destruct o as [q0|]; cbn [omin] in Eq; apply Some_inj in Eq; subst; [|assumption].
        destruct (Qabs (row k) <? q0); [assumption|apply Ho; reflexivity]. }
      apply G. discriminate. }
    pose proof (Qabs_nonneg (row i)).
    assert (Pd : 0 < p_maxdyn p) by (apply Qnot_le_lt; intro; nra). specialize (M2 Pd).
    assert (K : Qabs b * sc < p_maxdyn p * Qabs a * sc).
    { assert (p_maxdyn p * Qabs a * sc == p_maxdyn p * Qabs (row j)) by (rewrite Ra; ring). lra. }
    apply Qnot_le_lt. intro. nra.
  Qed.

  (** ** C84 *)
  (** Nothing is added without a basis, without a fractional integer column or
      when a variable is free and nonbasic; the cuts already there are kept and at
      most one is added for each fractional column. *)
  Theorem C84_no_cut basis fuel cs :
    (basis = false \/ card_frac p c = 0%nat \/
     (exists j, (j < ncol)%nat /\ c_cstat c j = Free) \/ (exists i, (i < nrow)%nat /\ c_rstat c i = Free)) ->
    generateCuts sqrt cbrt ins p c basis fuel cs = Done cs.
  Proof.
    intro H. unfold generateCuts. destruct basis; [|reflexivity]. unfold generate_inner.
    assert (G : Nat.eqb (length (contVars p c)) 0 || Nat.eqb (card_frac p c) 0 || negb (good_model c) = true); [|rewrite G; reflexivity].
    destruct H as [H|[H|H]]; [discriminate|rewrite H, Nat.eqb_refl, orb_true_r; reflexivity|].
    assert (E : good_model c = false); [|rewrite E; apply orb_true_r].
    apply not_true_iff_false. unfold good_model. rewrite forallb_forall. intro G.
    destruct H as [(j & L & Hj)|(i & L & Hi)].
    - specialize (G j ltac:(apply in_seq; lia)). unfold vstat in G. apply Nat.ltb_lt in L. rewrite L, Hj in G. discriminate.
    - specialize (G (ncol + i)%nat ltac:(apply in_seq; lia)). unfold vstat in G.
      destruct (Nat.ltb_spec (ncol + i) ncol); [lia|]. replace (ncol + i - ncol)%nat with i in G by lia. rewrite Hi in G. discriminate.
  Qed.
  Theorem C84_old_cuts_kept basis fuel cs cs' :
    generateCuts sqrt cbrt ins p c basis fuel cs = Done cs' ->
    exists new, cs' = cs ++ new /\ (length new <= length (filter (frac_basic p c) (seq 0 ncol)))%nat.
  Proof. intro E. apply (run_ok _ _ _ _ E). Qed.
End Run.

(** ** C82 *)
(** The reduction ends; the rows it leaves are integer combinations of the rows it
    was given, with the recorded multipliers, and have the same integer
    combinations; no integer multiple of a row shortens another by the required
    fraction, as long as neither is shorter than normIsZero. *)
Theorem C82_reduction nz d m n fuel T s :
  0 < d -> (forall r, (r < m)%nat -> length (T r) = n) ->
  reduce nz d fuel m T = Done s ->
  (forall r, (r < m)%nat -> length (s_T s r) = n /\ length (s_pi s r) = m /\
     forall k, nth k (s_T s r) 0 == zdot (s_pi s r) (map (fun j => nth k (T j) 0) (seq 0 m))) /\
  (forall u, (exists f : nat -> Z, forall k, nth k u 0 == qsum m (fun j => inject_Z (f j) * nth k (T j) 0)) <->
             (exists f : nat -> Z, forall k, nth k u 0 == qsum m (fun j => inject_Z (f j) * nth k (s_T s j) 0))) /\
  (forall a b, (a < m)%nat -> (b < m)%nat -> a <> b ->
     nz < dot (s_T s a) (s_T s a) -> nz < dot (s_T s b) (s_T s b) ->
     dot (s_T s a) (s_T s a) == 0 \/
     forall z : Z, (1 - d) * dot (s_T s a) (s_T s a) < dot (sub_row (s_T s a) z (s_T s b)) (sub_row (s_T s a) z (s_T s b))).
Proof.
  intros D L E. destruct (loop_ok nz d m n T D fuel 0 _ s (start_ready d m n T L) E) as (J & R). conjs.
  - intros r Lr. conjs; [apply (i_len _ _ _ _ _ J r Lr)|apply (i_pi _ _ _ _ _ J r Lr)|]. intro k. apply (i_comb _ _ _ _ _ J r k Lr).
  - apply (i_lat _ _ _ _ _ J).
  - exact R.
Qed.
(** The number of iterations is bounded by the sum of the norms. *)
Theorem C82_terminates nz d m n fuel T :
  0 < d -> (forall r, (r < m)%nat -> length (T r) = n) ->
  qsum m (fun r => dot (T r) (T r)) < inject_Z (Z.of_nat fuel) * (d * nz) ->
  reduce nz d fuel m T <> OutOfFuel.
Proof.
  intros D L F. apply (loop_fuel nz d m n T D fuel 0 _ (start_ready d m n T L)). exact F.
Qed.

(** ** C83 *)
(** The only undefined steps left when all fractional rows fit in the tableau are
    those of the arithmetic of the reduction. *)
Definition fine {A} (o : outcome A) : Prop :=
  match o with Throws | Aborts => False | Undef k => k = FloatCast \/ k = IntOverflow | _ => True end.
Lemma fine_bind {A B} (o : outcome A) (f : A -> outcome B) : fine o -> (forall a, o = Done a -> fine (f a)) -> fine (bind o f).
Proof. destruct o; cbn; auto. Qed.
Lemma fine_ofold {A S} (f : S -> A -> outcome S) l : (forall s a, fine (f s a)) -> forall s, fine (ofold f l s).
Proof. intro H. induction l as [|a l IH]; intro s; cbn [ofold]; [exact Logic.I|]. apply fine_bind; auto. Qed.
Lemma fine_test d iter s a b : fine (test d iter s a b).
Proof.
  unfold test. apply fine_bind; [|intros (b0, s0) _; exact Logic.I]. unfold test_pair. apply fine_bind.
  - unfold find_step. cbv zeta. destruct (Qeq_bool _ _); [cbn; auto|]. destruct (int_range _); cbn; auto.
  - intros (z, q) _. cbn [fst snd]. destruct (_ && _); [|exact Logic.I]. apply fine_bind; [|intros; exact Logic.I].
    generalize (s_pi s b). induction (s_pi s a) as [|u us IH]; intros [|w ws]; cbn [sub_pi]; try exact Logic.I.
    destruct (_ && _); [|cbn; auto]. apply fine_bind; [apply IH|intros; exact Logic.I].
Qed.
Lemma fine_reduce nz d m T fuel : fine (reduce nz d fuel m T).
Proof.
  unfold reduce. generalize 0%Z (start_rst m T). induction fuel as [|fuel IH]; intros it s; cbn [reduce_loop]; [exact Logic.I|].
  apply fine_bind.
  - apply fine_ofold. clear s. intros s i. unfold row_step. destruct (_ <? _); [|exact Logic.I]. apply fine_ofold. clear s. intros s j.
    unfold pair_step. destruct (_ <? _); [|exact Logic.I]. destruct (stale _ _ _ _ _); [|exact Logic.I].
    apply fine_bind; [apply fine_test|]. intros s1 _. destruct (stale _ _ _ _ _); [apply fine_test|exact Logic.I].
  - intros s1 _. destruct (s_done s1); [exact Logic.I|apply IH].
Qed.

Section Rows.
  Variable sqrt cbrt : Q -> Q.
  Variable ins : list rowcut -> rowcut -> list rowcut.
  Variable p : rsparam.
  Variable c : call.
  Notation ncol := (m_ncols (c_mip c)).
  Notation nrow := (length (m_rows (c_mip c))).
  Definition usable_b (r : nat) : bool := (c_basis c r <? ncol)%nat && frac_basic p c (c_basis c r).
  (** All rows are visited, from row 0, and the first [mTab] usable ones are kept. *)
  Lemma select_all mTab k : forall acc i, (i + k <= nrow)%nat ->
    exists rows, select p c 0 mTab (seq i k) acc = Done rows /\
      ((mTab <= length rows)%nat \/ rows = acc ++ filter usable_b (seq i k)).
  Proof.
    induction k as [|k IH]; intros acc i L; cbn [seq select filter].
    - exists acc. rewrite app_nil_r. auto.
    - destruct (Nat.leb_spec mTab (length acc)) as [M|M]; [exists acc; auto|]. cbn [Nat.add].
      destruct (Nat.ltb_spec nrow i); [lia|]. destruct (Nat.leb_spec nrow i); [lia|]. fold (usable_b i).
      destruct (usable_b i).
      + destruct (IH (acc ++ [i]) (S i) ltac:(lia)) as (rows & E & G). exists rows. split; [exact E|].
        destruct G as [G|G]; [auto|]. right. rewrite G, <- app_assoc. reflexivity.
      + apply (IH acc (S i) ltac:(lia)).
  Qed.
  Lemma enough_rows : (forall j, (j < ncol)%nat -> c_cstat c j = Basic -> exists r, (r < nrow)%nat /\ c_basis c r = j) ->
    (card_frac p c <= length (filter usable_b (seq 0 nrow)))%nat.
  Proof.
    intro H. unfold card_frac. rewrite <- (map_length (c_basis c) (filter usable_b _)).
    apply NoDup_incl_length; [apply NoDup_filter, seq_NoDup|]. intros j Hj. apply filter_In in Hj. destruct Hj as (Hj & F).
    apply in_seq in Hj. assert (B : c_cstat c j = Basic) by (unfold frac_basic in F; destruct (c_cstat c j); congruence).
    destruct (H j ltac:(lia) B) as (r & Lr & Er). apply in_map_iff. exists r. split; [exact Er|]. apply filter_In.
    split; [apply in_seq; lia|]. unfold usable_b. rewrite Er, F. apply andb_true_intro. split; [apply Nat.ltb_lt; lia|reflexivity].
  Qed.
  Theorem C83_no_bad_read basis fuel cs nm :
    (forall j, (j < ncol)%nat -> c_cstat c j = Basic -> exists r, (r < nrow)%nat /\ c_basis c r = j) ->
    new_mTab sqrt cbrt p c = Done nm -> (Z.of_nat (length (filter (frac_basic p c) (seq 0 ncol))) <= nm)%Z ->
    match generateCuts sqrt cbrt ins p c basis fuel cs with
    | Undef k => k = FloatCast \/ k = IntOverflow
    | Throws | Aborts => False
    | _ => True
    end.
  Proof.
    intros B Nm L. change (fine (generateCuts sqrt cbrt ins p c basis fuel cs)). unfold generateCuts.
    destruct basis; [|exact Logic.I]. unfold generate_inner. destruct (_ || _); [exact Logic.I|]. rewrite Nm. cbn [bind].
    destruct (nm =? 0)%Z; [exact Logic.I|]. cbv zeta.
    destruct (Z.ltb_spec nm (Z.of_nat (card_frac p c))) as [K|K]; [exfalso; unfold card_frac in K; lia|]. cbn [andb].
    destruct (select_all (card_frac p c) nrow [] 0 (le_n _)) as (rows & E & G). rewrite E. cbn [bind].
    assert (Lr : (card_frac p c <= length rows)%nat).
    { destruct G as [G|G]; [exact G|]. rewrite G. cbn [app]. apply enough_rows. exact B. }
    destruct (Nat.ltb_spec (length rows) (card_frac p c)); [lia|]. apply fine_bind; [apply fine_reduce|]. intros s _. exact Logic.I.
  Qed.
End Rows.

(** ** Concrete calls *)
Definition tb {A} (d : A) (l : list A) (j : nat) : A := nth j l d.
Definition root (q : Q) : Q := inject_Z (Z.sqrt (Qfloor (q * 1000000000000))) / 1000000.
(** the integer part of the cube root of the default 10^7 *)
Definition croot (q : Q) : Q := 215.
Definition stat_b (s : stat) (act : Q) (lo hi : option Q) : bool :=
  match s with
  | Upper => match lo with Some l => Qeq_bool l act | None => false end
  | Lower => match hi with Some u => Qeq_bool u act | None => false end
  | _ => true
  end.
Definition basic_b (s : stat) : bool := match s with Basic => true | _ => false end.
Definition lp_okb (c : call) : bool :=
  let m := c_mip c in let ncol := m_ncols m in let nrow := length (m_rows m) in
  wfb m &&
  forallb (fun i => Qeq_bool (c_act c i) (value (r_form (row_of c i)) (c_x c))) (seq 0 nrow) &&
  forallb (fun j => stat_b (c_cstat c j) (c_x c j) (m_chi m j) (m_clo m j)) (seq 0 ncol) &&
  forallb (fun i => stat_b (c_rstat c i) (c_act c i) (r_lo (row_of c i)) (r_hi (row_of c i))) (seq 0 nrow) &&
  forallb (fun r => (ncol <=? c_basis c r)%nat ||
    (forallb (fun j => Qeq_bool (fst (c_binva c r) j) (qsum nrow (fun i => snd (c_binva c r) i * coef (r_form (row_of c i)) j))) (seq 0 ncol) &&
     forallb (fun j => negb (basic_b (c_cstat c j)) || Qeq_bool (fst (c_binva c r) j) (if Nat.eqb j (c_basis c r) then 1 else 0)) (seq 0 ncol) &&
     forallb (fun i => negb (basic_b (c_rstat c i)) || Qeq_bool (snd (c_binva c r) i) 0) (seq 0 nrow))) (seq 0 nrow).
Definition oint_b (o : option Q) : bool := match o with Some q => integralb q | None => true end.
Definition data_okb (p : rsparam) (c : call) : bool :=
  let m := c_mip c in
  forallb (fun j => negb (m_int m j) || (oint_b (m_clo m j) && oint_b (m_chi m j))) (seq 0 (m_ncols m)) &&
  forallb (fun j => match m_clo m j, m_chi m j with
                    | Some l, Some u => negb ((u - l <? p_eps p) && (above p u <? p_eps p)) || (Qeq_bool l u && integralb u)
                    | _, _ => true end) (seq 0 (m_ncols m)) &&
  forallb (fun i => match r_lo (row_of c i), r_hi (row_of c i) with
                    | Some l, Some u => negb (u - p_eps p <? l) || Qeq_bool l u
                    | _, _ => true end) (seq 0 (length (m_rows m))).
Lemma forallb_seq (f : nat -> bool) n j : forallb f (seq 0 n) = true -> (j < n)%nat -> f j = true.
Proof. rewrite forallb_forall. intros H L. apply H, in_seq. lia. Qed.
Lemma lp_okb_ok c : lp_okb c = true -> lp_ok c.
Proof.
  unfold lp_okb. cbv zeta. rewrite !andb_true_iff. intros ((((H1 & H2) & H3) & H4) & H5). constructor.
  - apply wfb_ok. exact H1.
  - intros i L. apply Qeq_bool_eq, (forallb_seq _ _ i H2 L).
  - intros j L. pose proof (forallb_seq _ _ j H3 L) as G. cbn beta in G. unfold stat_b in G. destruct (c_cstat c j); auto.
    + destruct (m_chi (c_mip c) j) as [u|]; [|discriminate]. exists u. split; [reflexivity|apply Qeq_bool_eq; exact G].
    + destruct (m_clo (c_mip c) j) as [u|]; [|discriminate]. exists u. split; [reflexivity|apply Qeq_bool_eq; exact G].
  - intros i L. pose proof (forallb_seq _ _ i H4 L) as G. cbn beta in G. unfold stat_b in G. destruct (c_rstat c i); auto.
    + destruct (r_lo (row_of c i)) as [u|]; [|discriminate]. exists u. split; [reflexivity|apply Qeq_bool_eq; exact G].
    + destruct (r_hi (row_of c i)) as [u|]; [|discriminate]. exists u. split; [reflexivity|apply Qeq_bool_eq; exact G].
  - intros r Lr Lb. pose proof (forallb_seq _ _ r H5 Lr) as G. cbn beta in G. apply orb_true_iff in G.
    destruct G as [G|G]; [apply Nat.leb_le in G; lia|]. rewrite !andb_true_iff in G. destruct G as ((G1 & G2) & G3). conjs.
    + intros j L. apply Qeq_bool_eq, (forallb_seq _ _ j G1 L).
    + intros j L B. pose proof (forallb_seq _ _ j G2 L) as G. cbn beta in G. rewrite B in G. apply Qeq_bool_eq. exact G.
    + intros i L B. pose proof (forallb_seq _ _ i G3 L) as G. cbn beta in G. rewrite B in G. apply Qeq_bool_eq. exact G.
Qed.
Lemma data_okb_ok p c : data_okb p c = true -> data_ok p c.
Proof.
  unfold data_okb. cbv zeta. rewrite !andb_true_iff. intros ((H1 & H2) & H3). constructor.
  - intros j L I. pose proof (forallb_seq _ _ j H1 L) as G. cbn beta in G. rewrite I in G. cbn [negb orb] in G.
    apply andb_true_iff in G. destruct G as (G1 & G2).
    split; [intros l E; rewrite E in G1|intros u E; rewrite E in G2]; apply integralb_ok; assumption.
  - intros j l u L El Eu C1 C2. pose proof (forallb_seq _ _ j H2 L) as G. cbn beta in G. rewrite El, Eu in G.
    apply Qltb_lt in C1, C2. rewrite C1, C2 in G. cbn [andb negb orb] in G. apply andb_true_iff in G. destruct G as (G1 & G2).
    split; [apply Qeq_bool_eq; exact G1|apply integralb_ok; exact G2].
  - intros i l u L El Eu C. pose proof (forallb_seq _ _ i H3 L) as G. cbn beta in G. rewrite El, Eu in G.
    apply Qltb_lt in C. rewrite C in G. cbn [negb orb] in G. apply Qeq_bool_eq. exact G.
Qed.
Lemma default_ok : param_ok p_default.
Proof. constructor; vm_compute; congruence || reflexivity. Qed.

(** Two fractional integer columns, a continuous and an integer column at their
    lower bounds, both slacks at their lower bounds.  The reduction adds the second
    row of the tableau to the first. *)
Definition ex_m : mip :=
  Mip 4 [Row [(0%nat, 3); (1%nat, 1); (2%nat, 1); (3%nat, 1)] None (Some 8);
         Row [(0%nat, 1); (1%nat, 3); (3%nat, - (1))] None (Some 9)]
      (fun _ => Some 0) (tb None [Some 10; Some 10; Some 5; Some 3])
      (tb false [true; true; false; true]).
Definition ex_c : call :=
  Call ex_m (tb 0 [15 # 8; 19 # 8; 0; 0]) (tb 0 [8; 9]) (tb Basic [Basic; Basic; Lower; Lower]) (tb Basic [Lower; Lower])
       (tb 0%nat [0%nat; 1%nat])
       (tb (fun _ => 0, fun _ => 0)
          [(tb 0 [1; 0; 3 # 8; 1 # 2], tb 0 [3 # 8; -1 # 8]); (tb 0 [0; 1; -1 # 8; -1 # 2], tb 0 [-1 # 8; 3 # 8])]).

Definition result (o : outcome (list rowcut)) : list rowcut := match o with Done cs => cs | _ => [] end.
Definition with_eps (p : rsparam) (e el ec : Q) : rsparam :=
  RSP e ec (p_max_support p) (p_lub p) el (p_relax_abs p) (p_relax_rel p) (p_maxdyn p) (p_maxdyn_lub p)
      (p_eps_coeff_lub p) (p_minviol p) (p_cg2 p) (p_norm_zero p) (p_min_reduc p) (p_away p) (p_max_tab p).
Definition with_cg2 (p : rsparam) : rsparam :=
  RSP (p_eps p) (p_eps_coeff p) (p_max_support p) (p_lub p) (p_eps_elim p) (p_relax_abs p) (p_relax_rel p) (p_maxdyn p) (p_maxdyn_lub p)
      (p_eps_coeff_lub p) (p_minviol p) true (p_norm_zero p) (p_min_reduc p) (p_away p) (p_max_tab p).
Definition with_maxdyn (p : rsparam) (d : Q) : rsparam :=
  RSP (p_eps p) (p_eps_coeff p) (p_max_support p) (p_lub p) (p_eps_elim p) (p_relax_abs p) (p_relax_rel p) d (p_maxdyn_lub p)
      (p_eps_coeff_lub p) (p_minviol p) (p_cg2 p) (p_norm_zero p) (p_min_reduc p) (p_away p) (p_max_tab p).
Definition with_max_tab (p : rsparam) (t : Q) : rsparam :=
  RSP (p_eps p) (p_eps_coeff p) (p_max_support p) (p_lub p) (p_eps_elim p) (p_relax_abs p) (p_relax_rel p) (p_maxdyn p) (p_maxdyn_lub p)
      (p_eps_coeff_lub p) (p_minviol p) (p_cg2 p) (p_norm_zero p) (p_min_reduc p) (p_away p) t.

(** A basic integer column, an integer column whose coefficient in the tableau is
    close to 3, and no other column. *)
Definition near_c : call :=
  Call (Mip 2 [Row [(0%nat, 2); (1%nat, 60000018 # 10000000)] None (Some 1)]
            (tb None [Some (-10000000); Some 0]) (tb None [Some 10000000; Some 1000000]) (fun _ => true))
       (tb 0 [1 # 2; 0]) (tb 0 [1]) (tb Basic [Basic; Lower]) (tb Basic [Lower]) (tb 0%nat [0%nat])
       (tb (fun _ => 0, fun _ => 0) [(tb 0 [1; 30000009 # 10000000], tb 0 [1 # 2])]).
(** A row between 0 and 5*10^-7 *)
Definition range_c : call :=
  Call (Mip 2 [Row [(0%nat, 1 # 1000000); (1%nat, 1 # 1000000)] (Some 0) (Some (5 # 10000000))]
            (tb None [Some 0; Some 0]) (tb None [Some 10; Some 1]) (tb false [true; false]))
       (tb 0 [1 # 2; 0]) (tb 0 [5 # 10000000]) (tb Basic [Basic; Lower]) (tb Basic [Lower]) (tb 0%nat [0%nat])
       (tb (fun _ => 0, fun _ => 0) [(tb 0 [1; 1], tb 0 [1000000])]).
(** A column without upper bound and with a coefficient below EPS_COEFF, at 10^9. *)
Definition loose_c : call :=
  Call (Mip 2 [Row [(0%nat, 2); (1%nat, 8 # 1000000000)] None (Some 9); Row [(1%nat, 1)] None (Some 1000000000)]
            (tb None [Some 0; Some 0]) (tb None [Some 10; None]) (tb false [true; false]))
       (tb 0 [1 # 2; 1000000000]) (tb 0 [9; 1000000000]) (tb Basic [Basic; Basic]) (tb Basic [Lower; Lower]) (tb 0%nat [0%nat; 1%nat])
       (tb (fun _ => 0, fun _ => 0) [(tb 0 [1; 0], tb 0 [1 # 2; -4 # 1000000000]); (tb 0 [0; 1], tb 0 [0; 1])]).
(** A coefficient just below EPS_COEFF before the cut is scaled. *)
Definition dyn_c : call :=
  Call (Mip 4 [Row [(0%nat, 2); (1%nat, -1 # 10); (2%nat, -1 # 10); (3%nat, -9 # 1000000)] None (Some 1)]
            (fun _ => Some 0) (fun _ => Some 1) (tb false [true; false; false; false]))
       (tb 0 [1 # 2; 0; 0; 0]) (tb 0 [1]) (tb Basic [Basic; Lower; Lower; Lower]) (tb Basic [Lower]) (tb 0%nat [0%nat])
       (tb (fun _ => 0, fun _ => 0) [(tb 0 [1; -1 # 20; -1 # 20; -45 # 10000000], tb 0 [1 # 2])]).
(** The quotient of two norms exceeds the largest int. *)
Definition step_c : call :=
  Call (Mip 3 [Row [(0%nat, 2); (2%nat, -6000000000)] None (Some 1); Row [(1%nat, 2); (2%nat, - (1))] None (Some 1)]
            (fun _ => Some 0) (fun _ => Some 10) (tb false [true; true; false]))
       (tb 0 [1 # 2; 1 # 2; 0]) (tb 0 [1; 1]) (tb Basic [Basic; Basic; Lower]) (tb Basic [Lower; Lower]) (tb 0%nat [0%nat; 1%nat])
       (tb (fun _ => 0, fun _ => 0) [(tb 0 [1; 0; -3000000000], tb 0 [1 # 2; 0]); (tb 0 [0; 1; -1 # 2], tb 0 [0; 1 # 2])]).
(** [n] rows 2 x_i <= 1 with every column at 1/2 *)
Definition wide_c (n : nat) : call :=
  Call (Mip n (map (fun i => Row [(i, 2)] None (Some 1)) (seq 0 n)) (fun _ => Some 0) (fun _ => Some 1) (fun _ => true))
       (fun _ => 1 # 2) (fun _ => 1) (fun _ => Basic) (fun _ => Lower) (fun r => r)
       (fun r => (fun j => if Nat.eqb j r then 1 else 0, fun i => if Nat.eqb i r then 1 # 2 else 0)).
Definition wide_p : rsparam := with_max_tab p_default 129042650.

Definition p_exact : rsparam := with_eps p_default 0 0 0.
Lemma exact_ok : param_ok p_exact.
Proof. constructor; vm_compute; congruence || reflexivity. Qed.
Definition run (p : rsparam) (c : call) : list rowcut := result (generateCuts root croot insert_new p c true 20 []).

(** Both rows give a cut, both cuts are violated by the solution and keep every
    feasible point; there are feasible points. *)
Example C80_example :
  lp_ok ex_c /\ data_ok p_exact ex_c /\
  generateCuts root croot insert_new p_exact ex_c true 20 [] = Done (run p_exact ex_c) /\
  length (run p_exact ex_c) = 2%nat /\
  (forall d, In d (run p_exact ex_c) -> keeps_all ex_m d /\ ~ rowcut_sat d (c_x ex_c)) /\
  feasible ex_m (tb 0 [1; 3; 1; 1]).
Proof.
  assert (L : lp_ok ex_c) by (apply lp_okb_ok; vm_compute; reflexivity).
  assert (D : data_ok p_exact ex_c) by (apply data_okb_ok; vm_compute; reflexivity).
  assert (E : generateCuts root croot insert_new p_exact ex_c true 20 [] = Done (run p_exact ex_c)) by (vm_compute; reflexivity).
  conjs; [exact L|exact D|exact E|vm_compute; reflexivity| |apply feasible_b_ok; vm_compute; reflexivity].
  intros d Hd. split.
  - destruct (C80_cuts_valid_exact root croot insert_new p_exact ex_c insert_new_ok ltac:(vm_compute; reflexivity)
      true 20 [] _ L D exact_ok ltac:(vm_compute; reflexivity) ltac:(vm_compute; reflexivity) ltac:(vm_compute; reflexivity) E d Hd) as [[]|G]; exact G.
  - apply rowcut_b_no. assert (F : forallb (fun d => negb (rowcut_b d (c_x ex_c))) (run p_exact ex_c) = true) by (vm_compute; reflexivity).
    rewrite forallb_forall in F. apply negb_true_iff, (F d Hd).
Qed.
(** With the default parameters an integer column whose coefficient is close to an
    integer keeps that coefficient, and a feasible point is cut off by 0.45. *)
Theorem C80_near_integer_refuted :
  exists c y d ub, lp_ok c /\ data_ok p_default c /\ In d (run p_default c) /\ feasible (c_mip c) y /\
    rc_ub d = Some ub /\ ub + (4 # 10) < value (rc_form d) y.
Proof.
  exists near_c, (tb 0 [-1500000; 500000]), (hd (RowCut [] None None) (run p_default near_c)).
  eexists. conjs; [apply lp_okb_ok; vm_compute; reflexivity|apply data_okb_ok; vm_compute; reflexivity|vm_compute; auto|
    apply feasible_b_ok; vm_compute; reflexivity|vm_compute; reflexivity|vm_compute; reflexivity].
Qed.
(** A row whose two sides differ by less than EPS is taken for an equation and its
    slack is dropped, whatever its coefficient. *)
Theorem C80_small_range_refuted :
  exists c y d, lp_ok c /\ In d (run (with_cg2 p_default) c) /\ feasible (c_mip c) y /\ ~ rowcut_sat d y.
Proof.
  exists range_c, (fun _ => 0), (hd (RowCut [] None None) (run (with_cg2 p_default) range_c)).
  conjs; [apply lp_okb_ok; vm_compute; reflexivity|vm_compute; auto|apply feasible_b_ok; vm_compute; reflexivity|
    apply rowcut_b_no; vm_compute; reflexivity].
Qed.

(** The solution of the LP may satisfy a new cut. *)
Theorem C81_not_violated_refuted :
  exists c d, lp_ok c /\ data_ok p_default c /\ In d (run p_default c) /\ rowcut_sat d (c_x c).
Proof.
  exists loose_c, (hd (RowCut [] None None) (run p_default loose_c)).
  conjs; [apply lp_okb_ok; vm_compute; reflexivity|apply data_okb_ok; vm_compute; reflexivity|vm_compute; auto|].
  split; vm_compute; congruence || exact Logic.I.
Qed.
(** The ratio of two coefficients may exceed MAXDYN, because elements are selected
    by their size after scaling and compared before. *)
Theorem C81_dynamism_refuted :
  exists c d j a i b, lp_ok c /\ data_ok (with_maxdyn p_default 1000) c /\
    (forall j, (j < m_ncols (c_mip c))%nat -> is_lub p_default (m_clo (c_mip c) j) = false /\ is_lub p_default (m_chi (c_mip c) j) = false) /\
    In d (run (with_maxdyn p_default 1000) c) /\ In (j, a) (rc_form d) /\ In (i, b) (rc_form d) /\ 100 * 1000 * Qabs a < Qabs b.
Proof.
  exists dyn_c, (hd (RowCut [] None None) (run (with_maxdyn p_default 1000) dyn_c)), 3%nat.
  eexists. exists 0%nat. eexists.
  conjs; [apply lp_okb_ok; vm_compute; reflexivity|apply data_okb_ok; vm_compute; reflexivity| |vm_compute; auto|
    vm_compute; right; right; right; left; reflexivity|vm_compute; left; reflexivity|vm_compute; reflexivity].
  intros j _. split; vm_compute; reflexivity.
Qed.
Example C81_example : exists d, In d (run p_default ex_c) /\ length (rc_form d) = 3%nat /\
  (forall j, (j < 4)%nat -> is_lub p_default (m_clo ex_m j) = false /\ is_lub p_default (m_chi ex_m j) = false) /\
  forall j a i b, In (j, a) (rc_form d) -> In (i, b) (rc_form d) -> 50 * p_eps_coeff p_default < Qabs a -> Qabs b < p_maxdyn p_default * Qabs a.
Proof.
  assert (NL : forall j, (j < 4)%nat -> is_lub p_default (m_clo ex_m j) = false /\ is_lub p_default (m_chi ex_m j) = false).
  { intros j L. do 4 (destruct j as [|j]; [split; vm_compute; reflexivity|]). lia. }
  exists (nth 1 (run p_default ex_c) (RowCut [] None None)). conjs; [vm_compute; auto|vm_compute; reflexivity|exact NL|].
  destruct (C81_dynamism root croot insert_new p_default ex_c insert_new_ok ltac:(vm_compute; reflexivity) true 20 [] (run p_default ex_c)
    default_ok NL ltac:(vm_compute; reflexivity) (nth 1 (run p_default ex_c) (RowCut [] None None)) ltac:(vm_compute; auto)) as [[]|G]; exact G.
Qed.

(** The reduction of the example adds one row to the other. *)
Example C82_example :
  exists s, reduce (1 # 100000) (1 # 20) 20 2 (tb [] [[3 # 8; 3 # 8; -1 # 8]; [-1 # 8; -1 # 8; 3 # 8]]) = Done s /\
    s_pi s 0%nat = [1; 1]%Z /\ qsum 2 (fun r => dot (s_T s r) (s_T s r)) < 30 # 64 /\
    reduce (1 # 100000) (1 # 20) (Z.to_nat 1000000) 2 (tb [] [[3 # 8; 3 # 8; -1 # 8]; [-1 # 8; -1 # 8; 3 # 8]]) <> OutOfFuel.
Proof.
  eexists. conjs; [vm_compute; reflexivity|vm_compute; reflexivity|vm_compute; reflexivity|].
  apply C82_terminates with (n := 3%nat).
  - vm_compute. reflexivity.
  - intros r L. do 2 (destruct r as [|r]; [reflexivity|]). lia.
  - rewrite Z2Nat.id by lia. vm_compute. reflexivity.
Qed.
(** The step between two rows is converted to int without a check. *)
Theorem C82_step_refuted :
  exists c, lp_ok c /\ data_ok p_default c /\ generateCuts root croot insert_new p_default c true 20 [] = Undef FloatCast.
Proof.
  exists step_c. conjs; [apply lp_okb_ok; vm_compute; reflexivity|apply data_okb_ok; vm_compute; reflexivity|vm_compute; reflexivity].
Qed.

Example C83_example :
  (forall j, (j < 4)%nat -> c_cstat ex_c j = Basic -> exists r, (r < 2)%nat /\ c_basis ex_c r = j) /\
  new_mTab root croot p_default ex_c = Done 215%Z /\ length (filter (frac_basic p_default ex_c) (seq 0 4)) = 2%nat.
Proof.
  conjs; [|vm_compute; reflexivity|vm_compute; reflexivity]. intros j L B.
  destruct j as [|[|[|[|j]]]]; [exists 0%nat; auto|exists 1%nat; auto|discriminate B|discriminate B|lia].
Qed.
Lemma wide_row n i : (i < n)%nat -> row_of (wide_c n) i = Row [(i, 2)] None (Some 1).
Proof.
  intro L. unfold row_of. cbn [wide_c c_mip m_rows]. rewrite (nth_indep _ _ (Row [(0%nat, 2)] None (Some 1))) by (rewrite map_length, seq_length; exact L).
  rewrite (map_nth (fun i => Row [(i, 2)] None (Some 1))), seq_nth by exact L. reflexivity.
Qed.
Lemma wide_ok n : lp_ok (wide_c n).
Proof.
  assert (Ln : length (m_rows (c_mip (wide_c n))) = n) by (cbn; rewrite map_length, seq_length; reflexivity).
  constructor; rewrite ?Ln; cbn [wide_c c_mip m_ncols c_act c_x c_cstat c_rstat c_basis c_binva fst snd].
  - intros r Hr. cbn [m_rows] in Hr. apply in_map_iff in Hr. destruct Hr as (i & <- & Hi). apply in_seq in Hi. cbn.
    split; [constructor; [intros []|constructor]|]. intros j a [H|[]]. inversion H; subst. lia.
  - intros i L. rewrite wide_row by exact L. vm_compute. reflexivity.
  - auto.
  - intros i L. rewrite wide_row by exact L. exists 1. split; reflexivity.
  - intros r Lr _. conjs.
    + intros j Lj. rewrite (qsum_ext n _ (fun i => if Nat.eqb i r then (if Nat.eqb i j then 1 else 0) else 0)).
      * rewrite (qsum_one n (fun i => if Nat.eqb i j then 1 else 0) r Lr). rewrite Nat.eqb_sym. reflexivity.
      * intros i Li. rewrite wide_row by exact Li. cbn [r_form]. unfold coef. cbn [find fst]. destruct (Nat.eqb i r); [|ring].
        destruct (Nat.eqb i j); cbn [snd]; reflexivity.
    + intros j Lj _. reflexivity.
    + intros i Li H. discriminate.
Qed.
(** When not all fractional rows fit, the visit starts at a random row and reads
    the basis one past its end. *)
Theorem C83_bad_read_refuted :
  exists p c, lp_ok c /\ data_ok p c /\ param_ok p /\
    generateCuts root croot insert_new p c true 20 [] = Undef OutOfBounds.
Proof.
  exists wide_p, (wide_c 506). conjs; [apply wide_ok|apply data_okb_ok; vm_compute; reflexivity|
    constructor; vm_compute; congruence || reflexivity|vm_compute; reflexivity].
Qed.
Example C84_example :
  generateCuts root croot insert_new p_default
    (Call ex_m (c_x ex_c) (c_act ex_c) (tb Basic [Basic; Basic; Free; Lower]) (c_rstat ex_c) (c_basis ex_c) (c_binva ex_c)) true 20 [] = Done [] /\
  length (run p_default ex_c) = 2%nat.
Proof. split; vm_compute; reflexivity. Qed.

Print Assumptions C80_cuts_valid_within_tolerance.
Print Assumptions C80_cuts_valid_exact.
Print Assumptions C80_near_integer_refuted.
Print Assumptions C80_small_range_refuted.
Print Assumptions C81_cut_form.
Print Assumptions C81_dynamism.
Print Assumptions C81_not_violated_refuted.
Print Assumptions C81_dynamism_refuted.
Print Assumptions C82_reduction.
Print Assumptions C82_terminates.
Print Assumptions C82_step_refuted.
Print Assumptions C83_no_bad_read.
Print Assumptions C83_bad_read_refuted.
Print Assumptions C84_no_cut.
Print Assumptions C84_old_cuts_kept.
