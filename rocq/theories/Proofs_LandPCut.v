(** * CglLandP: the cut built from an exact row of the tableau *)

From Coq Require Import Qabs Permutation.
From Verif Require Import Base Model_LandP Proofs_LandP.
Local Open Scope Q_scope.

Section Cut.
  Variable m : mip.
  Variable s_ : solver.
  Notation n := (m_ncols m).
  Notation nrow := (length (m_rows m)).
  Notation A i y := (value (r_form (row_of m i)) y).

  (** a nonbasic variable rests on a finite bound; the slack of row i is the
      distance to the upper side in status Lower, to the lower side in status
      Upper *)
  Definition rests (b : basis) (v : nat) : Prop :=
    if (v <? n)%nat then
      match b_cstat b v with
      | Upper => exists u, m_chi m v = Some u /\ s_x s_ b v == u
      | Lower => exists l, m_clo m v = Some l /\ s_x s_ b v == l
      | _ => False
      end
    else
      match b_rstat b (v - n) with
      | Upper => exists l, r_lo (row_of m (v - n)) = Some l /\ s_act s_ b (v - n) == l
      | Lower => exists u, r_hi (row_of m (v - n)) = Some u /\ s_act s_ b (v - n) == u
      | _ => False
      end.
  (** What an exact simplex interface answers in a basis. *)
  Record basis_ok (b : basis) : Prop := {
    bo_len : length (b_basics b) = nrow;
    bo_nodup : NoDup (b_nonbasics b);
    bo_range : forall v, In v (b_nonbasics b) -> (v < n + nrow)%nat;
    bo_rest : forall v, In v (b_nonbasics b) -> rests b v;
    bo_act : forall i, (i < nrow)%nat -> s_act s_ b i == A i (s_x s_ b);
    bo_row : forall r, (r < nrow)%nat ->
      let k := basic_at b r in
      (k < n + nrow)%nat /\ ~ In k (b_nonbasics b) /\ s_tab s_ b r k == 1 /\
      (forall v, (v < n + nrow)%nat -> v <> k -> ~ In v (b_nonbasics b) -> s_tab s_ b r v == 0) /\
      (forall y, qsum n (fun j => s_tab s_ b r j * y j) == qsum nrow (fun i => s_tab s_ b r (n + i)%nat * A i y))
  }.

  (** Data that the code may take at face value: no row with two different
      finite sides, integer columns with integer bounds, and integer data in the
      rows whose slack is taken for an integer. *)
  Record data_ok : Prop := {
    do_wf : wf_mip m;
    do_range : forall i l u, (i < nrow)%nat -> r_lo (row_of m i) = Some l -> r_hi (row_of m i) = Some u -> l == u;
    do_int : forall j, (j < n)%nat -> m_int m j = true ->
      (forall l, m_clo m j = Some l -> integral l) /\ (forall u, m_chi m j = Some u -> integral u);
    do_slack : forall i, (i < nrow)%nat -> slack_int m (row_of m i) = true ->
      (forall l, r_lo (row_of m i) = Some l -> integral l) /\ (forall u, r_hi (row_of m i) = Some u -> integral u) /\
      (forall j a, In (j, a) (r_form (row_of m i)) -> integral a)
  }.

  Definition oq (o : option Q) : Q := match o with Some q => q | None => 0 end.
  (** the distance of a nonbasic variable to the bound it rests on *)
  Definition tv (b : basis) (y : point) (v : nat) : Q :=
    if (v <? n)%nat then (if stat_eqb (b_cstat b v) Upper then oq (m_chi m v) - y v else y v - oq (m_clo m v))
    else if stat_eqb (b_rstat b (v - n)) Upper then A (v - n)%nat y - oq (r_lo (row_of m (v - n)))
         else oq (r_hi (row_of m (v - n))) - A (v - n)%nat y.

  Lemma row_in i : (i < nrow)%nat -> In (row_of m i) (m_rows m).
  Proof. intro L. unfold row_of. apply nth_In. exact L. Qed.
  Lemma tv_nonneg b y v : basis_ok b -> feasible m y -> In v (b_nonbasics b) -> 0 <= tv b y v.
  Proof.
    intros B (F1 & F2 & F3) I. pose proof (bo_rest b B v I) as R. pose proof (bo_range b B v I) as L. unfold tv. unfold rests in R.
    destruct (Nat.ltb_spec v n) as [H|H].
    - destruct (F2 v H) as (K1 & K2). destruct (b_cstat b v); cbn [stat_eqb]; try contradiction.
      + destruct R as (u & E & _). rewrite E in *. cbn in *. lra.
      + destruct R as (u & E & _). rewrite E in *. cbn in *. lra.
    - destruct (F1 _ (row_in (v - n) ltac:(lia))) as (K1 & K2). destruct (b_rstat b (v - n)); cbn [stat_eqb]; try contradiction.
      + destruct R as (u & E & _). rewrite E in *. cbn [oq]. cbn in K1. lra.
      + destruct R as (u & E & _). rewrite E in *. cbn [oq]. cbn in K2. lra.
  Qed.
  Lemma forallb_int i y : data_ok -> (i < nrow)%nat -> feasible m y -> slack_int m (row_of m i) = true -> integral (A i y).
  Proof.
    intros D L (_ & _ & F) S. apply value_integral. intros j a I. destruct (do_slack D i L S) as (_ & _ & K). split; [apply (K j a I)|].
    unfold slack_int in S. apply andb_prop in S. destruct S as (_ & S). rewrite forallb_forall in S. specialize (S _ I). cbn [fst snd] in S.
    apply andb_prop in S. destruct S as (S & _). apply F; [|exact S].
    destruct (do_wf D _ (row_in i L)) as (_ & W). eapply W. exact I.
  Qed.
  Lemma tv_integral b y v : data_ok -> basis_ok b -> feasible m y -> In v (b_nonbasics b) -> is_int m v = true -> integral (tv b y v).
  Proof.
    intros D B F I K. pose proof (bo_rest b B v I) as R. pose proof (bo_range b B v I) as L. unfold tv. unfold rests in R. unfold is_int in K.
    destruct (Nat.ltb_spec v n) as [H|H].
    - destruct (do_int D v H K) as (K1 & K2). pose proof F as (_ & _ & F3). specialize (F3 v H K).
      destruct (b_cstat b v); cbn [stat_eqb]; try contradiction; destruct R as (u & E & _); rewrite E; cbn [oq]; apply integral_minus; auto.
    - assert (L' : (v - n < nrow)%nat) by lia. destruct (do_slack D _ L' K) as (K1 & K2 & _).
      pose proof (forallb_int _ y D L' F K).
      destruct (b_rstat b (v - n)); cbn [stat_eqb]; try contradiction; destruct R as (u & E & _); rewrite E; cbn [oq]; apply integral_minus; auto.
  Qed.

  (** ** Rows *)
  (** what holds between a row and the feasible points *)
  Definition rowrel (b : basis) (t : trow) : Prop :=
    forall y, feasible m y -> integral (lsum (b_nonbasics b) (fun v => t_el t v * tv b y v) - t_rhs t).
  Definition row_ok (b : basis) (t : trow) : Prop := rowrel b t /\ 0 <= t_rhs t /\ t_rhs t < 1.

  Lemma is_nonbasic_iff b v : is_nonbasic b v = true <-> In v (b_nonbasics b).
  Proof. apply in_existsb. Qed.
  Lemma A_sum i y : data_ok -> (i < nrow)%nat -> A i y == qsum n (fun j => coef (r_form (row_of m i)) j * y j).
  Proof. intros D L. destruct (do_wf D _ (row_in i L)) as (W1 & W2). apply value_coef; assumption. Qed.
  Lemma basic_nth b r k : nth_error (b_basics b) r = Some k -> basic_at b r = k /\ (r < length (b_basics b))%nat.
  Proof.
    intro E. split; [unfold basic_at; apply nth_error_nth; exact E|]. apply nth_error_Some. congruence.
  Qed.
  Lemma A_minus i y z : A i (fun j => y j - z j) == A i y - A i z.
  Proof. induction (r_form (row_of m i)) as [|(j, a) l IH]; cbn [value]; [ring|]. rewrite IH. ring. Qed.

  (** the row that pullTableauRow gives, for a basic structural variable *)
  Lemma pull_sum b r t y : basis_ok b -> pull m s_ b r = Done t -> (basic_at b r < n)%nat -> feasible m y ->
    lsum (b_nonbasics b) (fun v => t_el t v * tv b y v) == t_rhs t - y (basic_at b r).
  Proof.
    intros B E KN F. unfold pull in E. destruct (nth_error (b_basics b) r) as [k|] eqn:Ek; [|discriminate].
    destruct (basic_nth _ _ _ Ek) as (E1 & RL). rewrite (bo_len b B) in RL. rewrite E1 in *.
    destruct (forallb _ _); [|discriminate]. unfold basic_value in E. apply Nat.ltb_lt in KN as KN'. rewrite KN' in E.
    apply Done_inj in E. subst t. cbn [t_el t_rhs].
    destruct (bo_row b B r RL) as (_ & NK & T1 & T0 & TI). rewrite E1 in *.
    specialize (TI (fun j => y j - s_x s_ b j)). cbv beta in TI.
    (* the displacement of each variable *)
    set (d := fun v => if (v <? n)%nat then y v - s_x s_ b v else - (A (v - n)%nat y - s_act s_ b (v - n)%nat)).
    assert (S0 : qsum (n + nrow) (fun v => s_tab s_ b r v * d v) == 0).
    { rewrite qsum_app. rewrite (qsum_ext n _ (fun j => s_tab s_ b r j * (y j - s_x s_ b j))).
      - rewrite (qsum_ext nrow (fun i => s_tab s_ b r (n + i) * d (n + i)%nat)
                   (fun i => (-1) * (s_tab s_ b r (n + i) * A i (fun j => y j - s_x s_ b j)))).
        + rewrite qsum_scale, TI. ring.
        + intros i L. unfold d. destruct (Nat.ltb_spec (n + i) n); [lia|]. replace (n + i - n)%nat with i by lia.
          rewrite A_minus, (bo_act b B i L). ring.
      - intros j L. unfold d. apply Nat.ltb_lt in L. rewrite L. reflexivity. }
    rewrite (qsum_list _ (k :: b_nonbasics b)) in S0.
    2:{ constructor; [exact NK|apply (bo_nodup b B)]. }
    2:{ intros v [<-|I]; [|apply (bo_range b B v I)]. destruct (bo_row b B r RL) as (Q & _). rewrite E1 in Q. exact Q. }
    2:{ intros v L N. rewrite T0; [ring|exact L| |]; intro C; apply N; [left; auto|right; exact C]. }
    cbn [lsum] in S0. unfold d at 1 in S0. rewrite KN', T1 in S0.
    rewrite (lsum_ext (b_nonbasics b) _ (fun v => s_tab s_ b r v * d v)); [lra|].
    intros v I. destruct (Nat.eqb_spec v k) as [->|NE]; [contradiction|].
    rewrite (proj2 (is_nonbasic_iff b v) I). cbn [andb]. unfold vstat, tv, d.
    pose proof (bo_rest b B v I) as R. unfold rests in R. destruct (v <? n)%nat.
    - destruct (b_cstat b v); cbn [stat_eqb]; try contradiction; destruct R as (u & E & X); rewrite E, X; cbn [oq]; ring.
    - destruct (b_rstat b (v - n)); cbn [stat_eqb]; try contradiction; destruct R as (u & E & X); rewrite E, X; cbn [oq]; ring.
  Qed.
  Lemma integral_frac q : integral (q - frac q).
  Proof. unfold frac. apply (integral_eq (qfloor q)); [ring|apply integral_inject]. Qed.
  Lemma pull_row_ok b r t : basis_ok b -> pull m s_ b r = Done t -> (basic_at b r < n)%nat -> m_int m (basic_at b r) = true ->
    row_ok b (center t).
  Proof.
    intros B E KN KI. split.
    - intros y F. cbn [center t_el t_rhs]. 
      apply (integral_eq ((t_rhs t - frac (t_rhs t)) - y (basic_at b r))); [rewrite (pull_sum b r t y B E KN F); ring|].
      apply integral_minus; [apply integral_frac|]. destruct F as (_ & _ & F). apply F; assumption.
    - cbn [center t_rhs]. split; [apply frac_nonneg|apply frac_lt1].
  Qed.
  Lemma modcoef_int a f : integral (modcoef a f - a).
  Proof.
    unfold modcoef, frac. destruct (_ <=? _).
    - apply (integral_eq (- qfloor a)); [ring|apply integral_opp, integral_inject].
    - apply (integral_eq (- qfloor a - 1)); [ring|]. apply integral_minus; [apply integral_opp, integral_inject|apply integral_1].
  Qed.
  Lemma modularize_ok b t : data_ok -> basis_ok b -> row_ok b t -> row_ok b (modularize m t).
  Proof.
    intros D B (R & R0). split; [|exact R0]. intros y F. specialize (R y F). cbn [modularize t_el t_rhs].
    set (a' := fun v => if (v <? n + nrow)%nat && is_int m v then modcoef (t_el t v) (t_rhs t) else t_el t v).
    change (integral (lsum (b_nonbasics b) (fun v => a' v * tv b y v) - t_rhs t)).
    apply (integral_eq ((lsum (b_nonbasics b) (fun v => t_el t v * tv b y v) - t_rhs t) +
                        lsum (b_nonbasics b) (fun v => (a' v - t_el t v) * tv b y v))).
    - rewrite (lsum_ext _ (fun v => a' v * tv b y v) (fun v => t_el t v * tv b y v + (a' v - t_el t v) * tv b y v)) by (intros; ring).
      rewrite lsum_plus. ring.
    - apply integral_plus; [exact R|]. apply lsum_integral. intros v I. unfold a'.
      destruct ((v <? n + nrow)%nat && is_int m v) eqn:C.
      + apply andb_prop in C. destruct C as (_ & C). apply integral_mult; [apply modcoef_int|]. apply tv_integral; assumption.
      + apply (integral_eq 0); [ring|apply integral_0].
  Qed.

  (** ** The terms of the cut *)
  (** left-hand side with the slacks still in it *)
  Definition lin (f : nat -> Q) (y : point) : Q :=
    qsum n (fun j => f j * y j) - qsum nrow (fun i => f (n + i)%nat * A i y).
  Lemma lin_upd f v w y : (v < n + nrow)%nat ->
    lin (upd f v w) y == lin f y + (w - f v) * (if (v <? n)%nat then y v else - A (v - n)%nat y).
  Proof.
    intro L. unfold lin. destruct (Nat.ltb_spec v n) as [H|H].
    - rewrite (qsum_upd n f v w y H).
      rewrite (qsum_ext nrow (fun i => upd f v w (n + i)%nat * A i y) (fun i => f (n + i)%nat * A i y)); [ring|].
      intros i _. rewrite upd_other by lia. reflexivity.
    - rewrite (qsum_ext n (fun j => upd f v w j * y j) (fun j => f j * y j)).
      2:{ intros j Hj. rewrite upd_other by lia. reflexivity. }
      rewrite (qsum_ext nrow (fun i => upd f v w (n + i)%nat * A i y)
                 (fun i => upd (fun i => f (n + i)%nat) (v - n) w i * A i y)).
      + rewrite (qsum_upd nrow (fun i => f (n + i)%nat) (v - n) w (fun i => A i y)) by lia.
        replace (n + (v - n))%nat with v by lia. ring.
      + intros i _. unfold upd. destruct (Nat.eqb_spec (n + i) v) as [Q1|Q1]; destruct (Nat.eqb_spec i (v - n)) as [Q2|Q2]; try lia; reflexivity.
  Qed.
  Lemma fold_sub_sum k (g : nat -> Q) a : fold_left (fun s i => s - g i) (seq 0 k) a == a - qsum k g.
  Proof.
    revert a. induction k as [|k IH]; intro a; [cbn; ring|].
    rewrite seq_S, fold_left_app. cbn [fold_left qsum Nat.add]. rewrite IH. ring.
  Qed.
  Lemma elim_lin f y : data_ok -> qsum n (fun j => elim m f j * y j) == lin f y.
  Proof.
    intro D. unfold lin, elim.
    rewrite (qsum_ext n _ (fun j => f j * y j + (-1) * qsum nrow (fun i => f (n + i)%nat * coef (r_form (row_of m i)) j * y j))).
    - rewrite qsum_plus, qsum_scale, qsum_swap.
      rewrite (qsum_ext nrow (fun i => qsum n _) (fun i => f (n + i)%nat * A i y)); [ring|].
      intros i L. rewrite (A_sum i y D L), <- qsum_scale. apply qsum_ext. intros; ring.
    - intros j L. rewrite fold_sub_sum.
      rewrite (qsum_ext nrow (fun i => f (n + i)%nat * coef (r_form (row_of m i)) j * y j)
                 (fun i => y j * (f (n + i)%nat * coef (r_form (row_of m i)) j))) by (intros; ring).
      rewrite qsum_scale. ring.
  Qed.
  Definition sabs (y : point) : Q := qsum n (fun j => Qabs (y j)).
  Lemma tiny50_small : 0 <= tiny50 /\ tiny50 <= c1e20.
  Proof. split; vm_compute; discriminate. Qed.
  Lemma value_pack f y l : value (map (fun j => (j, elim m f j)) (filter (fun j => tiny50 <? Qabs (elim m f j)) l)) y ==
    lsum l (fun j => if tiny50 <? Qabs (elim m f j) then elim m f j * y j else 0).
  Proof.
    induction l as [|j l IH]; cbn [filter lsum map]; [reflexivity|]. destruct (tiny50 <? Qabs (elim m f j)); cbn [map value]; rewrite IH; ring.
  Qed.
  Lemma lsum_seq k f : lsum (seq 0 k) f == qsum k f.
  Proof.
    symmetry. apply qsum_list; [apply seq_NoDup| |]; intros v; [intro I; apply in_seq in I; lia|].
    intros L N. exfalso. apply N. apply in_seq. lia.
  Qed.
  Lemma pack_value f y : data_ok -> lin f y - tiny50 * sabs y <= value (pack m f) y.
  Proof.
    intro D. unfold pack. rewrite value_pack, lsum_seq, <- (elim_lin f y D). unfold sabs. rewrite <- qsum_scale.
    assert (G : qsum n (fun j => elim m f j * y j) <=
                qsum n (fun j => (if tiny50 <? Qabs (elim m f j) then elim m f j * y j else 0) + tiny50 * Qabs (y j))).
    { apply qsum_le. intros j _. pose proof (Qabs_nonneg (y j)). pose proof (proj1 tiny50_small).
      destruct (tiny50 <? Qabs (elim m f j)) eqn:E; qb; [nra|].
      apply Qle_trans with (Qabs (elim m f j * y j)); [apply Qle_Qabs|]. rewrite Qabs_Qmult. nra. }
    rewrite qsum_plus in G. lra.
  Qed.
  Lemma pack_shape f : NoDup (map fst (pack m f)) /\ forall j a, In (j, a) (pack m f) -> (j < n)%nat.
  Proof.
    unfold pack. split.
    - rewrite map_map. cbn [fst]. rewrite map_id. apply NoDup_filter, seq_NoDup.
    - intros j a I. apply in_map_iff in I. destruct I as (i & E & I). injection E as <- _. apply filter_In in I.
      destruct I as (I & _). apply in_seq in I. lia.
  Qed.

  (** one term adds its coefficient times the distance *)
  Definition adds (y : point) (c : Q) (s s' : (nat -> Q) * Q) : Prop :=
    lin (fst s') y - snd s' == lin (fst s) y - snd s + c.
  Lemma scoef_residue v a f : scoef m v a f == icoef (residue (is_int m v) a f) f.
  Proof.
    unfold scoef, residue. destruct (is_int m v); [|reflexivity]. pose proof (frac_nonneg a). pose proof (frac_lt1 a).
    destruct (frac a <? f) eqn:E; unfold icoef; qb.
    - destruct (0 <? frac a) eqn:K; qb; [reflexivity|]. assert (Z : frac a == 0) by lra. rewrite Z. ring.
    - destruct (0 <? frac a - 1) eqn:K; qb; [lra|]. ring.
  Qed.
  Lemma scoef_zero v a f : 0 <= f -> a == 0 -> scoef m v a f == 0.
  Proof.
    intros F Z. unfold scoef. assert (FZ : frac a == 0). { rewrite (frac_eq a 0 Z). reflexivity. }
    destruct (is_int m v).
    - destruct (frac a <? f) eqn:E; rewrite FZ in *; [ring|]. qb. rewrite FZ in E. assert (f == 0) by lra. rewrite H. ring.
    - unfold icoef. destruct (0 <? a); rewrite Z; ring.
  Qed.
  Section Terms.
    Variables (b : basis) (t1 : trow) (y : point).
    Hypothesis D : data_ok.
    Hypothesis B : basis_ok b.
    Hypothesis F : feasible m y.
    Hypothesis R0 : 0 <= t_rhs t1.
    (** the element of the row in the flipped form *)
    Definition el (v : nat) : Q := if (v <? n)%nat && stat_eqb (b_cstat b v) Upper then - t_el t1 v else t_el t1 v.
    Lemma mig_term_adds s s' v : In v (b_nonbasics b) -> fst s v == 0 ->
      mig_term m b t1 s v = Done s' -> adds y (scoef m v (el v) (t_rhs t1) * tv b y v) s s' /\
      forall u, u <> v -> fst s' u = fst s u.
    Proof.
      intros I Z E. pose proof (bo_rest b B v I) as R. unfold rests in R. pose proof (bo_range b B v I) as L.
      unfold mig_term in E. unfold adds, el. destruct (Qeq_bool (t_el t1 v) 0) eqn:C0.
      - apply Done_inj in E. subst s'. split; [|reflexivity].
        rewrite scoef_zero; [ring|exact R0|]. apply Qeq_bool_iff in C0. destruct (_ && _); rewrite C0; ring.
      - unfold tv. destruct (v <? n)%nat eqn:Lv.
        + cbn [andb]. destruct (b_cstat b v); cbn [stat_eqb] in *; try contradiction; destruct R as (q & Eq & _); rewrite Eq in *; cbn [mul_opt bind oq] in *;
            apply Done_inj in E; subst s'; cbn [fst snd]; (split; [|intros; apply upd_other; assumption]);
            rewrite lin_upd, Lv, Z by exact L; ring.
        + cbn [andb]. destruct (F) as (F1 & _ & _). pose proof (proj1 (Nat.ltb_ge _ _) Lv) as GE. assert (L' : (v - n < nrow)%nat) by lia.
          destruct (F1 _ (row_in (v - n) L')) as (K1 & K2).
          destruct (r_hi (row_of m (v - n))) as [u|] eqn:EU.
          * destruct (b_rstat b (v - n)) eqn:ES; cbn [stat_eqb] in *; try contradiction; destruct R as (q & Eq & _).
            -- rewrite Eq in E. cbn [mul_opt bind] in E. apply Done_inj in E. subst s'. cbn [fst snd]. split; [|intros; apply upd_other; assumption].
               rewrite lin_upd, Lv, Z by exact L. pose proof (do_range D _ _ _ L' Eq EU) as EQ. rewrite Eq in *. cbn [oq]. cbn in K1, K2.
               assert (AE : A (v - n)%nat y == q) by lra. rewrite AE. ring.
            -- injection Eq as <-. cbn [mul_opt bind] in E. apply Done_inj in E. subst s'. cbn [fst snd]. split; [|intros; apply upd_other; assumption].
               rewrite lin_upd, Lv, Z by exact L. cbn [oq]. ring.
          * destruct (b_rstat b (v - n)) eqn:ES; cbn [stat_eqb] in *; try contradiction; destruct R as (q & Eq & _); [|discriminate].
            rewrite Eq in *. cbn [mul_opt bind] in E. apply Done_inj in E. subst s'. cbn [fst snd]. split; [|intros; apply upd_other; assumption].
            rewrite lin_upd, Lv, Z by exact L. cbn [oq]. ring.
    Qed.
    Hypothesis R1 : t_rhs t1 <= 1.
    Lemma int_term_adds s s' v : In v (b_nonbasics b) -> fst s v == 0 ->
      int_term m b t1 s v = Done s' -> exists c, adds y c s s' /\ icoef (el v) (t_rhs t1) * tv b y v <= c + c1e10 * tv b y v /\
      forall u, u <> v -> fst s' u = fst s u.
    Proof.
      intros I Z E. pose proof (bo_rest b B v I) as R. unfold rests in R. pose proof (bo_range b B v I) as L.
      pose proof (tv_nonneg b y v B F I) as TN.
      unfold int_term in E. unfold adds. destruct (Qabs (t_el t1 v) <=? c1e10) eqn:C0.
      - apply Done_inj in E. subst s'. exists 0. split; [ring|]. split; [|reflexivity]. qb.
        assert (AE : Qabs (el v) <= c1e10). { unfold el. destruct (_ && _); [rewrite Qabs_opp|]; exact C0. }
        destruct (icoef_bound (el v) (t_rhs t1) R0 R1) as (G0 & G1). nra.
      - exists (icoef (el v) (t_rhs t1) * tv b y v).
        assert (TP : 0 <= c1e10 * tv b y v) by (apply Qmult_le_0_compat; [vm_compute; discriminate|exact TN]).
        cut (lin (fst s') y - snd s' == lin (fst s) y - snd s + icoef (el v) (t_rhs t1) * tv b y v /\ (forall u, u <> v -> fst s' u = fst s u)).
        { intros (G1 & G2). split; [exact G1|]. split; [lra|exact G2]. }
        unfold el, tv. destruct (v <? n)%nat eqn:Lv.
        + cbn [andb]. destruct (b_cstat b v); cbn [stat_eqb] in *; try contradiction; destruct R as (q & Eq & _); rewrite Eq in *; cbn [mul_opt bind oq] in *;
            apply Done_inj in E; subst s'; cbn [fst snd]; (split; [|intros; apply upd_other; assumption]);
            rewrite lin_upd, Lv, Z by exact L; ring.
        + cbn [andb]. destruct (F) as (F1 & _ & _). pose proof (proj1 (Nat.ltb_ge _ _) Lv) as GE. assert (L' : (v - n < nrow)%nat) by lia.
          destruct (F1 _ (row_in (v - n) L')) as (K1 & K2).
          destruct (r_lo (row_of m (v - n))) as [l|] eqn:EL.
          * destruct (_ || _); [|discriminate]. apply Done_inj in E. subst s'. cbn [fst snd]. split; [|intros; apply upd_other; assumption].
            rewrite lin_upd, Lv, Z by exact L.
            destruct (b_rstat b (v - n)) eqn:ES; cbn [stat_eqb] in *; try contradiction; destruct R as (q & Eq & _).
            -- injection Eq as <-. cbn [oq]. ring.
            -- pose proof (do_range D _ _ _ L' EL Eq) as EQ. rewrite Eq in *. cbn [oq]. cbn in K1, K2.
               assert (AE : A (v - n)%nat y == q) by lra. rewrite AE, EQ. ring.
          * destruct (b_rstat b (v - n)) eqn:ES; cbn [stat_eqb] in *; try contradiction; try discriminate; destruct R as (q & Eq & _).
            rewrite Eq in *. cbn [mul_opt bind] in E. apply Done_inj in E. subst s'. cbn [fst snd]. split; [|intros; apply upd_other; assumption].
            rewrite lin_upd, Lv, Z by exact L. cbn [oq]. ring.
    Qed.
    Lemma mig_fold l : NoDup l -> (forall v, In v l -> In v (b_nonbasics b)) -> forall s s', (forall v, In v l -> fst s v == 0) ->
      ofold (mig_term m b t1) l s = Done s' -> adds y (lsum l (fun v => scoef m v (el v) (t_rhs t1) * tv b y v)) s s'.
    Proof.
      induction l as [|v l IH]; intros ND SI s s' Z E; cbn [ofold lsum] in *.
      - apply Done_inj in E. subst s'. unfold adds. ring.
      - apply bind_done in E. destruct E as (s1 & E1 & E2). inversion ND; subst.
        destruct (mig_term_adds s s1 v (SI v (or_introl eq_refl)) (Z v (or_introl eq_refl)) E1) as (A1 & A2).
        assert (A3 := IH H2 (fun u Hu => SI u (or_intror Hu)) s1 s'
                        ltac:(intros u Hu; rewrite A2; [apply Z; right; exact Hu|intros ->; contradiction]) E2).
        unfold adds in *. lra.
    Qed.
    Lemma int_fold l : NoDup l -> (forall v, In v l -> In v (b_nonbasics b)) -> forall s s', (forall v, In v l -> fst s v == 0) ->
      ofold (int_term m b t1) l s = Done s' -> exists c, adds y c s s' /\
      lsum l (fun v => icoef (el v) (t_rhs t1) * tv b y v) <= c + c1e10 * lsum l (tv b y).
    Proof.
      induction l as [|v l IH]; intros ND SI s s' Z E; cbn [ofold lsum] in *.
      - apply Done_inj in E. subst s'. exists 0. unfold adds. split; [ring|lra].
      - apply bind_done in E. destruct E as (s1 & E1 & E2). inversion ND; subst.
        destruct (int_term_adds s s1 v (SI v (or_introl eq_refl)) (Z v (or_introl eq_refl)) E1) as (c1 & A1 & A1' & A2).
        destruct (IH H2 (fun u Hu => SI u (or_intror Hu)) s1 s'
                        ltac:(intros u Hu; rewrite A2; [apply Z; right; exact Hu|intros ->; contradiction]) E2) as (c2 & A3 & A4).
        exists (c1 + c2). unfold adds in *. split; lra.
    Qed.
  End Terms.

  Lemma unflip_inv b t t1 : unflip m b t = Done t1 -> t_rhs t1 = t_rhs t /\ t_num t1 = t_num t /\
    forall v, In v (b_nonbasics b) -> el b t1 v == t_el t v.
  Proof.
    unfold unflip. destruct (forallb _ _); [|discriminate]. intro E. apply Done_inj in E. subst t1. cbn [t_rhs t_num].
    split; [reflexivity|]. split; [reflexivity|]. intros v I. unfold el. cbn [t_el].
    rewrite (proj2 (is_nonbasic_iff b v) I). cbn [andb]. destruct ((v <? n)%nat && stat_eqb (b_cstat b v) Upper); ring.
  Qed.
  Lemma scoef_ext v a a' f f' : a == a' -> f == f' -> scoef m v a f == scoef m v a' f'.
  Proof.
    intros Ea Ef. assert (FE : frac a == frac a') by (apply frac_eq; exact Ea). unfold scoef, icoef. destruct (is_int m v).
    - destruct (frac a <? f) eqn:E1; destruct (frac a' <? f') eqn:E2; rewrite ?FE, ?Ef; try reflexivity; qb; rewrite FE, Ef in *; lra.
    - destruct (0 <? a) eqn:E1; destruct (0 <? a') eqn:E2; rewrite ?Ea, ?Ef; try reflexivity; qb; rewrite Ea in *; lra.
  Qed.
  Lemma icoef_ext a a' f f' : a == a' -> f == f' -> icoef a f == icoef a' f'.
  Proof.
    intros Ea Ef. unfold icoef. destruct (0 <? a) eqn:E1; destruct (0 <? a') eqn:E2; rewrite ?Ea, ?Ef; try reflexivity; qb; rewrite Ea in *; lra.
  Qed.

  (** how much the cut may be off at a point *)
  Definition slackness (p : lpar) (b : basis) (y : point) : Q :=
    tiny50 * sabs y + (if p_strengthen p || p_modularize p then 0 else c1e10 * lsum (b_nonbasics b) (tv b y)).
  Lemma create_valid p b t t' c y : data_ok -> basis_ok b -> row_ok b t -> feasible m y ->
    create m p b t = Done (t', c) -> snd c <= value (fst c) y + slackness p b y.
  Proof.
    intros D B (R & R0 & R1) F E. specialize (R y F). unfold create in E. unfold slackness.
    destruct (p_strengthen p || p_modularize p).
    - unfold createMIG in E. apply bind_done in E. destruct E as (t1 & E1 & E). apply bind_done in E. destruct E as (r & E2 & E).
      apply Done_inj in E. injection E as _ <-. cbn [fst snd]. destruct (unflip_inv _ _ _ E1) as (U1 & _ & U2).
      set (t2 := TR (t_num t1) (t_el t1) (frac (t_rhs t1)) (t_len t1)) in *.
      assert (FR : t_rhs t2 == t_rhs t) by (cbn; rewrite U1; apply frac_range; assumption).
      assert (FF : t_rhs t2 - qfloor (t_rhs t2) == t_rhs t).
      { change (frac (t_rhs t2) == t_rhs t). rewrite (frac_eq _ _ FR). apply frac_range; assumption. }
      apply (mig_fold b t2 y D B F ltac:(rewrite FR; exact R0) _ (bo_nodup b B) (fun v I => I)) in E2; [|reflexivity].
      unfold adds in E2. cbn [fst snd] in E2.
      rewrite (lsum_ext _ _ (fun v => icoef (residue (is_int m v) (t_el t v) (t_rhs t)) (t_rhs t) * tv b y v)) in E2.
      2:{ intros v I. rewrite <- scoef_residue, (scoef_ext v (el b t2 v) (t_el t v) _ (t_rhs t) (U2 v I) FR). reflexivity. }
      assert (SS := split_sum (b_nonbasics b) (fun v => residue (is_int m v) (t_el t v) (t_rhs t)) (tv b y) (t_rhs t) R0 R1
                      (fun v I => tv_nonneg b y v B F I)). cbv beta in SS.
      assert (L0 : lin (fun _ : nat => 0) y == 0).
      { unfold lin. rewrite !qsum_zero; [ring| |]; intros; ring. }
      assert (G : integral (lsum (b_nonbasics b) (fun v => residue (is_int m v) (t_el t v) (t_rhs t) * tv b y v) - t_rhs t)).
      { apply (integral_eq ((lsum (b_nonbasics b) (fun v => t_el t v * tv b y v) - t_rhs t) -
                            lsum (b_nonbasics b) (fun v => (t_el t v - residue (is_int m v) (t_el t v) (t_rhs t)) * tv b y v))).
        - rewrite (lsum_ext _ (fun v => t_el t v * tv b y v)
             (fun v => residue (is_int m v) (t_el t v) (t_rhs t) * tv b y v + (t_el t v - residue (is_int m v) (t_el t v) (t_rhs t)) * tv b y v))
             by (intros; ring).
          rewrite lsum_plus. ring.
        - apply integral_minus; [exact R|]. apply lsum_integral. intros v I.
          destruct (residue_int (t_el t v) (t_rhs t) (is_int m v)) as (G1 & G2). destruct (is_int m v) eqn:K.
          + apply integral_mult; [exact G1|]. apply tv_integral; assumption.
          + rewrite (G2 eq_refl). apply (integral_eq 0); [ring|apply integral_0]. }
      specialize (SS G). pose proof (pack_value (fst r) y D) as P.
      assert (Q : (t_rhs t2 - qfloor (t_rhs t2)) * (1 - (t_rhs t2 - qfloor (t_rhs t2))) == t_rhs t * (1 - t_rhs t)) by (rewrite FF; reflexivity).
      lra.
    - unfold createIC in E. apply bind_done in E. destruct E as (t1 & E1 & E). apply bind_done in E. destruct E as (r & E2 & E).
      apply Done_inj in E. injection E as _ <-. cbn [fst snd]. destruct (unflip_inv _ _ _ E1) as (U1 & _ & U2).
      apply (int_fold b t1 y D B F ltac:(rewrite U1; exact R0) ltac:(rewrite U1; lra) _ (bo_nodup b B) (fun v I => I)) in E2; [|reflexivity].
      destruct E2 as (c0 & E2 & E3). unfold adds in E2. cbn [fst snd] in E2.
      rewrite (lsum_ext _ _ (fun v => icoef (t_el t v) (t_rhs t) * tv b y v)) in E3.
      2:{ intros v I. rewrite (icoef_ext _ _ _ (t_rhs t) (U2 v I)); [reflexivity|]. rewrite U1. reflexivity. }
      assert (SS := split_sum (b_nonbasics b) (fun v => t_el t v) (tv b y) (t_rhs t) R0 R1
                      (fun v I => tv_nonneg b y v B F I) R). cbv beta in SS.
      assert (L0 : lin (fun _ : nat => 0) y == 0).
      { unfold lin. rewrite !qsum_zero; [ring| |]; intros; ring. }
      pose proof (pack_value (fst r) y D) as P. rewrite U1 in E2. lra.
  Qed.
  Lemma create_shape p b t t' c : create m p b t = Done (t', c) ->
    NoDup (map fst (fst c)) /\ forall j a, In (j, a) (fst c) -> (j < n)%nat.
  Proof.
    unfold create, createMIG, createIC. intro E.
    destruct (_ || _); apply bind_done in E; destruct E as (t1 & _ & E); apply bind_done in E; destruct E as (r & _ & E);
      apply Done_inj in E; injection E as _ <-; apply pack_shape.
  Qed.

  (** ** A bound of the tolerance that does not depend on the basis *)
  Definition od (a : option Q) (d : Q -> Q) : Q := match a with Some q => d q | None => 0 end.
  Definition span (y : point) : Q :=
    qsum n (fun j => od (m_clo m j) (fun l => y j - l) + od (m_chi m j) (fun u => u - y j)) +
    qsum nrow (fun i => od (r_lo (row_of m i)) (fun l => A i y - l) + od (r_hi (row_of m i)) (fun u => u - A i y)).
  Lemma span_bound b y : basis_ok b -> feasible m y -> lsum (b_nonbasics b) (tv b y) <= span y.
  Proof.
    intros B F. set (g := fun v => if (v <? n)%nat then od (m_clo m v) (fun l => y v - l) + od (m_chi m v) (fun u => u - y v)
      else od (r_lo (row_of m (v - n))) (fun l => A (v - n)%nat y - l) + od (r_hi (row_of m (v - n))) (fun u => u - A (v - n)%nat y)).
    assert (E : span y == qsum (n + nrow) g).
    { rewrite qsum_app. unfold span. apply Qplus_comp; apply qsum_ext.
      - intros j L. unfold g. apply Nat.ltb_lt in L. rewrite L. reflexivity.
      - intros i _. unfold g. destruct (Nat.ltb_spec (n + i) n); [lia|]. replace (n + i - n)%nat with i by lia. reflexivity. }
    assert (P : forall v, (v < n + nrow)%nat -> 0 <= g v /\ (rests b v -> tv b y v <= g v)).
    { destruct F as (F1 & F2 & F3). intros v L. unfold g, rests, tv. destruct (Nat.ltb_spec v n) as [H|H].
      - destruct (F2 v H) as (K1 & K2). unfold od, oq. destruct (m_clo m v), (m_chi m v); cbn in K1, K2; (split; [lra|]);
          destruct (b_cstat b v); cbn [stat_eqb]; intro R; try contradiction; destruct R as (q' & R & _); try discriminate; lra.
      - destruct (F1 _ (row_in (v - n) ltac:(lia))) as (K1 & K2). unfold od, oq.
        destruct (r_lo (row_of m (v - n))), (r_hi (row_of m (v - n))); cbn in K1, K2; (split; [lra|]);
          destruct (b_rstat b (v - n)); cbn [stat_eqb]; intro R; try contradiction; destruct R as (q' & R & _); try discriminate; lra. }
    rewrite E. eapply Qle_trans; [|apply lsum_le_qsum with (l := b_nonbasics b)].
    - apply lsum_le. intros v I. apply (P v (bo_range b B v I)). apply (bo_rest b B v I).
    - apply (bo_nodup b B).
    - apply (bo_range b B).
    - intros v L. apply (P v L).
  Qed.
  Lemma sabs_nonneg y : 0 <= sabs y.
  Proof. apply qsum_nonneg. intros. apply Qabs_nonneg. Qed.
  (** points at which the tolerances of the code cost nothing *)
  Definition moderate (p : lpar) (y : point) : Prop :=
    (2 # 100000000000000000000) * sabs y + (if p_strengthen p || p_modularize p then 0 else c1e10 * span y) <= 1 # 10000000.
  Lemma labs_sabs v y : NoDup (map fst v) -> (forall j a, In (j, a) v -> (j < n)%nat) -> labs v y <= sabs y.
  Proof.
    intros ND RG. assert (E : labs v y == lsum (map fst v) (fun j => Qabs (y j))).
    { clear. induction v as [|e v IH]; cbn [labs lsum map]; [reflexivity|]. rewrite IH. reflexivity. }
    rewrite E. apply lsum_le_qsum; [exact ND| |intros; apply Qabs_nonneg].
    intros j I. apply in_map_iff in I. destruct I as ((i, a) & <- & I). apply (RG i a I).
  Qed.
  Definition good_form (v : vec) : Prop := NoDup (map fst v) /\ forall j a, In (j, a) v -> (j < n)%nat.
  (** a cut that is off by no more than the tolerance *)
  Definition near_valid (p : lpar) (c : frow) : Prop :=
    good_form (fst c) /\
    forall y, feasible m y -> snd c <= value (fst c) y + tiny50 * sabs y + (if p_strengthen p || p_modularize p then 0 else c1e10 * span y).
  Lemma create_near p b t t' c : data_ok -> basis_ok b -> row_ok b t -> create m p b t = Done (t', c) -> near_valid p c.
  Proof.
    intros D B R E. split; [exact (create_shape p b t t' c E)|]. intros y F. pose proof (create_valid p b t t' c y D B R F E) as V.
    unfold slackness in V. pose proof (span_bound b y B F) as S. destruct (p_strengthen p || p_modularize p); [lra|].
    assert (c1e10 * lsum (b_nonbasics b) (tv b y) <= c1e10 * span y) by (apply Qmult_le_l; [reflexivity|exact S]). lra.
  Qed.
  (** after the validator the cut holds exactly at moderate points *)
  Definition sat (c : frow) (y : point) : Prop := snd c <= value (fst c) y.
  Lemma cleaned_valid p v ncols nb lo up x c c' y : near_valid p c ->
    keeps_bounds nb lo up y (fst c) -> cleanCut (p_eps p) v ncols nb lo up x c = Done (NoneAccepted, c') ->
    feasible m y -> moderate p y -> sat c' y.
  Proof.
    intros ((G1 & G2) & NV) K E F M. specialize (NV y F). apply (cleanCut_weaker _ _ _ _ _ _ _ _ _ y K) in E.
    pose proof (labs_sabs _ y G1 G2) as L. unfold moderate in M. unfold sat. pose proof tiny50_small as (T0 & T1). pose proof (sabs_nonneg y) as S0.
    assert (tiny50 * sabs y <= c1e20 * sabs y) by (apply Qmult_le_compat_r; assumption).
    assert (c1e20 * labs (fst c) y <= c1e20 * sabs y) by (apply Qmult_le_l; [reflexivity|exact L]).
    assert ((2 # 100000000000000000000) * sabs y == c1e20 * sabs y + c1e20 * sabs y) by (unfold c1e20; ring).
    lra.
  Qed.
  Lemma feasible_bounds y v : good_form v -> feasible m y -> keeps_bounds n (m_clo m) (m_chi m) y v.
  Proof. intros (_ & G) (_ & F & _) j a I _. apply F. apply (G j a I). Qed.
End Cut.
