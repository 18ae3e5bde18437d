(** * Rows changed by CglPreProcess::tightenPrimalBounds imply the given ones *)
From Coq Require Import Permutation.
From Verif Require Import Model_TightenPrimal Proofs_TightenPrimal Props_TightenPrimal.
Local Open Scope Q_scope.

Lemma within_shift_back rl ru q y : within (shift rl q) (shift ru q) y -> within rl ru (y + q).
Proof. intros [A B]. split; [destruct rl|destruct ru]; cbn in *; try exact I; lra. Qed.
Lemma fold3_back ints lo hi x gap v : forall w rl ru k,
  row_sat (fst (fold_left (entry3 ints lo hi gap) v (Row w rl ru, k))) x ->
  within rl ru (value w x + total (part ints lo hi x gap) v).
Proof.
  induction v as [|e v IH]; intros w rl ru k H; cbn [fold_left total fold_right] in *.
  - apply within_eq with (y := value w x); [ring|exact H].
  - fold (total (part ints lo hi x gap) v). unfold part at 1. unfold entry3 at 2 in H.
    destruct (new_coef ints lo hi gap e) as [b|].
    + apply IH in H. apply within_shift_back in H. apply (within_eq _ _ _ _) with (2 := H).
      rewrite value_app. cbn [value]. ring.
    + apply IH in H. apply (within_eq _ _ _ _) with (2 := H). destruct e as [j a]. rewrite value_app. cbn [value fst snd]. ring.
Qed.
Lemma value_most lo hi x v : no_zero v -> (forall e, In e v -> within (lo (fst e)) (hi (fst e)) (x (fst e))) ->
  infinite (map (top3 lo hi) (filter (wide lo hi) v)) = 0%nat -> value v x <= total (most lo hi) v.
Proof.
  intros Z W F. assert (G : forall e, In e v -> snd e * x (fst e) <= most lo hi e).
  { intros [j a] I. unfold most. destruct (wide lo hi (j, a)) eqn:Wd.
    - destruct (top3 lo hi (j, a)) as [q|] eqn:Eq.
      + cbn [or0 fst snd]. apply (top_ge lo hi x j a q); [exact (Z j a I)|exact (W _ I)|exact Eq].
      + exfalso. refine (infinite_zero _ _ F _ Eq). apply in_map. apply filter_In. now split.
    - destruct (not_wide lo hi x (j, a) (W _ I) Wd) as (l & El & Ex). cbn [fst snd] in *. rewrite El, Ex. lra. }
  clear Z W F. induction v as [|[j a] v IH]; cbn [total fold_right value]; [apply Qle_refl|]. fold (total (most lo hi) v).
  pose proof (G _ (or_introl eq_refl)) as K. cbn [fst snd] in K. assert (value v x <= total (most lo hi) v) by (apply IH; intros; apply G; now right). lra.
Qed.
Lemma value_least lo hi x v : no_zero v -> (forall e, In e v -> within (lo (fst e)) (hi (fst e)) (x (fst e))) ->
  infinite (map (bottom3 lo hi) (filter (wide lo hi) v)) = 0%nat -> total (least lo hi) v <= value v x.
Proof.
  intros Z W F. assert (G : forall e, In e v -> least lo hi e <= snd e * x (fst e)).
  { intros [j a] I. unfold least. destruct (wide lo hi (j, a)) eqn:Wd.
    - destruct (bottom3 lo hi (j, a)) as [q|] eqn:Eq.
      + cbn [or0 fst snd]. apply (bottom_le lo hi x j a q); [exact (Z j a I)|exact (W _ I)|exact Eq].
      + exfalso. refine (infinite_zero _ _ F _ Eq). apply in_map. apply filter_In. now split.
    - destruct (not_wide lo hi x (j, a) (W _ I) Wd) as (l & El & Ex). cbn [fst snd] in *. rewrite El, Ex. lra. }
  clear Z W F. induction v as [|[j a] v IH]; cbn [total fold_right value]; [apply Qle_refl|]. fold (total (least lo hi) v).
  pose proof (G _ (or_introl eq_refl)) as K. cbn [fst snd] in K. assert (total (least lo hi) v <= value v x) by (apply IH; intros; apply G; now right). lra.
Qed.
Lemma row3_back ints lo hi v rl ru x : no_zero v ->
  (forall j a, In (j, a) v -> within (lo j) (hi j) (x j) /\ (ints j = true -> integral (x j))) ->
  (forall j, ints j = true -> forall l u, lo j = Some l -> hi j = Some u -> 0 < u - l -> integral l) ->
  row_sat (fst (row3 ints lo hi v rl ru)) x -> within rl ru (value v x).
Proof.
  intros Z B C W. unfold row3 in W. destruct (negb (no_sides rl ru) && _) eqn:D; [|exact W].
  apply andb_true_iff in D. destruct D as [_ D]. apply fold3_back in W. cbn [value] in W.
  assert (Bw : forall e, In e v -> within (lo (fst e)) (hi (fst e)) (x (fst e))) by (intros [j a] I; apply (B j a I)).
  assert (K : within rl ru (total (part ints lo hi x (gap3 lo hi v rl ru)) v)) by (apply (within_eq _ _ _ _) with (2 := W); ring).
  clear W. set (g := gap3 lo hi v rl ru) in *.
  assert (Gd : g = gap3 lo hi v rl ru) by reflexivity. clearbody g. unfold gap3 in Gd.
  pose proof (total_least lo hi x v Bw) as TL. pose proof (total_most lo hi x v Bw) as TM.
  pose proof (value_most lo hi x v Z Bw) as VM. pose proof (value_least lo hi x v Z Bw) as VL.
  set (w := filter (wide lo hi) v) in *.
  set (md := finite_sum (map (bottom3 lo hi) w) + fixed_sum lo hi v) in *.
  set (mu := finite_sum (map (top3 lo hi) w) + fixed_sum lo hi v) in *.
  assert (N0 : ~ g == 0). { intro E. qb. rewrite (Qabs_wd _ _ E) in D. vm_compute in D. discriminate D. }
  destruct K as [K1 K2].
  destruct (match rl with Some l => (md <? l) && (l - md <? largest w) | None => false end &&
            match ru with Some u => (mu <=? u) && Nat.eqb (infinite (map (top3 lo hi) w)) 0 | None => true end) eqn:C1.
  - apply andb_true_iff in C1. destruct C1 as [C1 C3]. destruct rl as [l|]; [|discriminate C1].
    apply andb_true_iff in C1. destruct C1 as [C1 _]. apply Qltb_lt in C1.
    destruct (Nat.eqb_spec (infinite (map (bottom3 lo hi) w)) 0) as [F|F]; [|exfalso; apply N0; rewrite Gd; reflexivity].
    assert (Gp : 0 < g) by (rewrite Gd; lra).
    destruct (total_up ints lo hi x g v Gp) as (A1 & A2 & A3).
    { intros [j a] I. destruct (B j a I) as [Bj Xj]. cbn [fst snd]. apply part_up; try assumption; [exact (Z j a I)|].
      intros Wd. apply (infinite_zero _ _ F). apply in_map. apply filter_In. now split. }
    split; [cbn in K1 |- *; lra|]. destruct ru as [u|]; [|exact I].
    apply andb_true_iff in C3. destruct C3 as [C3 C4]. apply Qleb_le in C3. apply Nat.eqb_eq in C4. specialize (VM C4). cbn. lra.
  - destruct (match ru with Some u => (u <? mu) && (mu - u <? largest w) | None => false end &&
              match rl with Some l => (l <=? md) && Nat.eqb (infinite (map (bottom3 lo hi) w)) 0 | None => true end) eqn:C2;
      [|exfalso; apply N0; rewrite Gd; reflexivity].
    apply andb_true_iff in C2. destruct C2 as [C2 C3]. destruct ru as [u|]; [|discriminate C2].
    apply andb_true_iff in C2. destruct C2 as [C2 _]. apply Qltb_lt in C2.
    destruct (Nat.eqb_spec (infinite (map (top3 lo hi) w)) 0) as [F|F]; [|exfalso; apply N0; rewrite Gd; reflexivity].
    assert (Gp : g < 0) by (rewrite Gd; lra).
    destruct (total_down ints lo hi x g v Gp) as (A1 & A2 & A3).
    { intros [j a] I. destruct (B j a I) as [Bj Xj]. cbn [fst snd]. apply part_down; try assumption; [exact (Z j a I)|].
      intros Wd. apply (infinite_zero _ _ F). apply in_map. apply filter_In. now split. }
    split; [|cbn in K2 |- *; lra]. destruct rl as [l|]; [|exact I].
    apply andb_true_iff in C3. destruct C3 as [C3 C4]. apply Qleb_le in C3. apply Nat.eqb_eq in C4. specialize (VL C4). cbn. lra.
Qed.
Lemma nth_map_seq {A} (f : nat -> A) n i d : (i < n)%nat -> nth i (map f (seq 0 n)) d = f i.
Proof.
  intro L. rewrite (nth_indep _ d (f 0%nat)) by (rewrite map_length, seq_length; exact L).
  rewrite map_nth. now rewrite seq_nth.
Qed.

(** ** C122: a row that still has a side implies the row it came from *)
Theorem C122_rows_imply : forall srt m tol m' k x y i,
  wf_mip m -> no_zeros m -> reorders srt -> 0 <= tol -> tighten_primal srt m tol = Done (m', k) -> feasible m y ->
  in_bounds m' x -> integer_ok m x -> (i < length (m_rows m))%nat ->
  row_sat (nth i (m_rows m') (Row [] None None)) x ->
  r_lo (nth i (m_rows m') (Row [] None None)) <> None \/ r_hi (nth i (m_rows m') (Row [] None None)) <> None ->
  row_sat (nth i (m_rows m) (Row [] None None)) x.
Proof.
  intros srt m tol m' k x y i W Z R T E F Xb Xi L S N. destruct F as (Fr & Fb & Fi).
  assert (FO : forall i, (i < length (m_rows m))%nat -> no_zero (forms_of srt m i) /\ NoDup (map fst (forms_of srt m i)) /\
            forall j a, In (j, a) (forms_of srt m i) -> (j < m_ncols m)%nat).
  { intros i0 L0. pose proof (row_in m i0 L0) as I. set (r := nth i0 (m_rows m) (Row [] None None)) in *.
    pose proof (R (r_form r)) as P. unfold forms_of. fold r. destruct (W r I) as [W1 W2]. split; [|split].
    - intros j a J. apply (Z r j a I). apply (Permutation_in _ P J).
    - apply (Permutation_NoDup (l := map fst (r_form r))); [apply Permutation_map; symmetry; exact P|exact W1].
    - intros j a J. apply (W2 j a). apply (Permutation_in _ P J). }
  assert (FO1 : forall i, (i < length (m_rows m))%nat -> no_zero (forms_of srt m i) /\
            forall j a, In (j, a) (forms_of srt m i) -> (j < m_ncols m)%nat).
  { intros i0 L0. destruct (FO i0 L0) as (A & _ & C). now split. }
  assert (FV : forall z i, value (forms_of srt m i) z == value (r_form (nth i (m_rows m) (Row [] None None))) z).
  { intros z i0. apply value_perm. apply R. }
  assert (FS : forall i, (i < length (m_rows m))%nat -> within (side_lo m i) (side_hi m i) (value (forms_of srt m i) y)).
  { intros i0 L0. pose proof (Fr _ (row_in m i0 L0)) as S0. apply within_eq with (2 := S0). symmetry. apply FV. }
  unfold tighten_primal in E. cbv zeta in E.
  assert (K1 : ok1 m y (forms_of srt m) (length (m_rows m)) (stage1 srt m tol)).
  { unfold stage1. apply tighten_ok; [exact FO1|exact Fi|]. split; cbn [a_lo a_hi a_rl a_ru]; [exact Fb|exact FS]. }
  set (s1 := stage1 srt m tol) in *. clearbody s1. destruct K1 as [K1 K1r].
  assert (K2 : ok2 m y (forms_of srt m) (length (m_rows m)) (start2 m s1)).
  { split; [|split; [|split; reflexivity]].
    - intros j Lj. cbn [start2 b_lo b_hi]. unfold lo1, hi1. apply within_max; [exact (Fb j Lj)|exact (K1 j Lj)].
    - intros i0 L0. cbn [start2 b_rl b_ru]. destruct (freed s1 i0); [now split|now apply FS]. }
  assert (KC : forall j, (j < m_ncols m)%nat -> within (lo1 m s1 j) (hi1 m s1 j) (y j)) by apply K2.
  destruct (passes2_ok m y (forms_of srt m) (length (m_rows m)) tol T FO 10 None 0 (start2 m s1) K2)
    as (s & n & E2 & (B & Rw & Inf & _) & (Ti & Rt)).
  rewrite E2 in E. cbn [bind] in E. clear E2. rewrite Inf in E. cbn [Nat.eqb negb] in E.
  replace (filter (fun j => bad_col (m_int m j) (lo1 m s1 j) (hi1 m s1 j) (b_lo s j) (b_hi s j)) (seq 0 (m_ncols m))) with (@nil nat) in E.
  2:{ symmetry. assert (G : forall l, (forall j, In j l -> (j < m_ncols m)%nat) ->
        filter (fun j => bad_col (m_int m j) (lo1 m s1 j) (hi1 m s1 j) (b_lo s j) (b_hi s j)) l = []).
      { induction l as [|j l IH]; intro Hl; [reflexivity|]. cbn [filter].
        rewrite (bad_col_false (m_int m j) (lo1 m s1 j) (hi1 m s1 j) (b_lo s j) (b_hi s j) (y j)).
        - apply IH. intros q I. apply Hl. now right.
        - apply Fi. apply Hl. now left.
        - apply KC. apply Hl. now left.
        - apply B. apply Hl. now left. }
      apply G. intros j I. apply in_seq in I. lia. }
  cbn [length Nat.eqb negb] in E.
  set (lo := fun j => if open2 (lo1 m s1 j) (hi1 m s1 j) then final_lo (m_int m j) (lo1 m s1 j) (b_lo s j) (b_hi s j) else b_lo s j) in *.
  set (hi := fun j => if open2 (lo1 m s1 j) (hi1 m s1 j) then final_hi (m_int m j) (hi1 m s1 j) (b_lo s j) (b_hi s j) else b_hi s j) in *.
  apply Done_inj in E. apply pair_equal_spec in E. destruct E as [E _].
  assert (RS : (b_rl s i = None /\ b_ru s i = None) \/ (b_rl s i = side_lo m i /\ b_ru s i = side_hi m i)).
  { destruct (Rt i) as [[A1 A2]|A]; [|now left]. rewrite A1, A2. cbn [start2 b_rl b_ru]. destruct (freed s1 i); [left|right]; now split. }
  assert (XB : forall j, (j < m_ncols m)%nat -> within (lo j) (hi j) (x j)).
  { intros j Lj. pose proof (Xb j) as P. rewrite <- E in P. cbn [m_ncols m_clo m_chi] in P. specialize (P Lj). unfold lo, hi.
    destruct (open2 (lo1 m s1 j) (hi1 m s1 j)) eqn:O; [exact P|].
    pose proof (KC j Lj) as [Y1 Y2]. pose proof (B j Lj) as Yb. unfold open2 in O.
    destruct (lo1 m s1 j) as [p|]; [|discriminate O]. destruct (hi1 m s1 j) as [q|]; [|discriminate O].
    qb. destruct P as [P1 P2]. cbn in P1, P2, Y1, Y2. apply within_eq with (2 := Yb). lra. }
  assert (G : within (b_rl s i) (b_ru s i) (value (forms_of srt m i) x) /\ (b_rl s i <> None \/ b_ru s i <> None)).
  { rewrite <- E in S, N. cbn [m_rows] in S, N.
    match type of S with row_sat (nth i (if ?b then _ else _) _) x => destruct b end.
    - unfold indexed in S, N. rewrite nth_map_seq in S, N by exact L. split; [|exact N].
      apply within_eq with (2 := S). symmetry. apply FV.
    - rewrite map_map in S, N. unfold indexed in S, N. rewrite nth_map_seq in S, N by exact L.
      destruct (FO i L) as (Z1 & _ & Z3). split.
      + apply (row3_back (m_int m) lo hi); [exact Z1| | |exact S].
        * intros j a J. pose proof (Z3 j a J) as Lj. split; [now apply XB|]. intro Ij. now apply Xi.
        * intros j Ij l u El Eu D. unfold lo, hi in El, Eu. destruct (open2 (lo1 m s1 j) (hi1 m s1 j)) eqn:O.
          -- rewrite Ij in El. apply (proj1 (final_int_integral (lo1 m s1 j) (hi1 m s1 j) (b_lo s j) (b_hi s j)) l El).
          -- exfalso. unfold open2 in O. destruct (lo1 m s1 j) as [p|] eqn:Ep; [|discriminate O].
             destruct (hi1 m s1 j) as [q|] eqn:Eq; [|discriminate O]. qb. destruct (Ti j) as [T1 T2].
             destruct (T1 p Ep) as (p' & Ep' & Lp). destruct (T2 q Eq) as (q' & Eq' & Lq).
             rewrite El in Ep'. rewrite Eu in Eq'. apply Some_inj in Ep'. apply Some_inj in Eq'. subst p' q'. lra.
      + destruct RS as [[A1 A2]|[A1 A2]]; rewrite A1, A2 in N |- *.
        * unfold row3 in N. cbn [no_sides negb andb fst r_lo r_hi] in N. exact N.
        * destruct (side_lo m i) as [a|] eqn:Ea; [left; discriminate|]. destruct (side_hi m i) as [b|] eqn:Eb; [right; discriminate|].
          unfold row3 in N. cbn [no_sides negb andb fst r_lo r_hi] in N. exact N. }
  destruct G as [G1 G2]. destruct RS as [[A1 A2]|[A1 A2]]; rewrite A1, A2 in G1, G2; [destruct G2 as [G2|G2]; now exfalso; apply G2|].
  apply within_eq with (2 := G1). apply FV.
Qed.
Print Assumptions C122_rows_imply.
(** So if no row has been made free, a point of the result that meets the given
    bounds is feasible for the given problem. *)
Theorem C122_nothing_gained : forall srt m tol m' k x y,
  wf_mip m -> no_zeros m -> reorders srt -> 0 <= tol -> tighten_primal srt m tol = Done (m', k) -> feasible m y ->
  (forall r, In r (m_rows m') -> r_lo r <> None \/ r_hi r <> None) ->
  feasible m' x -> in_bounds m x -> feasible m x.
Proof.
  intros srt m tol m' k x y W Z R T E F N (G1 & G2 & G3) B.
  destruct (C121_bounds srt m tol m' k y W Z R T E F) as (D1 & D2 & D3 & _).
  assert (Xi : integer_ok m x). { intros j L Ij. apply (G3 j); [rewrite D1; exact L|rewrite D2; exact Ij]. }
  split; [|split; assumption]. intros r I. destruct (In_nth _ _ (Row [] None None) I) as (i & L & <-).
  assert (J : In (nth i (m_rows m') (Row [] None None)) (m_rows m')) by (apply nth_In; rewrite D3; exact L).
  apply (C122_rows_imply srt m tol m' k x y i); auto.
Qed.
Print Assumptions C122_nothing_gained.
(** The hypotheses hold for [ex1], whose first row is changed. *)
Example C122_example : exists m' k, tighten_primal (fun v => v) ex1 (1 # 10000000) = Done (m', k) /\
  (exists y, feasible ex1 y) /\ (forall r, In r (m_rows m') -> r_lo r <> None \/ r_hi r <> None) /\
  m_rows m' <> m_rows ex1.
Proof.
  destruct (shown_inv _ _ _ _ _ C120_example) as (m' & E & En & Er & Ec). exists m', 0%Z. split; [exact E|].
  split; [eexists; apply C120_hypotheses|]. clear E Ec. rewrite Er. split; [|discriminate].
  intros r I. cbn in I. each I; left; discriminate.
Qed.
