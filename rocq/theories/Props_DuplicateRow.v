(** * Properties of CglDuplicateRow *)

From Verif Require Import Spec Base Decide Model_TreeInfo Model_Clique Proofs_Clique Model_DuplicateRow Proofs_DuplicateRow Proofs_DuplicateRowLP.
From Coq Require Import Arith Sorted Permutation Lia Lqa Qabs Setoid.
Open Scope Q_scope.

(** The bits of the mode that select generateCuts8. *)
Definition clique_mode (z : Z) : Prop := Z.land z 3 = 0%Z /\ Z.land z 4 = 0%Z /\ Z.land z 8 <> 0%Z.

(** The part of a row that columns fixed by their bounds contribute. *)
Fixpoint fixed_part (m : mip) (v : vec) : Q :=
  match v with
  | [] => 0
  | (j, a) :: v' =>
      match m_clo m j, m_chi m j with
      | Some l, Some u => if Qle_bool u l then l * a + fixed_part m v' else fixed_part m v'
      | _, _ => fixed_part m v'
      end
  end.
(** The bounds of the rows, less the fixed part of any beginning of the row, can be converted to int. *)
Definition int_sized (m : mip) : Prop :=
  forall r v1 v2, In r (m_rows m) -> r_form r = v1 ++ v2 ->
    (forall h, r_hi r = Some h -> inject_Z INT_MIN <= h - fixed_part m v1) /\
    (forall l, r_lo r = Some l -> l - fixed_part m v1 <= inject_Z INT_MAX).

(** ** Auxiliary *)
Lemma fixed_at_le m j l : integer_data m -> (j < m_ncols m)%nat ->
  fixed_at m j = Some l <-> (m_clo m j = Some l /\ exists u, m_chi m j = Some u /\ Qle_bool u l = true).
Proof.
  intros Hd Hj. unfold fixed_at. pose proof (d_clo _ Hd j Hj) as H1. pose proof (d_chi _ Hd j Hj) as H2.
  destruct (m_clo m j) as [l0|]; [|split; [discriminate|intros (A & _); discriminate]].
  destruct (m_chi m j) as [u|]; [|split; [discriminate|intros (_ & u & A & _); discriminate]].
  cbn in H1, H2. assert (K : u - l0 < 1 # 100000000 <-> u <= l0).
  { split; [|intro; lra]. intro L. destruct H1 as [z1 E1]. destruct H2 as [z2 E2]. rewrite E1, E2 in *.
    destruct (Z_le_gt_dec z2 z1) as [G|G]; [rewrite <- Zle_Qle; exact G|exfalso].
    assert (inject_Z (z1 + 1) <= inject_Z z2) by (rewrite <- Zle_Qle; lia). rewrite inject_Z_plus in H.
    change (inject_Z 1) with 1 in H. lra. }
  destruct (u - l0 <? 1 # 100000000) eqn:E; qb.
  - apply K in E. split; [|intros (A & _); exact A]. intro A. injection A as <-. split; [reflexivity|]. exists u.
    split; [reflexivity|]. apply Qle_bool_iff. exact E.
  - split; [discriminate|]. intros (A & u0 & B & C). injection A as ->. injection B as <-. apply Qle_bool_iff in C.
    apply K in C. lra.
Qed.

Lemma scan_sized m (Hd : integer_data m) v : forall up lo w g up' lo' w' g',
  (forall j a, In (j, a) v -> (j < m_ncols m)%nat) ->
  row_scan m v up lo w g = (up', lo', w', g') ->
  exists v1 v2, v = v1 ++ v2 /\ shifted up up' (fixed_part m v1) /\ shifted lo lo' (fixed_part m v1).
Proof.
  assert (R0 : forall o, shifted o o 0) by (intros [q|]; cbn; [ring|exact I]).
  induction v as [|[j a] v IH]; intros up lo w g up' lo' w' g' Hv E; cbn [row_scan] in E.
  - injection E as <- <- <- <-. exists [], []. conjs; [reflexivity| |]; apply R0.
  - assert (Hj : (j < m_ncols m)%nat) by (eapply Hv; left; reflexivity).
    assert (Hv' : forall j a, In (j, a) v -> (j < m_ncols m)%nat) by (intros; eapply Hv; right; eassumption).
    destruct (fixed_at m j) as [l|] eqn:F.
    + apply (fixed_at_le m j l Hd Hj) in F as (F1 & u & F2 & F3).
      destruct (IH _ _ _ _ _ _ _ _ Hv' E) as (v1 & v2 & -> & A & B). exists ((j, a) :: v1), v2. split; [reflexivity|].
      cbn [fixed_part]. rewrite F1, F2, F3. split.
      * destruct up as [q|], up' as [q'|]; cbn in *; try exact A; try contradiction. lra.
      * destruct lo as [q|], lo' as [q'|]; cbn in *; try exact B; try contradiction. lra.
    + assert (G : forall v1, fixed_part m ((j, a) :: v1) = fixed_part m v1).
      { intro v1. cbn [fixed_part]. destruct (m_clo m j) as [l|] eqn:E1; [|reflexivity]. destruct (m_chi m j) as [u|] eqn:E2; [|reflexivity].
        destruct (Qle_bool u l) eqn:E3; [|reflexivity]. assert (fixed_at m j = Some l); [|congruence].
        apply (fixed_at_le m j l Hd Hj). split; [exact E1|]. exists u. split; assumption. }
      destruct (negb (is01 m j)).
      * injection E as <- <- <- <-. exists [], ((j, a) :: v). conjs; [reflexivity| |]; apply R0.
      * destruct (negb (Qeq_bool a 1)); destruct (IH _ _ _ _ _ _ _ _ Hv' E) as (v1 & v2 & -> & A & B);
          exists ((j, a) :: v1), v2; rewrite G; conjs; [reflexivity|exact A|exact B|reflexivity|exact A|exact B].
Qed.

Lemma iUpper_done up : match up with Some u => inject_Z INT_MIN <= u | None => True end -> exists z, iUpper up = Done z.
Proof.
  unfold iUpper. destruct up as [u|]; intro H; [|eauto]. destruct (inject_Z INT_MAX <? u); [eauto|].
  destruct (Z.ltb_spec (Qfloor (u + (1 # 100000))) INT_MIN) as [L|L]; [|eauto]. exfalso.
  assert (Qfloor (inject_Z INT_MIN) <= Qfloor (u + (1 # 100000)))%Z by (apply Qfloor_resp_le; lra).
  rewrite Qfloor_Z in H0. lia.
Qed.
Lemma iLower_done lo : match lo with Some l => l <= inject_Z INT_MAX | None => True end -> exists z, iLower lo = Done z.
Proof.
  unfold iLower. destruct lo as [l|]; intro H; [|eauto]. destruct (l <? inject_Z INT_MIN); [eauto|].
  destruct (Z.ltb_spec INT_MAX (Qceiling (l - (1 # 100000)))) as [L|L]; [|eauto]. exfalso.
  assert (Qceiling (l - (1 # 100000)) <= Qceiling (inject_Z INT_MAX))%Z by (apply Qceiling_resp_le; lra).
  rewrite Qceiling_Z in H0. lia.
Qed.

Lemma row_kind_done m r : integer_data m -> int_sized m -> In r (m_rows m) -> wf_row (m_ncols m) r ->
  exists k, row_kind m r = Done k.
Proof.
  intros Hd Hs Hr [_ Hw]. unfold row_kind.
  destruct (row_scan m (r_form r) (r_hi r) (r_lo r) [] true) as [[[up lo] w] g] eqn:E.
  apply scan_sized in E as (v1 & v2 & Ev & A & B); [|exact Hd|intros j a H; apply (Hw j a H)].
  destruct (Hs r v1 v2 Hr Ev) as [S1 S2].
  destruct (iUpper_done up) as [iu ->].
  { destruct up as [u|]; [|exact I]. destruct (r_hi r) as [h|]; [|contradiction]. cbn in A. specialize (S1 h eq_refl). lra. }
  destruct (iLower_done lo) as [il ->].
  { destruct lo as [l|]; [|exact I]. destruct (r_lo r) as [h|]; [|contradiction]. cbn in B. specialize (S2 h eq_refl). lra. }
  cbn [bind]. eexists. reflexivity.
Qed.

Lemma scan_rows_done m : integer_data m -> int_sized m -> wf_mip m -> forall rows, incl rows (m_rows m) ->
  exists p, scan_rows m rows = Done p.
Proof.
  intros Hd Hs Hw. induction rows as [|r rows IH]; intro Hi; cbn [scan_rows]; [eauto|].
  assert (Hr : In r (m_rows m)) by (apply Hi; left; reflexivity).
  destruct (row_kind_done m r Hd Hs Hr (Hw r Hr)) as [k ->]. cbn [bind].
  destruct IH as [[pr f] ->]; [intros y Hy; apply Hi; right; exact Hy|]. cbn [bind]. destruct k; eauto.
Qed.

(** What generateCuts8 does when it returns. *)
Lemma gen8_spec sort2 o m cs o' cs' : sorts sort2 -> wf_mip m -> integer_data m -> ends_apart m ->
  generateCuts8 sort2 o m cs = Done (o', cs') ->
  exists pr feas dups used fixed, scan_rows m (m_rows m) = Done (pr, feas) /\
    result (map sort_nat (map fst (cliques_of pr))) (map snd (cliques_of pr)) dups fixed /\
    o_dup o' = Some (dup2 (number_rows 0 pr) (length (cliques_of pr)) dups used) /\
    o_mode o' = o_mode o /\
    fst cs' = (if feas then fst cs else insert_new (fst cs) infeasible_cut) /\
    let cols := filter (fun j => is01 m j && fixed (rank m j)) (seq 0 (m_ncols m)) in
    snd cs' = match cols with [] => snd cs | _ => snd cs ++ [ColCut [] (map (fun j => (j, 0)) cols)] end.
Proof.
  intros Hs Hw Hd He E. unfold generateCuts8 in E. apply bind_done in E as (w & _ & E).
  apply bind_done in E as ([pr feas] & Esc & E).
  destruct (out_ok sort2 Hs m Hd Hw He pr feas Esc) as (dups & used & fixed & Eo & Hr). rewrite Eo in E. cbn [bind] in E.
  apply Done_inj in E. injection E as <- <-. exists pr, feas, dups, used, fixed. conjs; try reflexivity; assumption.
Qed.

Lemma gen8_done sort2 o m cs : sorts sort2 -> wf_mip m -> integer_data m -> ends_apart m -> int_sized m ->
  dup_write o (length (m_rows m)) = Done tt -> exists p, generateCuts8 sort2 o m cs = Done p.
Proof.
  intros Hs Hw Hd He Hi Hdw. unfold generateCuts8. rewrite Hdw. cbn [bind].
  destruct (scan_rows_done m Hd Hi Hw (m_rows m) (incl_refl _)) as [[pr feas] E]. rewrite E. cbn [bind].
  destruct (out_ok sort2 Hs m Hd Hw He pr feas E) as (dups & used & fixed & Eo & Hr). rewrite Eo. cbn [bind]. eauto.
Qed.

Lemma clique_mode_gen sort2 gc4 o m sol lower upper cs : clique_mode (o_mode o) ->
  generateCuts sort2 gc4 o m false sol lower upper cs = generateCuts8 sort2 o m cs.
Proof.
  intros (A & B & C). unfold generateCuts. rewrite A, B. cbn. destruct (Z.eqb_spec (Z.land (o_mode o) 8) 0); [contradiction|reflexivity].
Qed.

Lemma infeasible_cut_none x : ~ rowcut_sat infeasible_cut x.
Proof. intros [H _]. cbn in H. revert H. vm_compute. intro H. apply H. reflexivity. Qed.

Lemma fixed_cols_in m (fixed : nat -> bool) j :
  In j (filter (fun j => is01 m j && fixed (rank m j)) (seq 0 (m_ncols m))) ->
  (j < m_ncols m)%nat /\ is01 m j = true /\ fixed (rank m j) = true.
Proof. intro H. apply filter_In in H as [A B]. apply in_seq in A. apply andb_true_iff in B as [B C]. conjs; [lia|exact B|exact C]. Qed.

(** ** C85: modes with bit 1 or bit 2, and calls in the tree *)
Theorem C85_default_adds_nothing : forall sort2 gc4 o m sol lower upper cs,
  Z.land (o_mode o) 3 <> 0%Z -> generateCuts sort2 gc4 o m false sol lower upper cs = Done (o, cs).
Proof.
  intros. unfold generateCuts. destruct (Z.eqb_spec (Z.land (o_mode o) 3) 0); [contradiction|reflexivity].
Qed.

Theorem C85_tree_adds_nothing : forall sort2 gc4 m z m' sol lower upper cs,
  generateCuts sort2 gc4 (setMode (dup_of m) z) m' true sol lower upper cs = Done (setMode (dup_of m) z, cs).
Proof. reflexivity. Qed.

Lemma keep_all rows : forall n, (length rows <= n)%nat -> keep_rows (repeat (-1)%Z n) rows = rows.
Proof.
  induction rows as [|r rows IH]; intros n H; [destruct n; reflexivity|]. destruct n as [|n]; [simpl in H; lia|].
  unfold keep_rows in *. cbn. f_equal. apply IH. simpl in H. lia.
Qed.

Theorem C85_default_changes_nothing : forall sort2 gc4 m z sol lower upper, Z.land z 3 <> 0%Z ->
  exists o', outDuplicates sort2 gc4 (setMode (dup_of m) z) m sol lower upper = Done (o', m).
Proof.
  intros sort2 gc4 m z sol lower upper Hz. eexists. unfold outDuplicates.
  rewrite C85_default_adds_nothing by exact Hz. cbn [bind]. unfold dup_write. cbn [setMode dup_of refresh o_dup].
  rewrite repeat_length, Nat.leb_refl. cbn [bind fold_left]. rewrite keep_all by lia. destruct m; reflexivity.
Qed.

(** ** C86: the problem keeps its feasible points *)
Theorem C86_cuts_keep_feasible : forall sort2 gc4 o m sol lower upper cs o' cs',
  sorts sort2 -> clique_mode (o_mode o) -> wf_mip m -> integer_data m -> ends_apart m ->
  generateCuts sort2 gc4 o m false sol lower upper cs = Done (o', cs') ->
  (forall c, In c (fst cs') -> In c (fst cs) \/ keeps_all m c) /\
  (forall c, In c (snd cs') -> In c (snd cs) \/ col_keeps_all m c).
Proof.
  intros sort2 gc4 o m sol lower upper cs o' cs' Hs Hm Hw Hd He E. rewrite clique_mode_gen in E by exact Hm.
  destruct (gen8_spec _ _ _ _ _ _ Hs Hw Hd He E) as (pr & feas & dups & used & fixed & Esc & Hr & _ & _ & Erow & Ecol). split.
  - intros c Hc. rewrite Erow in Hc. destruct feas; [left; exact Hc|]. apply insert_new_in in Hc as [Hc|Hc]; [left; exact Hc|].
    right. intros x Hx. exfalso. destruct (scan_rows_spec _ _ _ _ Esc) as (_ & _ & S3 & _).
    destruct (S3 eq_refl) as (r & R1 & R2). apply (row_kind_ok m Hd r RInfeasible R1 (Hw r R1) R2 x); [apply Hx|].
    destruct Hx as (Hrows & _). apply Hrows. exact R1.
  - intros c Hc. cbv zeta in Ecol. set (cols := filter _ _) in Ecol.
    assert (K : c = ColCut [] (map (fun j => (j, 0)) cols) -> col_keeps_all m c).
    { intros -> x Hx. split; [intros ? ? []|]. cbn. intros j b Hj. apply in_map_iff in Hj as (j' & Ej & Hj). injection Ej as <- <-.
      apply fixed_cols_in in Hj as (A & B & C). eapply fixed_zero with (m := m); eassumption. }
    rewrite Ecol in Hc. destruct cols; [left; exact Hc|]. apply in_app_or in Hc as [Hc|[<-|[]]]; [left; exact Hc|right; apply K; reflexivity].
Qed.

Theorem C86_same_feasible_points : forall sort2 gc4 o m sol lower upper o' m',
  sorts sort2 -> clique_mode (o_mode o) -> wf_mip m -> integer_data m -> ends_apart m -> equations_first m ->
  outDuplicates sort2 gc4 o m sol lower upper = Done (o', m') ->
  forall x, feasible m' x <-> feasible m x.
Proof.
  intros sort2 gc4 o m sol lower upper o' m' Hs Hm Hw Hd He Hf E x. unfold outDuplicates in E.
  rewrite clique_mode_gen in E by exact Hm. apply bind_done in E as ([o1 [rows' cols']] & E1 & E).
  apply bind_done in E as (w & _ & E). apply Done_inj in E. injection E as <- Em.
  destruct (gen8_spec _ _ _ _ _ _ Hs Hw Hd He E1) as (pr & feas & dups & used & fixed & Esc & Hr & Edup & _ & _ & Ecol).
  cbv zeta in Ecol. cbn [snd] in Ecol. rewrite Edup in Em. set (d := dup2 _ _ _ _) in Em.
  set (m1 := Mip (m_ncols m) (keep_rows d (m_rows m)) (m_clo m) (m_chi m) (m_int m)) in Em.
  set (cols := filter _ _) in Ecol.
  destruct (scan_rows_spec _ _ _ _ Esc) as (Slen & S2 & _ & _).
  assert (Hm' : (in_bounds m' x <-> in_bounds m x /\ forall j, In j cols -> x j <= 0) /\
                m_ncols m' = m_ncols m /\ m_rows m' = keep_rows d (m_rows m) /\ m_int m' = m_int m).
  { assert (K : m' = fold_left lower_hi (map (fun j => (j, 0)) cols) m1).
    { rewrite <- Em, Ecol. destruct cols; reflexivity. }
    rewrite K. destruct (fold_lower_hi (map (fun j => (j, 0)) cols) m1 x) as (A & B & C & D). rewrite B, C, D. conjs; try reflexivity.
    rewrite A. change (in_bounds m1 x) with (in_bounds m x). change (m_ncols m1) with (m_ncols m). split.
    - intros [P1 P2]. split; [exact P1|]. intros j Hj. apply P2; [apply in_map_iff; exists j; split; [reflexivity|exact Hj]|].
      apply fixed_cols_in in Hj as (L & _). exact L.
    - intros [P1 P2]. split; [exact P1|]. intros j b Hj _. apply in_map_iff in Hj as (j' & Ej & Hj). injection Ej as <- <-.
      apply P2. exact Hj. }
  destruct Hm' as (Hb & Hn & Hrw & Hint).
  assert (Hnums : forall pos, (pos < length (m_rows m))%nat -> nth_error d pos =
            option_map (fun o => match o with Some k => dups k | None => (-3)%Z end) (nth_error (number_rows 0 pr) pos)).
  { intros pos L. apply dup2_nth. rewrite number_len, Slen. exact L. }
  split.
  - intros (Hx1 & Hx2 & Hx3). apply Hb in Hx2 as [Hx2 Hx4].
    assert (Hkept : forall pos r z, nth_error (m_rows m) pos = Some r -> nth_error d pos = Some z -> dropped z = false -> row_sat r x).
    { intros pos r z A B C. apply Hx1. rewrite Hrw. apply keep_rows_in. exists pos, z. conjs; assumption. }
    unfold feasible. conjs.
    + intros r Hin. apply In_nth_error in Hin as [pos Hpos].
      assert (L : (pos < length (m_rows m))%nat) by (apply nth_error_Some; rewrite Hpos; discriminate).
      pose proof (Hnums pos L) as En. destruct (nth_error (number_rows 0 pr) pos) as [[c|]|] eqn:Ec; cbn [option_map] in En.
      * destruct (r_marks _ _ _ _ Hr c) as [M|M].
        -- eapply Hkept; [exact Hpos|exact En|rewrite M; reflexivity].
        -- eapply (dropped_implied m Hd Hw pr feas Esc dups fixed Hr x pos r c Hf Hx2); [|exact Hpos|exact Ec|exact M].
           intros pos' r' c' P1 P2 P3.
           assert (L' : (pos' < length (m_rows m))%nat) by (apply nth_error_Some; rewrite P1; discriminate).
           pose proof (Hnums pos' L') as En'. rewrite P2 in En'. cbn [option_map] in En'.
           eapply Hkept; [exact P1|exact En'|]. destruct (r_marks _ _ _ _ Hr c') as [M'|M']; [rewrite M'; reflexivity|contradiction].
      * eapply Hkept; [exact Hpos|exact En|reflexivity].
      * apply nth_error_None in Ec. rewrite number_len, Slen in Ec. lia.
    + exact Hx2.
    + intros j Hj. rewrite <- Hn in Hj. specialize (Hx3 j Hj). rewrite Hint in Hx3. exact Hx3.
  - intro Hx. pose proof Hx as (Hx1 & Hx2 & Hx3). unfold feasible. conjs.
    + intros r Hin. rewrite Hrw in Hin. apply keep_rows_in in Hin as (pos & z & _ & A & _). apply Hx1. eapply nth_error_In; exact A.
    + apply Hb. split; [exact Hx2|]. intros j Hj. apply fixed_cols_in in Hj as (A & B & C).
      eapply fixed_zero with (m := m); eassumption.
    + intros j Hj. rewrite Hn in Hj. rewrite Hint. apply Hx3. exact Hj.
Qed.

(** ** C87: of equal set packing rows one is left *)
(** All columns of the row are open. *)
Definition packing_row (m : mip) (r : row) : Prop :=
  (forall j a, In (j, a) (r_form r) -> a == 1 /\ exists l u, m_clo m j = Some l /\ m_chi m j = Some u /\ l == 0 /\ u == 1) /\
  (2 <= length (r_form r))%nat /\ exists h, r_hi r = Some h /\ h == 1.

Lemma row_scan_packing m v : forall up lo w,
  (forall j a, In (j, a) v -> a == 1 /\ exists l u, m_clo m j = Some l /\ m_chi m j = Some u /\ l == 0 /\ u == 1) ->
  row_scan m v up lo w true = (up, lo, w ++ map (fun p => rank m (fst p)) v, true).
Proof.
  induction v as [|[j a] v IH]; intros up lo w H; cbn [row_scan map]; [rewrite app_nil_r; reflexivity|].
  destruct (H j a (or_introl eq_refl)) as (A & l & u & E1 & E2 & B & C).
  unfold fixed_at, is01. rewrite E1, E2.
  assert (D1 : (u - l <? 1 # 100000000) = false) by (destruct (u - l <? 1 # 100000000) eqn:K; [qb; exfalso; lra|reflexivity]).
  assert (D2 : Qeq_bool l 0 = true) by (apply Qeq_bool_iff; exact B).
  assert (D3 : Qeq_bool u 1 = true) by (apply Qeq_bool_iff; exact C).
  assert (D4 : Qeq_bool a 1 = true) by (apply Qeq_bool_iff; exact A).
  rewrite D1, D2, D3, D4. cbn [negb andb]. rewrite IH by (intros; apply H; right; assumption). rewrite <- app_assoc. reflexivity.
Qed.

Lemma packing_kind m r k : packing_row m r -> row_kind m r = Done k ->
  exists e, k = RClique (map (fun p => rank m (fst p)) (r_form r)) e.
Proof.
  intros (H1 & H2 & h & Eh & Hh) E. unfold row_kind in E. rewrite row_scan_packing in E by exact H1. rewrite Eh in E. cbn [app] in E.
  apply bind_done in E as (iu & Eu & E). apply bind_done in E as (il & _ & E). apply Done_inj in E.
  assert (iu = 1%Z).
  { unfold iUpper in Eu. destruct (inject_Z INT_MAX <? h) eqn:G; [qb; exfalso; rewrite Hh in G; revert G; vm_compute; discriminate|].
    assert (F : Qfloor (h + (1 # 100000)) = 1%Z) by (apply Qfloor_unique; change (inject_Z 1) with 1; lra).
    rewrite F in Eu. cbn in Eu. apply Done_inj in Eu. symmetry. exact Eu. }
  subst iu. unfold state_of in E. rewrite map_length in E. destruct (Nat.ltb_spec (length (r_form r)) 2); [lia|].
  assert (D1 : (h <? inject_Z 1000000) = true).
  { destruct (h <? inject_Z 1000000) eqn:G; [reflexivity|]. qb. exfalso. rewrite Hh in G. revert G. vm_compute. intro G. apply G. reflexivity. }
  assert (D2 : ((1 # 1000000000) <? Qabs (inject_Z 1 - h)) = false).
  { destruct ((1 # 1000000000) <? Qabs (inject_Z 1 - h)) eqn:G; [|reflexivity]. qb. exfalso.
    assert (Z0 : inject_Z 1 - h == 0) by (rewrite Hh; reflexivity). rewrite Z0 in G. revert G. vm_compute. discriminate. }
  rewrite D1, D2 in E. cbn in E. eexists. symmetry. exact E.
Qed.

(** Whatever the mode finds, outDuplicates leaves exactly the points that satisfy the rows it keeps, the old bounds and
    every column cut that was found.  The marks decide which rows go: a row is kept if its mark is -1 or below -2. *)
Theorem C86_column_cuts_applied : forall sort2 gc4 o m sol lower upper o' m',
  (forall o1 cs1 c j b, gc4 o m ([], []) = Done (o1, cs1) -> In c (snd cs1) ->
     In (j, b) (cc_lbs c) \/ In (j, b) (cc_ubs c) -> (j < m_ncols m)%nat) ->
  Z.land (o_mode o) 3 = 0%Z -> Z.land (o_mode o) 4 <> 0%Z ->
  outDuplicates sort2 gc4 o m sol lower upper = Done (o', m') ->
  exists rows cols, gc4 o m ([], []) = Done (o', (rows, cols)) /\
    (forall r, In r (m_rows m') <-> exists i z d, o_dup o' = Some d /\ nth_error d i = Some z /\
                 nth_error (m_rows m) i = Some r /\ z <> (-2)%Z /\ (z < 0)%Z) /\
    (forall x, in_bounds m' x <-> in_bounds m x /\ forall c, In c cols -> colcut_sat c x) /\
    (forall x, integer_ok m' x <-> integer_ok m x).
Proof.
  intros sort2 gc4 o m sol lower upper o' m' Hc H3 H4 E. unfold outDuplicates, generateCuts in E.
  rewrite H3 in E. cbn [negb Z.eqb] in E. apply Z.eqb_neq in H4. rewrite H4 in E. cbn [negb] in E.
  apply bind_done in E as ([o1 [rows cols]] & E1 & E). apply bind_done in E as (w & W & E).
  apply Done_inj in E. injection E as <- Em. exists rows, cols. split; [exact E1|].
  set (d := match o_dup o1 with Some d => d | None => [] end) in Em.
  set (m1 := Mip (m_ncols m) (keep_rows d (m_rows m)) (m_clo m) (m_chi m) (m_int m)) in Em.
  assert (K : forall x, (in_bounds m' x <-> in_bounds m x /\ forall c, In c cols -> colcut_sat c x) /\
     m_ncols m' = m_ncols m /\ m_rows m' = keep_rows d (m_rows m) /\ m_int m' = m_int m).
  { intro x. rewrite <- Em. apply (fold_colcuts cols m1 x). intros c j b Hin Hb.
    exact (Hc _ _ c j b E1 Hin Hb). }
  conjs.
  - intro r. destruct (K (fun _ => 0)) as (_ & _ & -> & _). rewrite keep_rows_in. unfold d. split.
    + intros (i & z & A & B & C). destruct (o_dup o1) as [d0|]; [|destruct i; discriminate]. exists i, z, d0.
      unfold dropped in C. apply orb_false_iff in C as [C1 C2]. apply Z.eqb_neq in C1. apply Z.leb_gt in C2. conjs; auto.
    + intros (i & z & d0 & D & A & B & C1 & C2). rewrite D. exists i, z. conjs; auto. unfold dropped.
      apply orb_false_iff. split; [apply Z.eqb_neq; exact C1|apply Z.leb_gt; exact C2].
  - intro x. apply K.
  - intro x. destruct (K x) as (_ & Kn & _ & Ki). unfold integer_ok. rewrite Kn, Ki. reflexivity.
Qed.

Theorem C87_one_left : forall sort2 gc4 o m sol lower upper cs o' cs' i1 i2 r1 r2,
  sorts sort2 -> clique_mode (o_mode o) -> wf_mip m -> integer_data m -> ends_apart m -> (exists x, feasible m x) ->
  generateCuts sort2 gc4 o m false sol lower upper cs = Done (o', cs') ->
  i1 <> i2 -> nth_error (m_rows m) i1 = Some r1 -> nth_error (m_rows m) i2 = Some r2 ->
  packing_row m r1 -> packing_row m r2 ->
  (forall j, In j (map fst (r_form r1)) <-> In j (map fst (r_form r2))) ->
  exists d, o_dup o' = Some d /\ (nth_error d i1 = Some (-2)%Z \/ nth_error d i2 = Some (-2)%Z).
Proof.
  intros sort2 gc4 o m sol lower upper cs o' cs' i1 i2 r1 r2 Hs Hm Hw Hd He [x0 Hx0] E Hi R1 R2 P1 P2 Hsame.
  rewrite clique_mode_gen in E by exact Hm.
  destruct (gen8_spec _ _ _ _ _ _ Hs Hw Hd He E) as (pr & feas & dups & used & fixed & Esc & Hr & Edup & _).
  eexists. split; [exact Edup|]. destruct (scan_rows_spec _ _ _ _ Esc) as (Slen & S2 & S3 & S4).
  assert (feas = true).
  { destruct feas; [reflexivity|exfalso]. destruct (S3 eq_refl) as (r & A & B).
    apply (row_kind_ok m Hd r RInfeasible A (Hw r A) B x0); [apply Hx0|]. destruct Hx0 as (Hrows & _). apply Hrows. exact A. }
  subst feas.
  assert (K : forall i r, nth_error (m_rows m) i = Some r -> packing_row m r ->
            exists c, (c < length (cliques_of pr))%nat /\ nth_error (number_rows 0 pr) i = Some (Some c) /\
              clq (map sort_nat (map fst (cliques_of pr))) c = sort_nat (map (fun p => rank m (fst p)) (r_form r)) /\
              nth_error (dup2 (number_rows 0 pr) (length (cliques_of pr)) dups used) i = Some (dups c)).
  { intros i r Hir Hp.
    assert (Hk : exists k, row_kind m r = Done k).
    { clear -Esc S3 Hx0 Hd Hw Hir. revert pr Esc i Hir. assert (Hinc : incl (m_rows m) (m_rows m)) by apply incl_refl. revert Hinc.
      generalize (m_rows m) at 1 3 4. intros rows. induction rows as [|r0 rows IH]; intros Hinc pr Esc i Hir; [destruct i; discriminate|].
      cbn [scan_rows] in Esc. apply bind_done in Esc as (k & Ek & Esc).
      destruct i as [|i]; [injection Hir as <-; eauto|]. destruct k as [| |P e].
      - apply bind_done in Esc as ([pr' f'] & E1 & Esc). cbn in Esc. injection Esc as <- ->.
        eapply IH; [intros y Hy; apply Hinc; right; exact Hy|exact E1|exact Hir].
      - discriminate.
      - apply bind_done in Esc as ([pr' f'] & E1 & Esc). cbn in Esc. injection Esc as <- ->.
        eapply IH; [intros y Hy; apply Hinc; right; exact Hy|exact E1|exact Hir]. }
    destruct Hk as [k Ek]. destruct (packing_kind m r k Hp Ek) as [e ->].
    pose proof (S4 eq_refl i r _ e Hir Ek) as Hpr.
    assert (L : (i < length (number_rows 0 pr))%nat) by (rewrite number_len; apply nth_error_Some; rewrite Hpr; discriminate).
    destruct (nth_error (number_rows 0 pr) i) as [[c|]|] eqn:Ec.
    - pose proof Ec as Ec'. apply number_inv in Ec' as (_ & p & A & B). rewrite Nat.sub_0_r in B. rewrite Hpr in A. injection A as <-.
      exists c. conjs; [apply nth_error_Some; rewrite B; discriminate|reflexivity| |].
      + unfold clq. rewrite map_map. erewrite nth_error_nth; [|rewrite nth_error_map, B; reflexivity]. reflexivity.
      + rewrite dup2_nth by exact L. rewrite Ec. reflexivity.
    - apply number_none in Ec. congruence.
    - apply nth_error_None in Ec. lia. }
  destruct (K i1 r1 R1 P1) as (c1 & L1 & N1 & Q1 & D1). destruct (K i2 r2 R2 P2) as (c2 & L2 & N2 & Q2 & D2).
  rewrite D1, D2.
  assert (Hc : c1 <> c2) by (intros ->; apply Hi; eapply number_inj; [exact N1|exact N2]).
  assert (Hcl : clq (map sort_nat (map fst (cliques_of pr))) c1 = clq (map sort_nat (map fst (cliques_of pr))) c2).
  { assert (U : forall c, (c < length (cliques_of pr))%nat -> StronglySorted lt (clq (map sort_nat (map fst (cliques_of pr))) c)).
    { intros c Lc. eapply hyp_sorted with (m := m); try eassumption. rewrite !map_length. exact Lc. }
    pose proof (U c1 L1) as U1. pose proof (U c2 L2) as U2.
    assert (I2 : forall z, In z (clq (map sort_nat (map fst (cliques_of pr))) c1) <-> In z (clq (map sort_nat (map fst (cliques_of pr))) c2)).
    { intro z. rewrite Q1, Q2.
      assert (V : forall l, In z (sort_nat l) <-> In z l).
      { intro l. split; intro H; eapply Permutation_in; [apply sort_nat_perm|exact H|apply Permutation_sym, sort_nat_perm|exact H]. }
      rewrite !V. rewrite <- !(map_map fst (rank m)). rewrite !in_map_iff. split; intros (j & A & B); exists j; (split; [exact A|apply Hsame; exact B]). }
    revert U1 U2 I2. generalize (clq (map sort_nat (map fst (cliques_of pr))) c1) (clq (map sort_nat (map fst (cliques_of pr))) c2). clear.
    induction l as [|a l IH]; intros [|b l'] U1 U2 I2; [reflexivity| | |].
    - destruct (proj2 (I2 b) (or_introl eq_refl)).
    - destruct (proj1 (I2 a) (or_introl eq_refl)).
    - inversion U1 as [|? ? U1' F1]; inversion U2 as [|? ? U2' F2]; subst. rewrite Forall_forall in F1, F2.
      assert (a = b).
      { destruct (proj1 (I2 a) (or_introl eq_refl)) as [G|G]; [congruence|]. destruct (proj2 (I2 b) (or_introl eq_refl)) as [G'|G']; [congruence|].
        specialize (F2 a G). specialize (F1 b G'). lia. }
      subst b. f_equal. apply IH; try assumption. intro z. split; intro Hz.
      + destruct (proj1 (I2 z) (or_intror Hz)) as [<-|G]; [specialize (F1 a Hz); lia|exact G].
      + destruct (proj2 (I2 z) (or_intror Hz)) as [<-|G]; [specialize (F2 a Hz); lia|exact G]. }
  destruct (r_once _ _ _ _ Hr c1 c2) as [A|A]; try assumption; try (rewrite !map_length; assumption).
  - left. rewrite A. reflexivity.
  - right. rewrite A. reflexivity.
Qed.

(** ** C88: the call returns *)
Theorem C88_returns : forall sort2 gc4 m z m0 sol lower upper cs,
  sorts sort2 -> clique_mode z -> wf_mip m -> integer_data m -> ends_apart m -> int_sized m ->
  (length (m_rows m) <= length (m_rows m0))%nat ->
  (exists o' cs', generateCuts sort2 gc4 (setMode (dup_of m0) z) m false sol lower upper cs = Done (o', cs')) /\
  (exists o' m', outDuplicates sort2 gc4 (setMode (dup_of m0) z) m sol lower upper = Done (o', m')).
Proof.
  intros sort2 gc4 m z m0 sol lower upper cs Hs Hm Hw Hd He Hi Hl.
  assert (Hdw : dup_write (setMode (dup_of m0) z) (length (m_rows m)) = Done tt).
  { unfold dup_write. cbn [setMode dup_of refresh o_dup]. rewrite repeat_length.
    destruct (Nat.leb_spec (length (m_rows m)) (length (m_rows m0))); [reflexivity|lia]. }
  split.
  - rewrite clique_mode_gen by exact Hm. destruct (gen8_done sort2 _ m cs Hs Hw Hd He Hi Hdw) as [[o' cs'] E]. eauto.
  - unfold outDuplicates. rewrite clique_mode_gen by exact Hm.
    destruct (gen8_done sort2 _ m ([], []) Hs Hw Hd He Hi Hdw) as [[o' [rows' cols']] E]. rewrite E. cbn [bind].
    destruct (gen8_spec _ _ _ _ _ _ Hs Hw Hd He E) as (pr & feas & dups & used & fixed & Esc & _ & Edup & _).
    unfold dup_write. rewrite Edup. destruct (scan_rows_spec _ _ _ _ Esc) as (Slen & _).
    unfold dup2. rewrite app_length, !map_length, number_len, Slen.
    destruct (Nat.leb_spec (length (m_rows m)) (length (m_rows m) + length (m_rows m))); [|lia]. cbn [bind]. eauto.
Qed.

(** ** C89: copies *)
Theorem C89_copy_fresh : forall m z, dup_copy (setMode (dup_of m) z) = Done (setMode (dup_of m) z).
Proof.
  intros m z. unfold dup_copy. cbn [setMode dup_of refresh o_dup o_mrows o_mode o_stored]. rewrite repeat_length, Nat.leb_refl.
  rewrite firstn_all2 by (rewrite repeat_length; lia). reflexivity.
Qed.

Theorem C89_copy_after_call : forall sort2 gc4 m z sol lower upper cs o' cs',
  sorts sort2 -> clique_mode z -> wf_mip m -> integer_data m -> ends_apart m ->
  generateCuts sort2 gc4 (setMode (dup_of m) z) m false sol lower upper cs = Done (o', cs') ->
  exists o2 d, dup_copy o' = Done o2 /\ o_mode o2 = z /\ o_dup o' = Some d /\ o_dup o2 = Some (firstn (length (m_rows m)) d).
Proof.
  intros sort2 gc4 m z sol lower upper cs o' cs' Hs Hm Hw Hd He E. rewrite clique_mode_gen in E by exact Hm.
  pose proof E as E0. unfold generateCuts8 in E0. apply bind_done in E0 as (w & _ & E0).
  apply bind_done in E0 as ([pr feas] & Esc & E0).
  apply bind_done in E0 as ([[dups used] fixed] & Eo & E0). apply Done_inj in E0. injection E0 as <- _.
  destruct (scan_rows_spec _ _ _ _ Esc) as (Slen & _).
  unfold dup_copy. cbn [o_dup o_mrows setMode dup_of refresh].
  assert (L : (length (m_rows m) <=? length (dup2 (number_rows 0 pr) (length (cliques_of pr)) dups used))%nat = true).
  { apply Nat.leb_le. unfold dup2. rewrite app_length, !map_length, number_len, Slen. lia. }
  rewrite L. eexists. eexists. conjs; reflexivity.
Qed.

(** ** Concrete cases *)
Fixpoint ins_key (p : Z * nat) (l : list (Z * nat)) : list (Z * nat) :=
  match l with [] => [p] | q :: l' => if (fst p <=? fst q)%Z then p :: l else q :: ins_key p l' end.
Definition isort (l : list (Z * nat)) : list (Z * nat) := fold_right ins_key [] l.

Lemma isort_sorts : sorts isort.
Proof.
  intro l. induction l as [|p l [IH1 IH2]]; cbn [isort fold_right]; [split; constructor|]. fold (isort l).
  assert (A : forall p l, Permutation (ins_key p l) (p :: l)).
  { clear. intros p l. induction l as [|q l IH]; cbn; [reflexivity|]. destruct (fst p <=? fst q)%Z; [reflexivity|].
    rewrite IH. apply perm_swap. }
  split; [rewrite A; constructor; exact IH1|].
  revert IH2. generalize (isort l). clear -A. intros l H. induction H as [|q l H IH F]; cbn; [repeat constructor|].
  destruct (Z.leb_spec (fst p) (fst q)) as [L|L].
  - constructor; [constructor; assumption|]. constructor; [exact L|]. rewrite Forall_forall in *. intros y Hy. specialize (F y Hy). lia.
  - constructor; [exact IH|]. rewrite Forall_forall in *. intros y Hy.
    apply (Permutation_in _ (A p l)) in Hy as [<-|Hy]; [lia|apply F; exact Hy].
Qed.

Definition no_gc4 (o : dobj) (m : mip) (cs : pool) : outcome (dobj * pool) := Aborts.
Definition zero : nat -> Q := fun _ => 0.
Definition pack (cols : list nat) (lo : option Q) : row := Row (map (fun j => (j, 1)) cols) lo (Some 1).
Definition mk01 (n : nat) (rows : list row) : mip := Mip n rows (fun _ => Some 0) (fun _ => Some 1) (fun _ => true).
Definition run_out (m : mip) : outcome (dobj * mip) := outDuplicates isort no_gc4 (setMode (dup_of m) 8) m zero zero zero.
Definition out_mip (m : mip) : mip := match run_out m with Done (_, m') => m' | _ => m end.

(** Decision procedures for the hypotheses, on problems with 0-1 columns and packing rows. *)
Definition openb (m : mip) (j : nat) : bool :=
  match m_clo m j, m_chi m j with Some l, Some u => l <? u | _, _ => true end.
Lemma openb_ok m j : openb m j = true <-> is_open m j.
Proof.
  unfold openb, is_open. destruct (m_clo m j) as [l|], (m_chi m j) as [u|];
    try (split; [intros _ l0 u0 A B; discriminate|reflexivity]).
  split.
  - intros H l0 u0 A B. injection A as <-. injection B as <-. qb. exact H.
  - intro H. specialize (H l u eq_refl eq_refl). destruct (l <? u) eqn:E; [reflexivity|]. qb. lra.
Qed.
Definition opens_of (m : mip) (r : row) : list nat := filter (openb m) (map fst (r_form r)).
Lemma opens_of_ok m r j : In j (opens_of m r) <-> opens m r j.
Proof.
  unfold opens_of, opens. rewrite filter_In, openb_ok, in_map_iff. split.
  - intros [([j0 a] & <- & H) B]. split; [exists a; exact H|exact B].
  - intros [[a H] B]. split; [exists (j, a); split; [reflexivity|exact H]|exact B].
Qed.
Definition ends_apartb (m : mip) : bool :=
  forallb (fun r1 => forallb (fun r2 => forallb (fun c =>
    if forallb (fun j => j <=? c)%nat (opens_of m r1)
    then if existsb (Nat.eqb c) (opens_of m r2) then forallb (fun j => j <=? c)%nat (opens_of m r2) else true
    else true) (opens_of m r1)) (m_rows m)) (m_rows m).
Lemma ends_apartb_ok m : ends_apartb m = true -> ends_apart m.
Proof.
  intros H r1 r2 c R1 R2 _ _ O1 M1 O2 j Oj. unfold ends_apartb in H. rewrite forallb_forall in H. specialize (H r1 R1).
  rewrite forallb_forall in H. specialize (H r2 R2). rewrite forallb_forall in H. apply opens_of_ok in O1. specialize (H c O1).
  assert (A : forallb (fun j => j <=? c)%nat (opens_of m r1) = true).
  { apply forallb_forall. intros k Hk. apply opens_of_ok in Hk. apply Nat.leb_le. apply M1. exact Hk. }
  rewrite A in H. assert (B : existsb (Nat.eqb c) (opens_of m r2) = true).
  { apply existsb_exists. exists c. split; [apply opens_of_ok; exact O2|apply Nat.eqb_refl]. }
  rewrite B in H. rewrite forallb_forall in H. apply opens_of_ok in Oj. apply H in Oj. apply Nat.leb_le. exact Oj.
Qed.
Definition equationb (r : row) : bool := match r_lo r, r_hi r with Some l, Some h => Qeq_bool l h | _, _ => false end.
Lemma equationb_ok r : equationb r = true <-> is_equation r.
Proof.
  unfold equationb, is_equation. split.
  - destruct (r_lo r) as [l|], (r_hi r) as [h|]; try discriminate. intro H. exists l, h. conjs; try reflexivity. apply Qeq_bool_iff. exact H.
  - intros (l & h & -> & -> & H). apply Qeq_bool_iff. exact H.
Qed.
Definition subsetb (l l' : list nat) : bool := forallb (fun j => existsb (Nat.eqb j) l') l.
Fixpoint equations_firstb (m : mip) (rows : list row) : bool :=
  match rows with
  | [] => true
  | r1 :: rows' =>
      forallb (fun r2 => negb (subsetb (opens_of m r1) (opens_of m r2) && subsetb (opens_of m r2) (opens_of m r1) && equationb r2)
                         || equationb r1) rows' && equations_firstb m rows'
  end.
Lemma equations_firstb_ok m : equations_firstb m (m_rows m) = true -> equations_first m.
Proof.
  intros H i1 i2 r1 r2 L R1 R2 _ _ Hsame E2. revert H i1 i2 L R1 R2. induction (m_rows m) as [|r rows IH]; intros H i1 i2 L R1 R2; [destruct i1; discriminate|].
  cbn in H. apply andb_true_iff in H as [H1 H2]. destruct i2 as [|i2]; [lia|]. destruct i1 as [|i1].
  - injection R1 as <-. cbn in R2. rewrite forallb_forall in H1. specialize (H1 r2 (nth_error_In _ _ R2)).
    apply orb_true_iff in H1 as [H1|H1]; [|apply equationb_ok; exact H1]. exfalso.
    apply equationb_ok in E2. rewrite E2 in H1.
    assert (S1 : subsetb (opens_of m r) (opens_of m r2) = true).
    { apply forallb_forall. intros j Hj. apply existsb_exists. exists j. split; [|apply Nat.eqb_refl]. apply opens_of_ok, Hsame, opens_of_ok. exact Hj. }
    assert (S2 : subsetb (opens_of m r2) (opens_of m r) = true).
    { apply forallb_forall. intros j Hj. apply existsb_exists. exists j. split; [|apply Nat.eqb_refl]. apply opens_of_ok, Hsame, opens_of_ok. exact Hj. }
    rewrite S1, S2 in H1. discriminate.
  - eapply IH; [exact H2| |exact R1|exact R2]. lia.
Qed.

Lemma mk01_integer n rows :
  (forall r, In r rows -> exists cols lo, r = pack cols lo /\ (lo = None \/ lo = Some 1)) -> integer_data (mk01 n rows).
Proof.
  intro H. constructor; cbn [mk01 m_rows m_clo m_chi oint].
  - intros r j a Hr Hin. destruct (H r Hr) as (cols & lo & -> & _). cbn in Hin. apply in_map_iff in Hin as (? & K & _). injection K as <- <-.
    exists 1%Z. reflexivity.
  - intros r Hr. destruct (H r Hr) as (cols & lo & -> & [->| ->]); cbn; [exact I|exists 1%Z; reflexivity].
  - intros r Hr. destruct (H r Hr) as (cols & lo & -> & _). exists 1%Z. reflexivity.
  - intros r l h Hr. destruct (H r Hr) as (cols & lo & -> & [->| ->]); cbn; [discriminate|]. intros A B. injection A as <-. injection B as <-. lra.
  - intros. exists 0%Z. reflexivity.
  - intros. exists 1%Z. reflexivity.
Qed.
Ltac packs := apply mk01_integer; cbn [In]; intros r Hr; repeat (destruct Hr as [<-|Hr]; [eexists; eexists; split; [reflexivity|auto]|]); destruct Hr.

(** A problem in which the second row is dropped and columns are fixed. *)
Definition ex_m : mip := mk01 6 [pack [1; 2; 3; 5]%nat None; pack [1; 5]%nat None; pack [2; 5]%nat (Some 1); pack [0; 4]%nat (Some 1)].
Lemma ex_wf : wf_mip ex_m /\ integer_data ex_m /\ ends_apart ex_m /\ equations_first ex_m.
Proof.
  conjs; [apply wfb_ok; vm_compute; reflexivity|unfold ex_m; packs|apply ends_apartb_ok; vm_compute; reflexivity|
          apply equations_firstb_ok; vm_compute; reflexivity].
Qed.
Example C86_example :
  clique_mode 8 /\ m_rows (out_mip ex_m) <> m_rows ex_m /\
  map (m_chi (out_mip ex_m)) (seq 0 6) = [Some 1; Some 0; Some 1; Some 0; Some 1; Some 1] /\
  exists o', run_out ex_m = Done (o', out_mip ex_m).
Proof.
  conjs; [unfold clique_mode; conjs; vm_compute; congruence|vm_compute; intro H; discriminate H|vm_compute; reflexivity|].
  eexists. vm_compute. reflexivity.
Qed.

Definition pt (l : list nat) : point := fun j => if existsb (Nat.eqb j) l then 1 else 0.
Ltac feas := apply feasible_b_ok; vm_compute; reflexivity.

(** An equation after an inequality on the same columns is the one that is dropped. *)
(** A search that lowers the bound of one column and marks one row. *)
Example C86_column_cuts_example :
  let gc4 := fun (o : dobj) (_ : mip) (_ : pool) => Done (DObj (o_mode o) (Some [(-2)%Z; (-1)%Z]) None 2, ([], [ColCut [(0%nat, 1)] [(1%nat, 0)]])) : outcome (dobj * pool) in
  let m := Mip 2 [Row [(0%nat, 1)] None (Some 1); Row [(1%nat, 1)] None (Some 1)] (fun _ => Some 0) (fun _ => Some 1) (fun _ => true) in
  exists o' m', outDuplicates (fun l => l) gc4 (setMode dup_new 4) m (fun _ => 0) (fun _ => 0) (fun _ => 0) = Done (o', m') /\
    length (m_rows m') = 1%nat /\ m_clo m' 0%nat = Some 1 /\ m_chi m' 1%nat = Some 0.
Proof. do 2 eexists. conjs; [vm_compute; reflexivity|reflexivity|reflexivity|reflexivity]. Qed.

Theorem C86_equation_dropped_refuted :
  exists m o' m' x, wf_mip m /\ integer_data m /\ ends_apart m /\
    outDuplicates isort no_gc4 (setMode (dup_of m) 8) m zero zero zero = Done (o', m') /\ feasible m' x /\ ~ feasible m x.
Proof.
  set (m := mk01 2 [pack [0; 1]%nat None; pack [0; 1]%nat (Some 1)]).
  exists m. eexists. exists (Mip 2 [pack [0; 1]%nat None] (fun _ => Some 0) (fun _ => Some 1) (fun _ => true)), (pt []).
  conjs; [apply wfb_ok; vm_compute; reflexivity|unfold m; packs|apply ends_apartb_ok; vm_compute; reflexivity|vm_compute; reflexivity|feas|].
  intros (H & _). specialize (H _ (or_intror (or_introl eq_refl))). destruct H as [H _]. cbn in H. revert H. vm_compute. intro H. apply H. reflexivity.
Qed.

(** The comparison of two rows reads past the end of one into the next: a row
    that does not follow from the others is dropped. *)
Theorem C86_overrun_drops_row_refuted :
  exists m o' m' x, wf_mip m /\ integer_data m /\ equations_first m /\
    outDuplicates isort no_gc4 (setMode (dup_of m) 8) m zero zero zero = Done (o', m') /\ feasible m' x /\ ~ feasible m x.
Proof.
  set (m := mk01 9 [pack [1; 2; 3; 5]%nat None; pack [7; 8]%nat None; pack [1; 5; 7]%nat None]).
  exists m. eexists. exists (Mip 9 [pack [1; 2; 3; 5]%nat None; pack [7; 8]%nat None] (fun _ => Some 0) (fun _ => Some 1) (fun _ => true)), (pt [1; 7]%nat).
  conjs; [apply wfb_ok; vm_compute; reflexivity|unfold m; packs|apply equations_firstb_ok; vm_compute; reflexivity|vm_compute; reflexivity|feas|].
  intros (H & _). specialize (H _ (or_intror (or_intror (or_introl eq_refl)))). destruct H as [_ H]. cbn in H. revert H. vm_compute. intro H. apply H. reflexivity.
Qed.

(** The same with an equation fixes columns that a feasible point uses. *)
Theorem C86_overrun_fixes_refuted :
  exists m o' cs' c x, wf_mip m /\ integer_data m /\ equations_first m /\
    generateCuts isort no_gc4 (setMode (dup_of m) 8) m false zero zero zero ([], []) = Done (o', cs') /\
    In c (snd cs') /\ feasible m x /\ ~ colcut_sat c x.
Proof.
  set (m := mk01 9 [pack [1; 2; 3; 5]%nat None; pack [7; 8]%nat None; pack [1; 5; 7]%nat (Some 1)]).
  exists m. eexists. exists ([], [ColCut [] [(2%nat, 0); (3%nat, 0)]]), (ColCut [] [(2%nat, 0); (3%nat, 0)]), (pt [2; 7]%nat).
  conjs; [apply wfb_ok; vm_compute; reflexivity|unfold m; packs|apply equations_firstb_ok; vm_compute; reflexivity|vm_compute; reflexivity|left; reflexivity|feas|].
  intros [_ H]. specialize (H 2%nat 0 (or_introl eq_refl)). revert H. vm_compute. intro H. apply H. reflexivity.
Qed.

(** With continuous columns a row 1/2 <= x + y <= 1 counts as an equation. *)
Definition half_m : mip :=
  Mip 3 [Row [(0%nat, 1); (2%nat, 1)] (Some (1 # 2)) (Some 1); pack [0; 1; 2]%nat None] (fun _ => Some 0) (fun _ => Some 1) (fun _ => false).
Theorem C86_fractional_bound_refuted :
  exists m o' cs' c x, wf_mip m /\ ends_apart m /\ equations_first m /\
    generateCuts isort no_gc4 (setMode (dup_of m) 8) m false zero zero zero ([], []) = Done (o', cs') /\
    In c (snd cs') /\ feasible m x /\ ~ colcut_sat c x.
Proof.
  exists half_m. eexists. exists ([], [ColCut [] [(1%nat, 0)]]), (ColCut [] [(1%nat, 0)]), (fun j => if Nat.eqb j 1 then 1 # 2 else 1 # 4).
  conjs; [apply wfb_ok; vm_compute; reflexivity|apply ends_apartb_ok; vm_compute; reflexivity|apply equations_firstb_ok; vm_compute; reflexivity|vm_compute; reflexivity|left; reflexivity|feas|].
  intros [_ H]. specialize (H 1%nat 0 (or_introl eq_refl)). revert H. vm_compute. intro H. apply H. reflexivity.
Qed.

Definition dup_m : mip := mk01 4 [pack [0; 3]%nat None; pack [1; 2]%nat None; pack [3; 0]%nat None; pack [0; 3]%nat None].
Example C87_example :
  wf_mip dup_m /\ integer_data dup_m /\ ends_apart dup_m /\ (exists x, feasible dup_m x) /\
  packing_row dup_m (pack [0; 3]%nat None) /\ packing_row dup_m (pack [3; 0]%nat None) /\
  length (m_rows (out_mip dup_m)) = 2%nat.
Proof.
  assert (P : forall l, (2 <= length l)%nat -> packing_row dup_m (pack l None)).
  { intros l L. unfold packing_row, pack. cbn [r_form r_hi]. conjs.
    - intros j a H. apply in_map_iff in H as (? & K & _). injection K as <- <-. split; [reflexivity|]. exists 0, 1. conjs; reflexivity.
    - rewrite map_length. exact L.
    - exists 1. split; reflexivity. }
  conjs; [apply wfb_ok; vm_compute; reflexivity|unfold dup_m; packs|apply ends_apartb_ok; vm_compute; reflexivity|exists (pt []); feas|
    apply P; simpl; lia|apply P; simpl; lia|vm_compute; reflexivity].
Qed.

Example C88_example : int_sized ex_m /\ exists o' m', run_out ex_m = Done (o', m').
Proof.
  split; [|eexists; eexists; vm_compute; reflexivity].
  assert (F : forall v, fixed_part ex_m v = 0) by (induction v as [|[j a] v IH]; [reflexivity|cbn [fixed_part ex_m mk01 m_clo m_chi]; exact IH]).
  intros r v1 v2 Hr _. rewrite F. cbn [ex_m mk01 m_rows In] in Hr.
  repeat (destruct Hr as [<-|Hr]; [split; cbn [pack r_hi r_lo]; intros q E; (discriminate || injection E as <-; vm_compute; discriminate)|]).
  destruct Hr.
Qed.
(** An object made by the default constructor has no room for the marks. *)
Theorem C88_default_object_refuted :
  exists m, wf_mip m /\ integer_data m /\ ends_apart m /\
    generateCuts isort no_gc4 (setMode dup_new 8) m false zero zero zero ([], []) = Undef NullDeref.
Proof.
  exists ex_m. destruct ex_wf as (A & B & C & _). conjs; [exact A|exact B|exact C|vm_compute; reflexivity].
Qed.
Theorem C88_overrun_refuted :
  exists m, wf_mip m /\ integer_data m /\ equations_first m /\
    generateCuts isort no_gc4 (setMode (dup_of m) 8) m false zero zero zero ([], []) = Undef OutOfBounds.
Proof.
  exists (mk01 9 [pack [7; 8]%nat None; pack [1; 5; 7]%nat None; pack [1; 2; 3; 5]%nat None]).
  conjs; [apply wfb_ok; vm_compute; reflexivity|packs|apply equations_firstb_ok; vm_compute; reflexivity|vm_compute; reflexivity].
Qed.
Theorem C88_large_bound_refuted :
  exists m, wf_mip m /\ ends_apart m /\
    generateCuts isort no_gc4 (setMode (dup_of m) 8) m false zero zero zero ([], []) = Undef FloatCast.
Proof.
  exists (mk01 2 [Row [(0%nat, 1); (1%nat, 1)] (Some 3000000000) None]).
  conjs; [apply wfb_ok; vm_compute; reflexivity|apply ends_apartb_ok; vm_compute; reflexivity|vm_compute; reflexivity].
Qed.

(** After two calls on a problem that shrinks, a copy reads past the marks. *)
Theorem C89_copy_after_two_refuted :
  exists m o1 m1 o2 m2, wf_mip m /\ integer_data m /\ ends_apart m /\
    outDuplicates isort no_gc4 (setMode (dup_of m) 8) m zero zero zero = Done (o1, m1) /\
    outDuplicates isort no_gc4 o1 m1 zero zero zero = Done (o2, m2) /\
    dup_copy o2 = Undef OutOfBounds.
Proof.
  set (m := mk01 3 [pack [0; 1]%nat None; pack [0; 1]%nat None; pack [0; 1]%nat None]).
  exists m, (match run_out m with Done (o1, _) => o1 | _ => dup_new end), (out_mip m),
    (match outDuplicates isort no_gc4 (match run_out m with Done (o1, _) => o1 | _ => dup_new end) (out_mip m) zero zero zero with Done (o2, _) => o2 | _ => dup_new end),
    (out_mip m).
  conjs; [apply wfb_ok; vm_compute; reflexivity|unfold m; packs|apply ends_apartb_ok; vm_compute; reflexivity|vm_compute; reflexivity|vm_compute; reflexivity|vm_compute; reflexivity].
Qed.
Example C89_example :
  exists o' m', run_out ex_m = Done (o', m') /\ exists o2, dup_copy o' = Done o2 /\ o_dup o2 = Some [-1; -2; -1; -1]%Z.
Proof. eexists. eexists. split; [vm_compute; reflexivity|]. eexists. split; vm_compute; reflexivity. Qed.
Example C85_example : o_mode dup_new = 3%Z /\ Z.land 3 3 <> 0%Z /\ clique_mode 8.
Proof. conjs; [reflexivity|discriminate|unfold clique_mode; conjs; vm_compute; congruence]. Qed.

Print Assumptions C85_default_adds_nothing.
Print Assumptions C85_tree_adds_nothing.
Print Assumptions C85_default_changes_nothing.
Print Assumptions C86_cuts_keep_feasible.
Print Assumptions C86_same_feasible_points.
Print Assumptions C86_column_cuts_applied.
Print Assumptions C86_equation_dropped_refuted.
Print Assumptions C86_overrun_drops_row_refuted.
Print Assumptions C86_overrun_fixes_refuted.
Print Assumptions C86_fractional_bound_refuted.
Print Assumptions C87_one_left.
Print Assumptions C88_returns.
Print Assumptions C88_default_object_refuted.
Print Assumptions C88_overrun_refuted.
Print Assumptions C88_large_bound_refuted.
Print Assumptions C89_copy_fresh.
Print Assumptions C89_copy_after_call.
Print Assumptions C89_copy_after_two_refuted.
