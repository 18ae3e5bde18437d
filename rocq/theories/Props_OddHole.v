(** * CglOddHole: properties C10, C11, C12, C35 *)

From Coq Require Import Permutation Qabs.
From Verif Require Import Base Model_Clique Proofs_Clique Model_OddHole Proofs_OddHole.
Local Open Scope Q_scope.

(** ** Specification *)
(** Columns whose bounds (nearly) coincide are fixed at zero. *)
Definition fixed_columns_are_zero (m : mip) : Prop :=
  forall r j a l u, In r (m_rows m) -> In (j, a) (r_form r) ->
    m_clo m j = Some l -> m_chi m j = Some u -> u - l <= 1 # 100000000 -> l == 0 /\ u == 0.
Definition is_packing_cut (c : rowcut) : Prop := rc_lb c = None.
Definition is_covering_cut (c : rowcut) : Prop := rc_ub c = None.

(** ** Rows used *)
Lemma binary_nonneg m y j : is_binary m j = true -> (j < m_ncols m)%nat -> in_bounds m y -> integer_ok m y ->
  integral (y j) /\ 0 <= y j.
Proof.
  intros B L IB IO. unfold is_binary in B. apply andb_true_iff in B as [B Bh]. apply andb_true_iff in B as [Bi Bl].
  destruct (IB j L) as [I1 I2]. split; [apply (IO j L Bi)|].
  unfold zero_one in Bl. destruct (m_clo m j) as [l|]; [|discriminate]. simpl in I1.
  apply orb_true_iff in Bl as [E|E]; qb; lra.
Qed.

Section Rows.
  Variable m : mip.
  Hypothesis WF : wf_mip m.
  Hypothesis FZ : fixed_columns_are_zero m.
  Variable y : point.
  Hypothesis FE : feasible m y.

  Lemma entry_value r j a : In r (m_rows m) -> In (j, a) (r_form r) -> entry_ok m (j, a) = true ->
    integral (y j) /\ 0 <= y j /\ (y j == 0 \/ Qabs (a - 1) <= eps).
  Proof.
    intros Hr Hj OK. destruct FE as (F1 & F2 & F3).
    assert (L : (j < m_ncols m)%nat) by (destruct (WF r Hr) as [_ W]; eapply W; exact Hj).
    unfold entry_ok in OK. simpl in OK. destruct (wide m j) eqn:Wj.
    - apply andb_true_iff in OK as [B A]. apply Qleb_le in A.
      destruct (binary_nonneg m y j B L F2 F3). auto.
    - unfold wide in Wj. destruct (m_clo m j) as [l|] eqn:El; [|discriminate].
      destruct (m_chi m j) as [u|] eqn:Eu; [|discriminate]. qb.
      destruct (FZ r j a l u Hr Hj El Eu) as [L0 U0]; [exact Wj|].
      destruct (F2 j L) as [B1 B2]. rewrite El in B1. rewrite Eu in B2. simpl in B1, B2.
      assert (Z : y j == 0) by lra. conjs; [exists 0%Z; exact Z|lra|left; exact Z].
  Qed.

  Lemma form_bounds v : (forall j a, In (j, a) v -> 0 <= y j /\ (y j == 0 \/ Qabs (a - 1) <= eps)) ->
    (1 - eps) * sumf y (map fst v) <= value v y /\ value v y <= (1 + eps) * sumf y (map fst v).
  Proof.
    induction v as [|[j a] v IH]; intro H; simpl; [lra|].
    destruct IH as [I1 I2]; [intros; apply H; right; assumption|].
    destruct (H j a (or_introl eq_refl)) as [P [Z|A]].
    - rewrite Z. unfold eps in *. split; lra.
    - apply Qabs_Qle_condition in A as [A1 A2]. unfold eps in *. split; nra.
  Qed.

  Definition row_fine (r : row) : Prop := In r (m_rows m) /\ forallb (entry_ok m) (r_form r) = true.
  Lemma row_fine_entry r j : row_fine r -> In j (map fst (r_form r)) -> integral (y j) /\ 0 <= y j.
  Proof.
    intros [Hr Hf] Hj. rewrite forallb_forall in Hf. apply in_map_iff in Hj as ([k a] & <- & Hk).
    destruct (entry_value r k a Hr Hk (Hf _ Hk)) as (A & B & _). auto.
  Qed.
  Lemma row_fine_bounds r : row_fine r ->
    (1 - eps) * sumf y (map fst (r_form r)) <= value (r_form r) y /\
    value (r_form r) y <= (1 + eps) * sumf y (map fst (r_form r)).
  Proof.
    intros [Hr Hf]. apply form_bounds. intros j a Hj. rewrite forallb_forall in Hf.
    destruct (entry_value r j a Hr Hj (Hf _ Hj)) as (_ & B & C). auto.
  Qed.
  Lemma row_sum_integral r : row_fine r -> integral (sumf y (map fst (r_form r))).
  Proof. intro H. apply sumf_integral. intros j Hj. apply (row_fine_entry r j H Hj). Qed.

  Lemma packing_row r : row_fine r -> above (r_hi r) (1001 # 1000) = false -> sumf y (map fst (r_form r)) <= 1.
  Proof.
    intros H A. destruct (row_sum_integral r H) as [z Hz]. destruct (row_fine_bounds r H) as [B _].
    destruct FE as (F1 & _). destruct (F1 r (proj1 H)) as [_ U]. unfold above in A.
    destruct (r_hi r) as [u|]; [|discriminate]. simpl in U. qb. rewrite Hz in *.
    assert (X : inject_Z z < 2) by (unfold eps in B; lra).
    change 2 with (inject_Z 2) in X. rewrite <- Zlt_Qlt in X. change 1 with (inject_Z 1). rewrite <- Zle_Qle. lia.
  Qed.
  Lemma covering_row r : row_fine r -> below (r_lo r) (999 # 1000) = false -> 1 <= sumf y (map fst (r_form r)).
  Proof.
    intros H A. destruct (row_sum_integral r H) as [z Hz]. destruct (row_fine_bounds r H) as [_ B].
    destruct FE as (F1 & _). destruct (F1 r (proj1 H)) as [U _]. unfold below in A.
    destruct (r_lo r) as [u|]; [|discriminate]. simpl in U. qb. rewrite Hz in *.
    assert (X : 0 < inject_Z z) by (unfold eps in B; lra).
    change 0 with (inject_Z 0) in X. rewrite <- Zlt_Qlt in X. change 1 with (inject_Z 1). rewrite <- Zle_Qle. lia.
  Qed.
End Rows.

Lemma nth_map_combine {A} (f : A * Z -> Z) (rows : list A) d l r :
  (r < length rows)%nat -> (0 < nth r (map f (combine rows l)) 0)%Z ->
  exists z, nth r l 0%Z = z /\ nth r (map f (combine rows l)) 0%Z = f (nth r rows d, z).
Proof.
  revert rows l. induction r as [|r IH]; intros [|a rows] [|z l] L H; simpl in *; try lia.
  - exists z. auto.
  - apply IH; [lia|exact H].
Qed.

Lemma createRowList_pos m l r : (r < length (m_rows m))%nat -> nth r (createRowList m l) 0%Z <> 0%Z ->
  good_row m (row_of m r) = true.
Proof.
  unfold createRowList, row_of. intros L H.
  revert l H L. generalize (m_rows m). intro rows. revert r.
  induction rows as [|a rows IH]; intros r l H L; simpl in L; [lia|].
  destruct l as [|z l]; [destruct r; simpl in H; congruence|].
  destruct r as [|r]; simpl in *.
  - destruct (z =? 0)%Z; [congruence|]. destruct (good_row m a); congruence.
  - apply (IH r l); [exact H|lia].
Qed.
Lemma createRowList_nonneg m l r : (0 <= nth r (createRowList m l) 0)%Z.
Proof.
  unfold createRowList. generalize (m_rows m). intro rows. revert l r.
  induction rows as [|a rows IH]; intros [|z l] [|r]; simpl; try lia; [|apply IH].
  destruct (z =? 0)%Z; [lia|]. destruct (good_row m a); lia.
Qed.
Lemma packed_rows_pos m x s r : (r < length (m_rows m))%nat -> (0 < nth r (packed_rows m x s) 0)%Z ->
  nth r s 0%Z <> 0%Z /\ above (r_hi (row_of m r)) (1001 # 1000) = false.
Proof.
  unfold packed_rows. intros L H.
  destruct (nth_map_combine _ (m_rows m) (Row [] None None) s r L H) as (z & Z1 & Z2).
  rewrite Z2 in H. cbn [fst snd] in H. fold (row_of m r) in H. cbv zeta in H.
  destruct (z =? 0)%Z eqn:E; [lia|]. apply Z.eqb_neq in E.
  destruct (_ <? 9 # 10); [lia|]. destruct (above _ _); [lia|]. split; [congruence|reflexivity].
Qed.
Lemma packed_rows_nonzero m x s r : (r < length (m_rows m))%nat -> nth r (packed_rows m x s) 0%Z <> 0%Z -> nth r s 0%Z <> 0%Z.
Proof.
  unfold packed_rows. generalize (m_rows m). intro rows. revert s r.
  induction rows as [|a rows IH]; intros [|z s] [|r] L H; simpl in *; try lia; try congruence.
  - destruct (z =? 0)%Z eqn:E; [congruence|]. apply Z.eqb_neq in E. exact E.
  - apply IH; [lia|exact H].
Qed.

Lemma fold_two_le m x l s : 2 <= s -> (forall j, 0 <= sol m x j) ->
  2 <= fold_left (fun s (ja : nat * Q) => if (fixed_status m x (fst ja) =? 1)%Z then 2 else if free m x (fst ja) then s + sol m x (fst ja) else s) l s.
Proof.
  intros H N. revert s H. induction l as [|[j a] l IH]; simpl; intros s H; [exact H|].
  apply IH. destruct (_ =? 1)%Z; [lra|]. destruct (free m x j); [|exact H]. specialize (N j). lra.
Qed.
Lemma sol_nonneg m x j : 0 <= sol m x j.
Proof.
  unfold sol. destruct (is_binary m j); [|lra]. destruct (narrow m j); [lra|].
  destruct (x j <? eps) eqn:E; [lra|]. destruct (onetol <? x j); [lra|]. qb. unfold eps in E. lra.
Qed.
Lemma cover_rows_pos m x s r : (r < length (m_rows m))%nat -> (0 < nth r (cover_rows m x s) 0)%Z ->
  nth r s 0%Z <> 0%Z /\ below (r_lo (row_of m r)) (999 # 1000) = false.
Proof.
  unfold cover_rows. intros L H.
  destruct (nth_map_combine _ (m_rows m) (Row [] None None) s r L H) as (z & Z1 & Z2).
  rewrite Z2 in H. cbn [fst snd] in H. fold (row_of m r) in H. cbv zeta in H.
  destruct (Z.abs z =? 0)%Z eqn:E; [lia|]. apply Z.eqb_neq in E. split; [lia|].
  destruct (_ <? cover_sum m x _) eqn:C; [lia|]. qb.
  destruct (below _ _) eqn:B; [exfalso|reflexivity].
  unfold cover_sum in C. rewrite B in C. cbv zeta in C.
  pose proof (fold_two_le m x (r_form (row_of m r)) 2 ltac:(lra) (sol_nonneg m x)). lra.
Qed.

Lemma good_row_fine m r : (r < length (m_rows m))%nat -> good_row m (row_of m r) = true -> row_fine m (row_of m r).
Proof.
  intros L G. unfold good_row in G. apply andb_true_iff in G as [G _]. split; [apply nth_In; exact L|exact G].
Qed.

(** A cut coming from a list of suitable rows is valid. *)
Lemma from_rows_packing_valid m x dj g prm sorter c :
  wf_mip m -> fixed_columns_are_zero m -> (forall l, Permutation (sorter l) l) ->
  from_rows m x dj true (packed_rows m x (createRowList m (check_rows m g))) prm sorter c -> keeps_all m c.
Proof.
  intros WF FZ SP (rows & v & R & O & V & ->) y FE. split; [exact I|]. simpl.
  assert (RF : forall r, In r rows -> row_fine m (row_of m r) /\ above (r_hi (row_of m r)) (1001 # 1000) = false).
  { intros r Hr. destruct (R r Hr) as [P L]. destruct (packed_rows_pos m x _ r L P) as [N A].
    split; [|exact A]. apply good_row_fine; [exact L|]. apply (createRowList_pos m _ r L N). }
  assert (H : value (halved m true rows) y <= cut_rhs true rows).
  { apply halved_packing.
    - intros r Hr. destruct (RF r Hr). unfold row_cols. apply (packing_row m WF FZ y FE); assumption.
    - intros r j Hr Hj. destruct (RF r Hr). apply (row_fine_entry m WF FZ y FE (row_of m r)); assumption. }
  assert (NN : forall j c, In (j, c) (halved m true rows) -> 0 <= c * y j).
  { intros j c Hc. destruct (halved_in m true rows j c Hc) as (C & r & Hr & Hj).
    destruct (row_fine_entry m WF FZ y FE (row_of m r) j (proj1 (RF r Hr)) Hj) as [_ P]. nra. }
  unfold cycle_cut in V. cbv zeta in V. destruct (_ <? _) in V; [discriminate|].
  destruct (_ || _) in V; [|apply Some_inj in V; subst; exact H].
  destruct (_ <? _) in V; [discriminate|]. apply Some_inj in V. subst v.
  destruct (shortened_perm m x dj prm sorter (halved m true rows) SP) as (w & P & ->).
  eapply Qle_trans; [apply value_firstn_le|rewrite (value_perm _ _ _ P); exact H].
  intros j c Hc. apply NN. apply (Permutation_in _ P). exact Hc.
Qed.
Lemma from_rows_covering_valid m x dj g prm sorter c :
  wf_mip m -> fixed_columns_are_zero m ->
  from_rows m x dj false (cover_rows m x (packed_rows m x (createRowList m (check_rows m g)))) prm sorter c ->
  keeps_all m c.
Proof.
  intros WF FZ (rows & v & R & O & V & ->) y FE. split; [|exact I]. simpl.
  assert (RF : forall r, In r rows -> row_fine m (row_of m r) /\ below (r_lo (row_of m r)) (999 # 1000) = false).
  { intros r Hr. destruct (R r Hr) as [P L]. destruct (cover_rows_pos m x _ r L P) as [N A].
    split; [|exact A]. apply good_row_fine; [exact L|]. apply (createRowList_pos m (check_rows m g) r L).
    apply (packed_rows_nonzero m x _ r L N). }
  unfold cycle_cut in V. cbv zeta in V. destruct (_ <? _) in V; [discriminate|].
  destruct (_ || _) in V; [discriminate|]. apply Some_inj in V. subst v.
  apply halved_covering; [| |exact O].
  - intros r Hr. destruct (RF r Hr). apply (covering_row m WF FZ y FE); assumption.
  - intros r j Hr Hj. destruct (RF r Hr). apply (row_fine_entry m WF FZ y FE (row_of m r)); assumption.
Qed.

Lemma generate_from_rows m x dj fuel check sorter g cs cs' :
  generateCuts m x dj fuel check sorter g cs = Done cs' ->
  let s := packed_rows m x (createRowList m (check_rows m g)) in
  forall c, In c cs' -> In c cs \/ from_rows m x dj true s oh_new sorter c \/
                        from_rows m x dj false (cover_rows m x s) oh_new sorter c.
Proof.
  intros E s c Hc. unfold generateCuts in E. cbv zeta in E. fold s in E.
  apply bind_done in E as (cs1 & E1 & E2). pose proof (separate_spec _ _ _ _ _ _ _ _ _ _ _ E1) as S1.
  destruct (do_cover m x s).
  - destruct (separate_spec _ _ _ _ _ _ _ _ _ _ _ E2 c Hc) as [H|H]; [|auto].
    destruct (S1 c H) as [H'|H']; auto.
  - apply Done_inj in E2. subst. destruct (S1 c Hc) as [H|H]; auto.
Qed.

(** ** C10 and C11 *)
Theorem C10_packing_cuts_valid :
  forall m x dj fuel check sorter g cs cs',
    wf_mip m -> fixed_columns_are_zero m -> (forall l, Permutation (sorter l) l) ->
    generateCuts m x dj fuel check sorter g cs = Done cs' ->
    forall c, In c cs' -> In c cs \/ is_covering_cut c \/ keeps_all m c.
Proof.
  intros m x dj fuel check sorter g cs cs' WF FZ SP E c Hc.
  destruct (generate_from_rows _ _ _ _ _ _ _ _ _ E c Hc) as [H|[H|H]]; [auto| |].
  - right. right. eapply from_rows_packing_valid; eauto.
  - right. left. destruct H as (rows & v & _ & _ & _ & ->). reflexivity.
Qed.
Print Assumptions C10_packing_cuts_valid.
Theorem C11_covering_cuts_valid :
  forall m x dj fuel check sorter g cs cs',
    wf_mip m -> fixed_columns_are_zero m ->
    generateCuts m x dj fuel check sorter g cs = Done cs' ->
    forall c, In c cs' -> In c cs \/ is_packing_cut c \/ keeps_all m c.
Proof.
  intros m x dj fuel check sorter g cs cs' WF FZ E c Hc.
  destruct (generate_from_rows _ _ _ _ _ _ _ _ _ E c Hc) as [H|[H|H]]; [auto| |].
  - right. left. destruct H as (rows & v & _ & _ & _ & ->). reflexivity.
  - right. right. eapply from_rows_covering_valid; eauto.
Qed.
Print Assumptions C11_covering_cuts_valid.

(** The triangle with packing and with covering rows. *)
Definition tri (lo hi : option Q) : mip :=
  Mip 3 [Row [(0%nat, 1); (1%nat, 1)] lo hi; Row [(1%nat, 1); (2%nat, 1)] lo hi; Row [(0%nat, 1); (2%nat, 1)] lo hi]
      (fun _ => Some 0) (fun _ => Some 1) (fun _ => true).
Definition halfx (_ : nat) : Q := 1 # 2.
Definition chk (j : nat) : Q := inject_Z (Z.of_nat j) + (1 # 3).
Lemma tri_wf lo hi : wf_mip (tri lo hi).
Proof.
  intros r Hr. simpl in Hr. destruct Hr as [<-|[<-|[<-|[]]]]; (split; [repeat constructor; simpl; intuition lia|]);
    intros j a Hin; simpl in Hin; destruct Hin as [H|[H|[]]]; injection H as <- <-; simpl; lia.
Qed.
Lemma tri_fixed lo hi : fixed_columns_are_zero (tri lo hi).
Proof.
  intros r j a l u _ _ Hl Hu H. simpl in Hl, Hu. injection Hl as <-. injection Hu as <-. lra.
Qed.
Example C10_example :
  wf_mip (tri None (Some 1)) /\ fixed_columns_are_zero (tri None (Some 1)) /\
  generateCuts (tri None (Some 1)) halfx (fun _ => 0) 100 chk (fun l => l) oh_new [] =
  Done [RowCut [(0%nat, 1); (2%nat, 1); (1%nat, 1)] None (Some 1)].
Proof. conjs; [apply tri_wf|apply tri_fixed|vm_compute; reflexivity]. Qed.
Example C11_example :
  generateCuts (tri (Some 1) None) halfx (fun _ => 0) 100 chk (fun l => l) oh_new [] =
  Done [RowCut [(0%nat, 1); (2%nat, 1); (1%nat, 1)] (Some 2) None].
Proof. vm_compute. reflexivity. Qed.

(** Fixed columns: x0+x1-y <= 0 (three rows), y fixed at 1. The cut
    x0+x1+x2+y <= 1 removes (1,0,0,1). *)
Definition tri_fixed_y : mip :=
  Mip 4 [Row [(0%nat, 1); (1%nat, 1); (3%nat, -1)] None (Some 0); Row [(1%nat, 1); (2%nat, 1); (3%nat, -1)] None (Some 0);
         Row [(0%nat, 1); (2%nat, 1); (3%nat, -1)] None (Some 0)]
      (fun j => Some (if Nat.eqb j 3 then 1 else 0)) (fun _ => Some 1) (fun _ => true).
Theorem C10_fixed_column_refuted :
  exists m x c cs', wf_mip m /\
    generateCuts m x (fun _ => 0) 100 chk (fun l => l) oh_new [] = Done cs' /\ In c cs' /\
    is_packing_cut c /\ ~ keeps_all m c.
Proof.
  exists tri_fixed_y, (fun j => if Nat.eqb j 3 then 1 else 1 # 2),
    (RowCut [(0%nat, 1); (2%nat, 1); (3%nat, 1); (1%nat, 1)] None (Some 1)).
  eexists. conjs.
  - intros r Hr. simpl in Hr. destruct Hr as [<-|[<-|[<-|[]]]]; (split; [repeat constructor; simpl; intuition lia|]);
      intros j a Hin; simpl in Hin; destruct Hin as [H|[H|[H|[]]]]; injection H as <- <-; simpl; lia.
  - vm_compute. reflexivity.
  - left. reflexivity.
  - reflexivity.
  - intro K. specialize (K (fun j => if Nat.eqb j 3 then 1 else if Nat.eqb j 0 then 1 else 0)).
    assert (F : feasible tri_fixed_y (fun j => if Nat.eqb j 3 then 1 else if Nat.eqb j 0 then 1 else 0)).
    { unfold feasible; conjs.
      - intros r Hr. simpl in Hr. destruct Hr as [<-|[<-|[<-|[]]]]; split; vm_compute; auto; discriminate.
      - intros j Hj. simpl in Hj. destruct j as [|[|[|[|j]]]]; try lia; split; vm_compute; discriminate.
      - intros j Hj _. simpl in Hj. destruct j as [|[|[|[|j]]]]; try lia; [exists 1%Z|exists 0%Z|exists 0%Z|exists 1%Z]; reflexivity. }
    apply K in F as [_ F]. vm_compute in F. apply F. reflexivity.
Qed.
Print Assumptions C10_fixed_column_refuted.
(** x0+x1-2y >= 5 (three rows), y an integer column fixed at -2. The cut
    x0+x1+x2+2y >= 2 removes every point. *)
Definition tri_cover_y : mip :=
  Mip 4 [Row [(0%nat, 1); (1%nat, 1); (3%nat, -2)] (Some 5) None; Row [(1%nat, 1); (2%nat, 1); (3%nat, -2)] (Some 5) None;
         Row [(0%nat, 1); (2%nat, 1); (3%nat, -2)] (Some 5) None]
      (fun j => Some (if Nat.eqb j 3 then -2 else 0)) (fun j => Some (if Nat.eqb j 3 then -2 else 1)) (fun _ => true).
Theorem C11_fixed_column_refuted :
  exists m x c cs', wf_mip m /\
    generateCuts m x (fun _ => 0) 100 chk (fun l => l) oh_new [] = Done cs' /\ In c cs' /\
    is_covering_cut c /\ ~ keeps_all m c.
Proof.
  exists tri_cover_y, (fun j => if Nat.eqb j 3 then -2 else 1 # 2),
    (RowCut [(0%nat, 1); (2%nat, 1); (3%nat, 2); (1%nat, 1)] (Some 2) None).
  eexists. conjs.
  - intros r Hr. simpl in Hr. destruct Hr as [<-|[<-|[<-|[]]]]; (split; [repeat constructor; simpl; intuition lia|]);
      intros j a Hin; simpl in Hin; destruct Hin as [H|[H|[H|[]]]]; injection H as <- <-; simpl; lia.
  - vm_compute. reflexivity.
  - left. reflexivity.
  - reflexivity.
  - intro K. specialize (K (fun j => if Nat.eqb j 3 then -2 else 1)).
    assert (F : feasible tri_cover_y (fun j => if Nat.eqb j 3 then -2 else 1)).
    { unfold feasible; conjs.
      - intros r Hr. simpl in Hr. destruct Hr as [<-|[<-|[<-|[]]]]; split; vm_compute; auto; discriminate.
      - intros j Hj. simpl in Hj. destruct j as [|[|[|[|j]]]]; try lia; split; vm_compute; discriminate.
      - intros j Hj _. simpl in Hj. destruct j as [|[|[|[|j]]]]; try lia; [exists 1%Z|exists 1%Z|exists 1%Z|exists (-2)%Z]; reflexivity. }
    apply K in F as [F _]. vm_compute in F. apply F. reflexivity.
Qed.
Print Assumptions C11_fixed_column_refuted.

(** ** C12 *)
Inductive oh_op := OpViol (v : Q) | OpPer (v : Q) | OpEntries (v : Z).
Definition oh_apply (g : ohole) (o : oh_op) : ohole :=
  match o with
  | OpViol v => setMinimumViolation g v
  | OpPer v => setMinimumViolationPer g v
  | OpEntries v => setMaximumEntries g v
  end.
(** The setters keep the values within their documented ranges, and read back
    the last accepted value. *)
Theorem C12_setter_ranges :
  forall ops, let g := fold_left oh_apply ops oh_new in
    1 # 100000000 < oh_minViol g /\ oh_minViol g <= 1 # 2 /\
    1 # 100000000 < oh_minViolPer g /\ oh_minViolPer g <= 1 # 4 /\ (2 < oh_maxEntries g)%Z.
Proof.
  intro ops.
  assert (G : forall g, (1 # 100000000 < oh_minViol g /\ oh_minViol g <= 1 # 2 /\
    1 # 100000000 < oh_minViolPer g /\ oh_minViolPer g <= 1 # 4 /\ (2 < oh_maxEntries g)%Z) ->
    let g' := fold_left oh_apply ops g in
    1 # 100000000 < oh_minViol g' /\ oh_minViol g' <= 1 # 2 /\
    1 # 100000000 < oh_minViolPer g' /\ oh_minViolPer g' <= 1 # 4 /\ (2 < oh_maxEntries g')%Z).
  { induction ops as [|o ops IH]; intros g H; [exact H|]. simpl. apply IH.
    destruct H as (H1 & H2 & H3 & H4 & H5).
    destruct o as [v|v|v]; simpl; [unfold setMinimumViolation|unfold setMinimumViolationPer|unfold setMaximumEntries].
    - destruct (_ && _) eqn:E; [qb|]; simpl; conjs; auto.
    - destruct (_ && _) eqn:E; [qb|]; simpl; conjs; auto.
    - destruct (_ <? _)%Z eqn:E; [apply Z.ltb_lt in E|]; simpl; conjs; auto. }
  apply G. conjs; vm_compute; auto; discriminate.
Qed.
Print Assumptions C12_setter_ranges.
(** Whatever was set, the search behaves as with default limits. *)
Theorem C12_settings_have_no_effect :
  forall ops m x dj fuel check sorter g cs,
    generateCuts m x dj fuel check sorter (fold_left oh_apply ops g) cs =
    generateCuts m x dj fuel check sorter g cs.
Proof.
  intros. assert (S : oh_suitable (fold_left oh_apply ops g) = oh_suitable g).
  { revert g. induction ops as [|o ops IH]; intro g; [reflexivity|]. simpl. rewrite IH.
    destruct o; simpl; [unfold setMinimumViolation|unfold setMinimumViolationPer|unfold setMaximumEntries];
      destruct (_ : bool); reflexivity. }
  unfold generateCuts, check_rows. rewrite S. reflexivity.
Qed.
Print Assumptions C12_settings_have_no_effect.
(** The default limits are respected: every new cut has at most 100 entries
    and violation at least 1/1000 at the cleaned LP solution. *)
Theorem C12_default_limits_hold :
  forall m x dj fuel check sorter g cs cs',
    (forall l, Permutation (sorter l) l) ->
    generateCuts m x dj fuel check sorter g cs = Done cs' ->
    forall c, In c cs' -> In c cs \/
      ((length (rc_form c) <= 100)%nat /\
       ((exists u, rc_lb c = None /\ rc_ub c = Some u /\ 1 # 1000 <= value (rc_form c) (sol m x) - u) \/
        (exists l, rc_ub c = None /\ rc_lb c = Some l /\ 1 # 1000 <= l - value (rc_form c) (sol m x)))).
Proof.
  intros m x dj fuel check sorter g cs cs' SP E c Hc.
  destruct (generate_from_rows _ _ _ _ _ _ _ _ _ E c Hc) as [H|[H|H]]; [auto| |];
    right; destruct H as (rows & v & _ & _ & V & ->); unfold cycle_cut in V; cbv zeta in V;
    change (oh_minViol oh_new) with (1 # 1000) in V; change (oh_maxEntries oh_new) with 100%Z in V;
    destruct (_ <? 1 # 1000) eqn:E1 in V; try discriminate.
  - destruct (_ || _) eqn:E2 in V.
    + destruct (_ <? 1 # 1000) eqn:E3 in V; [discriminate|]. apply Some_inj in V. subst v. qb.
      split; [|left; eexists; conjs; [reflexivity|reflexivity|exact E3]].
      destruct (shortened_perm m x dj oh_new sorter (halved m true rows) SP) as (w & P & EQ). simpl rc_form. rewrite EQ.
      change (oh_maxEntries oh_new) with 100%Z. rewrite firstn_length. lia.
    + apply Some_inj in V. subst v. qb. apply Z.ltb_ge in H0. split; [simpl; lia|].
      left. eexists. conjs; [reflexivity|reflexivity|exact E1].
  - destruct (_ || _) eqn:E2 in V; [discriminate|].
    apply Some_inj in V. subst v. qb. apply Z.ltb_ge in H0. split; [simpl; lia|].
    right. eexists. conjs; [reflexivity|reflexivity|exact E1].
Qed.
Print Assumptions C12_default_limits_hold.
(** A cut whose violation is below the limit the user set. *)
Theorem C12_user_limit_refuted :
  exists m x cs' c, 
    let g := setMinimumViolation (setMaximumEntries oh_new 3) (1 # 2) in
    oh_minViol g == 1 # 2 /\
    generateCuts m x (fun _ => 0) 100 chk (fun l => l) g [] = Done cs' /\ In c cs' /\
    rc_ub c = Some 1 /\ value (rc_form c) x - 1 < oh_minViol g.
Proof.
  exists (tri None (Some 1)), (fun _ => 19 # 40).
  eexists _, (RowCut [(0%nat, 1); (2%nat, 1); (1%nat, 1)] None (Some 1)). cbv zeta. conjs.
  - vm_compute. reflexivity.
  - vm_compute. reflexivity.
  - left. reflexivity.
  - reflexivity.
  - vm_compute. reflexivity.
Qed.
Print Assumptions C12_user_limit_refuted.

(** ** C35 *)
(** The search ends for every model, solution and setting; the only undefined
    behaviour is a write past the end of the row list. *)
Theorem C35_search_terminates_partial :
  forall m x dj check sorter g cs, wf_mip m ->
    exists N, forall fuel, (N <= fuel)%nat ->
      (exists cs', generateCuts m x dj fuel check sorter g cs = Done cs') \/
      generateCuts m x dj fuel check sorter g cs = Undef OutOfBounds.
Proof.
  intros m x dj check sorter g cs WF. unfold generateCuts. cbv zeta.
  set (s := packed_rows m x (createRowList m (check_rows m g))).
  destruct (separate_total m x dj true s oh_new check sorter WF) as (N1 & H1).
  destruct (separate_total m x dj false (cover_rows m x s) oh_new check sorter WF) as (N2 & H2).
  exists (N1 + N2)%nat. intros fuel F.
  destruct (H1 fuel cs) as [[c1 ->]| ->]; [lia| |right; reflexivity]. cbn [bind].
  destruct (do_cover m x s); [|left; eauto]. apply H2. lia.
Qed.
Print Assumptions C35_search_terminates_partial.
(** One row x0+x1+x2 >= 1 at the feasible point (1/3,1/3,1/3): three rows are
    written to an array of length one. *)
Definition one_cover : mip :=
  Mip 3 [Row [(0%nat, 1); (1%nat, 1); (2%nat, 1)] (Some 1) None] (fun _ => Some 0) (fun _ => Some 1) (fun _ => true).
Theorem C35_row_list_overflow_refuted :
  exists m x, wf_mip m /\ (forall r, In r (m_rows m) -> row_sat r x) /\ in_bounds m x /\
    forall fuel, (20 <= fuel)%nat ->
      generateCuts m x (fun _ => 0) fuel chk (fun l => l) oh_new [] = Undef OutOfBounds.
Proof.
  exists one_cover, (fun _ => 1 # 3). conjs.
  - intros r Hr. simpl in Hr. destruct Hr as [<-|[]]; (split; [repeat constructor; simpl; intuition lia|]);
      intros j a Hin; simpl in Hin; destruct Hin as [H|[H|[H|[]]]]; injection H as <- <-; simpl; lia.
  - intros r [<-|[]]. split; vm_compute; auto; discriminate.
  - intros j Hj. simpl in Hj. destruct j as [|[|[|j]]]; try lia; split; vm_compute; discriminate.
  - intros fuel F. do 20 (destruct fuel as [|fuel]; [lia|]). vm_compute. reflexivity.
Qed.
Print Assumptions C35_row_list_overflow_refuted.

(** ** Assignment of a generator without row list *)
(** A generator assigned from a default one has an empty row list instead of
    none, and finds nothing. *)
Theorem C36_assigned_generator_finds_nothing_refuted :
  exists m x cs', 
    generateCuts m x (fun _ => 0) 100 chk (fun l => l) oh_new [] = Done cs' /\ cs' <> [] /\
    generateCuts m x (fun _ => 0) 100 chk (fun l => l) (oh_copy oh_new) [] = Done cs' /\
    generateCuts m x (fun _ => 0) 100 chk (fun l => l) (oh_assign oh_new) [] = Done [].
Proof.
  exists (tri None (Some 1)), halfx. eexists. conjs.
  - vm_compute. reflexivity.
  - discriminate.
  - vm_compute. reflexivity.
  - vm_compute. reflexivity.
Qed.
Print Assumptions C36_assigned_generator_finds_nothing_refuted.
(** With a non-empty row list both copies behave like the original. *)
Theorem C36_copies_with_row_list_agree :
  forall m x dj fuel check sorter g cs l, oh_suitable g = Some l -> l <> [] ->
    generateCuts m x dj fuel check sorter (oh_copy g) cs = generateCuts m x dj fuel check sorter g cs /\
    generateCuts m x dj fuel check sorter (oh_assign g) cs = generateCuts m x dj fuel check sorter g cs /\
    oh_minViol (oh_copy g) = oh_minViol g /\ oh_minViolPer (oh_copy g) = oh_minViolPer g /\
    oh_maxEntries (oh_copy g) = oh_maxEntries g /\
    oh_minViol (oh_assign g) = oh_minViol g /\ oh_minViolPer (oh_assign g) = oh_minViolPer g /\
    oh_maxEntries (oh_assign g) = oh_maxEntries g /\
    numberPossible (oh_copy g) = numberPossible g /\ numberPossible (oh_assign g) = numberPossible g.
Proof.
  intros m x dj fuel check sorter g cs l H NE. destruct l as [|z l]; [congruence|].
  unfold generateCuts, check_rows, numberPossible, oh_copy, oh_assign. simpl. rewrite H. conjs; reflexivity.
Qed.
Print Assumptions C36_copies_with_row_list_agree.
(** A copy-constructed generator always behaves like the original when the
    original has no list. *)
Theorem C36_copy_without_row_list_agrees :
  forall m x dj fuel check sorter g cs, oh_suitable g = None ->
    generateCuts m x dj fuel check sorter (oh_copy g) cs = generateCuts m x dj fuel check sorter g cs.
Proof. intros. unfold generateCuts, check_rows, oh_copy. simpl. rewrite H. reflexivity. Qed.
Print Assumptions C36_copy_without_row_list_agrees.
