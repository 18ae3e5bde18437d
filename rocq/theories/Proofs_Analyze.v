(** * Lemmas about analyze in CglPreProcess.cpp *)
From Verif Require Import Model_MakeInteger Model_Analyze.
From Verif Require Export Proofs_MakeInteger.
Local Open Scope Q_scope.

Lemma row_try_single m obj dir s i : length (cont_part m s (r_form (mk_row m i))) <> 2%nat ->
  row_try m obj dir s i = row_step m obj dir s i.
Proof.
  intro H. unfold row_try, row_step. destruct (all_integer _ _ _); [|reflexivity].
  destruct (cont_part m s (r_form (mk_row m i))) as [|[? ?] [|[? ?] [|]]]; try reflexivity.
  exfalso. now apply H.
Qed.

Lemma abs_one a : Qabs a == 1 -> a == 1 \/ a == -1.
Proof.
  intro H. destruct (Qlt_le_dec a 0) as [N|N].
  - rewrite Qabs_neg in H by lra. right. lra.
  - rewrite Qabs_pos in H by lra. now left.
Qed.

(** ** Columns with one entry *)
Lemma count_in r j : In j (map fst (r_form r)) ->
  (1 <= length (filter (fun e => Nat.eqb (fst e) j) (r_form r)))%nat.
Proof.
  intro I. apply in_map_iff in I. destruct I as (e & E & I).
  assert (F : In e (filter (fun e => Nat.eqb (fst e) j) (r_form r))).
  { apply filter_In. split; [exact I|]. now apply Nat.eqb_eq. }
  destruct (filter _ _); [destruct F|cbn; lia].
Qed.
Lemma count_nth j : forall rows i, (i < length rows)%nat -> In j (map fst (r_form (nth i rows (Row [] None None)))) ->
  (1 <= column_count rows j)%nat.
Proof.
  unfold column_count. induction rows as [|r rows IH]; intros i L I; [cbn in L; lia|].
  cbn [flat_map]. rewrite app_length. destruct i as [|i]; cbn [nth] in I.
  - pose proof (count_in r j I). lia.
  - cbn in L. specialize (IH i ltac:(lia) I). lia.
Qed.
Lemma count_one j : forall rows i k, (i < length rows)%nat -> (k < length rows)%nat -> i <> k ->
  In j (map fst (r_form (nth i rows (Row [] None None)))) ->
  In j (map fst (r_form (nth k rows (Row [] None None)))) -> (2 <= column_count rows j)%nat.
Proof.
  induction rows as [|r rows IH]; intros i k L K Ne I J; [cbn in L; lia|].
  cbn [length] in L, K. unfold column_count. cbn [flat_map]. rewrite app_length. fold (column_count rows j).
  destruct i as [|i], k as [|k]; cbn [nth] in I, J; [congruence| | |].
  - pose proof (count_in r j I). pose proof (count_nth j rows k ltac:(lia) J). lia.
  - pose proof (count_in r j J). pose proof (count_nth j rows i ltac:(lia) I). lia.
  - specialize (IH i k ltac:(lia) ltac:(lia) ltac:(congruence) I J). lia.
Qed.

Section Problem.
Variable m : mip.
Variable obj : nat -> Q.
Variable dir : Q.
Hypothesis wf : wf_mip m.

Lemma cont_distinct s r j a j2 a2 : In r (m_rows m) -> cont_part m s (r_form r) = [(j, a); (j2, a2)] -> j <> j2.
Proof.
  intros R C. destruct (wf r R) as [W1 _].
  assert (N : NoDup (map fst (cont_part m s (r_form r)))).
  { clear - W1. unfold cont_part. induction (r_form r) as [|e v IH]; [constructor|].
    cbn [map] in W1. inversion W1; subst. cbn [filter]. destruct (_ && _); [|auto]. cbn [map]. constructor; [|auto].
    intro K. apply H1. apply in_map_iff in K. destruct K as (e' & E & K). apply filter_In in K.
    apply in_map_iff. exists e'. tauto. }
  rewrite C in N. inversion N; subst. intro K. subst. apply H1. now left.
Qed.

(** ** Outcomes *)
Lemma row_try_done s i : tidy m s -> (i < length (m_rows m))%nat ->
  exists s', row_try m obj dir s i = Done s' /\ tidy m s' /\ later s s'.
Proof.
  intros T L. destruct (Nat.eq_dec (length (cont_part m s (r_form (mk_row m i)))) 2) as [Q|Q].
  2:{ rewrite row_try_single by exact Q. apply row_step_done; auto. }
  unfold row_try. assert (R : In (mk_row m i) (m_rows m)) by (unfold mk_row; now apply nth_In).
  set (r := mk_row m i) in *.
  assert (Dn : exists s', Done s = Done s' /\ tidy m s' /\ later s s').
  { exists s. split; [reflexivity|]. split; [exact T|apply later_refl]. }
  destruct (all_integer m s r); [|exact Dn].
  destruct (cont_part m s (r_form r)) as [|[j a] [|[j2 a2] [|]]] eqn:C; try discriminate Q.
  destruct (_ && _); [|exact Dn].
  destruct (cont_in m wf s r j a R) as (Lj & Lo & F); [rewrite C; now left|].
  destruct (cont_in m wf s r j2 a2 R) as (Lj2 & Lo2 & F2); [rewrite C; right; now left|].
  destruct (mark_ok m s j T Lj Lo F) as (s1 & E1 & T1 & La1 & M1). rewrite E1. cbn [bind].
  pose proof (cont_distinct s r j a j2 a2 R C) as Ne.
  destruct (mark_ok m s1 j2 T1 Lj2 Lo2) as (s2 & E2 & T2 & La2 & _).
  { rewrite M1, F2. destruct (Nat.eqb_spec j2 j); [congruence|reflexivity]. }
  rewrite E2. exists s2. split; [reflexivity|]. split; [exact T2|]. eapply later_trans; eauto.
Qed.
Lemma try_done s : tidy m s -> exists s', one_try m obj dir s = Done s' /\ tidy m s' /\ later s s'.
Proof.
  intro T. unfold one_try.
  destruct (fold_done m (row_try m obj dir) (seq 0 (length (m_rows m))) s) with (2 := T) as (t & E & Tt & La).
  { intros t i I Tt. apply in_seq in I. apply row_try_done; auto. lia. }
  rewrite E. cbn [bind]. destruct (cols_done m t Tt) as (u & Eu & Tu & Lu). exists u. split; [exact Eu|].
  split; [exact Tu|]. eapply later_trans; eauto.
Qed.
Lemma tries_done : forall fuel s, tidy m s -> (m_ncols m < fuel + length (mk_changed s))%nat ->
  exists s1 s', one_try m obj dir s = Done s1 /\ tries fuel m obj dir s = Done s' /\ tidy m s' /\ later s1 s'.
Proof.
  induction fuel as [|f IH]; intros s T L; [pose proof (tidy_len m s T); lia|]. cbn [tries].
  destruct (try_done s T) as (t & E & Tt & La). rewrite E. cbn [bind].
  destruct (Nat.eqb_spec (length (mk_changed t)) (length (mk_changed s))) as [Q|Q].
  - exists t, t. split; [reflexivity|]. split; [reflexivity|]. split; [exact Tt|apply later_refl].
  - destruct (IH t Tt) as (s1 & s' & E1 & E' & T' & L'); [destruct La as (_ & _ & La); lia|].
    exists t, s'. split; [reflexivity|]. split; [exact E'|]. split; [exact T'|].
    destruct (try_done t Tt) as (t1 & Et1 & _ & Lt). rewrite E1 in Et1. apply Done_inj in Et1. subst t1.
    eapply later_trans; eauto.
Qed.

(** ** Columns that are found *)
Lemma plain_single s i j : tidy m s -> (i < length (m_rows m))%nat -> plain_row m (mk_row m i) j ->
  length (cont_part m s (r_form (mk_row m i))) <> 2%nat.
Proof.
  intros T L (P1 & P2 & _). assert (R : In (mk_row m i) (m_rows m)) by (unfold mk_row; now apply nth_In).
  assert (A : forall k b, In (k, b) (cont_part m s (r_form (mk_row m i))) -> k = j).
  { intros k b I. unfold cont_part in I. apply filter_In in I. cbn [fst] in I. destruct I as [I K]. qb.
    destruct (Nat.eq_dec k j) as [E|E]; [exact E|exfalso].
    destruct T as (_ & _ & M). assert (mk_int s k = true) by (apply M; left; now apply (P2 k b)). congruence. }
  destruct (cont_part m s (r_form (mk_row m i))) as [|[k b] [|[k2 b2] [|]]] eqn:C; try discriminate.
  exfalso. apply (cont_distinct s (mk_row m i) k b k2 b2 R C).
  rewrite (A k b), (A k2 b2); [reflexivity|right; now left|now left].
Qed.
Lemma found_try s s' i j : tidy m s -> (i < length (m_rows m))%nat -> plain_row m (mk_row m i) j ->
  ofold (row_try m obj dir) (seq 0 (length (m_rows m))) s = Done s' ->
  mk_int s' j = true \/ (mk_ignore s' i = true /\ equality (mk_row m i) = false).
Proof.
  intros T L P E.
  destruct (fold_through m (row_try m obj dir) (seq 0 (length (m_rows m))) s s' i) with (2 := T) (3 := E)
    as (t & t' & Tt & _ & Et & Lt & Lt').
  - intros t k I Tt. apply in_seq in I. apply row_try_done; auto. lia.
  - apply in_seq. lia.
  - rewrite row_try_single in Et by (now apply (plain_single t i j)).
    destruct (plain_step m obj dir wf t i j t' Tt L P Et Lt) as [H|[H1 H2]]; [left; now apply Lt'|right].
    split; [now apply Lt'|exact H2].
Qed.
Lemma found_one_try s s1 j : tidy m s -> (j < m_ncols m)%nat -> loose m j = true ->
  (forall q, m_clo m j = Some q \/ m_chi m j = Some q -> integral q) ->
  (forall i, (i < length (m_rows m))%nat -> In j (map fst (r_form (mk_row m i))) -> plain_row m (mk_row m i) j) ->
  one_try m obj dir s = Done s1 -> mk_int s1 j = true.
Proof.
  intros T L Lo B P E. unfold one_try in E.
  destruct (fold_done m (row_try m obj dir) (seq 0 (length (m_rows m))) s) with (2 := T) as (t & Et & Tt & La).
  { intros t i I Tt. apply in_seq in I. apply row_try_done; auto. lia. }
  rewrite Et in E. cbn [bind] in E.
  destruct (fold_through m (col_step m) (seq 0 (m_ncols m)) t s1 j) with (3 := E) as (u & u' & Tu & Lu & Eu & Lc & Ld); auto.
  { intros v b I Tv. apply in_seq in I. apply col_step_done; auto. lia. }
  { apply in_seq. lia. }
  apply Ld. destruct (mk_int u j) eqn:Mj; [now apply Lc|].
  unfold col_step in Eu. rewrite Lo, Mj in Eu. cbn [negb andb] in Eu.
  replace (bound_ok (m_chi m j)) with true in Eu.
  2:{ unfold bound_ok. destruct (m_chi m j) as [q|] eqn:Eq; [|reflexivity]. symmetry. apply near_integral. apply B. now right. }
  replace (bound_ok (m_clo m j)) with true in Eu.
  2:{ unfold bound_ok. destruct (m_clo m j) as [q|] eqn:Eq; [|reflexivity]. symmetry. apply near_integral. apply B. now left. }
  cbn [andb] in Eu. destruct (forallb _ _) eqn:F.
  - apply mark_done in Eu. destruct Eu as (M & _). rewrite M, Nat.eqb_refl. reflexivity.
  - exfalso. assert (X : forallb (fun i => negb (has_column (mk_row m i) j) || mk_ignore u i) (seq 0 (length (m_rows m))) = true).
    { apply forallb_forall. intros i I. apply in_seq in I. destruct (has_column (mk_row m i) j) eqn:H; [|reflexivity].
      cbn [negb orb]. unfold has_column in H. apply existsb_exists in H. destruct H as (e & Ie & Ee). apply Nat.eqb_eq in Ee.
      assert (Hj : In j (map fst (r_form (mk_row m i)))) by (apply in_map_iff; eauto).
      assert (Li : (i < length (m_rows m))%nat) by lia.
      destruct (found_try s t i j T Li (P i Li Hj) Et) as [K|[K _]].
      - apply Lu in K. congruence.
      - now apply Lu. }
    congruence.
Qed.

(** ** Points *)
Hypothesis gd : gridded m.

(** A pair: both columns can be lowered together until one of them is 0. *)
Lemma pair_covers s i s' j a j2 a2 l u : good m s -> (i < length (m_rows m))%nat ->
  all_integer m s (mk_row m i) = true -> cont_part m s (r_form (mk_row m i)) = [(j, a); (j2, a2)] ->
  r_lo (mk_row m i) = Some l -> r_hi (mk_row m i) = Some u -> l == u -> Qabs a == 1 -> a * a2 == -1 ->
  is_zero (m_clo m j) = true -> is_zero (m_clo m j2) = true ->
  column_count (m_rows m) j = 1%nat -> column_count (m_rows m) j2 = 1%nat -> 0 <= dir * (obj j + obj j2) ->
  (forall k, mk_int s' k = Nat.eqb k j2 || (Nat.eqb k j || mk_int s k)) ->
  covers m obj dir s s'.
Proof.
  intros G L A C El Eu Elu Ha Haa Z1 Z2 N1 N2 Ob M. pose proof (row_in m i L) as R. set (r := mk_row m i) in *.
  pose proof (cont_distinct s r j a j2 a2 R C) as Ne.
  assert (I1 : In (j, a) (cont_part m s (r_form r))) by (rewrite C; now left).
  assert (I2 : In (j2, a2) (cont_part m s (r_form r))) by (rewrite C; right; now left).
  destruct (cont_in m wf s r j a R I1) as (L1 & _ & _). destruct (cont_in m wf s r j2 a2 R I2) as (L2 & _ & _).
  unfold cont_part in I1, I2. apply filter_In in I1, I2. destruct I1 as [I1 _], I2 as [I2 _].
  assert (S : a + a2 == 0).
  { destruct (abs_one a Ha) as [E|E]; rewrite E in Haa |- *; lra. }
  split; [intros k H; rewrite M, H; now rewrite !orb_true_r|].
  intros x F. pose proof F as (Fr & Fb & Fi). cbn [m_rows with_int] in Fr.
  set (d := if x j <=? x j2 then x j else x j2).
  set (y := upd_pt (upd_pt x j (x j - d)) j2 (x j2 - d)).
  assert (Yk : forall k, k <> j -> k <> j2 -> y k = x k).
  { intros k A1 A2. unfold y, upd_pt. destruct (Nat.eqb_spec k j2); [congruence|]. destruct (Nat.eqb_spec k j); congruence. }
  assert (Y1 : y j = x j - d).
  { unfold y, upd_pt. destruct (Nat.eqb_spec j j2); [congruence|]. now rewrite Nat.eqb_refl. }
  assert (Y2 : y j2 = x j2 - d) by (unfold y, upd_pt; now rewrite Nat.eqb_refl).
  pose proof (Fb j L1) as B1. pose proof (Fb j2 L2) as B2. cbn [m_clo m_chi with_int] in B1, B2.
  assert (P1 : 0 <= x j).
  { unfold is_zero in Z1. destruct (m_clo m j) as [q|]; [|discriminate Z1]. qb. destruct B1 as [B1 _]. cbn in B1. lra. }
  assert (P2 : 0 <= x j2).
  { unfold is_zero in Z2. destruct (m_clo m j2) as [q|]; [|discriminate Z2]. qb. destruct B2 as [B2 _]. cbn in B2. lra. }
  assert (D : 0 <= d /\ d <= x j /\ d <= x j2 /\ (x j - d == 0 \/ x j2 - d == 0)).
  { unfold d. destruct (x j <=? x j2) eqn:Q; qb; repeat split; lra. }
  destruct D as (D0 & D1 & D2 & D3).
  destruct (wf r R) as [W1 W2].
  assert (Vr : value (r_form r) y == value (r_form r) x).
  { unfold y. rewrite (value_upd_in (r_form r) _ j2 a2 _ W1 I2), (value_upd_in (r_form r) x j a _ W1 I1).
    unfold upd_pt at 1. destruct (Nat.eqb_spec j2 j); [congruence|].
    setoid_replace (value (r_form r) x + a * (x j - d - x j) + a2 * (x j2 - d - x j2))
      with (value (r_form r) x - (a + a2) * d) by ring. rewrite S. ring. }
  assert (Id : integral (x j - x j2)).
  { pose proof (int_value m wf gd s r x R A F) as Iv.
    pose proof (parts m s (r_form r) x) as P. rewrite (fixed_value m gd (r_form r) x) in P; [|exact Fb|exact W2].
    rewrite C in P. cbn [value] in P. specialize (Fr r R). destruct Fr as [Fl Fu]. rewrite El in Fl. rewrite Eu in Fu.
    cbn in Fl, Fu.
    assert (Il : integral (l - sum_fixed m (r_form r))).
    { apply side_integral with (r := r); auto. unfold all_integer in A. rewrite El in A. cbn [side_ok] in A. qb. assumption. }
    assert (Ix : integral (a * (x j - x j2))).
    { apply (integral_eq (l - sum_fixed m (r_form r) - value (int_part m s (r_form r)) x)); [|now apply integral_minus].
      assert (E2 : a2 == - a) by lra. rewrite E2 in P. lra. }
    pose proof (abs_one a Ha) as Ca.
    destruct Ca as [Ca|Ca].
    - apply (integral_eq (a * (x j - x j2))); [rewrite Ca; ring|exact Ix].
    - apply (integral_eq (0 - a * (x j - x j2))); [rewrite Ca; ring|]. apply integral_minus; [exists 0%Z; reflexivity|exact Ix]. }
  assert (I0 : integral 0) by (exists 0%Z; reflexivity).
  exists y. split; [split; [|split]|].
  - intros r' R'. cbn [m_rows with_int] in R'. destruct (In_nth _ _ (Row [] None None) R') as (k & Lk & Ek).
    specialize (Fr r' R').
    assert (V : value (r_form r') y == value (r_form r') x).
    { destruct (Nat.eq_dec k i) as [->|Nk].
      - fold (mk_row m i) in Ek. fold r in Ek. subst r'. exact Vr.
      - assert (X1 : ~ In j (map fst (r_form r'))).
        { intro I. subst r'. pose proof (count_one j (m_rows m) k i Lk L Nk I) as Q.
          assert (In j (map fst (r_form r))) by (apply in_map_iff; exists (j, a); auto).
          specialize (Q H). lia. }
        assert (X2 : ~ In j2 (map fst (r_form r'))).
        { intro I. subst r'. pose proof (count_one j2 (m_rows m) k i Lk L Nk I) as Q.
          assert (In j2 (map fst (r_form r))) by (apply in_map_iff; exists (j2, a2); auto).
          specialize (Q H). lia. }
        unfold y. rewrite !value_upd by assumption. reflexivity. }
    destruct Fr as [F1 F2]. split.
    + destruct (r_lo r'); [|exact Logic.I]. cbn in *. lra.
    + destruct (r_hi r'); [|exact Logic.I]. cbn in *. lra.
  - intros k Lk. specialize (Fb k Lk). cbn [m_clo m_chi with_int] in *.
    destruct (Nat.eq_dec k j) as [->|K1]; [|destruct (Nat.eq_dec k j2) as [->|K2]].
    + rewrite Y1. destruct Fb as [F1 F2]. split.
      * unfold is_zero in Z1. destruct (m_clo m j) as [q|]; [|discriminate Z1]. qb. cbn. lra.
      * destruct (m_chi m j); [|exact Logic.I]. cbn in *. lra.
    + rewrite Y2. destruct Fb as [F1 F2]. split.
      * unfold is_zero in Z2. destruct (m_clo m j2) as [q|]; [|discriminate Z2]. qb. cbn. lra.
      * destruct (m_chi m j2); [|exact Logic.I]. cbn in *. lra.
    + rewrite (Yk k K1 K2). exact Fb.
  - intros k Lk Mk. cbn [m_int with_int] in Mk. rewrite M in Mk.
    destruct (Nat.eqb_spec k j2) as [->|K2]; [|destruct (Nat.eqb_spec k j) as [->|K1]].
    + rewrite Y2. destruct D3 as [D3|D3]; [|now apply (integral_eq 0)].
      apply (integral_eq (0 - (x j - x j2))); [lra|]. now apply integral_minus.
    + rewrite Y1. destruct D3 as [D3|D3]; [now apply (integral_eq 0)|].
      apply (integral_eq (x j - x j2)); [lra|exact Id].
    + rewrite (Yk k K1 K2). apply Fi; [exact Lk|]. cbn [orb] in Mk. exact Mk.
  - unfold y. rewrite (cost_upd m obj _ j2 _ L2), (cost_upd m obj x j _ L1).
    unfold upd_pt at 1. destruct (Nat.eqb_spec j2 j); [congruence|].
    assert (X : 0 <= dir * (obj j + obj j2) * d) by (apply Qmult_le_0_compat; assumption).
    assert (Y : dir * (cost (m_ncols m) obj x + obj j * (x j - d - x j) + obj j2 * (x j2 - d - x j2)) ==
      dir * cost (m_ncols m) obj x - dir * (obj j + obj j2) * d) by ring.
    rewrite Y. lra.
Qed.

Lemma row_try_ok s i s' : good m s -> (i < length (m_rows m))%nat ->
  row_try m obj dir s i = Done s' -> good m s' /\ covers m obj dir s s'.
Proof.
  intros G L E. destruct (Nat.eq_dec (length (cont_part m s (r_form (mk_row m i)))) 2) as [Q|Q].
  2:{ rewrite row_try_single in E by exact Q. eapply row_step_ok; eauto. }
  unfold row_try in E.
  assert (Dn : forall t, Done s = Done t -> good m t /\ covers m obj dir s t).
  { intros t H. apply Done_inj in H. subst t. split; [exact G|apply covers_refl]. }
  destruct (all_integer m s (mk_row m i)) eqn:A; [|now apply Dn].
  destruct (cont_part m s (r_form (mk_row m i))) as [|[j a] [|[j2 a2] [|]]] eqn:C; try discriminate Q.
  destruct (_ && _) eqn:T; [|now apply Dn]. qb.
  destruct (mark m s j) as [s1| | | |] eqn:E1; try discriminate E. cbn [bind] in E.
  apply mark_done in E1, E. destruct E1 as (M1 & G1 & _), E as (M2 & G2 & _).
  assert (M : forall k, mk_int s' k = Nat.eqb k j2 || (Nat.eqb k j || mk_int s k)).
  { intro k. rewrite M2, M1. reflexivity. }
  unfold equality in *. destruct (r_lo (mk_row m i)) as [l|] eqn:El; [|congruence].
  destruct (r_hi (mk_row m i)) as [u|] eqn:Eu; [|congruence]. qb.
  split.
  - apply (good_step m s); [exact G| |congruence]. intros k H'. rewrite M, H'. now rewrite !orb_true_r.
  - eapply (pair_covers s i s' j a j2 a2 l u); eauto; now apply Nat.eqb_eq.
Qed.
Lemma try_ok s s' : good m s -> one_try m obj dir s = Done s' -> good m s' /\ covers m obj dir s s'.
Proof.
  intros G E. unfold one_try in E.
  destruct (ofold (row_try m obj dir) _ s) as [t| | | |] eqn:F; try discriminate E. cbn [bind] in E.
  destruct (fold_ok m obj dir (row_try m obj dir) (seq 0 (length (m_rows m))) s t) with (2 := G) (3 := F) as [Gt Ct].
  { intros u i u' I Gu Eu. apply in_seq in I. apply (row_try_ok u i u'); auto. lia. }
  destruct (fold_ok m obj dir (col_step m) (seq 0 (m_ncols m)) t s') with (2 := Gt) (3 := E) as [G' C'].
  { intros u i u' I Gu Eu. apply in_seq in I. apply (col_step_ok m obj dir wf gd u i u'); auto. lia. }
  split; [exact G'|]. eapply covers_trans; eauto.
Qed.
Lemma tries_ok : forall fuel s s', good m s -> tries fuel m obj dir s = Done s' -> good m s' /\ covers m obj dir s s'.
Proof.
  induction fuel as [|f IH]; intros s s' G E; [discriminate E|]. cbn [tries] in E.
  destruct (one_try m obj dir s) as [t| | | |] eqn:F; try discriminate E. cbn [bind] in E.
  destruct (try_ok s t G F) as [Gt Ct].
  destruct (Nat.eqb _ _); [apply Done_inj in E; subst; auto|].
  destruct (IH t s' Gt E) as [G' C']. split; [exact G'|]. eapply covers_trans; eauto.
Qed.
End Problem.
