(** * Lemmas about the odd hole separation *)

From Coq Require Import Permutation Qabs.
From Verif Require Import Base Model_Clique Proofs_Clique Model_OddHole.
Local Open Scope Q_scope.

(** ** Sums *)
Definition sumf (x : nat -> Q) (l : list nat) : Q := fold_right (fun j s => x j + s) 0 l.
Lemma sumf_app x a b : sumf x (a ++ b) == sumf x a + sumf x b.
Proof. induction a; simpl; [lra|]. rewrite IHa. lra. Qed.
Lemma sumf_integral x l : (forall j, In j l -> integral (x j)) -> integral (sumf x l).
Proof.
  induction l as [|a l IH]; simpl; intro H; [exists 0%Z; reflexivity|].
  apply integral_plus; [apply H; left; reflexivity|]. apply IH. intros; apply H; right; assumption.
Qed.
Lemma sumf_nonneg x l : (forall j, In j l -> 0 <= x j) -> 0 <= sumf x l.
Proof.
  induction l as [|a l IH]; simpl; intro H; [lra|].
  assert (0 <= x a) by (apply H; left; reflexivity).
  assert (0 <= sumf x l) by (apply IH; intros; apply H; right; assumption). lra.
Qed.
Lemma sumf_ge x l a : (forall j, In j l -> 0 <= x j) -> In a l -> x a <= sumf x l.
Proof.
  induction l as [|b l IH]; simpl; intros H Ha; [tauto|].
  assert (0 <= x b) by (apply H; left; reflexivity).
  assert (0 <= sumf x l) by (apply sumf_nonneg; intros; apply H; right; assumption).
  destruct Ha as [->|Ha]; [lra|]. assert (x a <= sumf x l) by (apply IH; auto). lra.
Qed.

Definition wsum (c : nat -> Z) (x : nat -> Q) (l : list nat) : Q :=
  fold_right (fun j s => inject_Z (c j) * x j + s) 0 l.
Lemma wsum_ext c c' x l : (forall j, In j l -> c j = c' j) -> wsum c x l = wsum c' x l.
Proof.
  induction l as [|a l IH]; simpl; intro H; [reflexivity|].
  rewrite (H a) by auto. rewrite IH; auto.
Qed.
Lemma wsum_bump c x l a : NoDup l -> In a l ->
  wsum (fun j => if Nat.eq_dec a j then c j + 1 else c j)%Z x l == wsum c x l + x a.
Proof.
  induction l as [|b l IH]; simpl; intros ND Ha; [tauto|]. inversion ND; subst.
  destruct (Nat.eq_dec a b) as [->|D].
  - rewrite inject_Z_plus. change (inject_Z 1) with 1. rewrite (wsum_ext _ c); [lra|].
    intros j Hj. destruct (Nat.eq_dec b j); [subst; contradiction|reflexivity].
  - destruct Ha as [Ha|Ha]; [congruence|]. rewrite IH by assumption. lra.
Qed.
Lemma wsum_count x s l : NoDup s -> incl l s -> wsum (fun j => count j l) x s == sumf x l.
Proof.
  intro ND. induction l as [|a l IH]; intro I.
  - cbn [sumf fold_right]. clear. induction s as [|b s IH]; cbn [wsum fold_right]; [reflexivity|]. fold (wsum (fun j => count j []) x s). rewrite IH. change (inject_Z (count b [])) with 0. lra.
  - assert (Ha : In a s) by (apply I; left; reflexivity).
    rewrite (wsum_ext _ (fun j => if Nat.eq_dec a j then count j l + 1 else count j l)%Z).
    + rewrite wsum_bump by assumption. rewrite IH by (intros j Hj; apply I; right; exact Hj). simpl. lra.
    + intros j _. unfold count. simpl. destruct (Nat.eq_dec a j); [|reflexivity]. lia.
Qed.
Lemma wsum_le c d x l : (forall j, In j l -> (c j <= d j)%Z) -> (forall j, In j l -> 0 <= x j) ->
  wsum c x l <= wsum d x l.
Proof.
  induction l as [|a l IH]; simpl; intros H X; [lra|].
  assert (inject_Z (c a) <= inject_Z (d a)) by (rewrite <- Zle_Qle; apply H; left; reflexivity).
  assert (0 <= x a) by (apply X; left; reflexivity).
  assert (wsum c x l <= wsum d x l) by (apply IH; intros; [apply H|apply X]; right; assumption).
  nra.
Qed.
Lemma wsum_double c x l : wsum (fun j => 2 * c j)%Z x l == 2 * wsum c x l.
Proof. induction l as [|a l IH]; cbn [wsum fold_right]; [lra|]. fold (wsum c x l) in *. unfold wsum in IH at 1. rewrite IH, inject_Z_mult. change (inject_Z 2) with 2. lra. Qed.
Lemma wsum_integral c x l : (forall j, In j l -> integral (x j)) -> integral (wsum c x l).
Proof.
  induction l as [|a l IH]; simpl; intro H; [exists 0%Z; reflexivity|].
  apply integral_plus; [apply integral_mult; [exists (c a); reflexivity|apply H; left; reflexivity]|].
  apply IH. intros; apply H; right; assumption.
Qed.

(** ** First appearances *)
Lemma first_seen_gen l acc : NoDup acc ->
  let r := fold_left (fun acc j => if mem j acc then acc else acc ++ [j]) l acc in
  NoDup r /\ (forall j, In j r <-> In j acc \/ In j l).
Proof.
  revert acc. induction l as [|a l IH]; simpl; intros acc ND; [split; [exact ND|intro; tauto]|].
  destruct (mem a acc) eqn:E.
  - apply mem_in in E. destruct (IH acc ND) as [I1 I2]. split; [exact I1|].
    intro j. rewrite I2. intuition subst; auto.
  - assert (ND' : NoDup (acc ++ [a])).
    { apply nodup_app; [exact ND|repeat constructor; intros []|].
      intros b Hb [<-|[]]. apply mem_in in Hb. congruence. }
    destruct (IH _ ND') as [I1 I2]. split; [exact I1|].
    intro j. rewrite I2, in_app_iff. simpl. intuition.
Qed.
Lemma first_seen_nodup l : NoDup (first_seen l).
Proof. apply (first_seen_gen l []). constructor. Qed.
Lemma first_seen_in l j : In j (first_seen l) <-> In j l.
Proof. unfold first_seen. destruct (first_seen_gen l [] (NoDup_nil _)) as [_ H]. rewrite H. simpl. tauto. Qed.

Lemma value_filter_map (c : nat -> Z) x l :
  value (filter (fun ja => negb (Qeq_bool (snd ja) 0)) (map (fun j => (j, inject_Z (c j))) l)) x == wsum c x l.
Proof.
  induction l as [|a l IH]; [reflexivity|]. simpl. destruct (Qeq_bool _ 0) eqn:E; simpl; rewrite IH; [|reflexivity].
  apply Qeqb_eq in E. rewrite E. lra.
Qed.

Lemma integer_half (w : Q) (n : Z) : integral w -> 2 * w <= inject_Z n -> w <= inject_Z (Z.shiftr n 1).
Proof.
  intros [z Hz] H. rewrite Hz in *. rewrite Z.shiftr_div_pow2 by lia. change (2 ^ 1)%Z with 2%Z.
  rewrite <- Zle_Qle. change 2 with (inject_Z 2) in H. rewrite <- inject_Z_mult, <- Zle_Qle in H.
  apply Z.div_le_lower_bound; lia.
Qed.
Lemma integer_half_up (w : Q) (n : Z) : integral w -> inject_Z n <= 2 * w -> Z.odd n = true ->
  inject_Z (Z.shiftr n 1 + 1) <= w.
Proof.
  intros [z Hz] H O. rewrite Hz in *. rewrite Z.shiftr_div_pow2 by lia. change (2 ^ 1)%Z with 2%Z.
  rewrite <- Zle_Qle. change 2 with (inject_Z 2) in H. rewrite <- inject_Z_mult, <- Zle_Qle in H.
  apply Z.odd_spec in O as [k ->]. rewrite (Z.mul_comm 2 k), Z.div_add_l by lia. change (1 / 2)%Z with 0%Z. lia.
Qed.

Section Solver.
  Variable m : mip.
  Variable x : nat -> Q.
  Variable dj : nat -> Q.

  (** ** Row sums *)
  Definition row_cols (r : nat) : list nat := map fst (r_form (row_of m r)).

  Lemma all_entries_sum y rows : sumf y (all_entries m rows) == fold_right (fun r s => sumf y (row_cols r) + s) 0 rows.
  Proof.
    unfold all_entries, row_cols. induction rows as [|r rows IH]; simpl; [reflexivity|].
    rewrite sumf_app, IH. lra.
  Qed.
  Lemma all_entries_le y rows : (forall r, In r rows -> sumf y (row_cols r) <= 1) ->
    sumf y (all_entries m rows) <= inject_Z (Z.of_nat (length rows)).
  Proof.
    intro H. rewrite all_entries_sum. induction rows as [|r rows IH]; [simpl; unfold Qle; simpl; lia|].
    cbn [fold_right length]. rewrite Nat2Z.inj_succ. unfold Z.succ. rewrite inject_Z_plus. change (inject_Z 1) with 1.
    specialize (H r (or_introl eq_refl)) as H1.
    assert (fold_right (fun r s => sumf y (row_cols r) + s) 0 rows <= inject_Z (Z.of_nat (length rows))) by (apply IH; intros; apply H; right; assumption).
    lra.
  Qed.
  Lemma all_entries_ge y rows : (forall r, In r rows -> 1 <= sumf y (row_cols r)) ->
    inject_Z (Z.of_nat (length rows)) <= sumf y (all_entries m rows).
  Proof.
    intro H. rewrite all_entries_sum. induction rows as [|r rows IH]; [simpl; unfold Qle; simpl; lia|].
    cbn [fold_right length]. rewrite Nat2Z.inj_succ. unfold Z.succ. rewrite inject_Z_plus. change (inject_Z 1) with 1.
    specialize (H r (or_introl eq_refl)) as H1.
    assert (inject_Z (Z.of_nat (length rows)) <= fold_right (fun r s => sumf y (row_cols r) + s) 0 rows) by (apply IH; intros; apply H; right; assumption).
    lra.
  Qed.
  Lemma in_all_entries j rows : In j (all_entries m rows) <-> exists r, In r rows /\ In j (row_cols r).
  Proof. unfold all_entries. apply in_flat_map. Qed.

  (** The halved sum of packing rows. *)
  Lemma halved_packing y rows :
    (forall r, In r rows -> sumf y (row_cols r) <= 1) ->
    (forall r j, In r rows -> In j (row_cols r) -> integral (y j) /\ 0 <= y j) ->
    value (halved m true rows) y <= cut_rhs true rows.
  Proof.
    intros H I. unfold halved, cut_rhs. cbv zeta. rewrite Z.add_0_r.
    rewrite (value_filter_map (fun j => Z.shiftr (count j (all_entries m rows) + 0) 1)).
    set (l := all_entries m rows).
    assert (I' : forall j, In j (first_seen l) -> integral (y j) /\ 0 <= y j).
    { intros j Hj. apply first_seen_in, in_all_entries in Hj as (r & Hr & Hj). eapply I; eauto. }
    apply integer_half; [apply wsum_integral; intros j Hj; apply (I' j Hj)|].
    rewrite <- wsum_double.
    apply Qle_trans with (sumf y l); [|apply all_entries_le; exact H].
    rewrite <- (wsum_count y (first_seen l) l (first_seen_nodup l)) by (intros j Hj; apply first_seen_in; exact Hj).
    apply wsum_le; [|intros j Hj; apply (I' j Hj)].
    intros j _. rewrite Z.add_0_r, Z.shiftr_div_pow2 by lia. change (2 ^ 1)%Z with 2%Z. apply Z.mul_div_le. lia.
  Qed.
  Lemma halved_covering y rows :
    (forall r, In r rows -> 1 <= sumf y (row_cols r)) ->
    (forall r j, In r rows -> In j (row_cols r) -> integral (y j) /\ 0 <= y j) ->
    Z.odd (Z.of_nat (length rows)) = true ->
    cut_rhs false rows <= value (halved m false rows) y.
  Proof.
    intros H I O. unfold halved, cut_rhs. cbv zeta.
    rewrite (value_filter_map (fun j => Z.shiftr (count j (all_entries m rows) + 1) 1)).
    set (l := all_entries m rows).
    assert (I' : forall j, In j (first_seen l) -> integral (y j) /\ 0 <= y j).
    { intros j Hj. apply first_seen_in, in_all_entries in Hj as (r & Hr & Hj). eapply I; eauto. }
    apply integer_half_up; [apply wsum_integral; intros j Hj; apply (I' j Hj)| |exact O].
    rewrite <- wsum_double.
    apply Qle_trans with (sumf y l); [apply all_entries_ge; exact H|].
    rewrite <- (wsum_count y (first_seen l) l (first_seen_nodup l)) by (intros j Hj; apply first_seen_in; exact Hj).
    apply wsum_le; [|intros j Hj; apply (I' j Hj)].
    intros j _. rewrite Z.shiftr_div_pow2 by lia. change (2 ^ 1)%Z with 2%Z.
    pose proof (Z.div_mod (count j l + 1) 2 ltac:(lia)). pose proof (Z.mod_pos_bound (count j l + 1) 2 ltac:(lia)). lia.
  Qed.

  (** Members and coefficients of the halved sum. *)
  Lemma halved_in packed rows j c : In (j, c) (halved m packed rows) ->
    0 <= c /\ exists r, In r rows /\ In j (row_cols r).
  Proof.
    unfold halved. cbv zeta. intro H. apply filter_In in H as [H _]. apply in_map_iff in H as (k & E & Hk).
    injection E as -> <-. split.
    - change 0 with (inject_Z 0). rewrite <- Zle_Qle. rewrite Z.shiftr_div_pow2 by lia.
      apply Z.div_pos; [|lia]. unfold count. destruct packed; lia.
    - apply first_seen_in, in_all_entries in Hk. exact Hk.
  Qed.

  (** Dropping terms of a nonnegative sum. *)
  Lemma value_firstn_le (v : vec) y k : (forall j c, In (j, c) v -> 0 <= c * y j) ->
    value (firstn k v) y <= value v y.
  Proof.
    revert k. induction v as [|[j c] v IH]; intros [|k] H; simpl; try lra.
    - specialize (H j c (or_introl eq_refl)) as H1.
      assert (0 <= value v y) by (apply value_nonneg; intros; apply H; right; assumption). lra.
    - assert (value (firstn k v) y <= value v y) by (apply IH; intros; apply H; right; assumption). lra.
  Qed.
  Lemma shortened_perm prm sorter v : (forall l, Permutation (sorter l) l) ->
    exists w, Permutation w v /\
      shortened m x dj prm sorter v = firstn (Z.to_nat (Z.min (Z.of_nat (length v)) (oh_maxEntries prm))) w.
  Proof.
    intro SP. unfold shortened. cbv zeta. rewrite <- firstn_map.
    eexists. split; [|reflexivity].
    rewrite (Permutation_map _ (SP _)). rewrite map_map. simpl.
    rewrite (map_ext _ (fun p => p)) by (intros [j c]; reflexivity). rewrite map_id. reflexivity.
  Qed.

  (** ** Arcs lie in suitable rows *)
  Lemma fold_entries_rows packed suit i r l acc : (0 < nth r suit 0%Z)%Z -> (r < length (m_rows m))%nat ->
    (forall a, In a acc -> (0 < nth (snd a) suit 0%Z)%Z /\ (snd a < length (m_rows m))%nat) ->
    forall a, In a (fold_left (add_entry m x packed i r) l acc) ->
      (0 < nth (snd a) suit 0%Z)%Z /\ (snd a < length (m_rows m))%nat.
  Proof.
    intros H1 H2. revert acc. induction l as [|e l IH]; simpl; intros acc H; [exact H|].
    apply IH. unfold add_entry. destruct (_ && _ && _); [|exact H].
    intros a Ha. apply in_app_or in Ha as [Ha|[<-|[]]]; [auto|]. simpl. auto.
  Qed.
  Lemma arcs_of_rows packed suit i a : In a (arcs_of m x packed suit i) ->
    (0 < nth (snd a) suit 0%Z)%Z /\ (snd a < length (m_rows m))%nat.
  Proof.
    unfold arcs_of.
    assert (G : forall l acc, (forall r, In r l -> (r < length (m_rows m))%nat) ->
       (forall a, In a acc -> (0 < nth (snd a) suit 0%Z)%Z /\ (snd a < length (m_rows m))%nat) ->
       forall a, In a (fold_left (fun acc r =>
          if (0 <? nth r suit 0%Z)%Z && has_entry (row_of m r) i
          then fold_left (add_entry m x packed i r) (r_form (row_of m r)) acc else acc) l acc) ->
       (0 < nth (snd a) suit 0%Z)%Z /\ (snd a < length (m_rows m))%nat).
    { induction l as [|r l IH]; simpl; intros acc R H; [exact H|].
      apply IH; [auto|]. destruct (_ && _) eqn:E; [|exact H].
      apply andb_true_iff in E as [E _]. apply Z.ltb_lt in E. apply fold_entries_rows; auto. }
    apply G; [intros r Hr; apply in_seq in Hr; lia|intros ? []].
  Qed.
  Lemma arc_row_ok packed suit v w r : arc_row m x packed suit v w = Some r ->
    (0 < nth r suit 0%Z)%Z /\ (r < length (m_rows m))%nat.
  Proof.
    unfold arc_row. destruct (find _ _) as [a|] eqn:E; [|discriminate]. intro H. injection H as <-.
    apply find_some in E as [E _]. unfold arcs in E. apply in_map_iff in E as (b & <- & Hb). simpl.
    apply (arcs_of_rows packed suit _ _ Hb).
  Qed.
  Lemma found_in l r : In r (found l) <-> In (Some r) l.
  Proof.
    unfold found. rewrite in_flat_map. split.
    - intros ([q|] & H & Hq); [destruct Hq as [->|[]]; exact H|destruct Hq].
    - intro H. exists (Some r). split; [exact H|left; reflexivity].
  Qed.
  Lemma cycle_rows_ok packed suit cand r : In r (found (cycle_rows m x packed suit cand)) ->
    (0 < nth r suit 0%Z)%Z /\ (r < length (m_rows m))%nat.
  Proof.
    rewrite found_in. induction cand as [|w [|v rest] IH]; [intros []|intros []|].
    change (cycle_rows m x packed suit (w :: v :: rest)) with (cycle_rows m x packed suit (v :: rest) ++ [arc_row m x packed suit v w]).
    intro H. apply in_app_or in H as [H|[H|[]]]; [auto|]. eapply arc_row_ok; eauto.
  Qed.

  (** ** Every recorded cut comes from an odd list of suitable rows *)
  Definition from_rows (packed : bool) (suit : list Z) (prm : ohole) sorter (c : rowcut) : Prop :=
    exists rows v, (forall r, In r rows -> (0 < nth r suit 0%Z)%Z /\ (r < length (m_rows m))%nat) /\
      Z.odd (Z.of_nat (length rows)) = true /\
      cycle_cut m x dj packed prm sorter rows = Some v /\
      c = cut_of packed v (cut_rhs packed rows).

  Lemma one_start_spec packed suit prm check sorter fuel icol acc acc' :
    one_start m x dj packed suit prm check sorter fuel icol acc = Done acc' ->
    forall c, In c (fst acc') -> In c (fst acc) \/ from_rows packed suit prm sorter c.
  Proof.
    intros E c Hc. unfold one_start in E. apply bind_done in E as (st & _ & E).
    destruct (_ <? _); [|apply Done_inj in E; subst; auto].
    apply bind_done in E as (cand & _ & E). cbv zeta in E.
    destruct (Nat.ltb _ _); [discriminate|].
    destruct (_ || _) eqn:O; [apply Done_inj in E; subst; auto|].
    apply orb_false_iff in O as [_ O]. apply negb_false_iff in O.
    destruct (cycle_cut _ _ _ _ _ _ _) as [v|] eqn:V; [|apply Done_inj in E; subst; auto].
    destruct (existsb _ _); apply Done_inj in E; subst; [auto|]. simpl in Hc.
    apply insert_new_in in Hc as [Hc| ->]; [auto|]. right.
    eexists _, v. conjs; [|exact O|exact V|reflexivity].
    intros r Hr. apply (cycle_rows_ok _ _ _ _ Hr).
  Qed.
  Lemma separate_spec packed suit prm check sorter fuel cs cs' :
    separate m x dj packed suit prm check sorter fuel cs = Done cs' ->
    forall c, In c cs' -> In c cs \/ from_rows packed suit prm sorter c.
  Proof.
    intros E. unfold separate in E. apply bind_done in E as (r & E & E2). apply Done_inj in E2. subst.
    revert E. apply (ofold_inv (fun acc => forall c, In c (fst acc) -> In c cs \/ from_rows packed suit prm sorter c)).
    - intros s i s' _ H E c Hc. destruct (one_start_spec _ _ _ _ _ _ _ _ _ E c Hc) as [H'|H']; auto.
    - auto.
  Qed.

  (** ** The path search ends *)
  Section Path.
    Variable packed : bool.
    Variable suit : list Z.
    Notation arcs := (arcs m x packed suit).
    Notation relax := relax.
    Notation shortest := (shortest m x packed suit).
    Variable n : nat.                     (* all arcs end in columns below n *)
    Hypothesis arcs_lt : forall v a, In a (arcs v) -> (snd (fst (fst a)) < n)%nat.

    Lemma node_eqb_eq a b : node_eqb a b = true <-> a = b.
    Proof.
      unfold node_eqb. destruct a as [s i], b as [t j]. simpl. rewrite andb_true_iff, Bool.eqb_true_iff, Nat.eqb_eq.
      split; [intros [-> ->]; reflexivity|intro H; injection H; auto].
    Qed.
    Lemma node_eqb_refl a : node_eqb a a = true.
    Proof. apply node_eqb_eq. reflexivity. Qed.
    Lemma upd_same {A} (f : node -> A) v a : upd f v a v = a.
    Proof. unfold upd. rewrite node_eqb_refl. reflexivity. Qed.
    Lemma upd_other {A} (f : node -> A) v a w : v <> w -> upd f v a w = f w.
    Proof.
      intro H. unfold upd. destruct (node_eqb v w) eqn:E; [apply node_eqb_eq in E; contradiction|reflexivity].
    Qed.

    Lemma arc_cost_pos i j : 1 # 10000000000 <= arc_cost m x packed i j.
    Proof. unfold arc_cost. cbv zeta. destruct (_ <? 1 # 10000000000) eqn:E; qb; lra. Qed.
    Lemma arcs_of_cost i a : In a (arcs_of m x packed suit i) -> snd (fst a) = arc_cost m x packed i (fst (fst a)).
    Proof.
      unfold arcs_of.
      assert (G : forall l acc, (forall a, In a acc -> snd (fst a) = arc_cost m x packed i (fst (fst a))) ->
         forall a, In a (fold_left (fun acc r =>
            if (0 <? nth r suit 0%Z)%Z && has_entry (row_of m r) i
            then fold_left (add_entry m x packed i r) (r_form (row_of m r)) acc else acc) l acc) ->
         snd (fst a) = arc_cost m x packed i (fst (fst a))).
      { induction l as [|r l IH]; simpl; intros acc H; [exact H|]. apply IH.
        destruct (_ && _); [|exact H]. clear IH.
        generalize (r_form (row_of m r)). intro f. revert acc H. induction f as [|e f IHf]; simpl; intros acc H; [exact H|].
        apply IHf. unfold add_entry. destruct (_ && _ && _); [|exact H].
        intros b Hb. apply in_app_or in Hb as [Hb|[<-|[]]]; [auto|reflexivity]. }
      apply G. intros ? [].
    Qed.
    Lemma arcs_cost v a : In a (arcs v) -> 1 # 10000000000 <= snd (fst a).
    Proof.
      intro H. unfold Model_OddHole.arcs in H. apply in_map_iff in H as (b & <- & Hb). simpl.
      rewrite (arcs_of_cost _ _ Hb). apply arc_cost_pos.
    Qed.
    Lemma arcs_side v a : In a (arcs v) -> fst (fst (fst a)) = negb (fst v).
    Proof. intro H. apply in_map_iff in H as (b & <- & Hb). reflexivity. Qed.

    Variable icol : nat.
    Hypothesis icol_lt : (icol < n)%nat.

    Definition pinv (st : pstate) : Prop :=
      (forall v, 0 <= p_cost st v) /\
      (forall it, In it (p_stack st) -> fst it = p_cost st (snd it) /\ (snd (snd it) < n)%nat) /\
      (forall v w, p_back st v = Some w ->
         exists a, In a (arcs w) /\ fst (fst a) = v /\ p_cost st w + snd (fst a) <= p_cost st v) /\
      (forall v, p_back st v = None -> v = (false, icol) \/ p_cost st v = big) /\
      p_back st (false, icol) = None /\ p_cost st (false, icol) = 0.

    Definition nodes : list node := list_prod [false; true] (seq 0 n).
    Lemma in_nodes v : (snd v < n)%nat -> In v nodes.
    Proof.
      intro H. destruct v as [s i]. apply in_prod; [destruct s; simpl; auto|]. apply in_seq. simpl in H. lia.
    Qed.
    Definition level (q : Q) : nat := Z.to_nat (Qfloor (q * inject_Z (10 ^ 12))).
    Lemma level_drop a b : 0 <= a -> a < b - (1 # 1000000000000) -> (level a < level b)%nat.
    Proof.
      intros A H. unfold level.
      pose proof (Qfloor_le (a * inject_Z (10 ^ 12))) as L1.
      pose proof (Qlt_floor (b * inject_Z (10 ^ 12))) as L2. rewrite inject_Z_plus in L2.
      change (inject_Z (10 ^ 12)) with 1000000000000 in *. change (inject_Z 1) with 1 in *.
      set (fa := Qfloor (a * 1000000000000)) in *. set (fb := Qfloor (b * 1000000000000)) in *.
      assert (0 <= fa)%Z.
      { unfold fa. change 0%Z with (Qfloor 0). apply Qfloor_resp_le. nra. }
      assert (X : inject_Z fa < inject_Z fb).
      { lra. }
      rewrite <- Zlt_Qlt in X. lia.
    Qed.
    Fixpoint potential (f : node -> Q) (l : list node) : nat :=
      match l with [] => 0%nat | v :: l' => (level (f v) + potential f l')%nat end.
    Lemma potential_drop f v q l : In v l -> (level q < level (f v))%nat ->
      (potential (upd f v q) l < potential f l)%nat.
    Proof.
      assert (G : forall l, (level q < level (f v))%nat ->
        (potential (upd f v q) l <= potential f l)%nat /\ (In v l -> (potential (upd f v q) l < potential f l)%nat)).
      { clear l. intros l H. induction l as [|w l [I1 I2]]; simpl; [split; [lia|tauto]|].
        destruct (node_eqb v w) eqn:E.
        - apply node_eqb_eq in E. subst w. rewrite upd_same. split; [lia|]. intros _. lia.
        - assert (v <> w) by (intro; subst; rewrite node_eqb_refl in E; discriminate).
          rewrite upd_other by assumption. split; [lia|]. intros [D|D]; [congruence|]. specialize (I2 D). lia. }
      intros H1 H2. apply G; assumption.
    Qed.
    Definition weight (st : pstate) : nat := (2 * potential (p_cost st) nodes + length (p_stack st))%nat.

    Lemma on_stack_false st v : on_stack st v = false -> forall it, In it (p_stack st) -> snd it <> v.
    Proof.
      unfold on_stack. intros H it Hit E. subst.
      assert (existsb (fun it0 => node_eqb (snd it) (snd it0)) (p_stack st) = true).
      { apply existsb_exists. exists it. split; [exact Hit|apply node_eqb_refl]. }
      congruence.
    Qed.

    Lemma relax_inv v c st a : pinv st -> p_cost st v = c -> In a (arcs v) ->
      pinv (relax v c st a) /\ p_cost (relax v c st a) v = c /\ (weight (relax v c st a) <= weight st)%nat.
    Proof.
      intros (I1 & I2 & I3 & I4 & I5 & I6) Hc Ha.
      pose proof (arcs_cost _ _ Ha) as Pa. pose proof (arcs_side _ _ Ha) as Sa. pose proof (arcs_lt _ _ Ha) as La.
      destruct a as [[j d] r]. simpl in Pa, Sa, La. unfold relax.
      destruct (negb _ && _) eqn:E; [|split; [unfold pinv; conjs; auto|split; [exact Hc|lia]]].
      apply andb_true_iff in E as [E1 E2]. apply negb_true_iff in E1. qb.
      assert (C0 : 0 <= c) by (rewrite <- Hc; apply I1).
      assert (Njv : j <> v) by (intro; subst; destruct v as [[] ?]; discriminate).
      assert (Njs : j <> (false, icol)) by (intro; subst j; rewrite I6 in E2; lra).
      assert (Ltj : c + d < p_cost st j) by lra.
      split; [|split].
      - unfold pinv; simpl. conjs.
        + intro w. unfold upd. destruct (node_eqb j w); [lra|apply I1].
        + intros it [<-|Hit]; simpl.
          * rewrite upd_same. auto.
          * rewrite upd_other by (intro; eapply (on_stack_false st j E1 it Hit); auto). apply I2. exact Hit.
        + intros w u. unfold upd at 1. destruct (node_eqb j w) eqn:Ew.
          * apply node_eqb_eq in Ew. subst w. intro H. injection H as <-.
            exists (j, d, r). simpl. conjs; auto. rewrite upd_other by auto. rewrite upd_same, Hc. lra.
          * intro H. destruct (I3 w u H) as (b & B1 & B2 & B3). exists b. conjs; auto.
            assert (j <> w) by (intro; subst; rewrite node_eqb_refl in Ew; discriminate).
            rewrite (upd_other _ j _ w) by assumption.
            unfold upd. destruct (node_eqb j u) eqn:Eu; [|exact B3]. apply node_eqb_eq in Eu. subst u. lra.
        + intros w. unfold upd at 1. destruct (node_eqb j w) eqn:Ew; [discriminate|].
          assert (j <> w) by (intro; subst; rewrite node_eqb_refl in Ew; discriminate).
          rewrite upd_other by assumption. apply I4.
        + rewrite upd_other by assumption. exact I5.
        + rewrite upd_other by assumption. exact I6.
      - simpl. rewrite upd_other by auto. exact Hc.
      - unfold weight. simpl.
        assert (potential (upd (p_cost st) j (c + d)%Q) nodes < potential (p_cost st) nodes)%nat.
        { apply potential_drop; [apply in_nodes; exact La|]. apply level_drop; lra. }
        lia.
    Qed.
    Lemma relax_all v c l st : pinv st -> p_cost st v = c -> (forall a, In a l -> In a (arcs v)) ->
      pinv (fold_left (relax v c) l st) /\ (weight (fold_left (relax v c) l st) <= weight st)%nat.
    Proof.
      revert st. induction l as [|a l IH]; simpl; intros st I C H; [split; [exact I|lia]|].
      destruct (relax_inv v c st a I C (H a (or_introl eq_refl))) as (J1 & J2 & J3).
      destruct (IH _ J1 J2) as [K1 K2]; [auto|]. split; [exact K1|lia].
    Qed.

    Lemma shortest_total fuel st : pinv st -> (weight st < fuel)%nat ->
      exists st', shortest fuel st = Done st' /\ pinv st'.
    Proof.
      revert st. induction fuel as [|fuel IH]; intros st I W; [lia|]. simpl.
      destruct (p_stack st) as [|[c v] rest] eqn:E; [eauto|].
      pose proof I as (I1 & I2 & I3 & I4 & I5 & I6).
      assert (J : pinv (PState (p_cost st) (p_back st) rest)).
      { unfold pinv; simpl. conjs; auto. intros it Hit. apply I2. rewrite E. right. exact Hit. }
      destruct (I2 (c, v)) as [C _]; [rewrite E; left; reflexivity|]. simpl in C.
      destruct (relax_all v c (arcs v) _ J) as [K1 K2]; [simpl; congruence|auto|].
      apply IH; [exact K1|]. unfold weight in K2 at 2. simpl in K2. unfold weight in W. rewrite E in W. simpl in W. lia.
    Qed.
    Lemma big_ge : 1 <= big.
    Proof. apply Qle_bool_iff. vm_compute. reflexivity. Qed.
    Lemma start_inv : pinv (start icol).
    Proof.
      unfold pinv, start; simpl. conjs.
      - intro v. unfold upd. destruct (node_eqb _ _); [lra|]. pose proof big_ge; lra.
      - intros it [<-|[]]. simpl. rewrite upd_same. auto.
      - discriminate.
      - intros v _. unfold upd. destruct (node_eqb _ _) eqn:E; [left|right; reflexivity].
        apply node_eqb_eq in E. auto.
      - reflexivity.
      - apply upd_same.
    Qed.

    Lemma retrace_total st : pinv st -> forall fuel v cand marked,
      p_cost st v < 1 -> (level (p_cost st v) < fuel)%nat ->
      exists r, retrace fuel st icol v cand marked = Done r.
    Proof.
      intros (I1 & I2 & I3 & I4 & I5 & I6). induction fuel as [|fuel IH]; intros v cand marked L F; [lia|].
      simpl. destruct (node_eqb v (false, icol)) eqn:E; [eauto|].
      destruct (p_back st v) as [w|] eqn:B.
      - destruct (I3 v w B) as (a & A1 & A2 & A3). pose proof (arcs_cost _ _ A1) as P.
        assert (D : (level (p_cost st w) < level (p_cost st v))%nat) by (apply level_drop; [apply I1|lra]).
        destruct (mem (snd w) marked); apply IH; try lra; lia.
      - exfalso. destruct (I4 v B) as [->|H]; [rewrite node_eqb_refl in E; discriminate|].
        rewrite H in L. pose proof big_ge. lra.
    Qed.
  End Path.

  Lemma arcs_lt_wf packed suit v a : wf_mip m -> In a (arcs m x packed suit v) -> (snd (fst (fst a)) < m_ncols m)%nat.
  Proof.
    intros WF H. unfold arcs in H. apply in_map_iff in H as (b & <- & Hb). simpl.
    revert Hb. unfold arcs_of.
    assert (G : forall l acc, (forall r, In r l -> (r < length (m_rows m))%nat) ->
       (forall a, In a acc -> (fst (fst a) < m_ncols m)%nat) ->
       forall a, In a (fold_left (fun acc r =>
          if (0 <? nth r suit 0%Z)%Z && has_entry (row_of m r) (snd v)
          then fold_left (add_entry m x packed (snd v) r) (r_form (row_of m r)) acc else acc) l acc) ->
       (fst (fst a) < m_ncols m)%nat).
    { induction l as [|r l IH]; simpl; intros acc R H; [exact H|]. apply IH; [auto|].
      destruct (_ && _); [|exact H]. clear IH.
      assert (Hr : forall j c, In (j, c) (r_form (row_of m r)) -> (j < m_ncols m)%nat).
      { assert (Hin : In (row_of m r) (m_rows m)) by (apply nth_In; apply R; left; reflexivity).
        destruct (WF _ Hin) as [_ W]. exact W. }
      revert Hr acc H. generalize (r_form (row_of m r)). intro f.
      induction f as [|e f IHf]; simpl; intros Hr acc H; [exact H|].
      apply IHf; [intros; eapply Hr; right; eassumption|]. unfold add_entry. destruct (_ && _ && _); [|exact H].
      intros b' Hb. apply in_app_or in Hb as [Hb|[<-|[]]]; [auto|]. simpl. destruct e as [j c]. eapply Hr. left. reflexivity. }
    apply G; [intros r Hr; apply in_seq in Hr; lia|intros ? []].
  Qed.

  (** With enough steps one start column never runs out of them, and the
      only undefined behaviour is the overflow of the row list. *)
  Definition settled {A} (o : outcome A) : Prop := (exists a, o = Done a) \/ o = Undef OutOfBounds.
  Lemma one_start_total packed suit prm check sorter icol : wf_mip m -> (icol < m_ncols m)%nat ->
    exists N, forall fuel acc, (N <= fuel)%nat ->
      settled (one_start m x dj packed suit prm check sorter fuel icol acc).
  Proof.
    intros WF L.
    exists (S (weight (m_ncols m) (start icol)) + S (level 1))%nat. intros fuel acc F.
    unfold one_start.
    destruct (shortest_total packed suit (m_ncols m) (fun v a => arcs_lt_wf packed suit v a WF) icol L fuel (start icol))
      as (st & -> & I); [apply start_inv; assumption|lia|].
    cbn [bind]. destruct (_ <? 9999 # 10000) eqn:G; [|left; eauto]. qb.
    destruct (retrace_total packed suit (m_ncols m) icol L st I fuel (true, icol) [(true, icol)] []) as (cand & ->); [lra| |].
    { assert (level (p_cost st (true, icol)) < level 1)%nat; [|lia].
      apply (level_drop (m_ncols m) icol L); [apply I|lra]. }
    cbn [bind]. cbv zeta. unfold settled.
    destruct (Nat.ltb _ _); [right; reflexivity|]. left.
    destruct (_ || _); [eauto|]. destruct (cycle_cut _ _ _ _ _ _ _); [|eauto]. destruct (existsb _ _); eauto.
  Qed.
  Lemma separate_total packed suit prm check sorter : wf_mip m ->
    exists N, forall fuel cs, (N <= fuel)%nat ->
      settled (separate m x dj packed suit prm check sorter fuel cs).
  Proof.
    intro WF. unfold separate.
    assert (G : forall l, (forall i, In i l -> (i < m_ncols m)%nat) -> exists N, forall fuel acc, (N <= fuel)%nat ->
      settled (ofold (fun acc i => one_start m x dj packed suit prm check sorter fuel i acc) l acc)).
    { induction l as [|i l IH]; intro H; [exists 0%nat; intros; left; eexists; reflexivity|].
      assert (H0 : forall i, In i l -> (i < m_ncols m)%nat) by (intros; apply H; right; assumption).
      destruct (IH H0) as (N1 & H1).
      destruct (one_start_total packed suit prm check sorter i WF) as (N2 & H2); [apply H; left; reflexivity|].
      exists (N1 + N2)%nat. intros fuel acc F. simpl.
      destruct (H2 fuel acc) as [[a ->]| ->]; [lia| |right; reflexivity]. simpl. apply H1. lia. }
    destruct (G (filter (free m x) (seq 0 (m_ncols m)))) as (N & HN).
    { intros i Hi. apply filter_In in Hi as [Hi _]. apply in_seq in Hi. lia. }
    exists N. intros fuel cs F. destruct (HN fuel (cs, []) F) as [[a ->]| ->]; [left; eexists; reflexivity|right; reflexivity].
  Qed.
End Solver.
