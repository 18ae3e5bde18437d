(** * Pairs of columns found by analyze *)
From Verif Require Import Model_MakeInteger Model_Analyze Proofs_Analyze Props_Analyze.
Local Open Scope Q_scope.

(** An equality row with integer data but for two continuous columns of lower
    bound 0 with coefficients 1 and -1 which are in no other row. *)
Definition pair_row (m : mip) (r : row) (j1 j2 : nat) : Prop :=
  (exists l u, r_lo r = Some l /\ r_hi r = Some u /\ l == u /\ integral l) /\
  (forall k b, In (k, b) (r_form r) -> loose m k = true) /\
  (forall k b, In (k, b) (r_form r) -> k <> j1 -> k <> j2 -> m_int m k = true) /\
  (forall k b, In (k, b) (r_form r) -> integral b) /\
  (exists a1 a2, In (j1, a1) (r_form r) /\ In (j2, a2) (r_form r) /\ Qabs a1 == 1 /\ a1 * a2 == -1) /\
  j1 <> j2 /\
  (exists q, m_clo m j1 = Some q /\ q == 0) /\ (exists q, m_clo m j2 = Some q /\ q == 0) /\
  column_count (m_rows m) j1 = 1%nat /\ column_count (m_rows m) j2 = 1%nat.

Lemma unit_one a : Qabs a == 1 -> unit_like a = true.
Proof.
  intro H. unfold unit_like. apply andb_true_iff. split; apply Qltb_lt; [rewrite H; reflexivity|].
  rewrite dist_int_integral; [reflexivity|]. destruct (abs_one a H) as [E|E].
  - apply (integral_eq 1); [rewrite E; reflexivity|exists 1%Z; reflexivity].
  - apply (integral_eq (-1)); [rewrite E; reflexivity|exists (-1)%Z; reflexivity].
Qed.
Lemma mark_all m s j s' : mark m s j = Done s' -> mk_int s' j = true /\ forall k, mk_int s k = true -> mk_int s' k = true.
Proof.
  intro E. apply mark_done in E. destruct E as (M & _). split; [rewrite M, Nat.eqb_refl; reflexivity|].
  intros k H. rewrite M, H. apply orb_true_r.
Qed.
Lemma same_coef (v : vec) j a b : NoDup (map fst v) -> In (j, a) v -> In (j, b) v -> a = b.
Proof.
  induction v as [|[k c] v IH]; intros N I J; [destruct I|]. cbn [map fst] in N. inversion N as [|? ? N1 N2]; subst.
  destruct I as [I|I], J as [J|J].
  - congruence.
  - injection I as -> ->. exfalso. apply N1. apply in_map_iff. exists (j, b). auto.
  - injection J as -> ->. exfalso. apply N1. apply in_map_iff. exists (j, a). auto.
  - now apply IH.
Qed.
Lemma pair_step m obj dir s i j1 j2 s' : wf_mip m -> tidy m s -> (i < length (m_rows m))%nat ->
  pair_row m (mk_row m i) j1 j2 -> 0 <= dir * (obj j1 + obj j2) ->
  row_try m obj dir s i = Done s' -> later s s' -> mk_int s' j1 = true /\ mk_int s' j2 = true.
Proof.
  intros W T L (Eq & P1 & P2 & P3 & (a1 & a2 & I1 & I2 & A1 & A2) & Ne & Z1 & Z2 & C1 & C2) Ob E La.
  assert (R : In (mk_row m i) (m_rows m)) by (unfold mk_row; now apply nth_In).
  destruct Eq as (l & u & El & Eu & Elu & Il). unfold row_try in E. set (r := mk_row m i) in *. destruct (W r R) as [W1 W2].
  assert (Sm : sum_fixed m (r_form r) == 0).
  { unfold sum_fixed, fixed_part. replace (filter _ (r_form r)) with (@nil (nat * Q)); [reflexivity|].
    symmetry. clear - P1. induction (r_form r) as [|[k b] v IH]; [reflexivity|]. cbn [filter fst].
    rewrite (P1 k b) by now left. cbn [negb]. apply IH. intros q c I. apply (P1 q c). now right. }
  assert (A : all_integer m s r = true).
  { unfold all_integer. rewrite El, Eu. cbn [side_ok]. rewrite !andb_true_iff. split; [split|].
    - apply forallb_forall. intros [k b] I. unfold int_part in I. apply filter_In in I. destruct I as [I _].
      cbn [snd]. apply near_integral. now apply (P3 k b).
    - apply near_integral. apply (integral_eq l); [rewrite Sm; ring|exact Il].
    - apply near_integral. apply (integral_eq l); [rewrite Sm; lra|exact Il]. }
  rewrite A in E.
  assert (Q : equality r = true) by (unfold equality; rewrite El, Eu; now apply Qeq_bool_iff).
  assert (X : forall k b, In (k, b) (cont_part m s (r_form r)) <->
    In (k, b) (r_form r) /\ mk_int s k = false).
  { intros k b. unfold cont_part. rewrite filter_In. cbn [fst]. rewrite andb_true_iff, negb_true_iff. split.
    - tauto.
    - intros [I M]. split; [exact I|]. split; [now apply (P1 k b)|exact M]. }
  assert (Y : forall k b, In (k, b) (cont_part m s (r_form r)) ->
    (k = j1 /\ b = a1 /\ mk_int s j1 = false) \/ (k = j2 /\ b = a2 /\ mk_int s j2 = false)).
  { intros k b I. apply X in I. destruct I as [I M]. destruct (Nat.eq_dec k j1) as [->|K1].
    - left. split; [reflexivity|]. split; [|exact M]. now apply (same_coef (r_form r) j1).
    - destruct (Nat.eq_dec k j2) as [->|K2].
      + right. split; [reflexivity|]. split; [|exact M]. now apply (same_coef (r_form r) j2).
      + exfalso. assert (mk_int s k = true); [|congruence]. destruct T as (_ & _ & Tm). apply Tm. left. now apply (P2 k b). }
  assert (Nc : NoDup (map fst (cont_part m s (r_form r)))).
  { clear - W1. unfold cont_part. induction (r_form r) as [|e v IH]; [constructor|].
    cbn [map] in W1. inversion W1; subst. cbn [filter]. destruct (_ && _); [|auto]. cbn [map]. constructor; [|auto].
    intro K. apply H1. apply in_map_iff in K. destruct K as (e' & E & K). apply filter_In in K.
    apply in_map_iff. exists e'. tauto. }
  assert (B2 : Qabs a2 == 1).
  { destruct (abs_one a1 A1) as [V|V]; rewrite V in A2.
    - assert (a2 == -1) by lra. rewrite H. reflexivity.
    - assert (a2 == 1) by lra. rewrite H. reflexivity. }
  assert (Zo : is_zero (m_clo m j1) = true /\ is_zero (m_clo m j2) = true).
  { destruct Z1 as (q1 & -> & Q1), Z2 as (q2 & -> & Q2). split; now apply Qeq_bool_iff. }
  destruct Zo as [Zo1 Zo2].
  assert (Fin : forall t, (forall k, mk_int s k = true -> mk_int t k = true) ->
    (forall k b, In (k, b) (cont_part m s (r_form r)) -> mk_int t k = true) -> mk_int t j1 = true /\ mk_int t j2 = true).
  { intros t Mo H. split.
    - destruct (mk_int s j1) eqn:M; [now apply Mo|]. apply (H j1 a1). now apply X.
    - destruct (mk_int s j2) eqn:M; [now apply Mo|]. apply (H j2 a2). now apply X. }
  destruct La as (Mo & _ & _). apply (Fin s' Mo). clear Fin.
  destruct (cont_part m s (r_form r)) as [|[k b] [|[k2 b2] [|[k3 b3] w]]] eqn:C.
  - intros k b [].
  - assert (U : unit_like b = true).
    { destruct (Y k b (or_introl eq_refl)) as [(_ & -> & _)|(_ & -> & _)]; now apply unit_one. }
    rewrite U, Q in E. apply mark_all in E. destruct E as [E _].
    intros k' b' [K|[]]. injection K as <- <-. exact E.
  - assert (Dk : k <> k2).
    { cbn in Nc. inversion Nc as [|? ? N1 N2]; subst. intro; subst. apply N1. now left. }
    match type of E with (if ?t then _ else _) = _ => replace t with true in E end.
    2:{ symmetry. rewrite Q. pose proof (Y k b (or_introl eq_refl)) as V1. pose proof (Y k2 b2 (or_intror (or_introl eq_refl))) as V2.
        destruct V1 as [(-> & -> & _)|(-> & -> & _)], V2 as [(-> & -> & _)|(-> & -> & _)]; try congruence;
          rewrite Zo1, Zo2, C1, C2; cbn [andb Nat.eqb]; rewrite ?andb_true_r.
        - rewrite (proj2 (Qeq_bool_iff _ _) A1), (proj2 (Qeq_bool_iff _ _) A2). now apply Qle_bool_iff.
        - rewrite (proj2 (Qeq_bool_iff _ _) B2). assert (A2' : a2 * a1 == -1) by (rewrite Qmult_comm; exact A2).
          rewrite (proj2 (Qeq_bool_iff _ _) A2'). apply Qle_bool_iff. rewrite (Qplus_comm (obj j2)). exact Ob. }
    destruct (mark m s k) as [s1| | | |] eqn:E1; try discriminate E. cbn [bind] in E.
    apply mark_all in E1, E. destruct E1 as [E1 _], E as [E M].
    intros k' b' [K|[K|[]]]; injection K as <- <-; auto.
  - exfalso. cbn in Nc. inversion Nc as [|? ? N1 N2]; subst. inversion N2 as [|? ? N3 N4]; subst. cbn in N1, N3.
    destruct (Y k b) as [(-> & _)|(-> & _)]; [now left| |];
    destruct (Y k2 b2) as [(-> & _)|(-> & _)]; try (right; now left);
    (destruct (Y k3 b3) as [(-> & _)|(-> & _)]; [right; right; now left| |]); tauto.
Qed.

Theorem C127_pair : forall m obj dir m' k r j1 j2,
  wf_mip m -> analyze m obj dir = Done (m', k) -> In r (m_rows m) -> pair_row m r j1 j2 ->
  0 <= dir * (obj j1 + obj j2) ->
  (forall j, j = j1 \/ j = j2 -> forall l u, m_clo m j = Some l -> m_chi m j = Some u ->
     ~ qceil (l - (1 # 100000)) == qfloor (u + (1 # 100000))) ->
  m_int m' j1 = true /\ m_int m' j2 = true.
Proof.
  intros m obj dir m' k r j1 j2 W E R P Ob S. destruct (W r R) as [_ W2].
  pose proof P as (_ & _ & _ & _ & (a1 & a2 & I1 & I2 & _) & _).
  assert (Sb : forall j, j = j1 \/ j = j2 -> same_bounds m j = false).
  { intros j H. unfold same_bounds, near_lo, near_hi. destruct (m_clo m j) as [l'|] eqn:El; [|reflexivity].
    destruct (m_chi m j) as [u'|] eqn:Eu; [|reflexivity]. cbn [option_map]. apply Qeqb_neq. now apply (S j H). }
  assert (M : forall s1, one_try m obj dir (start m) = Done s1 -> mk_int s1 j1 = true /\ mk_int s1 j2 = true).
  { intros s1 E1. unfold one_try in E1.
    assert (St : forall t i, In i (seq 0 (length (m_rows m))) -> tidy m t ->
      exists t', row_try m obj dir t i = Done t' /\ tidy m t' /\ later t t').
    { intros t i I Tt. apply in_seq in I. apply row_try_done; auto. lia. }
    destruct (fold_done m (row_try m obj dir) (seq 0 (length (m_rows m))) (start m)) with (2 := start_tidy m) as (t & Et & Tt & La); [exact St|].
    rewrite Et in E1. cbn [bind] in E1.
    destruct (cols_done m t Tt) as (u1 & Eu1 & _ & Lu). rewrite E1 in Eu1. apply Done_inj in Eu1. subst u1.
    destruct (In_nth _ _ (Row [] None None) R) as (i & Li & Ei). fold (mk_row m i) in Ei. subst r.
    destruct (fold_through m (row_try m obj dir) (seq 0 (length (m_rows m))) (start m) t i St (start_tidy m) Et)
      as (v & v' & Tv & _ & Ev & Lv & Lv'); [apply in_seq; lia|].
    destruct (pair_step m obj dir v i j1 j2 v' W Tv Li P Ob Ev Lv) as [M1 M2].
    split; apply Lu; now apply Lv'. }
  split; [apply (final_try m obj dir m' k j1 W)|apply (final_try m obj dir m' k j2 W)]; auto.
  - now apply (W2 j1 a1).
  - intros s1 E1. now apply M.
  - now apply (W2 j2 a2).
  - intros s1 E1. now apply M.
Qed.
Print Assumptions C127_pair.

Example C127_pair_hypotheses : pair_row ex1 (nth 3 (m_rows ex1) (Row [] None None)) 5 6 /\
  0 <= 1 * (ex1_obj 5 + ex1_obj 6).
Proof.
  split; [|vm_compute; discriminate]. split; [|split; [|split; [|split; [|split; [|split; [|split; [|split; [|split]]]]]]]].
  - exists 2, 2. split; [reflexivity|]. split; [reflexivity|]. split; [reflexivity|exists 2%Z; reflexivity].
  - intros k b I. cbn in I. destruct I as [I|[I|[I|[]]]]; injection I as <- <-; reflexivity.
  - intros k b I N1 N2. cbn in I. destruct I as [I|[I|[I|[]]]]; injection I as <- <-; try reflexivity; congruence.
  - intros k b I. cbn in I. destruct I as [I|[I|[I|[]]]]; injection I as <- <-; [exists 1%Z|exists 1%Z|exists (-1)%Z]; reflexivity.
  - exists 1, (-1). split; [right; now left|]. split; [right; right; now left|]. split; reflexivity.
  - discriminate.
  - exists 0. split; reflexivity.
  - exists 0. split; reflexivity.
  - reflexivity.
  - reflexivity.
Qed.
