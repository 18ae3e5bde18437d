(** * CglZeroHalf always returns: shortest paths with any choice of nodes,
    walks back along them, assertions, and integer ranges *)

From Coq Require Import Qabs Permutation.
From Verif Require Import Base Model_ZeroHalf Proofs_ZeroHalf.
Local Open Scope Q_scope.

(** ** Twins *)
Lemma parity_split a : a = (2 * (a / 2) + (if Nat.odd a then 1 else 0))%nat.
Proof.
  pose proof (Nat.div_mod a 2 ltac:(lia)) as D. rewrite <- Nat.bit0_mod, Nat.bit0_odd in D.
  destruct (Nat.odd a); exact D.
Qed.
Lemma half_of v (b : bool) : ((2 * v + (if b then 1 else 0)) / 2 = v)%nat.
Proof.
  rewrite Nat.mul_comm, Nat.div_add_l by lia. destruct b; simpl; lia.
Qed.
Lemma odd_of v (b : bool) : Nat.odd (2 * v + (if b then 1 else 0)) = b.
Proof.
  rewrite Nat.odd_add, Nat.odd_mul. change (Nat.odd 2) with false. destruct b; reflexivity.
Qed.
Lemma mate_form a : mate a = (2 * (a / 2) + (if negb (Nat.odd a) then 1 else 0))%nat.
Proof. unfold mate. rewrite <- Nat.negb_odd. reflexivity. Qed.
Lemma mate_half a : (mate a / 2 = a / 2)%nat.
Proof. rewrite mate_form. apply half_of. Qed.
Lemma mate_odd a : Nat.odd (mate a) = negb (Nat.odd a).
Proof. rewrite mate_form. apply odd_of. Qed.
Lemma mate_mate a : mate (mate a) = a.
Proof.
  rewrite (mate_form (mate a)), mate_half, mate_odd, negb_involutive. symmetry. apply parity_split.
Qed.
Lemma mate_other_side a k o : other_side (mate a) k o = mate (other_side a k o).
Proof.
  unfold other_side. rewrite mate_odd, mate_form, half_of, odd_of.
  destruct (Nat.odd a), o; reflexivity.
Qed.
Lemma other_side_half a k o : (other_side a k o / 2 = k)%nat.
Proof. unfold other_side. apply half_of. Qed.

Lemma aux_in ns a : In (a / 2)%nat ns -> In a (aux_nodes ns).
Proof.
  intro H. unfold aux_nodes. apply in_flat_map. exists (a / 2)%nat. split; [exact H|].
  pose proof (parity_split a) as E. destruct (Nat.odd a); [right; left|left]; lia.
Qed.

(** ** Arcs *)
Lemma arcs_spec ns g cancelled a z :
  In z (arcs ns g cancelled a) ->
  exists k o, In k ns /\ k <> (a / 2)%nat /\ a_to z = other_side a k o /\
    (a_len z = ISCALE \/ a_len z = arc_length (a_edge z)) /\
    exists z', In z' (arcs ns g cancelled (mate a)) /\ a_to z' = mate (a_to z).
Proof.
  unfold arcs. intro H. apply in_concat in H as (l & Hl & Hz). apply in_map_iff in Hl as (k & <- & Hk).
  assert (Hz' := Hz). unfold arcs_to in Hz. cbv zeta in Hz.
  destruct (Nat.eqb k (a / 2)) eqn:Ek; [destruct Hz|]. apply Nat.eqb_neq in Ek.
  assert (T : forall o z', In z' (arcs_to g cancelled (mate a) k) -> a_to z' = mate (other_side a k o) ->
             exists z', In z' (concat (map (arcs_to g cancelled (mate a)) ns)) /\ a_to z' = mate (other_side a k o)).
  { intros o z' H1 H2. exists z'. split; [|exact H2]. apply in_concat. eexists. split; [|exact H1].
    apply in_map. exact Hk. }
  apply in_app_or in Hz as [Hz|Hz].
  - destruct (find (joins (a / 2) k false) g) as [e|] eqn:F; [|destruct Hz].
    destruct Hz as [<-|[]]. exists k, false. cbn [a_to a_len a_edge].
    repeat split; auto; [destruct (existsb _ _); auto|].
    apply (T false (ZArc (other_side (mate a) k false) (if existsb (Nat.eqb (a / 2)) cancelled then ISCALE else arc_length e) e)).
    + unfold arcs_to. cbv zeta. rewrite mate_half. apply Nat.eqb_neq in Ek. rewrite Ek, F. left. reflexivity.
    + apply mate_other_side.
  - destruct (find (joins (a / 2) k true) g) as [e|] eqn:F; [|destruct Hz].
    destruct Hz as [<-|[]]. exists k, true. cbn [a_to a_len a_edge].
    repeat split; auto; [destruct (existsb _ _); auto|].
    apply (T true (ZArc (other_side (mate a) k true) (if existsb (Nat.eqb (a / 2)) cancelled then ISCALE else arc_length e) e)).
    + unfold arcs_to. cbv zeta. rewrite mate_half. apply Nat.eqb_neq in Ek. rewrite Ek, F.
      apply in_or_app. right. left. reflexivity.
    + apply mate_other_side.
Qed.
Lemma arc_length_nonneg e : - zZERO <= e_weight e -> (0 <= arc_length e)%Z.
Proof.
  intro H. unfold arc_length, trunc.
  destruct (e_weight e * inject_Z ISCALE <? 0) eqn:E; qb.
  - pose proof (qceil_ge (e_weight e * inject_Z ISCALE)) as C. unfold qceil in C.
    destruct (Z_le_gt_dec 0 (Qceiling (e_weight e * inject_Z ISCALE))) as [L|L]; [exact L|exfalso].
    assert (L' : (Qceiling (e_weight e * inject_Z ISCALE) <= -1)%Z) by lia.
    rewrite Zle_Qle in L'. change (inject_Z (-1)) with (- (1)) in L'.
    change (inject_Z ISCALE) with (10000 # 1) in *. unfold zZERO in H. lra.
  - rewrite Zle_Qle. change (inject_Z 0) with 0.
    destruct (Qlt_le_dec (inject_Z (Qfloor (e_weight e * inject_Z ISCALE))) 0) as [L|L]; [exfalso|exact L].
    assert (L' : (Qfloor (e_weight e * inject_Z ISCALE) <= -1)%Z).
    { change 0 with (inject_Z 0) in L. rewrite <- Zlt_Qlt in L. lia. }
    rewrite Zle_Qle in L'. change (inject_Z (-1)) with (- (1)) in L'.
    pose proof (qfloor_lt (e_weight e * inject_Z ISCALE)) as F. unfold qfloor in F. lra.
Qed.

(** ** Walking back *)
Inductive reach (par : nat -> option nat) (src : nat) : nat -> nat -> Prop :=
  | R0 : reach par src src 0
  | RS a p n : par a = Some p -> reach par src p n -> reach par src a (S n).
Lemma reach_fun par src a n n' :
  par src = None -> reach par src a n -> reach par src a n' -> n = n'.
Proof.
  intros Hs H. revert n'. induction H as [|a p n Hp H IH]; intros n' H'.
  - inversion H' as [|? ? ? Hp]; subst; [reflexivity|congruence].
  - inversion H' as [|? p' m Hp' H'']; subst; [congruence|].
    rewrite Hp in Hp'. injection Hp' as <-. f_equal. exact (IH m H'').
Qed.
Lemma reach_list par src (aux : list nat) a n :
  par src = None -> In src aux -> (forall b p, par b = Some p -> In b aux) ->
  reach par src a n ->
  exists l, length l = S n /\ NoDup l /\ incl l aux /\ forall b, In b l -> exists m, (m <= n)%nat /\ reach par src b m.
Proof.
  intros Hs Hi Hp H. induction H as [|a p n Pa H IH].
  - exists [src]. split; [reflexivity|]. split; [constructor; [intros []|constructor]|].
    split; [intros b [<-|[]]; exact Hi|]. intros b [<-|[]]. exists 0%nat. split; [lia|constructor].
  - destruct IH as (l & L & N & I1 & M). exists (a :: l). split; [simpl; congruence|]. split; [|split].
    + constructor; [|exact N]. intro Ha. destruct (M a Ha) as (m & Hm & Hr).
      pose proof (reach_fun par src a m (S n) Hs Hr (RS _ _ _ _ _ Pa H)). lia.
    + intros b [<-|Hb]; [exact (Hp a p Pa)|exact (I1 b Hb)].
    + intros b [<-|Hb]; [exists (S n); split; [lia|exact (RS _ _ _ _ _ Pa H)]|].
      destruct (M b Hb) as (m & Hm & Hr). exists m. split; [lia|exact Hr].
Qed.
Lemma walk_done par src f a n :
  (n <= f)%nat -> a <> src -> reach par src a n ->
  exists l, walk f par src a = Done (Some l) /\ forall b c, In (b, c) l -> par c = Some b.
Proof.
  revert a n. induction f as [|f IH]; intros a n Hn Ha H.
  - inversion H; subst; [congruence|lia].
  - inversion H as [|? p m Pa Hr]; subst; [congruence|]. cbn [walk]. rewrite Pa.
    destruct (Nat.eqb_spec p src) as [->|Np].
    + exists [(src, a)]. split; [reflexivity|]. intros b c [E|[]]. injection E as <- <-. exact Pa.
    + destruct (IH p m ltac:(lia) Np Hr) as (l & E & Hl). rewrite E. cbn [bind option_map].
      exists ((p, a) :: l). split; [reflexivity|]. intros b c [E'|Hb]; [injection E' as <- <-; exact Pa|exact (Hl b c Hb)].
Qed.

Section Tree.
  Variables (ns : list nat) (g : list zedge) (cancelled : list nat).
  Variable pick : (nat -> Z) -> list nat -> nat.
  Hypothesis Hlen : Forall (fun e => 0 <= arc_length e)%Z g.
  Variable src : nat.
  Hypothesis Hsrc : In (src / 2)%nat ns.

  Definition is_arc (a b : nat) : Prop := exists z, In z (arcs ns g cancelled a) /\ a_to z = b.

  Record tree (s : sp) : Prop := {
    t_src : s_dist s src = 0%Z /\ s_parent s src = None;
    t_pos : forall a, (0 <= s_dist s a)%Z;
    t_par : forall a p, s_parent s a = Some p -> is_arc p a /\ (s_dist s p <= s_dist s a)%Z /\
              exists n, reach (s_parent s) src p n;
    t_fin : forall a, s_dist s a <> INT_MAX -> exists n, reach (s_parent s) src a n }.

  Lemma arc_len_nonneg a z : In z (arcs ns g cancelled a) -> (0 <= a_len z)%Z.
  Proof.
    intro H. pose proof (arcs_edge_in _ _ _ _ _ H) as He. rewrite Forall_forall in Hlen.
    apply arcs_spec in H as (k & o & _ & _ & _ & [E|E] & _); rewrite E; [discriminate|exact (Hlen _ He)].
  Qed.
  Lemma arc_moves a z : In z (arcs ns g cancelled a) -> a_to z <> a.
  Proof.
    intros H E. apply arcs_spec in H as (k & o & _ & N & T & _). apply N.
    rewrite <- E at 1. rewrite T. symmetry. apply other_side_half.
  Qed.

  Lemma relax_tree v d0 s z :
    tree s -> s_dist s v = d0 -> d0 <> INT_MAX -> In z (arcs ns g cancelled v) ->
    tree (relax_from v d0 s z) /\ s_dist (relax_from v d0 s z) v = d0.
  Proof.
    intros [T1 T2 T3 T4] Hv Hd Hz. unfold relax_from. cbv zeta.
    destruct (d0 + a_len z <? s_dist s (a_to z))%Z eqn:L; [|split; [constructor; assumption|exact Hv]].
    apply Z.ltb_lt in L. pose proof (arc_len_nonneg v z Hz) as Lz. pose proof (arc_moves v z Hz) as Mv.
    pose proof (T2 v) as Pv. rewrite Hv in Pv. set (u := a_to z) in *.
    assert (Us : u <> src) by (intro E; rewrite E, (proj1 T1) in L; lia).
    cbn [s_dist s_parent].
    destruct (T4 v ltac:(congruence)) as (nv & Rv).
    (* the way back from v does not pass u *)
    assert (Keep : forall a n, reach (s_parent s) src a n -> (s_dist s a <= d0)%Z ->
                    reach (put (s_parent s) u (Some v)) src a n).
    { intros a n H. induction H as [|a p n Pa H IH]; intro Da; [constructor|].
      destruct (T3 a p Pa) as (_ & Dp & _).
      apply RS with p; [|apply IH; lia]. rewrite put_other; [exact Pa|]. intros ->. lia. }
    assert (Rv' : reach (put (s_parent s) u (Some v)) src v nv) by (apply Keep; [exact Rv|lia]).
    assert (Again : forall a n, reach (s_parent s) src a n -> exists n', reach (put (s_parent s) u (Some v)) src a n').
    { intros a n H. induction H as [|a p n Pa H IH]; [exists 0%nat; constructor|].
      destruct (Nat.eq_dec a u) as [->|Ne].
      - exists (S nv). apply RS with v; [apply put_same|exact Rv'].
      - destruct IH as (n' & R'). exists (S n'). apply RS with p; [rewrite put_other by exact Ne; exact Pa|exact R']. }
    split; [constructor; cbn [s_dist s_parent]|].
    - rewrite !put_other by congruence. exact T1.
    - intro a. destruct (Nat.eq_dec a u) as [->|Ne]; [rewrite put_same; lia|rewrite put_other by exact Ne; apply T2].
    - intros a p. destruct (Nat.eq_dec a u) as [->|Ne].
      + rewrite !put_same. intro E. injection E as <-. split; [exists z; split; [exact Hz|reflexivity]|].
        split; [rewrite put_other by congruence; lia|exists nv; exact Rv'].
      + rewrite !(put_other _ u _ a) by exact Ne. intro Pa. destruct (T3 a p Pa) as (A & D & n & R).
        split; [exact A|]. split; [|exact (Again p n R)].
        destruct (Nat.eq_dec p u) as [->|Np]; [rewrite put_same; lia|rewrite put_other by exact Np; exact D].
    - intro a. destruct (Nat.eq_dec a u) as [->|Ne].
      + intros _. exists (S nv). apply RS with v; [apply put_same|exact Rv'].
      + rewrite put_other by exact Ne. intro Da. destruct (T4 a Da) as (n & R). exact (Again a n R).
    - rewrite put_other by congruence. exact Hv.
  Qed.
  Lemma relax_all_tree v d0 zs s :
    tree s -> s_dist s v = d0 -> d0 <> INT_MAX -> (forall z, In z zs -> In z (arcs ns g cancelled v)) ->
    tree (fold_left (relax_from v d0) zs s).
  Proof.
    intros T Hv Hd. revert s T Hv. induction zs as [|z zs IH]; intros s T Hv Hz; cbn [fold_left]; [exact T|].
    destruct (relax_tree v d0 s z T Hv Hd (Hz z (or_introl eq_refl))) as [T' Hv'].
    apply IH; [exact T'|exact Hv'|]. intros z' H. apply Hz. right. exact H.
  Qed.
  Lemma heap_tree s hp : tree s -> tree (Sp (s_dist s) (s_parent s) hp).
  Proof. intros [A B C D]. constructor; assumption. Qed.
  Lemma sp_loop_tree n s : tree s -> tree (sp_loop ns g cancelled pick n s).
  Proof.
    revert s. induction n as [|n IH]; intros s T; cbn [sp_loop]; [exact T|]. cbv zeta.
    destruct (nth_error (s_heap s) _) as [v|]; [|exact T].
    destruct ((s_dist s v =? INT_MAX) || (ISCALE <=? s_dist s v))%Z eqn:E; [apply heap_tree; exact T|].
    apply orb_false_iff in E as [E _]. apply Z.eqb_neq in E.
    apply IH. apply relax_all_tree; auto using heap_tree.
  Qed.
  Lemma shortest_path_tree : tree (shortest_path ns g cancelled pick src).
  Proof.
    apply sp_loop_tree. constructor; cbn [s_dist s_parent].
    - split; [apply put_same|reflexivity].
    - intro a. unfold put. destruct (Nat.eqb a src); [lia|discriminate].
    - discriminate.
    - intros a H. destruct (Nat.eq_dec a src) as [->|N]; [exists 0%nat; constructor|].
      rewrite put_other in H by exact N. contradiction.
  Qed.

  Lemma arc_target_in a b : is_arc a b -> In b (aux_nodes ns).
  Proof.
    intros (z & Hz & <-). apply arcs_spec in Hz as (k & o & Hk & _ & -> & _).
    apply aux_in. rewrite other_side_half. exact Hk.
  Qed.
  Lemma arc_twin a b : is_arc a b -> is_arc (mate a) (mate b).
  Proof. intros (z & Hz & <-). apply arcs_spec in Hz as (k & o & _ & _ & _ & _ & z' & H). exists z'. exact H. Qed.
  Lemma arc_edge_done a b : is_arc a b -> exists e, arc_edge ns g cancelled (a, b) = Done e.
  Proof.
    intros (z & Hz & <-). unfold arc_edge. cbn [fst snd].
    destruct (find _ _) as [y|] eqn:F; [eexists; reflexivity|].
    pose proof (find_none _ _ F z Hz) as N. cbv beta in N. rewrite Nat.eqb_refl in N. discriminate.
  Qed.

  (** The two walks from a node. *)
  Variable s : sp.
  Hypothesis Hs : tree s.
  Lemma tree_reach_small a n : reach (s_parent s) src a n -> (n < length (aux_nodes ns))%nat.
  Proof.
    intro H. destruct (reach_list (s_parent s) src (aux_nodes ns) a n (proj2 (t_src s Hs)) (aux_in ns src Hsrc)) as (l & L & N & I1 & _).
    - intros b p Pb. exact (arc_target_in p b (proj1 (t_par s Hs b p Pb))).
    - exact H.
    - pose proof (NoDup_incl_length N I1). lia.
  Qed.
  Lemma aux_pos : (0 < length (aux_nodes ns))%nat.
  Proof. pose proof (aux_in ns src Hsrc). destruct (aux_nodes ns); [contradiction|simpl; lia]. Qed.
  Lemma forward_walk a : a <> src ->
    exists o, walk (length (aux_nodes ns)) (s_parent s) src a = Done o /\
      forall l b c, o = Some l -> In (b, c) l -> is_arc b c.
  Proof.
    intro Ha. destruct (s_parent s a) as [p|] eqn:Pa.
    - destruct (t_par s Hs a p Pa) as (_ & _ & n & R).
      assert (R' := RS (s_parent s) src a p n Pa R). pose proof (tree_reach_small _ _ R').
      destruct (walk_done (s_parent s) src (length (aux_nodes ns)) a (S n) ltac:(lia) Ha R') as (l & E & Hl).
      exists (Some l). split; [exact E|]. intros l' b c El Hb. injection El as <-.
      exact (proj1 (t_par s Hs c b (Hl b c Hb))).
    - exists None. split; [|discriminate]. pose proof aux_pos. destruct (length (aux_nodes ns)); [lia|].
      cbn [walk]. rewrite Pa. reflexivity.
  Qed.
  Lemma backw_reach a n : reach (s_parent s) src a n -> reach (backw_pred s) (mate src) (mate a) n.
  Proof.
    induction 1 as [|a p n Pa H IH]; [constructor|]. apply RS with (mate p); [|exact IH].
    unfold backw_pred. rewrite mate_mate, Pa. reflexivity.
  Qed.
  Lemma backward_walk a : a <> mate src ->
    exists o, walk (length (aux_nodes ns)) (backw_pred s) (mate src) a = Done o /\
      forall l b c, o = Some l -> In (b, c) l -> is_arc b c.
  Proof.
    intro Ha. destruct (s_parent s (mate a)) as [p|] eqn:Pa.
    - destruct (t_par s Hs (mate a) p Pa) as (_ & _ & n & R).
      assert (R' := RS (s_parent s) src (mate a) p n Pa R). pose proof (tree_reach_small _ _ R').
      apply backw_reach in R'. rewrite mate_mate in R'.
      destruct (walk_done (backw_pred s) (mate src) (length (aux_nodes ns)) a (S n) ltac:(lia) Ha R') as (l & E & Hl).
      exists (Some l). split; [exact E|]. intros l' b c El Hb. injection El as <-.
      specialize (Hl b c Hb). unfold backw_pred in Hl.
      destruct (s_parent s (mate c)) as [q|] eqn:Pc; [|discriminate]. injection Hl as <-.
      pose proof (arc_twin _ _ (proj1 (t_par s Hs (mate c) q Pc))) as T. rewrite mate_mate in T. exact T.
    - exists None. split; [|discriminate]. pose proof aux_pos. destruct (length (aux_nodes ns)); [lia|].
      cbn [walk]. unfold backw_pred. rewrite Pa. reflexivity.
  Qed.
End Tree.

(** ** Outcomes: a value, or the overflow of the sum of two distances *)
Definition fine {A} (wrapv : bool) (o : outcome A) : Prop :=
  (exists v, o = Done v) \/ (wrapv = false /\ o = Undef IntOverflow).
Lemma fine_done {A} w (v : A) : fine w (Done v). Proof. left. exists v. reflexivity. Qed.
Lemma fine_bind {A B} w (o : outcome A) (f : A -> outcome B) :
  fine w o -> (forall v, o = Done v -> fine w (f v)) -> fine w (bind o f).
Proof.
  intros [[v ->]|[Hw ->]] H; cbn [bind]; [exact (H v eq_refl)|]. right. split; [exact Hw|reflexivity].
Qed.
Lemma fine_ofold {A B} w (P : B -> Prop) (f : B -> A -> outcome B) l s :
  (forall s a, In a l -> P s -> fine w (f s a) /\ forall s', f s a = Done s' -> P s') ->
  P s -> fine w (ofold f l s).
Proof.
  revert s. induction l as [|a l IH]; intros s H Hp; cbn [ofold]; [apply fine_done|].
  destruct (H s a (or_introl eq_refl) Hp) as [F Q].
  apply fine_bind; [exact F|]. intros v E. apply IH; [|exact (Q v E)]. intros. apply H; [right|]; assumption.
Qed.
Lemma fine_omap {A B} w (f : A -> outcome B) l : (forall a, In a l -> fine w (f a)) -> fine w (omap f l).
Proof.
  induction l as [|a l IH]; intro H; cbn [omap]; [apply fine_done|].
  apply fine_bind; [apply H; left; reflexivity|]. intros b _.
  apply fine_bind; [apply IH; intros; apply H; right; assumption|]. intros bs _. apply fine_done.
Qed.

Lemma cycle_at_fine ns g cancelled pick wrapv j l kt :
  Forall (fun e => 0 <= arc_length e)%Z g -> In j ns -> (kt / 2)%nat <> j ->
  fine wrapv (cycle_at ns g cancelled wrapv (shortest_path ns g cancelled pick (2 * j)) j l kt).
Proof.
  intros Hg Hj Hk. set (src := (2 * j)%nat).
  assert (Hh : (src / 2 = j)%nat) by (subst src; pose proof (half_of j false) as E; rewrite Nat.add_0_r in E; exact E).
  assert (Hs : In (src / 2)%nat ns) by (rewrite Hh; exact Hj).
  pose proof (shortest_path_tree ns g cancelled pick Hg src) as T.
  set (s := shortest_path ns g cancelled pick src) in *.
  assert (Em : mate src = (src + 1)%nat).
  { rewrite mate_form, Hh. subst src. pose proof (odd_of j false) as O. rewrite Nat.add_0_r in O. rewrite O. reflexivity. }
  unfold cycle_at. cbv zeta. apply fine_bind.
  { unfold add_dist. cbv zeta. destruct (int_range _); [apply fine_done|].
    destruct wrapv; [apply fine_done|right; split; reflexivity]. }
  intros d _. destruct (_ <? _); [|apply fine_done].
  assert (N1 : kt <> src) by (intro E; apply Hk; rewrite E; exact Hh).
  assert (N2 : kt <> mate src) by (intro E; apply Hk; rewrite E, mate_half; exact Hh).
  destruct (forward_walk ns g cancelled src Hs s T kt N1) as (f & Ef & Af).
  fold src. rewrite Ef. cbn [bind]. destruct f as [fp|]; [|apply fine_done].
  destruct (backward_walk ns g cancelled src Hs s T kt N2) as (b & Eb & Ab).
  rewrite <- Em, Eb. cbn [bind]. destruct b as [bp|]; [|apply fine_done].
  apply fine_bind; [|intros; apply fine_done]. apply fine_omap. intros [b c] Hin.
  left. apply (arc_edge_done ns g cancelled b c). apply in_app_or in Hin as [H|H]; [exact (Af fp b c eq_refl H)|exact (Ab bp b c eq_refl H)].
Qed.
Lemma odd_cycles_fine ns g cancelled pick wrapv j :
  Forall (fun e => 0 <= arc_length e)%Z g -> In j ns ->
  fine wrapv (odd_cycles ns g cancelled pick wrapv j).
Proof.
  intros Hg Hj. unfold odd_cycles. cbv zeta.
  apply (fine_ofold wrapv (fun _ => True)); [|exact Logic.I].
  intros l kt Hin _. split; [|auto]. apply cycle_at_fine; [exact Hg|exact Hj|].
  apply in_flat_map in Hin as (k & _ & Hk). destruct (Nat.eqb k j) eqn:N; [destruct Hk|]. apply Nat.eqb_neq in N.
  destruct Hk as [<-|[<-|[]]].
  - pose proof (half_of k false) as E. rewrite Nat.add_0_r in E. rewrite E. exact N.
  - pose proof (half_of k true) as E. rewrite E. exact N.
Qed.

(** ** Gathering the rows of a cycle *)
Lemma gather_done h debug es comb :
  (forall i, In (Some i) es -> (i < length (h_rows h))%nat) ->
  NoDup comb -> (forall i, In i comb -> (i < length (h_rows h))%nat) ->
  exists l, gather h debug es comb = Done l /\ NoDup l /\ forall i, In i l -> (i < length (h_rows h))%nat.
Proof.
  revert comb. induction es as [|[i|] es IH]; intros comb He Nd Hc; cbn [gather].
  - exists comb. auto.
  - assert (He' : forall i, In (Some i) es -> (i < length (h_rows h))%nat) by (intros; apply He; right; assumption).
    destruct (existsb (Nat.eqb i) comb) eqn:X; [exact (IH comb He' Nd Hc)|].
    assert (Ni : ~ In i comb).
    { intro H. assert (existsb (Nat.eqb i) comb = true); [|congruence].
      apply existsb_exists. exists i. split; [exact H|apply Nat.eqb_refl]. }
    assert (Hi := He i (or_introl eq_refl)).
    assert (Nd' : NoDup (i :: comb)) by (constructor; assumption).
    assert (L : (length (i :: comb) <= length (seq 0 (length (h_rows h))))%nat).
    { apply NoDup_incl_length; [exact Nd'|]. intros k [<-|Hk]; apply in_seq; [lia|specialize (Hc k Hk); lia]. }
    rewrite seq_length in L. cbn [length] in L.
    replace (length comb <? length (h_rows h))%nat with true by (symmetry; apply Nat.ltb_lt; lia).
    cbn [negb]. rewrite andb_false_r. apply IH; [exact He'| |].
    + apply (Permutation.Permutation_NoDup (l := i :: comb)); [apply Permutation.Permutation_cons_append|exact Nd'].
    + intros k Hk. apply in_app_or in Hk as [Hk|[<-|[]]]; [exact (Hc k Hk)|exact Hi].
  - apply IH; [intros; apply He; right; assumption|exact Nd|exact Hc].
Qed.

(** ** Integer ranges *)
Local Open Scope Z_scope.
Definition sumZ {A} (f : A -> Z) (l : list A) : Z := fold_right (fun a s => f a + s) 0 l.
Lemma sumZ_nonneg {A} (f : A -> Z) l : (forall a, 0 <= f a) -> 0 <= sumZ f l.
Proof. intro H. induction l as [|a l IH]; cbn [sumZ fold_right]; [lia|]. fold (sumZ f l). specialize (H a). lia. Qed.
Lemma sumZ_perm {A} (f : A -> Z) l l' : Permutation l l' -> sumZ f l = sumZ f l'.
Proof.
  induction 1 as [|a l l' H IH|a b l|l l' l'' H1 IH1 H2 IH2]; cbn [sumZ fold_right] in *;
    repeat match goal with |- context [fold_right (fun a s => f a + s) 0 ?l] => fold (sumZ f l) end; try lia.
Qed.
Lemma sumZ_incl (f : nat -> Z) l l' : (forall a, 0 <= f a) -> NoDup l -> incl l l' -> sumZ f l <= sumZ f l'.
Proof.
  intros Hf. revert l'. induction l as [|a l IH]; intros l' Nd Hi.
  - apply sumZ_nonneg. exact Hf.
  - inversion Nd as [|? ? Na Nd']; subst.
    destruct (in_split a l' (Hi a (or_introl eq_refl))) as (l1 & l2 & ->).
    rewrite (sumZ_perm f _ _ (Permutation_sym (Permutation_middle l1 l2 a))).
    change (sumZ f (a :: l)) with (f a + sumZ f l). change (sumZ f (a :: l1 ++ l2)) with (f a + sumZ f (l1 ++ l2)).
    assert (sumZ f l <= sumZ f (l1 ++ l2)); [|lia]. apply IH; [exact Nd'|].
    intros b Hb. assert (Hb' := Hi b (or_intror Hb)). apply in_app_or in Hb' as [H|[<-|H]]; [apply in_or_app; left; exact H|contradiction|apply in_or_app; right; exact H].
Qed.
Lemma sumZ_rows {A} (f : A -> Z) l :
  sumZ (fun i => match nth_error l i with Some a => f a | None => 0 end) (seq 0 (length l)) = sumZ f l.
Proof.
  induction l as [|a l IH]; [reflexivity|]. cbn [length seq].
  change (sumZ f (a :: l)) with (f a + sumZ f l). rewrite <- IH.
  unfold sumZ at 1. cbn [fold_right nth_error]. f_equal. rewrite <- seq_shift.
  generalize (seq 0 (length l)) as q. induction q as [|i q IHq]; [reflexivity|].
  cbn [map fold_right sumZ nth_error]. rewrite IHq. reflexivity.
Qed.

Lemma cint_fits z : Z.abs z <= INT_MAX -> cint z = Done z.
Proof.
  intro H. unfold cint. replace (int_range z) with true; [reflexivity|]. symmetry.
  unfold int_range. apply andb_true_iff. unfold INT_MIN, INT_MAX in *. split; apply Z.leb_le; lia.
Qed.
Lemma quot_abs_le a g : g <> 0 -> Z.abs (Z.quot a g) <= Z.abs a.
Proof.
  intro H. rewrite <- Z.quot_abs by exact H. rewrite Z.quot_div_nonneg by lia.
  apply Z.div_le_upper_bound; [lia|]. nia.
Qed.
Definition row_abs (r : zrow) : Z := sumZ (fun e : nat * Z => Z.abs (snd e)) (z_form r).
Lemma add_entries_fits ge g f c B :
  g <> 0 -> (forall j, Z.abs (c j) <= B) -> B + sumZ (fun e : nat * Z => Z.abs (snd e)) f <= INT_MAX ->
  exists c', ofold (add_entry ge g) f c = Done c' /\
    forall j, Z.abs (c' j) <= B + sumZ (fun e : nat * Z => Z.abs (snd e)) f.
Proof.
  intro Hg. revert c B. induction f as [|[k a] f IH]; intros c B Hc Hb; cbn [ofold].
  - exists c. split; [reflexivity|]. intro j. cbn. specialize (Hc j). lia.
  - change (sumZ (fun e : nat * Z => Z.abs (snd e)) ((k, a) :: f)) with (Z.abs a + sumZ (fun e : nat * Z => Z.abs (snd e)) f) in *.
    assert (Sn : 0 <= sumZ (fun e : nat * Z => Z.abs (snd e)) f) by (apply sumZ_nonneg; intro; lia).
    pose proof (quot_abs_le a g Hg) as Q. unfold add_entry at 1. cbn [fst snd].
    pose proof (Hc k) as Hk. rewrite cint_fits by (destruct ge; lia). cbn [bind].
    destruct (IH (put c k (if ge then c k - Z.quot a g else c k + Z.quot a g)) (B + Z.abs a)) as (c' & E & Hc').
    + intro j. destruct (Nat.eq_dec j k) as [->|N]; [rewrite put_same; destruct ge; lia|].
      rewrite put_other by exact N. specialize (Hc j). lia.
    + lia.
    + exists c'. split; [exact E|]. intro j. specialize (Hc' j). lia.
Qed.
Definition abs_at (h : zhalf) (i : nat) : Z := match nth_error (h_rows h) i with Some r => row_abs r | None => 0 end.
Definition rhs_at (h : zhalf) (i : nat) : Z := match nth_error (h_rows h) i with Some r => Z.abs (z_rhs r) | None => 0 end.
Lemma row_abs_nonneg r : 0 <= row_abs r. Proof. apply sumZ_nonneg. intro. lia. Qed.
Lemma abs_at_nonneg h i : 0 <= abs_at h i.
Proof. unfold abs_at. destruct (nth_error _ _); [apply row_abs_nonneg|lia]. Qed.
Lemma rhs_at_nonneg h i : 0 <= rhs_at h i.
Proof. unfold rhs_at. destruct (nth_error _ _); lia. Qed.

Lemma add_rows_fits h x ps rows c B R :
  Forall2 (prow_of h x) (h_rows h) ps -> (forall i, In i rows -> (i < length (h_rows h))%nat) ->
  (forall j, Z.abs (fst c j) <= B) -> Z.abs (snd c) <= R ->
  B + sumZ (abs_at h) rows <= INT_MAX -> R + sumZ (rhs_at h) rows <= INT_MAX ->
  exists c', ofold (add_row h ps) rows c = Done c' /\
    (forall j, Z.abs (fst c' j) <= B + sumZ (abs_at h) rows) /\
    Z.abs (snd c') <= R + sumZ (rhs_at h) rows.
Proof.
  intro Hp. revert c B R. induction rows as [|i rows IH]; intros c B R Hi Hc Hr Hb Hrr; cbn [ofold].
  - exists c. split; [reflexivity|]. split; [intro j; specialize (Hc j); cbn; lia|cbn; lia].
  - change (sumZ (abs_at h) (i :: rows)) with (abs_at h i + sumZ (abs_at h) rows) in *.
    change (sumZ (rhs_at h) (i :: rows)) with (rhs_at h i + sumZ (rhs_at h) rows) in *.
    assert (S1 : 0 <= sumZ (abs_at h) rows) by (apply sumZ_nonneg, abs_at_nonneg).
    assert (S2 : 0 <= sumZ (rhs_at h) rows) by (apply sumZ_nonneg, rhs_at_nonneg).
    assert (Li := Hi i (or_introl eq_refl)).
    destruct (nth_error (h_rows h) i) as [r|] eqn:Er; [|apply nth_error_None in Er; lia].
    destruct (nth_error ps i) as [p|] eqn:Ep;
      [|apply nth_error_None in Ep; rewrite <- (forall2_len _ _ _ Hp) in Ep; lia].
    destruct (forall2_nth _ _ _ _ _ _ Hp Er Ep) as (_ & Gn & _).
    assert (Ea : abs_at h i = row_abs r) by (unfold abs_at; rewrite Er; reflexivity).
    assert (Eb : rhs_at h i = Z.abs (z_rhs r)) by (unfold rhs_at; rewrite Er; reflexivity).
    unfold add_row at 1. rewrite Er, Ep. cbv zeta.
    destruct (add_entries_fits (z_ge r) (p_gcd p) (z_form r) (fst c) B Gn Hc) as (c1 & E1 & B1).
    { fold (row_abs r). lia. }
    rewrite E1. cbn [bind]. pose proof (quot_abs_le (z_rhs r) (p_gcd p) Gn) as Q.
    rewrite cint_fits by (destruct (z_ge r); lia). cbn [bind].
    destruct (IH (c1, if z_ge r then snd c - Z.quot (z_rhs r) (p_gcd p) else snd c + Z.quot (z_rhs r) (p_gcd p))
                 (B + row_abs r) (R + Z.abs (z_rhs r))) as (c' & E & A1 & A2); cbn [fst snd].
    + intros; apply Hi; right; assumption.
    + exact B1.
    + destruct (z_ge r); lia.
    + lia.
    + lia.
    + exists c'. split; [exact E|]. split; [intro j; specialize (A1 j); lia|lia].
Qed.

Lemma weaken_fits h (Bd : nat -> Z) (l : list (nat * bool)) c B R :
  NoDup (map fst l) ->
  (forall j t, In (j, t) l -> Z.abs (if t then h_lb h j else h_ub h j) <= Bd j) ->
  (forall j, In j (map fst l) -> Z.abs (fst c j) <= B) -> Z.abs (snd c) <= R ->
  (forall j, 0 <= Bd j) -> B + 1 <= INT_MAX -> R + sumZ Bd (map fst l) <= INT_MAX ->
  exists c', ofold (weaken_one h) l c = Done c' /\ Z.abs (snd c') <= R + sumZ Bd (map fst l).
Proof.
  revert c R. induction l as [|[j t] l IH]; intros c R Nd Hb Hc Hr Hp Hi Hs; cbn [ofold].
  - exists c. split; [reflexivity|]. cbn. lia.
  - cbn [map fst] in *. change (sumZ Bd (j :: map fst l)) with (Bd j + sumZ Bd (map fst l)) in *.
    inversion Nd as [|? ? Nj Nd']; subst.
    assert (S1 : 0 <= sumZ Bd (map fst l)) by (apply sumZ_nonneg; exact Hp).
    assert (Bj := Hb j t (or_introl eq_refl)). assert (Cj := Hc j (or_introl eq_refl)).
    unfold weaken_one at 1. cbn [fst snd]. cbv zeta.
    assert (G : forall a r, Z.abs r <= R + Bd j -> exists c',
       ofold (weaken_one h) l (put (fst c) j a, r) = Done c' /\ Z.abs (snd c') <= R + (Bd j + sumZ Bd (map fst l))).
    { intros a r Ha. destruct (IH (put (fst c) j a, r) (R + Bd j) Nd') as (c' & E & A); cbn [fst snd].
      - intros; apply Hb; right; assumption.
      - intros i Hi'. rewrite put_other by (intros ->; contradiction). apply Hc. right. exact Hi'.
      - exact Ha.
      - exact Hp.
      - exact Hi.
      - lia.
      - exists c'. split; [exact E|lia]. }
    destruct t; rewrite !cint_fits by lia; cbn [bind]; apply G; lia.
Qed.
Local Close Scope Z_scope.

(** What the data must satisfy for the sums to stay within int: [Bd] bounds
    the variable bounds near the point. *)
Record data_fits (h : zhalf) (icol : nat -> Prop) (x : point) (Bd : nat -> Z) : Prop := {
  f_pos : forall j, (0 <= Bd j)%Z;
  f_near : forall j t, (j < h_mc h)%nat -> icol j -> bound_near h x j t ->
             (Z.abs (if t then h_lb h j else h_ub h j) <= Bd j)%Z;
  f_coef : (sumZ row_abs (h_rows h) + 1 <= INT_MAX)%Z;
  f_rhs : (sumZ (fun r => Z.abs (z_rhs r)) (h_rows h) + sumZ Bd (cols h) + 1 <= INT_MAX)%Z }.

Lemma slack_check_done ps tot rows :
  (forall i, In i rows -> (i < length ps)%nat) -> exists b, slack_check ps tot rows = Done b.
Proof.
  revert tot. induction rows as [|i rows IH]; intros tot H; cbn [slack_check]; [eexists; reflexivity|].
  destruct (nth_error ps i) as [p|] eqn:E.
  - destruct (_ <? _); [eexists; reflexivity|]. apply IH. intros; apply H; right; assumption.
  - apply nth_error_None in E. specialize (H i (or_introl eq_refl)). lia.
Qed.

Lemma get_cut_done h (icol : nat -> Prop) x Bd debug ps es :
  Forall2 (prow_of h x) (h_rows h) ps -> data_fits h icol x Bd ->
  (forall r, In r (h_rows h) -> entries_in h icol r) ->
  (forall i, In (Some i) es -> (i < length (h_rows h))%nat) ->
  exists r, get_cut h x debug ps es = Done r.
Proof.
  intros Hp [F1 F2 F3 F4] Hr He. unfold get_cut.
  destruct (gather_done h debug es [] He (NoDup_nil _) ltac:(intros i [])) as (rows & -> & Nd & Hi). cbn [bind].
  pose proof (forall2_len _ _ _ Hp) as Lp.
  unfold get_ori_cut_coef. destruct (slack_check_done ps 0 rows) as (b & ->).
  { intros i Hin. rewrite <- Lp. exact (Hi i Hin). }
  cbn [bind]. destruct b; [|cbn [bind]; eexists; reflexivity].
  assert (Inc : incl rows (seq 0 (length (h_rows h)))) by (intros i Hin; apply in_seq; specialize (Hi i Hin); lia).
  pose proof (sumZ_incl (abs_at h) _ _ (abs_at_nonneg h) Nd Inc) as S1.
  pose proof (sumZ_incl (rhs_at h) _ _ (rhs_at_nonneg h) Nd Inc) as S2.
  unfold abs_at at 2 in S1. unfold rhs_at at 2 in S2.
  rewrite (sumZ_rows row_abs) in S1. rewrite (sumZ_rows (fun r => Z.abs (z_rhs r))) in S2.
  assert (P1 : (0 <= sumZ Bd (cols h))%Z) by (apply sumZ_nonneg; exact F1).
  destruct (add_rows_fits h x ps rows (fun _ => 0%Z, 0%Z) 0 0 Hp Hi) as (c & Ec & C1 & C2); cbn [fst snd]; try (intros; cbn; lia).
  rewrite Ec. cbn [bind].
  assert (Sc : supported icol (fst c)).
  { refine (ofold_inv_in (fun c => supported icol (fst c)) _ _ _ _ _ _ Ec).
    - intros a i b' _ Ha Eb. refine (add_row_support h icol ps a i b' _ Ha Eb).
      intros r Er. apply Hr. exact (nth_error_In _ _ Er).
    - intros j Hj. cbn in Hj. contradiction. }
  assert (Bc : exists ob, best_cut h x c = Done ob).
  { pose proof (best_cut_parts h x c) as P. unfold best_cut in *. cbv zeta in *.
    destruct (MAX_SLACK - zEPS <? inject_Z (snd c) - dense_value h x (fst c)) eqn:Es; [eexists; reflexivity|].
    destruct (snd (best_weakening _ _ _ _ _ _)) as [[s ts]|] eqn:Ew; [|eexists; reflexivity]. qb.
    assert (Ez : MAX_SLACK - zEPS < zINF) by reflexivity.
    apply best_weakening_odd in Ew as (F & _ & _); [|lra].
    assert (Hl : length (odd_columns h (fst c)) = length ts) by exact (forall2_len _ _ _ F).
    destruct (weaken_fits h Bd (combine (odd_columns h (fst c)) ts) c
                (0 + sumZ (abs_at h) rows) (0 + sumZ (rhs_at h) rows)) as (c' & Ec' & C').
    - rewrite combine_fst by exact Hl. apply NoDup_filter, seq_NoDup.
    - intros j t Hin. pose proof (forall2_combine _ _ _ _ _ F Hin) as Nr. cbn beta in Nr.
      apply in_combine_l in Hin. apply odd_columns_in in Hin as [Hj Oj].
      apply (F2 j t Hj); [|exact Nr]. apply Sc. intro Z0. rewrite Z0 in Oj. discriminate.
    - intros j _. apply C1.
    - exact C2.
    - exact F1.
    - lia.
    - rewrite combine_fst by exact Hl.
      assert (sumZ Bd (odd_columns h (fst c)) <= sumZ Bd (cols h))%Z; [|lia].
      apply sumZ_incl; [exact F1|apply NoDup_filter, seq_NoDup|]. intros j Hj. apply filter_In in Hj. tauto.
    - rewrite Ec' in P |- *. cbn [bind] in *.
      destruct (existsb _ _); [contradiction|]. destruct (negb _); [contradiction|].
      rewrite combine_fst in C' by exact Hl.
      assert (sumZ Bd (odd_columns h (fst c)) <= sumZ Bd (cols h))%Z.
      { apply sumZ_incl; [exact F1|apply NoDup_filter, seq_NoDup|]. intros j Hj. apply filter_In in Hj. tauto. }
      rewrite cint_fits by lia. cbn [bind]. eexists. reflexivity. }
  destruct Bc as (ob & ->). cbn [bind]. destruct ob as [[cc v]|]; [|eexists; reflexivity].
  destruct (_ || _); eexists; reflexivity.
Qed.

(** ** The search returns *)
Lemma cycle_loop_fine env h (icol : nat -> Prop) x Bd ps g j c cycles st w :
  Forall2 (prow_of h x) (h_rows h) ps -> data_fits h icol x Bd ->
  (forall r, In r (h_rows h) -> entries_in h icol r) ->
  Forall (edge_ok h x ps) g -> cycles_in g cycles ->
  fine w (cycle_loop env h x ps j c cycles st).
Proof.
  intros Hp Hd Hr Hg. revert c st. induction cycles as [|es cycles IH]; intros c st Hc; cbn [cycle_loop].
  - apply fine_done.
  - destruct (v_late env j c); [apply fine_done|].
    assert (Hc' : cycles_in g cycles) by (intros a e Ha; apply Hc; right; exact Ha).
    apply fine_bind.
    + left. apply (get_cut_done h icol x Bd (v_debug env) ps (map e_constr es) Hp Hd Hr).
      intros i Hi. apply in_map_iff in Hi as (e & Ee & He). rewrite Forall_forall in Hg.
      destruct (Hg e (Hc es e (or_introl eq_refl) He)) as (_ & _ & _ & _ & G). rewrite Ee in G.
      destruct G as (p & Ep & _). rewrite (forall2_len _ _ _ Hp). apply nth_error_Some. congruence.
    + intros r _. destruct r as [| |k].
      * destruct (q_error st); [apply fine_done|apply IH; exact Hc'].
      * apply fine_done.
      * destruct (_ <? _); [|apply IH; exact Hc']. cbv zeta. destruct (_ <=? _)%Z; [apply fine_done|apply IH; exact Hc'].
Qed.
Lemma node_loop_fine env h (icol : nat -> Prop) x Bd ps ns g done todo st :
  Forall2 (prow_of h x) (h_rows h) ps -> data_fits h icol x Bd ->
  (forall r, In r (h_rows h) -> entries_in h icol r) ->
  Forall (edge_ok h x ps) g -> incl todo ns ->
  fine (v_wrapv env) (node_loop env h x ps ns g done todo st).
Proof.
  intros Hp Hd Hr Hg. revert done st. induction todo as [|j todo IH]; intros done st Hi; cbn [node_loop].
  - apply fine_done.
  - apply fine_bind.
    + apply odd_cycles_fine; [|apply Hi; left; reflexivity].
      rewrite Forall_forall in *. intros e He. apply arc_length_nonneg. apply (Hg e He).
    + intros cycles Ec. apply fine_bind.
      * exact (cycle_loop_fine env h icol x Bd ps g j 0 cycles st _ Hp Hd Hr Hg (odd_cycles_in _ _ _ _ _ _ _ Ec)).
      * intros st' _. destruct (q_stop st'); [apply fine_done|]. apply IH. intros a Ha. apply Hi. right. exact Ha.
Qed.

Lemma row_gcd_nonzero r : z_form r <> [] -> (forall j a, In (j, a) (z_form r) -> a <> 0%Z) -> row_gcd r <> 0%Z.
Proof.
  intros Hn Ha E. destruct (row_gcd_ok r Hn) as (_ & _ & D). rewrite E in D.
  destruct (z_form r) as [|[j a] f]; [contradiction|].
  destruct (D j a (or_introl eq_refl)) as [q Eq]. apply (Ha j a (or_introl eq_refl)). lia.
Qed.
Lemma filter_len_le {A} (f : A -> bool) l : (length (filter f l) <= length l)%nat.
Proof. induction l as [|a l IH]; cbn; [lia|]. destruct (f a); cbn; lia. Qed.
Lemma p_odd_length h x r p : prow_of h x r p -> (length (p_odd p) <= length (z_form r))%nat.
Proof.
  intros (_ & _ & _ & -> & _). unfold odd_entries.
  eapply Nat.le_trans; [apply filter_len_le|]. rewrite map_length. apply filter_len_le.
Qed.
Definition row_short (r : zrow) : Prop :=
  (Z.of_nat (length (z_form r)) * (Z.of_nat (length (z_form r)) - 1) <= INT_MAX)%Z.
Lemma row_pairs_done n m : (n <= m)%nat -> (Z.of_nat m * (Z.of_nat m - 1) <= INT_MAX)%Z -> exists v, row_pairs n = Done v.
Proof.
  intros H L. unfold row_pairs. destruct (n <=? 2)%nat eqn:E; [eexists; reflexivity|]. apply Nat.leb_gt in E.
  rewrite cint_fits; [eexists; reflexivity|]. rewrite Z.abs_eq by nia. nia.
Qed.
Lemma sep_graph_done h x ps :
  Forall2 (prow_of h x) (h_rows h) ps -> (forall r, In r (h_rows h) -> row_short r) ->
  exists g, sep_graph h x ps = Done g.
Proof.
  intros Hp Hs. unfold sep_graph.
  assert (G : fine true (ofold (add_row_edges h x) (combine (seq 0 (length (h_rows h))) (combine (h_rows h) ps)) [])).
  { apply (fine_ofold true (fun _ => True)); [|exact Logic.I]. intros g [i [r p]] Hin _. split; [|auto].
    assert (L : length (h_rows h) = length (combine (h_rows h) ps)).
    { rewrite combine_length, <- (forall2_len _ _ _ Hp). lia. }
    rewrite L in Hin. apply in_combine_seq in Hin as [_ Hin]. apply nth_combine in Hin as [H1 H2].
    pose proof (forall2_nth _ _ _ _ _ _ Hp H1 H2) as Pr.
    unfold add_row_edges. cbn [fst snd]. cbv zeta. destruct (p_del p); [apply fine_done|].
    destruct (row_pairs_done (length (p_odd p)) (length (z_form r)) (p_odd_length h x r p Pr) (Hs r (nth_error_In _ _ H1))) as (v & ->).
    cbn [bind]. destruct (_ && _); [apply fine_done|]. destruct (_ && _); apply fine_done. }
  destruct G as [[g E]|[E _]]; [|discriminate]. rewrite E. cbn [bind]. eexists. reflexivity.
Qed.
Lemma parity_done h x :
  (forall r, In r (h_rows h) -> row_gcd r <> 0%Z) -> exists ps, get_parity_ilp h x = Done ps.
Proof.
  intro H. unfold get_parity_ilp.
  assert (G : fine true (omap (parity_row h x) (h_rows h))).
  { apply fine_omap. intros r Hr. unfold parity_row. cbv zeta. specialize (H r Hr).
    apply Z.eqb_neq in H. rewrite H. apply fine_done. }
  destruct G as [[g E]|[E _]]; [|discriminate]. rewrite E. cbn [bind]. eexists. reflexivity.
Qed.
Lemma sep_fine env h (icol : nat -> Prop) x Bd :
  data_fits h icol x Bd -> (forall r, In r (h_rows h) -> entries_in h icol r) ->
  (forall r, In r (h_rows h) -> row_gcd r <> 0%Z) -> (forall r, In r (h_rows h) -> row_short r) ->
  fine (v_wrapv env) (sep_012_cut env h x).
Proof.
  intros Hd Hr Hg Hs. unfold sep_012_cut. destruct (negb (h_loaded h)); [apply fine_done|].
  destruct (parity_done h x Hg) as (ps & Ep). rewrite Ep. cbn [bind].
  destruct (Nat.eqb _ 0); [apply fine_done|].
  pose proof (get_parity_ilp_of h x ps Ep) as Hp. unfold basic_separation.
  destruct (sep_graph_done h x ps Hp Hs) as (g & Eg). rewrite Eg. cbn [bind].
  destruct (v_late0 env); [apply fine_done|]. cbv zeta.
  apply fine_bind; [|intros; apply fine_done].
  apply (node_loop_fine env h icol x Bd); auto; [exact (sep_graph_ok h icol x ps g Hp Hr Eg)|apply incl_refl].
Qed.
