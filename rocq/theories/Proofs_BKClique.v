(** * Proofs about CglBKClique *)

From Verif Require Import Spec Base Spec_Literals Model_CliqueStrengthening Proofs_CliqueStrRow Model_BKClique.
From Coq Require Import Lia Lqa Arith Permutation.
Open Scope Q_scope.

(** ** What is assumed of the parameters *)

(** A clique of the conflict graph. *)
Definition clique_ok (n : nat) (adj : nat -> nat -> Prop) (c : list nat) : Prop :=
  c <> [] /\ NoDup c /\ (forall l, In l c -> (l < 2 * n)%nat) /\
  (forall l, In l c -> exists b, adj l b) /\
  (forall a b, In a c -> In b c -> a <> b -> adj a b).

Fixpoint qsum (l : list Q) : Q := match l with [] => 0 | q :: l' => q + qsum l' end.

(** The search gives sets of positions of pairwise adjacent vertices, heavy
    enough. *)
Definition search_ok (adj : nat -> nat -> Prop) (f : list nat -> list Q -> nat -> nat -> Q -> list (list nat) * nat * bool) : Prop :=
  forall vs ws pv k mw cl calls comp, NoDup vs -> List.length ws = List.length vs ->
    f vs ws pv k mw = (cl, calls, comp) ->
    forall ps, In ps cl -> ps <> [] /\ NoDup ps /\ (forall p, In p ps -> (p < List.length vs)%nat) /\
      (forall p q, In p ps -> In q ps -> p <> q -> adj (nth p vs 0%nat) (nth q vs 0%nat)) /\
      mw <= qsum (map (fun p => nth p ws 0) ps).

Definition rank_ok (f : list nat -> list Q -> nat -> list nat) : Prop :=
  forall vs ws k, (k < List.length vs)%nat ->
    NoDup (f vs ws k) /\ forall p, In p (f vs ws k) -> (p < List.length vs)%nat.

Definition pool_ok (f : list (vec * Q) -> list (vec * Q)) : Prop :=
  forall cs c, In c (f cs) -> exists c0, In c0 cs /\ Permutation (fst c0) (fst c) /\ snd c0 = snd c.

Definition extend_ok (n : nat) (adj : nat -> nat -> Prop) (f : nat -> list (list nat) -> list bool * list (list nat)) : Prop :=
  forall k cl, (forall c, In c cl -> clique_ok n adj c) ->
    forall d, In d (snd (f k cl)) -> exists c, In c cl /\ ext_ok n adj c d.

Definition env_ok (n : nat) (adj : nat -> nat -> Prop) (e : env) : Prop :=
  (forall l, (2 <= v_degree e l)%nat -> exists b, adj l b) /\
  search_ok adj (v_search e) /\ rank_ok (v_rank e) /\ extend_ok n adj (v_extend e) /\ pool_ok (v_pool e).

(** ** Cliques *)

Lemma value_perm v w y : Permutation v w -> value v y == value w y.
Proof.
  induction 1 as [|[j a] v w P IH|[j a] [k b] v|u v w P1 IH1 P2 IH2]; cbn [value].
  - reflexivity. - rewrite IH. reflexivity. - ring. - rewrite IH1. exact IH2.
Qed.

Lemma ext_clique n adj c d : clique_ok n adj c -> ext_ok n adj c d -> clique_ok n adj d.
Proof.
  intros (NE & ND & L & V & A) (IN & ND2 & L2 & P). unfold clique_ok. conjs.
  - intros ->. destruct c as [|a c]; [apply NE; reflexivity|]. exact (IN a (or_introl eq_refl)).
  - assumption.
  - assumption.
  - intros l H. destruct c as [|a c]; [exfalso; apply NE; reflexivity|].
    destruct (Nat.eq_dec l a) as [->|N]; [apply V; left; reflexivity|].
    destruct (P l a H (IN a (or_introl eq_refl)) N) as [[B _]|[B _]]; [apply V; exact B|exists a; exact B].
  - intros a b HA HB N. destruct (P a b HA HB N) as [[B1 B2]|[B _]]; [apply A; assumption|exact B].
Qed.

Lemma clique_box m adj c y : graph_sound m adj -> clique_ok (m_ncols m) adj c -> in_bounds m y ->
  forall l, In l c -> 0 <= y (lit_col (m_ncols m) l) <= 1.
Proof.
  intros GS (_ & _ & L & V & _) B l H. destruct (V l H) as (b & AB).
  destruct (GS l b AB) as (L1 & _ & B1 & _ & _).
  apply bin_col_01 with (m := m); [exact B1|apply lit_col_lt; exact L1|exact B].
Qed.

Lemma clique_le1 m adj c y : graph_sound m adj -> clique_ok (m_ncols m) adj c -> feasible m y ->
  lits_sum (m_ncols m) c y <= 1.
Proof.
  intros GS CK F. pose proof CK as (_ & ND & L & V & A). apply lits_sum_le1; [exact ND| |].
  - intros l H. apply lit_val_01. apply integral_01.
    + destruct (V l H) as (b & AB). destruct (GS l b AB) as (L1 & _ & (B1 & _) & _ & _).
      apply F; [apply lit_col_lt; exact L1|exact B1].
    + apply (clique_box m adj c y GS CK); [apply F|exact H].
  - intros a b HA HB N. apply (GS a b (A a b HA HB N)). exact F.
Qed.

(** ** The cut of a clique *)

Lemma cut_step_of dbg n st l r : lit_step n st l = Done r -> cut_step dbg n st l = Done r.
Proof.
  unfold lit_step, cut_step. destruct st as [[v rhs] dup].
  destruct (n <=? _)%nat; [discriminate|]. destruct (bump _ _ v) as [w|]; [|tauto].
  destruct (Qeq_bool _ 0); [|discriminate]. rewrite andb_false_r. tauto.
Qed.
Lemma cut_fold_of dbg n d : forall st r, ofold (lit_step n) d st = Done r -> ofold (cut_step dbg n) d st = Done r.
Proof.
  induction d as [|l d IH]; intros st r H; cbn [ofold] in *; [exact H|].
  destruct (lit_step n st l) as [s'| | | |] eqn:E; try discriminate. cbn [bind] in H.
  rewrite (cut_step_of dbg n st l s' E). cbn [bind]. apply IH. exact H.
Qed.

Lemma clique_cut_ok dbg n d : NoDup d -> (forall l, In l d -> (l < 2 * n)%nat) ->
  (exists v rhs, clique_cut dbg n d = Done (v, rhs) /\ NoDup (map fst v) /\
     (forall j a, In (j, a) v -> (j < n)%nat) /\
     forall y, value v y - rhs == lits_sum n d y - 1) \/
  (dbg = true /\ clique_cut dbg n d = Aborts /\
     forall y, (forall l, In l d -> 0 <= y (lit_col n l) <= 1) -> 2 <= lits_sum n d y).
Proof.
  intros ND L. destruct (row_inv_fold n d [] [] 1 0) as (v & rhs & dup & E & J).
  { unfold row_inv. conjs; [constructor|intros ? ? []|intros ? []|cbn; reflexivity|intros y; cbn [value lits_sum]; ring]. }
  { assumption. } { exact ND. }
  cbn [app] in J. apply (cut_fold_of dbg) in E. unfold clique_cut.
  match goal with |- context [ofold ?f ?l ?s0] => replace (ofold f l s0) with (Done (v, rhs, dup)) by (symmetry; exact E) end.
  cbn [bind].
  destruct J as (ND2 & EO & CO & RH & VA).
  assert (SG : forall j a, In (j, a) v -> a == 1 \/ a == -(1) \/ a == 0).
  { intros j a H. destruct (EO j a H) as (_ & [(A & _)|[(A & _)|(A & _)]]); tauto. }
  destruct (Nat.ltb_spec 1 dup) as [D|D].
  - destruct dbg; cbn [andb].
    + right. conjs; [reflexivity|reflexivity|]. intros y Y.
      assert (0 <= value v y + nneg v).
      { apply entries_nonneg. intros j a H. split; [eapply SG; exact H|].
        destruct (EO j a H) as (J & EE). assert (G : In j d \/ In (j + n)%nat d) by tauto.
        destruct G as [G|G]; specialize (Y _ G); unfold lit_col in Y.
        - destruct (Nat.ltb_spec j n); [assumption|lia].
        - destruct (Nat.ltb_spec (j + n) n); [lia|]. replace (j + n - n)%nat with j in Y by lia. assumption. }
      specialize (VA y).
      assert (inject_Z 2 <= inject_Z (Z.of_nat dup)) by (rewrite <- Zle_Qle; lia).
      change (inject_Z 2) with 2 in *. lra.
    + left. destruct (Nat.eqb_spec dup 1); [lia|]. exists v, rhs. conjs; [reflexivity|assumption|intros j a H; apply (EO j a H)|assumption].
  - rewrite andb_false_r. left. destruct (Nat.eqb_spec dup 1) as [->|N].
    + assert (FA : forallb (fun p => Qeq_bool (snd p) (- (1)) || Qeq_bool (snd p) 0 || Qeq_bool (snd p) 1) v = true).
      { apply forallb_forall. intros [j a] H. cbn [snd]. destruct (SG j a H) as [Z|[Z|Z]];
          rewrite (proj2 (Qeqb_eq _ _) Z), ?orb_true_r; reflexivity. }
      rewrite FA. cbn [negb]. rewrite andb_false_r.
      eexists _, _. conjs; [reflexivity| | |].
      * change (fun p : nat * Q => Qeq_bool (snd p) (-(1)) || Qeq_bool (snd p) 1) with keepb.
        clear - ND2. induction v as [|p v IH]; cbn [filter]; [constructor|].
        cbn [map] in ND2. inversion ND2 as [|? ? N1 N2]; subst. specialize (IH N2).
        destruct (keepb p); cbn [map]; [|assumption]. constructor; [|assumption].
        intros H. apply N1. apply in_map_iff in H. destruct H as (q & Q1 & Q2).
        apply filter_In in Q2. apply in_map_iff. exists q. tauto.
      * intros j a H. apply filter_In in H. apply (EO j a). tauto.
      * intros y. change (fun p : nat * Q => Qeq_bool (snd p) (-(1)) || Qeq_bool (snd p) 1) with keepb.
        rewrite keep_value by assumption. rewrite keep_nneg.
        specialize (VA y). change (inject_Z (Z.of_nat 1)) with 1 in RH. lra.
    + exists v, rhs. conjs; [reflexivity|assumption|intros j a H; apply (EO j a H)|assumption].
Qed.

(** ** Separation *)

Lemma pick_ok {A} (d : A) (l : list A) ps : (forall p, In p ps -> (p < List.length l)%nat) ->
  pick l ps = Done (map (fun p => nth p l d) ps).
Proof.
  unfold pick. induction ps as [|p ps IH]; intros H; cbn [omap map]; [reflexivity|].
  rewrite (nth_error_nth' l d) by (apply H; left; reflexivity). cbn [bind].
  rewrite IH by (intros; apply H; right; assumption). reflexivity.
Qed.
Lemma omap_all {A B} (f : A -> outcome B) (g : A -> B) l : (forall a, In a l -> f a = Done (g a)) ->
  omap f l = Done (map g l).
Proof.
  induction l as [|a l IH]; intros H; cbn [omap map]; [reflexivity|].
  rewrite (H a (or_introl eq_refl)), IH by (intros; apply H; right; assumption). reflexivity.
Qed.
Lemma nth_pick_nodup (vs : list nat) : forall ps, NoDup vs -> NoDup ps -> (forall p, In p ps -> (p < List.length vs)%nat) ->
  NoDup (map (fun p => nth p vs 0%nat) ps).
Proof.
  induction ps as [|p ps IH]; intros NV NP L; cbn [map]; [constructor|].
  inversion NP as [|? ? N1 N2]; subst. constructor.
  - intros H. apply in_map_iff in H. destruct H as (q & Q1 & Q2). apply N1.
    rewrite (proj1 (NoDup_nth vs 0%nat) NV p q); [exact Q2| | |symmetry; exact Q1]; apply L; [left; reflexivity|right; assumption].
  - apply IH; [exact NV|exact N2|intros; apply L; right; assumption].
Qed.

Lemma lval_eq n x l : lval n x l = lit_val n l x.
Proof. reflexivity. Qed.

Lemma weights_sum n x vs ps : (forall p, In p ps -> (p < List.length vs)%nat) ->
  qsum (map (fun p => nth p (map (weight n x) vs) 0) ps) ==
  1000 * lits_sum n (map (fun p => nth p vs 0%nat) ps) x.
Proof.
  induction ps as [|p ps IH]; intros L; cbn [map qsum lits_sum]; [reflexivity|].
  rewrite IH by (intros; apply L; right; assumption).
  rewrite (nth_indep _ 0 (weight n x 0%nat)) by (rewrite map_length; apply L; left; reflexivity).
  rewrite map_nth. unfold weight at 1. rewrite lval_eq. ring.
Qed.

(** A clique found: a clique of the graph, heavy enough at [x]. *)
Definition found (n : nat) (adj : nat -> nat -> Prop) (x : point) (mw : Q) (c : list nat) : Prop :=
  clique_ok n adj c /\ mw <= 1000 * lits_sum n c x.

Lemma induced_ok e b n x (adj : nat -> nat -> Prop) : (forall l, (2 <= v_degree e l)%nat -> exists b, adj l b) ->
  NoDup (induced e b n x) /\
  (forall l, In l (induced e b n x) -> (l < 2 * n)%nat /\ exists b, adj l b).
Proof.
  intros DG. unfold induced. split.
  - apply NoDup_filter, seq_NoDup.
  - intros l H. apply filter_In in H. destruct H as [H1 H2]. apply in_seq in H1. split; [lia|].
    apply DG. unfold taken in H2. apply andb_true_iff in H2. apply Nat.leb_le. apply H2.
Qed.

Lemma separate_ok e adj b n x : env_ok n adj e ->
  exists cl b', separateCliques e b n x = Done (cl, b') /\
    (forall c, In c cl -> found n adj x (b_minWeight b) c) /\
    exists k f, b' = bk_searched b k f.
Proof.
  intros (DG & SK & RK & _ & _). unfold separateCliques.
  destruct (induced_ok e b n x adj DG) as (ND & PR).
  set (vs0 := induced e b n x) in *.
  assert (B0 : b = bk_searched b (b_maxCalls b) (b_complete b)) by (destruct b; reflexivity).
  destruct vs0 as [|v0 vt] eqn:EV.
  { exists [], b. conjs; [reflexivity|intros c []|]. eexists _, _. exact B0. }
  rewrite <- EV in *. clearbody vs0.
  assert (VS : exists vs, (if (0 <? b_maxInduced b)%nat && (b_maxInduced b <? List.length vs0)%nat
       then pick vs0 (v_rank e vs0 (map (weight n x) vs0) (b_maxInduced b)) else Done vs0) = Done vs /\
       NoDup vs /\ forall l, In l vs -> (l < 2 * n)%nat /\ exists b, adj l b).
  { destruct ((0 <? b_maxInduced b)%nat && (b_maxInduced b <? List.length vs0)%nat) eqn:EB.
    - apply andb_true_iff in EB. destruct EB as [_ EB]. apply Nat.ltb_lt in EB.
      destruct (RK vs0 (map (weight n x) vs0) (b_maxInduced b) EB) as (R1 & R2).
      eexists. conjs.
      + apply (pick_ok 0%nat). exact R2.
      + apply nth_pick_nodup; assumption.
      + intros l H. apply in_map_iff in H. destruct H as (p & <- & P). apply PR. apply nth_In. apply R2. exact P.
    - exists vs0. conjs; [reflexivity|exact ND|exact PR]. }
  destruct VS as (vs & -> & NV & PV). cbn [bind].
  destruct (2 <=? List.length vs)%nat.
  2: { eexists _, _. conjs; [reflexivity|intros c []|]. eexists _, _. reflexivity. }
  destruct (v_search e vs (map (weight n x) vs) (b_pivot b) (b_maxCalls b) (b_minWeight b)) as [[cl calls] comp] eqn:ES.
  assert (SP := SK vs (map (weight n x) vs) (b_pivot b) (b_maxCalls b) (b_minWeight b) cl calls comp NV (map_length _ _) ES).
  rewrite (omap_all _ (map (fun p => nth p vs 0%nat))).
  2: { intros ps H. apply pick_ok. apply (SP ps H). }
  cbn [bind]. eexists _, _. conjs; [reflexivity| |eexists _, _; reflexivity].
  intros c H. apply in_map_iff in H. destruct H as (ps & <- & H).
  destruct (SP ps H) as (P0 & P1 & P2 & P3 & P4). split.
  - unfold clique_ok. conjs.
    + destruct ps; [exfalso; apply P0; reflexivity|discriminate].
    + apply nth_pick_nodup; assumption.
    + intros l L. apply in_map_iff in L. destruct L as (p & <- & L). apply PV. apply nth_In. apply P2. exact L.
    + intros l L. apply in_map_iff in L. destruct L as (p & <- & L). apply PV. apply nth_In. apply P2. exact L.
    + intros a c A C N. apply in_map_iff in A. apply in_map_iff in C.
      destruct A as (p & <- & A). destruct C as (q & <- & C). apply P3; [exact A|exact C|].
      intros ->. apply N. reflexivity.
  - rewrite weights_sum in P4 by exact P2. exact P4.
Qed.

(** A clique handed to insertCuts: it contains one that was found. *)
Definition handed (n : nat) (adj : nat -> nat -> Prop) (x : point) (mw : Q) (d : list nat) : Prop :=
  clique_ok n adj d /\ exists c, found n adj x mw c /\ incl c d.

Lemma found_handed n adj x mw c : found n adj x mw c -> handed n adj x mw c.
Proof. intros F. split; [apply F|]. exists c. split; [exact F|apply incl_refl]. Qed.

Lemma extend_handed e adj b n x mw cl : env_ok n adj e -> (forall c, In c cl -> found n adj x mw c) ->
  forall d, In d (extendCliques e b cl) -> handed n adj x mw d.
Proof.
  intros (_ & _ & _ & EX & _) F d H. unfold extendCliques in H.
  destruct (v_extend e (b_ext b) cl) as [flags stored] eqn:E.
  apply in_app_iff in H. destruct H as [H|H].
  - apply in_map_iff in H. destruct H as ([c g] & <- & H). apply filter_In in H. destruct H as [H _].
    apply in_combine_l in H. cbn [fst]. apply found_handed. apply F. exact H.
  - assert (F1 : forall c, In c cl -> clique_ok n adj c) by (intros c C; apply F; exact C).
    destruct (EX (b_ext b) cl F1 d) as (c & C & X); [rewrite E; exact H|].
    split; [apply ext_clique with c; [apply F; exact C|exact X]|].
    exists c. split; [apply F; exact C|apply X].
Qed.

Lemma handed_weight m adj x mw d : graph_sound m adj -> in_bounds m x -> handed (m_ncols m) adj x mw d ->
  mw <= 1000 * lits_sum (m_ncols m) d x.
Proof.
  intros GS B (CD & c & (CC & W) & IN).
  assert (lits_sum (m_ncols m) c x <= lits_sum (m_ncols m) d x); [|lra].
  apply lits_sum_incl; [apply CC|apply CD|exact IN|].
  intros l L. apply lit_val_box. apply (clique_box m adj d x GS CD B l L).
Qed.

(** ** The collection *)

Definition as_cut (p : vec * Q) : rowcut := RowCut (fst p) None (Some (snd p)).

Lemma collect_fold (dup : list rowcut -> rowcut -> bool) f
  (F : forall cs c, f cs c = if dup (map fst cs) (as_cut c) then cs else cs ++ [(as_cut c, false)]) cuts :
  forall cs, exists new, fold_left f cuts cs = cs ++ map (fun c => (c, false)) new /\
    forall c, In c new -> exists p, In p cuts /\ c = as_cut p.
Proof.
  induction cuts as [|p cuts IH]; intros cs; cbn [fold_left].
  - exists []. split; [rewrite app_nil_r; reflexivity|intros c []].
  - rewrite F. destruct (dup (map fst cs) (as_cut p)).
    + destruct (IH cs) as (new & E & N). exists new. split; [exact E|].
      intros c H. destruct (N c H) as (q & Q1 & Q2). exists q. split; [right; exact Q1|exact Q2].
    + destruct (IH (cs ++ [(as_cut p, false)])) as (new & E & N).
      exists (as_cut p :: new). split; [rewrite E, <- app_assoc; reflexivity|].
      intros c [<-|H]; [exists p; split; [left; reflexivity|reflexivity]|].
      destruct (N c H) as (q & Q1 & Q2). exists q. split; [right; exact Q1|exact Q2].
Qed.

Lemma collect_ok (dup : list rowcut -> rowcut -> bool) (mk : bool) f
  (F : forall cs c, f cs c = if dup (map fst cs) (as_cut c) then cs else cs ++ [(as_cut c, false)]) cuts cs :
  exists new,
  (if mk then
    firstn (List.length cs) (fold_left f cuts cs) ++
      map (fun c => (fst c, true)) (skipn (List.length cs) (fold_left f cuts cs))
   else fold_left f cuts cs) = cs ++ map (fun c => (c, mk)) new /\
  forall c, In c new -> exists p, In p cuts /\ c = as_cut p.
Proof.
  destruct (collect_fold dup f F cuts cs) as (new & E & N). exists new. split; [|exact N].
  rewrite E. destruct mk; [|reflexivity].
  rewrite firstn_app, Nat.sub_diag, firstn_all, skipn_app, Nat.sub_diag, skipn_all.
  cbn [firstn skipn app]. rewrite app_nil_r, map_map. reflexivity.
Qed.

Lemma land_pow2 a k : (0 <= k)%Z -> Z.land a (2 ^ k) = if Z.testbit a k then (2 ^ k)%Z else 0%Z.
Proof.
  intros K. apply Z.bits_inj'. intros i I0. rewrite Z.land_spec, Z.pow2_bits_eqb by exact K.
  destruct (Z.eqb_spec k i) as [->|N].
  - destruct (Z.testbit a i); [rewrite Z.pow2_bits_true by exact I0; reflexivity|rewrite Z.bits_0; reflexivity].
  - rewrite andb_false_r. destruct (Z.testbit a k); [|rewrite Z.bits_0; reflexivity].
    rewrite Z.pow2_bits_false by exact N. reflexivity.
Qed.

(** When the new cuts are marked. *)
Definition global_mark (i : info) : Prop :=
  i_inTree i = false /\
  (Z.testbit (i_options i) 2 = true \/ (Z.testbit (i_options i) 3 = true /\ i_pass i = 0%Z)).
Lemma mark_ok i : mark i = true <-> global_mark i.
Proof.
  unfold mark, global_mark.
  change 4%Z with (2 ^ 2)%Z. change 8%Z with (2 ^ 3)%Z. rewrite !land_pow2 by lia.
  change (2 ^ 2)%Z with 4%Z. change (2 ^ 3)%Z with 8%Z.
  destruct (i_inTree i); cbn [negb andb]; [split; [discriminate|intros [H _]; discriminate]|].
  destruct (Z.testbit (i_options i) 2); cbn [Z.eqb Pos.eqb orb]; [tauto|].
  destruct (Z.testbit (i_options i) 3); cbn [Z.eqb Pos.eqb negb andb].
  - rewrite Z.eqb_eq. split; [intros H; split; [reflexivity|right; split; [reflexivity|exact H]]|].
    intros [_ [H|[_ H]]]; [discriminate|exact H].
  - split; [discriminate|]. intros [_ [H|[H _]]]; discriminate.
Qed.

(** ** Insertion *)

Lemma omap_in {A B} (f : A -> outcome B) l : forall r, omap f l = Done r ->
  forall b, In b r -> exists a, In a l /\ f a = Done b.
Proof.
  induction l as [|a l IH]; cbn [omap]; intros r H b B0.
  - apply Done_inj in H. subst r. destruct B0.
  - destruct (f a) as [c| | | |] eqn:E; try discriminate. cbn [bind] in H.
    destruct (omap f l) as [r'| | | |] eqn:E2; try discriminate. cbn [bind] in H.
    apply Done_inj in H. subst r. destruct B0 as [<-|B0].
    + exists a. split; [left; reflexivity|exact E].
    + destruct (IH r' eq_refl b B0) as (a' & A1 & A2). exists a'. split; [right; exact A1|exact A2].
Qed.
Lemma omap_done {A B} (f : A -> outcome B) l : (forall a, In a l -> exists b, f a = Done b) ->
  exists r, omap f l = Done r.
Proof.
  induction l as [|a l IH]; intros H; cbn [omap]; [exists []; reflexivity|].
  destruct (H a (or_introl eq_refl)) as (b & ->). destruct IH as (r & ->); [intros; apply H; right; assumption|].
  cbn [bind]. exists (b :: r). reflexivity.
Qed.

(** A row cut that says that the literals of [d] sum to at most one. *)
Definition says (n : nat) (d : list nat) (c : rowcut) : Prop :=
  rc_lb c = None /\ exists u, rc_ub c = Some u /\ forall y, value (rc_form c) y - u == lits_sum n d y - 1.

Lemma insertCuts_ok e adj i n cl cs cs' : env_ok n adj e ->
  (forall d, In d cl -> clique_ok n adj d) -> insertCuts e i n cl cs = Done cs' ->
  exists new, cs' = cs ++ map (fun c => (c, mark i)) new /\
    forall c, In c new -> exists d, In d cl /\ says n d c.
Proof.
  intros (_ & _ & _ & _ & PK) CK H. unfold insertCuts in H.
  destruct (omap (clique_cut (v_debug e) n) cl) as [cuts| | | |] eqn:E; try discriminate.
  cbn [bind] in H. apply Done_inj in H. subst cs'. unfold insert_cuts.
  match goal with |- context [fold_left ?f _ _] =>
    destruct (collect_ok (v_dup e) (mark i) f (fun _ _ => eq_refl) (v_pool e cuts) cs) as (new & EN & N) end.
  exists new. split; [exact EN|]. intros c C. destruct (N c C) as (p & P & ->).
  destruct (PK cuts p P) as (p0 & P0 & PM & PS).
  destruct (omap_in _ _ _ E p0 P0) as (d & D & ED). exists d. split; [exact D|].
  destruct (CK d D) as (_ & ND & L & _ & _).
  destruct (clique_cut_ok (v_debug e) n d ND L) as [(v & rhs & EC & _ & _ & V)|(_ & EC & _)]; [|congruence].
  rewrite EC in ED. apply Done_inj in ED. subst p0. cbn [fst snd] in PM, PS.
  split; [reflexivity|]. exists (snd p). split; [reflexivity|]. intros y. cbn [as_cut rc_form].
  rewrite <- (value_perm _ _ y PM), <- PS. apply V.
Qed.

Lemma insertCuts_done e adj i m cl cs y0 : graph_sound m adj -> feasible m y0 ->
  (forall d, In d cl -> clique_ok (m_ncols m) adj d) -> exists cs', insertCuts e i (m_ncols m) cl cs = Done cs'.
Proof.
  intros GS F CK. unfold insertCuts.
  destruct (omap_done (clique_cut (v_debug e) (m_ncols m)) cl) as (r & ->).
  - intros d D. pose proof (CK d D) as (_ & ND & L & _ & _).
    destruct (clique_cut_ok (v_debug e) (m_ncols m) d ND L) as [(v & rhs & EC & _)|(_ & _ & T)].
    + exists (v, rhs). exact EC.
    + exfalso. assert (2 <= lits_sum (m_ncols m) d y0).
      { apply T. apply (clique_box m adj d y0 GS (CK d D)). apply F. }
      pose proof (clique_le1 m adj d y0 GS (CK d D) F). lra.
  - cbn [bind]. eexists. reflexivity.
Qed.

(** ** generateCuts *)

Lemma generate_ok e adj i n nr gs x b cs b' cs' : env_ok n adj e ->
  generateCuts e i n nr gs x b cs = Done (b', cs') ->
  (exists k f, b' = bk_searched b k f) /\
  exists new, cs' = cs ++ map (fun c => (c, mark i)) new /\
    forall c, In c new -> exists d, handed n adj x (b_minWeight b) d /\ says n d c.
Proof.
  intros EK H. unfold generateCuts in H.
  assert (B0 : b = bk_searched b (b_maxCalls b) (b_complete b)) by (destruct b; reflexivity).
  destruct ((n =? 0)%nat || (nr =? 0)%nat).
  { apply Done_inj in H. inversion H; subst. split; [eexists _, _; exact B0|].
    exists []. split; [rewrite app_nil_r; reflexivity|intros c []]. }
  destruct (n =? gs / 2)%nat; [|discriminate]. cbn [negb] in H.
  destruct (separate_ok e adj (bk_searched b (capped_calls b) (b_complete b)) n x EK) as (cl & b2 & ES & FC & k & f & EB).
  rewrite ES in H. cbn [bind] in H.
  assert (EB2 : exists k f, b2 = bk_searched b k f) by (exists k, f; rewrite EB; reflexivity).
  destruct cl as [|c0 ct] eqn:EC.
  { apply Done_inj in H. inversion H; subst b' cs'. split; [exact EB2|].
    exists []. split; [rewrite app_nil_r; reflexivity|intros c []]. }
  rewrite <- EC in *. clear EC c0 ct.
  set (cl' := if (b_ext b2 =? 0)%nat || v_late e then cl else extendCliques e b2 cl) in *.
  assert (HD : forall d, In d cl' -> handed n adj x (b_minWeight b) d).
  { subst cl'. destruct ((b_ext b2 =? 0)%nat || v_late e).
    - intros d D. apply found_handed. apply FC. exact D.
    - apply (extend_handed e adj b2 n x (b_minWeight b) cl EK). exact FC. }
  destruct (insertCuts e i n cl' cs) as [cs1| | | |] eqn:EI; try discriminate.
  cbn [bind] in H. apply Done_inj in H. inversion H; subst b' cs'. split; [exact EB2|].
  destruct (insertCuts_ok e adj i n cl' cs cs1 EK (fun d D => proj1 (HD d D)) EI) as (new & E & N).
  exists new. split; [exact E|]. intros c C. destruct (N c C) as (d & D & S0).
  exists d. split; [apply HD; exact D|exact S0].
Qed.

Lemma generate_done e adj i m nr gs x b cs y0 : env_ok (m_ncols m) adj e -> graph_sound m adj ->
  feasible m y0 -> (gs / 2 = m_ncols m)%nat ->
  exists r, generateCuts e i (m_ncols m) nr gs x b cs = Done r.
Proof.
  intros EK GS F G. unfold generateCuts. set (n := m_ncols m) in *.
  destruct ((n =? 0)%nat || (nr =? 0)%nat); [eexists; reflexivity|].
  rewrite G, Nat.eqb_refl. cbn [negb].
  destruct (separate_ok e adj (bk_searched b (capped_calls b) (b_complete b)) n x EK) as (cl & b2 & ES & FC & _).
  rewrite ES. cbn [bind]. destruct cl as [|c0 ct] eqn:EC; [eexists; reflexivity|].
  rewrite <- EC in *. clear EC c0 ct.
  set (cl' := if (b_ext b2 =? 0)%nat || v_late e then cl else extendCliques e b2 cl).
  assert (HD : forall d, In d cl' -> clique_ok n adj d).
  { subst cl'. destruct ((b_ext b2 =? 0)%nat || v_late e).
    - intros d D. apply (FC d D).
    - intros d D. apply (extend_handed e adj b2 n x _ cl EK FC d D). }
  destruct (insertCuts_done e adj i m cl' cs y0 GS F HD) as (cs1 & E).
  fold n in E. rewrite E. cbn [bind]. eexists. reflexivity.
Qed.
