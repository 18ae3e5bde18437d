(** * Properties of CglBKClique (C68 - C71) *)

From Verif Require Import Spec Base Decide Spec_Literals Model_BKClique Proofs_BKClique.
From Coq Require Import Lia Lqa Arith Permutation.
Open Scope Q_scope.

(** ** C68: the cuts keep every feasible point *)

(** The collection only grows, every cut added keeps all points of any
    program about which the conflict graph is right, and the added cuts are
    marked as globally valid exactly at the root with option bit 2, or with
    option bit 3 in the first pass. *)
Theorem C68_valid : forall e adj m i nr gs x b cs b' cs',
  env_ok (m_ncols m) adj e -> graph_sound m adj ->
  generateCuts e i (m_ncols m) nr gs x b cs = Done (b', cs') ->
  exists new, cs' = cs ++ new /\
    forall c g, In (c, g) new -> keeps_all m c /\ (g = true <-> global_mark i).
Proof.
  intros e adj m i nr gs x b cs b' cs' EK GS H.
  destruct (generate_ok e adj i _ nr gs x b cs b' cs' EK H) as (_ & new & E & N).
  eexists. split; [exact E|]. intros c g C. apply in_map_iff in C. destruct C as (c' & P & C).
  inversion P; subst. split; [|apply mark_ok].
  destruct (N c C) as (d & (CD & _) & (LB & u & UB & V)). intros y F.
  unfold rowcut_sat. rewrite LB, UB. cbn [ge_opt_lo le_opt_hi]. split; [exact Logic.I|].
  specialize (V y). pose proof (clique_le1 m adj d y GS CD F). lra.
Qed.
Print Assumptions C68_valid.

(** ** C69: the cuts are violated *)

(** Generators a user can hold: built, set, copied, used. *)
Inductive held : bk -> Prop :=
  | held_new : held bk_new
  | held_copy b : held b -> held (bk_copy b)
  | held_set b s b' : held b -> bk_apply b s = Done b' -> held b'
  | held_used b e i n nr gs x cs b' cs' adj : held b -> env_ok n adj e ->
      generateCuts e i n nr gs x b cs = Done (b', cs') -> held b'.

Lemma held_weight b : held b -> b_minWeight b == 1000 * (1 + b_minViol b) /\ b_calls b = 0%nat.
Proof.
  induction 1 as [|b _ IH|b s b' _ IH E|b e i n nr gs x cs b' cs' adj _ IH EK E].
  - split; reflexivity.
  - exact IH.
  - destruct s; cbn in E; try (apply Done_inj in E; subst b'; exact IH).
    + destruct k as [|[|[|[|[|[|[|k]]]]]]]; cbn in E; try discriminate; apply Done_inj in E; subst b'; exact IH.
    + apply Done_inj in E; subst b'. cbn [b_minWeight b_minViol b_calls]. split; [ring|apply IH].
  - destruct (generate_ok e adj i n nr gs x b cs b' cs' EK E) as ((k & f & ->) & _). exact IH.
Qed.

(** Every cut added is violated by the LP solution by at least the minimum
    violation in force, whatever happened to the generator before. *)
Theorem C69_violated : forall e adj m i nr gs x b cs b' cs',
  env_ok (m_ncols m) adj e -> graph_sound m adj -> in_bounds m x -> held b ->
  generateCuts e i (m_ncols m) nr gs x b cs = Done (b', cs') ->
  exists new, cs' = cs ++ new /\
    forall c g, In (c, g) new -> b_minViol b <= rowcut_violation c x.
Proof.
  intros e adj m i nr gs x b cs b' cs' EK GS B HB H.
  destruct (generate_ok e adj i _ nr gs x b cs b' cs' EK H) as (_ & new & E & N).
  eexists. split; [exact E|]. intros c g C. apply in_map_iff in C. destruct C as (c' & P & C).
  inversion P; subst. destruct (N c C) as (d & HD & (LB & u & UB & V)).
  pose proof (handed_weight m adj x _ d GS B HD) as W. rewrite (proj1 (held_weight b HB)) in W.
  specialize (V x). unfold rowcut_violation. rewrite LB, UB.
  assert (b_minViol b <= value (rc_form c) x - u) by lra.
  destruct (Qle_bool 0 (value (rc_form c) x - u)) eqn:E0.
  - destruct (Qle_bool (value (rc_form c) x - u) 0) eqn:E1; [apply Qleb_le in E1|]; lra.
  - apply Qleb_gt in E0. cbn [Qle_bool]. replace (Qle_bool 0 0) with true by reflexivity. lra.
Qed.
Print Assumptions C69_violated.

(** ** C70: parameters *)

(** The last value given by some setters. *)
Fixpoint last_set {A} (f : bk_set -> option A) (l : list bk_set) (d : A) : A :=
  match l with [] => d | s :: l' => last_set f l' (match f s with Some a => a | None => d end) end.
Definition s_minFrac s := match s with BSetMinFrac q => Some q | _ => None end.
Definition s_minViol s := match s with BSetMinViol q => Some q | _ => None end.
Definition s_calls s := match s with BSetMaxCalls q => Some q | _ => None end.
Definition s_secs s := match s with BSetSecs q => Some q | _ => None end.
Definition s_ext s := match s with BSetExt q => Some q | _ => None end.
Definition s_ind s := match s with BSetInduced q => Some q | _ => None end.
Definition s_piv s := match s with BSetPivot q => Some q | _ => None end.
Definition s_base s := match s with BSetBaseSecs q => Some q | _ => None end.

(** Any sequence of setter calls with extension methods up to six goes
    through, and each parameter is then what was set last; cloning keeps all
    of them. *)
Theorem C70_getters : forall l b, (forall k, In (BSetExt k) l -> (k <= 6)%nat) ->
  exists b', ofold bk_apply l b = Done b' /\
  b_minFrac b' = last_set s_minFrac l (b_minFrac b) /\
  b_minViol b' = last_set s_minViol l (b_minViol b) /\
  b_maxCalls b' = last_set s_calls l (b_maxCalls b) /\
  b_secs b' = last_set s_secs l (b_secs b) /\
  b_ext b' = last_set s_ext l (b_ext b) /\
  b_maxInduced b' = last_set s_ind l (b_maxInduced b) /\
  b_pivot b' = last_set s_piv l (b_pivot b) /\
  b_base_secs b' = last_set s_base l (b_base_secs b) /\
  bk_copy b' = b'.
Proof.
  induction l as [|s l IH]; intros b K.
  - exists b. cbn [ofold last_set]. conjs; try reflexivity. destruct b; reflexivity.
  - assert (X : exists b1, bk_apply b s = Done b1).
    { destruct s as [k|q|k|k|q|q|k|q]; cbn [bk_apply]; try (eexists; reflexivity).
      specialize (K k (or_introl eq_refl)). destruct (Nat.ltb_spec 6 k); [lia|eexists; reflexivity]. }
    destruct X as (b1 & E). destruct (IH b1) as (b' & E' & Q).
    { intros k H. apply K. right. exact H. }
    exists b'. cbn [ofold]. rewrite E. cbn [bind]. split; [exact E'|].
    destruct s as [k|q|k|k|q|q|k|q]; cbn [bk_apply] in E;
      [| | |destruct (6 <? k)%nat; [discriminate|]| | | |]; apply Done_inj in E; subst b1; exact Q.
Qed.
Print Assumptions C70_getters.

(** setExtendingMethod stops the program exactly for numbers above six. *)
Theorem C70_extension_method : forall b k, bk_apply b (BSetExt k) = Aborts <-> (6 < k)%nat.
Proof.
  intros b k. cbn [bk_apply]. destruct (Nat.ltb_spec 6 k); split; intros; try reflexivity; try lia; discriminate.
Qed.
Print Assumptions C70_extension_method.

(** generateCuts leaves every parameter alone except the limit on the number
    of calls; and a time limit set through the interface of the base class
    changes nothing about what generateCuts does. *)
Theorem C70_call_keeps : forall e adj i n nr gs x b cs b' cs', env_ok n adj e ->
  generateCuts e i n nr gs x b cs = Done (b', cs') ->
  b_minFrac b' = b_minFrac b /\ b_minViol b' = b_minViol b /\ b_minWeight b' = b_minWeight b /\
  b_pivot b' = b_pivot b /\ b_ext b' = b_ext b /\ b_secs b' = b_secs b /\
  b_maxInduced b' = b_maxInduced b /\ b_base_secs b' = b_base_secs b /\
  b_aggr b' = b_aggr b /\ b_global b' = b_global b.
Proof.
  intros e adj i n nr gs x b cs b' cs' EK H.
  destruct (generate_ok e adj i n nr gs x b cs b' cs' EK H) as ((k & f & ->) & _). cbn. tauto.
Qed.
Print Assumptions C70_call_keeps.

Definition cuts_of {A B} (o : outcome (A * B)) : outcome B :=
  match o with Done (_, c) => Done c | Throws => Throws | Aborts => Aborts | Undef k => Undef k | OutOfFuel => OutOfFuel end.

(** ** Cases *)

Definition zero : nat -> option Q := fun _ => Some 0.
Definition one : nat -> option Q := fun _ => Some 1.
Definition ints : nat -> bool := fun _ => true.
Definition half : point := fun _ => 1 # 2.
Definition root : info := Info false 4 0.

(** Three columns, at most one of any two. *)
Definition tri : mip :=
  Mip 3 [Row [(0%nat, 1); (1%nat, 1)] None (Some 1); Row [(0%nat, 1); (2%nat, 1)] None (Some 1);
         Row [(1%nat, 1); (2%nat, 1)] None (Some 1)] zero one ints.
Definition tri_adj (a b : nat) : Prop := (a < 3)%nat /\ (b < 3)%nat /\ a <> b.

Lemma zero_one_bin n rows j : bin_col (Mip n rows zero one ints) j.
Proof. unfold bin_col. cbn. conjs; [reflexivity|exists 0; split; [reflexivity|lra]|exists 1; split; [reflexivity|lra]]. Qed.

Example tri_sound : graph_sound tri tri_adj.
Proof.
  intros a b (A & B & N). conjs; try (cbn; lia); try apply zero_one_bin.
  intros y (F & _) [VA VB]. unfold lit_val in VA, VB. cbn [tri m_ncols] in VA, VB.
  destruct (Nat.ltb_spec a 3); [|lia]. destruct (Nat.ltb_spec b 3); [|lia].
  assert (P : forall r, In r (m_rows tri) -> row_sat r y) by exact F.
  destruct (P _ (or_introl eq_refl)) as [_ P1]. destruct (P _ (or_intror (or_introl eq_refl))) as [_ P2].
  destruct (P _ (or_intror (or_intror (or_introl eq_refl)))) as [_ P3]. cbn in P1, P2, P3.
  destruct a as [|[|[|a]]], b as [|[|[|b]]]; try lia; lra.
Qed.

(** A search over this graph that needs one call per vertex and then gives
    the set of all vertices, provided they are pairwise adjacent and heavy
    enough. *)
Definition whole_clique (vs : list nat) : bool :=
  forallb (fun a => (a <? 3)%nat) vs.
Definition tri_search (vs : list nat) (ws : list Q) (pv k : nat) (mw : Q) : list (list nat) * nat * bool :=
  if (List.length vs <=? k)%nat then
    ((if whole_clique vs && negb (List.length vs =? 0)%nat && Qle_bool mw (qsum (map (fun p => nth p ws 0) (seq 0 (List.length vs))))
      then [seq 0 (List.length vs)] else []), List.length vs, true)
  else ([], k, false).
Definition tri_env : env :=
  Env (fun l => if (l <? 3)%nat then 2%nat else 1%nat) (fun vs _ k => seq 0 k) tri_search
      (fun _ cl => (map (fun _ => false) cl, [])) (fun cs => cs) (fun _ _ => false) false true.

Lemma tri_search_ok : search_ok tri_adj tri_search.
Proof.
  intros vs ws pv k mw cl calls comp ND LW E ps P. unfold tri_search in E.
  destruct (List.length vs <=? k)%nat; [|inversion E; subst; destruct P].
  destruct (whole_clique vs && negb (List.length vs =? 0)%nat && Qle_bool mw (qsum (map (fun p => nth p ws 0) (seq 0 (List.length vs))))) eqn:G.
  2: { inversion E; subst; destruct P. }
  apply andb_true_iff in G. destruct G as [G G3]. apply andb_true_iff in G. destruct G as [G1 G2].
  inversion E; subst cl. destruct P as [<-|[]]. apply Qleb_le in G3.
  apply negb_true_iff, Nat.eqb_neq in G2. unfold whole_clique in G1. rewrite forallb_forall in G1.
  conjs.
  - destruct (List.length vs); [contradiction|discriminate].
  - apply seq_NoDup.
  - intros p P. apply in_seq in P. lia.
  - intros p q P Q N. apply in_seq in P. apply in_seq in Q. unfold tri_adj.
    assert (A := G1 _ (nth_In vs 0%nat (proj2 P))). assert (B := G1 _ (nth_In vs 0%nat (proj2 Q))).
    apply Nat.ltb_lt in A. apply Nat.ltb_lt in B. conjs; [exact A|exact B|].
    intros Z. apply N. apply (proj1 (NoDup_nth vs 0%nat) ND p q); [exact (proj2 P)|exact (proj2 Q)|exact Z].
  - exact G3.
Qed.
Example tri_env_ok : env_ok 3 tri_adj tri_env.
Proof.
  unfold env_ok. cbn [tri_env v_degree v_search v_rank v_extend v_pool]. conjs.
  - intros l H. destruct (Nat.ltb_spec l 3) as [L|L]; [|lia].
    destruct l as [|l]; [exists 1%nat|exists 0%nat]; unfold tri_adj; lia.
  - exact tri_search_ok.
  - intros vs ws k K. split; [apply seq_NoDup|]. intros p P. apply in_seq in P. lia.
  - intros k cl _ d [].
  - intros cs c C. exists c. conjs; [exact C|apply Permutation_refl|reflexivity].
Qed.

(** C68, C69: the point (1/2, 1/2, 1/2) is cut off by x0 + x1 + x2 <= 1. *)
Example C68_case : exists b', generateCuts tri_env root 3 3 6 half bk_new [] =
  Done (b', [(RowCut [(0%nat, 1); (1%nat, 1); (2%nat, 1)] None (Some 1), true)]).
Proof. eexists. vm_compute. reflexivity. Qed.
Example C69_case : in_bounds tri half /\ held bk_new /\
  rowcut_violation (RowCut [(0%nat, 1); (1%nat, 1); (2%nat, 1)] None (Some 1)) half == 1 # 2.
Proof.
  conjs; [|constructor|vm_compute; reflexivity]. intros j J. cbn. unfold half. split; lra.
Qed.
Example C70_case : exists b', ofold bk_apply [BSetExt 3; BSetMinViol (1 # 10); BSetMaxCalls 50; BSetExt 6] bk_new = Done b' /\
  b_ext b' = 6%nat /\ b_minWeight b' == 1100 /\ b_maxCalls b' = 50%nat.
Proof. eexists. conjs; vm_compute; reflexivity. Qed.

(** The limit on the number of calls does not survive a call: after a call on
    a point where only two vertices are taken, the generator has forgotten
    its limit and finds nothing where a new generator finds a cut. *)
Theorem C70_limit_refuted : exists e adj m x1 x2 b1 cs1 b2,
  env_ok (m_ncols m) adj e /\ graph_sound m adj /\ in_bounds m x1 /\ in_bounds m x2 /\
  generateCuts e root (m_ncols m) 3 6 x1 bk_new [] = Done (b1, cs1) /\
  b_maxCalls b1 <> b_maxCalls bk_new /\
  generateCuts e root (m_ncols m) 3 6 x2 b1 [] = Done (b2, []) /\
  cuts_of (generateCuts e root (m_ncols m) 3 6 x2 bk_new []) <> Done [].
Proof.
  exists tri_env, tri_adj, tri, (fun j => if (j <? 2)%nat then 9 # 10 else 0), half.
  eexists _, _, _. conjs.
  - exact tri_env_ok.
  - exact tri_sound.
  - intros j J. unfold tri, zero, one. cbn [m_clo m_chi ge_opt_lo le_opt_hi]. destruct (j <? 2)%nat; split; lra.
  - intros j J. cbn. unfold half. split; lra.
  - vm_compute. reflexivity.
  - vm_compute. discriminate.
  - vm_compute. reflexivity.
  - vm_compute. discriminate.
Qed.
Print Assumptions C70_limit_refuted.

(** The number of calls reported is always zero. *)
Theorem C70_calls_reported_refuted : (forall b, held b -> b_calls b = 0%nat) /\
  exists e adj i n nr gs x cs b' cs' k vs, env_ok n adj e /\
    generateCuts e i n nr gs x bk_new cs = Done (b', cs') /\
    snd (fst (v_search e vs (map (weight n x) vs) (b_pivot bk_new) (b_maxCalls bk_new) (b_minWeight bk_new))) = k /\
    vs = induced e bk_new n x /\ k <> 0%nat.
Proof.
  split; [intros b H; apply (held_weight b H)|].
  exists tri_env, tri_adj, root, 3%nat, 3%nat, 6%nat, half, []. eexists _, _, 3%nat, [0; 1; 2]%nat.
  conjs; [exact tri_env_ok|vm_compute; reflexivity|vm_compute; reflexivity|vm_compute; reflexivity|discriminate].
Qed.
Print Assumptions C70_calls_reported_refuted.

(** A time limit given through a pointer to the base class is not seen: the
    call does exactly what it would have done without it.  (Given to the
    class itself, the same limit lowers the number of calls.) *)
Theorem C70_base_limit_refuted :
  (forall e i n nr gs x b cs q,
     cuts_of (generateCuts e i n nr gs x (BK (b_minFrac b) (b_minViol b) (b_minWeight b) (b_pivot b) (b_ext b) (b_maxCalls b) (b_calls b) (b_complete b) (b_secs b) (b_maxInduced b) q (b_aggr b) (b_global b)) cs) =
     cuts_of (generateCuts e i n nr gs x b cs)) /\
  (forall b q, exists b1, bk_apply b (BSetBaseSecs q) = Done b1 /\ capped_calls b1 = capped_calls b) /\
  exists b q b1, held b /\ bk_apply b (BSetSecs q) = Done b1 /\ capped_calls b1 <> capped_calls b.
Proof.
  conjs.
  - intros e i n nr gs x [a1 a2 a3 a4 a5 a6 a7 a8 a9 a10 a11 a12 a13] cs q. cbn [b_minFrac b_minViol b_minWeight b_pivot b_ext b_maxCalls b_calls b_complete b_secs b_maxInduced b_aggr b_global].
    unfold generateCuts, separateCliques, bk_searched, capped_calls.
    cbn [b_minFrac b_minViol b_minWeight b_pivot b_ext b_maxCalls b_calls b_complete b_secs b_maxInduced b_aggr b_global].
    unfold induced, taken. cbn [b_minFrac].
    destruct ((n =? 0)%nat || (nr =? 0)%nat); [reflexivity|]. destruct (negb _); [reflexivity|].
    set (vs0 := filter _ (seq 0 (2 * n))). destruct vs0 as [|v0 vt] eqn:EV; [reflexivity|]. rewrite <- EV. clear EV.
    match goal with |- context [bind (if ?c then ?a else ?d) _] => destruct (if c then a else d) as [vs| | | |]; try reflexivity end.
    cbn [bind]. destruct (2 <=? List.length vs)%nat; [|reflexivity].
    destruct (v_search e vs _ _ _ _) as [[cl calls] comp]. destruct (omap (pick vs) cl) as [cl2| | | |]; try reflexivity.
    cbn [bind]. destruct cl2 as [|c0 ct]; [reflexivity|]. unfold extendCliques. cbn [b_ext].
    destruct (insertCuts e i n _ cs); reflexivity.
  - intros b q. eexists. split; [reflexivity|]. reflexivity.
  - exists bk_new, 15. eexists. conjs; [constructor|reflexivity|vm_compute; discriminate].
Qed.
Print Assumptions C70_base_limit_refuted.

(** ** C71: the call returns *)

(** On a program that has a feasible point, with a conflict graph of the
    right size that is right about it, the call returns: no assertion fails
    and no array is overrun, with assertions on or off. *)
Theorem C71_returns : forall e adj m i nr gs x b cs y0,
  env_ok (m_ncols m) adj e -> graph_sound m adj -> feasible m y0 -> (gs / 2 = m_ncols m)%nat ->
  exists b' cs', generateCuts e i (m_ncols m) nr gs x b cs = Done (b', cs').
Proof.
  intros e adj m i nr gs x b cs y0 EK GS F G.
  destruct (generate_done e adj i m nr gs x b cs y0 EK GS F G) as ([b' cs'] & E). exists b', cs'. exact E.
Qed.
Print Assumptions C71_returns.

(** A graph of the wrong size stops the program. *)
Theorem C71_wrong_graph : forall e i n nr gs x b cs, n <> 0%nat -> nr <> 0%nat -> (gs / 2 <> n)%nat ->
  generateCuts e i n nr gs x b cs = Aborts.
Proof.
  intros e i n nr gs x b cs N R G. unfold generateCuts.
  destruct (Nat.eqb_spec n 0); [contradiction|]. destruct (Nat.eqb_spec nr 0); [contradiction|].
  destruct (Nat.eqb_spec n (gs / 2)); [congruence|]. reflexivity.
Qed.
Print Assumptions C71_wrong_graph.

Example C71_case : feasible tri (fun j => if (j =? 1)%nat then 1 else 0) /\ (6 / 2 = m_ncols tri)%nat.
Proof. split; [apply feasible_b_ok; vm_compute; reflexivity|reflexivity]. Qed.

(** Without a feasible point an assertion can fail: two columns with all four
    literals in conflict. *)
Definition none : mip :=
  Mip 2 [Row [(0%nat, 1); (1%nat, 1)] None (Some (1 # 2)); Row [(0%nat, 1); (1%nat, 1)] (Some 1) None] zero one ints.
Definition none_adj (a b : nat) : Prop := (a < 4)%nat /\ (b < 4)%nat /\ a <> b.
Definition none_env : env :=
  Env (fun l => if (l <? 4)%nat then 3%nat else 0%nat) (fun vs _ k => seq 0 k)
      (fun vs ws pv k mw =>
         (if forallb (fun a => (a <? 4)%nat) vs && negb (List.length vs =? 0)%nat
             && Qle_bool mw (qsum (map (fun p => nth p ws 0) (seq 0 (List.length vs))))
          then [seq 0 (List.length vs)] else [], List.length vs, true))
      (fun _ cl => (map (fun _ => false) cl, [])) (fun cs => cs) (fun _ _ => false) false true.
Theorem C71_infeasible_refuted : exists e adj m x,
  env_ok (m_ncols m) adj e /\ graph_sound m adj /\ in_bounds m x /\ v_debug e = true /\
  generateCuts e root (m_ncols m) 2 4 x bk_new [] = Aborts.
Proof.
  exists none_env, none_adj, none, half. conjs.
  - unfold env_ok. cbn [none_env v_degree v_search v_rank v_extend v_pool]. conjs.
    + intros l H. destruct (Nat.ltb_spec l 4) as [L|L]; [|lia].
      destruct l as [|l]; [exists 1%nat|exists 0%nat]; unfold none_adj; lia.
    + intros vs ws pv k mw cl calls comp ND LW E ps P.
      destruct (forallb (fun a => (a <? 4)%nat) vs && negb (List.length vs =? 0)%nat && Qle_bool mw (qsum (map (fun p => nth p ws 0) (seq 0 (List.length vs))))) eqn:G.
      2: { inversion E; subst; destruct P. }
      apply andb_true_iff in G. destruct G as [G G3]. apply andb_true_iff in G. destruct G as [G1 G2].
      inversion E; subst cl. destruct P as [<-|[]]. apply Qleb_le in G3.
      apply negb_true_iff, Nat.eqb_neq in G2. rewrite forallb_forall in G1. conjs.
      * destruct (List.length vs); [contradiction|discriminate].
      * apply seq_NoDup.
      * intros p P. apply in_seq in P. lia.
      * intros p q P Q N. apply in_seq in P. apply in_seq in Q. unfold none_adj.
        assert (A := G1 _ (nth_In vs 0%nat (proj2 P))). assert (B := G1 _ (nth_In vs 0%nat (proj2 Q))).
        apply Nat.ltb_lt in A. apply Nat.ltb_lt in B. conjs; [exact A|exact B|].
        intros Z. apply N. apply (proj1 (NoDup_nth vs 0%nat) ND p q); [exact (proj2 P)|exact (proj2 Q)|exact Z].
      * exact G3.
    + intros vs ws k K. split; [apply seq_NoDup|]. intros p P. apply in_seq in P. lia.
    + intros k cl _ d [].
    + intros cs c C. exists c. conjs; [exact C|apply Permutation_refl|reflexivity].
  - intros a b (A & B & N). conjs; try (cbn; lia); try apply zero_one_bin.
    intros y (F & _) _. assert (P : forall r, In r (m_rows none) -> row_sat r y) by exact F.
    destruct (P _ (or_introl eq_refl)) as [_ P1]. destruct (P _ (or_intror (or_introl eq_refl))) as [P2 _].
    cbn in P1, P2. lra.
  - intros j J. cbn. unfold half. split; lra.
  - reflexivity.
  - vm_compute. reflexivity.
Qed.
Print Assumptions C71_infeasible_refuted.
