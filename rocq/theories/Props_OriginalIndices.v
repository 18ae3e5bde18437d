(** * Properties of originalColumns and originalRows *)
From Verif Require Import Model_OriginalIndices Proofs_OriginalIndices.

Lemma create_inv nr nc before p after cols rows c r :
  (forall q, In q after -> ps_info q = None) -> ps_info p = Some (cols, rows) ->
  create_original nr nc (before ++ p :: after) = Done (c, r) ->
  exists c1, (ps_cols p <= length cols)%nat /\ (ps_rows p <= length rows)%nat /\
    ofold back_step (rev before) (firstn (ps_cols p) cols, firstn (ps_rows p) rows) = Done (c1, r) /\ c = zsort c1.
Proof.
  intros N P E. unfold create_original in E. rewrite rev_app_distr in E. cbn [rev] in E. rewrite <- app_assoc in E.
  cbn [app] in E. rewrite from_last_app in E; [|intros q I; apply N; now apply in_rev|congruence].
  rewrite P in E. unfold copy_n in E.
  destruct (Nat.leb_spec (ps_cols p) (length cols)); [|discriminate E]. cbn [bind] in E.
  destruct (Nat.leb_spec (ps_rows p) (length rows)); [|discriminate E]. cbn [bind] in E.
  destruct (ofold back_step (rev before) _) as [[c1 r1]| | | |] eqn:F; try discriminate E. cbn [bind fst snd] in E.
  apply Done_inj in E. apply pair_equal_spec in E. destruct E as [<- <-]. exists c1. auto.
Qed.
Lemma nth_firstn {A} n : forall (l : list A) i, (i < n)%nat -> nth_error (firstn n l) i = nth_error l i.
Proof.
  induction n as [|n IH]; intros l i H; [lia|]. destruct l as [|a l]; [reflexivity|].
  destruct i as [|i]; [reflexivity|]. cbn. apply IH. lia.
Qed.

(** ** C128: each column and row is followed back through all passes *)
Theorem C128_columns : forall nr nc before p after cols rows c r,
  (forall q, In q after -> ps_info q = None) -> ps_info p = Some (cols, rows) ->
  (forall q, In q (before ++ [p]) -> increasing (cols_of q)) ->
  create_original nr nc (before ++ p :: after) = Done (c, r) ->
  length c = ps_cols p /\ increasing c /\
  forall i, (i < ps_cols p)%nat -> exists x, nth_error c i = Some x /\
    trace (map cols_of (rev (before ++ [p]))) (Z.of_nat i) = Some x.
Proof.
  intros nr nc before p after cols rows c r N P Inc E.
  destruct (create_inv _ _ _ _ _ _ _ _ _ N P E) as (c1 & L1 & L2 & F & ->).
  destruct (back_trace _ _ _ _ _ F) as (_ & Lc & _ & S & _).
  assert (Ic : increasing c1).
  { apply (back_increasing (rev before) (firstn (ps_cols p) cols) (firstn (ps_rows p) rows) c1 r); [| |exact F].
    - intros q I. apply Inc. apply in_or_app. left. now apply in_rev.
    - apply increasing_firstn. specialize (Inc p). unfold cols_of in Inc. rewrite P in Inc. apply Inc.
      apply in_or_app. right. now left. }
  rewrite sort_increasing by exact Ic. rewrite firstn_length_le in Lc by exact L1.
  split; [exact Lc|]. split; [exact Ic|]. intros i Li.
  destruct (nth_error cols i) as [x|] eqn:X; [|apply nth_error_None in X; lia].
  destruct (S i x) as (y & Hy & Ty); [now rewrite nth_firstn|]. exists y. split; [exact Hy|].
  rewrite rev_app_distr. cbn [rev app map trace]. unfold cols_of at 1. rewrite P, zth_nat, X. exact Ty.
Qed.
Print Assumptions C128_columns.

Theorem C128_rows : forall nr nc before p after cols rows c r,
  (forall q, In q after -> ps_info q = None) -> ps_info p = Some (cols, rows) ->
  create_original nr nc (before ++ p :: after) = Done (c, r) ->
  length r = ps_rows p /\
  forall i, (i < ps_rows p)%nat -> exists x, nth_error r i = Some x /\
    trace_row (rev (before ++ [p])) (Z.of_nat i) = Some x.
Proof.
  intros nr nc before p after cols rows c r N P E.
  destruct (create_inv _ _ _ _ _ _ _ _ _ N P E) as (c1 & L1 & L2 & F & ->).
  destruct (back_trace _ _ _ _ _ F) as (_ & _ & Lr & _ & S).
  rewrite firstn_length_le in Lr by exact L2. split; [exact Lr|]. intros i Li.
  destruct (nth_error rows i) as [x|] eqn:X; [|apply nth_error_None in X; lia].
  destruct (S i x) as (y & Hy & Ty); [now rewrite nth_firstn|]. exists y. split; [exact Hy|].
  rewrite rev_app_distr. cbn [rev app trace_row].
  replace ((0 <=? Z.of_nat i) && (Z.of_nat i <? Z.of_nat (ps_rows p)))%Z%bool with true.
  2:{ symmetry. apply andb_true_iff. split; [apply Z.leb_le; lia|apply Z.ltb_lt; lia]. }
  unfold rows_of. rewrite P, zth_nat, X. exact Ty.
Qed.
Print Assumptions C128_rows.

(** Without a presolve every column and row is its own. *)
Theorem C128_no_presolve : forall nr nc ps, (forall q, In q ps -> ps_info q = None) ->
  create_original nr nc ps = Done (map Z.of_nat (seq 0 nc), map Z.of_nat (seq 0 nr)).
Proof.
  intros nr nc ps N. unfold create_original. rewrite from_last_none; [reflexivity|].
  intros q I. apply N. now apply in_rev.
Qed.
Print Assumptions C128_no_presolve.

(** In any case the columns are sorted, and are the ones found by following back. *)
Theorem C128_sorted : forall nr nc before p after cols rows c r,
  (forall q, In q after -> ps_info q = None) -> ps_info p = Some (cols, rows) ->
  create_original nr nc (before ++ p :: after) = Done (c, r) ->
  StronglySorted Z.le c /\
  Permutation (map Some c) (map (fun i => trace (map cols_of (rev (before ++ [p]))) (Z.of_nat i)) (seq 0 (ps_cols p))).
Proof.
  intros nr nc before p after cols rows c r N P E.
  destruct (create_inv _ _ _ _ _ _ _ _ _ N P E) as (c1 & L1 & L2 & F & ->).
  destruct (back_trace _ _ _ _ _ F) as (_ & Lc & _ & S & _). rewrite firstn_length_le in Lc by exact L1.
  split; [apply sort_sorted|].
  apply (perm_trans (Permutation_map Some (sort_perm c1))).
  replace (map (fun i => trace (map cols_of (rev (before ++ [p]))) (Z.of_nat i)) (seq 0 (ps_cols p))) with (map Some c1);
    [apply Permutation_refl|].
  apply nth_ext with (d := None) (d' := None); [now rewrite !map_length, seq_length|].
  intros i Li. rewrite map_length, Lc in Li.
  destruct (nth_error cols i) as [x|] eqn:X; [|apply nth_error_None in X; lia].
  destruct (S i x) as (y & Hy & Ty); [now rewrite nth_firstn|].
  rewrite (nth_error_nth (map Some c1) i None (map_nth_error Some i c1 Hy)).
  rewrite (nth_indep _ None (trace (map cols_of (rev (before ++ [p]))) (Z.of_nat O))) by (now rewrite map_length, seq_length).
  rewrite (map_nth (fun i => trace (map cols_of (rev (before ++ [p]))) (Z.of_nat i))), seq_nth by exact Li.
  rewrite rev_app_distr. cbn [rev app map trace Nat.add]. unfold cols_of at 1. rewrite P, zth_nat, X. now symmetry.
Qed.
Print Assumptions C128_sorted.

(** Arrays that fit together are read within their bounds. *)
Theorem C128_done : forall nr nc before p after,
  (forall q, In q after -> ps_info q = None) -> chain nr nc (rev (before ++ [p])) ->
  exists c r, create_original nr nc (before ++ p :: after) = Done (c, r).
Proof.
  intros nr nc before p after N Ch. rewrite rev_app_distr in Ch. cbn [rev app] in Ch. destruct Ch as [Fp Ch].
  assert (Fn : exists n n', fits n n' p /\ (forall q t, rev before = q :: t -> n = ps_cols q)).
  { destruct (rev before) as [|q t]; [exists nc, nr; split; [exact Fp|discriminate]|]. exists (ps_cols q), (ps_rows q).
    split; [exact Fp|]. intros q' t' E. injection E as <- <-. reflexivity. }
  destruct Fn as (n & n' & (cols & rows & P & L1 & L2 & B1 & B2) & Hn).
  unfold create_original. rewrite rev_app_distr. cbn [rev]. rewrite <- app_assoc. cbn [app].
  rewrite from_last_app; [|intros q I; apply N; now apply in_rev|congruence]. rewrite P. unfold copy_n.
  rewrite L1, L2, !Nat.leb_refl. cbn [bind]. rewrite <- L1, <- L2, !firstn_all.
  destruct (back_done nr nc (rev before) cols rows Ch) as [[c1 r1] E].
  { intros q t E x I. rewrite <- (Hn q t E). now apply B1. }
  rewrite E. cbn [bind]. eauto.
Qed.
Print Assumptions C128_done.

(** ** Cases *)
Definition ex_ps : list pass :=
  [{| ps_rows := 4; ps_cols := 5; ps_info := Some ([0; 2; 3; 5; 6], [1; 2; 3; 5])%Z |};
   {| ps_rows := 3; ps_cols := 3; ps_info := Some ([0; 3; 4], [0; 2; 7])%Z |};
   {| ps_rows := 0; ps_cols := 0; ps_info := None |}].
Example C128_example : create_original 6 7 ex_ps = Done ([0; 5; 6]%Z, [1; 3; -1]%Z).
Proof. vm_compute. reflexivity. Qed.
Example C128_hypotheses : (forall q, In q (firstn 2 ex_ps) -> increasing (cols_of q)).
Proof.
  intros q I. cbn in I. destruct I as [<-|[<-|[]]]; intros i k x y L E F; cbn in E, F.
  - do 6 (destruct i as [|i]; [do 6 (destruct k as [|k]; [cbn in E, F; try lia; apply Some_inj in E, F + discriminate F; lia|]); destruct k; discriminate F|]).
    destruct i; discriminate E.
  - do 4 (destruct i as [|i]; [do 4 (destruct k as [|k]; [cbn in E, F; try lia; apply Some_inj in E, F + discriminate F; lia|]); destruct k; discriminate F|]).
    destruct i; discriminate E.
Qed.
(** A second pass with a cut row (index 7 is not in the first model). *)
Definition ex_fit : list pass :=
  [{| ps_rows := 2; ps_cols := 2; ps_info := Some ([0; 2], [1; 2])%Z |};
   {| ps_rows := 2; ps_cols := 1; ps_info := Some ([1], [0; -1])%Z |}].
Example C128_fit : chain 3 3 (rev ex_fit) /\ create_original 3 3 ex_fit = Done ([2]%Z, [1; -1]%Z).
Proof.
  split; [|vm_compute; reflexivity]. cbn. split; [|split; [|exact I]].
  - exists [1]%Z, [0; -1]%Z. do 3 (split; [reflexivity|]). split; intros x H; cbn in H; intuition lia.
  - exists [0; 2]%Z, [1; 2]%Z. do 3 (split; [reflexivity|]). split; intros x H; cbn in H; intuition lia.
Qed.

(** With a presolve that changes the order of columns the sort breaks the link:
    column 0 comes from 1, the answer is 0. *)
Theorem C128_order_refuted : exists nr nc p c r,
  chain nr nc [p] /\ create_original nr nc [p] = Done (c, r) /\
  exists i x, nth_error c i = Some x /\ trace [cols_of p] (Z.of_nat i) <> Some x.
Proof.
  exists O, 2%nat, {| ps_rows := 0; ps_cols := 2; ps_info := Some ([1; 0]%Z, []) |}, [0; 1]%Z, [].
  split; [|split; [vm_compute; reflexivity|]].
  - cbn. split; [|exact I]. exists [1; 0]%Z, []. do 3 (split; [reflexivity|]). split; intros x H; cbn in H; intuition lia.
  - exists O, 0%Z. split; [reflexivity|]. cbn. discriminate.
Qed.
Print Assumptions C128_order_refuted.

(** A pass without presolve before one with a presolve is a null pointer. *)
Theorem C128_gap_refuted : exists nr nc p q,
  chain nr nc [q] /\ create_original nr nc [p; q] = Undef NullDeref.
Proof.
  exists 1%nat, 1%nat, {| ps_rows := 1; ps_cols := 1; ps_info := None |},
    {| ps_rows := 1; ps_cols := 1; ps_info := Some ([0]%Z, [0]%Z) |}.
  split; [|vm_compute; reflexivity]. cbn. split; [|exact I].
  exists [0]%Z, [0]%Z. do 3 (split; [reflexivity|]). split; intros x H; cbn in H; intuition lia.
Qed.
Print Assumptions C128_gap_refuted.
