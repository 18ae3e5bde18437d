(** * Properties of CglPreProcess::cliqueIt *)
From Coq Require Import Permutation.
From Verif Require Import Model_CliqueIt Proofs_CliqueIt.
Local Open Scope Q_scope.

(** The sort only has to be a permutation; the random numbers are arbitrary. *)
Definition sorts (srt : list (Q * nat) -> list (Q * nat)) : Prop :=
  forall l, Permutation l (srt l).

(** ** C108: the new problem *)
Theorem C108_no_point_lost : forall rnd srt m needed m',
  sorts srt -> wf_mip m -> clique_it rnd srt m needed = Done (Some m') ->
  forall x, feasible m x -> feasible m' x.
Proof. intros rnd srt m needed m' S W E. exact (forward rnd srt S m W needed m' E). Qed.
Print Assumptions C108_no_point_lost.

Theorem C108_same_columns : forall rnd srt m needed m',
  sorts srt -> wf_mip m -> clique_it rnd srt m needed = Done (Some m') ->
  m_ncols m' = m_ncols m /\ m_clo m' = m_clo m /\ m_chi m' = m_chi m /\ m_int m' = m_int m /\
  (length (m_rows m') < length (m_rows m))%nat /\ wf_mip m'.
Proof.
  intros rnd srt m needed m' S W E. destruct (result rnd srt S m W needed) as (o & Eo & R).
  rewrite E in Eo. apply Done_inj in Eo.
  destruct (R m' (eq_sym Eo)) as (kept & ls & dom & -> & Ek & L & _ & C & _).
  cbn [m_ncols m_clo m_chi m_int m_rows]. repeat (split; [reflexivity|]). split.
  - rewrite app_length, map_length. exact L.
  - intros r Ir. cbn [m_rows m_ncols] in *. apply in_app_or in Ir. destruct Ir as [Ir|Ir].
    + subst kept. apply keep_rows_in in Ir. destruct Ir as (i & Ri & _ & <-). apply W. now apply nth_In.
    + apply in_map_iff in Ir. destruct Ir as (l & <- & Il). destruct (C l Il) as [L2 MM].
      unfold wf_row, clique_row. cbn [r_form]. rewrite map_map. cbn [fst]. rewrite map_id.
      split; [apply MM|]. intros j a Ij. apply in_map_iff in Ij. destruct Ij as (k & Ek' & Ij).
      injection Ek' as -> _. apply maximal_iff with (rnd := rnd) (srt := srt) in MM; auto; [|lia].
      destruct MM as (_ & I & _). apply I in Ij. unfold possible in Ij. apply filter_In in Ij.
      destruct Ij as [Ij _]. apply in_seq in Ij. lia.
Qed.
Print Assumptions C108_same_columns.

(** ** C109: the two problems have the same feasible points when no two packing
    rows share two columns *)
Theorem C109_same_points : forall rnd srt m needed m',
  sorts srt -> wf_mip m -> apart m -> clique_it rnd srt m needed = Done (Some m') ->
  forall x, feasible m' x <-> feasible m x.
Proof.
  intros rnd srt m needed m' S W A E x. split.
  - exact (backward rnd srt S m W needed m' A E x).
  - exact (forward rnd srt S m W needed m' E x).
Qed.
Print Assumptions C109_same_points.

(** ** C110: the rows added *)
Theorem C110_rows : forall rnd srt m needed m',
  sorts srt -> wf_mip m -> clique_it rnd srt m needed = Done (Some m') ->
  exists kept ls, m_rows m' = kept ++ map (fun l => Row (map (fun j => (j, 1)) l) None (Some 1)) ls /\
    subseq kept (m_rows m) /\
    (forall l, In l ls -> (2 < length l)%nat /\ max_clique m l) /\
    ForallOrdPairs (fun l l' => ~ same_set l l') ls /\
    (apart m -> forall M, max_clique m M -> (2 < length M)%nat ->
       exists l, In l ls /\ same_set M l).
Proof.
  intros rnd srt m needed m' S W E. destruct (result rnd srt S m W needed) as (o & Eo & R).
  rewrite E in Eo. apply Done_inj in Eo.
  destruct (R m' (eq_sym Eo)) as (kept & ls & dom & -> & Ek & L & _ & C & O & A).
  exists kept, ls. split; [reflexivity|]. split; [subst kept; apply keep_rows_sub|]. split; [exact C|].
  split; [|exact A]. clear - O. induction O as [|a l F O IH]; constructor; [|exact IH].
  eapply Forall_impl; [|exact F]. intros b H [H1 _]. contradiction.
Qed.
Print Assumptions C110_rows.

(** ** C111: every call comes to an end without an abort and without leaving
    its arrays *)
Theorem C111_always_done : forall rnd srt m needed,
  sorts srt -> wf_mip m -> exists o, clique_it rnd srt m needed = Done o.
Proof.
  intros rnd srt m needed S W. destruct (result rnd srt S m W needed) as (o & E & _). eauto.
Qed.
Print Assumptions C111_always_done.

(** ** C112: the rows taken away *)
Theorem C112_removed : forall rnd srt m needed m' i,
  sorts srt -> wf_mip m -> clique_it rnd srt m needed = Done (Some m') ->
  in_range m i -> ~ In (row_at m i) (m_rows m') ->
  (exists q, q <> i /\ twin m q i) \/
  (used m i /\ (forall l, r_lo (row_at m i) = Some l -> l <= 0) /\
   exists l a b, In (Row (map (fun j => (j, 1)) l) None (Some 1)) (m_rows m') /\
     In a l /\ In b l /\ a <> b /\ has_col m i a /\ has_col m i b).
Proof.
  intros rnd srt m needed m' i S W E Ri N. destruct (result rnd srt S m W needed) as (o & Eo & R).
  rewrite E in Eo. apply Done_inj in Eo.
  destruct (R m' (eq_sym Eo)) as (kept & ls & dom & -> & Ek & L & Dm & _). cbn [m_rows] in *.
  destruct (dom i) eqn:Ed.
  - apply Dm in Ed. destruct Ed as [Ed|(U & _ & Z & l & a & b & Il & K)].
    + left. destruct (dups_rep rnd srt S m i Ed) as (q & Nq & T). exists q. split; [|exact T].
      intro H. subst. contradiction.
    + right. split; [exact U|]. split; [intros k Hk; now apply (type1_zero m (row_at m i))|].
      exists l, a, b. split; [|exact K]. apply in_or_app. right. now apply (in_map clique_row).
  - exfalso. apply N. apply in_or_app. left. subst kept. apply keep_rows_in. exists i. auto.
Qed.
Print Assumptions C112_removed.

(** Two rows with two entries: a copy has the same points, columns and kind. *)
Theorem C112_copy_stays : forall rnd srt m needed m' x,
  sorts srt -> wf_mip m -> clique_it rnd srt m needed = Done (Some m') ->
  forall i, in_range m i -> ~ used m i -> feasible m' x -> row_sat (row_at m i) x.
Proof.
  intros rnd srt m needed m' x S W E i Ri Nu (F & _). destruct (result rnd srt S m W needed) as (o & Eo & R).
  rewrite E in Eo. apply Done_inj in Eo.
  destruct (R m' (eq_sym Eo)) as (kept & ls & dom & -> & Ek & L & Dm & _). cbn [m_rows] in *.
  assert (K : forall q, ~ In q (dups rnd srt m) -> ~ used m q -> in_range m q -> row_sat (row_at m q) x).
  { intros q Nq Uq Rq. apply F. apply in_or_app. left. subst kept. apply keep_rows_in.
    exists q. split; [exact Rq|]. split; [|reflexivity]. cbn [Nat.add].
    destruct (dom q) eqn:Ed; [|reflexivity]. apply Dm in Ed. destruct Ed as [Ed|(U & _)]; contradiction. }
  destruct (in_dec Nat.eq_dec i (dups rnd srt m)) as [Id|Id]; [|now apply K].
  destruct (dups_rep rnd srt S m i Id) as (q & Nq & T). pose proof T as (Rq & Sq & Hq & Pq).
  apply Sq. apply K; [exact Nq| |exact Rq]. intro U. apply Nu.
  apply (twin_used m i q); [|exact U]. split; [exact Ri|]. split; [intro y; symmetry; apply Sq|].
  split; [intro j; symmetry; apply Hq|symmetry; exact Pq].
Qed.
Print Assumptions C112_copy_stays.

(** ** C113: copies of the search object *)
Theorem C113_assigned_to_new_refuted : forall b s f,
  (0 < bk_np b)%nat -> ~ (bk_cand b = [] /\ bk_not b = []) ->
  exists a, assign_bk empty_bk b = Done a /\ bron (S f) a s = Undef OutOfBounds.
Proof.
  intros b s f P Ne. exists {| bk_adj := bk_adj b; bk_type := bk_type b; bk_np := bk_np b;
    bk_cap := 0; bk_cand := bk_cand b; bk_not := bk_not b; bk_in := bk_in b |}.
  split; [reflexivity|]. cbn [bron bk_cand bk_not].
  replace (Nat.eqb (length (bk_cand b)) 0 && Nat.eqb (length (bk_not b)) 0) with false.
  2:{ symmetry. apply andb_false_iff. rewrite !Nat.eqb_neq.
      destruct (bk_cand b); [|left; discriminate]. destruct (bk_not b); [|right; discriminate].
      exfalso. apply Ne. auto. }
  unfold branch. cbn [bk_cap bk_np bk_in]. set (st := choose _).
  destruct (snd st) as [v|]; cbn [bind Nat.eqb]; [|reflexivity].
  replace (Nat.leb _ 0) with false; [reflexivity|]. symmetry. apply Nat.leb_gt. lia.
Qed.
Print Assumptions C113_assigned_to_new_refuted.

Theorem C113_copy : forall b c, copy_bk b = Done c ->
  bk_adj c = bk_adj b /\ bk_np c = bk_np b /\ bk_cand c = bk_cand b /\ bk_not c = bk_not b /\
  bk_in c = bk_in b /\ copy_bk c = Done c.
Proof.
  intros b c. unfold copy_bk. destruct (Nat.leb _ _); intro H; [|discriminate H].
  apply Done_inj in H. subst c. cbn [bk_adj bk_np bk_cand bk_not bk_in bk_cap bk_type].
  rewrite Nat.leb_refl. auto 10.
Qed.
Print Assumptions C113_copy.

(** ** Cases *)
Definition bmip (n : nat) (rows : list (list nat)) : mip :=
  {| m_ncols := n; m_rows := map clique_row rows; m_clo := fun _ => Some 0;
     m_chi := fun _ => Some 1; m_int := fun _ => true |}.
Definition idsort (l : list (Q * nat)) := l.
Lemma idsort_sorts : sorts idsort.
Proof. intro l. apply Permutation_refl. Qed.
Lemma bmip_wf n rows : forallb (fun l => forallb (fun j => Nat.ltb j n) l) rows = true ->
  (forall l, In l rows -> NoDup l) -> wf_mip (bmip n rows).
Proof.
  intros F N r I. cbn in I. apply in_map_iff in I. destruct I as (l & <- & I). split.
  - cbn. rewrite map_map. cbn. rewrite map_id. now apply N.
  - intros j a Ij. cbn in Ij. apply in_map_iff in Ij. destruct Ij as (k & E & Ik). injection E as -> _.
    rewrite forallb_forall in F. specialize (F l I). rewrite forallb_forall in F. specialize (F j Ik).
    now apply Nat.ltb_lt.
Qed.
Ltac nodups := intros ? I; cbn in I; repeat (destruct I as [<-|I]; [repeat constructor; cbn; intuition discriminate|]); destruct I.

(** Three edges become one clique. *)
Definition triangle : mip := bmip 3 [[0; 1]; [1; 2]; [0; 2]]%nat.
Example C108_triangle : wf_mip triangle /\
  clique_it (fun j => inject_Z (Z.of_nat j)) idsort triangle (1 # 10000) =
  Done (Some (Mip 3 [clique_row [0; 1; 2]%nat] (fun _ => Some 0) (fun _ => Some 1) (fun _ => true))).
Proof.
  split; [apply bmip_wf; [reflexivity|nodups]|]. vm_compute. reflexivity.
Qed.
Lemma triangle_has i j : has_col triangle i j ->
  (i = 0 /\ (j = 0 \/ j = 1) \/ i = 1 /\ (j = 1 \/ j = 2) \/ i = 2 /\ (j = 0 \/ j = 2))%nat.
Proof.
  unfold has_col, row_at. destruct i as [|[|[|i]]]; cbn; intuition. destruct i; cbn in H; contradiction.
Qed.
Example C109_triangle : apart triangle.
Proof.
  intros i1 i2 a b _ _ Ne _ _ Nab A1 B1 A2 B2.
  apply triangle_has in A1, B1, A2, B2. lia.
Qed.

(** Two equal edges, a row with other coefficients and a row over a column of no
    other packing row: what is kept. *)
Definition mixed : mip :=
  {| m_ncols := 6;
     m_rows := [clique_row [0; 1]%nat; clique_row [1; 0]%nat; clique_row [1; 2]%nat;
                clique_row [0; 2]%nat; Row [(0%nat, 1); (1%nat, 1); (3%nat, 1)] (Some 1) (Some 1);
                clique_row [2; 4]%nat; Row [(3%nat, 2); (0%nat, 1)] None (Some 2)];
     m_clo := fun _ => Some 0; m_chi := fun _ => Some 1; m_int := fun _ => true |}.
Example C112_mixed : exists m', clique_it (fun j => inject_Z (Z.of_nat j + 1)) idsort mixed (1 # 10000) =
    Done (Some m') /\
  m_rows m' = [Row [(0%nat, 1); (1%nat, 1); (3%nat, 1)] (Some 1) (Some 1); clique_row [2; 4]%nat;
               Row [(3%nat, 2); (0%nat, 1)] None (Some 2); clique_row [0; 1; 2]%nat].
Proof. eexists. split; [vm_compute; reflexivity|vm_compute; reflexivity]. Qed.

(** Rows sharing two columns: neighbours are counted twice, branches are left
    out, and a row is deleted although no added clique contains it. *)
Definition shared_pairs : mip :=
  bmip 7 [[3; 4; 5]; [0; 1; 2]; [1; 3; 5]; [0; 2; 4; 6]]%nat.
Definition pt34 : point := fun j => if Nat.eqb j 3 || Nat.eqb j 4 then 1 else 0.
Theorem C109_same_points_refuted : wf_mip shared_pairs /\
  exists m', clique_it (fun _ => 0) idsort shared_pairs (1 # 10000) = Done (Some m') /\
    feasible m' pt34 /\ ~ feasible shared_pairs pt34.
Proof.
  split; [apply bmip_wf; [reflexivity|nodups]|].
  exists (Mip 7 [clique_row [0; 2; 4; 6]%nat; clique_row [1; 0; 2]%nat; clique_row [1; 3; 5]%nat]
    (fun _ => Some 0) (fun _ => Some 1) (fun _ => true)).
  split; [vm_compute; reflexivity|]. split.
  - split; [|split].
    + intros r I. cbn in I. repeat (destruct I as [<-|I]; [split; [exact Logic.I|vm_compute; congruence]|]). destruct I.
    + intros j _. unfold pt34. cbn. destruct (_ || _); split; vm_compute; congruence.
    + intros j _ _. unfold pt34. destruct (_ || _); [exists 1%Z|exists 0%Z]; reflexivity.
  - intros (F & _). specialize (F (clique_row [3; 4; 5]%nat) (or_introl eq_refl)).
    destruct F as [_ F]. vm_compute in F. congruence.
Qed.
Print Assumptions C109_same_points_refuted.

(** A maximal clique of the same problem that is not added. *)
Theorem C110_all_refuted : exists m', 
  clique_it (fun _ => 0) idsort shared_pairs (1 # 10000) = Done (Some m') /\
  (forall u v, In u [3; 4; 5]%nat -> In v [3; 4; 5]%nat -> u <> v -> exists i,
     in_range shared_pairs i /\ packing shared_pairs (row_at shared_pairs i) /\
     has_col shared_pairs i u /\ has_col shared_pairs i v) /\
  forall r, In r (m_rows m') -> ~ incl [3; 4]%nat (map fst (r_form r)).
Proof.
  exists (Mip 7 [clique_row [0; 2; 4; 6]%nat; clique_row [1; 0; 2]%nat; clique_row [1; 3; 5]%nat]
    (fun _ => Some 0) (fun _ => Some 1) (fun _ => true)).
  split; [vm_compute; reflexivity|]. split.
  - intros u v Iu Iv _. exists 0%nat. split; [vm_compute; repeat constructor|]. split.
    + apply type1_spec. vm_compute. congruence.
    + split; [exact Iu|exact Iv].
  - intros r I Inc. cbn in I.
    pose proof (Inc 3%nat (or_introl eq_refl)) as A. pose proof (Inc 4%nat (or_intror (or_introl eq_refl))) as B.
    repeat (destruct I as [<-|I]; [cbn in A, B; intuition discriminate|]). destruct I.
Qed.
Print Assumptions C110_all_refuted.

Example C113_case : exists b s, new_bk (fun _ => 0) idsort triangle (types2 triangle) 6 = Done (b, s) /\
  (0 < bk_np b)%nat /\ ~ (bk_cand b = [] /\ bk_not b = []).
Proof.
  eexists. eexists. split; [reflexivity|]. cbn [bk_np bk_cand]. split; [vm_compute; repeat constructor|].
  intros [H _]. vm_compute in H. discriminate H.
Qed.
