(** * Properties of CglAllDifferent: C13, C14, C37, C38 *)

From Coq Require Import Sorted Permutation.
From Verif Require Import Base Model_AllDifferent Proofs_AllDifferent.
Local Open Scope Q_scope.

(** ** Specification *)
(** The point takes pairwise different values at the positions of [s]. *)
Definition different_on (s : list nat) (x : point) : Prop :=
  ForallOrdPairs (fun a b => ~ x a == x b) s.
(** [x] is a solution: within the column bounds, integral on the listed
    columns, different on every set. *)
Definition solves (m : mip) (sets : list (list nat)) (x : point) : Prop :=
  in_bounds m x /\ (forall c, In c (concat sets) -> integral (x c)) /\
  (forall s, In s sets -> different_on s x).
(** All listed columns are named once, in increasing order, before any of
    them is named a second time. *)
Definition listed_in_order (sets : list (list nat)) : Prop :=
  exists p q, concat sets = p ++ q /\ StronglySorted lt p /\ incl q p.
(** The ways of listing the sets for which the theorems hold: columns in
    increasing order before any repetition, or one single set. *)
Definition listing_ok (sets : list (list nat)) : Prop :=
  sets <> [] /\ (listed_in_order sets \/ exists s, sets = [s]).

Lemma different_nodup s x :
  (forall c, In c s -> integral (x c)) -> different_on s x ->
  NoDup (map (fun c => Qfloor (x c)) s).
Proof.
  intros I D. induction D as [|a l F D IH]; simpl; [constructor|].
  constructor; [|apply IH; intros; apply I; right; assumption].
  intro H. apply in_map_iff in H as (b & E & B). rewrite Forall_forall in F. apply (F b B).
  destruct (I a) as [p P]; [left; reflexivity|]. destruct (I b) as [q Q]; [right; exact B|].
  rewrite P, Q in E. rewrite !Qfloor_Z in E. rewrite P, Q, E. reflexivity.
Qed.
Lemma nodup_map_back {A B} (f : A -> B) l : NoDup (map f l) -> NoDup l.
Proof. apply NoDup_map_inv. Qed.

(** What the stored sets mean at a solution. *)
Lemma stored_different m sets x :
  listing_ok sets -> solves m sets x ->
  forall t, In t (map (map (translate (concat sets))) sets) -> NoDup (map (xi (concat sets) x) t).
Proof.
  intros (_ & [(p & q & E & S & I)|(s & ->)]) (_ & Int & Diff) t T.
  - apply in_map_iff in T as (s & <- & Hs). rewrite map_map.
    assert (Is : forall c, In c s -> In c (concat sets)) by (intros c C; apply in_concat; eauto).
    replace (map _ s) with (map (fun c => Qfloor (x c)) s).
    + apply different_nodup; auto.
    + apply map_ext_in. intros c C. unfold xi. rewrite (translate_back sets p q c E S I (Is c C)). reflexivity.
  - destruct T as [<-|[]]. simpl in *. rewrite app_nil_r in *.
    assert (D : NoDup (map (fun c => Qfloor (x c)) s)) by (apply different_nodup; auto).
    pose proof (nodup_map_back _ _ D) as N.
    assert (Cn : count [s] = length s).
    { apply count_len; [exact N|]. simpl. rewrite app_nil_r. tauto. }
    assert (P : Permutation (map (translate s) s) (seq 0 (length s))).
    { apply NoDup_Permutation_bis.
      - clear D Diff Int Cn. assert (K : forall l, incl l s -> NoDup l -> NoDup (map (translate s) l)).
        { induction l as [|a l IH]; simpl; intros Il Nl; [constructor|].
          apply NoDup_cons_iff in Nl as (N1 & N2). constructor; [|apply IH; auto; intros z Z; apply Il; right; exact Z].
          intro H. apply in_map_iff in H as (b & B1 & B2). apply N1.
          rewrite <- (translate_inj s b a); auto; [apply Il; right; exact B2|apply Il; left; reflexivity]. }
        apply K; [apply incl_refl|exact N].
      - rewrite map_length, seq_length. lia.
      - intros k K. apply in_map_iff in K as (c & <- & C). apply in_seq. split; [lia|].
        simpl. rewrite <- Cn. pose proof (translate_lt [s] c) as H. simpl in H. rewrite app_nil_r in H. auto. }
    apply (Permutation_map (xi s x)) in P. apply (Permutation_NoDup (Permutation_sym P)).
    replace (map (xi s x) (seq 0 (length s))) with (map (fun c => Qfloor (x c)) s); [exact D|].
    unfold xi. clear. rewrite <- (map_map (fun i => nth i s 0%nat) (fun c => Qfloor (x c))). f_equal.
    assert (K : forall (l : list nat) a, map (fun i => nth (i - a) l 0%nat) (seq a (length l)) = l).
    { induction l as [|b l IH]; intro a; simpl; [reflexivity|]. rewrite Nat.sub_diag. f_equal.
      rewrite <- (IH (S a)) at 2. apply map_ext_in. intros i Hi. apply in_seq in Hi.
      destruct (i - a)%nat as [|k] eqn:X; [lia|]. replace (i - S a)%nat with k by lia. reflexivity. }
    transitivity (map (fun i => nth (i - 0) s 0%nat) (seq 0 (length s))); [symmetry; apply K|].
    apply map_ext. intro i. rewrite Nat.sub_0_r. reflexivity.
Qed.

Lemma listing_sound debug fuel sets m cs cs' oc x :
  listing_ok sets -> solves m sets x ->
  generateCuts debug fuel (ad_new sets) m cs = Done (cs', oc) ->
  cs' = cs /\ forall cc, oc = Some cc -> colcut_sat cc x.
Proof.
  intros L S. rewrite ad_new_eq by (apply L). intro E.
  apply (generate_sound debug fuel _ m cs cs' oc (count sets) x) in E; [exact E|reflexivity| | | |];
    cbn [ad_sets ad_orig].
  - intros s k. apply local_lt.
  - intros i Hi. destruct S as (_ & S & _). apply S. apply nth_In.
    assert (H : (count sets <= length (concat sets))%nat); [|lia].
    unfold count, translate. apply (NoDup_incl_length); [apply NoDup_filter, seq_NoDup|].
    intros c C. apply filter_In in C as (_ & C). apply memn_in. exact C.
  - apply S.
  - apply (stored_different m); assumption.
Qed.

(** ** C13: bound tightening loses no solution *)
Theorem C13_tightening_keeps_solutions debug fuel sets m cs cs' cc x :
  listing_ok sets ->
  generateCuts debug fuel (ad_new sets) m cs = Done (cs', Some cc) ->
  solves m sets x -> colcut_sat cc x.
Proof.
  intros L E S. destruct (listing_sound _ _ _ _ _ _ _ _ L S E) as (_ & H). apply H. reflexivity.
Qed.
Print Assumptions C13_tightening_keeps_solutions.

(** ** C14: infeasibility verdicts are correct *)
(** What generateCuts adds as a row cut is a cut no point satisfies, and it
    adds one only if there is no solution. *)
Theorem C14_infeasibility_is_real debug fuel sets m cs cs' oc :
  listing_ok sets ->
  generateCuts debug fuel (ad_new sets) m cs = Done (cs', oc) ->
  cs' = cs \/
  (exists c, cs' = cs ++ [c] /\ (forall x, ~ rowcut_sat c x) /\ forall x, ~ solves m sets x).
Proof.
  intros L E.
  assert (K : cs' = cs \/ cs' = cs ++ [impossible_cut]).
  { pose proof E as E'. rewrite ad_new_eq in E' by (apply L).
    apply (generate_done _ _ _ _ _ _ _ (count sets)) in E'; [|reflexivity].
    destruct E' as (? & ? & ? & ? & ? & s & _ & _ & _ & _ & [(_ & H & _)|(_ & H & _)]); [|left; exact H].
    unfold insert_new in H. destruct (existsb _ _); auto. }
  destruct K as [K|K]; [left; exact K|right].
  exists impossible_cut. split; [exact K|]. split.
  - intros x (H & _). unfold ge_opt_lo, impossible_cut in H. simpl in H.
    assert (X : Qle_bool DBL_MAX 0 = true) by (apply Qle_bool_iff; exact H).
    vm_compute in X. discriminate.
  - intros x S. destruct (listing_sound _ _ _ _ _ _ _ _ L S E) as (H & _).
    rewrite H in K. apply (f_equal (@length _)) in K. rewrite app_length in K. simpl in K. lia.
Qed.
Print Assumptions C14_infeasibility_is_real.

(** *** Concrete cases *)
Definition box (l : list (Z * Z)) : mip :=
  Mip (length l) [] (fun j => option_map (fun p => inject_Z (fst p)) (nth_error l j))
      (fun j => option_map (fun p => inject_Z (snd p)) (nth_error l j)) (fun _ => true).
Definition pt (l : list Z) : point := fun j => inject_Z (nth j l 0%Z).

Ltac order_ok p q :=
  split; [discriminate|left; exists p, q; split; [reflexivity|]; split;
    [repeat constructor; lia|intros c C; repeat (destruct C as [<-|C]; [simpl; tauto|]); destruct C]].
Ltac solve_pt :=
  split; [intros j J; repeat (destruct j as [|j]; [vm_compute; split; discriminate|]); simpl in J; lia|];
  split; [intros c C; apply integral_inject|];
  intros s Hs; repeat (destruct Hs as [<-|Hs]; [repeat constructor; vm_compute; discriminate|]); destruct Hs.

(** Three columns in 0..1, 0..1, 0..3 all different: the third is at least 2;
    an overlapping second set is allowed because its columns are known. *)
Example C13_example :
  let sets := [[0; 1; 2]; [0; 2]]%nat in
  let m := box [(0, 1); (0, 1); (0, 3)]%Z in
  listing_ok sets /\ solves m sets (pt [1; 0; 2]%Z) /\
  generateCuts false 100 (ad_new sets) m [] = Done ([], Some (ColCut [(2%nat, 2)] [])).
Proof.
  cbv zeta. conjs; [order_ok [0; 1; 2]%nat [0; 2]%nat|solve_pt|vm_compute; reflexivity].
Qed.
(** The columns of a single set may be listed in any order. *)
Example C13_example_one_set :
  let sets := [[2; 0; 1]]%nat in
  let m := box [(0, 1); (0, 1); (0, 3)]%Z in
  listing_ok sets /\ solves m sets (pt [1; 0; 2]%Z) /\
  generateCuts true 100 (ad_new sets) m [] = Done ([], Some (ColCut [(2%nat, 2)] [])).
Proof.
  cbv zeta. conjs; [split; [discriminate|right; eauto]|solve_pt|vm_compute; reflexivity].
Qed.
Example C14_example :
  let sets := [[0; 1; 2]]%nat in
  listing_ok sets /\
  generateCuts false 100 (ad_new sets) (box [(0, 1); (0, 1); (0, 1)]%Z) [] = Done ([impossible_cut], None).
Proof. cbv zeta. conjs; [order_ok [0; 1; 2]%nat (@nil nat)|vm_compute; reflexivity]. Qed.

(** With two sets not listed in increasing order a solution is cut off: the
    sets are columns 3,4 and columns 0,1,2, but the generator treats columns
    1,2 and columns 3,4,0 as its sets. *)
Theorem C13_unordered_sets_refuted :
  exists sets m cc x,
    NoDup (concat sets) /\ solves m sets x /\
    generateCuts false 1000 (ad_new sets) m [] = Done ([], Some cc) /\ ~ colcut_sat cc x.
Proof.
  exists [[3; 4]; [0; 1; 2]]%nat, (box [(0, 3); (0, 3); (0, 3); (0, 0); (1, 1)]%Z),
    (ColCut [(0%nat, 2)] []), (pt [0; 1; 2; 0; 1]%Z).
  split; [|split; [solve_pt|split; [vm_compute; reflexivity|]]].
  - simpl. repeat constructor; simpl; intuition discriminate.
  - intros (H & _). cbn [cc_lbs] in H.
    specialize (H 0%nat 2 ltac:(left; reflexivity)). vm_compute in H. apply H. reflexivity.
Qed.
Print Assumptions C13_unordered_sets_refuted.
(** With overlapping sets {0,1} and {1,2} the bounds of column 1 are used for
    column 2 as well, and infeasibility is reported although there is a
    solution. *)
Theorem C14_overlapping_sets_refuted :
  exists sets m cs x,
    (forall s, In s sets -> NoDup s) /\ solves m sets x /\
    generateCuts false 100 (ad_new sets) m [] = Done (cs, None) /\
    exists c, In c cs /\ ~ rowcut_sat c x.
Proof.
  exists [[0; 1]; [1; 2]]%nat, (box [(0, 1); (0, 0); (1, 1)]%Z), [impossible_cut], (pt [1; 0; 1]%Z).
  split; [|split; [solve_pt|split; [vm_compute; reflexivity|]]].
  - intros s [<-|[<-|[]]]; repeat constructor; simpl; intuition discriminate.
  - exists impossible_cut. split; [left; reflexivity|]. intros (H & _). vm_compute in H. apply H. reflexivity.
Qed.
Print Assumptions C14_overlapping_sets_refuted.

(** ** C37: the search ends and stays inside its tables *)
(** A proper input: some set, the first one not empty, no column twice in a
    set, and every listed column exists and has int bounds between [A] and [B]
    such that a table of one entry per listed column and value stays below ten
    million entries. *)
Definition proper (m : mip) (sets : list (list nat)) (A B : Z) : Prop :=
  hd [] sets <> [] /\ (forall s, In s sets -> NoDup s) /\
  (forall c, In c (concat sets) -> (c < m_ncols m)%nat /\
    exists l u, m_clo m c = Some (inject_Z l) /\ m_chi m c = Some (inject_Z u) /\ (A <= l <= u)%Z /\ (u <= B)%Z) /\
  (- INT_MAX <= A)%Z /\ (B <= INT_MAX)%Z /\
  ((B - A + 1) * Z.of_nat (length (concat sets)) <= 10000000)%Z.

Lemma proper_split m sets A B :
  proper m sets A B -> exists s0 rest, sets = s0 :: rest /\ s0 <> [].
Proof.
  intros (H & _). destruct sets as [|s0 rest]; simpl in H; [congruence|eauto].
Qed.

(** Enough fuel for every run with these sets and range. *)
Definition enough (sets : list (list nat)) (A B : Z) : nat :=
  let g := Z.to_nat (B - A + 1) in
  (base g ^ S (count sets) + S (count sets + count sets * g))%nat.

Lemma run_total debug fuel sets m A B cs :
  proper m sets A B -> (enough sets A B <= fuel)%nat ->
  (debug = false \/ (listing_ok sets /\ exists x, solves m sets x)) ->
  exists r, generateCuts debug fuel (ad_new sets) m cs = Done r.
Proof.
  intros Pr F D. destruct (proper_split m sets A B Pr) as (s0 & rest & Es & Ns).
  destruct Pr as (_ & Nd & IB & RA & RB & Sz).
  destruct (generate_setup debug sets s0 rest m A B Es Ns RA RB IB Sz)
    as (bl & o & mx & p0 & E1 & Bn & E2 & oA & mB & G0 & E3 & E4 & E5).
  set (loc := map (map (translate (concat sets))) sets) in *.
  set (gap := Z.to_nat (mx - o + 1)).
  assert (gle : (gap <= Z.to_nat (B - A + 1))%nat) by (unfold gap; lia).
  unfold enough in F. cbv zeta in F. set (g := Z.to_nat (B - A + 1)) in *.
  assert (F1 : (base gap ^ S (count sets) <= fuel)%nat) by (apply (pow_base_le gap g); [exact gle|lia]).
  assert (F2 : (count sets + count sets * gap < fuel)%nat).
  { assert (count sets * gap <= count sets * g)%nat by (apply Nat.mul_le_mono_l; exact gle). lia. }
  assert (Ll : forall w k, In w loc -> In k w -> (k < count sets)%nat) by (intros w k; apply local_lt).
  assert (Lw : forall w, In w loc -> (length w <= count sets)%nat).
  { intros w W. apply in_map_iff in W as (s & <- & S). apply set_len; auto. }
  assert (P : exists s, passes debug fuel gap (count sets) loc fuel
                (start_state loc o (fun i => nth i bl (0, 0)%Z) (count sets) p0) = Done s).
  { destruct D as [->|(LO & x & S)].
    - apply (passes_total gap (count sets) loc Ll false fuel (fun _ => True)); auto.
      + intros s _. destruct (pass_release_total gap (count sets) loc fuel loc s) as (s' & E); auto.
        * apply incl_refl.
        * exists s'. auto.
      + pose proof (measure_bound gap (count sets) (start_state loc o (fun i => nth i bl (0, 0)%Z) (count sets) p0)). lia.
    - destruct (start_good loc o mx (fun i => nth i bl (0, 0)%Z) (count sets) p0 (concat sets) x)
        as (Y1 & Y2 & Y3 & Y4); auto.
      + intros i Hi. destruct (Bn i Hi) as (L & U & _). pose proof S as (SB & SI & _).
        destruct (IB _ (orig_in sets i Hi)) as (C & _). destruct (SB _ C) as (X1 & X2).
        rewrite L in X1. rewrite U in X2. simpl in X1, X2.
        destruct (SI _ (orig_in sets i Hi)) as (z & Z0).
        assert (Ez : xi (concat sets) x i = z) by (unfold xi; rewrite Z0; apply Qfloor_Z).
        rewrite Ez. rewrite Z0 in X1, X2. rewrite <- Zle_Qle in X1, X2. lia.
      + apply (stored_different m sets x); assumption.
      + set (y := fun i => Z.to_nat (xi (concat sets) x i - o)) in *.
        apply (passes_total gap (count sets) loc Ll debug fuel (fun s => good (count sets) loc y s /\ s_inf s = false)); auto.
        * intros s (H1 & H2).
          destruct (pass_safe gap (count sets) loc y Y1 Y2 Ll debug fuel loc s (incl_refl _) H1 H2 Lw F1) as (s' & E).
          exists s'. split; [exact E|].
          apply (pass_good gap (count sets) loc y Y1 Y2 Ll debug fuel loc s s' (incl_refl _) H1 H2 E).
        * pose proof (measure_bound gap (count sets) (start_state loc o (fun i => nth i bl (0, 0)%Z) (count sets) p0)). lia. }
  destruct P as (s & P).
  apply (generate_run debug fuel sets m cs bl o mx p0 s); auto. rewrite Es. discriminate.
Qed.

(** Whatever the columns' bounds, feasible or not, the call returns. *)
Theorem C37_terminates_safely sets m A B cs :
  proper m sets A B ->
  exists f0, forall fuel, (f0 <= fuel)%nat ->
    exists r, generateCuts false fuel (ad_new sets) m cs = Done r.
Proof.
  intro P. exists (enough sets A B). intros fuel F. apply (run_total false fuel sets m A B); auto.
Qed.
Print Assumptions C37_terminates_safely.
(** With assertions active no assertion fails when there is a solution. *)
Theorem C37_assertions_hold sets m A B cs x :
  proper m sets A B -> listing_ok sets -> solves m sets x ->
  exists f0, forall fuel, (f0 <= fuel)%nat ->
    exists r, generateCuts true fuel (ad_new sets) m cs = Done r.
Proof.
  intros P L S. exists (enough sets A B). intros fuel F. apply (run_total true fuel sets m A B); eauto.
Qed.
Print Assumptions C37_assertions_hold.

Ltac solve_proper :=
  unfold proper; conjs;
  [ discriminate
  | intros s Hs; repeat (destruct Hs as [<-|Hs]; [repeat constructor; simpl; intuition discriminate|]); destruct Hs
  | intros c C; simpl in C;
    repeat (destruct C as [<-|C]; [split; [simpl; lia|eexists _, _; split; [reflexivity|split; [reflexivity|simpl; lia]]]|]);
    destruct C
  | vm_compute; discriminate | vm_compute; discriminate | vm_compute; discriminate ].

(** The bounds are met by three sets over five columns with no solution. *)
Example C37_example :
  proper (box [(0, 1); (0, 1); (0, 1); (-1, 1); (0, 5)]%Z) [[0; 1; 2]; [3; 1]; [4; 2; 0]]%nat (-1) 5.
Proof. solve_proper. Qed.
Example C37_example_run :
  generateCuts false 1000 (ad_new [[0; 1; 2]; [3; 1]; [4; 2; 0]]%nat)
    (box [(0, 1); (0, 1); (0, 1); (-1, 1); (0, 5)]%Z) [] = Done ([impossible_cut], None).
Proof. vm_compute. reflexivity. Qed.

(** Without a solution an assertion can fail although the release build
    reports infeasibility. *)
Theorem C37_assertion_on_infeasible_refuted :
  exists sets m, proper m sets 0 1 /\ listing_ok sets /\
    generateCuts true 1000 (ad_new sets) m [] = Aborts /\
    generateCuts false 1000 (ad_new sets) m [] = Done ([impossible_cut], None).
Proof.
  exists [[0; 1; 2]; [3]; [4]; [1; 3]; [2; 4]]%nat, (box [(0, 1); (0, 1); (0, 1); (1, 1); (0, 0)]%Z).
  split; [solve_proper|split; [order_ok [0; 1; 2; 3; 4]%nat [1; 3; 2; 4]%nat|]].
  split; vm_compute; reflexivity.
Qed.
Print Assumptions C37_assertion_on_infeasible_refuted.
(** The conditions are needed: a column twice in a set, too large a table, an
    empty first set, a generator made with no set or by default. *)
Theorem C37_repeated_column_refuted :
  generateCuts false 100 (ad_new [[0; 0]]%nat) (box [(0, 1)]%Z) [] = Undef OutOfBounds.
Proof. vm_compute. reflexivity. Qed.
Theorem C37_large_table_refuted :
  generateCuts false 100 (ad_new [[0]; [1; 2]]%nat) (box [(0, 4000000); (-5, 0); (-5, 0)]%Z) [] = Undef OutOfBounds.
Proof. vm_compute. reflexivity. Qed.
Theorem C37_no_sets_refuted : forall m cs,
  generateCuts false 100 ad_default m cs = Undef NullDeref /\
  generateCuts false 100 (ad_new []) m cs = Undef Uninitialised.
Proof. intros. split; reflexivity. Qed.
Theorem C37_empty_first_set_refuted :
  generateCuts false 100 (ad_new [[]; [0; 1]]%nat) (box [(0, 1); (0, 1)]%Z) [] = Undef IntOverflow.
Proof. vm_compute. reflexivity. Qed.

(** ** C38: the bounds left are attained *)
(** [x] is integral on the listed columns and within the bounds that hold
    after the call. *)
Definition within (m : mip) (oc : option colcut) (sets : list (list nat)) (x : point) : Prop :=
  (forall c, In c (concat sets) ->
     integral (x c) /\ ge_opt_lo (x c) (m_clo m c) /\ le_opt_hi (x c) (m_chi m c)) /\
  (forall cc, oc = Some cc -> colcut_sat cc x).

Lemma different_map (f : nat -> Z) s :
  NoDup (map f s) -> different_on s (fun c => inject_Z (f c)).
Proof.
  induction s as [|a s IH]; simpl; intro N; [constructor|].
  apply NoDup_cons_iff in N as (N1 & N2). constructor; [|apply IH; exact N2].
  apply Forall_forall. intros b Bs E. apply N1. apply in_map_iff. exists b. split; [|exact Bs].
  unfold inject_Z, Qeq in E. simpl in E. lia.
Qed.
Lemma nodup_map_inj {A B} (f : A -> B) l :
  NoDup l -> (forall a b, In a l -> In b l -> f a = f b -> a = b) -> NoDup (map f l).
Proof.
  induction l as [|a l IH]; simpl; intros N H; [constructor|].
  apply NoDup_cons_iff in N as (N1 & N2). constructor.
  - intro K. apply in_map_iff in K as (b & E & K). apply N1. rewrite <- (H b a); auto.
  - apply IH; auto.
Qed.

Theorem C38_bounds_attained debug fuel sets m A B cs' oc s c :
  proper m sets A B -> listed_in_order sets -> (B - A < 29)%Z ->
  generateCuts debug fuel (ad_new sets) m [] = Done (cs', oc) -> cs' = [] ->
  In s sets -> In c s ->
  (exists x, within m oc sets x /\ different_on s x /\ forall x', within m oc sets x' -> x c <= x' c) /\
  (exists x, within m oc sets x /\ different_on s x /\ forall x', within m oc sets x' -> x' c <= x c).
Proof.
  intros Pr (p & q & Ep & Sp & Ip) Gs Run Ec S C.
  destruct (proper_split m sets A B Pr) as (s0 & rest & Es & Ns).
  destruct Pr as (_ & Nd & IB & RA & RB & Sz).
  destruct (generate_setup debug sets s0 rest m A B Es Ns RA RB IB Sz)
    as (bl & o & mx & p0 & E1 & Bn & E2 & oA & mB & G0 & E3 & E4 & E5).
  destruct (generate_eval debug fuel sets m [] cs' oc bl o mx p0) as (t & Ps & Res); auto;
    [rewrite Es; discriminate|].
  destruct Res as [(_ & K)|(Inf & Res)]; [rewrite Ec in K; discriminate|]. cbv zeta in Res.
  set (loc := map (map (translate (concat sets))) sets) in *.
  set (gap := Z.to_nat (mx - o + 1)) in *.
  set (bnd := fun i => nth i bl (0, 0)%Z) in *.
  set (tr := translate (concat sets)) in *.
  assert (Ll : forall w k, In w loc -> In k w -> (k < count sets)%nat) by (intros w k; apply local_lt).
  assert (Nl : forall w, In w loc -> NoDup w).
  { intros w W. apply in_map_iff in W as (u & <- & U). apply nodup_translate; auto. }
  pose proof (start_inv (count sets) loc o bnd (mx - o + 1) p0 E5) as I0. fold gap in I0.
  destruct (passes_complete gap (count sets) loc Ll Nl debug fuel fuel _ _ I0 Ps Inf) as (Ex & Sup).
  pose proof (passes_later gap (count sets) loc debug fuel fuel Ll _ _ Ps) as Lat.
  apply init_rows_done in E5 as (R1 & R2); [|apply seq_NoDup].
  (* numbering *)
  assert (back : forall d, In d (concat sets) -> nth (tr d) (concat sets) 0%nat = d).
  { intros d Dd. apply (translate_back sets p q d Ep Sp Ip Dd). }
  assert (trlt : forall d, In d (concat sets) -> (tr d < count sets)%nat).
  { intros d Dd. apply translate_lt. exact Dd. }
  assert (trof : forall i, (i < count sets)%nat -> tr (nth i (concat sets) 0%nat) = i).
  { intros i Hi. rewrite (count_prefix sets p q Ep Sp Ip) in Hi.
    rewrite Ep at 1. rewrite app_nth1 by exact Hi. apply (translate_prefix sets p q i Ep Sp Ip Hi). }
  assert (inloc : forall d, In d (concat sets) -> exists w, In w loc /\ In (tr d) w).
  { intros d Dd. apply in_concat in Dd as (u & U1 & U2). exists (map tr u).
    split; [apply in_map; exact U1|apply in_map; exact U2]. }
  assert (exr : forall d, In d (concat sets) -> exists v, (v < gap)%nat /\ s_poss t (tr d) v = true).
  { intros d Dd. destruct (inloc d Dd) as (w & W1 & W2). apply (Ex w _ W1 W2). }
  (* an allowed value lies within the bounds after the call *)
  assert (rangeok : forall i v, (i < count sets)%nat -> s_poss t i v = true ->
     (fst (bnd i) <= Z.of_nat v + o <= snd (bnd i))%Z).
  { intros i v Hi Pv. apply Lat in Pv. apply start_later in Pv. rewrite R2 in Pv.
    assert (M : memn i (seq 0 (count sets)) = true) by (apply memn_in, in_seq; lia). rewrite M in Pv.
    destruct (R1 i) as (A1 & A2 & A3); [apply in_seq; lia|].
    apply andb_true_iff in Pv as (P1%Nat.leb_le & P2%Nat.ltb_lt). lia. }
  assert (mk : forall val : nat -> nat,
     (forall d, In d (concat sets) -> (val (tr d) < gap)%nat /\ s_poss t (tr d) (val (tr d)) = true) ->
     within m oc sets (fun d => inject_Z (Z.of_nat (val (tr d)) + o))).
  { intros val V. split.
    - intros d Dd. destruct (V d Dd) as (V1 & V2). pose proof (rangeok _ _ (trlt d Dd) V2) as K.
      destruct (Bn (tr d) (trlt d Dd)) as (L & U & _). rewrite (back d Dd) in L, U. rewrite L, U.
      conjs; [apply integral_inject| |]; simpl; rewrite <- Zle_Qle; unfold bnd in K; lia.
    - intros cc Hc. destruct Res as [(Hn & _)|Hs]; [congruence|].
      rewrite Hc in Hs. apply Some_inj in Hs. subst cc. split; simpl; intros d b H;
        apply in_flat_map in H as (i & Hi & H); apply in_seq in Hi.
      + unfold new_lbs in H. destruct (_ <? _)%Z; [|destruct H]. destruct H as [H|[]]. injection H as Hd Hb.
        subst d b. rewrite (trof i) by lia. rewrite <- Zle_Qle.
        destruct (V _ (orig_in sets i ltac:(lia))) as (V1 & V2). rewrite (trof i) in V1, V2 by lia.
        pose proof (first_lo_le gap _ _ V1 V2). lia.
      + unfold new_ubs in H. destruct (_ <? _)%Z; [|destruct H]. destruct H as [H|[]]. injection H as Hd Hb.
        subst d b. rewrite (trof i) by lia. rewrite <- Zle_Qle.
        destruct (V _ (orig_in sets i ltac:(lia))) as (V1 & V2). rewrite (trof i) in V1, V2 by lia.
        pose proof (last_up_ge gap _ _ V1 V2). lia. }
  assert (Cc : In c (concat sets)) by (apply in_concat; eauto).
  (* a point within the bounds that takes a given allowed value at c *)
  assert (pick : forall v, (v < gap)%nat -> s_poss t (tr c) v = true ->
     exists x, within m oc sets x /\ different_on s x /\ x c = inject_Z (Z.of_nat v + o)).
  { intros v V Pv.
    assert (Sw : In (map tr s) loc) by (apply in_map; exact S).
    assert (Cw : In (tr c) (map tr s)) by (apply in_map; exact C).
    destruct (index_nth _ _ Cw) as (J1 & J2).
    destruct (Sup ltac:(unfold gap; lia) (map tr s) (index (tr c) (map tr s)) v Sw J1 V) as (a & a1 & a2 & a3).
    { rewrite J2. exact Pv. }
    set (val := fun k => if memn k (map tr s) then a (index k (map tr s)) else Z.to_nat (first_lo gap (s_poss t k))).
    assert (vs : forall k, In k (map tr s) -> val k = a (index k (map tr s))).
    { intros k K. unfold val. assert (M : memn k (map tr s) = true) by (apply memn_in; exact K). rewrite M. reflexivity. }
    exists (fun d => inject_Z (Z.of_nat (val (tr d)) + o)). split; [|split].
    - apply mk. intros d Dd. unfold val. destruct (memn (tr d) (map tr s)) eqn:M.
      + apply memn_in in M. destruct (index_nth _ _ M) as (K1 & K2). destruct (a1 _ K1) as (K3 & K4).
        unfold allowed in K3. rewrite K2 in K3. auto.
      + apply first_of_row. apply exr. exact Dd.
    - apply (different_map (fun d => (Z.of_nat (val (tr d)) + o)%Z)).
      apply nodup_map_inj; [apply Nd; exact S|]. intros d e Hd He E.
      assert (Hd' : In (tr d) (map tr s)) by (apply in_map; exact Hd).
      assert (He' : In (tr e) (map tr s)) by (apply in_map; exact He).
      assert (Ev : val (tr d) = val (tr e)) by lia. rewrite !vs in Ev by assumption.
      destruct (index_nth _ _ Hd') as (K1 & K2). destruct (index_nth _ _ He') as (K3 & K4).
      apply a2 in Ev; [|assumption|assumption].
      apply (translate_inj (concat sets)); [apply in_concat; eauto|apply in_concat; eauto|].
      fold tr. rewrite <- K2, <- K4, Ev. reflexivity.
    - rewrite vs by exact Cw. rewrite a3. reflexivity. }
  destruct (exr c Cc) as (v0 & V0). pose proof (trlt c Cc) as Lc.
  destruct (Bn (tr c) Lc) as (L & U & _). rewrite (back c Cc) in L, U.
  split.
  - destruct (first_lo_attained gap (s_poss t (tr c))) as (v & Vg & Vp & Ve); [eauto|].
    destruct (pick v Vg Vp) as (x & X1 & X2 & X3). exists x. split; [exact X1|split; [exact X2|]].
    intros x' (W1 & W2). rewrite X3. destruct (W1 c Cc) as (_ & Wl & _). rewrite L in Wl. simpl in Wl.
    destruct (Z.ltb_spec (fst (bnd (tr c))) (first_lo gap (s_poss t (tr c)) + o)) as [H|H].
    + assert (K : In (c, inject_Z (Z.of_nat v + o))
        (flat_map (new_lbs gap o bnd (concat sets) (s_poss t)) (seq 0 (count sets)))).
      { apply in_flat_map. exists (tr c). split; [apply in_seq; lia|].
        unfold new_lbs. destruct (Z.ltb_spec (fst (bnd (tr c))) (first_lo gap (s_poss t (tr c)) + o)); [|lia].
        left. rewrite (back c Cc), Ve. reflexivity. }
      destruct Res as [(_ & Hn & _)|Hs]; [rewrite Hn in K; destruct K|].
      destruct (W2 _ Hs) as (W3 & _). apply W3. exact K.
    + rewrite Ve in H. fold (bnd (tr c)) in Wl.
      apply Qle_trans with (inject_Z (fst (bnd (tr c)))); [|exact Wl].
      rewrite <- Zle_Qle. exact H.
  - destruct (last_up_attained gap (s_poss t (tr c))) as (v & Vg & Vp & Ve); [eauto|].
    destruct (pick v Vg Vp) as (x & X1 & X2 & X3). exists x. split; [exact X1|split; [exact X2|]].
    intros x' (W1 & W2). rewrite X3. destruct (W1 c Cc) as (_ & _ & Wl). rewrite U in Wl. simpl in Wl.
    destruct (Z.ltb_spec (last_up gap (s_poss t (tr c)) + o) (snd (bnd (tr c)))) as [H|H].
    + assert (K : In (c, inject_Z (Z.of_nat v + o))
        (flat_map (new_ubs gap o bnd (concat sets) (s_poss t)) (seq 0 (count sets)))).
      { apply in_flat_map. exists (tr c). split; [apply in_seq; lia|].
        unfold new_ubs. destruct (Z.ltb_spec (last_up gap (s_poss t (tr c)) + o) (snd (bnd (tr c)))); [|lia].
        left. rewrite (back c Cc), Ve. reflexivity. }
      destruct Res as [(_ & _ & Hn)|Hs]; [rewrite Hn in K; destruct K|].
      destruct (W2 _ Hs) as (_ & W3). apply W3. exact K.
    + rewrite Ve in H. fold (bnd (tr c)) in Wl.
      apply Qle_trans with (inject_Z (snd (bnd (tr c)))); [exact Wl|].
      rewrite <- Zle_Qle. exact H.
Qed.
Print Assumptions C38_bounds_attained.

(** Three sets, the last one overlapping the others. *)
Example C38_example :
  let sets := [[0; 1; 2]; [3; 4]; [0; 3; 4]]%nat in
  let m := box [(0, 0); (0, 1); (0, 5); (0, 2); (2, 2)]%Z in
  proper m sets 0 5 /\ listed_in_order sets /\
  generateCuts true 5000 (ad_new sets) m [] =
    Done ([], Some (ColCut [(1%nat, 1); (2%nat, 2); (3%nat, 1)] [(3%nat, 1)])).
Proof.
  cbv zeta. split; [|split; [|vm_compute; reflexivity]].
  - solve_proper.
  - exists [0; 1; 2; 3; 4]%nat, [0; 3; 4]%nat. split; [reflexivity|split].
    + repeat constructor; lia.
    + intros c C; repeat (destruct C as [<-|C]; [simpl; tauto|]); destruct C.
Qed.
(** With thirty or more values the exhaustive search is skipped and a bound
    that no assignment attains is left: column 2 cannot be 0. *)
Theorem C38_wide_range_refuted :
  exists sets m,
    proper m sets 0 40 /\ listed_in_order sets /\
    generateCuts true 5000 (ad_new sets) m [] = Done ([], None) /\
    ge_opt_lo 0 (m_clo m 2) /\ le_opt_hi 0 (m_chi m 2) /\
    forall x, within m None sets x -> different_on [0; 1; 2]%nat x -> In [0; 1; 2]%nat sets /\ ~ x 2%nat == 0.
Proof.
  exists [[0; 1; 2]]%nat, (box [(0, 1); (0, 1); (0, 40)]%Z).
  split; [solve_proper|]. split.
  { exists [0; 1; 2]%nat, (@nil nat). split; [reflexivity|split].
    - repeat constructor; lia.
    - intros c []. }
  split; [vm_compute; reflexivity|]. split; [vm_compute; discriminate|]. split; [vm_compute; discriminate|].
  intros x (W & _) D. split; [left; reflexivity|]. intro E.
  destruct (W 0%nat) as (I0 & L0 & U0); [simpl; tauto|].
  destruct (W 1%nat) as (I1 & L1 & U1); [simpl; tauto|]. simpl in L0, U0, L1, U1.
  destruct I0 as (a & A), I1 as (b & B). rewrite A in L0, U0. rewrite B in L1, U1.
  rewrite <- Zle_Qle in L0, U0, L1, U1.
  inversion D as [|? ? F0 D0]; subst. inversion D0 as [|? ? F1 D1]; subst.
  rewrite Forall_forall in F0, F1.
  pose proof (F0 1%nat ltac:(simpl; tauto)) as N1. pose proof (F0 2%nat ltac:(simpl; tauto)) as N2.
  pose proof (F1 2%nat ltac:(simpl; tauto)) as N3.
  rewrite E in N2, N3. rewrite A in N1, N2. rewrite B in N1, N3.
  assert (Ha : a = 1%Z).
  { assert (a <> 0%Z) by (intros ->; apply N2; reflexivity). lia. }
  assert (Hb : b = 1%Z).
  { assert (b <> 0%Z) by (intros ->; apply N3; reflexivity). lia. }
  apply N1. rewrite Ha, Hb. reflexivity.
Qed.
Print Assumptions C38_wide_range_refuted.
