(** * Properties of CglCliqueStrengthening (C60 - C63) *)

From Verif Require Import Spec Base Decide Spec_Literals Model_CliqueStrengthening
  Proofs_CliqueStrengthening Proofs_CliqueStrRow Proofs_CliqueStrRun.
From Coq Require Import Lia Lqa String Arith.
Open Scope Q_scope.

(** Calls made so far that reported constraintsExtended() = 0. *)
Inductive quiet (adj : nat -> nat -> Prop) (o : obj) : obj -> Prop :=
  | quiet_none : quiet adj o o
  | quiet_call o1 o2 ext stop w : quiet adj o o1 -> ext_spec (o_n o) adj ext ->
      strengthen ext stop w o1 = Done o2 -> o_next o2 = 0%nat -> quiet adj o o2.

Lemma quiet_fresh adj o o1 : fresh o -> quiet adj o o1 ->
  fresh o1 /\ o_rows o1 = o_rows o /\ same_cols o o1.
Proof.
  intros F Q. induction Q as [|o1 o2 ext stop w Q IH EX E NX].
  - conjs; [assumption|reflexivity|unfold same_cols; tauto].
  - destruct IH as (F1 & R1 & (C1 & C2 & C3 & C4)).
    rewrite <- C1 in EX. destruct (strengthen_cases adj ext stop w o1 o2 F1 EX E) as ((D1 & D2 & D3 & D4) & [(R & F2 & _)|(ds & idx & ad & R)]).
    + conjs; [assumption|congruence|unfold same_cols; conjs; congruence].
    + exfalso. destruct R as (_ & _ & _ & R & _). lia.
Qed.

(** ** C60: no feasible point is lost *)

(** Whatever rows the caller asks for, whenever the clock stops the loop and
    whatever the extender chooses, every point feasible before the call is
    feasible after it, when the conflict graph is right about the program
    and the coefficients of each row are either equal in size or at least
    1e-6 apart. *)
Theorem C60_keeps : forall n rows clo chi int adj o o1 o2 ext stop w,
  let m := Mip n (map snd rows) clo chi int in
  wf_mip m -> (forall p, In p rows -> spaced (map snd (r_form (snd p)))) -> graph_sound m adj ->
  cs_new n rows clo chi int = Done o -> quiet adj o o1 ->
  ext_spec n adj ext -> strengthen ext stop w o1 = Done o2 ->
  forall y, feasible m y -> feasible (o_mip o2) y.
Proof.
  intros n rows clo chi int adj o o1 o2 ext stop w m WF SP GS E Q EX ES y FY.
  destruct (cs_new_ok n rows clo chi int WF) as (o' & E' & F & N1 & N2 & N3 & N4 & N5).
  rewrite E in E'. apply Done_inj in E'. subst o'.
  destruct (quiet_fresh adj o o1 F Q) as (F1 & R1 & (C1 & C2 & C3 & C4)).
  assert (ME : o_mip o1 = m) by (unfold o_mip, m; rewrite R1, C1, C2, C3, C4, N1, N2, N3, N4, N5; reflexivity).
  rewrite <- ME in *. assert (EX1 : ext_spec (o_n o1) adj ext) by (rewrite C1, N1; exact EX).
  destruct (strengthen_cases adj ext stop w o1 o2 F1 EX1 ES) as ((D1 & D2 & D3 & D4) & [(R & _)|(ds & idx & ad & R)]).
  - unfold o_mip in *. rewrite R, D1, D2, D3, D4. exact FY.
  - eapply replaced_keeps; [exact F1|exact GS| |exact (conj D1 (conj D2 (conj D3 D4)))|exact R|exact FY].
    intros p Hp. apply SP. rewrite R1, N2 in Hp. exact Hp.
Qed.
Print Assumptions C60_keeps.

(** ** C61: the relaxation is never weakened *)

(** Every point within the column bounds that satisfies the rows after the
    call satisfies the rows before it, fractional or not, when no row is
    already violated by setting one of its columns alone. *)
Theorem C61_never_weaker : forall n rows clo chi int adj o o1 o2 ext stop w,
  let m := Mip n (map snd rows) clo chi int in
  wf_mip m -> (forall p, In p rows -> no_tiny (snd p) /\ singles_ok (snd p)) -> graph_sound m adj ->
  cs_new n rows clo chi int = Done o -> quiet adj o o1 ->
  ext_spec n adj ext -> strengthen ext stop w o1 = Done o2 ->
  forall y, in_bounds m y -> (forall r, In r (m_rows (o_mip o2)) -> row_sat r y) ->
  forall r, In r (m_rows m) -> row_sat r y.
Proof.
  intros n rows clo chi int adj o o1 o2 ext stop w m WF SP GS E Q EX ES y BY RY.
  destruct (cs_new_ok n rows clo chi int WF) as (o' & E' & F & N1 & N2 & N3 & N4 & N5).
  rewrite E in E'. apply Done_inj in E'. subst o'.
  destruct (quiet_fresh adj o o1 F Q) as (F1 & R1 & (C1 & C2 & C3 & C4)).
  assert (ME : o_mip o1 = m) by (unfold o_mip, m; rewrite R1, C1, C2, C3, C4, N1, N2, N3, N4, N5; reflexivity).
  rewrite <- ME in *. assert (EX1 : ext_spec (o_n o1) adj ext) by (rewrite C1, N1; exact EX).
  destruct (strengthen_cases adj ext stop w o1 o2 F1 EX1 ES) as ((D1 & D2 & D3 & D4) & [(R & _)|(ds & idx & ad & R)]).
  - cbn [o_mip m_rows] in RY |- *. rewrite R in RY. exact RY.
  - cbn [o_mip m_rows] in RY |- *.
    eapply replaced_back; [exact F1|exact GS| |exact (conj D1 (conj D2 (conj D3 D4)))|exact R|exact BY|exact RY].
    intros p Hp. apply SP. rewrite R1, N2 in Hp. exact Hp.
Qed.
Print Assumptions C61_never_weaker.

(** The two together: the feasible set is the same. *)
Theorem C61_same_points : forall n rows clo chi int adj o o1 o2 ext stop w,
  let m := Mip n (map snd rows) clo chi int in
  wf_mip m ->
  (forall p, In p rows -> spaced (map snd (r_form (snd p))) /\ singles_ok (snd p)) -> graph_sound m adj ->
  cs_new n rows clo chi int = Done o -> quiet adj o o1 ->
  ext_spec n adj ext -> strengthen ext stop w o1 = Done o2 ->
  forall y, feasible m y <-> feasible (o_mip o2) y.
Proof.
  intros n rows clo chi int adj o o1 o2 ext stop w m WF SP GS E Q EX ES y. split.
  - eapply C60_keeps; try eassumption. intros p Hp. apply SP. exact Hp.
  - intros (FR & FB & FI).
    assert (CO : m_ncols (o_mip o2) = n /\ m_clo (o_mip o2) = clo /\ m_chi (o_mip o2) = chi /\ m_int (o_mip o2) = int).
    { destruct (cs_new_ok n rows clo chi int WF) as (o' & E' & F & N1 & N2 & N3 & N4 & N5).
      rewrite E in E'. apply Done_inj in E'. subst o'.
      destruct (quiet_fresh adj o o1 F Q) as (F1 & R1 & (C1 & C2 & C3 & C4)).
      assert (EX1 : ext_spec (o_n o1) adj ext) by (rewrite C1, N1; exact EX).
      destruct (strengthen_cases adj ext stop w o1 o2 F1 EX1 ES) as ((D1 & D2 & D3 & D4) & _).
      cbn [o_mip m_ncols m_clo m_chi m_int]. conjs; congruence. }
    destruct CO as (K1 & K2 & K3 & K4).
    assert (BY : in_bounds m y).
    { intros j J. specialize (FB j). rewrite K1, K2, K3 in FB. apply FB. exact J. }
    unfold feasible. conjs.
    + eapply C61_never_weaker; try eassumption. intros p Hp. destruct (SP p Hp) as [A B].
      split; [apply spaced_no_tiny; assumption|assumption].
    + exact BY.
    + intros j J. specialize (FI j). rewrite K1, K4 in FI. apply FI. exact J.
Qed.
Print Assumptions C61_same_points.

(** *** A case: three pairwise rows become one clique row *)

Definition zero : nat -> option Q := fun _ => Some 0.
Definition one : nat -> option Q := fun _ => Some 1.
Definition ints : nat -> bool := fun _ => true.
Definition pair_row (a b : nat) : row := Row [(a, 1); (b, 1)] None (Some 1).
Definition tri_rows : list nrow :=
  [("a"%string, pair_row 0 1); ("b"%string, pair_row 0 2); ("c"%string, pair_row 1 2);
   ("d"%string, Row [(0%nat, 1); (3%nat, 2)] (Some 1) None)].
Definition tri : mip := Mip 4 (map snd tri_rows) zero one ints.
(** conflicts among columns 0, 1 and 2 *)
Definition tri_adj (a b : nat) : Prop := (a < 3)%nat /\ (b < 3)%nat /\ a <> b.
Definition tri_ext (i : nat) (c : list nat) : option (list nat) :=
  match c with [0; 1]%nat => Some [0; 1; 2]%nat | _ => None end.
Definition never (i : nat) : bool := false.

Lemma zero_one_bin n rows j : bin_col (Mip n rows zero one ints) j.
Proof. unfold bin_col. cbn. conjs; [reflexivity|exists 0; split; [reflexivity|lra]|exists 1; split; [reflexivity|lra]]. Qed.
Lemma two_of n rows a b y : In (pair_row a b) rows -> feasible (Mip n rows zero one ints) y -> y a + y b <= 1.
Proof. intros I (F & _). destruct (F _ I) as [_ S2]. cbn in S2. lra. Qed.

Example tri_sound : graph_sound tri tri_adj.
Proof.
  intros a b (A & B & N). cbn [tri m_ncols]. conjs; try lia; try apply zero_one_bin.
  intros y FY [VA VB].
  assert (P : forall i j, (i = 0 /\ j = 1 \/ i = 0 /\ j = 2 \/ i = 1 /\ j = 2)%nat -> y i + y j <= 1).
  { intros i j H. eapply two_of; [|exact FY].
    destruct H as [[-> ->]|[[-> ->]|[-> ->]]]; cbn; tauto. }
  unfold lit_val in *. destruct (Nat.ltb_spec a 4); [|lia]. destruct (Nat.ltb_spec b 4); [|lia].
  destruct (Nat.lt_ge_cases a b).
  - assert (y a + y b <= 1) by (apply P; lia). lra.
  - assert (y b + y a <= 1) by (apply P; lia). lra.
Qed.
Example tri_ext_ok : ext_spec 4 tri_adj tri_ext.
Proof.
  intros i c d ND L E. unfold tri_ext in E.
  destruct c as [|[|c0] [|[|[|c1]] [|c2 c]]]; try discriminate. apply Some_inj in E. subst d.
  unfold ext_ok. conjs.
  - intros a [<-|[<-|[]]]; cbn; tauto.
  - apply nodupb_ok. reflexivity.
  - intros l [<-|[<-|[<-|[]]]]; lia.
  - intros a b [<-|[<-|[<-|[]]]] [<-|[<-|[<-|[]]]] N; unfold tri_adj; cbn; try (exfalso; apply N; reflexivity); right; lia.
Qed.
Definition tri_obj : outcome obj := cs_new 4 tri_rows zero one ints.
Example tri_run :
  match tri_obj with
  | Done o => match strengthen tri_ext never AllRows o with
              | Done o2 => map fst (o_rows o2) = ["d"%string; "a_ext"%string] /\
                           map snd (o_rows o2) = [Row [(0%nat, 1); (3%nat, 2)] (Some 1) None;
                                                  Row [(0%nat, 1); (1%nat, 1); (2%nat, 1)] None (Some 1)] /\
                           o_next o2 = 1%nat /\ o_ndom o2 = 3%nat
              | _ => False end
  | _ => False end.
Proof. vm_compute. conjs; reflexivity. Qed.
Example tri_hyps : wf_mip tri /\
  (forall p, In p tri_rows -> spaced (map snd (r_form (snd p))) /\ singles_ok (snd p)).
Proof.
  split; [apply wfb_ok; vm_compute; reflexivity|].
  intros p [<-|[<-|[<-|[<-|[]]]]]; (split; [apply spacedb_ok|apply singlesb_ok]; vm_compute; reflexivity).
Qed.

(** *** Limits *)

(** Coefficients less than 1e-6 apart confuse the search for the two
    smallest ones: a row that allows two of its columns at one is taken for a
    set packing row, and the call makes that point infeasible. *)
Definition near_rows : list nrow :=
  [("r"%string, Row [(0%nat, 1); (1%nat, 1); (2%nat, 99999901 # 100000000); (3%nat, 99999901 # 100000000)] None (Some (1999999 # 1000000)));
   ("s0"%string, pair_row 0 4); ("s1"%string, pair_row 1 4); ("s2"%string, pair_row 2 4); ("s3"%string, pair_row 3 4)].
Definition near : mip := Mip 5 (map snd near_rows) zero one ints.
Definition near_adj (a b : nat) : Prop := (a = 4 /\ b < 4 \/ b = 4 /\ a < 4)%nat.
Definition near_ext (i : nat) (c : list nat) : option (list nat) :=
  match c with [0; 1; 2; 3]%nat => Some [0; 1; 2; 3; 4]%nat | _ => None end.
Example near_ext_ok : ext_spec 5 near_adj near_ext.
Proof.
  intros i c d ND L E. unfold near_ext in E.
  destruct c as [|[|c0] c]; try discriminate. destruct c as [|[|[|c1]] c]; try discriminate.
  destruct c as [|[|[|[|c2]]] c]; try discriminate. destruct c as [|[|[|[|[|c3]]]] [|c4 c]]; try discriminate.
  apply Some_inj in E. subst d. unfold ext_ok. conjs.
  - intros a [<-|[<-|[<-|[<-|[]]]]]; cbn; tauto.
  - apply nodupb_ok. reflexivity.
  - intros l [<-|[<-|[<-|[<-|[<-|[]]]]]]; lia.
  - intros a b IA IB N. unfold near_adj.
    assert (A : (a <= 4)%nat) by (destruct IA as [<-|[<-|[<-|[<-|[<-|[]]]]]]; lia).
    assert (B : (b <= 4)%nat) by (destruct IB as [<-|[<-|[<-|[<-|[<-|[]]]]]]; lia).
    assert (M : forall z, (z < 4)%nat -> In z [0; 1; 2; 3]%nat).
    { intros z Z. destruct z as [|[|[|[|z]]]]; cbn; try tauto. lia. }
    destruct (Nat.eq_dec a 4); [right; lia|]. destruct (Nat.eq_dec b 4); [right; lia|].
    left. split; apply M; lia.
Qed.
Example near_sound : graph_sound near near_adj.
Proof.
  assert (P : forall i y, (i < 4)%nat -> feasible near y -> y i + y 4%nat <= 1).
  { intros i y H FY. eapply two_of; [|exact FY]. destruct i as [|[|[|[|i]]]]; cbn; try tauto. lia. }
  intros a b H. cbn [near m_ncols]. conjs; try (destruct H; lia); try apply zero_one_bin.
  intros y FY [VA VB]. unfold lit_val in *.
  destruct (Nat.ltb_spec a 5); [|destruct H; lia]. destruct (Nat.ltb_spec b 5); [|destruct H; lia].
  destruct H as [[-> H]|[-> H]].
  - pose proof (P b y H FY). lra.
  - pose proof (P a y H FY). lra.
Qed.
Theorem C60_close_coefficients_refuted :
  exists n rows clo chi int adj ext o o2 y,
    wf_mip (Mip n (map snd rows) clo chi int) /\ graph_sound (Mip n (map snd rows) clo chi int) adj /\
    ext_spec n adj ext /\
    cs_new n rows clo chi int = Done o /\ strengthen ext never AllRows o = Done o2 /\
    feasible (Mip n (map snd rows) clo chi int) y /\ ~ feasible (o_mip o2) y.
Proof.
  exists 5%nat, near_rows, zero, one, ints, near_adj, near_ext.
  eexists. eexists. exists (fun j => if (j =? 2)%nat || (j =? 3)%nat then 1 else 0). conjs.
  - apply wfb_ok. vm_compute. reflexivity.
  - exact near_sound.
  - exact near_ext_ok.
  - vm_compute. reflexivity.
  - vm_compute. reflexivity.
  - apply feasible_b_ok. vm_compute. reflexivity.
  - intros (F & _).
    assert (R := F (Row [(0%nat, 1); (1%nat, 1); (2%nat, 1); (3%nat, 1); (4%nat, 1)] None (Some 1))).
    destruct R as [_ R]; [vm_compute; tauto|]. vm_compute in R. apply R. reflexivity.
Qed.
Print Assumptions C60_close_coefficients_refuted.

(** A row that forbids one of its columns altogether is also taken for a set
    packing row; once extended and removed, the forbidden value is allowed
    again. *)
Definition lone_rows : list nrow :=
  [("k"%string, Row [(0%nat, 3); (1%nat, 5)] None (Some 4));
   ("s"%string, pair_row 0 2); ("t"%string, pair_row 1 2)].
Definition lone : mip := Mip 3 (map snd lone_rows) zero one ints.
Example lone_sound : graph_sound lone tri_adj.
Proof.
  intros a b (A & B & N). cbn [lone m_ncols]. conjs; try lia; try apply zero_one_bin.
  intros y FY [VA VB].
  assert (P01 : y 0%nat == 1 -> y 1%nat == 1 -> False).
  { intros Z0 Z1. pose proof FY as (F & _). destruct (F (Row [(0%nat, 3); (1%nat, 5)] None (Some 4))) as [_ R]; [cbn; tauto|].
    cbn in R. lra. }
  assert (P : forall i j, (i = 0 /\ j = 1 \/ i = 0 /\ j = 2 \/ i = 1 /\ j = 2)%nat -> y i == 1 -> y j == 1 -> False).
  { intros i j H Z0 Z1. destruct H as [[-> ->]|H]; [apply P01; assumption|].
    assert (y i + y j <= 1); [|lra].
    eapply two_of; [|exact FY]. destruct H as [[-> ->]|[-> ->]]; cbn; tauto. }
  unfold lit_val in *. destruct (Nat.ltb_spec a 3); [|lia]. destruct (Nat.ltb_spec b 3); [|lia].
  destruct (Nat.lt_ge_cases a b).
  - apply (P a b); [lia|assumption|assumption].
  - apply (P b a); [lia|assumption|assumption].
Qed.
Lemma tri_ext_ok3 : ext_spec 3 tri_adj tri_ext.
Proof.
  intros i c d ND L E. destruct (tri_ext_ok i c d ND) as (A & B & _ & D); [intros l H; specialize (L l H); lia|exact E|].
  unfold ext_ok. conjs; try assumption. unfold tri_ext in E.
  destruct c as [|[|c0] [|[|[|c1]] [|c2 c]]]; try discriminate. apply Some_inj in E. subst d.
  intros l [<-|[<-|[<-|[]]]]; lia.
Qed.
Theorem C61_large_coefficient_refuted :
  exists n rows clo chi int adj ext o o2 y,
    wf_mip (Mip n (map snd rows) clo chi int) /\
    (forall p, In p rows -> spaced (map snd (r_form (snd p)))) /\
    graph_sound (Mip n (map snd rows) clo chi int) adj /\ ext_spec n adj ext /\
    cs_new n rows clo chi int = Done o /\ strengthen ext never AllRows o = Done o2 /\
    feasible (o_mip o2) y /\ ~ feasible (Mip n (map snd rows) clo chi int) y.
Proof.
  exists 3%nat, lone_rows, zero, one, ints, tri_adj, tri_ext.
  eexists. eexists. exists (fun j => if (j =? 1)%nat then 1 else 0). conjs.
  - apply wfb_ok. vm_compute. reflexivity.
  - intros p [<-|[<-|[<-|[]]]]; apply spacedb_ok; vm_compute; reflexivity.
  - exact lone_sound.
  - exact tri_ext_ok3.
  - vm_compute. reflexivity.
  - vm_compute. reflexivity.
  - apply feasible_b_ok. vm_compute. reflexivity.
  - intros (F & _). destruct (F (Row [(0%nat, 3); (1%nat, 5)] None (Some 4))) as [_ R]; [cbn; tauto|].
    vm_compute in R. apply R. reflexivity.
Qed.
Print Assumptions C61_large_coefficient_refuted.

(** ** C62: what is removed, what is added, what is reported *)

(** [kept] is what is left of [rows] after removing some of them. *)
Inductive subseq {A} : list A -> list A -> Prop :=
  | sub_nil : subseq [] []
  | sub_keep a k l : subseq k l -> subseq (a :: k) (a :: l)
  | sub_drop a k l : subseq k l -> subseq k (a :: l).

(** Rows that may be removed: inequalities over 2 to 256 binary columns. *)
Definition removable (clo chi : nat -> option Q) (int : nat -> bool) (r : row) : Prop :=
  (2 <= List.length (r_form r) <= 256)%nat /\
  ((r_lo r = None /\ r_hi r <> None) \/ (r_lo r <> None /\ r_hi r = None)) /\
  forall n rows j a, In (j, a) (r_form r) -> bin_col (Mip n rows clo chi int) j.

Lemma delete_from_sub {A} idx (rows : list A) : forall i0, subseq (delete_from i0 idx rows) rows.
Proof. induction rows as [|r rows IH]; intros i0; cbn [delete_from]; [constructor|]. destruct (memb i0 idx); constructor; apply IH. Qed.
Lemma delete_from_len {A} idx (rows : list A) : forall i0, NoDup idx ->
  (List.length (delete_from i0 idx rows) + List.length (filter (fun k => (i0 <=? k)%nat && (k <? i0 + List.length rows)%nat) idx) = List.length rows)%nat.
Proof.
  induction rows as [|r rows IH]; intros i0 ND; cbn [delete_from List.length].
  - replace (filter _ idx) with (@nil nat); [reflexivity|]. symmetry. clear.
    induction idx as [|k l IHl]; [reflexivity|]. cbn [filter].
    destruct (Nat.leb_spec i0 k); cbn [andb]; [|assumption]. destruct (Nat.ltb_spec k (i0 + 0)); [lia|assumption].
  - assert (FE : List.length (filter (fun k => (i0 <=? k)%nat && (k <? i0 + S (List.length rows))%nat) idx) =
       ((if memb i0 idx then 1 else 0) + List.length (filter (fun k => (S i0 <=? k)%nat && (k <? S i0 + List.length rows)%nat) idx))%nat).
    { clear IH. induction idx as [|k l IHl]; [reflexivity|]. inversion ND as [|? ? N1 N2]; subst.
      specialize (IHl N2). cbn [filter memb existsb]. fold (memb i0 l).
      destruct (Nat.eqb_spec i0 k) as [->|NE].
      - assert (M : memb k l = false) by (apply memb_notin; assumption). rewrite M in IHl.
        destruct (Nat.leb_spec k k); [|lia]. destruct (Nat.ltb_spec k (k + S (List.length rows))); [|lia].
        destruct (Nat.leb_spec (S k) k); [lia|]. cbn [andb orb List.length]. rewrite IHl. reflexivity.
      - destruct (Nat.leb_spec i0 k), (Nat.leb_spec (S i0) k); try lia; cbn [andb orb]; [|assumption].
        destruct (Nat.ltb_spec k (i0 + S (List.length rows))), (Nat.ltb_spec k (S i0 + List.length rows)); try lia; cbn [List.length].
        destruct (memb i0 l); lia. }
    rewrite FE. specialize (IH (S i0) ND). destruct (memb i0 idx); cbn [List.length]; lia.
Qed.

Lemma filter_all {A} (f : A -> bool) l : (forall a, In a l -> f a = true) -> filter f l = l.
Proof.
  induction l as [|a l IH]; intros H; cbn [filter]; [reflexivity|]. rewrite (H a (or_introl eq_refl)). f_equal.
  apply IH. intros; apply H; right; assumption.
Qed.

Lemma detected_removable n clo chi int r lits :
  detect_row n (is_bin clo chi int) r = Done (Some lits) -> removable clo chi int r.
Proof.
  intros D. pose proof (detect_row_inv _ _ _ _ D) as (SE & LN & _ & BN & _). unfold removable. conjs.
  - assumption.
  - unfold detect_row in D. destruct ((_ <=? 1)%nat || _) eqn:E; [discriminate|]. apply orb_false_elim in E.
    destruct E as [_ E]. apply Nat.ltb_ge in E. exact E.
  - unfold row_sense in SE. destruct (r_lo r) as [l|], (r_hi r) as [h|].
    + destruct (Qeq_bool l h); destruct SE; discriminate.
    + right. split; [discriminate|reflexivity].
    + left. split; [reflexivity|discriminate].
    + destruct SE; discriminate.
  - intros n' rows' j a H. apply is_bin_col. eapply BN. exact H.
Qed.

(** The columns are untouched; the rows are some of the old rows in their
    order followed by new rows; the number removed is what
    constraintsDominated() reports; only inequalities over binary columns are
    removed; if nothing was extended nothing changes; there are no more new
    rows than extensions, and each is called after an old row. *)
Theorem C62_reported : forall n rows clo chi int adj o o1 o2 ext stop w,
  wf_mip (Mip n (map snd rows) clo chi int) ->
  cs_new n rows clo chi int = Done o -> quiet adj o o1 ->
  ext_spec n adj ext -> strengthen ext stop w o1 = Done o2 ->
  o_n o2 = n /\ o_clo o2 = clo /\ o_chi o2 = chi /\ o_int o2 = int /\
  exists kept added, o_rows o2 = kept ++ added /\ subseq kept rows /\
    (List.length kept + o_ndom o2 = List.length rows)%nat /\
    (forall p, In p rows -> In p kept \/ removable clo chi int (snd p)) /\
    (List.length added <= o_next o2)%nat /\
    (o_next o2 = 0%nat -> o_rows o2 = rows) /\
    forall q, In q added -> snd q = bad_row \/
      exists p, In p rows /\ (fst q = append (fst p) "_ext" \/ fst q = append (append (fst p) "_ext") "_dup").
Proof.
  intros n rows clo chi int adj o o1 o2 ext stop w WF E Q EX ES.
  destruct (cs_new_ok n rows clo chi int WF) as (o' & E' & F & N1 & N2 & N3 & N4 & N5).
  rewrite E in E'. apply Done_inj in E'. subst o'.
  destruct (quiet_fresh adj o o1 F Q) as (F1 & R1 & (C1 & C2 & C3 & C4)).
  assert (EX1 : ext_spec (o_n o1) adj ext) by (rewrite C1, N1; exact EX).
  destruct (strengthen_cases adj ext stop w o1 o2 F1 EX1 ES) as ((D1 & D2 & D3 & D4) & CASES).
  conjs; try congruence. rewrite N2 in R1. destruct CASES as [(R & _ & X1 & X2)|(ds & idx & ad & R)].
  - exists rows, []. rewrite app_nil_r, R, R1. conjs; try reflexivity.
    + clear. induction rows; constructor; assumption.
    + lia.
    + intros p Hp. left. assumption.
    + cbn. lia.
    + intros q [].
  - destruct R as (S1 & S2 & S3 & S4 & S5 & S6 & S7). rewrite R1 in *.
    exists (delete_from 0 idx rows), ad. conjs.
    + assumption.
    + apply delete_from_sub.
    + pose proof (delete_from_len idx rows 0 S2) as L. rewrite filter_all in L.
      * rewrite S3. exact L.
      * intros k Hk. destruct (S5 k Hk) as (p & _ & _ & P & _).
        assert (k < List.length rows)%nat by (apply nth_error_Some; congruence).
        cbn [Nat.leb andb Nat.add]. apply Nat.ltb_lt. assumption.
    + intros p Hp. apply In_nth_error in Hp. destruct Hp as [k K].
      destruct (in_dec Nat.eq_dec k idx) as [I|I].
      * right. destruct (S5 k I) as (p' & lits & d & P1 & P2 & _). rewrite K in P1. apply Some_inj in P1. subst p'.
        unfold o_bin in P2. rewrite C2, C3, C4, N3, N4, N5 in P2. eapply detected_removable. exact P2.
      * left. apply delete_from_in. exists k. split; assumption.
    + destruct S7 as [(d & _ & _ & ->)|[S7 _]].
      * cbn [List.length]. lia.
      * apply forall2_len in S7. rewrite map_length in S7. lia.
    + intros Z. exfalso. lia.
    + intros q Hq. destruct S7 as [(d & _ & _ & ->)|[_ S7]].
      * left. destruct Hq as [<-|[]]. reflexivity.
      * right. apply S7. assumption.
Qed.
Print Assumptions C62_reported.

(** ** C63: calls return *)

(** Construction always succeeds, and so does a call on all rows or on plain
    set packing rows, if row names have at most 247 characters and the
    matrix is not empty. *)
Theorem C63_returns : forall n rows clo chi int adj o o1 ext stop w,
  wf_mip (Mip n (map snd rows) clo chi int) ->
  cs_new n rows clo chi int = Done o -> quiet adj o o1 -> ext_spec n adj ext ->
  (forall p, In p rows -> (String.length (fst p) <= 247)%nat) ->
  (exists p, In p rows /\ r_form (snd p) <> []) ->
  (forall l, w = TheseRows l -> forall i, In i l ->
     exists p, nth_error rows i = Some p /\ plain_packing (is_bin clo chi int) (snd p)) ->
  exists o2, strengthen ext stop w o1 = Done o2.
Proof.
  intros n rows clo chi int adj o o1 ext stop w WF E Q EX LN (p0 & P1 & P2) W.
  destruct (cs_new_ok n rows clo chi int WF) as (o' & E' & F & N1 & N2 & N3 & N4 & N5).
  rewrite E in E'. apply Done_inj in E'. subst o'.
  destruct (quiet_fresh adj o o1 F Q) as (F1 & R1 & (C1 & C2 & C3 & C4)). rewrite N2 in R1.
  apply (strengthen_total adj); [assumption|rewrite C1, N1; exact EX|rewrite R1; assumption| |].
  - rewrite R1. intros Z. exfalso. clear - Z P1 P2. induction rows as [|r rows IH]; [destruct P1|].
    cbn [map num_elements fold_right] in Z. destruct P1 as [->|P1].
    + destruct (r_form (snd p0)); [contradiction P2; reflexivity|cbn in Z; discriminate].
    + apply IH; [assumption|]. unfold num_elements. lia.
  - rewrite R1. unfold o_bin. rewrite C2, C3, C4, N3, N4, N5. exact W.
Qed.
Print Assumptions C63_returns.
Theorem C63_constructs : forall n rows clo chi int, wf_mip (Mip n (map snd rows) clo chi int) ->
  exists o, cs_new n rows clo chi int = Done o.
Proof. intros n rows clo chi int WF. destruct (cs_new_ok n rows clo chi int WF) as (o & E & _). exists o. exact E. Qed.
Print Assumptions C63_constructs.

(** A row name of 252 characters overflows the 256 byte buffer. *)
Fixpoint long_name (k : nat) : string := match k with O => EmptyString | S k' => append "x" (long_name k') end.
Definition named_rows : list nrow := [(long_name 252, pair_row 0 1); ("b"%string, pair_row 0 2); ("c"%string, pair_row 1 2)].
Theorem C63_long_name_refuted : exists n rows clo chi int adj ext o,
  wf_mip (Mip n (map snd rows) clo chi int) /\ ext_spec n adj ext /\
  cs_new n rows clo chi int = Done o /\ strengthen ext never AllRows o = Undef OutOfBounds.
Proof.
  exists 3%nat, named_rows, zero, one, ints, tri_adj, tri_ext. eexists. conjs.
  - apply wfb_ok. vm_compute. reflexivity.
  - exact tri_ext_ok3.
  - vm_compute. reflexivity.
  - vm_compute. reflexivity.
Qed.
Print Assumptions C63_long_name_refuted.

(** A program with rows and columns but no matrix element: null pointer. *)
Theorem C63_empty_matrix_refuted : exists n rows clo chi int o, forall ext stop w,
  wf_mip (Mip n (map snd rows) clo chi int) /\
  cs_new n rows clo chi int = Done o /\ strengthen ext stop w o = Undef NullDeref.
Proof.
  exists 1%nat, [("r"%string, Row [] None (Some 1))], zero, one, ints. eexists. intros ext stop w. conjs.
  - apply wfb_ok. vm_compute. reflexivity.
  - vm_compute. reflexivity.
  - vm_compute. reflexivity.
Qed.
Print Assumptions C63_empty_matrix_refuted.

(** Two triangles and two more rows. *)
Definition two_rows : list nrow :=
  [("a"%string, pair_row 0 1); ("b"%string, pair_row 0 2); ("c"%string, pair_row 1 2);
   ("d"%string, pair_row 3 4); ("e"%string, pair_row 3 5); ("f"%string, pair_row 4 5);
   ("g"%string, Row [(0%nat, 1); (1%nat, 1); (3%nat, 1)] (Some 1) None); ("h"%string, Row [(0%nat, 1); (1%nat, 1); (3%nat, 1)] (Some 1) None)].

(** Asking for a row that is not a set packing row reads past the end of the
    table of clique rows. *)
Theorem C63_other_row_refuted : exists n rows clo chi int o, forall ext,
  wf_mip (Mip n (map snd rows) clo chi int) /\
  cs_new n rows clo chi int = Done o /\ strengthen ext never (TheseRows [6%nat]) o = Undef OutOfBounds.
Proof.
  exists 6%nat, two_rows, zero, one, ints. eexists. intros ext. conjs.
  - apply wfb_ok. vm_compute. reflexivity.
  - vm_compute. reflexivity.
  - vm_compute. reflexivity.
Qed.
Print Assumptions C63_other_row_refuted.

(** *** A second call on the same object *)

(** Once a call has removed rows, the row numbers kept by the object are
    stale.  A second call removes rows by those numbers. *)
Definition two : mip := Mip 6 (map snd two_rows) zero one ints.
Definition two_adj (a b : nat) : Prop := ((a < 3 /\ b < 3 \/ 3 <= a < 6 /\ 3 <= b < 6) /\ a <> b)%nat.
Definition two_ext (i : nat) (c : list nat) : option (list nat) :=
  match c with
  | [0; 1]%nat => Some [0; 1; 2]%nat
  | [3; 4]%nat => Some [3; 4; 5]%nat
  | _ => None
  end.
Example two_sound : graph_sound two two_adj.
Proof.
  assert (P : forall i j y, (i = 0 /\ j = 1 \/ i = 0 /\ j = 2 \/ i = 1 /\ j = 2 \/
      i = 3 /\ j = 4 \/ i = 3 /\ j = 5 \/ i = 4 /\ j = 5)%nat -> feasible two y -> y i + y j <= 1).
  { intros i j y H FY. eapply two_of; [|exact FY].
    destruct H as [[-> ->]|[[-> ->]|[[-> ->]|[[-> ->]|[[-> ->]|[-> ->]]]]]]; cbn; tauto. }
  intros a b (A & N). cbn [two m_ncols]. conjs; try lia; try apply zero_one_bin.
  intros y FY [VA VB].
  unfold lit_val in *. destruct (Nat.ltb_spec a 6); [|lia]. destruct (Nat.ltb_spec b 6); [|lia].
  destruct (Nat.lt_ge_cases a b).
  - assert (y a + y b <= 1) by (apply P; [lia|assumption]). lra.
  - assert (y b + y a <= 1) by (apply P; [lia|assumption]). lra.
Qed.
Example two_ext_ok : ext_spec 6 two_adj two_ext.
Proof.
  intros i c d ND L E. unfold two_ext in E.
  destruct c as [|c0 c]; [discriminate E|]. destruct c0 as [|[|[|[|c0]]]]; try discriminate E.
  - destruct c as [|[|[|c1]] [|c2 c]]; try discriminate E. apply Some_inj in E. subst d. unfold ext_ok. conjs.
    + intros a [<-|[<-|[]]]; cbn; tauto.
    + apply nodupb_ok. reflexivity.
    + intros l [<-|[<-|[<-|[]]]]; lia.
    + intros a b [<-|[<-|[<-|[]]]] [<-|[<-|[<-|[]]]] N; unfold two_adj; try (exfalso; apply N; reflexivity); right; lia.
  - destruct c as [|[|[|[|[|[|c1]]]]] [|c2 c]]; try discriminate E. apply Some_inj in E. subst d. unfold ext_ok. conjs.
    + intros a [<-|[<-|[]]]; cbn; tauto.
    + apply nodupb_ok. reflexivity.
    + intros l [<-|[<-|[<-|[]]]]; lia.
    + intros a b [<-|[<-|[<-|[]]]] [<-|[<-|[<-|[]]]] N; unfold two_adj; try (exfalso; apply N; reflexivity); right; lia.
Qed.
Theorem C61_second_call_refuted :
  exists n rows clo chi int adj ext o o1 o2 y,
    wf_mip (Mip n (map snd rows) clo chi int) /\
    (forall p, In p rows -> spaced (map snd (r_form (snd p))) /\ singles_ok (snd p)) /\
    graph_sound (Mip n (map snd rows) clo chi int) adj /\ ext_spec n adj ext /\
    cs_new n rows clo chi int = Done o /\
    strengthen ext never (TheseRows [0%nat]) o = Done o1 /\
    strengthen ext never (TheseRows [3%nat]) o1 = Done o2 /\
    feasible (o_mip o2) y /\ ~ feasible (Mip n (map snd rows) clo chi int) y.
Proof.
  exists 6%nat, two_rows, zero, one, ints, two_adj, two_ext.
  eexists. eexists. eexists. exists (fun j => 0). conjs.
  - apply wfb_ok. vm_compute. reflexivity.
  - intros p [<-|[<-|[<-|[<-|[<-|[<-|[<-|[<-|[]]]]]]]]]; (split; [apply spacedb_ok|apply singlesb_ok]; vm_compute; reflexivity).
  - exact two_sound.
  - exact two_ext_ok.
  - vm_compute. reflexivity.
  - vm_compute. reflexivity.
  - vm_compute. reflexivity.
  - apply feasible_b_ok. vm_compute. reflexivity.
  - intros (F & _). destruct (F (Row [(0%nat, 1); (1%nat, 1); (3%nat, 1)] (Some 1) None)) as [R _]; [cbn; tauto|].
    vm_compute in R. apply R. reflexivity.
Qed.
Print Assumptions C61_second_call_refuted.

(** With fewer other rows the list of rows to remove does not even fit the
    memory allocated for it. *)
Theorem C63_second_call_refuted :
  exists n rows clo chi int adj ext o o1,
    wf_mip (Mip n (map snd rows) clo chi int) /\ ext_spec n adj ext /\
    cs_new n rows clo chi int = Done o /\
    strengthen ext never (TheseRows [0%nat]) o = Done o1 /\
    strengthen ext never (TheseRows [3%nat]) o1 = Undef OutOfBounds.
Proof.
  exists 6%nat, (firstn 6 two_rows), zero, one, ints, two_adj, two_ext. eexists. eexists. conjs.
  - apply wfb_ok. vm_compute. reflexivity.
  - exact two_ext_ok.
  - vm_compute. reflexivity.
  - vm_compute. reflexivity.
  - vm_compute. reflexivity.
Qed.
Print Assumptions C63_second_call_refuted.
