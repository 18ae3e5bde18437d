(** * Properties of CglKnapsackCover: C17-C22, C40 *)

From Coq Require Import Permutation Sorted Qabs.
From Verif Require Import Base Proofs_Clique Model_KnapsackCover Proofs_Knapsack Proofs_KnapsackLift
  Proofs_KnapsackUpDown Proofs_KnapsackSearch Proofs_KnapsackCover.
Local Open Scope Q_scope.

(** A sort by decreasing key, for the examples; the theorems hold for every
    [srt] with [sort_spec srt]. *)
Fixpoint ins {A} (key : A -> Q) (a : A) (l : list A) : list A :=
  match l with [] => [a] | b :: l' => if key b <=? key a then a :: l else b :: ins key a l' end.
Definition isort (A : Type) (key : A -> Q) (l : list A) : list A := fold_right (ins key) [] l.
Lemma ins_perm {A} key (a : A) l : Permutation (ins key a l) (a :: l).
Proof.
  induction l as [|b l IH]; simpl; [apply Permutation_refl|]. destruct (key b <=? key a); [apply Permutation_refl|].
  eapply Permutation_trans; [apply perm_skip; exact IH|apply perm_swap].
Qed.
Lemma isort_spec : sort_spec isort.
Proof.
  intros A key l. induction l as [|a l [IP IS]]; simpl; [split; constructor|]. split.
  - eapply Permutation_trans; [apply ins_perm|]. apply perm_skip. exact IP.
  - change (StronglySorted (fun a b : A => key b <= key a) (ins key a (isort A key l))).
    clear IP. set (s := isort A key l) in *. clearbody s. induction IS as [|b s S1 IH S2]; simpl; [repeat constructor|].
    destruct (key b <=? key a) eqn:E; qb.
    + constructor; [constructor; assumption|]. constructor; [exact E|]. rewrite Forall_forall in *. intros c I. specialize (S2 c I). simpl in *. lra.
    + constructor; [exact IH|]. rewrite Forall_forall in *. intros c I. apply (Permutation_in _ (ins_perm key a s)) in I.
      destruct I as [<-|I]; [lra|exact (S2 c I)].
Qed.

(** ** C17: the knapsack derived from a row is implied by the row *)
(** [sizable]: every coefficient of the row exceeds the tolerance 1e-7 in
    absolute value; [row_side less b v y] is [v y <= b] or [v y >= b]. *)
Theorem C17_derived_knapsack m x less b v cc k : sizable v -> NoDup (map fst v) ->
  deriveAKnapsack m x less b v = (cc, Some k) ->
  (forall y, bounds_on m v y -> row_side less b v y -> value (kn_items k) (comp (kn_flip k) y) <= kn_rhs k) /\
  (forall j a, In (j, a) (kn_items k) -> 0 < a <= kn_rhs k /\ free_binary m j = true /\ In j (map fst v)) /\
  (3 <= length (kn_items k))%nat /\ NoDup (map fst (kn_items k)) /\
  (forall j, kn_x k j = comp (kn_flip k) x j).
Proof.
  intros S N E. destruct (derive_ok m x less b v cc (Some k) S N E) as [_ (H1 & H2 & _ & H3 & H4 & H5 & H6)].
  split; [exact H1|]. split; [|auto]. intros j a I. unfold positive in H2. rewrite Forall_forall in H2. specialize (H2 _ I).
  destruct (H3 _ I) as (I1 & I2 & I3). simpl in *. auto.
Qed.
Theorem C17_column_cut_only_if_infeasible m x less b v cc ok : sizable v -> NoDup (map fst v) ->
  deriveAKnapsack m x less b v = (cc, ok) -> cc <> [] ->
  forall y, bounds_on m v y -> ~ row_side less b v y.
Proof. intros S N E C y B R. exact (proj1 (derive_ok m x less b v cc ok S N E) C y B R). Qed.
(** without the size hypothesis: a dropped continuous column *)
Definition m17 : mip :=
  Mip 4 [] (fun _ => Some 0) (fun j => if Nat.eqb j 3 then None else Some 1) (fun j => negb (Nat.eqb j 3)).
Definition v17 (tiny : Q) : list item := [(0%nat, 1); (1%nat, 1); (2%nat, 2); (3%nat, tiny)].
Theorem C17_tiny_coefficient_refuted : exists m x b v k y,
  NoDup (map fst v) /\ snd (deriveAKnapsack m x true b v) = Some k /\
  bounds_on m v y /\ row_side true b v y /\ ~ value (kn_items k) (comp (kn_flip k) y) <= kn_rhs k.
Proof.
  set (y := fun j : nat => if Nat.eqb j 3 then 10000000 else 1).
  destruct (snd (deriveAKnapsack m17 (fun _ => 1 # 2) true 3 (v17 (- (1 # 10000000))))) as [k|] eqn:E; [|vm_compute in E; discriminate].
  exists m17, (fun _ => 1 # 2), 3, (v17 (- (1 # 10000000))), k, y. split; [|split; [exact E|split; [|split]]].
  - repeat constructor; simpl; intuition congruence.
  - intros e J. simpl in J. destruct J as [<-|[<-|[<-|[<-|[]]]]]; split; simpl; try exact I; unfold Qle; simpl; lia.
  - apply Qle_bool_iff. vm_compute. reflexivity.
  - vm_compute in E. inversion E; subst. intro H. apply Qle_bool_iff in H. vm_compute in H. discriminate.
Qed.
Example C17_example :
  let r := deriveAKnapsack m17 (fun _ => 1 # 2) true 1 [(0%nat, 2); (1%nat, - (3)); (2%nat, 4); (3%nat, 1)] in
  exists k, r = ([], Some k) /\ kn_items k = [(0%nat, 2); (1%nat, 3); (2%nat, 4)] /\ kn_rhs k == 4 /\ kn_flip k 1%nat = true.
Proof. eexists. conjs; veq. Qed.
Print Assumptions C17_derived_knapsack.
Print Assumptions C17_column_cut_only_if_infeasible.
Print Assumptions C17_tiny_coefficient_refuted.

(** ** C18: exact knapsack *)
(** [pf l y], [wt l y]: profit and weight of the selection [y] of the
    (profit, weight) items [l]. *)
Theorem C18_exact_knapsack fuel c l : sorted_items l -> Forall item_ok l -> 0 <= c + eps2 -> (2 ^ length l < fuel)%nat ->
  exists z x, exactSolveKnapsack fuel c l = Done (z, x) /\
    length x = length l /\ wt l x <= c + eps2 /\ z == pf l x /\
    forall y, length y = length l -> wt l y <= c + eps2 -> pf l y <= z.
Proof.
  intros S F C L. destruct (solver_total fuel c l L) as [[z x] E]. exists z, x. split; [exact E|].
  destruct (solver_ok fuel c l z x S F C E) as [(H1 & H2 & H3 & _) H4]. auto.
Qed.
(** with any profits the answer still fits and is worth what is reported *)
Theorem C18_any_profits fuel c l : Forall (fun i => 0 < snd i) l -> 0 <= c + eps2 -> (2 ^ length l < fuel)%nat ->
  exists z x, exactSolveKnapsack fuel c l = Done (z, x) /\ length x = length l /\ wt l x <= c + eps2 /\ z == pf l x /\ 0 <= z.
Proof.
  intros F C L. destruct (solver_total fuel c l L) as [[z x] E]. exists z, x. split; [exact E|].
  destruct (solver_fits fuel c l z x F C E) as (H1 & H2 & H3 & H4). auto.
Qed.
(** the stop rule floors the bound, so with fractional profits (as in the
    search for a most violated cover) the optimum can be missed *)
Theorem C18_fractional_profits_refuted : exists fuel c l z x y,
  sorted_items l /\ Forall (fun i => 0 < snd i /\ 0 <= fst i) l /\
  exactSolveKnapsack fuel c l = Done (z, x) /\ length y = length l /\ wt l y <= c /\ z < pf l y.
Proof.
  exists 100%nat, 4, [(9 # 10, 5); (1 # 2, 3)], 0, [false; false], [false; true].
  conjs.
  - repeat constructor; unfold dominates, Qle; simpl; lia.
  - repeat constructor; unfold Qlt, Qle; simpl; lia.
  - vm_compute. reflexivity.
  - reflexivity.
  - apply Qle_bool_iff. vm_compute. reflexivity.
  - vm_compute. reflexivity.
Qed.
Theorem C18_negative_profit_refuted : exists fuel c l z x y,
  sorted_items l /\ Forall (fun i => 0 < snd i /\ integral (fst i)) l /\
  exactSolveKnapsack fuel c l = Done (z, x) /\ length y = length l /\ wt l y <= c /\ z < pf l y.
Proof.
  exists 100%nat, 2, [(1, 1); (- (1), 1)], 0, [false; false], [true; false].
  conjs.
  - repeat constructor; unfold dominates, Qle; simpl; lia.
  - repeat constructor; try (unfold Qlt; simpl; lia); [exists 1%Z|exists (-1)%Z]; reflexivity.
  - vm_compute. reflexivity.
  - reflexivity.
  - apply Qle_bool_iff. vm_compute. reflexivity.
  - vm_compute. reflexivity.
Qed.
Example C18_example : exactSolveKnapsack 100 10 [(10, 5); (7, 4); (6, 4); (3, 3)] = Done (17, [true; true; false; false]).
Proof. vm_compute. reflexivity. Qed.
Print Assumptions C18_exact_knapsack.
Print Assumptions C18_any_profits.
Print Assumptions C18_fractional_profits_refuted.
Print Assumptions C18_negative_profit_refuted.

(** ** C19: sequence independent lifting *)
(** [cw cover i]: weight of the i-th heaviest member.  The cover stops being
    one without its heaviest member, and the excess does not fall into the
    tolerance gap just below the second weight. *)
Theorem C19_lifted_cover_valid b cover rem cut y :
  sorted_cover cover -> positive cover -> positive rem ->
  weight cover - cw cover 0 <= b ->
  (cw cover 1 <= cw cover 0 - (weight cover - b) \/ cw cover 0 - (weight cover - b) < cw cover 1 - eps) ->
  liftCoverCut b cover rem = Done (Some cut) ->
  binary_on cover y -> binary_on rem y -> value cover y + value rem y <= b ->
  value cut y <= inject_Z (Z.of_nat (length cover)) - 1.
Proof. apply liftCoverCut_ok. Qed.
(** weights on a common grid coarser than the tolerance leave no gap *)
Theorem C19_lifted_cover_valid_grid d b cover rem cut y : eps2 < d ->
  Forall (fun e : item => on_grid d (snd e)) cover -> on_grid d b ->
  sorted_cover cover -> positive cover -> positive rem ->
  weight cover - cw cover 0 <= b ->
  liftCoverCut b cover rem = Done (Some cut) ->
  binary_on cover y -> binary_on rem y -> value cover y + value rem y <= b ->
  value cut y <= inject_Z (Z.of_nat (length cover)) - 1.
Proof.
  intros D G Gb So P1 P2 Mi E B1 B2 K. apply (liftCoverCut_ok b cover rem cut y); auto.
  set (q := cw cover 0 - (weight cover - b)). destruct (Qlt_le_dec q (cw cover 1 - eps)) as [H|H]; [right; exact H|left].
  apply (grid_le d); [unfold eps2 in D; lra|apply cw_grid; exact G| |unfold eps, eps2 in *; lra].
  apply grid_minus; [apply cw_grid; exact G|]. apply grid_minus; [apply weight_grid; exact G|exact Gb].
Qed.
Definition cover19 : list item := [(0%nat, 1); (1%nat, 1); (2%nat, 1); (3%nat, 1)].
Definition rem19 : list item := map (fun k => (k, 1 # 10)) (seq 4 10).
Theorem C19_not_minimal_refuted : exists b cover rem cut y,
  sorted_cover cover /\ positive cover /\ positive rem /\ b < weight cover /\
  liftCoverCut b cover rem = Done (Some cut) /\ binary_on cover y /\ binary_on rem y /\
  value cover y + value rem y <= b /\ inject_Z (Z.of_nat (length cover)) - 1 < value cut y.
Proof.
  destruct (liftCoverCut 1 cover19 rem19) as [[cut|]| | | |] eqn:E; try (vm_compute in E; discriminate).
  exists 1, cover19, rem19, cut, (fun j => if Nat.leb 4 j then 1 else 0). conjs.
  - repeat constructor; unfold heavier; simpl; lra.
  - repeat constructor; simpl; lra.
  - repeat constructor; simpl; lra.
  - vm_compute. reflexivity.
  - exact E.
  - intros e I. simpl in I. left. repeat (destruct I as [<-|I]; [reflexivity|]). destruct I.
  - intros e I. simpl in I. right. repeat (destruct I as [<-|I]; [reflexivity|]). destruct I.
  - apply Qle_bool_iff. vm_compute. reflexivity.
  - vm_compute in E. inversion E; subst. vm_compute. reflexivity.
Qed.
Definition cover19b : list item := [(0%nat, 2); (1%nat, 1); (2%nat, 1); (3%nat, 1)].
Definition rem19b : list item := [(4%nat, 199999991 # 100000000); (5%nat, 199999991 # 100000000)].
Theorem C19_tolerance_gap_refuted : exists b cover rem cut y,
  sorted_cover cover /\ positive cover /\ positive rem /\ b < weight cover /\ weight cover - cw cover 0 <= b /\
  (forall e, In e cover -> weight cover - snd e <= b + eps) /\
  liftCoverCut b cover rem = Done (Some cut) /\ binary_on cover y /\ binary_on rem y /\
  value cover y + value rem y <= b /\ inject_Z (Z.of_nat (length cover)) - 1 < value cut y.
Proof.
  destruct (liftCoverCut (39999999 # 10000000) cover19b rem19b) as [[cut|]| | | |] eqn:E; try (vm_compute in E; discriminate).
  exists (39999999 # 10000000), cover19b, rem19b, cut, (fun j => if Nat.leb 4 j then 1 else 0). conjs.
  - repeat constructor; unfold heavier; simpl; lra.
  - repeat constructor; simpl; lra.
  - repeat constructor; simpl; lra.
  - vm_compute. reflexivity.
  - apply Qle_bool_iff. vm_compute. reflexivity.
  - intros e I. simpl in I. apply Qle_bool_iff. repeat (destruct I as [<-|I]; [vm_compute; reflexivity|]). destruct I.
  - exact E.
  - intros e I. simpl in I. left. repeat (destruct I as [<-|I]; [reflexivity|]). destruct I.
  - intros e I. simpl in I. right. repeat (destruct I as [<-|I]; [reflexivity|]). destruct I.
  - apply Qle_bool_iff. vm_compute. reflexivity.
  - vm_compute in E. inversion E; subst. vm_compute. reflexivity.
Qed.
(** 5x0 + 5x1 + 3x2 + 4x3 + 8x4 <= 11: minimal cover {0,1,2} *)
Example C19_example :
  liftCoverCut 11 [(0%nat, 5); (1%nat, 5); (2%nat, 3)] [(3%nat, 4); (4%nat, 8)] =
    Done (Some [(0%nat, 1); (1%nat, 1); (2%nat, 1); (3%nat, 1 # 2); (4%nat, 1)]).
Proof. vm_compute. reflexivity. Qed.
Print Assumptions C19_lifted_cover_valid.
Print Assumptions C19_lifted_cover_valid_grid.
Print Assumptions C19_not_minimal_refuted.
Print Assumptions C19_tolerance_gap_refuted.

(** ** C20: sequential up and down lifting *)
(** [frac]: the cover members at fractional value, [ones_]: those at one.
    [lp_at]: two members, the LP point within the knapsack and exactly one on
    [ones_]. *)
Theorem C20_up_down_lifting_valid srt fuel x b fl frac ones_ rem r : sort_spec srt ->
  positive frac -> Forall (fun e => eps < snd e) frac -> positive ones_ -> positive rem ->
  (0 < b - weight ones_ \/ ones_ = []) -> b - weight ones_ < weight frac ->
  match ones_ with
  | [] => True
  | e :: _ => (exists f, In f frac /\ weight frac - snd f <= b - weight ones_ + snd e + eps2) \/ lp_at x b frac ones_
  end ->
  liftUpDown srt fuel x b fl frac ones_ rem = Done (Some r) ->
  exists cut rhs, r = uncomplement fl cut rhs /\ rhs + eps2 < value cut x /\
    incl (map fst cut) (map fst (frac ++ ones_ ++ rem)) /\
    forall t, value frac (pt t) + value ones_ (pt t) + value rem (pt t) <= b -> value cut (pt t) <= rhs.
Proof. intros S. intros. eapply liftUpDown_inner; eassumption. Qed.
(** an LP value of 1 - 0.99e-7 counts as one *)
Definition x20 (j : nat) : Q := match j with O => 1 - (99 # 1000000000) | _ => 6 # 10 end.
Theorem C20_inexact_one_refuted : exists x b frac ones_ r y,
  positive (frac ++ ones_) /\ (forall e, In e ones_ -> onetol < x (fst e)) /\
  value (frac ++ ones_) x <= b /\ b - weight ones_ < weight frac /\
  liftUpDown isort 100 x b (fun _ => false) frac ones_ [] = Done (Some r) /\
  binary_on (frac ++ ones_) y /\ value (frac ++ ones_) y <= b /\ ~ rowcut_sat r y.
Proof.
  exists x20, 10000000, [(1%nat, 8 # 10); (2%nat, 8 # 10)], [(0%nat, 10000000)],
    (RowCut [(1%nat, 1); (2%nat, 1)] None (Some 1)), (fun j => match j with O => 0 | _ => 1 end). conjs.
  - repeat constructor; simpl; lra.
  - intros e [<-|[]]. vm_compute. reflexivity.
  - apply Qle_bool_iff. vm_compute. reflexivity.
  - vm_compute. reflexivity.
  - vm_compute. reflexivity.
  - intros e I. simpl in I. destruct I as [<-|[<-|[<-|[]]]]; simpl; [right|right|left]; reflexivity.
  - apply Qle_bool_iff. vm_compute. reflexivity.
  - intros [_ H]. simpl in H. lra.
Qed.
Example C20_example : exists r,
  liftUpDown isort 100 (fun j => match j with O => 1 | 1%nat => 9 # 10 | 2%nat => 8 # 10 | _ => 1 # 100 end)
    10 (fun _ => false) [(1%nat, 4); (2%nat, 4)] [(0%nat, 3)] [(3%nat, 6)] = Done (Some r) /\ length (rc_form r) = 4%nat.
Proof. eexists. split; [vm_compute; reflexivity|reflexivity]. Qed.
Print Assumptions C20_up_down_lifting_valid.
Print Assumptions C20_inexact_one_refuted.

(** ** C21: undoing the complementation *)
Theorem C21_uncomplement fl cut rhs w :
  rowcut_sat (uncomplement fl cut rhs) w <-> value cut (fun j => if fl j then 1 - w j else w j) <= rhs.
Proof. apply uncomplement_iff. Qed.
Example C21_example : let c := uncomplement (fun j => Nat.eqb j 1) [(0%nat, 2); (1%nat, 3)] 4 in
  rc_form c = [(0%nat, 2); (1%nat, - (3))] /\ exists u, rc_ub c = Some u /\ u == 1.
Proof. cbv zeta. split; [reflexivity|]. eexists. split; [reflexivity|vm_compute; reflexivity]. Qed.
Print Assumptions C21_uncomplement.

(** ** C22: the covers found *)
Theorem C22_greedy x krow b cover rem : findGreedyCover x krow b = Some (cover, rem) ->
  Permutation (cover ++ rem) krow /\ b < weight cover /\ (2 <= length cover)%nat.
Proof. intro E. destruct (greedy_ok x krow b cover rem E) as (H1 & H2 & H3 & _). unfold eps2 in H2. split; [exact H1|]. split; [lra|exact H3]. Qed.
Theorem C22_lp_most_violated srt x krow b cover rem : sort_spec srt ->
  findLPMostViolatedMinCover srt x krow b = Done (Some (cover, rem)) ->
  Permutation (cover ++ rem) krow /\ b < weight cover /\ (2 <= length cover)%nat.
Proof. intros S E. destruct (lp_ok srt x S krow b cover rem E) as [[H1 H2 _ _] H3]. split; [exact H1|]. split; [lra|exact H3]. Qed.
Theorem C22_pseudo_john_ellis srt x krow b cover rem : sort_spec srt -> positive krow ->
  findPseudoJohnAndEllisCover srt x krow b = Done (Some (cover, rem)) ->
  Permutation (cover ++ rem) krow /\ b < weight cover /\ (2 <= length cover)%nat.
Proof. intros S P E. destruct (pseudo_ok srt x S krow b cover rem P E) as [[H1 H2 _ _] [H3 _]]. auto. Qed.
Theorem C22_john_ellis srt x krow b frac ones_ rem : sort_spec srt -> positive krow ->
  findJohnAndEllisCover srt x krow b = Done (Some (frac, ones_, rem)) ->
  Permutation (frac ++ ones_ ++ rem) krow /\ b < weight (frac ++ ones_) /\ (2 <= length frac)%nat.
Proof.
  intros S P E. destruct (je_ok srt x S krow b frac ones_ rem P E) as (H1 & _ & H2 & H3 & _).
  split; [exact H1|]. split; [rewrite weight_app; unfold eps2 in H2; lra|exact H3].
Qed.
(** the exact search solves its knapsack with an enlarged capacity, so its set
    is a cover only up to that tolerance *)
Theorem C22_exact_partial srt fuel x krow b cover rem : sort_spec srt -> positive krow ->
  findExactMostViolatedMinCover srt fuel x krow b = Done (Some (cover, rem)) ->
  Permutation (cover ++ rem) krow /\ b < weight cover + eps2.
Proof. intros S P E. destruct (exact_ok srt fuel x S krow b cover rem P E) as [[H1 H2 _ _] _]. split; [exact H1|lra]. Qed.
(** 2x0 + 2x1 + 2x2 <= 4: returns a set of weight 4 *)
Definition twos : list item := [(0%nat, 2); (1%nat, 2); (2%nat, 2)].
Theorem C22_exact_refuted : exists fuel x krow b cover rem,
  positive krow /\ findExactMostViolatedMinCover isort fuel x krow b = Done (Some (cover, rem)) /\ ~ b < weight cover.
Proof.
  exists 100%nat, (fun _ => 3 # 4), twos, 4, [(1%nat, 2); (2%nat, 2)], [(0%nat, 2)]. conjs.
  - repeat constructor; simpl; lra.
  - vm_compute. reflexivity.
  - simpl. lra.
Qed.
(** capacities around the tolerance: the set found is empty and the code reads
    before its first member *)
Theorem C22_exact_tiny_refuted : exists fuel x krow b,
  positive krow /\ Forall (fun e => eps < snd e) krow /\ 0 < b < weight krow /\
  findExactMostViolatedMinCover isort fuel x krow b = Undef OutOfBounds.
Proof.
  exists 100%nat, (fun _ => 9 # 10), [(0%nat, 1 # 1000000); (1%nat, 2 # 1000000); (2%nat, 3 # 1000000)], (5 # 1000000). conjs.
  - repeat constructor; simpl; lra.
  - repeat constructor; vm_compute; reflexivity.
  - vm_compute. reflexivity.
  - vm_compute. reflexivity.
  - vm_compute. reflexivity.
Qed.
Definition krow22 : list item := [(0%nat, 6); (1%nat, 5); (2%nat, 5); (3%nat, 2)].
Definition x22 (j : nat) : Q := match j with O => 1 | 1%nat => 9 # 10 | 2%nat => 3 # 10 | _ => 1 # 10 end.
Example C22_example :
  (exists r, findGreedyCover (fun j => match j with 3%nat => 1 # 10 | _ => 8 # 10 end) krow22 15 = Some r) /\
  (exists r, findLPMostViolatedMinCover isort x22 krow22 10 = Done (Some r)) /\
  (exists r, findPseudoJohnAndEllisCover isort x22 krow22 10 = Done (Some r)) /\
  (exists r, findExactMostViolatedMinCover isort 100 x22 krow22 10 = Done (Some r)).
Proof. conjs; eexists; vm_compute; reflexivity. Qed.
Example C22_example_john_ellis :
  exists r, findJohnAndEllisCover isort (fun j => match j with O => 1 | _ => 2 # 3 end)
              [(0%nat, 3); (1%nat, 3); (2%nat, 3); (3%nat, 3)] 10 = Done (Some r).
Proof. eexists; vm_compute; reflexivity. Qed.
Print Assumptions C22_greedy.
Print Assumptions C22_lp_most_violated.
Print Assumptions C22_pseudo_john_ellis.
Print Assumptions C22_john_ellis.
Print Assumptions C22_exact_partial.
Print Assumptions C22_exact_refuted.
Print Assumptions C22_exact_tiny_refuted.

(** ** C40: every cut of generateCuts is valid *)
(** Integer rows, right-hand sides and column bounds, unit coefficients on the
    bounded column of variable-bound rows ([int_data], [unit_bounds]); an LP
    point that satisfies the relaxation and whose 0-1 columns are 0, 1 or at
    least 1e-7 away from both ([lp_feasible], [crisp_point]). *)
Theorem C40_cuts_valid srt fuel g m sol info cs cs' : sort_spec srt ->
  wf_mip m -> int_data m -> unit_bounds m -> lp_feasible m sol -> crisp_point m sol ->
  generateCuts srt fuel g m sol info cs = Done cs' ->
  (forall r y, In r (fst cs') -> ~ In r (fst cs) -> feasible m y -> rowcut_sat r y) /\ snd cs' = snd cs.
Proof.
  intros S W I U L C E. destruct (generate_ok srt fuel g m sol info cs cs' S W I U L C E) as [H1 H2].
  split; [|exact H1]. intros r y Hr N F. destruct (H2 r Hr) as [H|H]; [contradiction|exact (H y F)].
Qed.

(** a model with an ordinary knapsack row and a row with a variable bound:
    3x0 + 4x1 + 5x2 <= 9;  3x0 + 4x1 + x3 <= 9;  x3 - 5x2 <= 0 *)
Definition m40 : mip :=
  Mip 4 [Row [(0%nat, 3); (1%nat, 4); (2%nat, 5)] None (Some 9);
         Row [(3%nat, - (1)); (2%nat, 5)] None (Some 0);
         Row [(0%nat, 3); (1%nat, 4); (3%nat, 1)] None (Some 9)]
      (fun _ => Some 0) (fun j => if Nat.eqb j 3 then Some 5 else Some 1) (fun j => negb (Nat.eqb j 3)).
Definition sol40 (j : nat) : Q := match j with O => 9 # 10 | 1%nat => 9 # 10 | 2%nat => 54 # 100 | _ => 27 # 10 end.
Lemma m40_wf : wf_mip m40.
Proof.
  intros r I. simpl in I. destruct I as [<-|[<-|[<-|[]]]]; (split; [repeat constructor; simpl; intuition congruence|]);
  intros j a J; simpl in J; simpl; intuition (match goal with H : (_, _) = _ |- _ => inversion H; subst end; lia).
Qed.
Lemma m40_int : int_data m40.
Proof.
  split.
  - intros r K. simpl in K. destruct K as [<-|[<-|[<-|[]]]]; (split; [exact I|split]);
    try (simpl; (exists 9%Z; reflexivity) || (exists 0%Z; reflexivity));
    intros j a J; simpl in J;
    repeat (destruct J as [J|J]; [inversion J; subst; split; [(exists 3%Z; reflexivity) || (exists 4%Z; reflexivity) || (exists 5%Z; reflexivity) || (exists 1%Z; reflexivity) || (exists (-1)%Z; reflexivity)|intro H; lra]|]); destruct J.
  - intros j _. simpl. split; [exists 0%Z; reflexivity|]. destruct (Nat.eqb j 3); [exists 5%Z|exists 1%Z]; reflexivity.
Qed.
Lemma m40_unit : unit_bounds m40.
Proof.
  intros r c a pre post I E F _.
  assert (C3 : c = 3%nat).
  { destruct (Nat.eq_dec c 3) as [H|H]; [exact H|exfalso]. unfold col_status, col_fixed, col_binary in F. simpl in F.
    apply Nat.eqb_neq in H. rewrite H in F. simpl in F. discriminate. }
  subst c. assert (J : In (3%nat, a) (r_form r)) by (rewrite E; apply in_or_app; right; left; reflexivity).
  simpl in I. destruct I as [<-|[<-|[<-|[]]]]; simpl in J; intuition (match goal with H : (_, _) = _ |- _ => inversion H; subst end);
  try (left; lra); right; lra.
Qed.
Lemma m40_lp : lp_feasible m40 sol40.
Proof.
  split.
  - intros r J. simpl in J. destruct J as [<-|[<-|[<-|[]]]]; (split; [exact I|]); apply Qle_bool_iff; vm_compute; reflexivity.
  - intros j L. simpl in L. destruct j as [|[|[|[|j]]]]; [| | | |lia]; (split; apply Qle_bool_iff; vm_compute; reflexivity).
Qed.
Lemma m40_crisp : crisp_point m40 sol40.
Proof.
  intros j L F. simpl in L. destruct j as [|[|[|[|j]]]]; [| | | |lia]; try (vm_compute in F; discriminate);
  right; left; split; apply Qle_bool_iff; vm_compute; reflexivity.
Qed.
Example C40_example : exists c cs, generateCuts isort 1000 kg_new m40 sol40 (KInfo false 0) ([], []) = Done (c :: cs, []) /\
  ~ rowcut_sat c sol40 /\ forall y, feasible m40 y -> rowcut_sat c y.
Proof.
  destruct (generateCuts isort 1000 kg_new m40 sol40 (KInfo false 0) ([], [])) as [[[|c cs] cc]| | | |] eqn:E;
    try (vm_compute in E; discriminate).
  destruct (C40_cuts_valid isort 1000 kg_new m40 sol40 (KInfo false 0) ([], []) _ isort_spec m40_wf m40_int m40_unit m40_lp m40_crisp E) as [H1 H2].
  simpl in H2. subst cc. exists c, cs. split; [reflexivity|]. split.
  - vm_compute in E. inversion E; subst. intros [_ H]. simpl in H. apply Qle_bool_iff in H. vm_compute in H. discriminate.
  - intros y F. apply H1; [left; reflexivity|intros []|exact F].
Qed.
(** hence the LP point must be LP feasible: here the two columns at one exceed
    the capacity by themselves *)
Definition m40b : mip :=
  Mip 4 [Row [(0%nat, 3); (1%nat, 3); (2%nat, 1); (3%nat, 1)] None (Some 4)] (fun _ => Some 0) (fun _ => Some 1) (fun _ => true).
Definition sol40b (j : nat) : Q := match j with O => 1 | 1%nat => 1 | _ => 9 # 10 end.
Theorem C40_infeasible_point_refuted : exists cs r y,
  wf_mip m40b /\ int_data m40b /\ unit_bounds m40b /\ in_bounds m40b sol40b /\ crisp_point m40b sol40b /\
  generateCuts isort 1000 kg_new m40b sol40b (KInfo false 0) ([], []) = Done cs /\ In r (fst cs) /\ feasible m40b y /\ ~ rowcut_sat r y.
Proof.
  destruct (generateCuts isort 1000 kg_new m40b sol40b (KInfo false 0) ([], [])) as [cs| | | |] eqn:E; try (vm_compute in E; discriminate).
  exists cs, (RowCut [(2%nat, 1); (3%nat, 1)] None (Some 1)), (fun j => if Nat.leb 2 j then 1 else 0). conjs.
  - intros r [<-|[]]. split; [repeat constructor; simpl; intuition congruence|].
    intros j a J; simpl in J; simpl; intuition (match goal with H : (_, _) = _ |- _ => inversion H; subst end; lia).
  - split.
    + intros r [<-|[]]. split; [exact I|]. split; [exists 4%Z; reflexivity|]. intros j a J. simpl in J.
      repeat (destruct J as [J|J]; [inversion J; subst; split; [(exists 3%Z; reflexivity) || (exists 1%Z; reflexivity)|intro H; lra]|]). destruct J.
    + intros j _. simpl. split; [exists 0%Z|exists 1%Z]; reflexivity.
  - intros r c a pre post _ _ F _. vm_compute in F. discriminate.
  - intros j L. simpl in L. destruct j as [|[|[|[|j]]]]; [| | | |lia]; (split; apply Qle_bool_iff; vm_compute; reflexivity).
  - intros j L _. simpl in L. destruct j as [|[|[|[|j]]]]; [| | | |lia]; try (right; right; reflexivity);
    right; left; split; apply Qle_bool_iff; vm_compute; reflexivity.
  - reflexivity.
  - vm_compute in E. inversion E; subst. simpl. tauto.
  - unfold feasible. conjs.
    + intros r [<-|[]]. split; [exact I|]. apply Qle_bool_iff; vm_compute; reflexivity.
    + intros j L. simpl in L. destruct j as [|[|[|[|j]]]]; [| | | |lia]; (split; apply Qle_bool_iff; vm_compute; reflexivity).
    + intros j L _. destruct (Nat.leb 2 j); [exists 1%Z|exists 0%Z]; reflexivity.
  - intros [_ H]. simpl in H. lra.
Qed.
Print Assumptions C40_cuts_valid.
Print Assumptions C40_infeasible_point_refuted.
