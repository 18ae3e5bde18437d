(** * CglBKClique

    Source: /repo/src/CglBKClique/CglBKClique.cpp and .hpp.

    A literal is a number below [2n]: [j < n] stands for column [j], [n + j]
    for its complement.

    Parameters standing for code outside /repo ([env]):
    - [v_degree], CoinConflictGraph::degree;
    - [v_rank], std::partial_sort on the scores (CglBKClique.cpp:283-297): the
      positions kept, best first;
    - [v_search], CoinBronKerbosch on the subgraph induced by the given
      vertices: positions of the cliques found, numCalls, completedSearch;
    - [v_extend], CoinCliqueExtender: which of the cliques were extended, and
      the cliques stored;
    - [v_pool], CoinCutPool: what is left of the cuts added;
    - [v_dup], the comparison of OsiCuts::insertIfNotDuplicate;
    - [v_late], whether the deadline has passed after the separation;
    - [v_debug], whether assertions are compiled in.
    Weights are exact; the counters sepCuts_, sepTime_ are left out. *)

From Verif Require Import Spec Base Model_CliqueStrengthening.
From Coq Require Import Arith.
Open Scope Q_scope.

Record env := Env {
  v_degree : nat -> nat;
  v_rank : list nat -> list Q -> nat -> list nat;
  v_search : list nat -> list Q -> nat -> nat -> Q -> list (list nat) * nat * bool;
  v_extend : nat -> list (list nat) -> list bool * list (list nat);
  v_pool : list (vec * Q) -> list (vec * Q);
  v_dup : list rowcut -> rowcut -> bool;
  v_late : bool;
  v_debug : bool }.

(** The object.  [b_base_secs], [b_aggr], [b_global] are members of the base
    class; the class declares a second maxSeconds_ of its own
    (CglBKClique.hpp:279), [b_secs]. *)
Record bk := BK {
  b_minFrac : Q; b_minViol : Q; b_minWeight : Q; b_pivot : nat; b_ext : nat;
  b_maxCalls : nat; b_calls : nat; b_complete : bool; b_secs : Q; b_maxInduced : nat;
  b_base_secs : Q; b_aggr : Z; b_global : bool }.

(** The constructor (CglBKClique.cpp:45-65); PivotingStrategy::Weight is
    number 4 of the enumeration (any number will do). *)
Definition bk_new : bk :=
  BK (1 # 1000) (2 # 100) (inject_Z (Qround.Qfloor (1000 + (2 # 100) * 1000))) 4 4 1000 0 false 0 10000 0 0 false.

(** The copy constructor (CglBKClique.cpp:67-101), which copies the base. *)
Definition bk_copy (b : bk) : bk :=
  BK (b_minFrac b) (b_minViol b) (b_minWeight b) (b_pivot b) (b_ext b) (b_maxCalls b) (b_calls b)
     (b_complete b) (b_secs b) (b_maxInduced b) (b_base_secs b) (b_aggr b) (b_global b).

(** Setters (CglBKClique.cpp:445-479, CglBKClique.hpp:84-101); BSetBaseSecs is
    CglCutGenerator::setMaxSeconds, not virtual
    (CglCutGenerator.hpp:104-107). *)
Inductive bk_set :=
  | BSetMaxCalls (k : nat) | BSetSecs (q : Q) | BSetInduced (k : nat) | BSetExt (k : nat)
  | BSetMinFrac (q : Q) | BSetMinViol (q : Q) | BSetPivot (k : nat) | BSetBaseSecs (q : Q).
Definition bk_apply (b : bk) (s : bk_set) : outcome bk :=
  match s with
  | BSetMaxCalls k => Done (BK (b_minFrac b) (b_minViol b) (b_minWeight b) (b_pivot b) (b_ext b) k (b_calls b) (b_complete b) (b_secs b) (b_maxInduced b) (b_base_secs b) (b_aggr b) (b_global b))
  | BSetSecs q => Done (BK (b_minFrac b) (b_minViol b) (b_minWeight b) (b_pivot b) (b_ext b) (b_maxCalls b) (b_calls b) (b_complete b) q (b_maxInduced b) (b_base_secs b) (b_aggr b) (b_global b))
  | BSetInduced k => Done (BK (b_minFrac b) (b_minViol b) (b_minWeight b) (b_pivot b) (b_ext b) (b_maxCalls b) (b_calls b) (b_complete b) (b_secs b) k (b_base_secs b) (b_aggr b) (b_global b))
  | BSetExt k => if (6 <? k)%nat then Aborts else
      Done (BK (b_minFrac b) (b_minViol b) (b_minWeight b) (b_pivot b) k (b_maxCalls b) (b_calls b) (b_complete b) (b_secs b) (b_maxInduced b) (b_base_secs b) (b_aggr b) (b_global b))
  | BSetMinFrac q => Done (BK q (b_minViol b) (b_minWeight b) (b_pivot b) (b_ext b) (b_maxCalls b) (b_calls b) (b_complete b) (b_secs b) (b_maxInduced b) (b_base_secs b) (b_aggr b) (b_global b))
  | BSetMinViol q => Done (BK (b_minFrac b) q (1000 + q * 1000) (b_pivot b) (b_ext b) (b_maxCalls b) (b_calls b) (b_complete b) (b_secs b) (b_maxInduced b) (b_base_secs b) (b_aggr b) (b_global b))
  | BSetPivot k => Done (BK (b_minFrac b) (b_minViol b) (b_minWeight b) k (b_ext b) (b_maxCalls b) (b_calls b) (b_complete b) (b_secs b) (b_maxInduced b) (b_base_secs b) (b_aggr b) (b_global b))
  | BSetBaseSecs q => Done (BK (b_minFrac b) (b_minViol b) (b_minWeight b) (b_pivot b) (b_ext b) (b_maxCalls b) (b_calls b) (b_complete b) (b_secs b) (b_maxInduced b) q (b_aggr b) (b_global b))
  end.

(** maxCallsBK_ and completeBK_ after a search. *)
Definition bk_searched (b : bk) (calls : nat) (c : bool) : bk :=
  BK (b_minFrac b) (b_minViol b) (b_minWeight b) (b_pivot b) (b_ext b) calls (b_calls b) c (b_secs b) (b_maxInduced b) (b_base_secs b) (b_aggr b) (b_global b).

(** The limit on the calls when little time is left (CglBKClique.cpp:162-167). *)
Definition capped_calls (b : bk) : nat :=
  if Qltb 0 (b_secs b) && Qltb (b_secs b) 30 then
    Nat.min (b_maxCalls b)
      (Nat.max 10 (Z.to_nat (Qround.Qfloor (inject_Z (Z.of_nat (b_maxCalls b)) * b_secs b / 30))))
  else b_maxCalls b.

(** The value of a literal in the LP solution (CglBKClique.cpp:240, 250). *)
Definition lval (n : nat) (x : point) (l : nat) : Q := if (l <? n)%nat then x l else 1 - x (l - n)%nat.

(** The vertices taken (CglBKClique.cpp:233-264), with weights
    (BKCLQ_MULTIPLIER, BKCLQ_EPS: lines 38-39). *)
Definition taken (e : env) (b : bk) (n : nat) (x : point) (l : nat) : bool :=
  (2 <=? v_degree e l)%nat && negb (Qle_bool (lval n x l + (1 # 1000000)) (b_minFrac b)).
Definition induced (e : env) (b : bk) (n : nat) (x : point) : list nat :=
  filter (taken e b n x) (seq 0 (2 * n)).
Definition weight (n : nat) (x : point) (l : nat) : Q := lval n x l * 1000.

(** [nth_error] over a list of positions. *)
Definition pick {A} (l : list A) (ps : list nat) : outcome (list A) :=
  omap (fun p => match nth_error l p with Some a => Done a | None => Undef OutOfBounds end) ps.

(** separateCliques (CglBKClique.cpp:222-330): cliques and the object after
    the search. *)
Definition separateCliques (e : env) (b : bk) (n : nat) (x : point) : outcome (list (list nat) * bk) :=
  let vs0 := induced e b n x in
  match vs0 with
  | [] => Done ([], b)
  | _ =>
      do vs <- (if (0 <? b_maxInduced b)%nat && (b_maxInduced b <? List.length vs0)%nat
                then pick vs0 (v_rank e vs0 (map (weight n x) vs0) (b_maxInduced b))
                else Done vs0);
      if (2 <=? List.length vs)%nat then
        let '(cl, calls, comp) := v_search e vs (map (weight n x) vs) (b_pivot b) (b_maxCalls b) (b_minWeight b) in
        do cliques <- omap (pick vs) cl;
        Done (cliques, bk_searched b calls comp)
      else Done ([], bk_searched b (b_maxCalls b) true)
  end.

(** extendCliques (CglBKClique.cpp:332-367): the cliques not extended, then
    the stored ones. *)
Definition extendCliques (e : env) (b : bk) (cl : list (list nat)) : list (list nat) :=
  let '(flags, stored) := v_extend e (b_ext b) cl in
  map fst (filter (fun p => negb (snd p)) (combine cl flags)) ++ stored.

(** Adding one literal to the cut (CglBKClique.cpp:385-409). *)
Definition cut_step (debug : bool) (n : nat) (st : vec * Q * nat) (l : nat) : outcome (vec * Q * nat) :=
  let '(v, rhs, dup) := st in
  let pos := (l <? n)%nat in
  let j := if pos then l else (l - n)%nat in
  let s := if pos then 1 else - (1) in
  let rhs' := if pos then rhs else rhs - 1 in
  if (n <=? j)%nat then Undef OutOfBounds else
  match bump j s v with
  | None => Done (v ++ [(j, s)], rhs', dup)
  | Some w => if debug && negb (Qeq_bool (coef_at j w) 0) then Aborts else Done (w, rhs', S dup)
  end.

(** The cut of one clique (CglBKClique.cpp:374-428). *)
Definition clique_cut (debug : bool) (n : nat) (d : list nat) : outcome (vec * Q) :=
  do st <- ofold (cut_step debug n) d ([], 1, 0%nat);
  let '(v, rhs, dup) := st in
  if debug && (1 <? dup)%nat then Aborts else
  if (dup =? 1)%nat then
    if debug && negb (forallb (fun p => Qeq_bool (snd p) (- (1)) || Qeq_bool (snd p) 0 || Qeq_bool (snd p) 1) v) then Aborts else
    let w := filter (fun p => Qeq_bool (snd p) (- (1)) || Qeq_bool (snd p) 1) v in
    let neg := filter (fun p => Qeq_bool (snd p) (- (1))) w in
    Done (w, - inject_Z (Z.of_nat (List.length neg)))
  else Done (v, rhs).

(** Node information used: inTree, options, pass. *)
Record info := Info { i_inTree : bool; i_options : Z; i_pass : Z }.
Definition mark (i : info) : bool :=
  negb (i_inTree i) &&
  (Z.eqb (Z.land (i_options i) 4) 4 || (negb (Z.eqb (Z.land (i_options i) 8) 0) && Z.eqb (i_pass i) 0)).

(** The collection: cuts with their globally-valid marks.  insertIfNotDuplicate
    of a cut with only an upper bound set, then the marks
    (CglBKClique.cpp:433-451). *)
Definition insert_cuts (e : env) (i : info) (cuts : list (vec * Q)) (cs : list (rowcut * bool)) :
    list (rowcut * bool) :=
  let cs' := fold_left (fun cs c =>
    let rc := RowCut (fst c) None (Some (snd c)) in
    if v_dup e (map fst cs) rc then cs else cs ++ [(rc, false)]) cuts cs in
  if mark i then
    firstn (List.length cs) cs' ++ map (fun c => (fst c, true)) (skipn (List.length cs) cs')
  else cs'.

(** insertCuts (CglBKClique.cpp:369-452). *)
Definition insertCuts (e : env) (i : info) (n : nat) (cl : list (list nat)) (cs : list (rowcut * bool)) :
    outcome (list (rowcut * bool)) :=
  do cuts <- omap (clique_cut (v_debug e) n) cl;
  Done (insert_cuts e i (v_pool e cuts) cs).

(** generateCuts (CglBKClique.cpp:136-188) on a problem with [n] columns,
    [nr] rows and a conflict graph of [gs] vertices. *)
Definition generateCuts (e : env) (i : info) (n nr gs : nat) (x : point) (b : bk) (cs : list (rowcut * bool)) :
    outcome (bk * list (rowcut * bool)) :=
  if (n =? 0)%nat || (nr =? 0)%nat then Done (b, cs) else
  if negb (n =? Nat.div gs 2)%nat then Aborts else
  let b1 := bk_searched b (capped_calls b) (b_complete b) in
  do r <- separateCliques e b1 n x;
  let (cl, b2) := r in
  match cl with
  | [] => Done (b2, cs)
  | _ =>
      let cl' := if (b_ext b2 =? 0)%nat || v_late e then cl else extendCliques e b2 cl in
      do cs' <- insertCuts e i n cl' cs;
      Done (b2, cs')
  end.
