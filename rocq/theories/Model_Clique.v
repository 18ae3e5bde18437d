(** * Model of CglClique
    /repo/src/CglClique/CglClique.cpp, CglCliqueHelper.cpp and CglClique.hpp.

    Line numbers refer to CglClique.cpp unless the helper file ("Helper") or
    the header is named.  Printing, the globally-valid flag of a cut (lines
    141-145) and the release of the work arrays are not modelled.  Work arrays
    are lists; doubles are exact rationals.  considerRows is declared in the
    header but defined nowhere, so sp_orig_row_ind is NULL on entry of every
    generateCuts call. *)

From Verif Require Import Base.
Local Open Scope Q_scope.

(** scl_next_node_method, CglClique.hpp lines 64-68. *)
Inductive scl_rule := SCL_MIN_DEGREE | SCL_MAX_DEGREE | SCL_MAX_XJ_MAX_DEG.

(** User-visible state, CglClique.hpp lines 138-196. *)
Record clq := Clq {
  cq_setPacking : bool; cq_justOriginal : bool;
  cq_petol : Q;                      (* -1: unset *)
  cq_maxNumber : Z;
  cq_doRow : bool; cq_doStar : bool;
  cq_rule : scl_rule;
  cq_sclThr : Z; cq_rclThr : Z
}.
(** Constructor, lines 22-51. *)
Definition clq_new (setPacking justOriginalRows : bool) : clq :=
  Clq setPacking justOriginalRows (-1) 5000 true true SCL_MAX_XJ_MAX_DEG 12 12.
(** setMinViolation / getMinViolation, CglClique.hpp lines 88-89. *)
Definition setMinViolation (g : clq) (v : Q) : clq :=
  Clq (cq_setPacking g) (cq_justOriginal g) v (cq_maxNumber g) (cq_doRow g) (cq_doStar g)
      (cq_rule g) (cq_sclThr g) (cq_rclThr g).
Definition getMinViolation (g : clq) : Q := cq_petol g.

(** OsiSolverInterface::getColType (OSI, outside /repo): 1 for an integer
    column whose two bounds are each 0 or 1. *)
Definition zero_one (b : option Q) : bool :=
  match b with Some q => Qeq_bool q 0 || Qeq_bool q 1 | None => false end.
Definition is_binary (m : mip) (j : nat) : bool :=
  m_int m j && zero_one (m_clo m j) && zero_one (m_chi m j).

(** ** Helper functions *)

(** selectFractionalBinaries, Helper lines 18-50. [ptol] is the solver's primal
    tolerance, [petol] the one in force. *)
Definition selectFractionalBinaries (m : mip) (x : nat -> Q) (ptol petol : Q) (maxNumber : Z) : list nat :=
  let n := Z.of_nat (length (filter (is_binary m) (seq 0 (m_ncols m)))) in
  let lcl := if (petol <? 0) && (n <? maxNumber)%Z then - (1 # 100000) else ptol in
  filter (fun i => is_binary m i && (lcl <? x i) && (x i <? 1 - petol)) (seq 0 (m_ncols m)).
(** selectFractionals, Helper lines 59-81. *)
Definition selectFractionals (m : mip) (x : nat -> Q) (ptol : Q) : list nat :=
  filter (fun i => (ptol <? x i) && (x i <? 1 - ptol)) (seq 0 (m_ncols m)).

Definition mem (j : nat) (l : list nat) : bool := existsb (Nat.eqb j) l.
Definition row_at (m : mip) (i : nat) : row := nth i (m_rows m) (Row [] None None).

(** selectRowCliques, Helper lines 88-143. *)
Definition is_clique_row (m : mip) (cols : list nat) (numOriginalRows : nat) (i : nat) : bool :=
  let r := row_at m i in
  forallb (fun ja => negb (mem (fst ja) cols) || Qeq_bool (snd ja) 1) (r_form r) &&
  match r_hi r with Some u => Qeq_bool u 1 | None => false end &&
  Nat.ltb i numOriginalRows &&
  forallb (fun ja => negb (snd ja <? 0)) (r_form r).
Definition selectRowCliques (m : mip) (cols : list nat) (numOriginalRows : nat) : list nat :=
  filter (is_clique_row m cols numOriginalRows) (seq 0 (length (m_rows m))).

(** createSetPackingSubMatrix, Helper lines 151-236: for every chosen column
    the increasing list of positions of chosen rows having an entry in it
    (sp_col_ind), and for every chosen row the increasing list of positions of
    chosen columns (sp_row_ind).  The comparison ind[0] < ind[len-1] of line
    212, which for an empty column reads two neighbouring cells, only decides
    the direction of a loop whose result is sorted. *)
Definition has_entry (r : row) (j : nat) : bool := mem j (map fst (r_form r)).
Definition col_ind (m : mip) (cols rows : list nat) (j : nat) : list nat :=
  filter (fun i => has_entry (row_at m (nth i rows 0%nat)) (nth j cols 0%nat)) (seq 0 (length rows)).
Definition row_ind (m : mip) (cols rows : list nat) (i : nat) : list nat :=
  filter (fun j => has_entry (row_at m (nth i rows 0%nat)) (nth j cols 0%nat)) (seq 0 (length cols)).

(** CoinIsOrthogonal, Helper lines 240-253. *)
Fixpoint isOrthogonal (a : list nat) : list nat -> bool :=
  fix inner (b : list nat) : bool :=
    match a, b with
    | i :: a', j :: b' =>
        if Nat.eqb i j then false
        else if Nat.ltb i j then isOrthogonal a' b else inner b'
    | _, _ => true
    end.
(** createNodeNode, Helper lines 331-351. *)
Definition node_node (ind : nat -> list nat) (i j : nat) : bool :=
  if Nat.ltb i j then negb (isOrthogonal (ind i) (ind j))
  else if Nat.ltb j i then negb (isOrthogonal (ind j) (ind i))
  else false.

(** ** Clique search *)
Section Search.
  Variable nn : nat -> nat -> bool.       (* node_node *)
  Variable val : nat -> Q.                (* nodes[].val *)
  Variable orig : nat -> nat.             (* sp_orig_col_ind *)
  Variable petol : Q.
  Variable n : nat.                       (* nodenum *)
  (** CoinSort_2 with CoinFirstGreater_2 (CoinUtils, outside /repo): orders
      pairs (degree, node) by decreasing degree; the order of ties is
      unspecified. *)
  Variable sorter : list (Z * nat) -> list (Z * nat).

  (** createFractionalGraph, Helper lines 259-322: degree of a node. *)
  Definition degree (i : nat) : Z := Z.of_nat (length (filter (nn i) (seq 0 n))).

  (** std::sort on ints. *)
  Fixpoint insert_sorted (a : nat) (l : list nat) : list nat :=
    match l with
    | [] => [a]
    | b :: l' => if Nat.leb a b then a :: l else b :: insert_sorted a l'
    end.
  Definition sort_nat (l : list nat) : list nat := fold_right insert_sorted [] l.

  (** recordClique, lines 700-716.  insertIfNotDuplicate compares with a
      tolerance of 1e-12; here the comparison is exact. *)
  Definition clique_cut (indices : list nat) : rowcut :=
    RowCut (map (fun j => (j, 1)) (sort_nat (map orig indices))) None (Some 1).
  Definition recordClique (indices : list nat) (cs : list rowcut) : list rowcut :=
    insert_new cs (clique_cut indices).

  Definition lhs (indices : list nat) : Q := fold_right (fun j s => val j + s) 0 indices.

  (** enumerate_maximal_cliques, lines 557-646. *)
  Section Enumerate.
    Variable perm cl del : list nat.      (* cl_perm_indices, cl_indices, cl_del_indices *)
    Fixpoint set_nth {A} (k : nat) (b : A) (l : list A) : list A :=
      match k, l with
      | _, [] => []
      | O, _ :: l' => b :: l'
      | S k', a :: l' => a :: set_nth k' b l'
      end.
    (** The while loop, lines 567-577; [k] is the number of positions left. *)
    Fixpoint scan (k pos : nat) (label : list bool) : nat * list bool :=
      match k with
      | O => (pos, label)
      | S k' =>
          let b := forallb (fun j => negb (nth j label false && negb (nn (nth pos cl 0%nat) (nth j cl 0%nat))))
                           (seq 0 pos) in
          let label' := set_nth pos b label in
          if b then (S pos, label') else scan k' (S pos) label'
      end.
    (** The else branch, lines 591-642. *)
    Definition labelled (label : list bool) : list nat :=
      map fst (filter snd (combine cl label)).
    Definition leaf (label : list bool) (cs : list rowcut) : list rowcut * nat :=
      let coef := rev (labelled label) in
      if Nat.eqb (length coef) 0 then (cs, 0%nat)
      else if existsb (fun kb => negb (snd kb) && forallb (nn (fst kb)) coef) (combine cl label)
      then (cs, 0%nat)
      else
        let coef' := coef ++ perm in
        if lhs coef' <? 1 + petol then (cs, 0%nat)
        else if existsb (fun d => forallb (nn d) coef') del then (cs, 0%nat)
        else (recordClique coef' cs, 1%nat).
    (** [pos] is a reference parameter: its new value is returned. *)
    Fixpoint enumerate (fuel pos : nat) (label : list bool) (cs : list rowcut)
      : outcome (nat * list bool * list rowcut * nat) :=
      match fuel with
      | O => OutOfFuel
      | S fuel' =>
          let '(pos1, label1) := scan (length cl - pos) pos label in
          if Nat.ltb pos1 (length cl) then
            do r1 <- enumerate fuel' pos1 label1 cs;
            let '(pos2, label2, cs2, found2) := r1 in
            let label3 := set_nth (pos2 - 1) false label2 in
            do r2 <- enumerate fuel' pos2 label3 cs2;
            let '(pos3, label4, cs3, found3) := r2 in
            Done (pos3, label4, cs3, (found2 + found3)%nat)
          else
            let '(cs', f) := leaf label1 cs in
            Done (pos1, label1, cs', f)
      end.
    (** Calls from find_rcl (lines 219-222) and find_scl (lines 337-340). *)
    Definition enumerate_all (cs : list rowcut) : outcome (list rowcut) :=
      do r <- enumerate (S (length cl)) 0 (repeat false (length cl)) cs;
      let '(_, _, cs', _) := r in Done cs'.

    (** greedy_maximal_clique, lines 657-693. *)
    Definition greedy_step (coef : list nat) (v : nat) : list nat :=
      if forallb (nn v) (rev coef) then coef ++ [v] else coef.
    Definition greedy (cs : list rowcut) : outcome (list rowcut) :=
      match cl with
      | [] => Aborts                       (* assert(cl_length > 0) *)
      | c0 :: cl' =>
          let coef := fold_left greedy_step cl' [c0] ++ perm in
          Done (if Nat.ltb (length coef) 3 then cs
                else if 1 + petol <? lhs coef then recordClique coef cs
                else cs)
      end.
  End Enumerate.

  (** Decreasing sort of a candidate list by degree. *)
  Definition by_degree (deg : nat -> Z) (l : list nat) : list nat :=
    map snd (sorter (map (fun i => (deg i, i)) l)).

  (** find_rcl, lines 167-251: body for one row. *)
  Definition rcl_row (thr : Z) (rowind : list nat) (cs : list rowcut) : outcome (list rowcut) :=
    match rowind with
    | [] => Done cs
    | _ =>
        let cand := filter (fun k => forallb (fun i => nn i k) rowind) (seq 0 n) in
        match cand with
        | [] => Done cs
        | _ =>
            if (Z.of_nat (length cand) <=? thr)%Z
            then enumerate_all rowind cand [] cs
            else greedy rowind (by_degree degree cand) cs
        end
    end.
  Definition find_rcl (thr : Z) (rowinds : list (list nat)) (cs : list rowcut) : outcome (list rowcut) :=
    ofold (fun cs r => rcl_row thr r cs) rowinds cs.

  (** A node still in the graph of find_scl. *)
  Record cnode := CNode { cn_i : nat; cn_deg : Z; cn_val : Q }.

  (** scl_choose_next_node, lines 436-479. *)
  Fixpoint choose_from (rule : scl_rule) (i best : nat) (bd : Z) (bv : Q) (l : list cnode) : nat :=
    match l with
    | [] => best
    | c :: l' =>
        match rule with
        | SCL_MIN_DEGREE =>
            if (cn_deg c <? bd)%Z then choose_from rule (S i) i (cn_deg c) bv l'
            else choose_from rule (S i) best bd bv l'
        | SCL_MAX_DEGREE =>
            if (bd <? cn_deg c)%Z then choose_from rule (S i) i (cn_deg c) bv l'
            else choose_from rule (S i) best bd bv l'
        | SCL_MAX_XJ_MAX_DEG =>
            if bv <? cn_val c then choose_from rule (S i) i (cn_deg c) (cn_val c) l'
            else if Qeq_bool (cn_val c) bv && (bd <? cn_deg c)%Z
            then choose_from rule (S i) i (cn_deg c) bv l'
            else choose_from rule (S i) best bd bv l'
        end
    end.
  Definition choose_next_node (rule : scl_rule) (cur : list cnode) : nat :=
    match cur with
    | [] => 0%nat
    | c :: l => choose_from rule 1 0 (cn_deg c) (cn_val c) l
    end.
  (** scl_delete_node, lines 504-530. *)
  Fixpoint remove_nth {A} (k : nat) (l : list A) : list A :=
    match k, l with
    | _, [] => []
    | O, _ :: l' => l'
    | S k', a :: l' => a :: remove_nth k' l'
    end.
  Definition scl_delete_node (v : nat) (k : nat) (cur : list cnode) : list cnode :=
    map (fun c => CNode (cn_i c) (if nn v (cn_i c) then cn_deg c - 1 else cn_deg c) (cn_val c))
        (remove_nth k cur).

  (** find_scl, lines 275-424: the while loop. *)
  Fixpoint scl_loop (fuel : nat) (rule : scl_rule) (thr : Z) (cur : list cnode) (del : list nat)
                    (cs : list rowcut) : outcome (list rowcut) :=
    match fuel with
    | O => OutOfFuel
    | S fuel' =>
        if Nat.ltb 2 (length cur) then
          let best := choose_next_node rule cur in
          match nth_error cur best with
          | None => Undef OutOfBounds
          | Some c =>
              let v := cn_i c in
              let next := scl_delete_node v best cur in
              if (cn_deg c <? 2)%Z then scl_loop fuel' rule thr next (del ++ [v]) cs
              else
                let starn := filter (fun c' => nn v (cn_i c')) cur in
                let star := map cn_i starn in
                let star_val := fold_left (fun s c' => s + cn_val c') starn (cn_val c) in
                do cs' <-
                  (if 1 + petol <=? star_val then
                     if (cn_deg c <? thr)%Z
                     then enumerate_all [v] star del cs
                     else greedy [v] (map snd (sorter (map (fun c' => (cn_deg c', cn_i c')) starn))) cs
                   else Done cs);
                scl_loop fuel' rule thr next (del ++ [v]) cs'
          end
        else Done cs
    end.
  Definition find_scl (rule : scl_rule) (thr : Z) (cs : list rowcut) : outcome (list rowcut) :=
    scl_loop (S n) rule thr (map (fun i => CNode i (degree i) (val i)) (seq 0 n)) [] cs.
End Search.

(** ** generateCuts, lines 88-158 *)
Definition MAX_CGLCLIQUE_COLS : Z := 10000.
Definition MAX_CGLCLIQUE_ROWS : Z := 100000.

(** Solver state and tree information read by the generator. *)
Record clq_env := ClqEnv {
  ce_mip : mip; ce_x : nat -> Q; ce_ptol : Q; ce_inTree : bool; ce_formulationRows : nat
}.
Definition with_petol (g : clq) (p : Q) : clq := setMinViolation g p.

Definition generateCuts (sorter : list (Z * nat) -> list (Z * nat)) (g : clq) (e : clq_env) (cs : list rowcut)
  : outcome (list rowcut * clq) :=
  let m := ce_mip e in
  let has_petol_set := negb (Qeq_bool (cq_petol g) (-1)) in
  let petol := if has_petol_set then cq_petol g else ce_ptol e in
  let numberOriginalRows :=
    if ce_inTree e && cq_justOriginal g then ce_formulationRows e else length (m_rows m) in
  let cols := if cq_setPacking g then selectFractionals m (ce_x e) (ce_ptol e)
              else selectFractionalBinaries m (ce_x e) (ce_ptol e) petol (cq_maxNumber g) in
  let rows0 := if cq_setPacking g then seq 0 numberOriginalRows
               else selectRowCliques m cols numberOriginalRows in
  let rows := if cq_justOriginal g && ce_inTree e then firstn (ce_formulationRows e) rows0 else rows0 in
  if (MAX_CGLCLIQUE_ROWS <? Z.of_nat (length rows))%Z || (Z.of_nat (length cols) <? 2)%Z
     || (MAX_CGLCLIQUE_COLS <? Z.of_nat (length cols))%Z
  then Done (cs, with_petol g petol)
  else if existsb (fun r => negb (Nat.ltb r (length (m_rows m)))) rows then Undef OutOfBounds
  else
    let nn := node_node (col_ind m cols rows) in
    let val := fun j => ce_x e (nth j cols 0%nat) in
    let orig := fun j => nth j cols 0%nat in
    let n := length cols in
    do cs1 <- (if cq_doRow g
               then find_rcl nn val orig petol n sorter (cq_rclThr g)
                      (map (row_ind m cols rows) (seq 0 (length rows))) cs
               else Done cs);
    do cs2 <- (if cq_doStar g
               then find_scl nn val orig petol n sorter (cq_rule g) (cq_sclThr g) cs1
               else Done cs1);
    Done (cs2, with_petol g (if has_petol_set then petol else -1)).
