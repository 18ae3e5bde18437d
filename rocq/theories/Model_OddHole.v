(** * Model of CglOddHole
    Source: /repo/src/CglOddHole/CglOddHole.cpp, CglOddHole.hpp.
    Doubles are exact rationals; infinite bounds are [None].
    Modelled: both generateCuts overloads, createRowList (both versions), the
    three parameter setters/getters, numberPossible, the default constructor
    and what copy construction and assignment do to the row list.
    Not modelled: createCliqueList (the stored cliques are never read by
    generateCuts), generateCpp, refreshSolver. *)

From Coq Require Import Qabs.
From Verif Require Import Base Model_Clique.
Local Open Scope Q_scope.

(** epsilon_ and onetol_, lines 696-697. *)
Definition eps : Q := 1 # 100000000.
Definition onetol : Q := 1 - eps.

(** The object.  suitableRows_ = NULL is [None]; numberRows_ is the length of
    the list. *)
Record ohole := OHole {
  oh_suitable : option (list Z);
  oh_minViol : Q; oh_minViolPer : Q; oh_maxEntries : Z
}.
(** Default constructor, lines 693-708. *)
Definition oh_new : ohole := OHole None (1 # 1000) (3 # 10000) 100.
(** Setters, lines 815-850. *)
Definition setMinimumViolation (g : ohole) (v : Q) : ohole :=
  if (1 # 100000000 <? v) && (v <=? 1 # 2)
  then OHole (oh_suitable g) v (oh_minViolPer g) (oh_maxEntries g) else g.
Definition setMinimumViolationPer (g : ohole) (v : Q) : ohole :=
  if (1 # 100000000 <? v) && (v <=? 1 # 4)
  then OHole (oh_suitable g) (oh_minViol g) v (oh_maxEntries g) else g.
Definition setMaximumEntries (g : ohole) (v : Z) : ohole :=
  if (2 <? v)%Z then OHole (oh_suitable g) (oh_minViol g) (oh_minViolPer g) v else g.
(** createRowList with a user list, lines 661-666. *)
Definition createRowList_user (g : ohole) (which : list Z) : ohole :=
  OHole (Some which) (oh_minViol g) (oh_minViolPer g) (oh_maxEntries g).
(** Copy constructor, lines 713-743: an empty list becomes NULL. *)
Definition oh_copy (g : ohole) : ohole :=
  OHole (match oh_suitable g with Some (z :: l) => Some (z :: l) | _ => None end)
        (oh_minViol g) (oh_minViolPer g) (oh_maxEntries g).
(** Assignment, lines 771-806: suitableRows_ = new int[numberRows_] is never
    NULL. *)
Definition oh_assign (g : ohole) : ohole :=
  OHole (Some (match oh_suitable g with Some l => l | None => [] end))
        (oh_minViol g) (oh_minViolPer g) (oh_maxEntries g).
(** numberPossible, lines 681-688. *)
Definition numberPossible (g : ohole) : nat :=
  match oh_suitable g with
  | Some l => length (filter (fun z => negb (z =? 0)%Z) l)
  | None => 0%nat
  end.

Section Solver.
  Variable m : mip.
  Variable x : nat -> Q.                 (* si.getColSolution() *)
  Variable dj : nat -> Q.                (* si.getReducedCost() *)

  (** colupper - collower > epsilon_ *)
  Definition wide (j : nat) : bool :=
    match m_clo m j, m_chi m j with
    | Some l, Some u => eps <? u - l
    | _, _ => true
    end.
  (** colupper - collower < epsilon_ *)
  Definition narrow (j : nat) : bool :=
    match m_clo m j, m_chi m j with
    | Some l, Some u => u - l <? eps
    | _, _ => false
    end.
  Definition lower_value (j : nat) : Q := match m_clo m j with Some l => l | None => 0 end.

  (** createRowList, lines 593-659, for one row: is it good?  The loop stops
      at the first unsuitable entry, after which the right-hand sides do not
      matter. *)
  Definition entry_ok (ja : nat * Q) : bool :=
    if wide (fst ja) then is_binary m (fst ja) && (Qabs (snd ja - 1) <=? eps) else true.
  Definition fixed_part (r : row) : Q :=
    fold_left (fun s ja => if wide (fst ja) then s else s + lower_value (fst ja) * snd ja) (r_form r) 0.
  Definition near_one (b : option Q) (f : Q) : bool :=
    match b with Some u => Qabs (u - f - 1) <=? eps | None => false end.
  Definition good_row (r : row) : bool :=
    forallb entry_ok (r_form r) &&
    (near_one (r_hi r) (fixed_part r) || near_one (r_lo r) (fixed_part r)).
  Definition createRowList (possible : list Z) : list Z :=
    map (fun rz => if (snd rz =? 0)%Z then 0%Z else if good_row (fst rz) then 1%Z else 0%Z)
        (combine (m_rows m) possible).

  (** Lines 46-57: rows to look at. *)
  Definition check_rows (g : ohole) : list Z :=
    let n := length (m_rows m) in
    match oh_suitable g with
    | None => repeat 1%Z n
    | Some l => firstn n l ++ repeat 0%Z (n - length l)
    end.

  (** Lines 68-89: status of a column and cleaned solution. *)
  Definition fixed_status (j : nat) : Z :=
    if is_binary m j then
      if narrow j then 2 else if x j <? eps then -1 else if onetol <? x j then 1 else 0
    else 3.
  Definition sol (j : nat) : Q :=
    if is_binary m j then
      if narrow j then 0 else if x j <? eps then 0 else if onetol <? x j then 1 else x j
    else 0.
  Definition free (j : nat) : bool := (fixed_status j =? 0)%Z.

  (** Lines 90-104: rows for the packing pass. *)
  Definition above (b : option Q) (t : Q) : bool := match b with Some u => t <? u | None => true end.
  Definition below (b : option Q) (t : Q) : bool := match b with Some l => l <? t | None => true end.
  Definition free_sum (r : row) : Q :=
    fold_left (fun s ja => if free (fst ja) then s + sol (fst ja) else s) (r_form r) 0.
  Definition packed_rows (suit : list Z) : list Z :=
    map (fun rz => let r := fst rz in
           if (snd rz =? 0)%Z then 0%Z
           else if (free_sum r <? 9 # 10) then (-1)%Z
           else if above (r_hi r) (1001 # 1000) then (-1)%Z else snd rz)
        (combine (m_rows m) suit).
  (** Lines 115-138: rows for the covering pass. *)
  Definition cover_sum (r : row) : Q :=
    fold_left (fun s ja =>
      let s1 := if free (fst ja) then s + sol (fst ja) else s in
      if (fixed_status (fst ja) =? 1)%Z then 2 else s1)
      (r_form r) (if below (r_lo r) (999 # 1000) then 2 else 0).
  Definition cover_rows (suit : list Z) : list Z :=
    map (fun rz => let z := Z.abs (snd rz) in
           if (z =? 0)%Z then 0%Z else if 11 # 10 <? cover_sum (fst rz) then (-1)%Z else z)
        (combine (m_rows m) suit).
  Definition do_cover (suit : list Z) : bool :=
    existsb (fun rz => negb (snd rz =? 0)%Z && above (r_hi (fst rz)) (1001 # 1000)) (combine (m_rows m) suit)
    && existsb (fun z => (0 <? z)%Z) (cover_rows suit).

  (** ** The second overload, lines 140-590 *)
  Section Separate.
    Variable packed : bool.
    Variable suit : list Z.               (* suitableRow *)
    Variable prm : ohole.                 (* limits of the object running *)
    Variable check : nat -> Q.            (* random numbers, lines 287-299 *)
    (** std::sort of (dj, element, sequence) triples by the first member. *)
    Variable sorter : list (Q * Q * nat) -> list (Q * Q * nat).

    Definition row_of (r : nat) : row := nth r (m_rows m) (Row [] None None).
    (** Lines 203-269.  Columns are used under their own index instead of the
        compressed one. *)
    Definition arc_cost (i j : nat) : Q :=
      let c0 := (10000001 # 10000000) - sol i - sol j in
      let c := if packed then c0 else - c0 in
      if c <? 1 # 10000000000 then 1 # 10000000000 else c.
    Definition arc := (nat * Q * nat)%type. (* to, cost, row *)
    Definition add_entry (i r : nat) (acc : list arc) (ja : nat * Q) : list arc :=
      let j := fst ja in
      if free j && negb (Nat.eqb j i) && negb (mem j (map (fun a => fst (fst a)) acc))
      then acc ++ [(j, arc_cost i j, r)] else acc.
    Definition arcs_of (i : nat) : list arc :=
      fold_left (fun acc r =>
          if (0 <? nth r suit 0%Z)%Z && has_entry (row_of r) i
          then fold_left (add_entry i r) (r_form (row_of r)) acc else acc)
        (seq 0 (length (m_rows m))) [].

    (** Nodes of the doubled graph, lines 279-289: a copy of every free column
        on each of two sides; arcs change side.  Start side is [false]. *)
    Definition node := (bool * nat)%type.
    Definition node_eqb (a b : node) : bool := Bool.eqb (fst a) (fst b) && Nat.eqb (snd a) (snd b).
    Definition arcs (v : node) : list (node * Q * nat) :=
      map (fun a => ((negb (fst v), fst (fst a)), snd (fst a), snd a)) (arcs_of (snd v)).

    (** Shortest path by label correction, lines 340-372. *)
    Record pstate := PState { p_cost : node -> Q; p_back : node -> option node; p_stack : list (Q * node) }.
    Definition big : Q := inject_Z (10 ^ 70).
    Definition upd {A} (f : node -> A) (v : node) (a : A) (w : node) : A := if node_eqb v w then a else f w.
    Definition on_stack (st : pstate) (v : node) : bool := existsb (fun it => node_eqb v (snd it)) (p_stack st).
    Definition relax (inode : node) (thisCost : Q) (st : pstate) (a : node * Q * nat) : pstate :=
      let '(jnode, c, _) := a in
      if negb (on_stack st jnode) && (thisCost + c <? p_cost st jnode - (1 # 1000000000000))
      then PState (upd (p_cost st) jnode (thisCost + c)) (upd (p_back st) jnode (Some inode))
                  ((thisCost + c, jnode) :: p_stack st)
      else st.
    Fixpoint shortest (fuel : nat) (st : pstate) : outcome pstate :=
      match fuel with
      | O => OutOfFuel
      | S fuel' =>
          match p_stack st with
          | [] => Done st
          | (c, v) :: rest =>
              shortest fuel' (fold_left (relax v c) (arcs v) (PState (p_cost st) (p_back st) rest))
          end
      end.
    Definition start (icol : nat) : pstate :=
      PState (upd (fun _ => big) (false, icol) 0) (fun _ => None) [(0, (false, icol))].

    (** Walk back along the path, lines 384-411.  The result lists the
        candidates from candidate[0] on. *)
    Fixpoint retrace (fuel : nat) (st : pstate) (icol : nat) (v : node) (cand : list node) (marked : list nat)
      : outcome (list node) :=
      match fuel with
      | O => OutOfFuel
      | S fuel' =>
          if node_eqb v (false, icol) then Done cand
          else match p_back st v with
               | None => Undef OutOfBounds
               | Some w =>
                   if mem (snd w) marked then retrace fuel' st icol w cand marked
                   else retrace fuel' st icol w (cand ++ [w]) (snd w :: marked)
               end
      end.

    (** Rows of the cycle, lines 422-439: [None] for a missing arc. *)
    Definition arc_row (v w : node) : option nat :=
      match find (fun a => node_eqb (fst (fst a)) w) (arcs v) with
      | Some a => Some (snd a)
      | None => None
      end.
    Fixpoint cycle_rows (cand : list node) : list (option nat) :=
      match cand with
      | w :: ((v :: _) as rest) => cycle_rows rest ++ [arc_row v w]
      | _ => []
      end.
    Definition found (l : list (option nat)) : list nat :=
      flat_map (fun o => match o with Some r => [r] | None => [] end) l.

    (** Counts, lines 443-452: columns in order of first appearance. *)
    Definition all_entries (rows : list nat) : list nat :=
      flat_map (fun r => map fst (r_form (row_of r))) rows.
    Definition first_seen (l : list nat) : list nat :=
      fold_left (fun acc j => if mem j acc then acc else acc ++ [j]) l [].
    Definition count (j : nat) (l : list nat) : Z := Z.of_nat (count_occ Nat.eq_dec l j).
    (** Halving, lines 459-474. *)
    Definition halved (rows : list nat) : vec :=
      let l := all_entries rows in
      let bias := if packed then 0%Z else 1%Z in
      filter (fun ja => negb (Qeq_bool (snd ja) 0))
        (map (fun j => (j, inject_Z (Z.shiftr (count j l + bias) 1))) (first_seen l)).
    Definition cut_rhs (rows : list nat) : Q :=
      inject_Z (Z.shiftr (Z.of_nat (length rows)) 1 + (if packed then 0 else 1)).
    Definition cut_of (v : vec) (rhs : Q) : rowcut :=
      if packed then RowCut v None (Some rhs) else RowCut v (Some rhs) None.
    Definition violation (v : vec) (rhs : Q) : Q :=
      if packed then value v sol - rhs else rhs - value v sol.
    Definition qlen (v : vec) : Q := inject_Z (Z.of_nat (length v)).
    (** Shortening, lines 505-537. *)
    Definition shortened (v : vec) : vec :=
      let key := fun ja : nat * Q => if Qeq_bool (sol (fst ja)) 0 then Qabs (dj (fst ja)) else - sol (fst ja) in
      map (fun t => (snd t, snd (fst t)))
        (firstn (Z.to_nat (Z.min (Z.of_nat (length v)) (oh_maxEntries prm)))
           (sorter (map (fun ja => (key ja, snd ja, fst ja)) v))).
    (** Lines 475-543. *)
    Definition cycle_cut (rows : list nat) : option vec :=
      let v := halved rows in
      let rhs := cut_rhs rows in
      if violation v rhs <? oh_minViol prm then None
      else if (violation v rhs <? qlen v * oh_minViolPer prm) || (oh_maxEntries prm <? Z.of_nat (length v))%Z then
        if packed then
          let v' := shortened v in
          if violation v' rhs <? oh_minViol prm then None else Some v'
        else None
      else Some v.

    (** One start column, lines 336-590.  The array mrow receiving the rows has
        nRows entries. *)
    Definition one_start (fuel icol : nat) (acc : list rowcut * list Q) : outcome (list rowcut * list Q) :=
      do st <- shortest fuel (start icol);
      if p_cost st (true, icol) <? 9999 # 10000 then
        do cand <- retrace fuel st icol (true, icol) [(true, icol)] [];
        let rs := cycle_rows cand in
        let rows := found rs in
        if Nat.ltb (length (m_rows m)) (length rows) then Undef OutOfBounds
        else if existsb (fun o => match o with None => true | Some _ => false end) rs
                || negb (Z.odd (Z.of_nat (length rows)))
        then Done acc
        else match cycle_cut rows with
             | None => Done acc
             | Some v =>
                 let h := value v check in
                 if existsb (Qeq_bool h) (snd acc) then Done acc
                 else Done (insert_new (fst acc) (cut_of v (cut_rhs rows)), snd acc ++ [h])
             end
      else Done acc.
    Definition separate (fuel : nat) (cs : list rowcut) : outcome (list rowcut) :=
      do r <- ofold (fun acc i => one_start fuel i acc) (filter free (seq 0 (m_ncols m))) (cs, []);
      Done (fst r).
  End Separate.

  (** First overload, lines 31-146.  The search is run by the fresh object
      [temp], so its limits are the default ones. *)
  Definition generateCuts (fuel : nat) (check : nat -> Q) (sorter : list (Q * Q * nat) -> list (Q * Q * nat))
      (g : ohole) (cs : list rowcut) : outcome (list rowcut) :=
    let temp := oh_new in
    let suit := createRowList (check_rows g) in
    let s1 := packed_rows suit in
    do cs1 <- separate true s1 temp check sorter fuel cs;
    if do_cover s1 then separate false (cover_rows s1) temp check sorter fuel cs1
    else Done cs1.
End Solver.
