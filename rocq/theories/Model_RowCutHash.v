(** * The two hashed containers of row cuts

    [row_cut] (CglProbing.cpp:51-286) collects the cuts of a probing call.
    [CglUniqueRowCuts] (CglPreProcess.hpp:569-606, CglPreProcess.cpp:
    10119-10392) collects the cuts found while preprocessing.  Their insertion
    functions are two copies of the same algorithm, modelled once with the
    differences as a record [kind].

    Integers are unbounded: the sizes overflow only beyond 2^29 cuts.
    [hashCut] and [same] are functions of OSI (OsiCuts.cpp), outside /repo;
    they are parameters, and the theorems say what they need of them. *)

From Coq Require Import Qabs.
From Verif Require Export Base.
Local Open Scope Q_scope.

(** What differs between the two classes.
    [k_hsize]: number of slots for a given capacity, CglProbing.cpp:59-62 and
    103-106 against CglPreProcess.cpp:10124, 10258 and 10261.
    [k_reset]: row_cut starts looking for free slots at 0 again when it grows,
    CglProbing.cpp:114; the other class does not.
    [k_bounds]: row_cut refuses bounds that are large and finite,
    CglProbing.cpp:176-179. *)
Record kind := { k_hsize : nat -> nat; k_reset : bool; k_bounds : bool }.
Definition kind_probing : kind :=
  {| k_hsize := fun s => if Nat.ltb s 1000 then (4 * s)%nat else (2 * s)%nat;
     k_reset := true; k_bounds := true |}.
Definition kind_unique (mult : nat) : kind :=
  {| k_hsize := fun s => (mult * s)%nat; k_reset := false; k_bounds := false |}.

(** CoinHashLink, CglProbing.cpp:47-49; CglHashLink, CglPreProcess.hpp:566-568.
    -1 is [None]. *)
Record link := { lk_index : option nat; lk_next : option nat }.
Definition no_link : link := {| lk_index := None; lk_next := None |}.

(** A stored cut: OsiRowCut2 in row_cut, with the row it strengthens
    ([None] for -1), OsiRowCut in the other class.  The constructors (OSI) set
    the effectiveness to 0. *)
Record scut := { sc_cut : rowcut; sc_row : option nat; sc_eff : Q }.

(** An entry of the array rowCut_: it comes from [new OsiRowCut *[size_]],
    which leaves the pointers unset. *)
Inductive cell := CUnset | CNull | CFreed | CCut (c : scut).

Record hset := {
  hs_size : nat;              (* size_ *)
  hs_n : nat;                 (* numberCuts_ *)
  hs_last : nat;              (* lastHash_ + 1 *)
  hs_arr : nat -> cell;       (* rowCut_ *)
  hs_tab : nat -> link        (* hash_ *)
}.

Definition upd {A} (f : nat -> A) (i : nat) (a : A) : nat -> A :=
  fun j => if Nat.eqb j i then a else f j.

(** CoinPackedVector::sortIncrIndex and CoinSort_2 (CoinUtils, outside /repo),
    CglProbing.cpp:165 and CglPreProcess.cpp:10325.  For equal indices the
    order is not specified there; here it is kept. *)
Fixpoint ins_entry (e : nat * Q) (v : vec) : vec :=
  match v with
  | [] => [e]
  | f :: w => if Nat.leb (fst e) (fst f) then e :: v else f :: ins_entry e w
  end.
Fixpoint sort_vec (v : vec) : vec :=
  match v with [] => [] | e :: w => ins_entry e (sort_vec w) end.
Definition sorted_cut (c : rowcut) : rowcut :=
  {| rc_form := sort_vec (rc_form c); rc_lb := rc_lb c; rc_ub := rc_ub c |}.

(** CglProbing.cpp:169-181; CglPreProcess.cpp:10327-10334.  An infinite bound
    ([None]) is beyond 1e40. *)
Definition bad_elem (a : Q) : bool :=
  (Qabs a <? 1 # 1000000000000) || (1000000000000 # 1 <? Qabs a).
Definition bad_cut (k : kind) (c : rowcut) : bool :=
  existsb (fun e => bad_elem (snd e)) (rc_form c) ||
  (k_bounds k &&
   (match rc_lb c with
    | Some l => (l <? - (1000000000000 # 1)) && (- (inject_Z (10 ^ 40)) <? l)
    | None => false
    end ||
    match rc_ub c with
    | Some u => (1000000000000 # 1 <? u) && (u <? inject_Z (10 ^ 40))
    | None => false
    end)).

Section WithOsi.
Variable hash : rowcut -> nat -> nat.   (* hashCut(cut, size) *)
Variable same : rowcut -> rowcut -> bool.
Variable k : kind.

(** The value of rowCut_[j] dereferenced. *)
Definition deref (size : nat) (arr : nat -> cell) (j : nat) : outcome scut :=
  if Nat.ltb j size then
    match arr j with
    | CCut c => Done c
    | CNull => Undef NullDeref
    | CFreed => Undef UseAfterFree
    | CUnset => Undef Uninitialised
    end
  else Undef OutOfBounds.

(** The loop that looks a cut up, CglProbing.cpp:186-203, 121-137;
    CglPreProcess.cpp:10343-10361, 10275-10293.  Returns [found] and [ipos].
    The state of the loop is a slot, so more than [hsize] rounds mean that it
    does not stop. *)
Fixpoint walk (fuel hsize size : nat) (arr : nat -> cell) (tab : nat -> link)
    (c : rowcut) (ipos : nat) : outcome (option nat * nat) :=
  match fuel with
  | O => OutOfFuel
  | S f =>
    if Nat.ltb ipos hsize then
      match lk_index (tab ipos) with
      | Some j1 =>
          do d <- deref size arr j1;
          if negb (same c (sc_cut d)) then
            match lk_next (tab ipos) with
            | Some q => walk f hsize size arr tab c q
            | None => Done (None, ipos)
            end
          else Done (Some j1, ipos)
      | None => Done (None, ipos)
      end
    else Undef OutOfBounds
  end.

(** The search for a free slot, CglProbing.cpp:209-214, 143-148;
    CglPreProcess.cpp:10369-10374, 10301-10306.  The assertion is part of it. *)
Fixpoint free_slot (fuel hsize : nat) (tab : nat -> link) (last : nat)
    : outcome nat :=
  match fuel with
  | O => OutOfFuel
  | S f =>
    if Nat.ltb last hsize then
      match lk_index (tab last) with
      | None => Done last
      | Some _ => free_slot f hsize tab (S last)
      end
    else Aborts
  end.

(** The branch [found < 0], CglProbing.cpp:204-218, 138-152;
    CglPreProcess.cpp:10362-10378, 10294-10310.  Returns the table and
    lastHash_ + 1. *)
Definition place (hsize : nat) (tab : nat -> link) (last ipos jpos i : nat)
    : outcome ((nat -> link) * nat) :=
  match lk_next (tab ipos) with
  | Some _ => Aborts
  | None =>
      if Nat.eqb ipos jpos then
        Done (upd tab ipos {| lk_index := Some i; lk_next := lk_next (tab ipos) |}, last)
      else
        do q <- free_slot (S hsize) hsize tab last;
        let tab1 := upd tab ipos {| lk_index := lk_index (tab ipos); lk_next := Some q |} in
        Done (upd tab1 q {| lk_index := Some i; lk_next := lk_next (tab1 q) |}, S q)
  end.

(** One round of the rehashing loop, CglProbing.cpp:115-153;
    CglPreProcess.cpp:10269-10311.  [temp] has been filled up to [i]. *)
Definition rehash1 (hsize size : nat) (arr : nat -> cell)
    (st : (nat -> link) * nat) (i : nat) : outcome ((nat -> link) * nat) :=
  let '(tab, last) := st in
  do c <- deref size arr i;
  let jpos := hash (sc_cut c) hsize in
  do r <- walk (S hsize) hsize size arr tab (sc_cut c) jpos;
  let '(found, ipos) := r in
  match found with
  | Some _ => Done (tab, last)
  | None => place hsize tab last ipos jpos i
  end.

Fixpoint rehash (hsize size : nat) (arr : nat -> cell)
    (st : (nat -> link) * nat) (is : list nat) : outcome ((nat -> link) * nat) :=
  match is with
  | [] => Done st
  | i :: r => do st' <- rehash1 hsize size arr st i; rehash hsize size arr st' r
  end.

(** Growing, CglProbing.cpp:101-157; CglPreProcess.cpp:10259-10315.  The first
    numberCuts_ pointers are copied, the rest of the new array is unset. *)
Definition grow (s : hset) : outcome hset :=
  if Nat.eqb (hs_n s) (hs_size s) then
    let size := (2 * hs_size s + 100)%nat in
    let hsize := k_hsize k size in
    let arr := fun j => if Nat.ltb j (hs_n s) then hs_arr s j else CUnset in
    let last := if k_reset k then O else hs_last s in
    do r <- rehash hsize size arr (fun _ => no_link, last) (seq 0 (hs_n s));
    let '(tab, last') := r in
    Done {| hs_size := size; hs_n := hs_n s; hs_last := last'; hs_arr := arr;
            hs_tab := tab |}
  else Done s.

(** addCutIfNotDuplicate, CglProbing.cpp:99-230, and insertIfNotDuplicate,
    CglPreProcess.cpp:10256-10390.  [row] is whichRow.  The result is the
    returned integer.  row_cut sorts the argument in place and moves its row
    away when it is stored; this effect on the argument is not modelled. *)
Definition add_cut (s0 : hset) (c0 : rowcut) (row : option nat)
    : outcome (hset * Z) :=
  do s <- grow s0;
  if Nat.ltb (hs_n s) (hs_size s) then
    let c := sorted_cut c0 in
    if bad_cut k c then Done (s, 1%Z)
    else
      let hsize := k_hsize k (hs_size s) in
      let jpos := hash c hsize in
      do r <- walk (S hsize) hsize (hs_size s) (hs_arr s) (hs_tab s) c jpos;
      let '(found, ipos) := r in
      match found with
      | Some _ => Done (s, 1%Z)
      | None =>
          do t <- place hsize (hs_tab s) (hs_last s) ipos jpos (hs_n s);
          let '(tab, last) := t in
          Done ({| hs_size := hs_size s; hs_n := S (hs_n s); hs_last := last;
                   hs_arr := upd (hs_arr s) (hs_n s)
                     (CCut {| sc_cut := c; sc_row := row; sc_eff := 0 |});
                   hs_tab := tab |}, 0%Z)
      end
  else Done (s, (-1)%Z).

(** A sequence of insertions with the integers returned. *)
Fixpoint add_all (s : hset) (l : list (rowcut * option nat))
    : outcome (hset * list Z) :=
  match l with
  | [] => Done (s, [])
  | (c, row) :: r =>
      do a <- add_cut s c row;
      let '(s1, z) := a in
      do b <- add_all s1 r;
      let '(s2, zs) := b in
      Done (s2, z :: zs)
  end.

(** The constructors, CglProbing.cpp:53-73 (capacity 100, or 50 on an initial
    pass) and CglPreProcess.cpp:10119-10137. *)
Definition new_set (size : nat) : hset :=
  {| hs_size := size; hs_n := 0; hs_last := 0; hs_arr := fun _ => CUnset;
     hs_tab := fun _ => no_link |}.

(** ** CglUniqueRowCuts::eraseRowCut, CglPreProcess.cpp:10203-10254 *)

(** 10211-10226: the search for the index. *)
Fixpoint find_index (fuel hsize : nat) (tab : nat -> link) (i ipos : nat)
    : outcome (option nat) :=
  match fuel with
  | O => OutOfFuel
  | S f =>
    if Nat.ltb ipos hsize then
      match lk_index (tab ipos) with
      | Some j1 =>
          if negb (Nat.eqb j1 i) then
            match lk_next (tab ipos) with
            | Some q => find_index f hsize tab i q
            | None => Done None
            end
          else Done (Some ipos)
      | None => Done None
      end
    else Undef OutOfBounds
  end.

(** 10230-10234: shuffle up. *)
Fixpoint shuffle (fuel hsize : nat) (tab : nat -> link) (ipos : nat)
    : outcome (nat -> link) :=
  match fuel with
  | O => OutOfFuel
  | S f =>
      match lk_next (tab ipos) with
      | Some q =>
          if Nat.ltb q hsize then shuffle f hsize (upd tab ipos (tab q)) q
          else Undef OutOfBounds
      | None => Done tab
      end
  end.

(** 10240-10252: the entry of the last cut; a missing successor is slot -1. *)
Fixpoint find_last (fuel hsize : nat) (tab : nat -> link) (i ipos : nat)
    : outcome nat :=
  match fuel with
  | O => OutOfFuel
  | S f =>
    if Nat.ltb ipos hsize then
      if match lk_index (tab ipos) with Some j1 => Nat.eqb j1 i | None => false end
      then Done ipos
      else
        match lk_next (tab ipos) with
        | Some q => find_last f hsize tab i q
        | None => Undef OutOfBounds
        end
    else Undef OutOfBounds
  end.

Definition erase (s : hset) (i : nat) : outcome hset :=
  if negb (Nat.ltb i (hs_n s)) then Aborts
  else
    do c <- deref (hs_size s) (hs_arr s) i;
    let hsize := k_hsize k (hs_size s) in
    do p <- find_index (S hsize) hsize (hs_tab s) i (hash (sc_cut c) hsize);
    match p with
    | None => Aborts
    | Some ipos =>
        do tab <- shuffle (S hsize) hsize (hs_tab s) ipos;
        let arr := upd (hs_arr s) i CFreed in
        let n := (hs_n s - 1)%nat in
        if Nat.eqb n 0 then
          (* assert(!rowCut_[0]): the pointer to the deleted cut is not null *)
          Aborts
        else
          do d <- deref (hs_size s) arr n;
          do q <- find_last (S hsize) hsize tab n (hash (sc_cut d) hsize);
          let tab1 := upd tab q {| lk_index := Some i; lk_next := lk_next (tab q) |} in
          Done {| hs_size := hs_size s; hs_n := n; hs_last := hs_last s;
                  hs_arr := upd (upd arr i (arr n)) n CNull; hs_tab := tab1 |}
    end.

(** ** The copies, CglPreProcess.cpp:10145-10171 and 10172-10202.
    The assignment reads the same entries. *)
Definition copy_cell (c : cell) : outcome cell :=
  match c with
  | CUnset => Undef Uninitialised
  | CFreed => Undef UseAfterFree
  | CNull => Done CNull
  | CCut d => Done (CCut d)
  end.
Fixpoint copy_cells (arr : nat -> cell) (out : nat -> cell) (is : list nat)
    : outcome (nat -> cell) :=
  match is with
  | [] => Done out
  | i :: r => do c <- copy_cell (arr i); copy_cells arr (upd out i c) r
  end.
Definition copy_set (s : hset) : outcome hset :=
  do arr <- copy_cells (hs_arr s) (fun _ => CUnset) (seq 0 (hs_size s));
  Done {| hs_size := hs_size s; hs_n := hs_n s; hs_last := hs_last s;
          hs_arr := arr; hs_tab := hs_tab s |}.

End WithOsi.

(** ** addCuts *)

(** CglUniqueRowCuts::addCuts, CglPreProcess.cpp:10391-10400 *)
Fixpoint unique_add_loop (size : nat) (arr : nat -> cell) (cs : list rowcut)
    (is : list nat) : outcome ((nat -> cell) * list rowcut) :=
  match is with
  | [] => Done (arr, cs)
  | i :: r =>
      do c <- deref size arr i;
      unique_add_loop size (upd arr i CNull) (insert_new cs (sc_cut c)) r
  end.
Definition unique_add_cuts (s : hset) (cs : list rowcut)
    : outcome (hset * list rowcut) :=
  do r <- unique_add_loop (hs_size s) (hs_arr s) cs (seq 0 (hs_n s));
  let '(arr, cs') := r in
  Done ({| hs_size := hs_size s; hs_n := 0; hs_last := hs_last s;
           hs_arr := arr; hs_tab := hs_tab s |}, cs').

(** One insertion of row_cut::addCuts, CglProbing.cpp:237-244, 248-255,
    270-277.  [which] is the array whichRow, [None] when it is null; an entry
    is the position of the cut in [cs] it points to.  cs.insert appends. *)
Definition note_row (which : option (list (option nat))) (row : option nat)
    (pos : nat) : outcome (option (list (option nat))) :=
  match which, row with
  | Some w, Some r =>
      match nth_error w r with
      | None => Undef OutOfBounds
      | Some (Some _) => Done (Some w)
      | Some None =>
          Done (Some (firstn r w ++ Some pos :: skipn (S r) w))
      end
  | _, _ => Done which
  end.
Fixpoint probing_insert (size : nat) (arr : nat -> cell) (keep : scut -> bool)
    (cs : list rowcut) (which : option (list (option nat))) (is : list nat)
    : outcome (list rowcut * option (list (option nat))) :=
  match is with
  | [] => Done (cs, which)
  | i :: r =>
      do c <- deref size arr i;
      if keep c then
        do w <- note_row which (sc_row c) (length cs);
        probing_insert size arr keep (cs ++ [sc_cut c]) w r
      else probing_insert size arr keep cs which r
  end.

(** The sort key, CglProbing.cpp:257-263, and the ascending sort, 264. *)
Definition sort_key (has_which : bool) (c : scut) : Q :=
  match has_which, sc_row c with
  | true, Some _ => - sc_eff c - 10000000000
  | _, _ => - sc_eff c
  end.
Fixpoint ins_q (a : Q) (l : list Q) : list Q :=
  match l with
  | [] => [a]
  | b :: r => if Qle_bool a b then a :: l else b :: ins_q a r
  end.
Fixpoint sort_q (l : list Q) : list Q :=
  match l with [] => [] | a :: r => ins_q a (sort_q r) end.
Fixpoint all_cells (size : nat) (arr : nat -> cell) (is : list nat)
    : outcome (list scut) :=
  match is with
  | [] => Done []
  | i :: r =>
      do c <- deref size arr i;
      do l <- all_cells size arr r;
      Done (c :: l)
  end.
(** row_cut::addCuts, CglProbing.cpp:231-285.  The cuts are deleted one by one
    at the end, 281-284. *)
Definition probing_add_cuts (nrows : nat) (s : hset) (cs : list rowcut)
    (which : option (list (option nat))) (pass : Z)
    : outcome (hset * list rowcut * option (list (option nat))) :=
  let is := seq 0 (hs_n s) in
  do r <-
    (if Nat.ltb (hs_n s) nrows then
       if Z.odd pass
       then probing_insert (hs_size s) (hs_arr s) (fun _ => true) cs which is
       else probing_insert (hs_size s) (hs_arr s) (fun _ => true) cs which (rev is)
     else
       do l <- all_cells (hs_size s) (hs_arr s) is;
       let keys := sort_q
         (map (sort_key (match which with Some _ => true | None => false end)) l) in
       let threshold :=
         if Nat.ltb nrows (hs_n s) then nth nrows keys 0
         else - (inject_Z (10 ^ 20)) in
       probing_insert (hs_size s) (hs_arr s) (fun c => threshold <? sc_eff c) cs which is);
  let '(cs', which') := r in
  Done ({| hs_size := hs_size s; hs_n := 0; hs_last := hs_last s;
           hs_arr := fun j => if Nat.ltb j (hs_n s) then CNull else hs_arr s j;
           hs_tab := hs_tab s |}, cs', which').
