(** * Owned arrays: copying, assigning and destroying generators

    /repo/src/CglKnapsackCover/CglKnapsackCover.cpp and
    /repo/src/CglCommon/CglStored.cpp

    A heap of blocks; [None] is a block that was deleted.  Pointers are block
    numbers and are never reused, so an access through a stale pointer is
    always noticed. *)

From Verif Require Import Base Model_TreeInfo.
Local Open Scope Z_scope.

Definition heap (C : Type) := list (option C).
Definition ptr := option nat.            (* None is NULL *)

(** operator new *)
Definition alloc {C} (h : heap C) (c : C) : heap C * ptr := (h ++ [Some c], Some (length h)).
Fixpoint kill {C} (h : heap C) (p : nat) : heap C :=
  match h, p with
  | [], _ => []
  | _ :: h', O => None :: h'
  | b :: h', S p' => b :: kill h' p'
  end.
(** operator delete: NULL is allowed *)
Definition del {C} (h : heap C) (p : ptr) : outcome (heap C) :=
  match p with
  | None => Done h
  | Some q => match nth_error h q with
              | Some (Some _) => Done (kill h q)
              | _ => Undef DoubleFree
              end
  end.
(** reading a block *)
Definition get {C} (h : heap C) (p : ptr) : outcome C :=
  match p with
  | None => Undef NullDeref
  | Some q => match nth_error h q with
              | Some (Some c) => Done c
              | _ => Undef UseAfterFree
              end
  end.

(** Objects live in numbered slots; [None] is a destroyed object. *)
Fixpoint put {O} (l : list (option O)) (i : nat) (o : option O) : list (option O) :=
  match l, i with
  | [], _ => []
  | _ :: l', 0%nat => o :: l'
  | a :: l', S i' => a :: put l' i' o
  end.
(** using an object after its destruction (or one that never existed) *)
Definition slot {O} (l : list (option O)) (i : nat) : outcome O :=
  match nth_error l i with Some (Some o) => Done o | _ => Undef UseAfterFree end.

(** ** CglKnapsackCover: numRowsToCheck_ and rowsToCheck_ *)
Record kobj := KObj { ko_num : Z; ko_rows : ptr }.
(** default constructor, lines 3640-3661 *)
Definition k_new : kobj := KObj (-1) None.
(** CoinCopyN(source, num, dest): reads num entries *)
Definition copyn {A} (l : list A) (num : nat) : outcome (list A) :=
  if Nat.leb num (length l) then Done (firstn num l) else Undef OutOfBounds.
(** copy constructor, lines 3666-3680 *)
Definition k_copy (h : heap (list Z)) (src : kobj) : outcome (heap (list Z) * kobj) :=
  if 0 <? ko_num src then
    do l <- get h (ko_rows src);
    do c <- copyn l (Z.to_nat (ko_num src));
    let '(h', p) := alloc h c in Done (h', KObj (ko_num src) p)
  else Done (h, KObj (ko_num src) None).
(** operator= for two different objects, lines 3741-3757 *)
Definition k_assign (h : heap (list Z)) (this rhs : kobj) : outcome (heap (list Z) * kobj) :=
  do h1 <- del h (ko_rows this);
  if 0 <? ko_num rhs then
    do l <- get h1 (ko_rows rhs);
    do c <- copyn l (Z.to_nat (ko_num rhs));
    let '(h', p) := alloc h1 c in Done (h', KObj (ko_num rhs) p)
  else Done (h1, KObj (ko_num rhs) None).
(** setTestedRowIndices, lines 802-811: with num <= 0 the pointer keeps its
    old value *)
Definition k_set (h : heap (list Z)) (this : kobj) (num : Z) (ind : list Z) : outcome (heap (list Z) * kobj) :=
  do h1 <- (match ko_rows this with None => Done h | p => del h p end);
  if 0 <? num then
    do c <- copyn ind (Z.to_nat num);
    let '(h', p) := alloc h1 c in Done (h', KObj num p)
  else Done (h1, KObj num (ko_rows this)).
(** destructor, lines 3731-3735 *)
Definition k_destroy (h : heap (list Z)) (this : kobj) : outcome (heap (list Z)) := del h (ko_rows this).
(** the rows generateCuts looks at, lines 253-275: [None] means all *)
Definition k_rows (h : heap (list Z)) (this : kobj) : outcome (option (list Z)) :=
  match ko_rows this with
  | None => Done None
  | p => if 0 <? ko_num this then
           do l <- get h p; do c <- copyn l (Z.to_nat (ko_num this)); Done (Some c)
         else Done (Some [])
  end.

Inductive kop :=
  | KNew | KCopy (i : nat) | KAssign (i j : nat) | KSet (i : nat) (num : Z) (ind : list Z)
  | KDestroy (i : nat) | KGenerate (i : nat).
Record kworld := KW { kw_heap : heap (list Z); kw_objs : list (option kobj) }.
(** one call; the second component is what generateCuts looks at *)
Definition kstep (w : kworld) (o : kop) : outcome (kworld * option (option (list Z))) :=
  let h := kw_heap w in let l := kw_objs w in
  match o with
  | KNew => Done (KW h (l ++ [Some k_new]), None)
  | KCopy i => do s <- slot l i; do r <- k_copy h s; Done (KW (fst r) (l ++ [Some (snd r)]), None)
  | KAssign i j =>
      do t <- slot l i; do s <- slot l j;
      if Nat.eqb i j then Done (w, None)
      else do r <- k_assign h t s; Done (KW (fst r) (put l i (Some (snd r))), None)
  | KSet i num ind =>
      do t <- slot l i; do r <- k_set h t num ind; Done (KW (fst r) (put l i (Some (snd r))), None)
  | KDestroy i => do t <- slot l i; do h' <- k_destroy h t; Done (KW h' (put l i None), None)
  | KGenerate i => do t <- slot l i; do r <- k_rows h t; Done (w, Some r)
  end.
Fixpoint krun (w : kworld) (ops : list kop) : outcome (kworld * list (option (list Z))) :=
  match ops with
  | [] => Done (w, [])
  | o :: ops' =>
      do r <- kstep w o; do s <- krun (fst r) ops';
      Done (fst s, match snd r with Some v => v :: snd s | None => snd s end)
  end.

(** ** CglStored *)
Local Open Scope Q_scope.
(** a block is a probing information object or an array of doubles; the probing
    information's own copy constructor makes an equal object (its tables are
    all copied, CglTreeInfo.cpp lines 131-149), taken as one block here *)
Inductive blob := BInfo (p : pinfo) | BArr (l : list Q).
Record sobj := SObj {
  so_req : Q; so_cuts : list rowcut; so_ncols : nat;      (* held by value *)
  so_info : ptr; so_best : ptr; so_bounds : ptr           (* owned *)
}.
(** CglStored(int numberColumns), lines 244-252 *)
Definition s_new (ncols : nat) : sobj := SObj (1 # 100000) [] ncols None None None.
(** CoinCopyOfArray (CoinUtils): NULL gives NULL *)
Definition copy_array (h : heap blob) (p : ptr) (n : nat) : outcome (heap blob * ptr) :=
  match p with
  | None => Done (h, None)
  | _ => do b <- get h p;
         match b with
         | BArr l => do c <- copyn l n; Done (alloc h (BArr c))
         | BInfo _ => Undef OutOfBounds
         end
  end.
(** new CglTreeProbingInfo(of rhs) when there is one *)
Definition copy_info (h : heap blob) (p : ptr) : outcome (heap blob * ptr) :=
  match p with
  | None => Done (h, None)
  | _ => do b <- get h p; Done (alloc h b)
  end.
(** copy constructor, lines 257-273 *)
Definition s_copy (h : heap blob) (src : sobj) : outcome (heap blob * sobj) :=
  do a <- copy_info h (so_info src);
  if Nat.eqb (so_ncols src) 0 then
    Done (fst a, SObj (so_req src) (so_cuts src) (so_ncols src) (snd a) None None)
  else
    do b <- copy_array (fst a) (so_best src) (so_ncols src + 1);
    do c <- copy_array (fst b) (so_bounds src) (2 * so_ncols src);
    Done (fst c, SObj (so_req src) (so_cuts src) (so_ncols src) (snd a) (snd b) (snd c)).
(** operator= for two different objects, lines 352-375 *)
Definition s_assign (h : heap blob) (this rhs : sobj) : outcome (heap blob * sobj) :=
  do h1 <- del h (so_info this);
  do a <- copy_info h1 (so_info rhs);
  do h2 <- del (fst a) (so_best this);
  do h3 <- del h2 (so_bounds this);
  if Nat.eqb (so_ncols rhs) 0 then
    Done (h3, SObj (so_req rhs) (so_cuts rhs) (so_ncols rhs) (snd a) None None)
  else
    do b <- copy_array h3 (so_best rhs) (so_ncols rhs + 1);
    do c <- copy_array (fst b) (so_bounds rhs) (2 * so_ncols rhs);
    Done (fst c, SObj (so_req rhs) (so_cuts rhs) (so_ncols rhs) (snd a) (snd b) (snd c)).
(** destructor, lines 342-347 *)
Definition s_destroy (h : heap blob) (this : sobj) : outcome (heap blob) :=
  do h1 <- del h (so_info this); do h2 <- del h1 (so_best this); del h2 (so_bounds this).
(** saveStuff, lines 377-393: the assertion aborts without columns *)
Definition s_save (h : heap blob) (this : sobj) (obj : Q) (best : option (list Q)) (lower upper : list Q)
  : outcome (heap blob * sobj) :=
  if Nat.eqb (so_ncols this) 0 then Aborts
  else
    do h1 <- del h (so_best this);
    do h2 <- del h1 (so_bounds this);
    do a <- (match best with
             | Some l => do c <- copyn l (so_ncols this); Done (alloc h2 (BArr (c ++ [obj])))
             | None => Done (h2, None)
             end);
    do lo <- copyn lower (so_ncols this);
    do up <- copyn upper (so_ncols this);
    let b := alloc (fst a) (BArr (lo ++ up)) in
    Done (fst b, SObj (so_req this) (so_cuts this) (so_ncols this) (so_info this) (snd a) (snd b)).
(** setProbingInfo with an object the caller hands over, CglStored.hpp lines
    46-50: the old one is not deleted *)
Definition s_info (h : heap blob) (this : sobj) (i : pinfo) : heap blob * sobj :=
  let a := alloc h (BInfo i) in
  (fst a, SObj (so_req this) (so_cuts this) (so_ncols this) (snd a) (so_best this) (so_bounds this)).

(** what can be read from a pool: required violation, cuts, number of columns,
    probing information, best solution with objective, and bounds *)
Record pool := Pool {
  pl_req : Q; pl_cuts : list rowcut; pl_ncols : nat;
  pl_info : option blob; pl_best : option blob; pl_bounds : option blob
}.
Definition read {C} (h : heap C) (p : ptr) : outcome (option C) :=
  match p with None => Done None | _ => do c <- get h p; Done (Some c) end.
Definition s_look (h : heap blob) (o : sobj) : outcome pool :=
  do a <- read h (so_info o); do b <- read h (so_best o); do c <- read h (so_bounds o);
  Done (Pool (so_req o) (so_cuts o) (so_ncols o) a b c).

Inductive sop :=
  | SNew (ncols : nat) | SCopy (i : nat) | SAssign (i j : nat) | SDestroy (i : nat)
  | SAdd (i : nat) (cs : list rowcut) | SViolation (i : nat) (q : Q) | SInfo (i : nat) (p : pinfo)
  | SSave (i : nat) (obj : Q) (best : option (list Q)) (lower upper : list Q) | SLook (i : nat).
Record sworld := SW { sw_heap : heap blob; sw_objs : list (option sobj) }.
Definition sstep (w : sworld) (o : sop) : outcome (sworld * option pool) :=
  let h := sw_heap w in let l := sw_objs w in
  match o with
  | SNew n => Done (SW h (l ++ [Some (s_new n)]), None)
  | SCopy i => do s <- slot l i; do r <- s_copy h s; Done (SW (fst r) (l ++ [Some (snd r)]), None)
  | SAssign i j =>
      do t <- slot l i; do s <- slot l j;
      if Nat.eqb i j then Done (w, None)
      else do r <- s_assign h t s; Done (SW (fst r) (put l i (Some (snd r))), None)
  | SDestroy i => do t <- slot l i; do h' <- s_destroy h t; Done (SW h' (put l i None), None)
  | SAdd i cs =>
      do t <- slot l i;
      Done (SW h (put l i (Some (SObj (so_req t) (so_cuts t ++ cs) (so_ncols t) (so_info t) (so_best t) (so_bounds t)))), None)
  | SViolation i q =>
      do t <- slot l i;
      Done (SW h (put l i (Some (SObj q (so_cuts t) (so_ncols t) (so_info t) (so_best t) (so_bounds t)))), None)
  | SInfo i p => do t <- slot l i; let r := s_info h t p in Done (SW (fst r) (put l i (Some (snd r))), None)
  | SSave i obj best lo up =>
      do t <- slot l i; do r <- s_save h t obj best lo up; Done (SW (fst r) (put l i (Some (snd r))), None)
  | SLook i => do t <- slot l i; do p <- s_look h t; Done (w, Some p)
  end.
Fixpoint srun (w : sworld) (ops : list sop) : outcome (sworld * list pool) :=
  match ops with
  | [] => Done (w, [])
  | o :: ops' =>
      do r <- sstep w o; do s <- srun (fst r) ops';
      Done (fst s, match snd r with Some v => v :: snd s | None => snd s end)
  end.
