(** * The scratch arrays of CglBKClique and CglOddWheel

    Both classes own a family of arrays that are allocated and released
    together (CglBKClique.cpp:56-132, 190-220; CglOddWheel.cpp:38-81,
    230-254): seven arrays in one class, five in the other.  The family is
    one block here: the pointers of a family are null together, and live and
    die together.  What the arrays hold is not modelled.  A failed malloc
    aborts in the code (xmalloc) and does not occur here.

    Neither class declares an assignment operator, so the compiler writes one
    that copies cap_ and the pointers member by member. *)

From Verif Require Import Spec Base.
From Coq Require Import Arith.

(** An object: cap_ and the family it points to. *)
Record sobj := SObj { s_cap : nat; s_ptr : option nat }.

(** The memory: the families that are allocated, the next one, the objects
    ([None] once destroyed). *)
Record world := World { m_live : list nat; m_next : nat; m_objs : list (option sobj) }.
Definition w0 : world := World [] 0 [].

Fixpoint set_nth {A} (l : list A) (k : nat) (a : A) : list A :=
  match l, k with
  | [], _ => []
  | _ :: l', O => a :: l'
  | b :: l', S k' => b :: set_nth l' k' a
  end.

(** free of a family. *)
Definition release (p : nat) (w : world) : outcome world :=
  if existsb (Nat.eqb p) (m_live w)
  then Done (World (filter (fun q => negb (q =? p)%nat) (m_live w)) (m_next w) (m_objs w))
  else Undef DoubleFree.

(** xmalloc of a family. *)
Definition acquire (w : world) : nat * world :=
  (m_next w, World (m_next w :: m_live w) (S (m_next w)) (m_objs w)).

Definition with_objs (w : world) (l : list (option sobj)) : world := World (m_live w) (m_next w) l.

(** checkMemory (CglBKClique.cpp:190-220, CglOddWheel.cpp:230-254); free of a
    null pointer does nothing. *)
Definition checkMemory (n : nat) (s : sobj) (w : world) : outcome (sobj * world) :=
  if (s_cap s <? n)%nat then
    do w1 <- (if (0 <? s_cap s)%nat then
                match s_ptr s with Some p => release p w | None => Done w end
              else Done w);
    let (p, w2) := acquire w1 in Done (SObj n (Some p), w2)
  else Done (s, w).

(** What a program can do.  [OGenerate i n] is generateCuts on a problem with
    [n] columns, rows and a graph of the right size; it reads and writes the
    arrays (for [n = 0] it returns at once). *)
Inductive op :=
  | ONew                       (* default constructor *)
  | OClone (i : nat)           (* copy constructor, clone *)
  | OAssign (i j : nat)        (* the assignment operator of the compiler *)
  | OGenerate (i n : nat)
  | ODestroy (i : nat).

(** An object that is named must exist; naming one that was destroyed is a
    fault of the program, recorded as [UseAfterFree]. *)
Definition obj_at (w : world) (i : nat) : outcome sobj :=
  match nth_error (m_objs w) i with Some (Some s) => Done s | _ => Undef UseAfterFree end.

Definition step (w : world) (o : op) : outcome world :=
  match o with
  | ONew => Done (with_objs w (m_objs w ++ [Some (SObj 0 None)]))
  | OClone i =>
      do s <- obj_at w i;
      if (0 <? s_cap s)%nat then
        let (p, w1) := acquire w in Done (with_objs w1 (m_objs w1 ++ [Some (SObj (s_cap s) (Some p))]))
      else Done (with_objs w (m_objs w ++ [Some (SObj (s_cap s) None)]))
  | OAssign i j =>
      do s <- obj_at w i; do t <- obj_at w j;
      Done (with_objs w (set_nth (m_objs w) i (Some t)))
  | OGenerate i n =>
      do s <- obj_at w i;
      if (n =? 0)%nat then Done w else
      do r <- checkMemory n s w;
      let (s', w') := r in
      match s_ptr s' with
      | None => Undef NullDeref
      | Some p => if existsb (Nat.eqb p) (m_live w') then Done (with_objs w' (set_nth (m_objs w') i (Some s')))
                  else Undef UseAfterFree
      end
  | ODestroy i =>
      do s <- obj_at w i;
      do w1 <- (match s_ptr s with Some p => release p w | None => Done w end);
      Done (with_objs w1 (set_nth (m_objs w1) i None))
  end.
Definition run (os : list op) (w : world) : outcome world := ofold step os w.
