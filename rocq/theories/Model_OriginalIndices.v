(** * CglPreProcess: originalColumns, originalRows and update

    CglPreProcess.cpp:8937-9028 (without CBC_USE_PAPILO) and 9029-9092.  A pass has
    the sizes of model_[iPass] and, if presolve_[iPass] is not NULL, the arrays
    originalColumns() and originalRows() of the presolve. *)

From Verif Require Export Base.

(** Reading and writing an array; indices are int *)
Definition zth {A} (l : list A) (z : Z) : option A :=
  if (z <? 0)%Z then None else nth_error l (Z.to_nat z).
Definition geti {A} (l : list A) (z : Z) : outcome A :=
  match zth l z with Some a => Done a | None => Undef OutOfBounds end.
Fixpoint put {A} (l : list A) (i : nat) (a : A) : list A :=
  match l, i with
  | [], _ => []
  | _ :: l', O => a :: l'
  | b :: l', S i' => b :: put l' i' a
  end.
Definition seti {A} (l : list A) (i : nat) (a : A) : outcome (list A) :=
  if Nat.ltb i (length l) then Done (put l i a) else Undef OutOfBounds.

Record pass := { ps_rows : nat; ps_cols : nat; ps_info : option (list Z * list Z) }.

(** The last pass with a presolve and the ones before it, latest first, 8957-8961 *)
Fixpoint from_last (rps : list pass) : list pass :=
  match rps with
  | [] => []
  | p :: r => match ps_info p with Some _ => rps | None => from_last r end
  end.
(** memcpy of the first n entries *)
Definition copy_n {A} (n : nat) (l : list A) : outcome (list A) :=
  if Nat.leb n (length l) then Done (firstn n l) else Undef OutOfBounds.
(** 8980-8994 *)
Definition row_back (p : pass) (rows : list Z) (i : Z) : outcome Z :=
  if ((0 <=? i) && (i <? Z.of_nat (ps_rows p)))%Z then geti rows i else Done (-1)%Z.
Definition back_step (s : list Z * list Z) (p : pass) : outcome (list Z * list Z) :=
  match ps_info p with
  | None => Undef NullDeref
  | Some (cols, rows) =>
      do c <- omap (geti cols) (fst s);
      do r <- omap (row_back p rows) (snd s);
      Done (c, r)
  end.
(** std::sort, 9020 *)
Fixpoint insert (z : Z) (l : list Z) : list Z :=
  match l with
  | [] => [z]
  | y :: l' => if (z <=? y)%Z then z :: l else y :: insert z l'
  end.
Definition zsort (l : list Z) : list Z := fold_right insert [] l.

(** createOriginalIndices, 8954-9028: what originalColumns() and originalRows()
    return on the first call, 8937-8952.  [nr] and [nc] are the sizes of
    originalModel_. *)
Definition create_original (nr nc : nat) (ps : list pass) : outcome (list Z * list Z) :=
  match from_last (rev ps) with
  | [] => Done (map Z.of_nat (seq 0 nc), map Z.of_nat (seq 0 nr))
  | p :: before =>
      match ps_info p with
      | None => Undef NullDeref
      | Some (cols, rows) =>
          do c0 <- copy_n (ps_cols p) cols;
          do r0 <- copy_n (ps_rows p) rows;
          do s <- ofold back_step before (c0, r0);
          Done (zsort (fst s), snd s)
      end
  end.

(** update, 9029-9092.  [debug] says whether assert is active; [n] and [nrows] are
    the sizes of the solver, [cols] and [rows] the arrays of the presolve.  The
    array scBound is only moved if prohibited_ is there. *)
Definition marked (z : Z) : bool := negb (z =? 0)%Z.
Definition col_move {A} (debug : bool) (cols : list Z)
    (s : list Z * option (list A) * nat) (i : nat) : outcome (list Z * option (list A) * nat) :=
  let '(pr, sc, n2) := s in
  do k <- geti cols (Z.of_nat i);
  if debug && negb (Nat.eqb i 0) && negb (nth (i - 1) cols 0 <? k)%Z then Aborts
  else
    do sc' <- match sc with
              | None => Done None
              | Some l => do v <- geti l k; do l' <- seti l i v; Done (Some l')
              end;
    do p <- geti pr k;
    do pr' <- seti pr i p;
    Done (pr', sc', if marked p then S n2 else n2).
Definition move_cols {A} (debug : bool) (cols : list Z) (n : nat) (pr : list Z) (sc : option (list A)) :
    outcome (list Z * option (list A)) :=
  do s <- ofold (col_move debug cols) (seq 0 n) (pr, sc, O);
  let '(pr', sc', n2) := s in
  if debug && negb (Nat.eqb (length (filter marked pr)) n2) then Aborts else Done (pr', sc').
Definition row_move (rows : list Z) (t : list Z) (i : nat) : outcome (list Z) :=
  do k <- geti rows (Z.of_nat i); do v <- geti t k; seti t i v.
(** The arrays prohibited_ and rowType_ with numberProhibited_ and
    numberRowType_, and scBound *)
Definition update {A} (debug : bool) (cols rows : list Z) (n nrows : nat)
    (pr : option (list Z)) (types : option (list Z)) (sc : option (list A)) :
    outcome (option (list Z) * option (list Z) * option (list A)) :=
  do a <- match pr with
          | None => Done (None, sc)
          | Some p => do x <- move_cols debug cols n p sc; Done (Some (firstn n (fst x)), snd x)
          end;
  do b <- match types with
          | None => Done None
          | Some t => do t' <- ofold (row_move rows) (seq 0 nrows) t; Done (Some (firstn nrows t'))
          end;
  Done (fst a, b, snd a).
