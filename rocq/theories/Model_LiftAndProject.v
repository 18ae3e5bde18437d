(** * CglLiftAndProject

    Source: /repo/src/CglLiftAndProject/CglLiftAndProject.cpp and .hpp.

    Parameters standing for code outside /repo:
    - [solve], initialSolve/resolve of the solver clone on the program over
      the polar cone: [Some w] if isProvenOptimal(), with getColSolution();
    - [ins], OsiCuts::insertIfNotDuplicate;
    - [inf], the solver's number for infinity (an infinite row lower bound is
      passed on as the coefficient [-inf]).
    The test "Cut not violated" (CglLiftAndProject.cpp:284-293) is under
    "#if debug" and not compiled. *)

From Verif Require Import Spec Base.
From Coq Require Import Arith Qabs.
Open Scope Q_scope.

(** The row-ordered matrix of the solver, its rows in storage order; each row
    is followed by a number of unused places
    (CoinPackedMatrix: getVectorStarts, getVectorLengths). *)
Record packed := Packed { p_rows : list vec; p_gaps : list nat }.
Fixpoint starts_from (s : nat) (rows : list vec) (gaps : list nat) : list nat :=
  match rows with
  | [] => [s]
  | v :: rows' =>
      s :: starts_from (s + List.length v + hd 0%nat gaps) rows' (tl gaps)
  end.
Definition starts (p : packed) : list nat := starts_from 0 (p_rows p) (p_gaps p).
(** AtildeStarts[m] (CglLiftAndProject.cpp:65) *)
Definition full_size (p : packed) : nat := last (starts p) 0%nat.

(** BElements and BIndices: [None] is a place never written. *)
Definition mem := nat -> option (nat * Q).
Definition put (k : nat) (e : nat * Q) (b : mem) : mem :=
  fun k' => if Nat.eqb k' k then Some e else b k'.

(** The inner loop (CglLiftAndProject.cpp:120-127); [full] is the length of
    the arrays. *)
Fixpoint fill_entries (full off : nat) (v : vec) (k : nat) (b : mem) : outcome mem :=
  match v with
  | [] => Done b
  | (i, a) :: v' =>
      if (full <=? k + off)%nat then Undef OutOfBounds else
      fill_entries full off v' (S k) (put (k + off) (i, - a) (put k (i, a) b))
  end.

(** The loop over the rows (CglLiftAndProject.cpp:119-137): result, the
    arrays. *)
Fixpoint fill (n full off : nat) (rows : list (vec * Q)) (k : nat) (b : mem) : outcome mem :=
  match rows with
  | [] => Done b
  | (v, lo) :: rows' =>
      do b1 <- fill_entries full off v k b;
      let k1 := (k + List.length v)%nat in
      if (full <=? k1 + off)%nat then Undef OutOfBounds else
      fill n full off rows' (S k1) (put (k1 + off) (S n, lo) (put k1 (n, lo) b1))
  end.

(** One column of B as the CoinPackedMatrix constructor copies it. *)
Fixpoint read_col (b : mem) (s len : nat) : outcome vec :=
  match len with
  | O => Done []
  | S len' =>
      match b s with
      | None => Undef Uninitialised
      | Some e => do v <- read_col b (S s) len'; Done (e :: v)
      end
  end.

(** Columns of B: for row [i], start AtildeStarts[i]+i, length
    AtildeLengths[i]+1 (CglLiftAndProject.cpp:132-135). *)
Fixpoint read_cols (b : mem) (off : nat) (rows : list vec) (sts : list nat) (i : nat) : outcome (list vec) :=
  match rows, sts with
  | v :: rows', s :: sts' =>
      do c <- read_col b (off + (s + i)) (S (List.length v));
      do cs <- read_cols b off rows' sts' (S i);
      Done (c :: cs)
  | _, _ => Done []
  end.

(** The program over the cone: columns with objective coefficient and
    whether they are free (the others are nonnegative); the rows are
    equations, right-hand side zero for rows 0..n-1 and [c_beta] for n, n+1. *)
Record cone := Cone { c_n : nat; c_cols : list (vec * Q * bool); c_beta : Q }.

(** CoinRelFltEq with its default tolerance (CoinFloatEqual.hpp, outside
    /repo), used at CglLiftAndProject.cpp:247-248. *)
Definition rel_eq (a b : Q) : bool :=
  Qle_bool (Qabs (a - b)) ((1 # 10000000000) * (1 + (if Qle_bool (Qabs b) (Qabs a) then Qabs a else Qabs b))).

(** getColType()[j] == 1 *)
Definition opt_01 (o : option Q) : bool :=
  match o with Some b => Qeq_bool b 0 || Qeq_bool b 1 | None => false end.
Definition col_binary (m : mip) (j : nat) : bool :=
  m_int m j && opt_01 (m_clo m j) && opt_01 (m_chi m j).

Section LiftAndProject.
  Variable solve : nat -> cone -> option (list Q).
  Variable ins : list rowcut -> rowcut -> list rowcut.
  Variable inf : Q.

  (** getRowLower *)
  Definition row_lower (r : row) : Q := match r_lo r with Some q => q | None => - inf end.

  (** The coefficients of column [p] in a list of row vectors weighted with
      [u] (Atilde->transposeTimes, CglLiftAndProject.cpp:280). *)
  Definition entry (v : vec) (p : nat) : Q := value v (fun i => if Nat.eqb i p then 1 else 0).
  Fixpoint comb (u : list Q) (rows : list vec) (p : nat) : Q :=
    match u, rows with
    | a :: u', v :: rows' => a * entry v p + comb u' rows' p
    | _, _ => 0
    end.

  (** alpha and the cut (CglLiftAndProject.cpp:275-299). *)
  Definition alpha (n : nat) (rows : list vec) (j : nat) (w : list Q) : vec :=
    let mm := List.length rows in
    map (fun p => (p, comb (firstn mm w) rows p + (if Nat.eqb p j then last w 0 else 0))) (seq 0 n).
  Definition lap_cut (n : nat) (rows : list vec) (beta : Q) (j : nat) (w : list Q) : rowcut :=
    RowCut (alpha n rows j w) (Some beta) None.

  (** One round of the loop over the columns (CglLiftAndProject.cpp:244-307).
      [bcols] are the columns of B without v_0 and u_0 with their
      objective.  Line 245 looks at the type of column i, and i is m here. *)
  Definition lap_step (m : mip) (x : point) (beta : Q) (bcols : list (vec * Q * bool))
      (cs : list rowcut) (j : nat) : outcome (list rowcut) :=
    let n := m_ncols m in
    let rows := map r_form (m_rows m) in
    let i := List.length rows in
    if (n <=? i)%nat then Undef OutOfBounds else
    if negb (col_binary m i) then Done cs else
    if rel_eq (x j) 0 || rel_eq (x j) 1 then Done cs else
    let v_0 := ([(j, - (1)); (S n, 1)], 0, true) in
    let u_0 := ([(j, 1)], x j, true) in
    match solve j (Cone n (bcols ++ [v_0; u_0]) beta) with
    | None => Done cs
    | Some w => Done (ins cs (lap_cut n rows beta j w))
    end.

  (** generateCuts (CglLiftAndProject.cpp:22-321).  [gaps] as in [packed].
      With no rows, line 138 reads BStarts[-1]. *)
  Definition generateCuts (m : mip) (gaps : list nat) (x : point) (beta : Q) (cs : list rowcut) :
      outcome (list rowcut) :=
    let n := m_ncols m in
    let rows := map r_form (m_rows m) in
    let p := Packed rows gaps in
    let mm := List.length rows in
    let off := (full_size p + mm)%nat in
    let full := (2 * full_size p + 2 * mm + 3)%nat in
    do b <- fill n full off (combine rows (map row_lower (m_rows m))) 0 (fun _ => None);
    if (mm =? 0)%nat then Undef OutOfBounds else
    do ucols <- read_cols b 0 rows (starts p) 0;
    do vcols <- read_cols b off rows (starts p) 0;
    let bcols := map (fun q => (fst q, value (snd q) x, false)) (combine ucols rows) ++
                 map (fun c => (c, 0, false)) vcols in
    ofold (lap_step m x beta bcols) (seq 0 n) cs.
End LiftAndProject.

(** beta_: the constructor and setBeta (CglLiftAndProject.cpp:327-335,
    CglLiftAndProject.hpp:38-46). *)
Definition new_beta : Q := 1.
Definition setBeta (b : Z) (beta : Q) : outcome Q :=
  if (b =? 1)%Z || (b =? -1)%Z then Done (inject_Z b) else Throws.
