(** * analyze in CglPreProcess.cpp

    Static function of CglPreProcess.cpp:1256-1514, called by
    preProcessNonDefault (3046).  It runs the passes of makeInteger (see
    Model_MakeInteger) on a local array of markers, with another test for two
    continuous columns, and gives the markers to the solver itself.

    Numbers are exact, values beyond 1e20 are infinite.  [mk_changed] lists the
    columns counted in numberChanged, which is a number here and not an array:
    the bound checked by [mark] is not in the code, and C126 shows that it is not
    reached.  The entries of [intVar] that are 77 are the ones that are set in
    [mk_int] but not in [m_int]. *)

From Verif Require Export Model_MakeInteger.
Local Open Scope Q_scope.

(** columnLength: entries of a column *)
Definition column_count (rows : list row) (j : nat) : nat :=
  length (flat_map (fun r => filter (fun e => Nat.eqb (fst e) j) (r_form r)) rows).

(** One row, 1297-1440.  Both columns of a pair have no other entry (1365), so
    that the list of other rows (1371-1391) is empty and the tests of 1395-1429
    pass. *)
Definition row_try (m : mip) (obj : nat -> Q) (dir : Q) (s : mk) (i : nat) : outcome mk :=
  let r := mk_row m i in
  if all_integer m s r then
    match cont_part m s (r_form r) with
    | [(j, a)] =>
        if unit_like a then
          if equality r then mark m s j
          else Done {| mk_int := mk_int s; mk_changed := mk_changed s;
                       mk_ignore := fun k => Nat.eqb k i || mk_ignore s k |}
        else Done s
    | [(j1, a1); (j2, a2)] =>
        if equality r && Qeq_bool (Qabs a1) 1 && Qeq_bool (a1 * a2) (-1) &&
           is_zero (m_clo m j1) && is_zero (m_clo m j2) &&
           Nat.eqb (column_count (m_rows m) j1) 1 && Nat.eqb (column_count (m_rows m) j2) 1 &&
           (0 <=? dir * (obj j1 + obj j2))
        then do s1 <- mark m s j1; mark m s1 j2
        else Done s
    | _ => Done s
    end
  else Done s.

(** The loop, 1295-1468 *)
Definition one_try (m : mip) (obj : nat -> Q) (dir : Q) (s : mk) : outcome mk :=
  do s1 <- ofold (row_try m obj dir) (seq 0 (length (m_rows m))) s;
  ofold (col_step m) (seq 0 (m_ncols m)) s1.
Fixpoint tries (fuel : nat) (m : mip) (obj : nat -> Q) (dir : Q) (s : mk) : outcome mk :=
  match fuel with
  | O => OutOfFuel
  | S f =>
      do s1 <- one_try m obj dir s;
      if Nat.eqb (length (mk_changed s1)) (length (mk_changed s)) then Done s1
      else tries f m obj dir s1
  end.

(** Bounds of a new integer column, 1472-1484 *)
Definition near_hi (m : mip) (j : nat) : option Q :=
  option_map (fun u => qfloor (u + (1 # 100000))) (m_chi m j).
Definition near_lo (m : mip) (j : nat) : option Q :=
  option_map (fun l => qceil (l - (1 # 100000))) (m_clo m j).
Definition crossed (m : mip) (j : nat) : bool :=
  match near_lo m j, near_hi m j with Some l, Some u => u <? l | _, _ => false end.
Definition same_bounds (m : mip) (j : nat) : bool :=
  match near_lo m j, near_hi m j with Some l, Some u => Qeq_bool l u | _, _ => false end.

(** The whole: the solver afterwards and the value returned, 1469-1513.
    [obj] is the objective, [dir] getObjSense(). *)
Definition analyze (m : mip) (obj : nat -> Q) (dir : Q) : outcome (mip * Z) :=
  do s <- tries (S (m_ncols m)) m obj dir
    {| mk_int := m_int m; mk_changed := []; mk_ignore := fun _ => false |};
  let news := fun j => mk_int s j && negb (m_int m j) in
  let ok := forallb (fun j => negb (news j && crossed m j)) (seq 0 (m_ncols m)) in
  Done ({| m_ncols := m_ncols m; m_rows := m_rows m; m_clo := m_clo m; m_chi := m_chi m;
           m_int := match mk_changed s with
                    | [] => m_int m
                    | _ => fun j => m_int m j ||
                        (Nat.ltb j (m_ncols m) && news j && negb (same_bounds m j))
                    end |},
        if ok then Z.of_nat (length (mk_changed s)) else (-1)%Z).
