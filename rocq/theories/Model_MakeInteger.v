(** * CglPreProcess::makeInteger

    Continuous columns that can be taken as integer are marked,
    CglPreProcess.cpp:9233-9494.  Numbers are exact; values beyond 1e20 are
    infinite, so that the bounds of 1e20 set on the copy of the solver
    (9338-9341, 9428-9437, 9472-9475) change nothing that is tested.  The copy is
    deleted at the end and only markers are taken over. *)

From Coq Require Export Qabs.
From Verif Require Export Base.
Local Open Scope Q_scope.

Definition mk_row (m : mip) (i : nat) : row := nth i (m_rows m) (Row [] None None).

(** upper > lower + 1.0e-8 *)
Definition loose (m : mip) (j : nat) : bool :=
  match m_clo m j, m_chi m j with
  | Some l, Some u => l + (1 # 100000000) <? u
  | _, _ => true
  end.
Definition dist_int (q : Q) : Q := Qabs (q - qfloor (q + (1 # 2))).
(** !(fabs(value - floor(value + 0.5)) > 1.0e-12) *)
Definition near (q : Q) : bool := dist_int q <=? (1 # 1000000000000).
(** fabs(value1) > 1.0e-3 and 1.0 / value1 near an integer, 9331-9333 *)
Definition unit_like (a : Q) : bool :=
  ((1 # 1000) <? Qabs a) && (dist_int (/ a) <? (1 # 1000000000000)).

(** The state: markers of the copy, the array changed, the array ignore. *)
Record mk := { mk_int : nat -> bool; mk_changed : list nat; mk_ignore : nat -> bool }.
(** changed[numberChanged++] = j; the array has numberColumns entries *)
Definition mark (m : mip) (s : mk) (j : nat) : outcome mk :=
  if Nat.ltb (length (mk_changed s)) (m_ncols m) then
    Done {| mk_int := fun k => Nat.eqb k j || mk_int s k;
            mk_changed := mk_changed s ++ [j]; mk_ignore := mk_ignore s |}
  else Undef OutOfBounds.

(** The scan of a row, 9290-9316 *)
Definition cont_part (m : mip) (s : mk) (v : vec) : vec :=
  filter (fun e => loose m (fst e) && negb (mk_int s (fst e))) v.
Definition int_part (m : mip) (s : mk) (v : vec) : vec :=
  filter (fun e => loose m (fst e) && mk_int s (fst e)) v.
Definition fixed_part (m : mip) (v : vec) : vec :=
  filter (fun e => negb (loose m (fst e))) v.
Definition lower_of (m : mip) (j : nat) : Q :=
  match m_clo m j with Some l => l | None => 0 end.
Definition sum_fixed (m : mip) (v : vec) : Q := value (fixed_part m v) (lower_of m).
(** 9317-9330 *)
Definition side_ok (sum : Q) (o : option Q) : bool :=
  match o with None => true | Some q => near (q - sum) end.
Definition all_integer (m : mip) (s : mk) (r : row) : bool :=
  forallb (fun e => near (snd e)) (int_part m s (r_form r)) &&
  side_ok (sum_fixed m (r_form r)) (r_lo r) && side_ok (sum_fixed m (r_form r)) (r_hi r).
Definition equality (r : row) : bool :=
  match r_lo r, r_hi r with Some l, Some u => Qeq_bool l u | _, _ => false end.

(** Two continuous columns, 9354-9447.  The second loop over a column, 9379-9390,
    goes over the first column again. *)
Definition column_entries (m : mip) (i j : nat) : list (nat * Q) :=
  flat_map (fun k => if Nat.eqb k i then [] else
    map (fun e => (k, snd e)) (filter (fun e => Nat.eqb (fst e) j) (r_form (mk_row m k))))
    (seq 0 (length (m_rows m))).
Definition opt_min (a : option Q) (b : Q) : Q :=
  match a with Some q => if q <? b then q else b | None => b end.
Definition row_allows (m : mip) (bound : Q) (e : nat * Q) : bool :=
  let r := mk_row m (fst e) in
  let value := 2 * snd e in
  if Qeq_bool value 0 then true
  else
    let value := value * bound in
    match length (r_form r) with
    | 1%nat =>
        match (if 0 <? value then r_lo r else r_hi r) with
        | None => true
        | Some rhs =>
            if (if 0 <? value then 0 <? rhs else rhs <? 0) then near (rhs / value) else true
        end
    | 2%nat =>
        match (if 0 <? value then r_lo r else r_hi r) with None => true | Some _ => false end
    | _ => false
    end.
Definition pair_ok (m : mip) (obj : nat -> Q) (dir : Q) (i j1 j2 : nat) : outcome bool :=
  let es := column_entries m i j1 in
  if Nat.ltb (length (m_rows m))
       (length es + length (filter (fun e => Qeq_bool (snd e) 0) es))
  then Undef OutOfBounds
  else
    let bound := opt_min (m_chi m j1) (opt_min (m_chi m j2) (inject_Z (10 ^ 20))) in
    Done ((0 <=? dir * (obj j1 + obj j2)) && forallb (row_allows m bound) es).
Definition is_zero (o : option Q) : bool :=
  match o with Some q => Qeq_bool q 0 | None => false end.

(** One row, 9286-9449 *)
Definition row_step (m : mip) (obj : nat -> Q) (dir : Q) (s : mk) (i : nat) : outcome mk :=
  let r := mk_row m i in
  if all_integer m s r then
    match cont_part m s (r_form r) with
    | [(j, a)] =>
        if unit_like a then
          if equality r then mark m s j
          else Done {| mk_int := mk_int s; mk_changed := mk_changed s;
                       mk_ignore := fun k => Nat.eqb k i || mk_ignore s k |}
        else Done s
    | [(j1, a1); (j2, a2)] =>
        if equality r && Qeq_bool (Qabs a1) 1 && Qeq_bool (a1 * a2) (-1) &&
           is_zero (m_clo m j1) && is_zero (m_clo m j2)
        then
          do good <- pair_ok m obj dir i j1 j2;
          if good then do s1 <- mark m s j1; mark m s1 j2 else Done s
        else Done s
    | _ => Done s
    end
  else Done s.

(** One column, 9450-9478 *)
Definition bound_ok (o : option Q) : bool := match o with None => true | Some q => near q end.
Definition has_column (r : row) (j : nat) : bool :=
  existsb (fun e => Nat.eqb (fst e) j) (r_form r).
Definition col_step (m : mip) (s : mk) (j : nat) : outcome mk :=
  if loose m j && negb (mk_int s j) && bound_ok (m_chi m j) && bound_ok (m_clo m j) &&
     forallb (fun i => negb (has_column (mk_row m i) j) || mk_ignore s i)
       (seq 0 (length (m_rows m)))
  then mark m s j else Done s.

(** The loop of 9284-9480 *)
Definition one_pass (m : mip) (obj : nat -> Q) (dir : Q) (s : mk) : outcome mk :=
  do s1 <- ofold (row_step m obj dir) (seq 0 (length (m_rows m))) s;
  ofold (col_step m) (seq 0 (m_ncols m)) s1.
Fixpoint passes (fuel : nat) (m : mip) (obj : nat -> Q) (dir : Q) (s : mk) : outcome mk :=
  match fuel with
  | O => OutOfFuel
  | S f =>
      do s1 <- one_pass m obj dir s;
      if Nat.eqb (length (mk_changed s1)) (length (mk_changed s)) then Done s1
      else passes f m obj dir s1
  end.

(** makeInteger: the test of 9237-9254, the passes, the markers taken over in
    9485-9492.  [obj] is the objective, [dir] getObjSense(). *)
Definition make_integer (m : mip) (obj : nat -> Q) (dir : Q) : outcome mip :=
  if existsb (fun j => loose m j && negb (m_int m j)) (seq 0 (m_ncols m)) then
    do s <- passes (S (m_ncols m)) m obj dir
      {| mk_int := m_int m; mk_changed := []; mk_ignore := fun _ => false |};
    Done {| m_ncols := m_ncols m; m_rows := m_rows m; m_clo := m_clo m; m_chi := m_chi m;
            m_int := match mk_changed s with
                     | [] => m_int m
                     | _ => fun j => m_int m j ||
                         (Nat.ltb j (m_ncols m) && mk_int s j && negb (Qeq_bool (obj j) 0))
                     end |}
  else Done m.
