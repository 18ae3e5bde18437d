(** * Fixing columns in CglPreProcess

    someFixed, CglPreProcess.cpp:9100-9166, reducedCostFix, 9168-9205, and
    passInProhibited, 9207-9219.  Numbers are exact and infinite bounds are
    [None].  What the solver computes (solution, reduced costs, objective value)
    is an argument. *)

From Coq Require Export Qabs.
From Verif Require Export Base.
Local Open Scope Q_scope.

(** ** reducedCostFix *)
Record lp := {
  lp_sol : nat -> Q;      (* getColSolution *)
  lp_rc : nat -> Q;       (* getReducedCost *)
  lp_value : Q            (* getObjValue *)
}.
(** upper > lower *)
Definition open_col (m : mip) (j : nat) : bool :=
  match m_clo m j, m_chi m j with Some l, Some u => l <? u | _, _ => true end.
(** What is done with one column, 9191-9201; each column is looked at once *)
Inductive fixing := FixLower | FixUpper | Leave.
Definition rc_choice (m : mip) (s : lp) (dir gap itol : Q) (j : nat) : fixing :=
  if m_int m j && open_col m j then
    let dj := dir * lp_rc s j in
    if match m_clo m j with Some l => lp_sol s j <? l + itol | None => false end && (gap <? dj)
    then FixLower
    else if match m_chi m j with Some u => u - itol <? lp_sol s j | None => false end && (gap <? - dj)
    then FixUpper
    else Leave
  else Leave.
Definition is_fix (f : fixing) : bool := match f with Leave => false | _ => true end.
Definition reduced_cost_fix (m : mip) (s : lp) (dir cutoff0 dtol itol : Q) : mip * nat :=
  let cutoff := cutoff0 * dir in
  let gap := cutoff - lp_value s * dir in
  if (gap <=? 0) || (inject_Z (10 ^ 20) <? Qabs cutoff) then (m, 0%nat)
  else
    let f := rc_choice m s dir (gap + 100 * dtol) itol in
    ({| m_ncols := m_ncols m; m_rows := m_rows m;
        m_clo := fun j => match f j with FixUpper => m_chi m j | _ => m_clo m j end;
        m_chi := fun j => match f j with FixLower => m_clo m j | _ => m_chi m j end;
        m_int := m_int m |},
     length (filter (fun j => is_fix (f j)) (seq 0 (m_ncols m)))).

(** ** someFixed *)
Section SomeFixed.
Variable srt : list (Q * nat) -> list (Q * nat).    (* CoinSort_2, 9145 *)
Variable keep : option (nat -> Z).
Definition eps8 : Q := 1 # 100000000.
Definition below (lo : option Q) (q : Q) : bool :=
  match lo with Some l => q <? l + eps8 | None => false end.
Definition above (hi : option Q) (q : Q) : bool :=
  match hi with Some u => u - eps8 <? q | None => false end.
(** The first loop, 9122-9144: the pairs (dj, sort); the upper bound read is the
    one of column [number]. *)
Definition pick (m : mip) (s : lp) (fixc : bool) (st : list (Q * nat)) (i : nat)
    : list (Q * nat) :=
  if m_int m i || fixc then
    match keep with
    | Some k =>
        if (k i =? 1)%Z then st
        else if (k i =? -1)%Z then st ++ [(- inject_Z (10 ^ 30), i)]
        else if below (m_clo m i) (lp_sol s i) || above (m_chi m (length st)) (lp_sol s i)
        then st ++ [(- lp_rc s i, i)] else st
    | None =>
        if below (m_clo m i) (lp_sol s i) || above (m_chi m (length st)) (lp_sol s i)
        then st ++ [(- lp_rc s i, i)] else st
    end
  else st.
Definition picked (m : mip) (s : lp) (fixc : bool) : list (Q * nat) :=
  fold_left (pick m s fixc) (seq 0 (m_ncols m)) [].
Definition thrown (m : mip) (fixc : bool) : nat :=
  match keep with
  | Some k => length (filter (fun i => (m_int m i || fixc) && (k i =? -1)%Z) (seq 0 (m_ncols m)))
  | None => 0%nat
  end.
(** Conversion of a double to int, towards 0 *)
Definition truncate (q : Q) : Z := if 0 <=? q then Qfloor q else Qceiling q.
(** 9146-9150 *)
Definition to_fix (m : mip) (s : lp) (fraction : Q) (fixc : bool) : nat :=
  let n := inject_Z (Z.of_nat (m_ncols m)) in
  let ncont := length (filter (fun i => negb (m_int m i) && open_col m i) (seq 0 (m_ncols m))) in
  let t := truncate (if fixc then n * (1 - fraction)
                     else (n - inject_Z (Z.of_nat ncont)) * (1 - fraction)) in
  Nat.min (length (picked m s fixc)) (Nat.max (Z.to_nat t) (thrown m fixc)).
(** -infinity set as an upper bound *)
Definition as_upper (lo : option Q) : option Q :=
  match lo with Some l => Some l | None => Some (- inject_Z (10 ^ 308)) end.
Definition set_hi (m : mip) (j : nat) (hi : option Q) : mip :=
  {| m_ncols := m_ncols m; m_rows := m_rows m; m_clo := m_clo m;
     m_chi := fun k => if Nat.eqb k j then hi else m_chi m k; m_int := m_int m |}.
(** 9154-9163; upper[number] is beyond the array when all columns were picked *)
Definition fix_one (m : mip) (s : lp) (number : nat) (r : mip) (j : nat) : outcome mip :=
  if below (m_clo m j) (lp_sol s j) then Done (set_hi r j (as_upper (m_clo m j)))
  else if Nat.leb (m_ncols m) number then Undef OutOfBounds
  else if above (m_chi m number) (lp_sol s j) then Done r   (* setColLower(j, lower[j]) *)
  else Done (set_hi r j (as_upper (m_clo m j))).
Definition some_fixed (m : mip) (s : lp) (fraction : Q) (fixc : bool) : outcome mip :=
  let p := picked m s fixc in
  ofold (fix_one m s (length p)) (map snd (firstn (to_fix m s fraction fixc) (srt p))) m.
End SomeFixed.

(** ** passInProhibited *)
Record prohibited := { pr_array : option (list Z); pr_number : nat }.
Definition pass_in (p : prohibited) (a : option (list Z)) (n : nat) : outcome prohibited :=
  match pr_array p with
  | Some t =>
      if Nat.eqb (pr_number p) n then
        match a with
        | Some l => Done {| pr_array := Some (map (fun q => Z.lor (fst q) (snd q)) (combine l t));
                            pr_number := n |}
        | None => if Nat.eqb n 0 then Done {| pr_array := None; pr_number := n |}
                  else Undef NullDeref
        end
      else Done {| pr_array := a; pr_number := n |}
  | None => Done {| pr_array := a; pr_number := n |}
  end.
Definition no_prohibited : prohibited := {| pr_array := None; pr_number := 0 |}.
