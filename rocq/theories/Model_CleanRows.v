(** * Signs and integral scaling of rows at the start of CglPreProcess::preProcessNonDefault

    CglPreProcess.cpp:1722-1850 ("clean matrix", done when there are no row types)
    with the static functions computeGcd, 1187-1213, and scaleRowIntegral,
    1214-1253.  A row with a majority of negative coefficients is multiplied by -1;
    then a multiplier is looked for that makes coefficients and sides integer.
    The problem is changed through its column copy; a row copy that is used by the
    rest of preProcessNonDefault is changed as well.

    Numbers are exact, infinite sides are [None].  [rat] stands for
    CoinRational(value, 1.0e-13, 1000) of CoinUtils and gives numerator and
    denominator; [debug] says whether assert is active.  If the first coefficient
    is a stored zero, CoinRational has numerator 0 and the division of 1780 is not
    reached. *)

From Coq Require Export Qabs.
From Verif Require Export Base.
From Verif Require Model_GMI.
Local Open Scope Q_scope.

Definition ce9 : Q := 1 # 1000000000.
Definition ce10 : Q := 1 # 10000000000.
Definition ce12 : Q := 1 # 1000000000000.

Section Clean.
Variable rat : Q -> Z * Z.
Variable debug : bool.

(** 1229-1240; computeGcd has the text of the function of that name in CglGMI *)
Definition sr_step (s : option (Z * Z)) (q : Q) : outcome (option (Z * Z)) :=
  match s with
  | None => Done None
  | Some (g, l) =>
      if Qeq_bool q 0 then Done s
      else
        let '(n, d) := rat q in
        if (n =? 0)%Z then Done None
        else
          do g' <- Model_GMI.computeGcd g n;
          do h <- Model_GMI.computeGcd l d;
          let l' := (l * Z.quot d h)%Z in
          if Model_GMI.int64 l' then Done (Some (g', l')) else Undef IntOverflow
  end.
(** 1246-1251: stops at the first element that is not near an integer *)
Fixpoint sr_apply (scale : Q) (l : list Q) : bool * list Q :=
  match l with
  | [] => (true, [])
  | q :: t =>
      let v := q * scale in
      let r := qfloor (v + (1 # 2)) in
      if ce10 <? Qabs (r - v) then (false, r :: t)
      else let (b, t') := sr_apply scale t in (b, r :: t')
  end.
(** scaleRowIntegral: the value returned and the array *)
Definition scaleRowIntegral (l : list Q) : outcome (bool * list Q) :=
  match l with
  | [] => Undef OutOfBounds
  | q :: t =>
      let '(n, d) := rat q in
      if (n =? 0)%Z then Done (false, l)
      else
        do s <- ofold sr_step t (Some (Z.abs n, d));
        match s with
        | None => Done (false, l)
        | Some (g, k) =>
            let scale := inject_Z k / inject_Z g in
            if 1000 <? Qabs scale then Done (false, l)
            else Done (sr_apply (Qabs scale) l)
        end
  end.

(** 1742-1748 *)
Definition sign_of (r : row) : Q :=
  let n := length (filter (fun e => snd e <? 0) (r_form r)) in
  if Nat.ltb (length (r_form r)) (2 * n) &&
     negb (match r_hi r with Some u => Qeq_bool u 1 | None => false end)
  then -1 else 1.
(** 1751-1766 *)
Definition smallest (v : vec) : Q :=
  match v with
  | [] => 0
  | e :: v => fold_left (fun s e => if Qabs (snd e) <? s then Qabs (snd e) else s) v (Qabs (snd e))
  end.
Definition side_elem (s : Q) (o : option Q) : list Q := match o with Some q => [s * q] | None => [] end.
(** 1781-1782 *)
Definition snap (mult : Q) : Q :=
  let z := qfloor (mult + (1 # 10)) in if Qabs (mult - z) <? ce12 then z else mult.
(** largestError < 1.0e-9, 1783-1790 *)
Definition small_error (mult : Q) (saved : list Q) : bool :=
  forallb (fun q => let v := mult * q in Qeq_bool v 0 || (Qabs (v - qfloor (v + (1 # 100))) <? ce9)) saved.
(** multiplier and the first elements of temp, 1749-1796 *)
Definition multiplier (r : row) : outcome (Q * list Q) :=
  let s := sign_of r in
  let temp := map (fun e => s * snd e) (r_form r) in
  if Qeq_bool (smallest (r_form r)) 1 then Done (s, temp)
  else
    let saved := temp ++ side_elem s (r_lo r) ++ side_elem s (r_hi r) in
    do p <- scaleRowIntegral saved;
    let copy := firstn (length (r_form r)) (snd p) in
    if fst p then
      let mult := snap (hd 0 (snd p) / match r_form r with e :: _ => snd e | [] => 1 end) in
      Done (if small_error mult saved then mult else s, copy)
    else Done (s, copy).
(** 1802-1812 *)
Definition scale_side (q : Q) (o : option Q) : option Q := option_map (fun b => b * Qabs q) o.
Definition neg_side (o : option Q) : option Q := option_map (fun b => - b) o.
Definition scaled_sides (q : Q) (lo hi : option Q) : option Q * option Q :=
  if Qeq_bool q 1 then (lo, hi)
  else if q <? 0 then (scale_side q (neg_side hi), scale_side q (neg_side lo))
  else (scale_side q lo, scale_side q hi).
(** An element of the column copy, 1824-1838 *)
Definition column_elem (mult a : Q) : outcome Q :=
  if negb (Qeq_bool (Qabs mult) 1) then
    let v := a * mult in
    let z := qfloor (v + (1 # 100)) in
    if debug && (ce9 <=? Qabs (v - z)) then Aborts
    else if debug && (Qabs z <=? 9 # 10) then Aborts
    else Done z
  else if Qeq_bool mult (-1) then Done (- a) else Done a.
(** One row: the row of the problem and the elements of the row copy *)
Definition clean_row (r : row) : outcome (row * list Q) :=
  match r_form r with
  | [] => Done (r, [])
  | _ =>
      do p <- multiplier r;
      let (mult, copy) := p in
      do v <- omap (fun e => do b <- column_elem mult (snd e); Done (fst e, b)) (r_form r);
      let (lo, hi) := scaled_sides mult (r_lo r) (r_hi r) in
      Done (Row v lo hi, if Qeq_bool mult 1 then map snd (r_form r) else copy)
  end.
Definition clean_matrix (m : mip) : outcome (mip * list (list Q)) :=
  do l <- omap clean_row (m_rows m);
  Done ({| m_ncols := m_ncols m; m_rows := map fst l; m_clo := m_clo m; m_chi := m_chi m; m_int := m_int m |},
        map snd l).
End Clean.
