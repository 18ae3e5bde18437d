(** * Model of the bound-tightening stage of CglProbing

    Source: /repo/src/CglProbing/CglProbing.cpp.  Modelled: the preparation
    and tightening stage of gutsOfGenerateCuts (1732-2330 and 3156-3208),
    tighten() without clique information (327-712), and the parts of
    generateCuts (1326-1399) and generateCutsAndModify (1400-1486) that
    surround them.  This is everything the generator does when it is asked
    not to probe (setMaxProbe(0), setMaxProbeRoot(0)); with a positive limit
    it is the first stage, run before probe().  Not modelled: probe(),
    probeFast(), probeCliques(), snapshots (rowCopy_ is NULL here) and clique
    information (cliqueRowStart_ is NULL here).

    Doubles are exact rationals.  An infinite bound of the solver (DBL_MAX)
    is [None]. *)

From Coq Require Import Qabs.
From Verif Require Import Base.
Local Open Scope Q_scope.

(** Constants of the source. *)
Definition e10 : Q := inject_Z (10 ^ 10).
Definition e12 : Q := inject_Z (10 ^ 12).
Definition e15 : Q := inject_Z (10 ^ 15).
Definition e20 : Q := inject_Z (10 ^ 20).
Definition e29 : Q := inject_Z (10 ^ 29).
Definition e30 : Q := inject_Z (10 ^ 30).
Definition e31 : Q := inject_Z (10 ^ 31).
Definition eps4 : Q := 1 # 10000.
Definition eps8 : Q := 1 # 100000000.
Definition eps12 : Q := 1 # 1000000000000.
(** CGL_REASONABLE_INTEGER_BOUND, CglProbing.cpp:324. *)
Definition reasonable : Q := inject_Z 12345678900.

(** Comparisons with a bound that may be infinite: [hi_gt h q] is h > q,
    [lo_lt l q] is l < q, and so on ([None] is DBL_MAX or -DBL_MAX). *)
Definition hi_gt (h : option Q) (q : Q) : bool := match h with Some u => q <? u | None => true end.
Definition hi_lt (h : option Q) (q : Q) : bool := match h with Some u => u <? q | None => false end.
Definition lo_lt (l : option Q) (q : Q) : bool := match l with Some b => b <? q | None => true end.
Definition lo_gt (l : option Q) (q : Q) : bool := match l with Some b => q <? b | None => false end.

(** An array with one entry replaced. *)
Definition set_at {A} (f : nat -> A) (j : nat) (a : A) : nat -> A :=
  fun k => if Nat.eqb k j then a else f k.

(** A write at the end of an array allocated with [cap] entries. *)
Definition push {A} (cap : nat) (l : list A) (a : A) : outcome (list A) :=
  if Nat.ltb (length l) cap then Done (l ++ [a]) else Undef OutOfBounds.

(** What the generator reads besides the rows, the bounds and the integer
    markers of the problem. *)
Record probe_in := ProbeIn {
  pi_x : point;            (* si.getColSolution() *)
  pi_obj : nat -> Q;       (* si.getObjCoefficients() *)
  pi_max : bool;           (* si.getObjSense() == -1 *)
  pi_cutoff : option Q;    (* OsiDualObjectiveLimit; None if not available *)
  pi_offset : Q;           (* OsiObjOffset *)
  pi_using : bool;         (* usingObjective_ > 0 *)
  pi_maxEl : nat;          (* maxElements_ or maxElementsRoot_ *)
  pi_tol : Q;              (* primalTolerance_ *)
  pi_passes : nat;         (* 2, or 3 when (info->options & 2048) != 0 *)
  pi_strengthen : bool     (* info->strengthenRow set and info->pass == 0 *)
}.

(** si.getColType(true) (OSI): 0 continuous, 1 binary, 2 general integer.
    An integer column is binary when both its bounds are 0 or 1. *)
Definition is01 (b : option Q) : bool :=
  match b with Some q => Qeq_bool q 0 || Qeq_bool q 1 | None => false end.
Definition colType (p : mip) (j : nat) : nat :=
  if m_int p j then if is01 (m_clo p j) && is01 (m_chi p j) then 1%nat else 2%nat
  else 0%nat.

(** CglProbing.cpp:1765-1783: "put reasonable bounds on variables". *)
Definition clip_hi (p : mip) (x : point) (j : nat) : Q :=
  let u := match m_chi p j with
           | Some u => if u <=? e29 then u else e29
           | None => e29
           end in
  if Nat.eqb (colType p j) 2 && (x j <? e10) && (e12 <? u) then reasonable else u.
Definition clip_lo (p : mip) (x : point) (j : nat) : Q :=
  let l := match m_clo p j with
           | Some l => if - e29 <=? l then l else - e29
           | None => - e29
           end in
  if Nat.eqb (colType p j) 2 && (- e10 <? x j) && (l <? - e12) then - reasonable else l.

(** CglProbing.cpp:1928-1962: the rows of the problem, followed by the
    objective row when there is a cutoff. *)
Definition sgn (c : probe_in) (q : Q) : Q := if pi_max c then - q else q.
Definition objective_row (p : mip) (c : probe_in) : list row :=
  match pi_cutoff c with
  | Some cut =>
      if (sgn c cut <? e30) && pi_using c then
        [Row (map (fun j => (j, sgn c (pi_obj c j)))
                  (filter (fun j => negb (Qeq_bool (pi_obj c j) 0)) (seq 0 (m_ncols p))))
             None (Some (sgn c cut + pi_offset c))]
      else []
  | None => []
  end.

(** CglProbing.cpp:1995-2006: rows that are too long, unless they hold less
    than a tenth of the elements. *)
Definition free_row (r : row) : bool := lo_lt (r_lo r) (- e20) && hi_gt (r_hi r) e20.
Definition too_long (n : nat) (r : row) : bool := Nat.ltb n (length (r_form r)).
Definition sum_nat (l : list nat) : nat := fold_right Nat.add 0%nat l.
Definition max_elements (p : mip) (c : probe_in) : nat :=
  let out := sum_nat (map (fun r => length (r_form r))
                          (filter (fun r => too_long (pi_maxEl c) r || free_row r) (m_rows p))) in
  let all := sum_nat (map (fun r => length (r_form r)) (m_rows p ++ objective_row p c)) in
  if Nat.ltb (out * 10) all then m_ncols p else pi_maxEl c.

(** CglProbing.cpp:2039-2060: the elements of a row over binary columns. *)
Definition all_binary (p : mip) (cl cu : nat -> Q) (v : vec) : bool :=
  forallb (fun e => m_int p (fst e) && Qeq_bool (cl (fst e)) 0 && Qeq_bool (cu (fst e)) 1) v.
Definition count {A} (f : A -> bool) (l : list A) : nat := length (filter f l).
Definition is_pos (e : nat * Q) : bool := 0 <? snd e.
Definition is_neg (e : nat * Q) : bool := snd e <? 0.

(** CglProbing.cpp:2061-2119: strengthening of a one-sided row over binary
    columns with a single positive (or a single nonpositive) element.  The
    second component is the row put into info->strengthenRow[i]. *)
Fixpoint tidy (v : vec) : vec :=   (* 2097-2115: elements dropped as tiny *)
  match v with
  | [] => []
  | e :: v' => if Qabs (snd e) <? eps12 then filter (fun d => eps12 <? Qabs (snd d)) v'
               else e :: tidy v'
  end.
Definition strengthen (p : mip) (cl cu : nat -> Q) (r : row) : row * option rowcut :=
  if lo_lt (r_lo r) (- e20) || hi_gt (r_hi r) e20 then
    let v := r_form r in
    let bin := all_binary p cl cu v in
    let r' :=
      if bin && Nat.eqb (count is_pos v) 1 && hi_gt (r_hi r) 0 && hi_lt (r_hi r) e10 then
        match r_hi r with
        | Some u => Some (Row (map (fun e => if is_pos e then (fst e, snd e - u) else e) v)
                              (r_lo r) (Some 0))
        | None => None
        end
      else if bin && Nat.eqb (count (fun e => negb (is_pos e)) v) 1
              && lo_lt (r_lo r) 0 && lo_gt (r_lo r) (- e10) then
        match r_lo r with
        | Some l => Some (Row (map (fun e => if is_neg e then (fst e, snd e - l) else e) v)
                              (Some 0) (r_hi r))
        | None => None
        end
      else None in
    match r' with
    | Some s =>
        (* 2091: effectiveness is the sum of the absolute values *)
        if forallb (fun e => Qeq_bool (snd e) 0) (r_form s) then (s, None)
        else (s, Some (RowCut (tidy (r_form s)) (r_lo s) (r_hi s)))
    | None => (r, None)
    end
  else (r, None).

(** A row of the working copy: negative elements, positive elements, and the
    row of the problem it comes from. *)
Record prow := PRow { p_neg : vec; p_pos : vec; p_lo : option Q; p_hi : option Q; p_from : nat }.
Definition p_form (r : prow) : vec := p_neg r ++ p_pos r.

(** CglProbing.cpp:2008-2128: rows kept, strengthened when asked. *)
Definition kept (p : mip) (c : probe_in) (ir : nat * row) : bool :=
  negb ((too_long (max_elements p c) (snd ir) && Nat.ltb (fst ir) (length (m_rows p)))
        || free_row (snd ir)).
Definition numbered (p : mip) (c : probe_in) : list (nat * row) :=
  let rows := m_rows p ++ objective_row p c in combine (seq 0 (length rows)) rows.
Definition kept_rows (p : mip) (c : probe_in) (cl cu : nat -> Q)
  : list (nat * (row * option rowcut)) :=
  map (fun ir => (fst ir, if pi_strengthen c then strengthen p cl cu (snd ir) else (snd ir, None)))
      (filter (kept p c) (numbered p c)).

(** CglProbing.cpp:2175-2222: elements of fixed columns are moved to the
    row bounds, zeros are dropped, negative elements come first. *)
Definition live (cl cu : nat -> Q) (e : nat * Q) : bool := cl (fst e) <? cu (fst e).
Definition fixed_part (cl cu : nat -> Q) (v : vec) : Q :=
  fold_right Qplus 0 (map (fun e => cu (fst e) * snd e) (filter (fun e => negb (live cl cu e)) v)).
Definition prepare (cl cu : nat -> Q) (ir : nat * row) : prow :=
  let v := r_form (snd ir) in
  let off := fixed_part cl cu v in
  PRow (filter (fun e => live cl cu e && is_neg e) v)
       (filter (fun e => live cl cu e && is_pos e) v)
       (match r_lo (snd ir) with
        | Some l => Some (if (- e20 <? l) && negb (Qeq_bool off 0) then l - off else l)
        | None => None end)
       (match r_hi (snd ir) with
        | Some u => Some (if (u <? e20) && negb (Qeq_bool off 0) then u - off else u)
        | None => None end)
       (fst ir).

(** ** tighten(), CglProbing.cpp:327-712 *)

Record tstate := TState {
  t_cl : nat -> Q; t_cu : nat -> Q;                   (* colLower, colUpper *)
  t_rl : nat -> option Q; t_ru : nat -> option Q;     (* rowLower, rowUpper *)
  t_mark : nat -> nat;                                (* markRow *)
  t_next : list nat;                                  (* rowsToLookAtNext *)
  t_cols : list nat;                                  (* whichColumn; markCol is set on these *)
  t_chg : nat;                                        (* nchange *)
  t_inf : nat;                                        (* ninfeas *)
  t_stop : bool                                       (* the row loop was left by break *)
}.

Section Tighten.
Variable nRows nCols : nat.
Variable rows : nat -> prow.       (* the working copy *)
Variable rowsOf : nat -> list nat. (* columnCopy: the rows of a column *)
Variable isInt : nat -> bool.      (* intVar *)
Variable tol : Q.                  (* tolerance, after "tolerance *= 10.0" *)

(** CglProbing.cpp:461-488: U(i) and L(i); a bound of size 1e12 or more
    counts as infinite and is only counted. *)
Definition up_sum (st : tstate) (r : prow) : Q * nat :=
  let s := fold_left (fun a e => if - e12 <? t_cl st (fst e)
                                 then (fst a + t_cl st (fst e) * snd e, snd a)
                                 else (fst a, S (snd a))) (p_neg r) (0, 0%nat) in
  fold_left (fun a e => if t_cu st (fst e) <? e12
                        then (fst a + t_cu st (fst e) * snd e, snd a)
                        else (fst a, S (snd a))) (p_pos r) s.
Definition down_sum (st : tstate) (r : prow) : Q * nat :=
  let s := fold_left (fun a e => if t_cu st (fst e) <? e12
                                 then (fst a + t_cu st (fst e) * snd e, snd a)
                                 else (fst a, S (snd a))) (p_neg r) (0, 0%nat) in
  fold_left (fun a e => if - e12 <? t_cl st (fst e)
                        then (fst a + t_cl st (fst e) * snd e, snd a)
                        else (fst a, S (snd a))) (p_pos r) s.

(** CglProbing.cpp:529-563 and its three copies: a bound of column [j] has
    just been written; note the column and the rows to look at again, and
    test whether the bounds have crossed. *)
Definition note_rows (st : tstate) (j : nat) : outcome ((nat -> nat) * list nat) :=
  ofold (fun mn i =>
           if Nat.eqb (fst mn i) 0 then
             do nx <- push nRows (snd mn) i; Done (set_at (fst mn) i 1%nat, nx)
           else Done mn)
        (rowsOf j) (t_mark st, t_next st).
Definition changed (st : tstate) (j : nat) : outcome tstate :=
  do cols <- (if existsb (Nat.eqb j) (t_cols st) then Done (t_cols st)
              else push nCols (t_cols st) j);
  do mn <- note_rows st j;
  Done (TState (t_cl st) (t_cu st) (t_rl st) (t_ru st) (fst mn) (snd mn) cols
               (S (t_chg st))
               (if t_cu st j - t_cl st j <? - (100 # 1) * tol then S (t_inf st) else t_inf st)
               (t_stop st)).
Definition set_lower (st : tstate) (j : nat) (b : Q) : tstate :=
  TState (set_at (t_cl st) j b) (t_cu st) (t_rl st) (t_ru st) (t_mark st) (t_next st)
         (t_cols st) (t_chg st) (t_inf st) (t_stop st).
Definition set_upper (st : tstate) (j : nat) (b : Q) : tstate :=
  TState (t_cl st) (set_at (t_cu st) j b) (t_rl st) (t_ru st) (t_mark st) (t_next st)
         (t_cols st) (t_chg st) (t_inf st) (t_stop st).

(** CglProbing.cpp:519-597: one element in the "finite U(i)" loop. *)
Definition up_entry (lo dmaxup : Q) (st : tstate) (e : nat * Q) : outcome tstate :=
  let (j, a) := e in
  if 0 <? a then
    if t_cu st j <? e12 then
      let b := t_cu st j + (lo - dmaxup) / a in
      if t_cl st j + eps8 <? b then changed (set_lower st j b) j else Done st
    else Done st
  else
    if - e12 <? t_cl st j then
      let b := t_cl st j + (lo - dmaxup) / a in
      if b <? t_cu st j - eps8 then changed (set_upper st j b) j else Done st
    else Done st.
(** CglProbing.cpp:603-668: one element in the "finite L(i)" loop. *)
Definition down_entry (hi dmaxdown : Q) (st : tstate) (e : nat * Q) : outcome tstate :=
  let (j, a) := e in
  if a <? 0 then
    if t_cu st j <? e12 then
      let b := t_cu st j + (hi - dmaxdown) / a in
      if t_cl st j + eps8 <? b then changed (set_lower st j b) j else Done st
    else Done st
  else
    if - e12 <? t_cl st j then
      let b := t_cl st j + (hi - dmaxdown) / a in
      if b <? t_cu st j - eps8 then changed (set_upper st j b) j else Done st
    else Done st.

(** CglProbing.cpp:491-510: a row implied by the bounds is freed. *)
Definition drop_row (st : tstate) (i : nat) : tstate :=
  TState (t_cl st) (t_cu st) (set_at (t_rl st) i None) (set_at (t_ru st) i None)
         (set_at (t_mark st) i 2%nat) (t_next st) (t_cols st) (S (t_chg st)) (t_inf st) (t_stop st).
Definition infeasible_row (st : tstate) : tstate :=
  TState (t_cl st) (t_cu st) (t_rl st) (t_ru st) (t_mark st) (t_next st) (t_cols st)
         (t_chg st) (S (t_inf st)) true.

(** CglProbing.cpp:448-672: one row of the list.  [odd] is dolrows. *)
Definition step_row (odd : bool) (st : tstate) (i : nat) : outcome tstate :=
  if t_stop st then Done st
  else if lo_lt (t_rl st i) (- e20) && hi_gt (t_ru st i) e20 then Done st
  else
    let r := rows i in
    let (us, fu) := up_sum st r in
    let (ds, fd) := down_sum st r in
    let dmaxup := if Nat.eqb fu 0 then us else e31 in
    let dmaxdown := if Nat.eqb fd 0 then ds else - e31 in
    let lo := t_rl st i in
    let hi := t_ru st i in
    if (match hi with Some u => dmaxup <=? u + tol | None => true end)
       && (match lo with Some l => l - tol <=? dmaxdown | None => true end)
    then Done (drop_row st i)
    else if lo_gt lo (dmaxup + tol) || hi_lt hi (dmaxdown - tol)
    then Done (infeasible_row st)
    else
      let both := Nat.eqb fu 0 && lo_gt lo 0 && Nat.eqb fd 0 && hi_lt hi e15 in
      let useU := Nat.eqb fu 0 && negb (both && odd) in
      let useL := Nat.eqb fd 0 && negb (both && negb odd) in
      do st1 <- (match lo with
                 | Some l => if useU && (- e15 <? l)
                             then ofold (up_entry l dmaxup) (p_form r) st else Done st
                 | None => Done st
                 end);
      match hi with
      | Some u => if useL && (u <? e15)
                  then ofold (down_entry u dmaxdown) (p_form r) st1 else Done st1
      | None => Done st1
      end.

(** CglProbing.cpp:679-705: bounds of the changed integer columns are
    rounded.  (Both branches of 683 write the same values.) *)
Definition round_col (st : tstate) (j : nat) : tstate :=
  if isInt j then
    let u := t_cu st j in
    let l := t_cl st j in
    let u' := qfloor (u + eps4) in
    let l' := qceil (l - eps4) in
    let chg := if eps8 <? u - l
               then Nat.add (Nat.add (t_chg st) (if u' <? u then 1%nat else 0%nat)) (if l <? l' then 1%nat else 0%nat)
               else t_chg st in
    TState (set_at (t_cl st) j l') (set_at (t_cu st) j u') (t_rl st) (t_ru st)
           (t_mark st) (t_next st) (t_cols st) chg
           (if u' <? l' then S (t_inf st) else t_inf st) (t_stop st)
  else st.

(** CglProbing.cpp:434-447 and 673-708: one pass. *)
Definition begin_pass (st : tstate) : tstate :=
  TState (t_cl st) (t_cu st) (t_rl st) (t_ru st) (t_mark st) [] [] 0%nat (t_inf st) (t_stop st).
Definition reset_marks (st : tstate) : tstate :=
  TState (t_cl st) (t_cu st) (t_rl st) (t_ru st)
         (fun i => if existsb (Nat.eqb i) (t_next st) then 0%nat else t_mark st i)
         (t_next st) (t_cols st) (t_chg st) (t_inf st) (t_stop st).
Definition pass (odd : bool) (look : list nat) (st : tstate) : outcome tstate :=
  do st1 <- ofold (step_row odd) look (begin_pass st);
  Done (fold_left round_col (t_cols st1) (reset_marks st1)).

(** CglProbing.cpp:434-441 and 707: the while loop; [k] is
    maxpass - jpass. *)
Fixpoint passes (k : nat) (odd : bool) (look : list nat) (st : tstate) : outcome tstate :=
  match k with
  | O => Done st
  | S k' =>
      do st1 <- pass odd look st;
      if Nat.eqb (t_inf st1) 0 then
        if Nat.eqb (t_chg st1) 0 then Done st1
        else passes k' (negb odd) (t_next st1) st1
      else Done st1
  end.

(** CglProbing.cpp:391-433: the first list holds every row with a finite
    side.  (It is filled here since lookColumn_ is NULL on entry; the
    activities computed at the same time are not used.) *)
Definition first_look (rl ru : nat -> option Q) : list nat :=
  filter (fun i => lo_gt (rl i) (- e20) || hi_lt (ru i) e20) (seq 0 nRows).
Definition tighten (maxpass : nat) (cl cu : nat -> Q) (rl ru : nat -> option Q) : outcome tstate :=
  passes maxpass true (first_look rl ru)
         (TState cl cu rl ru (fun _ => 0%nat) [] [] 0%nat 0%nat false).
End Tighten.

(** ** The stage as a whole *)

Definition dead_row : prow := PRow [] [] None None 0%nat.

(** The working copy of the problem (CglProbing.cpp:1957-2222). *)
Definition working (p : mip) (c : probe_in) : list prow :=
  let cl := clip_lo p (pi_x c) in
  let cu := clip_hi p (pi_x c) in
  map (fun ir => prepare cl cu (fst ir, fst (snd ir))) (kept_rows p c cl cu).

(** columnCopy, CglProbing.cpp:2224. *)
Definition rows_of (rows : list prow) (j : nat) : list nat :=
  filter (fun i => existsb (fun e => Nat.eqb (fst e) j) (p_form (nth i rows dead_row)))
         (seq 0 (length rows)).

(** CglProbing.cpp:2265-2271: the call of tighten(). *)
Definition run_tighten (p : mip) (c : probe_in) : outcome tstate :=
  let rows := working p c in
  tighten (length rows) (m_ncols p) (fun i => nth i rows dead_row) (rows_of rows)
          (m_int p) (10 * pi_tol c) (pi_passes c)
          (clip_lo p (pi_x c)) (clip_hi p (pi_x c))
          (fun i => p_lo (nth i rows dead_row)) (fun i => p_hi (nth i rows dead_row)).

(** CglProbing.cpp:2273-2319: the column cut, with its two assertions. *)
Definition not_integer (q : Q) : bool := negb (Qeq_bool q (qfloor (q + (1 # 2)))).
Definition col_cut (p : mip) (cl cu : nat -> Q) : outcome (list colcut) :=
  let ints := filter (m_int p) (seq 0 (m_ncols p)) in
  if existsb (fun j => not_integer (cu j) || not_integer (cl j)) ints then Aborts
  else
    let ubs := map (fun j => (j, cu j))
                   (filter (fun j => match m_chi p j with
                                     | Some u => cu j <? u - eps8 | None => true end) ints) in
    let lbs := map (fun j => (j, cl j))
                   (filter (fun j => match m_clo p j with
                                     | Some l => l + eps8 <? cl j | None => true end) ints) in
    match lbs, ubs with
    | [], [] => Done []
    | _, _ => Done [ColCut lbs ubs]
    end.

(** CglProbing.cpp:3186-3203: the bounds handed back. *)
Definition put_back_hi (p : mip) (cu : nat -> Q) (j : nat) : option Q :=
  if Nat.eqb (colType p j) 2 && Qeq_bool (cu j) reasonable then m_chi p j else Some (cu j).
Definition put_back_lo (p : mip) (cl : nat -> Q) (j : nat) : option Q :=
  if Nat.eqb (colType p j) 2 && Qeq_bool (cl j) (- reasonable) then m_clo p j else Some (cl j).

(** The arrays rowLower and rowUpper when they are handed back: the first
    entries describe the rows kept, the others still hold what
    CglProbing.cpp:1955-1961 put there (as changed by 2075 and 2088). *)
Definition raw_row (p : mip) (c : probe_in) (i : nat) : row :=
  let cl := clip_lo p (pi_x c) in
  let cu := clip_hi p (pi_x c) in
  let r := nth i (m_rows p ++ objective_row p c) (Row [] None None) in
  if kept p c (i, r) && pi_strengthen c then fst (strengthen p cl cu r) else r.

Record probe_out := ProbeOut {
  po_infeasible : bool;              (* the value returned is positive *)
  po_rows : list rowcut;             (* row cuts added to the pool *)
  po_cols : list colcut;             (* column cuts added to the pool *)
  po_strengthened : list (nat * rowcut);   (* info->strengthenRow *)
  po_lower : nat -> option Q;        (* tightLower() *)
  po_upper : nat -> option Q;        (* tightUpper() *)
  po_rowLower : nat -> option Q;     (* relaxedRowLower(), mode 3 *)
  po_rowUpper : nat -> option Q      (* relaxedRowUpper(), mode 3 *)
}.

(** DBL_MAX, used for the lower side of the cut saying "infeasible". *)
Definition dbl_max : Q := inject_Z (2 ^ 1024 - 2 ^ 971).

(** CglProbing.cpp:1326-1399, 1400-1486 and 1732-3208 with maxProbe <= 0. *)
Definition run_probing (p : mip) (c : probe_in) : outcome probe_out :=
  let cl := clip_lo p (pi_x c) in
  let cu := clip_hi p (pi_x c) in
  let kr := kept_rows p c cl cu in
  let str := flat_map (fun ir => match snd (snd ir) with
                                 | Some s => [(fst ir, s)] | None => [] end) kr in
  match kr with
  | [] =>   (* 2150-2173: nothing left *)
      Done (ProbeOut false [] [] [] (put_back_lo p cl) (put_back_hi p cu)
                     (fun i => r_lo (raw_row p c i)) (fun i => r_hi (raw_row p c i)))
  | _ =>
      do st <- run_tighten p c;
      let n := length kr in
      let rl := fun i => if Nat.ltb i n then t_rl st i else r_lo (raw_row p c i) in
      let ru := fun i => if Nat.ltb i n then t_ru st i else r_hi (raw_row p c i) in
      if Nat.eqb (t_inf st) 0 then
        do cc <- col_cut p (t_cl st) (t_cu st);
        Done (ProbeOut false [] cc str (put_back_lo p (t_cl st)) (put_back_hi p (t_cu st)) rl ru)
      else
        Done (ProbeOut true [RowCut [] (Some dbl_max) (Some 0)] [] str (m_clo p) (m_chi p) rl ru)
  end.
