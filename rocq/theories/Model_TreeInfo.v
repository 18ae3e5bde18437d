(** * Model of CglTreeProbingInfo
    /repo/src/CglCommon/CglTreeInfo.hpp and CglTreeInfo.cpp *)

From Verif Require Import Base.
Local Open Scope Q_scope.

(** ** The 32-bit clique entry word, CglTreeInfo.hpp lines 92-96, 202-217 *)

(** Conversion int -> unsigned int. *)
Definition to_u32 (z : Z) : Z := (z mod 4294967296)%Z.

(** sequenceInCliqueEntry, lines 202-205. *)
Definition sequenceInCliqueEntry (w : Z) : Z := Z.land w 2147483647.
(** setSequenceInCliqueEntry, lines 206-209. *)
Definition setSequenceInCliqueEntry (w sequence : Z) : Z :=
  Z.lor (to_u32 sequence) (Z.land w 2147483648).
(** oneFixesInCliqueEntry, lines 210-213. *)
Definition oneFixesInCliqueEntry (w : Z) : bool :=
  negb (Z.land w 2147483648 =? 0)%Z.
(** setOneFixesInCliqueEntry, lines 214-217. *)
Definition setOneFixesInCliqueEntry (w : Z) (oneFixes : bool) : Z :=
  Z.lor (if oneFixes then 2147483648 else 0) (Z.land w 2147483647).

(** ** Object state *)

(** The sorted tables (fixEntry_, toZero_, toOne_).  fixEntry_ is kept up to
    the last entry in use. *)
Record table := Table {
  t_entry  : list Z;
  t_toZero : list nat;
  t_toOne  : list nat
}.

(** Data members, CglTreeInfo.hpp lines 180-200.  [pi_coll] is the used part
    of (fixingEntry_, fixEntry_) while collecting; [pi_table] = None stands
    for toZero_ == NULL. *)
Record pinfo := PInfo {
  pi_nvars  : Z;
  pi_intvar : list nat;          (* integerVariable_ *)
  pi_back   : list Z;            (* backward_ *)
  pi_max    : Z;                 (* maximumEntries_ *)
  pi_num    : Z;                 (* numberEntries_ *)
  pi_coll   : list (Z * Z);
  pi_table  : option table
}.
Definition pi_nint (s : pinfo) : Z := Z.of_nat (length (pi_intvar s)).

(** Default constructor, CglTreeInfo.cpp lines 83-96. *)
Definition pinfo_default : pinfo := PInfo 0 [] [] 0 (-1) [] None.

(** The scan over column types shared by the constructor (lines 116-128) and
    initializeFixing (lines 1295-1307).  Column types as returned by
    OsiSolverInterface::getColType: 0 continuous, 1 binary, otherwise general
    integer. *)
Fixpoint scan_types (types : list nat) (col : nat) (nint : Z) : list nat * list Z :=
  match types with
  | [] => ([], [])
  | t :: types' =>
      match t with
      | O => let '(iv, bw) := scan_types types' (S col) nint in (iv, (-1)%Z :: bw)
      | 1%nat =>
          let '(iv, bw) := scan_types types' (S col) (nint + 1)%Z in
          (col :: iv, nint :: bw)
      | _ => let '(iv, bw) := scan_types types' (S col) nint in (iv, (-2)%Z :: bw)
      end
  end.

(** initializeFixing, lines 1277-1315. *)
Definition initializeFixing (s : pinfo) (types : list nat) : Z * pinfo :=
  if (0 <=? pi_num s)%Z then (2%Z, s)
  else if (pi_num s =? -2)%Z then (pi_num s, s)
  else
    let '(iv, bw) := scan_types types 0 0 in
    (1%Z, PInfo (Z.of_nat (length types)) iv bw 0 0 [] None).

(** fixes, lines 1237-1275.  [toValue] is -1 or 1 (asserted, line 1268).
    Result: the returned bool and the new state.  Writing at a negative index
    (arrays not initialised, or already converted) is undefined. *)
Definition fixes (s : pinfo) (variable : nat) (toValue : Z)
                 (fixedVariable : nat) (fixedToLower : bool)
  : outcome (bool * pinfo) :=
  match nth_error (pi_back s) variable with
  | None => Undef OutOfBounds
  | Some intVariable =>
      if (intVariable <? 0)%Z then Done (true, s) else
      match nth_error (pi_back s) fixedVariable with
      | None => Undef OutOfBounds
      | Some bf =>
          let intFix := if (bf <? 0)%Z then (pi_nint s + Z.of_nat fixedVariable)%Z else bf in
          if negb (int_range intFix) then Undef IntOverflow else
          let full := (pi_num s =? pi_max s)%Z in
          if full && (Z.max 1000000 (10 * pi_nint s) <=? pi_max s)%Z
          then Done (false, s)
          else
            let max' := if full then (pi_max s + (100 + Z.quot (pi_max s) 2))%Z else pi_max s in
            if (pi_num s <? 0)%Z then Undef OutOfBounds else
            if negb (toValue =? -1)%Z && negb (toValue =? 1)%Z then Aborts else
            let entry1 := setSequenceInCliqueEntry
                            (setOneFixesInCliqueEntry 0 (negb fixedToLower)) intFix in
            if negb (int_range (intVariable * 2)) then Undef IntOverflow else
            let key := if (toValue <? 0)%Z then (intVariable * 2)%Z
                       else Z.lor (intVariable * 2) 1 in
            Done (true, PInfo (pi_nvars s) (pi_intvar s) (pi_back s) max' (pi_num s + 1)
                          (pi_coll s ++ [(key, entry1)]) (pi_table s))
      end
  end.

(** ** convert, lines 1317-1381 *)

(** CoinSort_2 by first component (line 1320).  CoinSort_2 is not stable, but
    each run of equal keys is sorted again below, so the order chosen inside a
    run has no effect. *)
Fixpoint insert_key (p : Z * Z) (l : list (Z * Z)) : list (Z * Z) :=
  match l with
  | [] => [p]
  | q :: l' => if (fst p <=? fst q)%Z then p :: l else q :: insert_key p l'
  end.
Definition sort_key (l : list (Z * Z)) : list (Z * Z) := fold_right insert_key [] l.

(** std::sort on the unsigned words (lines 1339-1340, 1362-1363). *)
Fixpoint insert_z (z : Z) (l : list Z) : list Z :=
  match l with
  | [] => [z]
  | y :: l' => if (z <=? y)%Z then z :: l else y :: insert_z z l'
  end.
Definition sort_z (l : list Z) : list Z := fold_right insert_z [] l.

(** The duplicate filter, lines 1344-1349 and 1367-1372. *)
Fixpoint dedupe (temp2 : Z) (l : list Z) : list Z :=
  match l with
  | [] => []
  | e :: l' =>
      if negb (sequenceInCliqueEntry temp2 =? sequenceInCliqueEntry e)%Z
         || oneFixesInCliqueEntry temp2 || oneFixesInCliqueEntry e
      then e :: dedupe e l' else dedupe temp2 l'
  end.
(** The sentinel of lines 1341-1343. *)
Definition sentinel (nvars : Z) : Z := setSequenceInCliqueEntry 0 (nvars + 1).

Fixpoint span {A} (p : A -> bool) (l : list A) : list A * list A :=
  match l with
  | [] => ([], [])
  | a :: l' => if p a then let '(u, v) := span p l' in (a :: u, v) else ([], l)
  end.

(** The loop over intVariable, lines 1327-1376.  Entries are written back into
    the array they are read from; since put <= read position always, the
    model appends to a separate output list. *)
Fixpoint convert_loop (nvars : Z) (k : nat) (iv : Z) (rest : list (Z * Z)) (out : list Z)
  : list Z * list nat * list nat :=
  match k with
  | O => (out, [], [])
  | S k' =>
      let '(g0, rest0) :=
        span (fun p => (Z.shiftr (fst p) 1 =? iv)%Z && (Z.land (fst p) 1 =? 0)%Z) rest in
      let out0 := out ++ dedupe (sentinel nvars) (sort_z (map snd g0)) in
      let '(g1, rest1) := span (fun p => (Z.shiftr (fst p) 1 =? iv)%Z) rest0 in
      let out1 := out0 ++ dedupe (sentinel nvars) (sort_z (map snd g1)) in
      let '(o, ones, zeros) := convert_loop nvars k' (iv + 1)%Z rest1 out1 in
      (o, length out0 :: ones, length out1 :: zeros)
  end.

Definition convert (s : pinfo) : pinfo :=
  if (0 <=? pi_num s)%Z then
    let '(o, ones, zeros) :=
      convert_loop (pi_nvars s) (length (pi_intvar s)) 0 (sort_key (pi_coll s)) [] in
    PInfo (pi_nvars s) (pi_intvar s) (pi_back s) (pi_max s) (-2) []
          (Some (Table o (0%nat :: zeros) ones))
  else s.

(** ** Reading the tables *)

Definition slice {A} (l : list A) (a b : nat) : list A := firstn (b - a) (skipn a l).

(** entries j with toZero_[i] <= j < toOne_[i] *)
Definition zero_entries (t : table) (i : nat) : list Z :=
  slice (t_entry t) (nth i (t_toZero t) 0%nat) (nth i (t_toOne t) 0%nat).
(** entries j with toOne_[i] <= j < toZero_[i+1] *)
Definition one_entries (t : table) (i : nat) : list Z :=
  slice (t_entry t) (nth i (t_toOne t) 0%nat) (nth (S i) (t_toZero t) 0%nat).

(** ** packDown, lines 1534-1557.  Again the write position never passes the
    read position. *)
Fixpoint pack_loop (nint : Z) (entry : list Z) (ones zeros : list nat) (iLast : nat) (out : list Z)
  : list Z * list nat * list nat :=
  match ones, zeros with
  | o :: ones', z :: zeros' =>
      let keep := filter (fun e => (sequenceInCliqueEntry e <? nint)%Z) in
      let out0 := out ++ keep (slice entry iLast o) in
      let out1 := out0 ++ keep (slice entry o z) in
      let '(r, ones1, zeros1) := pack_loop nint entry ones' zeros' z out1 in
      (r, length out0 :: ones1, length out1 :: zeros1)
  | _, _ => (out, [], [])
  end.

Definition packDown (s : pinfo) : outcome (nat * pinfo) :=
  let s := convert s in
  match pi_table s with
  | None => if (pi_nint s =? 0)%Z then Done (0%nat, s) else Undef NullDeref
  | Some t =>
      let '(r, ones, zeros) :=
        pack_loop (pi_nint s) (t_entry t) (t_toOne t) (tl (t_toZero t)) 0 [] in
      Done (length r,
            PInfo (pi_nvars s) (pi_intvar s) (pi_back s) (pi_max s) (pi_num s) (pi_coll s)
                  (Some (Table r (0%nat :: zeros) ones)))
  end.

(** ** fixColumns, lines 1383-1456 and 1458-1532 *)

(** Column bounds of the solver. *)
Definition bnds : Type := ((nat -> Q) * (nat -> Q))%type.
Definition upd (f : nat -> Q) (k : nat) (v : Q) : nat -> Q :=
  fun j => if Nat.eqb j k then v else f j.

(** One entry, lines 1394-1417.  getColLower/getColUpper are taken to point at
    live solver data.  integerVariable_[kColumn] is only defined for
    kColumn < numberIntegers_. *)
Definition fix_entry (intvar : list nat) (st : bnds * nat * bool) (e : Z)
  : outcome (bnds * nat * bool) :=
  let '((lower, upper), nFix, feas) := st in
  match nth_error intvar (Z.to_nat (sequenceInCliqueEntry e)) with
  | None => Undef Uninitialised
  | Some k =>
      Done
        (if oneFixesInCliqueEntry e then
           if Qeq_bool (lower k) 0 then
             if Qeq_bool (upper k) 1 then ((upd lower k 1, upper), S nFix, feas)
             else ((lower, upper), nFix, false)
           else st
         else
           if Qeq_bool (upper k) 1 then
             if Qeq_bool (lower k) 0 then ((lower, upd upper k 0), S nFix, feas)
             else ((lower, upper), nFix, false)
           else st)
  end.

(** fixColumns(si), lines 1383-1456.  The int result is -1 when [feas] is
    false. *)
Definition fixColumns_step (intvar : list nat) (t : table) (st : bnds * nat * bool)
                           (ij : nat * nat) : outcome (bnds * nat * bool) :=
  let '(j, iColumn) := ij in
  let '((lower, upper), _, _) := st in
  if Qeq_bool (upper iColumn) 0 then ofold (fix_entry intvar) (zero_entries t j) st
  else if Qeq_bool (lower iColumn) 1 then ofold (fix_entry intvar) (one_entries t j) st
  else Done st.
Definition fixColumns (s : pinfo) (b : bnds) : outcome (Z * bnds) :=
  match pi_table s with
  | None => if (pi_nint s =? 0)%Z then Done (0%Z, b) else Undef NullDeref
  | Some t =>
      do r <- ofold (fixColumns_step (pi_intvar s) t)
                    (combine (seq 0 (length (pi_intvar s))) (pi_intvar s)) (b, 0%nat, true);
      let '(b', n, feas) := r in
      Done (if (feas : bool) then Z.of_nat n else (-1)%Z, b')
  end.

(** fixColumns(iColumn, value, si), lines 1458-1532. *)
Definition fixColumns1 (s : pinfo) (iColumn : nat) (value : bool) (b : bnds) : outcome (Z * bnds) :=
  match nth_error (pi_back s) iColumn with
  | None => Undef OutOfBounds
  | Some jColumn =>
      match pi_table s with
      | None => Done (0%Z, b)
      | Some t =>
          if (jColumn <? 0)%Z then Done (0%Z, b) else
          do r <- ofold (fix_entry (pi_intvar s))
                    (if value then one_entries t (Z.to_nat jColumn)
                     else zero_entries t (Z.to_nat jColumn)) (b, 0%nat, true);
          let '(b', n, feas) := r in
          Done (if (feas : bool) then Z.of_nat n else (-1)%Z, b')
      end
  end.

(** ** generateCuts, lines 1558-1752 *)

Definition COIN_DBL_MAX : Q := inject_Z (2 ^ 1024 - 2 ^ 971).
(** The infeasibility cut of lines 1678-1681. *)
Definition infeasible_cut : rowcut := RowCut [] (Some COIN_DBL_MAX) (Some 0).

(** State of the scan: row cuts so far, lower and upper fixings inserted, and
    for each 0-1 index the bits of [fixed]. [ps_num] is numberFixed. *)
Record pscan := PScan {
  ps_cuts : list rowcut; ps_lbs : list (nat * Q); ps_ubs : list (nat * Q);
  ps_f1 : list nat; ps_f2 : list nat; ps_num : nat
}.

Definition free01 (lower upper : nat -> Q) (k : nat) : bool :=
  Qeq_bool (lower k) 0 && Qeq_bool (upper k) 1.

(** Lines 1574-1612 (entry of a variable going to zero, both free). *)
Definition gc_zero (intvar : list nat) (lower upper colsol : nat -> Q) (iColumn : nat)
                   (cs : list rowcut) (e : Z) : outcome (list rowcut) :=
  match nth_error intvar (Z.to_nat (sequenceInCliqueEntry e)) with
  | None => Undef Uninitialised
  | Some k =>
      Done (if free01 lower upper k then
        if oneFixesInCliqueEntry e then
          if colsol iColumn + colsol k <? 99999#100000
          then insert_new cs (RowCut [(iColumn, 1); (k, 1)] (Some 1) None) else cs
        else
          if colsol iColumn - colsol k <? - (1#100000)
          then insert_new cs (RowCut [(iColumn, 1); (k, -1)] (Some 0) None) else cs
      else cs)
  end.
(** Lines 1613-1651. *)
Definition gc_one (intvar : list nat) (lower upper colsol : nat -> Q) (iColumn : nat)
                  (cs : list rowcut) (e : Z) : outcome (list rowcut) :=
  match nth_error intvar (Z.to_nat (sequenceInCliqueEntry e)) with
  | None => Undef Uninitialised
  | Some k =>
      Done (if free01 lower upper k then
        if oneFixesInCliqueEntry e then
          if 1#100000 <? colsol iColumn - colsol k
          then insert_new cs (RowCut [(iColumn, 1); (k, -1)] None (Some 0)) else cs
        else
          if 100001#100000 <? colsol iColumn + colsol k
          then insert_new cs (RowCut [(iColumn, 1); (k, 1)] None (Some 1)) else cs
      else cs)
  end.

Definition nmem (k : nat) (l : list nat) : bool := existsb (Nat.eqb k) l.

(** Lines 1653-1685 and 1687-1719 (the same code): entries of a variable that
    is fixed.  The result [inr cs] is the early return with the infeasible
    cut. *)
Fixpoint gc_fixed (intvar : list nat) (lower upper : nat -> Q) (es : list Z) (st : pscan)
  : outcome (pscan + list rowcut) :=
  match es with
  | [] => Done (inl st)
  | e :: es' =>
      let k01 := Z.to_nat (sequenceInCliqueEntry e) in
      match nth_error intvar k01 with
      | None => Undef Uninitialised
      | Some k =>
          let one := oneFixesInCliqueEntry e in
          if free01 lower upper k then
            let st' :=
              if one then
                if nmem k01 (ps_f1 st)
                then PScan (ps_cuts st) (ps_lbs st) (ps_ubs st) (ps_f1 st) (ps_f2 st) (S (ps_num st))
                else PScan (ps_cuts st) (ps_lbs st ++ [(k, 1)]) (ps_ubs st) (k01 :: ps_f1 st) (ps_f2 st) (S (ps_num st))
              else
                if nmem k01 (ps_f2 st)
                then PScan (ps_cuts st) (ps_lbs st) (ps_ubs st) (ps_f1 st) (ps_f2 st) (S (ps_num st))
                else PScan (ps_cuts st) (ps_lbs st) (ps_ubs st ++ [(k, 0)]) (ps_f1 st) (k01 :: ps_f2 st) (S (ps_num st))
            in gc_fixed intvar lower upper es' st'
          else if (one && Qeq_bool (upper k) 0) || (negb one && Qeq_bool (lower k) 1)
          then Done (inr (insert_new (ps_cuts st) infeasible_cut))
          else gc_fixed intvar lower upper es' st
      end
  end.

Fixpoint gc_loop (intvar : list nat) (t : table) (lower upper colsol : nat -> Q)
                 (cols : list (nat * nat)) (st : pscan) : outcome (pscan + list rowcut) :=
  match cols with
  | [] => Done (inl st)
  | (j, iColumn) :: cols' =>
      if free01 lower upper iColumn then
        do c1 <- ofold (gc_zero intvar lower upper colsol iColumn) (zero_entries t j) (ps_cuts st);
        do c2 <- ofold (gc_one intvar lower upper colsol iColumn) (one_entries t j) c1;
        gc_loop intvar t lower upper colsol cols'
                (PScan c2 (ps_lbs st) (ps_ubs st) (ps_f1 st) (ps_f2 st) (ps_num st))
      else
        do r <- gc_fixed intvar lower upper
                  (if Qeq_bool (upper iColumn) 0 then zero_entries t j else one_entries t j) st;
        match r with
        | inl st' => gc_loop intvar t lower upper colsol cols' st'
        | inr cs => Done (inr cs)
        end
  end.

Definition pi_generateCuts (s : pinfo) (lower upper colsol : nat -> Q)
                           (cs : list rowcut) (ccs : list colcut)
  : outcome (list rowcut * list colcut) :=
  match pi_table s with
  | None => if (pi_nint s =? 0)%Z then Done (cs, ccs) else Undef NullDeref
  | Some t =>
      do r <- gc_loop (pi_intvar s) t lower upper colsol
                (combine (seq 0 (length (pi_intvar s))) (pi_intvar s))
                (PScan cs [] [] [] [] 0);
      match r with
      | inr cs' => Done (cs', ccs)
      | inl st =>
          if Nat.eqb (ps_num st) 0 then Done (ps_cuts st, ccs)
          else if existsb (fun k => nmem k (ps_f2 st)) (ps_f1 st)     (* lines 1724-1729 *)
          then Done (insert_new (ps_cuts st) infeasible_cut, ccs)
          else Done (ps_cuts st, ccs ++ [ColCut (ps_lbs st) (ps_ubs st)])
      end
  end.
