(** * Model of CglGomory
    /repo/src/CglGomory/CglGomory.cpp.

    Line numbers refer to that file.  USE_CGL_RATIONAL is 0, MORE_GOMORY_CUTS
    is 1, TRY7 is 1 and CGL_DEBUG is off, as they are in /repo.  Modelled: the
    work routine (lines 599-1930) and the part of the public entry point that
    runs without an original solver (lines 56-96, 280-288, 330-341).  Not
    modelled: gomoryType_ (an alternative objective is solved with Clp first).

    Doubles are exact rationals; COIN_DBL_MAX is the number it is.  A cut
    coefficient below COIN_INDEXED_TINY_ELEMENT (1e-50) and the place-holder
    1e-100 that CoinIndexedVector::quickAdd leaves in cancelled positions are
    both represented by 0.

    Parameters, because the code lies outside /repo:
    - [binv k], the nonzero entries of the row of the basis inverse in which
      column k is basic, as (row, value) pairs (lines 983-999);
    - [sqrt], the C library's square root;
    - [srt], CoinSort_2 (line 901);
    - [ins], OsiCuts::insertIfNotDuplicateAndClean;
    - [stale], what xInt[number+1] holds when line 1352 reads it. *)

From Coq Require Import Qabs.
From Verif Require Import Base Model_GMI.
Local Open Scope Q_scope.

Definition coin_max : Q := inject_Z (2 ^ 1024 - 2 ^ 971).
Definition lo_of (o : option Q) : Q := match o with Some q => q | None => - coin_max end.
Definition hi_of (o : option Q) : Q := match o with Some q => q | None => coin_max end.
Definition ten (e : Z) : Q := if (e <? 0)%Z then 1 / inject_Z (10 ^ (- e)) else inject_Z (10 ^ e).
Definition Qminq (a b : Q) : Q := if b <? a then b else a.

(** above_integer, lines 359-366 *)
Definition nearest (q : Q) : Q := qfloor (q + (1 # 2)).
Definition above_integer (q : Q) : Q :=
  if Qabs (nearest q - q) <? ten (-9) * (Qabs (nearest q) + 1) then 0 else q - qfloor q.

(** ** Rational approximation *)
(** the loop of nearestRational, lines 548-568 and 569-595; None is the "bad" rational.
    The denominators are what the caller uses. *)
Fixpoint rational_loop (fuel : nat) (v : Q) (an ad bn bd : Z) : outcome (option (Z * Z)) :=
  if (ten (-14) <? v) && (bd <=? 100000)%Z then
    match fuel with
    | O => Done None
    | S f =>
        let w := 1 / v in
        let ip := Qfloor (w + ten (-14)) in
        let tn := (bn * ip + an)%Z in
        let td := (bd * ip + ad)%Z in
        if int64 tn && int64 td then rational_loop f (w - inject_Z ip) bn bd tn td
        else Undef IntOverflow
    end
  else if (bd <=? 100000)%Z then Done (Some (bn, bd)) else Done (Some (an, ad)).
(** nearestRational(value, 100000), lines 518-597, for 0 <= value < 1 *)
Definition nearestRational (v : Q) : outcome (option (Z * Z)) :=
  if Qabs v <? ten (-14) then Done (Some (0, 1)%Z)
  else rational_loop 50 (v - qfloor v) 1 0 (Qfloor v) 1.

(** lines 1290-1318: the common denominator (None after a break) and the
    number of coefficients that are not nearly integers.  gcd, lines 372-412,
    has the text of computeGcd in CglGMI. *)
Definition lcm_step (s : option Z * nat) (a : Q) : outcome (option Z * nat) :=
  match s with
  | (None, _) => Done s
  | (Some l, ns) =>
      let v := above_integer (Qabs a) in
      if Qabs v <? ten (-10) then Done s
      else
        do r <- nearestRational v;
        match r with
        | None => Done (None, S ns)
        | Some (_, d) =>
            do g <- computeGcd l d;
            let l' := Z.quot l g in
            if inject_Z l' * inject_Z d <? ten 18 then Done (Some (l' * d)%Z, S ns) else Done (None, S ns)
        end
  end.
(** lines 1319-1340: the coefficients times the common denominator, as
    integers; None when one is too large or not close to an integer *)
Fixpoint to_ints (l : Z) (as_ : list Q) : option (list Z) :=
  match as_ with
  | [] => Some []
  | a :: as' =>
      let d := Qabs a * inject_Z l in
      let xi := Qfloor (d + (1 # 2)) in
      if ten 9 <? d then None
      else if ten (-8) <? Qabs (d - inject_Z xi) then None
      else match to_ints l as' with Some xs => Some (xi :: xs) | None => None end
  end.
Section Stale.
  Variable stale : Z.
  (** lines 1348-1358 *)
  Fixpoint from_nonzero (xs : list Z) : option (Z * list Z) :=
    match xs with
    | [] => None
    | z :: xs' => if (z =? 0)%Z then from_nonzero xs' else Some (z, xs')
    end.
  Definition gcd_all (xs : list Z) : outcome Z :=
    match from_nonzero xs with
    | None => Undef OutOfBounds
    | Some (z, rest) =>
        do g <- computeGcd z (match rest with [] => stale | z' :: _ => z' end);
        ofold (fun g z => if (z =? 0)%Z then Done g else computeGcd g z) rest g
    end.
End Stale.
(** lines 1379-1408: the new coefficients, and the test on their ratios to
    the old ones *)
Definition new_coef (g : Z) (a : Q) (xi : Z) : Q :=
  if 0 <? a then inject_Z (Z.quot xi g) else - inject_Z (Z.quot xi g).
Definition ratio_step (s : Q * Q) (ab : Q * Q) : Q * Q :=   (* (min, max), (old, new) *)
  let '(mn, mx) := s in let '(old, new) := ab in
  if Qeq_bool new 0 then s
  else (if Qabs new <? mn * Qabs old then new / old else mn,
        if mx * Qabs old <? Qabs new then new / old else mx).
Definition ratios_ok (olds news : list Q) : bool :=
  let '(mn, mx) := fold_left ratio_step (combine olds news) (ten 100, 0) in
  (9999 # 10000 <? mx / mn) && (mx / mn <? 10001 # 10000).

(** What the generator is given.  [g_limit] is the limit on the length of a
    cut (lines 835-877), [g_budget] the limit on the total length (lines
    899-928, COIN_INT_MAX when the columns are not sorted), [g_relaxation] the
    condition number times its multiplier; they are arbitrary here. *)
Record gcall := GCall {
  g_mip : mip; g_x : point;
  g_cbasic : nat -> bool; g_rbasic : nat -> bool;   (* basic columns, basic slacks *)
  g_away : Q;
  g_global : bool;       (* info.options & 16 *)
  g_first : bool;        (* not in the tree and first pass *)
  g_sorted : bool;       (* info.options & 256 *)
  g_limit : nat; g_budget : Z;
  g_relaxation : Q; g_factor : Q   (* largestFactorMultiplier_ *)
}.

(** What the solver's pool holds. *)
Definition pool := (list rowcut * list colcut)%type.

Section Generate.
  Variable sqrt : Q -> Q.
  Variable srt : list nat -> list nat.
  Variable ins : list rowcut -> rowcut -> list rowcut.
  Variable stale : Z.
  Variable c : gcall.
  Notation m := (g_mip c).
  Notation x := (g_x c).
  Notation n := (m_ncols m).
  Definition lo (j : nat) : Q := lo_of (m_clo m j).
  Definition hi (j : nat) : Q := hi_of (m_chi m j).
  Definition grow (i : nat) : row := nth i (m_rows m) (Row [] None None).
  Definition rlo (i : nat) : Q := lo_of (r_lo (grow i)).
  Definition rhi (i : nat) : Q := hi_of (r_hi (grow i)).

  (** lines 715-723 *)
  Definition swap (j : nat) : bool := negb (g_cbasic c j) && (hi j - x j <=? ten (-7)).
  (** rowActivity, lines 725-735 *)
  Definition act (i : nat) : Q := value (r_form (grow i)) x.
  (** lines 736-792: None for type 0; otherwise whether the activity is at its
      upper bound (bit 1) and whether the slack is integer (bit 4) *)
  Definition integer_slack (i : nat) (rhs : Q) : bool :=
    (above_integer rhs <? ten (-10)) &&
    forallb (fun e => m_int m (fst e) && negb (ten (-10) <? above_integer (snd e))) (r_form (grow i)).
  Definition rowType (i : nat) : option (bool * bool) :=
    if g_rbasic c i || negb (rlo i + ten (-7) <? rhi i) then None
    else if rhi i - ten (-7) <=? act i then Some (true, integer_slack i (rhi i))
    else if act i <=? rlo i + ten (-7) then Some (false, integer_slack i (rlo i))
    else Some (negb (act i - rlo i <? rhi i - act i), false).

  (** lines 885-898 *)
  Definition candidate (k : nat) : bool :=
    g_cbasic c k && m_int m k &&
    (above_integer (x k) <? 1 - g_away c) && (g_away c <? above_integer (x k)).

  (** ** The cut of a tableau row *)
  (** lines 1036-1043 *)
  Definition elem (rho : vec) (j : nat) : Q :=
    fold_left (fun s e => s + coef (r_form (grow (fst e))) j * snd e) rho 0.
  (** lines 1075-1092 and 1137-1153 *)
  Definition coefficient (f0 : Q) (integer : bool) (a : Q) : Q :=
    let ratio := f0 / (1 - f0) in
    if integer then
      let f := above_integer a in if f0 <? f then ratio * (1 - f) else f
    else if 0 <? a then a else - (ratio * a).
  (** cutElement, cutIndex, rhs, numberCoefficients *)
  Record gstate := GState { s_el : nat -> Q; s_idx : list nat; s_rhs : Q; s_nc : nat }.
  (** one column, lines 619 and 1034-1113 *)
  Definition testFixed : Q := if g_global c then - (1) else ten (-8).
  Definition col_step (f0 : Q) (rho : vec) (s : gstate) (j : nat) : gstate :=
    if g_cbasic c j || negb (lo j + testFixed <? hi j) then s
    else
      let a := elem rho j in
      if Qabs a <? ten (-16) then s
      else
        let q0 := coefficient f0 (m_int m j) (if swap j then - a else a) in
        let q := if swap j then - q0 else q0 in
        let rhs := s_rhs s + (if swap j then hi j else lo j) * q in
        if Qeq_bool q 0 then GState (s_el s) (s_idx s) rhs (s_nc s)
        else GState (upd (s_el s) j q) (s_idx s ++ [j]) rhs (S (s_nc s)).
  (** quickAdd, lines 1162-1171 *)
  Definition quick_add (q : Q) (s : gstate) (e : nat * Q) : gstate :=
    let '(j, a) := e in
    let d := - (q * a) in
    if existsb (Nat.eqb j) (s_idx s) then
      GState (upd (s_el s) j (s_el s j + d)) (s_idx s) (s_rhs s) (S (s_nc s))
    else if Qeq_bool d 0 then GState (s_el s) (s_idx s) (s_rhs s) (S (s_nc s))
    else GState (upd (s_el s) j d) (s_idx s ++ [j]) (s_rhs s) (S (s_nc s)).
  (** one slack, lines 1127-1173 *)
  Definition slack_step (f0 : Q) (s : gstate) (e : nat * Q) : gstate :=
    let '(i, a) := e in
    match rowType i with
    | None => s
    | Some (up, int) =>
        if Qabs a <? ten (-16) then s
        else
          let q0 := coefficient f0 int (if up then a else - a) in
          let q := if up then q0 else - q0 in
          fold_left (quick_add q) (r_form (grow i))
            (GState (s_el s) (s_idx s) (s_rhs s - q * (if up then rhi i else rlo i)) (s_nc s))
    end.
  Definition col_part (f0 : Q) (rho : vec) : gstate :=
    fold_left (col_step f0 rho) (seq 0 n) (GState (fun _ => 0) [] f0 0%nat).
  Definition raw (f0 : Q) (rho : vec) : gstate :=
    fold_left (slack_step f0) rho (col_part f0 rho).
  (** largestFactor, lines 1016-1021 and 1041 *)
  Definition qmax_list (l : list Q) : Q := fold_left (fun s a => Qmax s (Qabs a)) l 0.
  Definition largestFactor (rho : vec) : Q :=
    qmax_list (map snd rho ++
      flat_map (fun j => if g_cbasic c j || negb (lo j + testFixed <? hi j) then []
                         else map (fun e => coef (r_form (grow (fst e))) j * snd e) rho) (seq 0 n)).

  (** ** Packing and checking, lines 1174-1254 *)
  Definition pack_step (s : vec * Q * Q) (ja : nat * Q) : vec * Q * Q :=
    let '(v, rhs, viol2) := s in
    let '(j, a) := ja in
    if ten (-8) <? Qabs a then (v ++ [(j, a)], rhs, viol2)
    else if (0 <? a) && (- ten 20 <? lo j) then
      (v, rhs - a * lo j, viol2 - Qabs (a * (x j - lo j)))
    else if (a <? 0) && (hi j <? ten 20) then
      (v, rhs - a * hi j, viol2 - Qabs (a * (x j - hi j)))
    else if ten (-13) <? Qabs a then (v ++ [(j, a)], rhs, viol2)
    else s.
  Definition negated (s : gstate) : vec := map (fun j => (j, - s_el s j)) (s_idx s).
  Definition pack (f0 : Q) (s : gstate) : vec * Q * Q :=
    fold_left pack_step (negated s) ([], - s_rhs s, f0).
  Definition sumCoefficients (s : gstate) : Q :=
    fold_left (fun t e => t + Qabs (snd e) + (if 10 <? Qabs (x (fst e)) then 2 * Qabs (snd e) else 0))
              (negated s) 0.
  Definition useTolerance (rhs : Q) : Q :=
    if g_first c then ten (-7) else Qmax (Qabs rhs) 10 * (1 # 10) * ten (-6).
  Definition accurate (v : vec) (rhs viol : Q) : bool :=
    Qabs (value v x - rhs - viol) <? useTolerance rhs.
  Definition tolerance2 : Q := if g_first c then 1 # 100 else 9 # 10.
  Definition tolerance6 : Q := if g_first c then ten (-7) else ten (-6).
  Definition tolerance9 : Q := if g_first c then ten (-5) else ten (-4).
  Definition nonInteger (v : vec) : nat := length (filter (fun e => negb (m_int m (fst e))) v).

  (** ** Cleaning *)
  (** the cut, numberNonInteger, cleanedCut, dontRelax *)
  Record cleaned := Cleaned { k_v : vec; k_rhs : Q; k_nni : Z; k_clean : bool; k_exact : bool }.
  (** lines 1271-1442 *)
  Definition rationalize (v : vec) (rhs : Q) : outcome cleaned :=
    let nni := nonInteger v in
    let c0 := Nat.ltb 0 nni in
    if (Nat.eqb nni 0 || Nat.ltb (length v) 6) && Nat.ltb 0 (length v) then
      let olds := map snd v ++ [rhs] in
      do r <- ofold lcm_step olds (Some 1%Z, 0%nat);
      match r with
      | (Some l, S _) =>
          if (0 <? l)%Z then
            match to_ints l olds with
            | None => Done (Cleaned v rhs (- 1) true false)
            | Some xs =>
                do g <- gcd_all stale xs;
                let news := map (fun ax => new_coef g (fst ax) (snd ax)) (combine olds xs) in
                if ratios_ok olds news then
                  Done (Cleaned (map (fun en => (fst (fst en), snd en)) (combine v news))
                                (last news 0) 0 true true)
                else Aborts
            end
          else Done (Cleaned v rhs 0 c0 false)
      | (_, O) => Done (Cleaned v rhs 0 c0 true)
      | (None, S _) => Done (Cleaned v rhs 0 c0 false)
      end
    else Done (Cleaned v rhs (Z.of_nat nni) c0 false).

  (** lines 1443-1472 *)
  Definition relax (s : gstate) (k : cleaned) : Q :=
    if k_exact k then k_rhs k
    else k_rhs k + ten (-7) + (ten (-7) * sumCoefficients s + ten (-8) * inject_Z (Z.of_nat (s_nc s))).

  (** lines 1473-1516; None: thrown away *)
  Definition tiny_step (s : option (vec * Q * Z)) (e : nat * Q) : option (vec * Q * Z) :=
    match s with
    | None => None
    | Some (v, rhs, nni) =>
        let '(j, a) := e in
        let nni' := if m_int m j then (nni - 1)%Z else nni in
        if Qabs a <? ten (-12) then
          if hi j - lo j <? ten 20 then
            Some (v, if 0 <? a then rhs - Qabs a * lo j else rhs + Qabs a * hi j, nni')
          else None
        else if negb (Qeq_bool (hi j) (lo j)) || g_global c then Some (v ++ [e], rhs, nni)
        else Some (v, rhs - a * lo j, nni')
    end.
  Definition tiny (v : vec) (rhs : Q) (nni : Z) : option (vec * Q * Z) :=
    fold_left tiny_step v (Some ([], rhs, nni)).
  Definition largest (v : vec) : Q := fold_left (fun s e => Qmax s (Qabs (snd e))) v 0.
  Definition smallest (v : vec) : Q := fold_left (fun s e => Qminq s (Qabs (snd e))) v (ten 30).
  (** lines 1517-1563 *)
  Definition reject (v : vec) (nni : Z) : bool :=
    (ten 8 * smallest v <? largest v)
    || (Nat.ltb 20 (length v) && (smallest v <? inject_Z (Z.of_nat (length v)) * ten (-6)))
    || (nni <? -10)%Z || Nat.eqb (length v) 0 || Nat.ltb (g_limit c) (length v).
  Definition nearInt (q : Q) : bool := negb (ten (-14) <? Qabs (q - nearest q)).
  Definition rescale (v : vec) (rhs : Q) : vec * Q :=
    if nearInt rhs && forallb (fun e => nearInt (snd e) && negb (ten 4 <? Qabs (snd e))) v then (v, rhs)
    else let q := 1 / sqrt (largest v * smallest v) in scale_by q (v, rhs).

  (** lines 1610-1636: the right-hand side of the cut *)
  Definition weaken (rho v : vec) (rhs : Q) (nni : Z) : Q :=
    let nz := negb (nni =? 0)%Z in
    let b := if (Nat.ltb 50 (length v) && nz) || (Nat.ltb 5 (length v) && (1 <? nni)%Z)
             then rhs + tolerance6 + ten (-8) * Qabs rhs else rhs in
    let b := if (b <? nearest b) && (nearest b - ten (-4) <? b) then nearest b else b in
    let test := Qminq (largestFactor rho * g_factor c) (g_relaxation c) in
    if Nat.ltb 5 (length v) && nz && (ten (-20) <? test)
    then b + Qminq (test * Qabs rhs) tolerance9 else b.

  (** lines 1641-1681 *)
  Definition range (v : vec) : Q :=
    fold_left (fun s e => s + Qminq (hi (fst e) - lo (fst e)) 1000) v 0.
  Definition tidy (clean : bool) (v : vec) (b : Q) : vec * Q :=
    if clean then (v, b)
    else if (Qabs (b - nearest b) * range v <? ten (-6)) &&
            forallb (fun e => negb (ten (-6) <? Qabs (snd e - nearest (snd e)) * range v)) v
    then (map (fun e => (fst e, nearest (snd e))) v, nearest b)
    else (v, b).

  (** lines 1728-1788: a cut on a single column.  A coefficient that tidying has
      rounded to 0 gives an infinite or undefined quotient, which leaves nothing
      to do unless the right-hand side is negative *)
  Inductive made := MNothing | MRow (d : rowcut) | MSecond (d : rowcut) | MCol (d : colcut) | MInfeasible.
  Definition single (j : nat) (a b : Q) : made :=
    let int := m_int m j in
    if Qeq_bool a 0 then if b <? 0 then MInfeasible else MNothing else
    let '(l, u) := if a <? 0 then (if int then qceil (b / a - ten (-4)) else b / a, hi j)
                   else (lo j, if int then qfloor (b / a + ten (-4)) else b / a) in
    if u + ten (-4) <? l then MInfeasible
    else if (lo j <? l) || (u <? hi j) then
      if int then MCol (ColCut (if lo j <? l then [(j, l)] else []) (if u <? hi j then [(j, u)] else []))
      else MNothing
    else MNothing.

  (** lines 1637-1803 *)
  Definition emit (acc acc2 clean : bool) (v : vec) (b : Q) : made :=
    if acc then
      let '(v', b') := tidy clean v b in
      match v' with
      | [(j, a)] => single j a b'
      | _ => if value v' x <? b' + ten (-7) then MNothing else MRow (RowCut v' None (Some b'))
      end
    else if acc2 then MSecond (RowCut v None (Some b)) else MNothing.

  (** one candidate, lines 942-1830 *)
  Definition make (rho : vec) (k : nat) : outcome made :=
    let f0 := above_integer (x k) in
    if Nat.ltb (g_limit c) (length (s_idx (col_part f0 rho))) then Done MNothing
    else
      let s := raw f0 rho in
      if Nat.ltb (g_limit c) (length (s_idx s)) then Done MNothing
      else
        let '(v, rhs, viol2) := pack f0 s in
        let acc := accurate v rhs f0 in
        let acc2 := accurate v rhs viol2 && g_sorted c in
        if (rhs + tolerance2 * g_away c <? value v x) && (acc || acc2) then
          do k1 <- rationalize v rhs;
          match tiny (k_v k1) (relax s k1) (k_nni k1) with
          | None => Done MNothing
          | Some (v1, rhs1, nni) =>
              if reject v1 nni then Done MNothing
              else
                let '(v2, rhs2) := rescale v1 rhs1 in
                if Nat.ltb (length v2) (g_limit c) || (nni =? 0)%Z
                then Done (emit acc acc2 (k_clean k1) v2 (weaken rho v2 rhs2 nni))
                else Done MNothing
          end
        else Done MNothing.

  (** ** The whole call *)
  Definition step (binv : nat -> vec) (s : pool * list rowcut * Z) (k : nat)
    : outcome (pool * list rowcut * Z) :=
    let '((rcs, ccs), second, budget) := s in
    if (budget <=? 0)%Z then Done s
    else
      do r <- make (binv k) k;
      Done (match r with
            | MNothing => s
            | MRow d => ((ins rcs d, ccs), second, (budget - Z.of_nat (length (rc_form d)))%Z)
            | MSecond d => ((rcs, ccs), ins second d, budget)
            | MCol d => ((rcs, ccs ++ [d]), second, budget)
            | MInfeasible => ((ins rcs (RowCut [] (Some 1) (Some 0)), ccs), second, budget)
            end).
  (** lines 1894-1920: less accurate cuts while the budget lasts *)
  Fixpoint add_second (budget : Z) (l : list rowcut) (rcs : list rowcut) : list rowcut :=
    match l with
    | [] => rcs
    | d :: l' =>
        let b := (budget - Z.of_nat (length (rc_form d)))%Z in
        if (b <=? 0)%Z then ins rcs d else add_second b l' (ins rcs d)
    end.
  Definition generateCuts (binv : option (nat -> vec)) (p0 : pool) : outcome pool :=
    match binv with
    | None => Done p0
    | Some b =>
        do s <- ofold (step b) (srt (filter candidate (seq 0 n))) (p0, [], g_budget c);
        let '((rcs, ccs), second, budget) := s in
        let b' := (budget - Z.quot (g_budget c) 2)%Z in
        if g_sorted c && Nat.ltb (g_limit c) n && (0 <? b')%Z
        then Done (add_second b' second rcs, ccs) else Done (rcs, ccs)
    end.

  (** lines 330-341: cuts marked as globally valid.  [limit] is
      maximumLengthOfCutInTree(), [opt4] and [opt8] are info.options & 4 and & 8. *)
  Definition marked (inTree opt4 opt8 : bool) (pass limit : nat) (d : rowcut) : bool :=
    ((negb inTree && (opt4 || (opt8 && Nat.eqb pass 0))) || g_global c)
    && Nat.leb (length (rc_form d)) limit.
End Generate.
