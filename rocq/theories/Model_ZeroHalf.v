(** * Model of CglZeroHalf (0-1/2 cuts)

    /repo/src/CglZeroHalf/CglZeroHalf.cpp and Cgl012cut.cpp, compiled as they
    are: CGL_NEW_SHORT, REDUCTION and CGGGGG defined, POOL and TABU_SEARCH
    not, so the tabu search and the pool of cuts are dead code and absent.

    Doubles are exact rationals and C ints are integers whose overflow is the
    outcome [Undef IntOverflow].  Memory management is not modelled.  The
    nodes of the separation graph are named by their columns instead of by
    positions among the kept columns (the renaming of
    Cgl012cut.cpp:1040-1063, which keeps the order); the dense and the sparse
    storage of that graph list the arcs in the same order (by neighbour, then
    even before odd) and are not distinguished. *)

From Coq Require Import Qabs.
From Verif Require Import Base.
Local Open Scope Q_scope.

(** Constants, Cgl012cut.cpp:39-54 *)
Definition zEPS : Q := 1 # 10000.
Definition zZERO : Q := 1 # 1000000.
Definition zINF : Q := 1000000000.
Definition MAX_SLACK : Q := 1.
Definition MAX_LOSS : Q := 1.
Definition MAX_CYCLE_WEIGHT : Q := 1.
Definition MIN_VIOLATION : Q := 1 # 1000.
Definition ISCALE : Z := 10000.
(** Cgl012cut.cpp:13 *)
Definition ZMAX_CUTS : Z := 10000000.

(** An int result: overflow is undefined behaviour. *)
Definition cint (z : Z) : outcome Z := if int_range z then Done z else Undef IntOverflow.
(** static_cast<int> of a double holding the integer z. *)
Definition castint (z : Z) : outcome Z := if int_range z then Done z else Undef FloatCast.

(** ** The integer program kept by the generator *)

(** One row: its entries, right-hand side and sense ('G' is true, 'L' is
    false; 'E' is never stored).  CglZeroHalf.hpp: mtbeg_, mtcnt_, mtind_,
    mtval_, mrhs_, msense_. *)
Record zrow := ZRow { z_form : list (nat * Z); z_rhs : Z; z_ge : bool }.

(** CglZeroHalf.hpp private data.  [h_mc] is mc_, [h_lb] and [h_ub] are vlb_
    and vub_ (INT_MAX and -INT_MAX mark continuous columns), [h_loaded] tells
    whether cutInfo_ has its pointer to the program (inp_ilp, which then
    points to the same arrays), [h_flags] is flags_. *)
Record zhalf := ZHalf {
  h_mc : nat; h_rows : list zrow; h_lb : nat -> Z; h_ub : nat -> Z;
  h_loaded : bool; h_flags : Z; h_pairs : Z; h_fractional : Z }.

(** mnz_: number of stored entries. *)
Definition h_mnz (h : zhalf) : nat := length (concat (map z_form (h_rows h))).

(** Default constructor, CglZeroHalf.cpp:137-155 and Cgl012cut.cpp:4411-4430. *)
Definition zh_new : zhalf :=
  ZHalf 0 [] (fun _ => 0%Z) (fun _ => 0%Z) false 0 (-1) (-1).

(** ** refreshSolver, CglZeroHalf.cpp:271-470 *)

Definition nearest (q : Q) : Z := Qfloor (q + (1 # 2)).
(** fabs(value-floor(value+0.5)) > tol, negated *)
Definition near_int (tol q : Q) : bool := Qabs (q - inject_Z (nearest q)) <=? tol.

(** Bounds as ints, lines 311-328 (and 31-41 in generateCuts). *)
Definition int_lower (lo : option Q) : outcome Z :=
  match lo with
  | None => Done (- INT_MAX)%Z
  | Some l => if l <? inject_Z (- INT_MAX) then Done (- INT_MAX)%Z
              else castint (Qceiling l)
  end.
Definition int_upper (up : option Q) : outcome Z :=
  match up with
  | None => Done INT_MAX
  | Some u => if inject_Z INT_MAX <? u then Done INT_MAX
              else castint (Qfloor u)
  end.
Definition put {A} (f : nat -> A) (j : nat) (v : A) : nat -> A :=
  fun i => if Nat.eqb i j then v else f i.

Definition bounds_state := ((nat -> Z) * (nat -> Z))%type.
Definition load_bound (m : mip) (b : bounds_state) (j : nat) : outcome bounds_state :=
  if m_int m j then
    do l <- int_lower (m_clo m j);
    do u <- int_upper (m_chi m j);
    Done (put (fst b) j l, put (snd b) j u)
  else Done (put (fst b) j INT_MAX, put (snd b) j (- INT_MAX)%Z).

(** Lines 331-346: every column integer, every coefficient near an integer
    and small. *)
Definition entry_good (lb : nat -> Z) (e : nat * Q) : bool :=
  negb (lb (fst e) =? INT_MAX)%Z &&
  (near_int (1 # 1000000000000000) (snd e) &&
   (Qabs (snd e) <? inject_Z INT_MAX)).
(** rowLower > -1.0e20 and rowUpper < 1.0e20, lines 350-377 *)
Definition row_lo (r : row) : option Q :=
  match r_lo r with
  | Some l => if inject_Z (- 10 ^ 20) <? l then Some l else None
  | None => None
  end.
Definition row_up (r : row) : option Q :=
  match r_hi r with
  | Some u => if u <? inject_Z (10 ^ 20) then Some u else None
  | None => None
  end.
Definition lo_ok (q : Q) : bool := near_int (1 # 1000000000000000) q.
Definition up_ok (q : Q) : bool := near_int (1 # 1000000000000) q.
(** rhs < COIN_INT_MAX, lines 353-378 *)
Definition rhs_ok (q : Q) : bool := Qabs q <? inject_Z INT_MAX.

(** The stored entries, lines 432-442: zero coefficients are left out. *)
Definition row_entries (r : row) : list (nat * Z) :=
  filter (fun e => negb (snd e =? 0)%Z)
         (map (fun e => (fst e, nearest (snd e))) (r_form r)).
(** The copies of one row, lines 444-468: 'G' for rows with a lower bound
    (equality rows included), 'L' for the others, both for ranged rows. *)
Definition copies (r : row) : list zrow :=
  match row_lo r, row_up r with
  | Some l, Some u =>
      if lo_ok l && up_ok u && (rhs_ok l && rhs_ok u) then
        if Qeq_bool l u then [ZRow (row_entries r) (nearest l) true]
        else [ZRow (row_entries r) (nearest l) true;
              ZRow (row_entries r) (nearest u) false]
      else []
  | Some l, None =>
      if lo_ok l && rhs_ok l then [ZRow (row_entries r) (nearest l) true] else []
  | None, Some u =>
      if up_ok u && rhs_ok u then [ZRow (row_entries r) (nearest u) false] else []
  | None, None => []
  end.
Definition row_good (lb : nat -> Z) (r : row) : bool :=
  negb (Nat.eqb (length (r_form r)) 0) && forallb (entry_good lb) (r_form r).
Definition row_copies (lb : nat -> Z) (r : row) : list zrow :=
  if row_good lb r then copies r else [].
(** The first pass counts the entries with the zeros, lines 329-381. *)
Definition counted (lb : nat -> Z) (r : row) : nat :=
  (length (row_copies lb r) * length (r_form r))%nat.
Definition sum_nat (l : list nat) : nat := fold_right Nat.add 0%nat l.

(** [debug]: assertions active (NDEBUG undefined).  A missing solver or one
    without rows leaves everything as it was (lines 274-275). *)
Definition refreshSolver (debug : bool) (h : zhalf) (solver : option mip) : outcome zhalf :=
  match solver with
  | None => Done h
  | Some m =>
      if Nat.eqb (length (m_rows m)) 0 then Done h
      else
        do b <- ofold (load_bound m) (seq 0 (m_ncols m)) (fun _ => 0%Z, fun _ => 0%Z);
        let total := sum_nat (map (counted (fst b)) (m_rows m)) in
        if Nat.eqb total 0 then
          Done (ZHalf 0 [] (fun _ => 0%Z) (fun _ => 0%Z) false (h_flags h)
                      (h_pairs h) (h_fractional h))
        else
          let rows := concat (map (row_copies (fst b)) (m_rows m)) in
          let h' := ZHalf (m_ncols m) rows (fst b) (snd b) true (h_flags h)
                          (h_pairs h) (h_fractional h) in
          if debug && negb (Nat.eqb (h_mnz h') total) then Aborts   (* line 472 *)
          else Done h'
  end.

(** ** Copying, CglZeroHalf.cpp:159-269 *)

(** Copy constructor (and clone): cutInfo_ starts without a program. *)
Definition zh_copy (s : zhalf) : zhalf :=
  ZHalf (h_mc s) (h_rows s) (h_lb s) (h_ub s) false (h_flags s)
        (h_pairs s) (h_fractional s).
(** Assignment to another object: Cgl012Cut::operator= aborts when the object
    assigned to has a program (Cgl012cut.cpp:4484-4485). *)
Definition zh_assign (this rhs : zhalf) : outcome zhalf :=
  if h_loaded this then Aborts else Done (zh_copy rhs).
(** setFlags, CglZeroHalf.hpp:46-47 *)
Definition zh_setFlags (h : zhalf) (f : Z) : zhalf :=
  ZHalf (h_mc h) (h_rows h) (h_lb h) (h_ub h) (h_loaded h) f
        (h_pairs h) (h_fractional h).
(** setRowMaxPairCount and setRowMaxFractionalCount, CglZeroHalf.hpp:58-65 *)
Definition zh_setRowMaxPairCount (h : zhalf) (v : Z) : zhalf :=
  ZHalf (h_mc h) (h_rows h) (h_lb h) (h_ub h) (h_loaded h) (h_flags h) v (h_fractional h).
Definition zh_setRowMaxFractionalCount (h : zhalf) (v : Z) : zhalf :=
  ZHalf (h_mc h) (h_rows h) (h_lb h) (h_ub h) (h_loaded h) (h_flags h) (h_pairs h) v.

(** ** The parity problem, get_parity_ilp, Cgl012cut.cpp:757-1010 *)

(** How a column with an odd coefficient can be made even: with its lower
    ([true]) or upper ([false]) bound and at which loss of slack.
    possible_weak, type_even_weak, loss_even_weak, type_odd_weak,
    loss_odd_weak. *)
Inductive weakening :=
  | WNone
  | WEven (t : bool) (loss : Q)
  | WOdd (t : bool) (loss : Q)
  | WBoth (te : bool) (le : Q) (to : bool) (lo : Q).
Definition one_weak (odd : bool) (t : bool) (loss : Q) : weakening :=
  if odd then WOdd t loss else WEven t loss.

(** Lines 779-892: (col_to_delete, weakening) of a column. *)
Definition classify (x : Q) (lb ub : Z) : bool * weakening :=
  if inject_Z ub - zZERO <? x then (true, one_weak (Z.odd ub) false 0)
  else if x <? inject_Z lb + zZERO then (true, one_weak (Z.odd lb) true 0)
  else
    let lu := inject_Z ub - x in
    let ll := x - inject_Z lb in
    (false,
     if (MAX_LOSS <? lu) && (MAX_LOSS <? ll) then WNone
     else if MAX_LOSS <? lu then one_weak (Z.odd lb) true ll
     else if MAX_LOSS <? ll then one_weak (Z.odd ub) false lu
     else if Bool.eqb (Z.odd ub) (Z.odd lb) then
       if ll <=? lu then one_weak (Z.odd ub) true ll else one_weak (Z.odd ub) false lu
     else if Z.odd ub then WBoth true ll false lu
     else WBoth false lu true ll).

(** A row of the parity problem: slack, row_to_delete, gcd, parity of the
    right-hand side (odd is true), columns with odd entries. *)
Record prow := PRow { p_slack : Q; p_del : bool; p_gcd : Z; p_rhs : bool; p_odd : list nat }.

Section Parity.
  Variable h : zhalf.
  Variable x : point.

  Definition col_class (j : nat) : bool * weakening := classify (x j) (h_lb h j) (h_ub h j).
  Definition col_deleted (j : nat) : bool := fst (col_class j).
  Definition col_weak (j : nat) : weakening := snd (col_class j).
  Definition weak_is_odd (w : weakening) : bool := match w with WOdd _ _ => true | _ => false end.

  (** gcd of the right-hand side and the entries (Euclid's algorithm, lines
      569-582, is Z.gcd), lines 911-919 *)
  Definition row_gcd (r : zrow) : Z :=
    fold_left (fun g e => Z.gcd g (snd e)) (z_form r) (z_rhs r).
  (** lines 910-940 *)
  Definition row_slack (r : zrow) : Q :=
    let s := fold_left (fun s e => s - inject_Z (snd e) * x (fst e)) (z_form r)
                       (inject_Z (z_rhs r)) in
    let s := if z_ge r then - s else s in
    if s <? - zZERO then zINF else s.
  (** The odd entries, lines 954-970 *)
  Definition odd_entries (g : Z) (r : zrow) : list nat :=
    map fst (filter (fun e => Z.odd (Z.quot (snd e) g)) (z_form r)).
  Definition parity_row (r : zrow) : outcome prow :=
    let g := row_gcd r in
    let s := row_slack r in
    if (g =? 0)%Z then Undef IntDivByZero
    else
      let odd := odd_entries g r in
      let kept := filter (fun j => negb (col_deleted j)) odd in
      let flips := length (filter (fun j => col_deleted j && weak_is_odd (col_weak j)) odd) in
      let rhs := xorb (Z.odd (Z.quot (z_rhs r) g)) (Nat.odd flips) in
      Done (PRow s ((MAX_SLACK - zEPS <? s) || Nat.eqb (length kept) 0) g rhs kept).

  (** Identical rows of the parity matrix, lines 984-1001 *)
  Fixpoint nats_eqb (a b : list nat) : bool :=
    match a, b with
    | [], [] => true
    | i :: a', j :: b' => Nat.eqb i j && nats_eqb a' b'
    | _, _ => false
    end.
  Definition with_del (p : prow) : prow :=
    PRow (p_slack p) true (p_gcd p) (p_rhs p) (p_odd p).
  Definition same_parity (p q : prow) : bool :=
    Bool.eqb (p_rhs p) (p_rhs q) &&
    (negb (p_del p) && negb (p_del q)) && nats_eqb (p_odd p) (p_odd q).
  Fixpoint reduce_with (p : prow) (rest : list prow) : prow * list prow :=
    match rest with
    | [] => (p, [])
    | q :: rest' =>
        let pq := if same_parity p q
                  then if p_slack p <? p_slack q then (p, with_del q) else (with_del p, q)
                  else (p, q) in
        let pr := reduce_with (fst pq) rest' in
        (fst pr, snd pq :: snd pr)
    end.
  Fixpoint reduce (n : nat) (l : list prow) : list prow :=
    match n, l with
    | S n', p :: rest =>
        let pr := reduce_with p rest in fst pr :: reduce n' (snd pr)
    | _, _ => l
    end.

  Definition get_parity_ilp : outcome (list prow) :=
    do ps <- omap parity_row (h_rows h);
    Done (reduce (length ps) ps).
End Parity.

(** ** best_weakening, Cgl012cut.cpp:2470-2650 *)

(** What is recorded for one column: the type chosen and whether the parity
    switches, for the even and for the odd target. *)
Record wstep := WStep { w_even : bool; w_even_switch : bool; w_odd : bool; w_odd_switch : bool }.
(** Slacks of the best even and odd weakenings, and the records with the
    last column first. *)
Record wstate := WState { w_even_slack : Q; w_odd_slack : Q; w_steps : list wstep }.

Section Weakening.
  Variable weak : nat -> weakening.
  Variable only_viol : bool.

  Definition weak_column (s : wstate) (l : nat) : option wstate :=
    let e := w_even_slack s in let o := w_odd_slack s in
    match weak l with
    | WNone => None
    | WEven t loss => Some (WState (e + loss) (o + loss) (WStep t false t false :: w_steps s))
    | WOdd t loss => Some (WState (o + loss) (e + loss) (WStep t true t true :: w_steps s))
    | WBoth te le to lo =>
        let ee := e + le in let eo := o + lo in
        let oe := o + le in let oo := e + lo in
        let ke := ee <=? eo in let ko := oe <=? oo in
        Some (WState (if ke then ee else eo) (if ko then oe else oo)
                     (WStep (if ke then te else to) (negb ke)
                            (if ko then te else to) (negb ko) :: w_steps s))
    end.
  Fixpoint weak_columns (s : wstate) (vars : list nat) : option wstate :=
    match vars with
    | [] => Some s
    | l :: vars' =>
        match weak_column s l with
        | None => None
        | Some s' =>
            if only_viol && ((MAX_SLACK - zEPS <? w_even_slack s') &&
                             (MAX_SLACK - zEPS <? w_odd_slack s')) then None
            else weak_columns s' vars'
        end
    end.
  (** The types of the best weakening of the given parity, from the last
      column back to the first; the result lists the first column first. *)
  Fixpoint unwind (odd : bool) (steps : list wstep) (acc : list bool) : list bool :=
    match steps with
    | [] => acc
    | s :: steps' =>
        if odd then unwind (xorb odd (w_odd_switch s)) steps' (w_odd s :: acc)
        else unwind (xorb odd (w_even_switch s)) steps' (w_even s :: acc)
    end.
  Definition slack_fine (s : Q) : bool :=
    (s <=? MAX_SLACK - zEPS) || (negb only_viol && (s <=? zINF - zEPS)).

  (** Result: the even and the odd weakening (slack and types), each if found. *)
  Definition best_weakening (vars : list nat) (odd : bool) (slack : Q) (only_odd : bool) :
    option (Q * list bool) * option (Q * list bool) :=
    let s0 := if odd then WState zINF slack [] else WState slack zINF [] in
    match weak_columns s0 vars with
    | None => (None, None)
    | Some s =>
        (if negb only_odd && slack_fine (w_even_slack s)
         then Some (w_even_slack s, unwind false (w_steps s) []) else None,
         if slack_fine (w_odd_slack s)
         then Some (w_odd_slack s, unwind true (w_steps s) []) else None)
    end.
End Weakening.

(** ** From a set of rows to a cut *)

Section Cut.
  Variable h : zhalf.
  Variable x : point.

  (** get_ori_cut_coef, Cgl012cut.cpp:2011-2068: coefficients and right-hand
      side of the sum of the rows, each divided by its gcd. *)
  Definition combo := ((nat -> Z) * Z)%type.
  Definition add_entry (ge : bool) (g : Z) (c : nat -> Z) (e : nat * Z) : outcome (nat -> Z) :=
    let d := Z.quot (snd e) g in
    do v <- cint (if ge then c (fst e) - d else c (fst e) + d)%Z;
    Done (put c (fst e) v).
  Definition add_row (ps : list prow) (c : combo) (i : nat) : outcome combo :=
    match nth_error (h_rows h) i, nth_error ps i with
    | Some r, Some p =>
        let g := p_gcd p in
        do c' <- ofold (add_entry (z_ge r) g) (z_form r) (fst c);
        let d := Z.quot (z_rhs r) g in
        do rhs <- cint (if z_ge r then snd c - d else snd c + d)%Z;
        Done (c', rhs)
    | _, _ => Undef OutOfBounds
    end.
  (** fast check, lines 2026-2032 *)
  Fixpoint slack_check (ps : list prow) (tot : Q) (rows : list nat) : outcome bool :=
    match rows with
    | [] => Done true
    | i :: rows' =>
        match nth_error ps i with
        | None => Undef OutOfBounds
        | Some p =>
            let tot' := tot + p_slack p in
            if MAX_SLACK - zEPS <? tot' then Done false else slack_check ps tot' rows'
        end
    end.
  Definition get_ori_cut_coef (ps : list prow) (rows : list nat) : outcome (option combo) :=
    do ok <- slack_check ps 0 rows;
    if ok then
      do c <- ofold (add_row ps) rows (fun _ => 0%Z, 0%Z);
      Done (Some c)
    else Done None.

  (** best_cut with update and only_viol, Cgl012cut.cpp:2074-2174.  exit(0)
      is the outcome [Aborts]. *)
  Definition cols : list nat := seq 0 (h_mc h).
  Definition odd_columns (c : nat -> Z) : list nat := filter (fun j => Z.odd (c j)) cols.
  Definition dense_value (c : nat -> Z) : Q :=
    fold_left (fun s j => s + x j * inject_Z (c j)) cols 0.
  Definition weaken_one (c : combo) (jt : nat * bool) : outcome combo :=
    let j := fst jt in
    if snd jt then
      do a <- cint (fst c j - 1)%Z;
      do r <- cint (snd c - h_lb h j)%Z;
      Done (put (fst c) j a, r)
    else
      do a <- cint (fst c j + 1)%Z;
      do r <- cint (snd c + h_ub h j)%Z;
      Done (put (fst c) j a, r).
  Definition best_cut (c : combo) : outcome (option (combo * Q)) :=
    let vars := odd_columns (fst c) in
    let slack := inject_Z (snd c) - dense_value (fst c) in
    if MAX_SLACK - zEPS <? slack then Done None
    else
      match snd (best_weakening (col_weak h x) true vars (Z.odd (snd c)) slack true) with
      | None => Done None
      | Some (s, types) =>
          do c' <- ofold weaken_one (combine vars types) c;
          if existsb (fun j => Z.odd (fst c' j)) cols then Aborts
          else if negb (Z.odd (snd c')) then Aborts
          else
            do r <- cint (snd c' - 1)%Z;
            Done (Some ((fun j => Z.quot (fst c' j) 2, Z.quot r 2), (1 - s) / 2))
      end.

  (** define_cut, lines 2179-2221: the entries, right-hand side and violation
      of the cut; the sense is always 'L'. *)
  Record zcut := ZCut { k_form : list (nat * Z); k_rhs : Z; k_viol : Q }.
  Definition define_cut (c : combo) : zcut :=
    ZCut (map (fun j => (j, fst c j)) (filter (fun j => negb (fst c j =? 0)%Z) cols))
         (snd c) (dense_value (fst c) - inject_Z (snd c)).

  (** The distinct rows of a cycle, get_cut, lines 2267-2281.  The assertion
      ncomb < mr is [Aborts]. *)
  Fixpoint gather (debug : bool) (edges : list (option nat)) (comb : list nat) :
    outcome (list nat) :=
    match edges with
    | [] => Done comb
    | None :: edges' => gather debug edges' comb
    | Some i :: edges' =>
        if existsb (Nat.eqb i) comb then gather debug edges' comb
        else if debug && negb (length comb <? length (h_rows h))%nat then Aborts
        else gather debug edges' (comb ++ [i])
    end.
  (** get_cut, lines 2226-2350: no cut; no cut because the violation differs
      from the expected one (errorNo); a cut. *)
  Inductive cut_result := NoCut | Mismatch | Cut (k : zcut).
  Definition get_cut (debug : bool) (ps : list prow) (edges : list (option nat)) :
    outcome cut_result :=
    do rows <- gather debug edges [];
    do oc <- get_ori_cut_coef ps rows;
    match oc with
    | None => Done NoCut
    | Some c =>
        do ob <- best_cut c;
        match ob with
        | None => Done NoCut
        | Some (c', viol) =>
            let k := define_cut c' in
            if (viol + zEPS <? k_viol k) || (k_viol k <? viol - zEPS) then Done Mismatch
            else Done (Cut k)
        end
    end.

  (** same_cut and add_cut_to_list, lines 2370-2406 *)
  Fixpoint entries_eqb (a b : list (nat * Z)) : bool :=
    match a, b with
    | [], [] => true
    | p :: a', q :: b' =>
        Nat.eqb (fst p) (fst q) && (snd p =? snd q)%Z && entries_eqb a' b'
    | _, _ => false
    end.
  Definition same_cut (a b : zcut) : bool :=
    (k_rhs a =? k_rhs b)%Z && entries_eqb (k_form a) (k_form b).
  Definition add_cut_to_list (k : zcut) (l : list zcut) : list zcut :=
    if existsb (same_cut k) l then l else l ++ [k].
End Cut.

(** ** The separation graph *)

(** Edge between two nodes (a column, or h_mc for the special node); the
    constraint is [None] for the edges of bounds. *)
Record zedge := ZEdge { e_1 : nat; e_2 : nat; e_odd : bool; e_weight : Q; e_constr : option nat }.
Definition joins (j k : nat) (odd : bool) (e : zedge) : bool :=
  ((Nat.eqb (e_1 e) j && Nat.eqb (e_2 e) k) || (Nat.eqb (e_1 e) k && Nat.eqb (e_2 e) j)) &&
  Bool.eqb (e_odd e) odd.

(** update_weight_sep_graph, Cgl012cut.cpp:1085-1153 *)
Fixpoint update_edge (j k : nat) (w : Q) (odd : bool) (i : option nat) (g : list zedge) : list zedge :=
  match g with
  | [] => [ZEdge j k odd w i]
  | e :: g' =>
      if joins j k odd e then
        if w <? e_weight e then ZEdge (e_1 e) (e_2 e) odd w i :: g' else e :: g'
      else e :: update_edge j k w odd i g'
  end.

Section Graph.
  Variable h : zhalf.
  Variable x : point.

  Definition special : nat := h_mc h.
  (** initialize_sep_graph, lines 1034-1050 *)
  Definition nodes : list nat := filter (fun j => negb (col_deleted h x j)) (cols h) ++ [special].

  (** All pairs of different positions, first one smaller, with the other
      entries: lines 2737-2772 *)
  Fixpoint pairs_from (pre l : list nat) : list (nat * nat * list nat) :=
    match l with
    | [] => []
    | a :: l' =>
        (fix inner (mid rest : list nat) : list (nat * nat * list nat) :=
           match rest with
           | [] => []
           | b :: rest' => (a, b, pre ++ mid ++ rest') :: inner (mid ++ [b]) rest'
           end) [] l' ++ pairs_from (pre ++ [a]) l'
    end.
  Definition add_pair (i : nat) (p : prow) (g : list zedge) (t : nat * nat * list nat) : list zedge :=
    let j := fst (fst t) in let k := snd (fst t) in
    let r := best_weakening (col_weak h x) true (snd t) (p_rhs p) (p_slack p) false in
    let g := match fst r with
             | Some (s, _) => if s <? MAX_SLACK - zEPS then update_edge j k s false (Some i) g else g
             | None => g
             end in
    match snd r with
    | Some (s, _) => if s <? MAX_SLACK - zEPS then update_edge j k s true (Some i) g else g
    | None => g
    end.
  (** cglZeroHalfCollectFractionality, lines 159-193: only the count is used *)
  Definition fractional_count (r : zrow) : nat :=
    length (filter (fun e => let f := x (fst e) - qfloor (x (fst e)) in
                             negb ((f <? zZERO) || (1 - f <? zZERO))) (z_form r)).
  (** zhRowPairCount, lines 2700-2704 *)
  Definition row_pairs (n : nat) : outcome Z :=
    if (n <=? 2)%nat then Done (if (1 <=? n)%nat then 1 else 0)%Z
    else do v <- cint (Z.of_nat n * (Z.of_nat n - 1))%Z; Done (Z.quot v 2).
  (** One row, lines 2694-2805 *)
  Definition add_row_edges (g : list zedge) (ip : nat * (zrow * prow)) : outcome (list zedge) :=
    let i := fst ip in let r := fst (snd ip) in let p := snd (snd ip) in
    if p_del p then Done g
    else
      do n <- row_pairs (length (p_odd p));
      if ((0 <=? h_pairs h) && (h_pairs h <? n))%Z then Done g
      else if ((0 <=? h_fractional h) && (h_fractional h <? Z.of_nat (fractional_count r)))%Z then Done g
      else Done
        match p_odd p with
        | [j] => if p_slack p <? MAX_SLACK - zEPS
                 then update_edge j special (p_slack p) (p_rhs p) (Some i) g else g
        | [j; k] => if p_slack p <? MAX_SLACK - zEPS
                    then update_edge j k (p_slack p) (p_rhs p) (Some i) g else g
        | l => fold_left (add_pair i p) (pairs_from [] l) g
        end.
  (** Bounds, lines 2810-2832 *)
  Definition add_bound_edges (g : list zedge) (j : nat) : list zedge :=
    if col_deleted h x j then g
    else
      let wl := x j - inject_Z (h_lb h j) in
      let g := if wl <? MAX_SLACK - zEPS
               then update_edge j special wl (Z.odd (h_lb h j)) None g else g in
      let wu := inject_Z (h_ub h j) - x j in
      if wu <? MAX_SLACK - zEPS
      then update_edge j special wu (Z.odd (h_ub h j)) None g else g.
  Definition sep_graph (ps : list prow) : outcome (list zedge) :=
    do g <- ofold add_row_edges
              (combine (seq 0 (length (h_rows h))) (combine (h_rows h) ps)) [];
    Done (fold_left add_bound_edges (cols h) g).
End Graph.

(** ** Shortest paths in the auxiliary graph *)

(** Node v of the separation graph has the twins 2v and 2v+1, lines
    1240-1244. *)
Definition mate (a : nat) : nat := (2 * (a / 2) + (if Nat.even a then 1 else 0))%nat.

(** static_cast<int>(weight * ISCALE) *)
Definition trunc (q : Q) : Z := if q <? 0 then Qceiling q else Qfloor q.
Definition arc_length (e : zedge) : Z := trunc (e_weight e * inject_Z ISCALE).

Section Paths.
  (** Nodes of the separation graph, its edges, and the nodes cancelled so
      far (cancel_node_aux_graph, lines 1422-1457: their outgoing arcs get
      the length ISCALE). *)
  Variable nodes : list nat.
  Variable g : list zedge.
  Variable cancelled : list nat.

  (** define_aux_graph, lines 1250-1415: the arcs leaving a node of the
      auxiliary graph, with their edges.  Even edges keep the side, odd ones
      change it. *)
  Record zarc := ZArc { a_to : nat; a_len : Z; a_edge : zedge }.
  Definition other_side (a k : nat) (odd : bool) : nat :=
    (2 * k + (if xorb (Nat.odd a) odd then 1 else 0))%nat.
  Definition arcs_to (a k : nat) : list zarc :=
    let j := (a / 2)%nat in
    let dead := existsb (Nat.eqb j) cancelled in
    let mk (odd : bool) (e : zedge) :=
      ZArc (other_side a k odd) (if dead then ISCALE else arc_length e) e in
    if Nat.eqb k j then []
    else (match find (joins j k false) g with Some e => [mk false e] | None => [] end) ++
         (match find (joins j k true) g with Some e => [mk true e] | None => [] end).
  Definition arcs (a : nat) : list zarc := concat (map (arcs_to a) nodes).

  (** cglShortestPath, CglZeroHalf.cpp:520-597.  The nodes of a vector are
      taken out through std::pop_heap, but improved nodes are only appended
      to the vector and keys change inside it, so that it need not be a heap
      any more and the element taken out is not determined: [pick] chooses
      any. *)
  Variable pick : (nat -> Z) -> list nat -> nat.
  Record sp := Sp { s_dist : nat -> Z; s_parent : nat -> option nat; s_heap : list nat }.
  Definition remove_nth {A} (i : nat) (l : list A) : list A := firstn i l ++ skipn (S i) l.
  (** thisDistance, line 580, is read once before the arcs. *)
  Definition relax_from (v : nat) (d0 : Z) (s : sp) (a : zarc) : sp :=
    let d := (d0 + a_len a)%Z in
    if (d <? s_dist s (a_to a))%Z
    then Sp (put (s_dist s) (a_to a) d) (put (s_parent s) (a_to a) (Some v))
            (s_heap s ++ [a_to a])
    else s.
  Fixpoint sp_loop (n : nat) (s : sp) : sp :=
    match n with
    | O => s
    | S n' =>
        let i := (pick (s_dist s) (s_heap s) mod length (s_heap s))%nat in
        match nth_error (s_heap s) i with
        | None => s
        | Some v =>
            let s1 := Sp (s_dist s) (s_parent s) (remove_nth i (s_heap s)) in
            if ((s_dist s v =? INT_MAX) || (ISCALE <=? s_dist s v))%Z then s1
            else sp_loop n' (fold_left (relax_from v (s_dist s v)) (arcs v) s1)
        end
    end.
  Definition aux_nodes : list nat := flat_map (fun v => [2 * v; 2 * v + 1]%nat) nodes.
  Definition shortest_path (source : nat) : sp :=
    sp_loop (length aux_nodes)
            (Sp (put (fun _ => INT_MAX) source 0%Z) (fun _ => None) aux_nodes).

  (** ** Odd cycles, get_shortest_odd_cycle_list, Cgl012cut.cpp:1725-1968 *)

  (** Distances and predecessors of the forward and the backward tree, lines
      1809-1866 *)
  Definition forw_dist (s : sp) (a : nat) : Z :=
    match s_parent s a with Some _ => s_dist s a | None => INT_MAX end.
  Definition backw_pred (s : sp) (a : nat) : option nat := option_map mate (s_parent s (mate a)).

  (** The do-while loops of lines 1907-1926 and 1936-1959: nodes on the path
      from a node back to the target, [None] when the path breaks off.
      cglZeroHalfGetAuxiliaryArcEdge (lines 104-120) finds the edges, and
      abort() is called when one is missing. *)
  Fixpoint walk (fuel : nat) (pred : nat -> option nat) (target a : nat) : outcome (option (list (nat * nat))) :=
    match fuel with
    | O => OutOfFuel
    | S f =>
        match pred a with
        | None => Done None
        | Some b =>
            if Nat.eqb b target then Done (Some [(b, a)])
            else
              do r <- walk f pred target b;
              Done (option_map (cons (b, a)) r)
        end
    end.
  Definition arc_edge (ba : nat * nat) : outcome zedge :=
    match find (fun a => Nat.eqb (a_to a) (snd ba)) (arcs (fst ba)) with
    | Some a => Done (a_edge a)
    | None => Aborts
    end.

  (** simple_cycle and same_cycle, lines 1545-1626.  Edges are compared by
      their addresses: there is one edge for two nodes and a parity. *)
  Definition zedge_eqb (e f : zedge) : bool := joins (e_1 e) (e_2 e) (e_odd e) f.
  Definition simple_cycle (es : list zedge) : bool :=
    let ends := flat_map (fun e => [e_1 e; e_2 e]) es in
    forallb (fun v => (length (filter (Nat.eqb v) ends) <=? 2)%nat) ends.
  Fixpoint edges_eqb (a b : list zedge) : bool :=
    match a, b with
    | [], [] => true
    | e :: a', f :: b' => zedge_eqb e f && edges_eqb a' b'
    | _, _ => false
    end.
  Definition same_cycle (a b : list zedge) : bool := edges_eqb a b || edges_eqb a (rev b).
  Definition add_cycle (l : list (list zedge)) (es : list zedge) : list (list zedge) :=
    if negb (simple_cycle es) then l
    else if existsb (same_cycle es) l then l
    else l ++ [es].

  (** [wrapv]: signed overflow wraps around.  Lines 1893-1895 add two
      distances of which one or both may be COIN_INT_MAX. *)
  Variable wrapv : bool.
  Definition add_dist (a b : Z) : outcome Z :=
    let s := (a + b)%Z in
    if int_range s then Done s
    else if wrapv then Done (s - 2 ^ 32)%Z else Undef IntOverflow.
  Definition cycle_at (s : sp) (j : nat) (l : list (list zedge)) (kt : nat) : outcome (list (list zedge)) :=
    let source := (2 * j)%nat in let sink := (2 * j + 1)%nat in
    do d <- add_dist (forw_dist s kt) (forw_dist s (mate kt));
    if inject_Z d / inject_Z ISCALE <? MAX_CYCLE_WEIGHT + zEPS then
      do f <- walk (length aux_nodes) (s_parent s) source kt;
      match f with
      | None => Done l
      | Some fp =>
          do b <- walk (length aux_nodes) (backw_pred s) sink kt;
          match b with
          | None => Done l
          | Some bp =>
              do es <- omap arc_edge (fp ++ bp);
              Done (add_cycle l es)
          end
      end
    else Done l.
  Definition odd_cycles (j : nat) : outcome (list (list zedge)) :=
    let s := shortest_path (2 * j) in
    ofold (cycle_at s j)
          (flat_map (fun k => if Nat.eqb k j then [] else [2 * k; 2 * k + 1]%nat) nodes) [].
End Paths.

(** ** basic_separation, Cgl012cut.cpp:2834-2940 *)

(** Parameters of a run outside the generator's state. *)
Record zenv := ZEnv {
  v_debug : bool;                 (* assertions active *)
  v_wrapv : bool;                 (* signed overflow wraps in the sum of distances *)
  v_pick : (nat -> Z) -> list nat -> nat;      (* element taken out of the would-be heap *)
  v_late0 : bool;                 (* time limit noticed before the cycles are searched *)
  v_late : nat -> nat -> bool }.  (* ... at node n, before cycle c *)

Section Separation.
  Variable env : zenv.
  Variable h : zhalf.
  Variable x : point.
  Variable ps : list prow.

  (** errorNo and the cuts so far; [true] when the search is over. *)
  Record sepst := SepSt { q_error : bool; q_cuts : list zcut; q_stop : bool }.
  (** The cycles of one node, lines 2893-2931 *)
  Fixpoint cycle_loop (j c : nat) (cycles : list (list zedge)) (st : sepst) : outcome sepst :=
    match cycles with
    | [] => Done st
    | es :: cycles' =>
        if v_late env j c then Done (SepSt (q_error st) (q_cuts st) true)
        else
          do r <- get_cut h x (v_debug env) ps (map e_constr es);
          match r with
          | NoCut => if q_error st then Done st else cycle_loop j (S c) cycles' st
          | Mismatch => Done (SepSt true (q_cuts st) false)
          | Cut k =>
              if MIN_VIOLATION + zEPS <? k_viol k then
                let l := add_cut_to_list k (q_cuts st) in
                if (ZMAX_CUTS <=? Z.of_nat (length l))%Z then Done (SepSt (q_error st) l true)
                else cycle_loop j (S c) cycles' (SepSt (q_error st) l false)
              else cycle_loop j (S c) cycles' st
          end
    end.
  Fixpoint node_loop (nodes : list nat) (g : list zedge) (done todo : list nat) (st : sepst) : outcome sepst :=
    match todo with
    | [] => Done st
    | j :: todo' =>
        do cycles <- odd_cycles nodes g done (v_pick env) (v_wrapv env) j;
        do st' <- cycle_loop j 0 cycles st;
        if q_stop st' then Done st' else node_loop nodes g (j :: done) todo' st'
    end.
  Definition basic_separation : outcome (list zcut) :=
    do g <- sep_graph h x ps;
    if v_late0 env then Done []
    else
      let ns := nodes h x in
      do st <- node_loop ns g [] ns (SepSt false [] false);
      Done (q_cuts st).
End Separation.

(** ** sep_012_cut, Cgl012cut.cpp:4186-4396 *)
Definition sep_012_cut (env : zenv) (h : zhalf) (x : point) : outcome (list zcut) :=
  if negb (h_loaded h) then Done []
  else
    do ps <- get_parity_ilp h x;
    if Nat.eqb (length (concat (map p_odd ps))) 0 then Done []
    else basic_separation env h x ps.

(** ** CglZeroHalf::generateCuts, CglZeroHalf.cpp:17-134 *)

(** Lines 28-46: bounds of the current solver, for columns not marked
    continuous. *)
Definition redo_bound (si : mip) (b : bounds_state) (j : nat) : outcome bounds_state :=
  if (fst b j =? INT_MAX)%Z then Done b
  else
    do l <- int_lower (m_clo si j);
    do u <- int_upper (m_chi si j);
    Done (put (fst b) j l, put (snd b) j u).
Definition redo_bounds (h : zhalf) (si : mip) : outcome zhalf :=
  do b <- ofold (redo_bound si) (seq 0 (m_ncols si)) (h_lb h, h_ub h);
  Done (ZHalf (h_mc h) (h_rows h) (fst b) (snd b) (h_loaded h) (h_flags h)
              (h_pairs h) (h_fractional h)).

(** A cut with its mark "globally valid". *)
Definition to_row (k : zcut) : rowcut :=
  RowCut (map (fun e => (fst e, inject_Z (snd e))) (k_form k)) None (Some (inject_Z (k_rhs k))).

(** [x] is the solution of [si]: its columns beyond those of [si] do not
    exist, and the arrays of bounds have h_mc entries.  The result holds the
    generator (its bounds may have changed), the cuts, and the mark. *)
Definition generateCuts (env : zenv) (h : zhalf) (si : mip) (x : point) (cs : list rowcut) :
  outcome (zhalf * list rowcut * bool) :=
  let global := Z.odd (h_flags h) in
  if Nat.eqb (h_mnz h) 0 then Done (h, cs, global)
  else if h_loaded h && (m_ncols si <? h_mc h)%nat then Undef OutOfBounds
  else if negb global && (h_mc h <? m_ncols si)%nat then Undef OutOfBounds
  else
    do h' <- (if global then Done h else redo_bounds h si);
    do ks <- sep_012_cut env h' x;
    Done (h', fold_left insert_new (map to_row ks) cs, global).
