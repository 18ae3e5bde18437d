(** * Model of CglRedSplit
    /repo/src/CglRedSplit/CglRedSplit.cpp and .hpp.

    Line numbers refer to CglRedSplit.cpp.  RS_TRACE, RS_TRACEALL, RS_TRACETAB
    and RS_DEBUG are not defined in /repo.  Doubles are exact rationals; an
    infinite bound is None.  The set given_optsol, a debugging aid that ends the
    process when a cut removes a given point, is taken to be unset.

    Parameters, because the code lies outside /repo:
    - [basis r], the variable that is basic in row r (getBasics), a slack when it
      is at least the number of columns;
    - [binva r], the row of the simplex tableau (getBInvARow): the part of the
      columns and the part of the slacks;
    - [sqrt] and [cbrt] of the C library;
    - [ins], OsiCuts::insertIfNotDuplicate. *)

From Coq Require Import Qabs.
From Verif Require Import Base.
Local Open Scope Q_scope.

(** The parameters the generator reads, CglRedSplitParam.hpp lines 205-270 and
    CglParam.hpp lines 69-87; INFINIT is infinite.  USE_INTSLACKS is never
    read. *)
Record rsparam := RSP {
  p_eps : Q; p_eps_coeff : Q; p_max_support : Z;
  p_lub : Q; p_eps_elim : Q; p_relax_abs : Q; p_relax_rel : Q;
  p_maxdyn : Q; p_maxdyn_lub : Q; p_eps_coeff_lub : Q; p_minviol : Q;
  p_cg2 : bool; p_norm_zero : Q; p_min_reduc : Q; p_away : Q; p_max_tab : Q
}.
(** the default constructor, CglRedSplitParam.hpp lines 155-168 and CglParam.hpp
    lines 51-52 *)
Definition p_default : rsparam :=
  RSP (1 # 1000000) (1 # 100000) INT_MAX 1000 (1 # 1000000000000) (1 # 100000000) 0
      100000000 10000000000000 (1 # 10000000000000) (1 # 10000000) false
      (1 # 100000) (1 # 20) (1 # 20) 10000000.

(** getBasisStatus: 0 free, 1 basic, 2 at upper, 3 at lower *)
Inductive stat := Free | Basic | Upper | Lower.
(** What the solver is asked for, lines 1163-1196 and 1214-1226 *)
Record call := Call {
  c_mip : mip; c_x : nat -> Q; c_act : nat -> Q;
  c_cstat : nat -> stat; c_rstat : nat -> stat;
  c_basis : nat -> nat; c_binva : nat -> (nat -> Q) * (nat -> Q)
}.

(** The element of column j in a row of the matrix *)
Definition coef (v : vec) (j : nat) : Q :=
  match find (fun e => Nat.eqb (fst e) j) v with Some e => snd e | None => 0 end.

(** rs_dotProd, lines 188-220 *)
Fixpoint dot (u v : list Q) : Q :=
  match u, v with a :: u', b :: v' => a * b + dot u' v' | _, _ => 0 end.
(** rs_dotProd of a row of pi_mat and a vector of doubles *)
Definition zdot (u : list Z) (v : list Q) : Q := dot (map inject_Z u) v.

(** rs_genalea, lines 216-231: the new seed; the number is the seed divided by
    2147483647 *)
Definition genalea (x0 : Z) : Z :=
  (let k := x0 / 127773 in
   let x1 := 16807 * (x0 - k * 127773) - k * 2836 in
   if x1 <? 0 then x1 + 2147483647 else x1)%Z.

Definition upd {A} (f : nat -> A) (j : nat) (a : A) : nat -> A := fun k => if Nat.eqb k j then a else f k.

(** ** reduce_contNonBasicTab *)
(** The data of the loop: the rows of contNonBasicTab, the rows of pi_mat, the
    norms, the iterations in which a row was last updated and in which a pair was
    last checked, and whether the current iteration has updated a row. *)
Record rst := RS {
  s_T : nat -> list Q; s_pi : nat -> list Z; s_norm : nat -> Q;
  s_chg : nat -> Z; s_chk : nat -> nat -> Z; s_done : bool
}.
Section Reduce.
  Variables norm_zero min_reduc : Q.

  (** update_redTab, lines 249-256 *)
  Fixpoint sub_row (u : list Q) (step : Z) (v : list Q) : list Q :=
    match u, v with a :: u', b :: v' => (a - inject_Z step * b) :: sub_row u' step v' | _, _ => u end.
  (** update_pi_mat, lines 240-246, in int arithmetic *)
  Fixpoint sub_pi (u : list Z) (step : Z) (v : list Z) : outcome (list Z) :=
    match u, v with
    | a :: u', b :: v' =>
        if int_range (step * b) && int_range (a - step * b) then
          do w <- sub_pi u' step v'; Done ((a - step * b)%Z :: w)
        else Undef IntOverflow
    | _, _ => Done u
    end.
  (** find_step, lines 259-279.  The quotient is not a number when the norm of
      the second row is zero, since the product is then zero too; converting it to
      int, like converting a number out of range, is undefined. *)
  Definition find_step (s : rst) (r1 r2 : nat) : outcome (Z * Q) :=
    let btb := dot (s_T s r1) (s_T s r2) in
    let n1 := s_norm s r1 in let n2 := s_norm s r2 in
    if Qeq_bool n2 0 then Undef FloatCast
    else
      let f := Qfloor (btb / n2) in
      let val (z : Z) := n1 + inject_Z z * inject_Z z * n2 - 2 * btb * inject_Z z in
      let z := if val f <=? val (f + 1)%Z then f else (f + 1)%Z in
      if int_range z then Done (z, n1 - val z) else Undef FloatCast.
  (** test_pair, lines 282-302; the comparison is false when the norm of the
      first row is zero, the quotient being 0/0 *)
  Definition test_pair (s : rst) (r1 r2 : nat) : outcome (bool * rst) :=
    do zr <- find_step s r1 r2;
    if negb (Qeq_bool (s_norm s r1) 0) && (min_reduc <=? snd zr / s_norm s r1) then
      do w <- sub_pi (s_pi s r1) (fst zr) (s_pi s r2);
      let u := sub_row (s_T s r1) (fst zr) (s_T s r2) in
      Done (true, RS (upd (s_T s) r1 u) (upd (s_pi s) r1 w) (upd (s_norm s) r1 (dot u u))
                     (s_chg s) (s_chk s) (s_done s))
    else Done (false, s).
  (** the two halves of the body of the inner loop, lines 353-358 and 360-367 *)
  Definition test (iter : Z) (s : rst) (r1 r2 : nat) : outcome rst :=
    do bs <- test_pair s r1 r2;
    let '(b, s') := bs in
    Done (RS (s_T s') (s_pi s') (s_norm s')
             (if b : bool then upd (s_chg s') r1 (iter + 1)%Z else s_chg s')
             (upd (s_chk s') r1 (upd (s_chk s' r1) r2 iter))
             (if b : bool then false else s_done s')).
  Definition stale (s : rst) (r1 r2 i j : nat) : bool :=
    ((s_chk s r1 r2 <? s_chg s i) || (s_chk s r1 r2 <? s_chg s j))%Z.
  (** lines 351-369 *)
  Definition pair_step (iter : Z) (i : nat) (s : rst) (j : nat) : outcome rst :=
    if norm_zero <? s_norm s j then
      if stale s i j i j then
        do s1 <- test iter s i j;
        if stale s1 j i i j then test iter s1 j i else Done s1
      else Done s
    else Done s.
  (** lines 348-372 *)
  Definition row_step (m : nat) (iter : Z) (s : rst) (i : nat) : outcome rst :=
    if norm_zero <? s_norm s i then ofold (pair_step iter i) (seq (S i) (m - S i)) s else Done s.
  (** the loop, lines 337-374 *)
  Fixpoint reduce_loop (fuel : nat) (m : nat) (iter : Z) (s : rst) : outcome rst :=
    match fuel with
    | O => OutOfFuel
    | S fuel' =>
        do s1 <- ofold (row_step m iter) (seq 0 m) (RS (s_T s) (s_pi s) (s_norm s) (s_chg s) (s_chk s) true);
        if s_done s1 then Done s1 else reduce_loop fuel' m (iter + 1)%Z s1
    end.
  (** lines 305-335, after pi_mat has been set to the identity, lines 1490-1497 *)
  Definition unit_row (m i : nat) : list Z := map (fun k => if Nat.eqb k i then 1%Z else 0%Z) (seq 0 m).
  Definition start_rst (m : nat) (T : nat -> list Q) : rst :=
    RS T (unit_row m) (fun i => dot (T i) (T i)) (fun _ => 0%Z)
       (fun i j => if Nat.eqb i j then 0%Z else (-1)%Z) false.
  Definition reduce (fuel : nat) (m : nat) (T : nat -> list Q) : outcome rst :=
    reduce_loop fuel m 0%Z (start_rst m T).
End Reduce.

(** ** generateCuts *)
Section Generate.
  Variable sqrt cbrt : Q -> Q.
  Variable ins : list rowcut -> rowcut -> list rowcut.
  Variable p : rsparam.
  Variable c : call.
  Notation m := (c_mip c).
  Notation ncol := (m_ncols (c_mip c)).
  Notation nrow := (length (m_rows (c_mip c))).
  Notation x := (c_x c).

  (** rs_above_integer, lines 43-50 *)
  Definition above (v : Q) : Q :=
    let v3 := qfloor (v + (1 # 2)) in
    if Qabs (v3 - v) <? p_eps p * (Qabs v3 + 1) then 0 else v - qfloor v.
  (** compute_is_lub, lines 1623-1636 *)
  Definition is_lub (b : option Q) : bool :=
    match b with Some q => p_lub p <? Qabs q | None => true end.
  (** compute_is_integer, lines 1639-1679 (colType is NULL, line 1194) *)
  Definition is_integer (j : nat) : bool :=
    m_int m j ||
    match m_clo m j, m_chi m j with
    | Some l, Some u => (u - l <? p_eps p) && (above u <? p_eps p)
    | _, _ => false
    end.
  (** lines 1247-1258 *)
  Definition frac_basic (k : nat) : bool :=
    match c_cstat c k with
    | Basic => is_integer k && (p_away p <? above (x k)) && (above (x k) <? 1 - p_away p)
    | _ => false
    end.
  (** The status of a variable: a column or, from ncol on, a slack. *)
  Definition vstat (v : nat) : stat := if (v <? ncol)%nat then c_cstat c v else c_rstat c (v - ncol).
  Definition nonbasic (v : nat) : bool := match vstat v with Upper | Lower => true | _ => false end.
  Definition int_var (v : nat) : bool := (v <? ncol)%nat && is_integer v.
  (** intNonBasicVar and contNonBasicVar, lines 1245-1333 *)
  Definition intVars : list nat := filter (fun v => nonbasic v && int_var v) (seq 0 (ncol + nrow)).
  Definition contVars : list nat := filter (fun v => nonbasic v && negb (int_var v)) (seq 0 (ncol + nrow)).
  (** goodModel, lines 1300-1331 *)
  Definition good_model : bool := forallb (fun v => match vstat v with Free => false | _ => true end) (seq 0 (ncol + nrow)).

  (** new_mTab, lines 1357-1374 *)
  Definition new_mTab : outcome Z :=
    let nc := inject_Z (Z.of_nat (length contVars)) in
    let q := if p_max_tab p <? nc * nc * nc then sqrt (p_max_tab p / nc) else cbrt (p_max_tab p) in
    let z := if q <? 0 then Qceiling q else Qfloor q in
    if int_range z then Done z else Undef FloatCast.
  (** the selection of rows, lines 1396-1410 and 1448-1489 *)
  Definition first_row (card : Z) : nat :=
    Z.to_nat (Qfloor (inject_Z (Z.of_nat nrow) * (inject_Z (genalea card) / 2147483647))).
  Fixpoint select (start mTab : nat) (is : list nat) (acc : list nat) : outcome (list nat) :=
    match is with
    | [] => Done acc
    | i :: is' =>
        if (mTab <=? length acc)%nat then Done acc
        else
          let r0 := (start + i)%nat in
          let r := if (nrow <? r0)%nat then (r0 - nrow)%nat else r0 in
          if (nrow <=? r)%nat then Undef OutOfBounds
          else if ((c_basis c r <? ncol)%nat && frac_basic (c_basis c r))%bool
          then select start mTab is' (acc ++ [r])
          else select start mTab is' acc
    end.

  (** contNonBasicTab and intNonBasicTab, lines 1465-1485 *)
  Definition entry (r v : nat) : Q :=
    if (v <? ncol)%nat then fst (c_binva c r) v else snd (c_binva c r) (v - ncol)%nat.
  Definition tab_row (rows : list nat) (k : nat) : list Q := map (entry (nth k rows 0%nat)) contVars.

  (** generate_row, lines 399-422 *)
  Definition store (l : list (nat * Q)) (f : nat -> Q) : nat -> Q :=
    fold_left (fun f e => upd f (fst e) (snd e)) l f.
  Definition store_add (l : list (nat * Q)) (f : nat -> Q) : nat -> Q :=
    fold_left (fun f e => upd f (fst e) (f (fst e) + snd e)) l f.
  Definition generate_row (rows : list nat) (pi : list Z) (T : list Q) : nat -> Q :=
    store (combine contVars T)
      (store (map (fun v => (v, zdot pi (map (fun r => entry r v) rows))) intVars)
        (store_add (if p_cg2 p then [] else combine (map (c_basis c) rows) (map inject_Z pi)) (fun _ => 0))).
  (** flip, lines 576-582 *)
  Definition flip (row : nat -> Q) : nat -> Q :=
    fun v => if (v <? ncol + nrow)%nat then match vstat v with Upper => - row v | _ => row v end else row v.
  (** generate_cgcut, lines 425-469, and generate_cgcut_2, lines 472-542 *)
  Definition cgcut (row : nat -> Q) (rhs : Q) : option ((nat -> Q) * Q) :=
    let f0 := above rhs in
    let f0c := 1 - f0 in
    if (f0 <? p_away p) || (f0c <? p_away p) then None
    else Some (store (map (fun v => (v, if row v <? 0 then row v / f0c else 0)) contVars)
                (store (map (fun v => (v, let f := above (row v) in
                                          if f0 <? f then row v - f + (f - f0) / f0c else row v - f)) intVars) row),
               rhs - f0).
  Definition cgcut_2 (row : nat -> Q) (rhs : Q) : option ((nat -> Q) * Q) :=
    let f0 := above rhs in
    let f0c := 1 - f0 in
    if (f0 <? p_away p) || (f0c <? p_away p) then None
    else let ratio := f0 / f0c in
         Some (store (map (fun v => (v, if row v <? 0 then row v * ratio else - row v)) contVars)
                (store (map (fun v => (v, let f := above (row v) in
                                          if f0 <? f then - ratio * (1 - f) else - f)) intVars) row),
               - f0).
  (** unflip, lines 585-613; an infinite bound of a nonbasic column at that bound
      is read as 0 *)
  Definition row_of (i : nat) : Spec.row := nth i (m_rows m) (Row [] None None).
  Definition slack_val (i : nat) : Q := row_rhs (row_of i) - c_act c i.
  Definition opt0 (o : option Q) : Q := match o with Some q => q | None => 0 end.
  Definition at_value (v : nat) : Q :=
    if (v <? ncol)%nat then match c_cstat c v with Upper => opt0 (m_chi m v) | _ => opt0 (m_clo m v) end
    else slack_val (v - ncol).
  Definition unflip (row : nat -> Q) (rhs : Q) : (nat -> Q) * Q :=
    let row' := flip row in
    (row', fold_left (fun s v => if nonbasic v then s + row' v * at_value v else s) (seq 0 (ncol + nrow)) rhs).
  (** eliminate_slacks, lines 545-573 *)
  Definition equality (r : Spec.row) : bool :=
    match r_lo r, r_hi r with Some l, Some u => u - p_eps p <? l | _, _ => false end.
  Definition elim_step (row : nat -> Q) (s : (nat -> Q) * Q) (i : nat) : (nat -> Q) * Q :=
    let a := row (ncol + i)%nat in
    if (p_eps_elim p <? Qabs a) && negb (equality (row_of i)) then
      (fun j => fst s j - a * coef (r_form (row_of i)) j, snd s - a * row_rhs (row_of i))
    else s.
  Definition eliminate_slacks (row : nat -> Q) (rhs : Q) : (nat -> Q) * Q :=
    fold_left (elim_step row) (seq 0 nrow) (row, rhs).
  (** row_scale_factor, lines 616-674: None when -1 is returned.  With no element
      counted the quotient is infinite, or the largest element is too small. *)
  Definition Qmax (a b : Q) : Q := if a <? b then b else a.
  Definition omin (a : option Q) (b : Q) : option Q :=
    match a with None => Some b | Some q => Some (if b <? q then b else q) end.
  Definition lub_col (j : nat) : bool := is_lub (m_clo m j) || is_lub (m_chi m j).
  Definition counted (row : nat -> Q) (j : nat) : bool :=
    (if lub_col j then p_eps_coeff_lub p else p_eps_coeff p) <? Qabs (row j).
  Definition row_scale_factor (row : nat -> Q) : option Q :=
    let js := seq 0 ncol in
    let max_val := fold_left (fun s j => Qmax s (Qabs (row j))) js 0 in
    let norm := fold_left (fun s j => s + Qabs (row j) * Qabs (row j)) js 0 in
    let used := filter (counted row) js in
    let min_val := fold_left (fun s j => omin s (Qabs (row j))) used None in
    let has_lub := existsb lub_col used in
    let nelem := inject_Z (Z.of_nat (length used)) in
    match used with
    | [] => None
    | _ =>
        let retval := if norm <? (1 # 2) * nelem then (1 # 2) * sqrt (norm / nelem)
                      else if 100 * nelem <? norm then 10 * sqrt (norm / nelem) else 1 in
        if (retval <? 1 # 50) || (50 <? retval) then None
        else
          let eps := if has_lub then p_eps_coeff_lub p else p_eps_coeff p in
          let dyn := if has_lub then p_maxdyn_lub p else p_maxdyn p in
          let min_v := opt0 min_val in
          if (eps <? max_val) && (max_val <? dyn * min_v) && (min_v <=? max_val) then Some retval else None
    end.
  (** generate_packed_row, lines 678-750 *)
  Definition pack_step (row : nat -> Q) (sc : Q) (s : option (vec * Q)) (j : nat) : option (vec * Q) :=
    match s with
    | None => None
    | Some (v, rhs) =>
        let a := row j / sc in
        let take := let v' := v ++ [(j, a)] in
                    if (p_max_support p <? Z.of_nat (length v'))%Z then None else Some (v', rhs) in
        if p_eps_coeff p <? Qabs a then take
        else if (0 <? a) && negb (is_lub (m_clo m j)) then Some (v, rhs - a * opt0 (m_clo m j))
        else if (a <? 0) && negb (is_lub (m_chi m j)) then Some (v, rhs - a * opt0 (m_chi m j))
        else if p_eps_coeff_lub p <? Qabs a then take
        else s
    end.
  Definition generate_packed_row (row : nat -> Q) (rhs : Q) : option (vec * Q) :=
    match row_scale_factor row with
    | None => None
    | Some sc =>
        match fold_left (pack_step row sc) (seq 0 ncol) (Some ([], rhs / sc)) with
        | None => None
        | Some (v, rhs') =>
            let val := value v x in
            if (rhs' <? val) && (val - rhs' <? p_minviol p * inject_Z (Z.of_nat (length v))) then None
            else Some (v, rhs')
        end
    end.
  (** the cut of one row of the reduced tableau, lines 1522-1573 *)
  Definition raw_cut (rows : list nat) (s : rst) (i : nat) : option ((nat -> Q) * Q) :=
    let row := flip (generate_row rows (s_pi s i) (s_T s i)) in
    let rhs := zdot (s_pi s i) (map (fun r => x (c_basis c r)) rows) in
    match (if p_cg2 p then cgcut_2 row rhs else cgcut row rhs) with
    | None => None
    | Some (row1, rhs1) => let '(row2, rhs2) := unflip row1 rhs1 in Some (eliminate_slacks row2 rhs2)
    end.
  Definition cut_of (rows : list nat) (s : rst) (i : nat) : option rowcut :=
    match raw_cut rows s i with
    | None => None
    | Some (row3, rhs3) =>
        match generate_packed_row row3 rhs3 with
        | None => None
        | Some (v, rhs4) =>
            if (length v <? 300)%nat then
              let adjust := if 0 <? p_relax_rel p then p_relax_abs p + Qabs rhs4 * p_relax_rel p else p_relax_abs p in
              Some (RowCut v None (Some (rhs4 + adjust)))
            else None
        end
    end.
  Definition add_cut (rows : list nat) (s : rst) (cs : list rowcut) (i : nat) : list rowcut :=
    match cut_of rows s i with Some rc => ins cs rc | None => cs end.
  (** generateCuts(cs), lines 1204-1615; [fuel] bounds the iterations of the
      reduction *)
  Definition card_frac : nat := length (filter frac_basic (seq 0 ncol)).
  Definition generate_inner (fuel : nat) (cs : list rowcut) : outcome (list rowcut) :=
    if Nat.eqb (length contVars) 0 || Nat.eqb card_frac 0 || negb good_model then Done cs
    else
      do nm <- new_mTab;
      if (nm =? 0)%Z then Done cs
      else
        let few := (nm <? Z.of_nat card_frac)%Z in
        let start := if few then first_row (Z.of_nat card_frac) else 0%nat in
        (* a negative number of rows makes the allocations fail *)
        if few && (nm <? 0)%Z then Throws
        else
          let mTab := if few then Z.to_nat nm else card_frac in
          do rows <- select start mTab (seq 0 nrow) [];
          if (length rows <? mTab)%nat then Undef Uninitialised
          else
            do s <- reduce (p_norm_zero p) (p_min_reduc p) fuel mTab (tab_row rows);
            Done (fold_left (add_cut rows s) (seq 0 mTab) cs).
  (** generateCuts(si, cs, info), lines 1163-1201; the CglTreeInfo is not read *)
  Definition generateCuts (basis_available : bool) (fuel : nat) (cs : list rowcut) : outcome (list rowcut) :=
    if basis_available then generate_inner fuel cs else Done cs.
End Generate.
