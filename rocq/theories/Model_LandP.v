(** * Model of CglLandP
    /repo/src/CglLandP/CglLandP.cpp (called A below), CglLandPSimplex.cpp (B),
    CglLandPSimplex.hpp (B.hpp), CglLandPValidator.cpp (V), CglLandPUtils.hpp and
    CglLandPUtils.cpp (U), CglLandPTabRow.cpp (T).

    OLD_COMPUTATION is defined (B.hpp line 34); APPEND_ROW, DEBUG_LAP,
    CHECK_KNOWN_SOLUTION, DO_STAT and DBG_OUT are not.  Doubles are exact
    rationals; an infinite bound is None.

    Parameters, because the code lies outside /repo or only chooses among moves
    that the theorems allow in any order:
    - [solver]: what the simplex interface answers in each basis: rows of the
      tableau, their number of stored elements, the solution, the row activities,
      and whether a pivot succeeds and in which order the basic variables are
      then listed;
    - [choices]: the numerical choices of the lift-and-project simplex: reduced
      costs of the rows (fastFindCutImprovingPivotRow), the incoming column
      (fastFindBestPivotColumn), the best pair (findBestPivot), whether the
      objective got worse, whether time is up, and the separation space.  They may
      depend on the whole state and on a counter of the questions asked, so that
      random perturbation is covered;
    - [ins], OsiCuts::insertIfNotDuplicate.
    Messages, statistics and the counters numRejected_ are left out. *)

From Coq Require Import Qabs.
From Verif Require Import Base.
Local Open Scope Q_scope.

(** ** Parameters *)
(** A.hpp lines 57-103 *)
Inductive rule := MostNegativeRc | BestPivot | InitialReducedCosts.
Inductive extra_mode := NoExtra | AtOptimalBasis | WhenEnteringBasis | AllViolatedMigs.
Inductive space := Fractional | FractionalRc | Full.
Inductive normalization := Unweighted | WeightRHS | WeightLHS | WeightBoth.
Inductive lhs_norm := L1 | L2 | SupportSize | Infinity | Average | Uniform.
Inductive rhs_type := Fixed | Dynamic.

(** CglLandP::Parameters, A.hpp lines 106-180, after the fields of CglParam that
    it inherits; an infinite time limit is None *)
Record lpar := LPar {
  p_infinit : Q; p_eps : Q; p_eps_coeff : Q; p_max_support : Z;
  p_pivotLimit : Z; p_pivotLimitInTree : Z; p_maxCuts : Z; p_failedLimit : Z;
  p_degLimit : Z; p_extraLimit : Z; p_maxCand : Z; p_maxLen : Z;
  p_pivotTol : Q; p_away : Q; p_time : option Q; p_singleTime : option Q; p_rhsWeight : Q;
  p_useTableau : bool; p_modularize : bool; p_strengthen : bool; p_countRc : bool;
  p_space : space; p_perturb : bool; p_norm : normalization; p_rhsType : rhs_type;
  p_lhs : lhs_norm; p_extra : extra_mode; p_rule : rule
}.
(** the default constructor, A lines 45-73; CglParam.hpp gives INFINIT, EPS_COEFF
    and MAX_SUPPORT *)
Definition p_default : lpar :=
  LPar 0 (1 # 100000000) (1 # 100000) INT_MAX
       20 10 5000 1 0 5 1000000 10000
       (1 # 10000) (5 # 10000) None None 1
       true false true false Fractional true Unweighted Fixed L1 NoExtra MostNegativeRc.
(** the copy constructor, A lines 75-101 *)
Definition par_copy (o : lpar) : lpar :=
  LPar (p_infinit o) (p_eps o) (p_eps_coeff o) (p_max_support o)
       (p_pivotLimit o) (p_pivotLimitInTree o) (p_maxCuts o) (p_failedLimit o)
       (p_degLimit o) (p_extraLimit o) (p_maxCand o) (p_maxLen o)
       (p_pivotTol o) (p_away o) (p_time o) (p_singleTime o) (p_rhsWeight o)
       (p_useTableau o) (p_modularize o) (p_strengthen o) (p_countRc o)
       (p_space o) (p_perturb o) (p_norm o) (p_rhsType o) (p_lhs o) (p_extra o) (p_rule o).
(** operator=, A lines 103-136, between two objects; line 112 reads
    failedPivotLimit *)
Definition par_assign (this o : lpar) : lpar :=
  LPar (p_infinit o) (p_eps o) (p_eps_coeff o) (p_max_support o)
       (p_pivotLimit o) (p_pivotLimitInTree o) (p_maxCuts o) (p_failedLimit o)
       (p_failedLimit o) (p_extraLimit o) (p_maxCand o) (p_maxLen o)
       (p_pivotTol o) (p_away o) (p_time o) (p_singleTime o) (p_rhsWeight o)
       (p_useTableau o) (p_modularize o) (p_strengthen o) (p_countRc o)
       (p_space o) (p_perturb o) (p_norm o) (p_rhsType o) (p_lhs o) (p_extra o) (p_rule o).

(** ** The validator *)
Definition frow := (vec * Q)%type.    (* a cut  form >= lb *)
Record validator := Val { v_fill : Q; v_ratio : Q; v_minviol : Q; v_rhsscale : Q }.
(** V lines 313-326 and CglLandPValidator.hpp lines 41-45 *)
Definition v_default : validator := Val 1 100000000 0 1.

(** The rejection codes, CglLandPValidator.hpp *)
Inductive code := NoneAccepted | SmallViolation | SmallCoefficient | BigDynamic | DenseCut | EmptyCut.

(** OsiRowCut::violated (OSI) for a cut with an infinite upper side *)
Definition violated (c : frow) (x : nat -> Q) : Q :=
  let v := value (fst c) x in if v <? snd c then snd c - v else 0.
(** static_cast<int>(maxFillIn_ * numcols) *)
Definition max_nnz (v : validator) (ncols : nat) : outcome Z :=
  let q := v_fill v * inject_Z (Z.of_nat ncols) in
  let z := if q <? 0 then Qceiling q else Qfloor q in
  if int_range z then Done z else Undef FloatCast.

Definition c1e20 : Q := 1 # 100000000000000000000.
Definition below_q (o : option Q) (b : Q) : option Q :=   (* the bound when it is < b *)
  match o with Some q => if q <? b then Some q else None | None => None end.
Definition above_q (o : option Q) (b : Q) : option Q :=   (* the bound when it is > b *)
  match o with Some q => if b <? q then Some q else None | None => None end.

(** the loop over the elements, V lines 58-118: the kept elements, the right-hand
    side, the smallest (None: 1e100) and the largest element so far; [nb] is the
    length of the arrays of bounds *)
Record vst := VS { w_kept : vec; w_rhs : Q; w_small : option Q; w_big : Q }.
Definition c1e100 : Q := inject_Z (10 ^ 100).
Definition osmall (o : option Q) : Q := match o with Some q => q | None => c1e100 end.
Inductive vres := VGo (s : vst) | VStop (c : code).
Definition clean_step (eps ratio : Q) (nb : nat) (lo up : nat -> option Q) (s : vst) (e : nat * Q) : outcome vres :=
  let '(j, a) := e in
  let val := Qabs a in
  if val <=? eps then
    if (0 <? val) && (val <? c1e20) then Done (VGo s)
    else if Qeq_bool val 0 then Done (VGo s)
    else if (nb <=? j)%nat then Undef OutOfBounds
    else
      match (if 0 <? a then below_q (up j) 10000 else above_q (lo j) (-10000)) with
      | Some b => Done (VGo (VS (w_kept s) (w_rhs s - a * b) (w_small s) (w_big s)))
      | None => Done (VStop SmallCoefficient)
      end
  else
    let sm := if val <? osmall (w_small s) then val else osmall (w_small s) in
    let bg := if w_big s <? val then val else w_big s in
    if ratio * sm <? bg then Done (VStop BigDynamic)
    else Done (VGo (VS (w_kept s ++ [e]) (w_rhs s) (Some sm) bg)).
Fixpoint clean_loop (eps ratio : Q) (nb : nat) (lo up : nat -> option Q) (l : vec) (s : vst) : outcome vres :=
  match l with
  | [] => Done (VGo s)
  | e :: l' =>
      do r <- clean_step eps ratio nb lo up s e;
      match r with VGo s' => clean_loop eps ratio nb lo up l' s' | VStop c => Done (VStop c) end
  end.
(** cleanCut, V lines 35-151; operator() calls it.  The element set to zero and
    the shifts of a rejected cut are not kept, since the callers drop it or build
    it anew. *)
Definition cleanCut (eps : Q) (v : validator) (ncols nb : nat) (lo up : nat -> option Q) (x : nat -> Q)
    (c : frow) : outcome (code * frow) :=
  do mx <- max_nnz v ncols;
  if violated c x <? v_minviol v then Done (SmallViolation, c)
  else
    do r <- clean_loop eps (v_ratio v) nb lo up (fst c) (VS [] (snd c - (1 # 10000000)) None 0);
    match r with
    | VStop k => Done (k, c)
    | VGo s =>
        if (mx <? Z.of_nat (length (w_kept s)))%Z then Done (DenseCut, c)
        else if Nat.eqb (length (w_kept s)) 0 then Done (EmptyCut, c)
        else
          let c' := (w_kept s, w_rhs s) in
          if violated c' x <? v_minviol v then Done (SmallViolation, c') else Done (NoneAccepted, c')
    end.

(** cleanCut2, V lines 155-310, public and called by no code in /repo *)
Definition c1e9 : Q := 1000000000.
Definition clean2_step (tiny vtiny : Q) (nb : nat) (lo up : nat -> option Q) (s : vec * Q) (e : nat * Q)
    : outcome (option (vec * Q)) :=
  let '(j, a) := e in
  let val := Qabs a in
  if val <? tiny then
    if val <? vtiny then Done (Some s)
    else if (nb <=? j)%nat then Undef OutOfBounds
    else
      match (if 0 <? a then below_q (up j) 1000
             else if a <? 0 then above_q (lo j) (-1000) else None) with
      | Some b => Done (Some (fst s, snd s - a * b))
      | None => Done None
      end
  else Done (Some (fst s ++ [e], snd s)).
Fixpoint clean2_loop (tiny vtiny : Q) (nb : nat) (lo up : nat -> option Q) (l : vec) (s : vec * Q)
    : outcome (option (vec * Q)) :=
  match l with
  | [] => Done (Some s)
  | e :: l' =>
      do r <- clean2_step tiny vtiny nb lo up s e;
      match r with Some s' => clean2_loop tiny vtiny nb lo up l' s' | None => Done None end
  end.
Definition qmin (a b : Q) : Q := if b <? a then b else a.
Definition qmax (a b : Q) : Q := if a <? b then b else a.
Definition cleanCut2 (v : validator) (ncols nb : nat) (lo up : nat -> option Q) (x : nat -> Q)
    (c : frow) : outcome (code * frow) :=
  do mx <- max_nnz v ncols;
  if Nat.eqb (length (fst c)) 0 then Done (EmptyCut, c)
  else if violated c x <? v_minviol v then Done (SmallViolation, c)
  else
    let rhs := snd c - (1 # 10000000000) in
    let big_els := filter (fun e => c1e20 <? Qabs (snd e)) (fst c) in
    let smallest := fold_left (fun s e => qmin (Qabs (snd e)) s) big_els (Qabs rhs) in
    let biggest := fold_left (fun s e => qmax s (Qabs (snd e))) big_els (Qabs rhs) in
    if c1e9 <? biggest then Done (BigDynamic, c)
    else
      let sc := v_rhsscale v / biggest in
      let els := scale sc (fst c) in
      do r <- (if v_ratio v * smallest <? biggest then
                 clean2_loop (biggest * sc / v_ratio v) (c1e20 * sc) nb lo up els ([], rhs * sc)
               else Done (Some (els, rhs * sc)));
      match r with
      | None => Done (SmallCoefficient, c)
      | Some (els', rhs') =>
          if (mx <? Z.of_nat (length els'))%Z then Done (DenseCut, c)
          else if Nat.eqb (length els') 0 then Done (EmptyCut, c)
          else if violated (els', rhs') x <? v_minviol v then Done (SmallViolation, (els', rhs'))
          else if Qabs rhs' <? c1e9 then Done (NoneAccepted, (els', rhs')) else Aborts
      end.

(** ** The lift-and-project simplex *)
(** CoinWarmStartBasis::Status *)
Inductive stat := Free | Basic | Upper | Lower.
Definition stat_eqb (a b : stat) : bool :=
  match a, b with Free, Free | Basic, Basic | Upper, Upper | Lower, Lower => true | _, _ => false end.
(** basics_, nonBasics_ and basis_ *)
Record basis := Bs { b_basics : list nat; b_nonbasics : list nat; b_cstat : nat -> stat; b_rstat : nat -> stat }.
Record solver := Solver {
  s_clp : bool;                                   (* the solver is Clp *)
  s_tab : basis -> nat -> nat -> Q;               (* getBInvARow: columns, then slacks *)
  s_len : basis -> nat -> Z;                      (* stored elements of that row *)
  s_x : basis -> nat -> Q; s_act : basis -> nat -> Q;
  s_pivot : basis -> nat -> nat -> Z -> option (list nat)   (* None: nonzero return code *)
}.
(** TabRow *)
Record trow := TR { t_num : nat; t_el : nat -> Q; t_rhs : Q; t_len : Z }.
(** The state of optimize: basis, row_k_, rowFlags_, the tables of reduced costs
    (rWk1_, rWk3_, rWk2_, rWk4_), pivots done, nRowFailed, the extra cuts by
    column, and the number of questions asked. *)
Record ost := OS {
  o_run : nat; o_tick : nat; o_b : basis; o_k : trow; o_flag : nat -> bool;
  o_tab : nat -> Q * Q * Q * Q; o_piv : Z; o_failed : Z; o_extra : list (nat * frow)
}.
Inductive colres := Col (j : nat) | NoPivot | BadCost.    (* j, -1, -2 *)
Record choices := Choices {
  h_sub : nat -> bool;                              (* col_in_subspace *)
  h_time : ost -> bool;                             (* B line 686 breaks *)
  h_red : ost -> nat -> Q * Q * Q * Q;              (* reduced costs u^l, v^l, u^u, v^u *)
  h_col : ost -> nat -> Z -> Z -> colres;           (* fastFindBestPivotColumn *)
  h_deg : ost -> bool;                              (* inDegenerateSequence_ *)
  h_best : ost -> list (nat * Z) -> option (nat * colres);   (* findBestPivot: position and column *)
  h_worse : ost -> bool;                            (* B lines 848-855 return *)
  h_tocut : ost -> nat -> bool                      (* int_val(getColsolToCut(iCol)) *)
}.

Definition upd {A} (f : nat -> A) (j : nat) (a : A) : nat -> A := fun k => if Nat.eqb k j then a else f k.
Definition coef (v : vec) (j : nat) : Q :=
  match find (fun e => Nat.eqb (fst e) j) v with Some e => snd e | None => 0 end.
(** INT_INFEAS, A line 14 *)
Definition infeas (q : Q) : Q := Qabs (q - qfloor (q + (1 # 2))).
(** int_val, U lines 51-54 *)
Definition int_val (q tol : Q) : bool := Qabs (qfloor (q + (1 # 2)) - q) <? tol.
(** U lines 34-48 *)
Definition icoef (a beta : Q) : Q := if 0 <? a then a * (1 - beta) else - a * beta.
Definition modcoef (a beta : Q) : Q := if frac a <=? beta then frac a else frac a - 1.
Definition c1e50 : Q := inject_Z (10 ^ 50).
(** COIN_INDEXED_TINY_ELEMENT of CoinUtils *)
Definition tiny50 : Q := / c1e50.
Definition c1e10 : Q := 1 # 10000000000.
Definition c1e15 : Q := 1 # 1000000000000000.

Section Simplex.
  Variable m : mip.           (* the solver t_si *)
  Variable s_ : solver.
  Variable h : choices.
  Variable p : lpar.
  Variable v_ : validator.
  Variable x0 : nat -> Q.     (* cached.colsol_ *)
  Notation n := (m_ncols m).
  Notation nrow := (length (m_rows m)).
  Definition row_of (i : nat) : Spec.row := nth i (m_rows m) (Row [] None None).

  (** integers_, A lines 293-328 *)
  Definition near_int (o : option Q) : bool := match o with Some q => negb (c1e15 <? infeas q) | None => true end.
  Definition slack_int (r : Spec.row) : bool :=
    match r_lo r with Some l => negb ((- c1e50 <? l) && (c1e15 <? infeas l)) | None => true end &&
    match r_hi r with Some u => negb ((u <? c1e50) && (c1e15 <? infeas u)) | None => true end &&
    forallb (fun e => m_int m (fst e) && near_int (Some (snd e))) (r_form r).
  Definition is_int (v : nat) : bool := if (v <? n)%nat then m_int m v else slack_int (row_of (v - n)).

  (** lo_bounds_ and up_bounds_, B lines 238-264 *)
  Definition lo_bound (v : nat) : option Q :=
    if (v <? n)%nat then m_clo m v
    else match r_hi (row_of (v - n)), r_lo (row_of (v - n)) with
         | None, _ => None | Some u, Some l => Some (l - u) | Some _, None => Some 0 end.
  Definition up_bound (v : nat) : option Q :=
    if (v <? n)%nat then m_chi m v else match r_lo (row_of (v - n)) with None => None | Some _ => Some 0 end.
  Definition has_lo (v : nat) : bool := match lo_bound v with Some l => - c1e50 <? l | None => false end.
  Definition has_up (v : nat) : bool := match up_bound v with Some u => u <? c1e50 | None => false end.

  (** pullTableauRow, B lines 3112-3197 *)
  Definition vstat (b : basis) (v : nat) : stat := if (v <? n)%nat then b_cstat b v else b_rstat b (v - n).
  Definition is_nonbasic (b : basis) (v : nat) : bool := existsb (Nat.eqb v) (b_nonbasics b).
  Definition at_bound (s : stat) : bool := match s with Upper | Lower => true | _ => false end.
  Definition basic_value (b : basis) (v : nat) : option Q :=
    if (v <? n)%nat then Some (s_x s_ b v)
    else let r := row_of (v - n) in
         match r_lo r, r_hi r with
         | Some l, _ => Some (l - s_act s_ b (v - n))
         | None, Some u => Some (u - s_act s_ b (v - n))
         | None, None => None                    (* an infinite right-hand side *)
         end.
  Definition pull (b : basis) (r : nat) : outcome trow :=
    match nth_error (b_basics b) r with
    | None => Undef OutOfBounds
    | Some k =>
        if forallb (fun v => (n <=? v)%nat || at_bound (b_cstat b v)) (b_nonbasics b) then
          match basic_value b k with
          | None => Aborts
          | Some rhs =>
              Done (TR r (fun v => let a := if Nat.eqb v k then 0 else s_tab s_ b r v in
                                   if is_nonbasic b v && stat_eqb (vstat b v) Upper then - a else a)
                       rhs (s_len s_ b r))
          end
        else Throws
    end.
  (** row.rhs - floor(row.rhs), B lines 611, 656 and 1093 *)
  Definition center (t : trow) : trow := TR (t_num t) (t_el t) (frac (t_rhs t)) (t_len t).
  (** TabRow::modularize, T lines 61-77; an element that is not stored is 0 and
      stays 0 when the right-hand side is not negative *)
  Definition modularize (t : trow) : trow :=
    TR (t_num t) (fun v => if (v <? n + nrow)%nat && is_int v then modcoef (t_el t v) (t_rhs t) else t_el t v)
       (t_rhs t) (t_len t).
  (** strengthenedIntersectionCutCoef, B.hpp lines 429-442 *)
  Definition scoef (v : nat) (a beta : Q) : Q :=
    if is_int v then (if frac a <? beta then frac a * (1 - beta) else (1 - frac a) * beta) else icoef a beta.
  (** the row put back into original form, B lines 2567-2590 and 2700-2722; a
      rethrow without an exception ends the process *)
  Definition unflip (b : basis) (t : trow) : outcome trow :=
    if forallb (fun v => (n <=? v)%nat || at_bound (b_cstat b v)) (b_nonbasics b) then
      Done (TR (t_num t)
               (fun v => if is_nonbasic b v && ((v <? n)%nat && stat_eqb (b_cstat b v) Upper) then - t_el t v else t_el t v)
               (t_rhs t) (t_len t))
    else Aborts.
  (** the terms of the cut: a value for each nonbasic variable and the right-hand
      side.  An infinite bound makes the assertion on cutRhs fail. *)
  Definition mul_opt (rhs a : Q) (o : option Q) : outcome Q :=
    match o with Some q => Done (rhs + a * q) | None => Aborts end.
  Definition mig_term (b : basis) (t : trow) (s : (nat -> Q) * Q) (v : nat) : outcome ((nat -> Q) * Q) :=
    let a := t_el t v in
    if Qeq_bool a 0 then Done s
    else if (v <? n)%nat then
      if stat_eqb (b_cstat b v) Upper then
        let w := - scoef v (- a) (t_rhs t) in
        do r <- mul_opt (snd s) w (m_chi m v); Done (upd (fst s) v w, r)
      else
        let w := scoef v a (t_rhs t) in
        do r <- mul_opt (snd s) w (m_clo m v); Done (upd (fst s) v w, r)
    else
      let r_ := row_of (v - n) in
      let w := scoef v a (t_rhs t) in
      match r_hi r_ with
      | Some u =>
          do r <- mul_opt (snd s) (- w) (if stat_eqb (b_rstat b (v - n)) Upper then r_lo r_ else Some u);
          Done (upd (fst s) v w, r)
      | None => do r <- mul_opt (snd s) w (r_lo r_); Done (upd (fst s) v (- w), r)
      end.
  Definition int_term (b : basis) (t : trow) (s : (nat -> Q) * Q) (v : nat) : outcome ((nat -> Q) * Q) :=
    let a := t_el t v in
    if Qabs a <=? c1e10 then Done s
    else if (v <? n)%nat then
      if stat_eqb (b_cstat b v) Upper then
        let w := - icoef (- a) (t_rhs t) in
        do r <- mul_opt (snd s) w (m_chi m v); Done (upd (fst s) v (fst s v + w), r)
      else
        let w := icoef a (t_rhs t) in
        do r <- mul_opt (snd s) w (m_clo m v); Done (upd (fst s) v (fst s v + w), r)
    else
      let r_ := row_of (v - n) in
      let w := icoef a (t_rhs t) in
      match r_lo r_ with
      | Some l =>
          if stat_eqb (b_rstat b (v - n)) Upper ||
             match r_hi r_ with Some u => Qabs (l - u) <? (1 # 100000000) | None => false end
          then Done (upd (fst s) v (- w), snd s + w * l)
          else Aborts
      | None =>
          if stat_eqb (b_rstat b (v - n)) Lower then
            do r <- mul_opt (snd s) (- w) (r_hi r_); Done (upd (fst s) v w, r)
          else Aborts
      end.
  (** eliminate_slacks, B lines 2816-2836 and 2640-2652 *)
  Definition elim (f : nat -> Q) (j : nat) : Q :=
    fold_left (fun s i => s - f (n + i)%nat * coef (r_form (row_of i)) j) (seq 0 nrow) (f j).
  (** packing, B lines 2655-2668 and 2795-2807 *)
  Definition pack (f : nat -> Q) : vec :=
    map (fun j => (j, elim f j)) (filter (fun j => tiny50 <? Qabs (elim f j)) (seq 0 n)).
  (** createMIG, B lines 2690-2814, and createIntersectionCut, B lines 2559-2672:
      the row as they leave it and the cut *)
  Definition createMIG (b : basis) (t : trow) : outcome (trow * frow) :=
    do t1 <- unflip b t;
    let t2 := TR (t_num t1) (t_el t1) (frac (t_rhs t1)) (t_len t1) in
    let f := t_rhs t2 - qfloor (t_rhs t2) in
    do r <- ofold (mig_term b t2) (b_nonbasics b) (fun _ => 0, f * (1 - f));
    Done (t2, (pack (fst r), snd r)).
  Definition createIC (b : basis) (t : trow) : outcome (trow * frow) :=
    do t1 <- unflip b t;
    do r <- ofold (int_term b t1) (b_nonbasics b) (fun _ => 0, t_rhs t1 * (1 - t_rhs t1));
    Done (t1, (pack (fst r), snd r)).
  Definition create (b : basis) (t : trow) : outcome (trow * frow) :=
    if p_strengthen p || p_modularize p then createMIG b t else createIC b t.
  (** generateMig, B lines 606-618 *)
  Definition generateMig (b : basis) (i : nat) : outcome (trow * frow) :=
    do t <- pull b i; create b (center t).

  (** generateExtraCut, B lines 535-574 *)
  Definition opt_lt (q : Q) (o : option Q) : bool := match o with Some l => q <? l | None => false end.
  Definition opt_gt (q : Q) (o : option Q) : bool := match o with Some u => u <? q | None => false end.
  Definition set_k (s : ost) (t : trow) : ost :=
    OS (o_run s) (o_tick s) (o_b s) t (o_flag s) (o_tab s) (o_piv s) (o_failed s) (o_extra s).
  Definition set_extra (s : ost) (e : list (nat * frow)) : ost :=
    OS (o_run s) (o_tick s) (o_b s) (o_k s) (o_flag s) (o_tab s) (o_piv s) (o_failed s) e.
  Definition extra_cut (s : ost) (i : nat) : outcome ost :=
    match nth_error (b_basics (o_b s)) i with
    | None => Undef OutOfBounds
    | Some c =>
        let xc := s_x s_ (o_b s) c in
        if negb (is_int c) || int_val xc (p_away p) || negb (h_tocut h s c) ||
           opt_lt xc (lo_bound c) || opt_gt xc (up_bound c) ||
           existsb (fun e => Nat.eqb (fst e) c) (o_extra s)
        then Done s
        else
          do r <- generateMig (o_b s) i;
          if Qabs (t_rhs (fst r) - xc) <? c1e10 then
            do cc <- cleanCut (p_eps p) v_ n (n + nrow) lo_bound up_bound x0 (snd r);
            match fst cc with
            | NoneAccepted => Done (set_extra (set_k s (fst r)) (o_extra s ++ [(c, snd cc)]))
            | _ => Done (set_k s (fst r))
            end
          else Aborts
    end.
  (** generateExtraCuts, B lines 521-533 *)
  Definition few_extra (s : ost) : bool := (Z.of_nat (length (o_extra s)) <? p_extraLimit p)%Z.
  Definition extra_step (s : ost) (i : nat) : outcome ost :=
    if few_extra s && match nth_error (b_basics (o_b s)) i with Some c => (c <? n)%nat | None => false end
    then extra_cut s i else Done s.
  Definition extra_cuts (s : ost) : outcome ost := ofold extra_step (seq 0 nrow) s.

  (** fastFindCutImprovingPivotRow, B lines 1454-1617, and rescanReducedCosts,
      lines 1622-1709: the four reduced costs of a row in the order in which they
      are looked at, with direction and sign of gamma *)
  Definition best := (Q * option (nat * Z * Z))%type.
  Definition look (flag : bool) (i : nat) (s : best) (e : Z * Z * bool * Q) : best :=
    let '(dir, g, ok, c) := e in
    if ok && flag && (c <? fst s) then (c, Some (i, dir, g)) else s.
  Definition quads (ok_lo ok_up : bool) (q : Q * Q * Q * Q) : list (Z * Z * bool * Q) :=
    let '(ul, vl, uu, vu) := q in
    [(-1, -1, ok_lo, ul); (-1, 1, ok_lo, vl); (1, -1, ok_up, uu); (1, 1, ok_up, vu)]%Z.
  Definition basic_at (b : basis) (i : nat) : nat := nth i (b_basics b) 0%nat.
  Definition excluded (s : ost) (i : nat) : bool :=
    Nat.eqb i (t_num (o_k s)) || negb (h_sub h (basic_at (o_b s) i)).
  Definition cell (ok : bool) (c : Q) : Q := if ok && (c <? - p_pivotTol p) then c else 10.
  Definition new_tab (s : ost) (i : nat) : Q * Q * Q * Q :=
    if excluded s i then (10, 10, 10, 10)
    else let '(ul, vl, uu, vu) := h_red h s i in
         let v := basic_at (o_b s) i in
         (cell (has_lo v) ul, cell (has_lo v) vl, cell (has_up v) uu, cell (has_up v) vu).
  Definition negative_row (s : ost) (i : nat) : bool :=
    let '(ul, vl, uu, vu) := h_red h s i in
    let v := basic_at (o_b s) i in
    (has_lo v && ((ul <? - p_pivotTol p) || (vl <? - p_pivotTol p))) ||
    (has_up v && ((uu <? - p_pivotTol p) || (vu <? - p_pivotTol p))).
  Definition new_flag (s : ost) (flagpos : bool) (i : nat) : bool :=
    if excluded s i then false
    else if flagpos && negb (negative_row s i) then false else o_flag s i.
  Definition find_row (s : ost) : option (nat * Z * Z) :=
    snd (fold_left (fun bst i =>
           if excluded s i then bst
           else let v := basic_at (o_b s) i in
                fold_left (look (o_flag s i) i) (quads (has_lo v) (has_up v) (h_red h s i)) bst)
         (seq 0 nrow) (- p_pivotTol p, None)).
  Definition rescan (s : ost) : option (nat * Z * Z) :=
    snd (fold_left (fun bst i =>
           if Nat.eqb i (t_num (o_k s)) || negb (o_flag s i) then bst
           else fold_left (look (o_flag s i) i) (quads true true (o_tab s i)) bst)
         (seq 0 nrow) (- p_pivotTol p, None)).
  (** the pairs that findBestPivot, B lines 2134-2330, may try: rows with a
      negative reduced cost in a direction whose flag is set.  sigma may be read
      before it is assigned there; which pair is returned is left open. *)
  Definition candidates (s : ost) : list (nat * Z) :=
    flat_map (fun i => let '(ul, vl, uu, vu) := o_tab s i in
                       if o_flag s i then
                         (if (ul <? - p_pivotTol p) || (vl <? - p_pivotTol p) then [(i, (-1)%Z)] else []) ++
                         (if (uu <? - p_pivotTol p) || (vu <? - p_pivotTol p) then [(i, 1%Z)] else [])
                       else []) (seq 0 nrow).

  Definition tick (s : ost) : ost :=
    OS (o_run s) (S (o_tick s)) (o_b s) (o_k s) (o_flag s) (o_tab s) (o_piv s) (o_failed s) (o_extra s).
  Definition set_flag (s : ost) (i : nat) : ost :=
    OS (o_run s) (o_tick s) (o_b s) (o_k s) (upd (o_flag s) i false) (o_tab s) (o_piv s) (o_failed s) (o_extra s).
  Definition add_failed (s : ost) : ost :=
    OS (o_run s) (o_tick s) (o_b s) (o_k s) (o_flag s) (o_tab s) (o_piv s) (o_failed s + 1)%Z (o_extra s).
  Definition set_tables (s : ost) (flagpos : bool) : ost :=
    OS (o_run s) (o_tick s) (o_b s) (o_k s)
       (fun i => if (i <? nrow)%nat then new_flag s flagpos i else o_flag s i)
       (fun i => if (i <? nrow)%nat then new_tab s i else o_tab s i)
       (o_piv s) (o_failed s) (o_extra s).
  (** What the search for a pivot ends with: leaving row and direction, incoming
      position when there is one; None when leaving is -1 *)
  Definition pick := option (nat * Z * option nat).
  (** the inner loop, B lines 716-737 *)
  Fixpoint try_rows (fuel : nat) (s : ost) (lv : nat) (dir g : Z) (c : colres) : outcome (ost * pick) :=
    match c with
    | Col j => Done (s, Some (lv, dir, Some j))
    | _ =>
        if (o_failed s <? 5)%Z then
          match fuel with
          | O => OutOfFuel
          | S fuel' =>
              let s1 := if match c with NoPivot => true | _ => p_countRc p end then add_failed s else s in
              let s2 := tick (set_flag s1 lv) in
              match rescan s2 with
              | Some (lv', dir', g') => try_rows fuel' s2 lv' dir' g' (h_col h s2 lv' dir' g')
              | None => Done (s2, None)
              end
          end
        else Done (s, Some (lv, dir, None))
    end.
  (** the loop of the rule initialReducedCosts after the first pivot, B lines
      748-769: rowFlags_[-1] is written when no row is found *)
  Fixpoint try_initial (fuel : nat) (s : ost) : outcome (ost * pick) :=
    match fuel with
    | O => OutOfFuel
    | S fuel' =>
        match rescan s with
        | None => Undef OutOfBounds
        | Some (lv, dir, g) =>
            let s1 := tick (set_flag s lv) in
            match h_col h s1 lv dir g with
            | Col j => Done (s1, Some (lv, dir, Some j))
            | _ => try_initial fuel' s1
            end
        end
    end.
  Definition rule_eqb (a b : rule) : bool :=
    match a, b with
    | MostNegativeRc, MostNegativeRc | BestPivot, BestPivot | InitialReducedCosts, InitialReducedCosts => true
    | _, _ => false
    end.
  (** B lines 693-769 *)
  Definition search (s : ost) : outcome (ost * pick) :=
    let initial := rule_eqb (p_rule p) InitialReducedCosts in
    if negb initial || (o_piv s =? 0)%Z then
      if s_clp s_ then
        let s1 := tick (set_tables s initial) in
        match find_row s with
        | None => Done (s1, None)
        | Some (lv, dir, g) =>
            match p_rule p with
            | BestPivot =>
                match h_best h s1 (candidates s1) with
                | None => Done (s1, None)
                | Some (k, c) =>
                    match nth_error (candidates s1) k with
                    | None => Done (s1, None)
                    | Some (lv', dir') => Done (s1, Some (lv', dir', match c with Col j => Some j | _ => None end))
                    end
                end
            | _ =>
                let s2 := if initial then set_flag s1 lv else s1 in
                try_rows (S (S nrow)) s2 lv dir g (h_col h s2 lv dir g)
            end
        end
      else Throws
    else try_initial (S nrow) (tick s).

  (** changeBasis, B lines 944-1120 *)
  Definition set_stat (b : basis) (v : nat) (st : stat) : basis :=
    if (v <? n)%nat then Bs (b_basics b) (b_nonbasics b) (upd (b_cstat b) v st) (b_rstat b)
    else Bs (b_basics b) (b_nonbasics b) (b_cstat b) (upd (b_rstat b) (v - n) st).
  Fixpoint replace (l : list nat) (i v : nat) : list nat :=
    match l, i with
    | [], _ => []
    | _ :: l', O => v :: l'
    | a :: l', S i' => a :: replace l' i' v
    end.
  Fixpoint position (v : nat) (l : list nat) : option nat :=
    match l with
    | [] => None
    | a :: l' => if Nat.eqb a v then Some 0%nat else option_map S (position v l')
    end.
  Definition moved_basis (b : basis) (jin lv : nat) (dir : Z) (order : list nat) : basis :=
    let vin := nth jin (b_nonbasics b) 0%nat in
    let vout := basic_at b lv in
    let b1 := set_stat (set_stat b vout (if (dir =? 1)%Z then Upper else Lower)) vin Basic in
    Bs order (replace (b_nonbasics b) jin vout) (b_cstat b1) (b_rstat b1).
  Definition set_basis (s : ost) (b : basis) (t : trow) : ost :=
    OS (o_run s) (o_tick s) b t (o_flag s) (o_tab s) (o_piv s) (o_failed s) (o_extra s).
  Definition change_basis (s : ost) (jin lv : nat) (dir : Z) : outcome (ost * bool) :=
    let b := o_b s in
    if (length (b_nonbasics b) <=? jin)%nat || (length (b_basics b) <=? lv)%nat then Undef OutOfBounds
    else
      match s_pivot s_ b (nth jin (b_nonbasics b) 0%nat) (basic_at b lv) dir with
      | None => do t <- pull b (t_num (o_k s)); Done (set_k s (center t), false)
      | Some order =>
          let b' := moved_basis b jin lv dir order in
          let k := basic_at (Bs (replace (b_basics b) lv (nth jin (b_nonbasics b) 0%nat)) [] (b_cstat b) (b_rstat b))
                            (t_num (o_k s)) in
          let num := if Nat.eqb (basic_at b' (t_num (o_k s))) k then t_num (o_k s)
                     else match position k order with Some i => i | None => t_num (o_k s) end in
          do t <- pull b' num; Done (set_basis s b' (center t), true)
      end.

  (** one iteration of the main loop, B lines 684-914 *)
  Inductive verdict := Stop (s : ost) | Fail (s : ost) | Next (s : ost).
  Definition mode_eqb (a b : extra_mode) : bool :=
    match a, b with
    | NoExtra, NoExtra | AtOptimalBasis, AtOptimalBasis | WhenEnteringBasis, WhenEnteringBasis
    | AllViolatedMigs, AllViolatedMigs => true
    | _, _ => false
    end.
  Definition entering (s : ost) (lv : nat) : outcome ost :=
    if mode_eqb (p_extra p) WhenEnteringBasis then extra_step s lv else Done s.
  Definition pivoted (s : ost) : ost :=
    OS (o_run s) (S (o_tick s)) (o_b s) (if p_modularize p then modularize (o_k s) else o_k s)
       (o_flag s) (o_tab s) (o_piv s + 1)%Z (o_failed s) (o_extra s).
  Definition iterate (s : ost) : outcome verdict :=
    if h_time h s then Done (Stop s)
    else
      do r <- search (tick s);
      let '(s1, k) := r in
      match k with
      | None => Done (Stop s1)
      | Some (lv, dir, None) => Done (Stop s1)
      | Some (lv, dir, Some j) =>
          let s2 := if h_deg h s1 then set_flag s1 lv else s1 in
          do r3 <- change_basis s2 j lv dir;
          do s4 <- entering (fst r3) lv;
          if snd r3 then
            let s5 := pivoted s4 in
            if h_worse h s5 then Done (Fail s5) else Done (Next s5)
          else Done (Fail s4)
      end.
  Fixpoint loop (fuel : nat) (lim : Z) (s : ost) : outcome verdict :=
    if (o_piv s <? lim)%Z then
      match fuel with
      | O => OutOfFuel
      | S fuel' =>
          do r <- iterate s;
          match r with Next s' => loop fuel' lim s' | v => Done v end
      end
    else Done (Stop s).
  (** optimize, B lines 620-941: whether a cut was built, the cut and the extra
      cuts.  [lim] is params.pivotLimit. *)
  Definition optimize (run : nat) (b0 : basis) (lim : Z) (row : nat) (extra : list (nat * frow))
      : outcome (option frow * list (nat * frow)) :=
    do t <- pull b0 row;
    if (p_maxLen p <? t_len t)%Z then Done (None, extra)
    else
      let t1 := center t in
      let t2 := if p_modularize p then modularize t1 else t1 in
      do r <- loop (Z.to_nat lim) lim
                (OS run 0 b0 t2 (fun _ => true) (fun _ => (10, 10, 10, 10)) 0 0 extra);
      match r with
      | Fail s => Done (None, o_extra s)
      | Stop s | Next s =>
          if (p_maxLen p <? t_len (o_k s))%Z then Done (None, o_extra s)
          else
            do c <- create (o_b s) (o_k s);
            if mode_eqb (p_extra p) AtOptimalBasis then
              do s' <- extra_cuts (set_k s (fst c)); Done (Some (snd c), o_extra s')
            else Done (Some (snd c), o_extra s)
      end.
End Simplex.

(** ** generateCuts *)
(** What a call is given: the problem, whether a basis is available, the row
    activities, whether the node is in the tree, and for the solver t_si (the
    problem itself, or the clone with range rows turned into equations) its
    answers, its basic variables and statuses. *)
Record call := Call {
  c_si : mip; c_avail : bool; c_act : nat -> Q; c_inTree : bool;
  c_solver : solver; c_choices : choices;
  c_basics : list nat; c_cstat : nat -> stat; c_rstat : nat -> stat;
  c_spent : Q                       (* processor time of the call *)
}.
(** the object: params_, validator_, numrows_ (None is -1) and canLift_.
    originalColLower_ and originalColUpper_ are always NULL and numcols_ is
    always -1. *)
Record gen := Gen { g_par : lpar; g_val : validator; g_rows : option nat }.

(** the copy constructor, A lines 452-473, with the copy constructor of the
    parameters, and operator=, lines 476-486, between two objects, with the
    operator= of the parameters; it does not copy numrows_ *)
Definition gen_copy (o : gen) : gen := Gen (par_copy (g_par o)) (g_val o) (g_rows o).
Definition gen_assign (this o : gen) : gen := Gen (par_assign (g_par this) (g_par o)) (g_val o) (g_rows this).

(** the conversion of range rows, A lines 536-550 and 589-676 *)
Definition is_range (r : row) : bool :=
  match r_lo r, r_hi r with
  | Some l, Some u => (l <? u) && (- c1e50 <? l) && (u <? c1e50)
  | _, _ => false
  end.
Definition num_ranges (m : mip) : nat := length (filter is_range (m_rows m)).
(** the element and the row bounds that are kept *)
Definition keep_lower (r : row) (act : Q) : bool :=
  match r_lo r, r_hi r with Some l, Some u => act - l <? u - act | _, _ => false end.
Fixpoint conv_rows (ncol : nat) (i k : nat) (act : nat -> Q) (rows : list row) : list row :=
  match rows with
  | [] => []
  | r :: rows' =>
      if is_range r then
        (if keep_lower r (act i) then Row (r_form r ++ [((ncol + k)%nat, -1)]) (r_lo r) (r_lo r)
         else Row (r_form r ++ [((ncol + k)%nat, 1)]) (r_hi r) (r_hi r))
        :: conv_rows ncol (S i) (S k) act rows'
      else r :: conv_rows ncol (S i) k act rows'
  end.
Definition width (r : row) : Q := match r_lo r, r_hi r with Some l, Some u => u - l | _, _ => 0 end.
Definition widths (m : mip) : list Q := map width (filter is_range (m_rows m)).
Definition converted (m : mip) (act : nat -> Q) : mip :=
  Mip (m_ncols m + num_ranges m) (conv_rows (m_ncols m) 0 0 act (m_rows m))
      (fun j => if (j <? m_ncols m)%nat then m_clo m j else Some 0)
      (fun j => if (j <? m_ncols m)%nat then m_chi m j else Some (nth (j - m_ncols m) (widths m) 0))
      (fun j => if (j <? m_ncols m)%nat then m_int m j else false).

(** the cached basis, A lines 339-393: nonBasics_ has room for one entry for each
    column *)
Definition cached_basis (t : mip) (c : call) : outcome basis :=
  let nonb := filter (fun j => negb (stat_eqb (c_cstat c j) Basic)) (seq 0 (m_ncols t)) ++
              map (Nat.add (m_ncols t)) (filter (fun i => negb (stat_eqb (c_rstat c i) Basic)) (seq 0 (length (m_rows t)))) in
  if (m_ncols t <? length nonb)%nat then Undef OutOfBounds
  else if (length nonb <? m_ncols t)%nat then Undef Uninitialised
  else Done (Bs (c_basics c) nonb (c_cstat c) (c_rstat c)).

(** getSortedFractionalIndices, A lines 901-935: the rows of fractional integer
    columns, by decreasing infeasibility, then by column *)
Definition frac_rows (t : mip) (p : lpar) (b : basis) (x : nat -> Q) : list nat :=
  filter (fun i => match nth_error (b_basics b) i with
                   | Some j => (j <? m_ncols t)%nat && m_int t j && negb (infeas (x j) <=? p_away p)
                   | None => false end)
         (seq 0 (length (m_rows t))).
Definition before (b : basis) (x : nat -> Q) (i k : nat) : bool :=
  let ci := basic_at b i in let ck := basic_at b k in
  (infeas (x ck) <? infeas (x ci)) || (Qeq_bool (infeas (x ci)) (infeas (x ck)) && (ci <? ck)%nat).
Fixpoint insert_row (b : basis) (x : nat -> Q) (i : nat) (l : list nat) : list nat :=
  match l with
  | [] => [i]
  | k :: l' => if before b x k i then k :: insert_row b x i l' else i :: l
  end.
Definition sorted_rows (t : mip) (p : lpar) (b : basis) (x : nat -> Q) : list nat :=
  fold_right (insert_row b x) [] (frac_rows t p b x).
(** A lines 687-688; a negative maximumCandidates is a large unsigned number *)
Definition candidate_rows (p : lpar) (l : list nat) : list nat :=
  if (p_maxCand p <? 0)%Z then l else firstn (Z.to_nat (p_maxCand p)) l.

Section Generate.
  Variable ins : list rowcut -> rowcut -> list rowcut.
  Variable c : call.
  Variable t : mip.            (* t_si *)
  Variable ranges : bool.
  Variable p : lpar.           (* the local copy params, but for pivotLimit *)
  Variable userLimit : Z.      (* params_.pivotLimit *)
  Variable v_ : validator.
  Variable b0 : basis.
  Variable x0 : nat -> Q.
  Notation nsi := (m_ncols (c_si c)).

  Definition as_cut (f : frow) : rowcut := RowCut (fst f) (Some (snd f)) None.
  Definition empty_cut : rowcut := RowCut [] None None.
  Definition accepted (k : code) : bool := match k with NoneAccepted => true | _ => false end.
  (** the validator called with the bounds of si, A lines 742, 756 and 826 *)
  Definition validate (f : frow) : outcome (code * frow) :=
    cleanCut (p_eps p) v_ nsi nsi (m_clo (c_si c)) (m_chi (c_si c)) x0 f.
  (** the local copy params, whose pivotLimit is [lim] *)
  Record lst := LS { l_lim : Z; l_cs : list rowcut; l_ncut : Z; l_extra : list (nat * frow) }.
  (** A lines 721-821; the cut is None while it is the default OsiRowCut *)
  Definition one_row (i row : nat) (s : lst) : outcome lst :=
    do g <- (if (l_lim s =? 0)%Z then
               do r <- generateMig t (c_solver c) p b0 row; Done (Some (snd r), l_extra s)
             else optimize t (c_solver c) (c_choices c) p v_ x0 (2 * i) b0 (l_lim s) row (l_extra s));
    do kc <- (match fst g with
              | None => Done (NoneAccepted, None)
              | Some f => do r <- validate f; Done (fst r, Some (snd r))
              end);
    do r <- (if (match fst g with None => true | Some _ => negb (accepted (fst kc)) end) && negb (l_lim s =? 0)%Z then
               do g2 <- optimize t (c_solver c) (c_choices c) p v_ x0 (2 * i + 1) b0 0 row (snd g);
               match fst g2 with
               | Some f => do r <- validate f; Done (fst r, Some (snd r), snd g2, userLimit)
               | None => Done (fst kc, snd kc, snd g2, userLimit)
               end
             else Done (fst kc, snd kc, snd g, l_lim s));
    let '(k, cut, extra, lim) := r in
    if accepted k then
      let rc := match cut with
                | None => empty_cut
                | Some f => if ranges && existsb (fun e => (nsi <=? fst e)%nat) (fst f) then empty_cut else as_cut f
                end in
      Done (LS lim (ins (l_cs s) rc) (l_ncut s + 1)%Z extra)
    else Done (LS lim (l_cs s) (l_ncut s) extra).
  (** the loop, A lines 713-822 *)
  Fixpoint rows_loop (i : nat) (rows : list nat) (s : lst) : outcome lst :=
    match rows with
    | [] => Done s
    | r :: rows' =>
        if ((l_ncut s <? p_maxCuts p) && (l_ncut s <? Z.of_nat (length (m_rows t))))%Z then
          do s' <- one_row i r s; rows_loop (S i) rows' s'
        else Done s
    end.
  (** the extra cuts by column, A lines 824-847 *)
  Definition extra_of (e : list (nat * frow)) (j : nat) : option frow :=
    option_map snd (find (fun a => Nat.eqb (fst a) j) e).
  Definition add_extra (e : list (nat * frow)) (cs : list rowcut) (j : nat) : outcome (list rowcut) :=
    match extra_of e j with
    | None => Done cs
    | Some f => do r <- validate f; Done (if accepted (fst r) then ins cs (as_cut (snd r)) else cs)
    end.
  (** genThisBasisMigs right after the constructor, A lines 678-682: B line 582
      reads ncols_, which the constructor sets only when pivotLimit is 0, and
      line 584 reads colsol_, which is then NULL *)
  Definition first_migs : outcome unit :=
    match p_extra p with
    | AllViolatedMigs =>
        if (length (m_rows t) =? 0)%nat then Done tt
        else if (p_pivotLimit p =? 0)%Z then
          if existsb (fun i => let j := basic_at b0 i in (j <? m_ncols t)%nat && m_int t j) (seq 0 (length (m_rows t)))
          then Undef NullDeref else Done tt
        else Undef Uninitialised
    | _ => Done tt
    end.
  Definition separate (cs : list rowcut) : outcome (list rowcut) :=
    do u <- first_migs;
    do s <- rows_loop 0 (candidate_rows p (sorted_rows t p b0 x0)) (LS (p_pivotLimit p) cs 0 []);
    ofold (add_extra (l_extra s)) (seq 0 (m_ncols t)) (l_cs s).
End Generate.

(** params_.maximumCutLength and timeLimit after a call, A lines 711, 850 and 863 *)
Definition set_len (p : lpar) (z : Z) (tm : option Q) : lpar :=
  LPar (p_infinit p) (p_eps p) (p_eps_coeff p) (p_max_support p)
       (p_pivotLimit p) (p_pivotLimitInTree p) (p_maxCuts p) (p_failedLimit p)
       (p_degLimit p) (p_extraLimit p) (p_maxCand p) z
       (p_pivotTol p) (p_away p) tm (p_singleTime p) (p_rhsWeight p)
       (p_useTableau p) (p_modularize p) (p_strengthen p) (p_countRc p)
       (p_space p) (p_perturb p) (p_norm p) (p_rhsType p) (p_lhs p) (p_extra p) (p_rule p).
(** the local copy params, A lines 556-572 *)
Definition local_par (p : lpar) (inTree : bool) (nrows : nat) : lpar :=
  let lim := if inTree then Z.min (p_pivotLimit p) (p_pivotLimitInTree p) else p_pivotLimit p in
  let lim' := match p_time p with Some q => if q <? 0 then 0%Z else lim | None => lim end in
  LPar (p_infinit p) (p_eps p) (p_eps_coeff p) (p_max_support p)
       lim' (p_pivotLimitInTree p) (p_maxCuts p) (p_failedLimit p)
       (p_degLimit p) (p_extraLimit p) (p_maxCand p) (p_maxLen p)
       (p_pivotTol p) (p_away p) (p_time p) (p_singleTime p) (inject_Z (Z.of_nat nrows + 2))
       (p_useTableau p) (p_modularize p) (p_strengthen p) (if inTree then true else p_countRc p)
       (p_space p) (p_perturb p) (p_norm p) (p_rhsType p) (p_lhs p) (p_extra p) (p_rule p).

(** generateCuts, A lines 530-867 *)
Definition generateCuts (ins : list rowcut -> rowcut -> list rowcut) (g : gen) (c : call) (cs : list rowcut)
    : outcome (gen * list rowcut) :=
  let p := g_par g in
  if match g_rows g with Some _ => (p_maxLen p <? 0)%Z | None => false end then Done (g, cs)
  else
    let first := match g_rows g with None => true | Some _ => false end in
    let nr := match g_rows g with None => length (m_rows (c_si c)) | Some k => k end in
    let ranges := first && negb (Nat.eqb (num_ranges (c_si c)) 0) in
    let lp := local_par p (c_inTree c) nr in
    if c_avail c then
      let t := if ranges then converted (c_si c) (c_act c) else c_si c in
      do b0 <- cached_basis t c;
      (* computeWeights, B lines 366-372 *)
      if match p_norm lp, p_rhsType lp with WeightRHS, Dynamic => true | _, _ => false end then Throws
      else
        do cs' <- separate ins c t ranges lp (p_pivotLimit p) (g_val g) b0 (s_x (c_solver c) b0) cs;
        let tm := match p_time p with Some q => Some (q - c_spent c) | None => None end in
        Done (Gen (set_len p (if ranges then - p_maxLen p else p_maxLen p)%Z tm) (g_val g) (Some nr), cs')
    else Aborts.
