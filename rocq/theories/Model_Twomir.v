(** * CglTwomir

    Source: /repo/src/CglTwomir/CglTwomir.cpp and .hpp, compiled as the header
    configures it (TWOMIR_LESS_MALLOC, CBC_CHECK_CUT) and without an original
    solver (originalSolver_ is NULL, so useSolver is the solver given).

    The variables of the code are numbered 0 .. ncol-1 (columns) and
    ncol .. ncol+nrow-1 (slacks of the rows).

    Parameters standing for code outside /repo:
    - the LP point, reduced costs, row prices and basis of the solver ([lp]);
    - [fact], CoinFactorization: [None] when the basis does not factorise,
      otherwise the row of the inverse of the basis for every basic column,
      as the list of its multipliers, one for every row of the problem;
    - [rnd], the successive values of CoinThreadRandom::randomDouble;
    - [dup], the comparison of OsiCuts::insertIfNotDuplicateAndClean; the
      cleaning of that function is not modelled.
    Memory is modelled for the arrays of the cut that is written last
    (NULL when a cut has no coefficient); the scratch arrays have ncol+nrow
    places and are never left.  Loop counters near INT_MAX are not modelled. *)

From Verif Require Import Spec Base.
From Coq Require Import Arith Qabs.
Open Scope Q_scope.

(** What the solver says (CglTwomir.cpp:698-723). *)
Record lp := LP {
  p_m : mip;
  p_x : nat -> Q;            (* getColSolution *)
  p_rc : nat -> Q;           (* getReducedCost *)
  p_pi : nat -> Q;           (* getRowPrice *)
  p_cbas : nat -> bool;      (* basic columns *)
  p_rbas : nat -> bool }.    (* basic slacks *)

(** DBL_MAX, met only where the code reads an infinite bound as a number. *)
Definition big : Q := inject_Z (10 ^ 308).

(** Thresholds (CglTwomir.hpp:324-360). *)
Definition bound_thresh : Q := 1 # 1000000.
Definition integrality_thresh : Q := 1 # 10000000000.
Definition min_tableau : Q := 1 # 1000000000000.
Definition min_rho : Q := 1 # 10000000.
Definition min_alpha : Q := 1 # 10000000.
Definition null_slack : Q := 1 # 100000.
Definition min_abs : Q := 1 # 10000000000000.
Definition min_fix : Q := 1 # 10000000.
Definition max_padding : Q := 1 # 1000000.

(** A constraint (CglTwomir.hpp:12-22). *)
Inductive csense := CE | CL | CG.
Record con := Con { c_t : vec; c_rhs : Q; c_s : csense }.

Section Data.
  Variable p : lp.
  Notation m := (p_m p).
  (** The sizes (CglTwomir.cpp:725-728). *)
  Definition nc : nat := m_ncols m.
  Definition nr : nat := length (m_rows m).
  Definition row_of (i : nat) : row := nth i (m_rows m) (Row [] None None).
  Definition rlow (r : row) : Q := match r_lo r with Some l => l | None => - big end.
  Definition some {A} (o : option A) : bool := match o with Some _ => true | None => false end.
  (** DGG_isConstraintBoundedAbove / Below (CglTwomir.cpp:826-830). *)
  Definition above (i : nat) : bool := some (r_hi (row_of i)).
  Definition below (i : nat) : bool := some (r_lo (row_of i)).
  (** DGG_isEqualityConstraint (CglTwomir.cpp:822-824). *)
  Definition is_eq (i : nat) : bool :=
    match r_hi (row_of i), r_lo (row_of i) with
    | Some h, Some l => Qle_bool (Qabs (h - l)) bound_thresh
    | _, _ => false
    end.
  (** The number the row is measured from (CglTwomir.cpp:851-854, 972-975). *)
  Definition origin (i : nat) : Q :=
    match r_hi (row_of i) with Some h => h | None => rlow (row_of i) end.
  (** frac_part (CglTwomir.hpp:427-430) against DGG_INTEGRALITY_THRESH. *)
  Definition near_int (q : Q) : bool := Qle_bool (frac q) integrality_thresh.
  (** Is the slack an integer variable (CglTwomir.cpp:887-912)? *)
  Definition slack_int (i : nat) : bool :=
    let r := row_of i in
    match r_hi r with
    | Some h => near_int h && (match r_lo r with Some l => near_int l | None => true end)
    | None => near_int (rlow r)
    end &&
    forallb (fun e => near_int (snd e) && m_int m (fst e)) (r_form r).
  (** DGG_isInteger (CglTwomir.cpp:790-793). *)
  Definition isint (v : nat) : bool :=
    if (v <? nc)%nat then m_int m v else slack_int (v - nc).
  (** data->lb, data->ub (CglTwomir.cpp:785-797, 832-836). *)
  Definition lb (v : nat) : option Q :=
    if (v <? nc)%nat then
      match m_clo m v with Some l => Some (if m_int m v then qceil l else l) | None => None end
    else Some 0.
  Definition ub (v : nat) : option Q :=
    if (v <? nc)%nat then
      match m_chi m v with Some u => Some (if m_int m v then qfloor u else u) | None => None end
    else match r_hi (row_of (v - nc)), r_lo (row_of (v - nc)) with
         | Some h, Some l => Some (h - l)
         | _, _ => None
         end.
  (** The slack of row [i] at a point (CglTwomir.cpp:838-854). *)
  Definition slack (i : nat) (z : point) : Q :=
    match r_hi (row_of i) with
    | Some h => h - value (r_form (row_of i)) z
    | None => value (r_form (row_of i)) z - rlow (row_of i)
    end.
  (** data->x, data->rc (CglTwomir.cpp:799-804, 850-874). *)
  Definition lift (z : point) (v : nat) : Q := if (v <? nc)%nat then z v else slack (v - nc) z.
  Definition dx (v : nat) : Q := lift (p_x p) v.
  Definition drc (v : nat) : Q := if (v <? nc)%nat then p_rc p v else p_pi p (v - nc).

  (** DGG_getFormulaConstraint (CglTwomir.cpp:1105-1158). *)
  Definition formula (i : nat) : con :=
    Con (r_form (row_of i) ++
         (if is_eq i then [] else [((nc + i)%nat, if above i then 1 else - (1))]))
        (origin i)
        (if is_eq i then CE else if above i then CL else CG).

  (** The coefficient of column [j] in a list of entries. *)
  Fixpoint coef_sum (j : nat) (v : vec) : Q :=
    match v with
    | [] => 0
    | (k, a) :: v' => if (k =? j)%nat then a + coef_sum j v' else coef_sum j v'
    end.
  (** The entries of the combination of the rows with multipliers [l]
      (CglTwomir.cpp:1044-1056). *)
  Fixpoint combine_rows (l : list Q) (rows : list row) : vec :=
    match l, rows with
    | a :: l', r :: rows' => scale a (r_form r) ++ combine_rows l' rows'
    | _, _ => []
    end.
  Definition keep_small (e : nat * Q) : bool := Qltb min_tableau (Qabs (snd e)).
  (** DGG_getTableauConstraint with mode 0 (CglTwomir.cpp:980-1103). *)
  Definition tab_cols (k : nat) (l : list Q) : vec :=
    filter keep_small
      (map (fun j => (j, coef_sum j (combine_rows l (m_rows m))))
        (filter (fun j => negb (p_cbas p j) || (j =? k)%nat) (seq 0 nc))).
  Definition tab_slack (l : list Q) (i : nat) : vec :=
    let a := nth i l 0 in
    if Qeq_bool a 0 then [] else
    if is_eq i then [] else
    if above i then [((nc + i)%nat, a)] else [((nc + i)%nat, - (1) * a)].
  Definition tab_rhs (l : list Q) : Q :=
    fold_right (fun i s => nth i l 0 * origin i + s) 0 (seq 0 nr).
  Definition tableau (k : nat) (l : list Q) : con :=
    Con (tab_cols k l ++ flat_map (tab_slack l) (seq 0 nr)) (tab_rhs l) CE.

  (** Which bound a variable is measured from, and that bound
      (CglTwomir.cpp:1329-1347): [true] for the upper bound. *)
  Definition side (v : nat) : bool * Q :=
    match lb v, ub v with
    | Some l, Some u => if Qltb (u - dx v) ((u - l) / 2) then (true, u) else (false, l)
    | Some l, None => (false, l)
    | None, Some u => (true, u)
    | None, None => (true, big)
    end.
  Definition flip (e : nat * Q) : nat * Q :=
    (fst e, if fst (side (fst e)) then - (1) * snd e else snd e).
  Definition shift_sum (t : vec) : Q :=
    fold_right (fun e s => snd e * snd (side (fst e)) + s) 0 t.
  (** DGG_transformConstraint (CglTwomir.cpp:1307-1360). *)
  Definition transform (c : con) : con :=
    Con (map flip (c_t c)) (c_rhs c - shift_sum (c_t c)) (c_s c).
  (** The value of the transformed variable (px, lines 1332-1346). *)
  Definition px (v : nat) : Q :=
    let d := if fst (side v) then snd (side v) - dx v else dx v - snd (side v) in
    if Qle_bool (Qabs d) bound_thresh then 0 else d.
  (** DGG_unTransformConstraint (CglTwomir.cpp:1362-1380). *)
  Definition un_sum (t : vec) : Q :=
    fold_right (fun e s => (if fst (side (fst e)) then - (1) * snd e else snd e) * snd (side (fst e)) + s) 0 t.
  Definition untransform (c : con) : con :=
    Con (map flip (c_t c)) (c_rhs c + un_sum (c_t c)) (c_s c).

  (** DGG_getSlackExpression (CglTwomir.cpp:927-978) for an entry of the
      cut, and the entries that replace it (lines 1401-1415). *)
  Definition expand (e : nat * Q) : vec :=
    if (fst e <? nc)%nat then [e] else
    let i := (fst e - nc)%nat in
    map (fun f => (fst f, (if above i then - (1) * snd f else snd f) * snd e)) (r_form (row_of i)).
  Definition slack_rhs (e : nat * Q) : Q :=
    if (fst e <? nc)%nat then 0 else
    let i := (fst e - nc)%nat in
    (if above i then origin i else - (1) * rlow (row_of i)) * snd e.
  (** DGG_substituteSlacks (CglTwomir.cpp:1382-1447). *)
  Definition substitute (c : con) : con :=
    let ex := flat_map expand (c_t c) in
    Con (filter keep_small (map (fun j => (j, coef_sum j ex)) (seq 0 nc)))
        (c_rhs c - fold_right (fun e s => slack_rhs e + s) 0 (c_t c))
        (c_s c).

  (** One coefficient of DGG_nicefyConstraint (CglTwomir.cpp:1460-1500):
      the new coefficient and what the right-hand side loses.  The bound read
      is that of the variable before the transformation. *)
  Definition nice1 (e : nat * Q) : Q * Q :=
    let a := if Qltb (Qabs (snd e)) min_abs then 0 else snd e in
    if isint (fst e) then
      let aht := frac a in
      if Qltb aht min_fix then
        match ub (fst e) with
        | Some u => if Qltb (aht * u) max_padding then (qfloor a, aht * u) else (qfloor a + min_fix, 0)
        | None => if Qeq_bool aht 0 then (qfloor a, 0) else (qfloor a + min_fix, 0)
        end
      else if Qltb (1 - aht) min_fix then (qceil a, 0)
      else (a, 0)
    else if Qltb a min_abs then (0, 0)
    else if Qltb a min_fix then
      match ub (fst e) with
      | Some u => if Qltb (a * u) max_padding then (0, a * u) else (min_fix, 0)
      | None => (min_fix, 0)
      end
    else (a, 0).
  (** DGG_nicefyConstraint (CglTwomir.cpp:1449-1513). *)
  Definition nicefy (c : con) : option con :=
    match c_s c with
    | CL => None
    | _ => Some (Con (map (fun e => (fst e, fst (nice1 e))) (c_t c))
                     (c_rhs c - fold_right (fun e s => snd (nice1 e) + s) 0 (c_t c)) CG)
    end.
  (** DGG_scaleConstraint (CglTwomir.cpp:1241-1251). *)
  Definition scale_con (t : Z) (c : con) : con :=
    Con (scale (inject_Z t) (c_t c)) (c_rhs c * inject_Z t)
        (if (t <? 0)%Z then match c_s c with CG => CL | CL => CG | CE => CE end else c_s c).

  Definition qmin (a b : Q) : Q := if Qltb a b then a else b.
  (** DGG_buildMir (CglTwomir.cpp:1961-1999). *)
  Definition mir1 (bht : Q) (e : nat * Q) : Q :=
    if isint (fst e) then bht * qfloor (snd e) + qmin bht (frac (snd e))
    else if Qltb 0 (snd e) then snd e else 0.
  Definition buildMir (c : con) : option con :=
    match c_s c, c_t c with
    | CL, _ => None
    | _, [] => None
    | _, _ => Some (Con (map (fun e => (fst e, mir1 (frac (c_rhs c)) e)) (c_t c))
                        (frac (c_rhs c) * qceil (c_rhs c)) CG)
    end.
  (** DGG_is_a_multiple_of_b (CglTwomir.cpp:2182-2190). *)
  Definition is_multiple (a b : Q) : bool := Qltb (b - a * qfloor (b / a)) min_rho.
  (** DGG_is2stepValid (CglTwomir.cpp:2067-2092). *)
  Definition is2stepValid (alpha bht : Q) : bool :=
    if Qltb alpha min_alpha then false else
    if is_multiple alpha bht then false else
    Qltb alpha bht && Qltb 0 alpha && Qle_bool (qceil (bht / alpha)) (1 / alpha).
  (** DGG_build2step (CglTwomir.cpp:2001-2058). *)
  Definition step1 (alpha tau rho : Q) (e : nat * Q) : Q :=
    if isint (fst e) then
      let vht := frac (snd e) in
      let k := qmin (tau - 1) (qfloor (vht / alpha)) in
      qfloor (snd e) * tau * rho + k * rho + qmin rho (vht - k * alpha)
    else if Qltb 0 (snd e) then snd e else 0.
  Definition build2step (alpha : Q) (c : con) : option con :=
    match c_s c, c_t c with
    | CL, _ => None
    | _, [] => None
    | _, _ =>
        let bht := frac (c_rhs c) in
        let tau := qceil (bht / alpha) in
        let rho := bht - alpha * qfloor (bht / alpha) in
        if Qle_bool bht alpha || Qle_bool alpha 0 then None else
        if is_multiple alpha bht then None else
        if Qltb rho min_rho then None else
        Some (Con (map (fun e => (fst e, step1 alpha tau rho e)) (c_t c))
                  (qceil (c_rhs c) * tau * rho) CG)
    end.
  (** The settings read by the cut construction (CglTwomir.hpp:32-39). *)
  Record cparams := CParams {
    q_min : Z; q_max : Z; t_min : Z; t_max : Z; a_max : Z; threshold : Q }.
  Variable cp : cparams.

  (** The search for alpha (CglTwomir.cpp:1910-1917). *)
  Fixpoint shrink (fuel : nat) (kk : Z) (alpha vht bht : Q) : Q :=
    match fuel with
    | O => alpha
    | S f =>
        if negb (is2stepValid alpha bht) && Qle_bool (bht / alpha) (inject_Z (a_max cp)) then
          let alpha' := vht / inject_Z kk in
          if (1000 <? kk + 1)%Z then alpha' else shrink f (kk + 1) alpha' vht bht
        else alpha
    end.
  (** The value the loop uses for one variable (lines 1903-1918).  Division
      by a_max = 0 gives an infinity. *)
  Definition alpha_of (cutoff bht : Q) (e : nat * Q) : option Q :=
    if negb (isint (fst e)) then None else
    if Qle_bool (Qabs (drc (fst e))) cutoff then None else
    let vht := frac (snd e) in
    if Qle_bool bht vht then None else
    if (a_max cp =? 0)%Z || Qltb vht (bht / inject_Z (a_max cp)) then None else
    let alpha := shrink 1000 1 vht vht bht in
    if is2stepValid alpha bht then Some alpha else None.
  Fixpoint first_alpha (cutoff bht : Q) (l : vec) : option Q :=
    match l with
    | [] => None
    | e :: l' => match alpha_of cutoff bht e with Some a => Some a | None => first_alpha cutoff bht l' end
    end.
  Definition best_rc (l : vec) : Q :=
    fold_left (fun s e => if isint (fst e) then (if Qltb s (Qabs (drc (fst e))) then Qabs (drc (fst e)) else s) else s) l 0.
  (** DGG_add2stepToList (CglTwomir.cpp:1883-1959).  The loops of lines
      1925-1927 and 1932-1934 reuse the counter of the loop over the
      variables and leave it at its end, so the first alpha found is the
      only one, and one of the two calls of lines 1947-1956 builds the cut
      with it.  [None] is a nonzero return value. *)
  Definition add2step (c : con) : option (list con) :=
    match first_alpha (best_rc (c_t c) / 10) (frac (c_rhs c)) (c_t c) with
    | None => Some []
    | Some alpha => match build2step alpha c with Some d => Some [d] | None => None end
    end.
  (** DGG_addMirToList (CglTwomir.cpp:1867-1881). *)
  Definition addMir (c : con) : option (list con) :=
    match buildMir c with Some d => Some [d] | None => None end.
  (** DGG_isBaseTrivial (CglTwomir.cpp:2100-2112). *)
  Definition trivial (c : con) : bool :=
    Qltb (frac (frac (c_rhs c))) (threshold cp) || Qltb (1 - frac (frac (c_rhs c))) (threshold cp).

  Definition zrange (a b : Z) : list Z :=
    map (fun k => (a + Z.of_nat k)%Z) (seq 0 (Z.to_nat (b - a + 1))).
  (** The two loops over the scale factors (CglTwomir.cpp:1778-1803,
      1805-1830).  The flag says that a step failed. *)
  Fixpoint scales (add : con -> option (list con)) (nice : bool) (orig : con) (ts : list Z) (acc : list con)
    : list con * bool :=
    match ts with
    | [] => (acc, false)
    | t :: ts' =>
        if (t =? 0)%Z then scales add nice orig ts' acc else
        let base := scale_con t orig in
        match (if nice then Some base else nicefy base) with
        | None => (acc, true)
        | Some b =>
            match c_t b with
            | [] => scales add nice orig ts' acc
            | _ =>
                if trivial b then scales add nice orig ts' acc else
                match add b with
                | None => (acc, true)
                | Some ds => scales add nice orig ts' (acc ++ ds)
                end
            end
        end
    end.

  (** DGG_cutLHS, DGG_isCutDesirable (CglTwomir.cpp:2135-2167);
      every cut built has sense G. *)
  Definition desirable (c : con) : bool :=
    (length (c_t c) <=? 500)%nat && negb (Qltb (c_rhs c - null_slack) (value (c_t c) (p_x p))).
  (** The last loop of DGG_generateCutsFromBase with DGG_list_delcut
      (CglTwomir.cpp:1286-1295, 1832-1857): a cut taken out is replaced by
      the last one. *)
  Fixpoint polish (l : list con) : list con :=
    match l with
    | [] => []
    | c :: l' =>
        let acc := polish l' in
        let d := substitute (untransform c) in
        if desirable d then d :: acc else
        match acc with [] => [] | _ => last acc d :: removelast acc end
    end.

  (** DGG_generateCutsFromBase (CglTwomir.cpp:1727-1865).  When a step fails
      the cuts built so far stay in the list as they are. *)
  Definition from_base (orig : con) : list con * bool :=
    match c_s orig, c_t orig with
    | CL, _ => ([], false)
    | _, [] => ([], false)
    | s, _ =>
        if Qltb (10000000000 # 1) (Qabs (c_rhs orig)) then ([], false) else
        let tr := transform orig in
        let f := frac (c_rhs tr) in
        if Qltb f (threshold cp) || Qltb (1 - threshold cp) f then ([], false) else
        let up z := match s with CG => if (z <? 1)%Z then 1%Z else z | _ => z end in
        let min_t := up (t_min cp) in
        let min_q := up (q_min cp) in
        let nice := ((0 <? min_q) && (0 <? min_t))%Z in
        match (if nice then nicefy tr else Some tr) with
        | None => ([], true)
        | Some base =>
            let (l1, e1) := scales addMir nice base (zrange min_t (t_max cp)) [] in
            if e1 then (l1, true) else
            let (l2, e2) := scales add2step nice base (zrange min_q (q_max cp)) l1 in
            if e2 then (l2, true) else (polish l2, false)
        end
    end.

  (** DGG_generateTabRowCuts (CglTwomir.cpp:1516-1592). *)
  Fixpoint tab_loop (f : nat -> list Q) (ks : list nat) (acc : list con) : list con :=
    match ks with
    | [] => acc
    | k :: ks' =>
        if negb (p_cbas p k && m_int m k) then tab_loop f ks' acc else
        if Qltb (frac (p_x p k)) (threshold cp) || Qltb (1 - threshold cp) (frac (p_x p k)) then tab_loop f ks' acc else
        let base := tableau k (f k) in
        if ((length (c_t base) =? 0) || (500 <? length (c_t base)))%nat then tab_loop f ks' acc else
        let (cs, err) := from_base base in
        if err then acc ++ cs else tab_loop f ks' (acc ++ cs)
    end.
  Definition tab_cuts (fact : option (nat -> list Q)) : list con :=
    match fact with None => [] | Some f => tab_loop f (seq 0 nc) [] end.

  (** int(q) (CglTwomir.cpp:1689). *)
  Definition trunc (q : Q) : Z := if Qltb q 0 then (- Qfloor (- q))%Z else Qfloor q.
  (** The constraint divided by a number (CglTwomir.cpp:1684-1701). *)
  Definition divide (q : Q) (c : con) : con :=
    Con (map (fun e => (fst e, snd e / q)) (c_t c)) (c_rhs c / q)
        (match c_s c with CL => CG | s => s end).
  (** The loop of DGG_generateFormulationCutsFromBase (CglTwomir.cpp:
      1636-1725).  [base] is the transformed row, [sl] the slack of the row
      at the LP point; for a row without bounds the slack is near DBL_MAX and
      no scale factor passes line 1673 ([free]).  [used] counts the random
      numbers drawn. *)
  Fixpoint form_loop (rnd : nat -> Q) (base : con) (sl : Q) (free : bool) (prob : Q)
      (es : vec) (used : nat) (sk : list Z) (acc : list con) : outcome (list con * nat * bool) :=
    match es with
    | [] => Done (acc, used, false)
    | e :: es' =>
        if negb (isint (fst e)) then form_loop rnd base sl free prob es' used sk acc else
        let skip := form_loop rnd base sl free prob es' (S used) sk acc in
        if negb (Qltb (rnd used) prob) then skip else
        if Qltb (px (fst e)) (1 # 100) then skip else
        let s := Qabs (snd e) in
        if Qltb s (1 # 100) then skip else
        if free || Qltb (1 # 2) (Qabs (sl / s)) then skip else
        let q := match c_s base with CL => - (1) * s | _ => s end in
        let k := trunc ((100 # 1) * q) in
        if negb (int_range k) then Undef FloatCast else
        if existsb (Z.eqb k) sk then skip else
        let (cs, err) := from_base (untransform (divide q base)) in
        if err then Done (acc ++ cs, S used, true)
        else form_loop rnd base sl free prob es' (S used) (k :: sk) (acc ++ cs)
    end.
  Definition form_row (rnd : nat -> Q) (i used : nat) : outcome (list con * nat * bool) :=
    let base := transform (formula i) in
    let ints := length (filter (fun e => isint (fst e)) (c_t base)) in
    if (ints =? 0)%nat then Done ([], used, false) else
    form_loop rnd base (slack i (p_x p)) (negb (above i || below i)) ((5 # 1) / inject_Z (Z.of_nat ints))
      (c_t base) used [] [].
  (** DGG_generateFormulationCuts (CglTwomir.cpp:1594-1633). *)
  Fixpoint form_rows (rnd : nat -> Q) (is : list nat) (used : nat) (acc : list con) : outcome (list con * nat) :=
    match is with
    | [] => Done (acc, used)
    | i :: is' =>
        do r <- form_row rnd i used;
        let '(cs, u, err) := r in
        if err then Done (acc ++ cs, u) else form_rows rnd is' u (acc ++ cs)
    end.
  Definition form_cuts (rnd : nat -> Q) (rows : Z) (used : nat) : outcome (list con * nat) :=
    form_rows rnd (seq 0 (Nat.min nr (Z.to_nat rows))) used [].

  (** The loop over the coefficients of a cut (CglTwomir.cpp:354-404): the
      entries kept, the right-hand side, the largest and the smallest size;
      [None] when a coefficient is too small. *)
  Definition fixed (j : nat) : bool :=
    match m_clo m j, m_chi m j with Some l, Some u => Qeq_bool l u | _, _ => false end.
  Fixpoint scan (t : vec) (kept : vec) (rhs largest smallest : Q) : option (vec * Q * Q * Q) :=
    match t with
    | [] => Some (kept, rhs, largest, smallest)
    | (j, a) :: t' =>
        if Qltb (Qabs a) (1 # 1000000) then None else
        if fixed j then scan t' kept (rhs - a * (match m_clo m j with Some l => l | None => 0 end)) largest smallest
        else scan t' (kept ++ [(j, a)]) rhs
               (if Qltb largest (Qabs a) then Qabs a else largest)
               (if Qltb (Qabs a) smallest then Qabs a else smallest)
    end.
  Inductive emit := ERow (c : rowcut) | ECol (c : colcut).
  Definition opt_lt_hi (q : Q) (h : option Q) : bool := match h with Some u => Qltb q u | None => true end.
  Definition opt_gt_lo (q : Q) (l : option Q) : bool := match l with Some u => Qltb u q | None => true end.
  (** A cut left with one column, or none (CglTwomir.cpp:410-457).  The
      first entry of the arrays is read; with none left it is the first entry
      of the cut, and there is no array when the cut had no entry. *)
  Definition infeasible_cut : rowcut := RowCut [] (Some 1) (Some 0).
  Definition single (e : nat * Q) (rhs : Q) : list emit :=
    let (j, a) := e in
    let tol := 1 # 10000 in
    if Qltb 0 a then
      let l := rhs / a in
      let l := if m_int m j then qceil (l - tol) else l in
      if match m_chi m j with Some u => Qltb (u + tol) l | None => false end then [ERow infeasible_cut] else
      if m_int m j && opt_gt_lo l (m_clo m j) then [ECol (ColCut [(j, l)] [])] else []
    else
      let u := rhs / a in
      let u := if m_int m j then qfloor (u + tol) else u in
      if match m_clo m j with Some l => Qltb (u + tol) l | None => false end then [ERow infeasible_cut] else
      if m_int m j && opt_lt_hi u (m_chi m j) then [ECol (ColCut [] [(j, u)])] else [].
  (** One cut of the list (CglTwomir.cpp:331-465). *)
  Definition emit1 (max_elements : Z) (c : con) : outcome (list emit) :=
    if negb (Z.of_nat (length (c_t c)) <? max_elements)%Z then Done [] else
    if existsb (fun e => Qeq_bool (snd e) 0) (c_t c) then Done [] else
    match scan (c_t c) [] (c_rhs c) 0 (inject_Z (10 ^ 30)) with
    | None => Done []
    | Some (kept, rhs, largest, smallest) =>
        if Qltb largest ((100000000 # 1) * smallest) && Qltb (1 # 100000) smallest then
          match kept with
          | _ :: _ :: _ => Done [ERow (RowCut kept (Some rhs) None)]
          | [e] => Done (single e rhs)
          | [] => match c_t c with
                  | [] => Undef NullDeref
                  | e :: _ => Done (single e rhs)
                  end
          end
        else Done []
    end.
  Fixpoint emits (max_elements : Z) (l : list con) : outcome (list emit) :=
    match l with
    | [] => Done []
    | c :: l' => do a <- emit1 max_elements c; do b <- emits max_elements l'; Done (a ++ b)
    end.
End Data.

(** The object (CglTwomir.hpp:209-233) and its construction
    (CglTwomir.cpp:555-562). *)
Record twomir := Twomir {
  w_away : Q; w_away_root : Q; w_mir : bool; w_2mir : bool; w_tab : bool; w_form : bool;
  w_tmin : Z; w_tmax : Z; w_qmin : Z; w_qmax : Z; w_amax : Z;
  w_max : Z; w_max_root : Z; w_form_rows : Z; w_used : nat }.
Definition tm_new : twomir :=
  Twomir (5 # 10000) (5 # 10000) true true true true 1 1 1 1 2 50000 50000 0 0.
(** The setters (CglTwomir.hpp:134-141, CglTwomir.cpp:2228-2243). *)
Inductive tm_set :=
| SMirScale (a b : Z) | STwomirScale (a b : Z) | SAMax (a : Z) | SMaxElements (n : Z)
| SMaxElementsRoot (n : Z) | SCutTypes (mir two tab form : bool) | SFormulationRows (n : Z)
| SAway (q : Q) | SAwayAtRoot (q : Q).
Definition ok_away (q : Q) : bool := Qltb 0 q && Qle_bool q (1 # 2).
Definition tm_apply (o : twomir) (s : tm_set) : twomir :=
  let '(Twomir aw ar m1 m2 tb fm tn tx qn qx am mx mr fr u) := o in
  match s with
  | SMirScale a b => Twomir aw ar m1 m2 tb fm a b qn qx am mx mr fr u
  | STwomirScale a b => Twomir aw ar m1 m2 tb fm tn tx a b am mx mr fr u
  | SAMax a => Twomir aw ar m1 m2 tb fm tn tx qn qx a mx mr fr u
  | SMaxElements n => Twomir aw ar m1 m2 tb fm tn tx qn qx am n mr fr u
  | SMaxElementsRoot n => Twomir aw ar m1 m2 tb fm tn tx qn qx am mx n fr u
  | SCutTypes a b c d => Twomir aw ar a b c d tn tx qn qx am mx mr fr u
  | SFormulationRows n => Twomir aw ar m1 m2 tb fm tn tx qn qx am mx mr n u
  | SAway q => if ok_away q then Twomir q ar m1 m2 tb fm tn tx qn qx am mx mr fr u else o
  | SAwayAtRoot q => if ok_away q then Twomir aw q m1 m2 tb fm tn tx qn qx am mx mr fr u else o
  end.

(** The fields of CglTreeInfo that are read. *)
Record tinfo := TInfo { i_tree : bool; i_level : Z; i_pass : Z; i_options : Z; i_rows : Z }.
Definition bit (z mask : Z) : bool := negb (Z.land z mask =? 0)%Z.

(** A column that is free for the test of lines 109-113. *)
Definition free_col (m : mip) (j : nat) : bool :=
  match m_clo m j with Some l => Qltb l (- inject_Z (10 ^ 20)) | None => true end &&
  match m_chi m j with Some u => Qltb (inject_Z (10 ^ 20)) u | None => true end.
(** The length limit (CglTwomir.cpp:296-309). *)
Definition max_of (p : lp) (o : twomir) (i : tinfo) : Z :=
  if i_tree i then w_max o else
  if (i_pass i =? 0)%Z || bit (i_options i) 32 then Z.of_nat (m_ncols (p_m p)) else w_max_root o.
(** The settings handed to the construction (CglTwomir.cpp:290-312). *)
Definition params_of (o : twomir) (i : tinfo) : cparams :=
  CParams (w_qmin o) (if w_2mir o then w_qmax o else w_qmin o - 1)
          (w_tmin o) (if w_mir o then w_tmax o else w_tmin o - 1)
          (w_amax o) (if i_tree i then w_away o else w_away_root o).

(** Insertion into the collection: row cuts carry the globally-valid mark. *)
Fixpoint put (dup : list (rowcut * bool) -> rowcut -> bool) (rows : list (rowcut * bool)) (cols : list colcut)
    (es : list emit) : list (rowcut * bool) * list colcut :=
  match es with
  | [] => (rows, cols)
  | ERow c :: es' => put dup (if dup rows c then rows else rows ++ [(c, false)]) cols es'
  | ECol c :: es' => put dup rows (cols ++ [c]) es'
  end.
(** The marks (CglTwomir.cpp:482-489 and, in a build with Clp, 530-535);
    [before] is the number of row cuts at the start. *)
Definition marks (clp : bool) (o : twomir) (i : tinfo) (before : nat) (rows : list (rowcut * bool)) : list (rowcut * bool) :=
  let first := negb (i_tree i) &&
      ((Z.land (i_options i) 4 =? 4)%Z || (bit (i_options i) 8 && (i_pass i =? 0)%Z)) in
  firstn before rows ++
  map (fun cb => (fst cb, snd cb ||
        (first && (Z.of_nat (length (rc_form (fst cb))) <=? w_max o)%Z) ||
        (clp && negb (i_tree i)))) (skipn before rows).

(** CglTwomir::generateCuts without an original solver (CglTwomir.cpp:
    87-550).  [clp] says whether CBC_HAS_CLP is defined. *)
Definition cut_list (p : lp) (fact : option (nat -> list Q)) (rnd : nat -> Q) (o : twomir) (i : tinfo)
    : outcome (list con * nat) :=
  let cp := params_of o i in
  let l1 := if w_tab o && (i_level i <? 1)%Z && (i_pass i <? 6)%Z then tab_cuts p cp fact else [] in
  if w_form o then
    do r <- form_cuts p cp rnd (i_rows i) (w_used o);
    Done (l1 ++ fst r, snd r)
  else Done (l1, w_used o).
Definition generateCuts (clp : bool) (dup : list (rowcut * bool) -> rowcut -> bool)
    (p : lp) (fact : option (nat -> list Q)) (rnd : nat -> Q) (o : twomir) (i : tinfo)
    (rows : list (rowcut * bool)) (cols : list colcut)
    : outcome (list (rowcut * bool) * list colcut * nat) :=
  if existsb (free_col (p_m p)) (seq 0 (m_ncols (p_m p))) then Done (rows, cols, w_used o) else
  do r <- cut_list p fact rnd o i;
  do es <- emits p (max_of p o i) (fst r);
  let (rows', cols') := put dup rows cols es in
  Done (marks clp o i (length rows) rows', cols', snd r).
