(** * Model of CglResidualCapacity
    /repo/src/CglResidualCapacity/CglResidualCapacity.cpp and .hpp.

    Line numbers refer to CglResidualCapacity.cpp.  Debug output and the
    effectiveness stored in a cut are not modelled.  The pointers of the
    object are replaced by the lists they hold (they are deep copied by copy
    construction and assignment, lines 182-223).
    OsiCuts::insertIfNotDuplicateAndClean is taken to be
    insertIfNotDuplicate. *)

From Coq Require Import Qabs.
From Verif Require Import Base.
Local Open Scope Q_scope.

(** What a row was found good for: RowType, .hpp lines 53-68, as two flags
    (ROW_L, ROW_G, ROW_BOTH, ROW_OTHER). *)
Record rowinfo := RowInfo { ri_L : bool; ri_G : bool; ri_rhs : Q }.

(** The object, .hpp lines 166-207.  [rg_info] stands for numRows_, RHS_,
    rowTypes_, indRows_, indRowL_, indRowG_. *)
Record resgen := ResGen {
  rg_eps : Q; rg_tol : Q; rg_mode : Z;
  rg_done : bool; rg_info : list rowinfo
}.
(** gutsOfConstruct, lines 146-164, and the two constructors, lines 81-98. *)
Definition rg_new_eps (e : Q) : resgen := ResGen e (1 # 10000) (-1) false [].
Definition rg_new : resgen := rg_new_eps (1 # 1000000).

(** Setters and getters, lines 655-690. *)
Definition refreshPrep (g : resgen) : resgen :=
  ResGen (rg_eps g) (rg_tol g) (rg_mode g) false (rg_info g).
Definition setEpsilon (g : resgen) (v : Q) : resgen :=
  ResGen v (rg_tol g) (rg_mode g) (rg_done g) (rg_info g).
Definition setTolerance (g : resgen) (v : Q) : resgen :=
  ResGen (rg_eps g) v (rg_mode g) (rg_done g) (rg_info g).
Definition setDoPreproc (g : resgen) (v : Z) : outcome resgen :=
  if negb (v =? -1)%Z && negb (v =? 0)%Z && negb (v =? 1)%Z then Throws
  else Done (ResGen (rg_eps g) (rg_tol g) v (rg_done g) (rg_info g)).
Definition getDoPreproc (g : resgen) : bool := negb (rg_mode g =? 0)%Z.

(** What the solver is asked for: the model, getColSolution, getRowActivity
    and the two presolve hints (lines 34-37). *)
Record call := Call {
  c_mip : mip; c_x : nat -> Q; c_act : nat -> Q;
  c_hint_initial : bool; c_hint_resolve : bool
}.

Definition DBL_MAX : Q := inject_Z (2 ^ 1024 - 2 ^ 971).

Section Row.
  Variable eps tol : Q.
  Variable m : mip.
  Variable x : nat -> Q.

  (** coef > EPSILON_ || !intVar, lines 432 and 572 *)
  Definition is_cont (e : nat * Q) : bool := (eps <? snd e) || negb (m_int m (fst e)).
  (** coef < -EPSILON_ && intVar, lines 440, 445 and 556 *)
  Definition is_int (e : nat * Q) : bool := (snd e <? - eps) && m_int m (fst e).
  (** colLowerBound < -EPSILON_ || colUpperBound > 1.e10, line 433 *)
  Definition bad_bounds (j : nat) : bool :=
    match m_clo m j with None => true | Some l => l <? - eps end ||
    match m_chi m j with None => true | Some u => 10000000000 <? u end.

  (** treatAsLessThan, lines 417-454; [ic] is the coefficient of the first
      integer column found. *)
  Fixpoint treat (v : vec) (ic : option Q) (cont : bool) : bool :=
    match v with
    | [] => cont && match ic with Some _ => true | None => false end
    | e :: v' =>
        if is_cont e then if bad_bounds (fst e) then false else treat v' ic true
        else
          match ic with
          | None => if is_int e then treat v' (Some (snd e)) cont else treat v' ic cont
          | Some c => if is_int e && (eps <? Qabs (snd e - c)) then false else treat v' ic cont
          end
    end.
  Definition treatAsLessThan (v : vec) : bool := treat v None false.

  Definition negate (v : vec) : vec := map (fun e => (fst e, - snd e)) v.

  (** determineRowType, lines 364-411, and the choice of a side for ranged
      rows, lines 281-292; [act] is the row's activity.  Rows of sense N fall
      through to ROW_OTHER. *)
  Definition row_info (r : row) (act : Q) : rowinfo :=
    let v := r_form r in
    let s := row_sense r in
    let low := match r_lo r with Some l => l | None => 0 end in
    let up := match r_hi r with Some u => u | None => 0 end in
    let s' := match s with
              | SenseR => if (act - low <? up - act) then SenseG else SenseL
              | _ => s
              end in
    let rhs := match s with
               | SenseR => if (act - low <? up - act) then low else up
               | _ => row_rhs r
               end in
    let empty := match v with [] => true | _ => false end in
    match s' with
    | SenseL => RowInfo (negb empty && treatAsLessThan v) false rhs
    | SenseG => RowInfo false (negb empty && treatAsLessThan (negate v)) rhs
    | SenseE => RowInfo (negb empty && treatAsLessThan v) (negb empty && treatAsLessThan (negate v)) rhs
    | _ => RowInfo false false rhs
    end.

  (** si.getColUpper(); an infinite bound is COIN_DBL_MAX *)
  Definition upper (j : nat) : Q := match m_chi m j with Some u => u | None => DBL_MAX end.
  (** coefficient of the scaled variable before complementing, line 573 *)
  Definition scaled (e : nat * Q) : Q := snd e * upper (fst e).
  Definition complemented (e : nat * Q) : bool := scaled e <? - eps.
  Definition newcoef (e : nat * Q) : Q := if complemented e then - scaled e else scaled e.
  (** xbar > lambda, lines 574-578 and 587.  Dividing by an upper bound of
      zero gives an infinity or NaN; only plus infinity exceeds lambda. *)
  Definition above (lambda : Q) (e : nat * Q) : bool :=
    let u := upper (fst e) in
    if Qeq_bool u 0 then 0 <? x (fst e)
    else if complemented e then lambda <? 1 - x (fst e) / u
    else lambda <? x (fst e) / u.
  Definition sumq (l : list Q) : Q := fold_right Qplus 0 l.

  (** resCapSeparation, lines 535-648.  [v] and [rhs] describe the row as
      v <= rhs. *)
  Definition separate (v : vec) (rhs : Q) : option rowcut :=
    let ints := filter is_int v in
    let conts := filter is_cont v in
    let ybar := sumq (map (fun e => x (fst e)) ints) in
    let intCoef := fold_left (fun _ e => - snd e) ints (-1) in
    let newRHS := rhs + sumq (map newcoef (filter complemented conts)) in
    let lambda := ybar - qfloor ybar in
    let sbar := filter (above lambda) conts in
    let sumCoef := sumq (map newcoef sbar) in
    match sbar with
    | [] => None
    | _ =>
        let t := (sumCoef - newRHS) / intCoef in
        let mu := qceil t in
        let r := sumCoef - newRHS - intCoef * qfloor t in
        let complCoef := sumq (map scaled (filter (fun e => snd e <? - eps) sbar)) in
        let form := sbar ++ map (fun e => (fst e, - r)) ints in
        let cutRHS := (sumCoef - r * mu) + complCoef in
        if tol <? value form x - cutRHS then Some (RowCut form None (Some cutRHS)) else None
    end.
End Row.

(** resCapPreprocess, lines 229-359. *)
Definition preprocess (eps : Q) (c : call) : list rowinfo :=
  map (fun ri => row_info eps (c_mip c) (snd ri) (c_act c (fst ri)))
      (combine (seq 0 (length (m_rows (c_mip c)))) (m_rows (c_mip c))).

(** generateResCapCuts, lines 459-530: first the rows usable as <=, then
    those usable as >=. *)
Definition add_cut (cs : list rowcut) (oc : option rowcut) : list rowcut :=
  match oc with Some c => insert_new cs c | None => cs end.
Definition resCapCuts (eps tol : Q) (m : mip) (x : nat -> Q) (info : list rowinfo) (cs : list rowcut) : list rowcut :=
  let rs := combine info (m_rows m) in
  let cs1 := fold_left (fun cs ir =>
      if ri_L (fst ir) then add_cut cs (separate eps tol m x (r_form (snd ir)) (ri_rhs (fst ir))) else cs) rs cs in
  fold_left (fun cs ir =>
      if ri_G (fst ir) then add_cut cs (separate eps tol m x (negate (r_form (snd ir))) (- ri_rhs (fst ir))) else cs) rs cs1.

(** Whether generateCuts preprocesses, lines 38-53. *)
Definition must_preprocess (g : resgen) (c : call) : bool :=
  if negb (c_hint_initial c) && negb (c_hint_resolve c) && (rg_mode g =? -1)%Z
  then negb (rg_done g)
  else if (rg_mode g =? 1)%Z then true
  else negb (rg_done g).
(** generateCuts, lines 26-76.  CoinPackedMatrix::submatrixOf throws when a
    requested row does not exist. *)
Definition generateCuts (g : resgen) (c : call) (cs : list rowcut) : outcome (resgen * list rowcut) :=
  let g' := if must_preprocess g c
            then ResGen (rg_eps g) (rg_tol g) (rg_mode g) true (preprocess (rg_eps g) c) else g in
  if (length (m_rows (c_mip c)) <? length (rg_info g'))%nat then Throws
  else Done (g', resCapCuts (rg_eps g') (rg_tol g') (c_mip c) (c_x c) (rg_info g') cs).
