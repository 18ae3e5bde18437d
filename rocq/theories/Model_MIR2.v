(** * Model of CglMixedIntegerRounding2
    /repo/src/CglMixedIntegerRounding2/CglMixedIntegerRounding2.cpp and .hpp.

    Line numbers refer to CglMixedIntegerRounding2.cpp.  CGL_DEBUG and
    CBC_CHECK_CUT_LENGTH are not defined.  SAFE_ROWS is: it is defined in the
    middle of the file (line 393), before every place that tests it.
    CBC_HAS_CLP is not set by anything in /repo and is the parameter [clp].

    What is the same text as in CglMixedIntegerRounding.cpp is taken from
    Model_MIR: the tolerances (lines 315-317), the choice of a side for a range
    row (501-513), variable bounds (635-682), copyRowSelected (1080-1114), the
    distance of a column to its bounds (1140-1163), aggregateRow (1200-1219),
    isLowerSubst (1223-1248), the search for the best c-MIR inequality
    (1434-1574), cMirInequality (1745-1805) and functionG.

    Parameters: [sqrt], [srt] and [keep] as in Model_MIR, and [ins], which is
    OsiCuts::insertIfNotDuplicateAndClean.

    CoinIndexedVector (CoinUtils) is a list of (index, value) in the order of
    insertion.  It stores 1e-100 for an entry that cancels while it is added to;
    the model stores 0, which differs only when such an entry meets an infinite
    bound, and then the code loses a cut that the model keeps.  The arrays
    indexed by columns or rows of a model that has lost columns since the
    preprocessing are not modelled; lost rows are. *)

From Coq Require Import Qabs.
From Verif Require Import Base Model_MIR.
Local Open Scope Q_scope.

(** The object; [m2_saved] tells whether the second half of rowTypes_ has been
    written (lines 476-480 and 562-565 write it; gutsOfCopy, lines 391-396,
    allocates it and copies only the first half) *)
Record mir2 := Mir2 {
  m2_maxaggr : Z; m2_multiply : bool; m2_criterion : Z; m2_mode : Z;
  m2_done : bool; m2_prep : prep; m2_saved : bool
}.
(** gutsOfConstruct, lines 288-338; default constructor, lines 221-226 *)
Definition m2_construct (maxaggr : Z) (multiply : bool) (criterion mode : Z) : outcome mir2 :=
  if negb (0 <? maxaggr)%Z then Throws
  else if negb ((1 <=? criterion)%Z && (criterion <=? 3)%Z) then Throws
  else if negb ((-1 <=? mode)%Z && (mode <=? 2)%Z) then Throws
  else Done (Mir2 maxaggr multiply criterion mode false p_none true).
Definition m2_new : mir2 := Mir2 1 true 1 (-1) false p_none true.
(** gutsOfCopy, lines 362-436: copy constructor, clone and assignment *)
Definition m2_copy (g : mir2) : mir2 :=
  Mir2 (m2_maxaggr g) (m2_multiply g) (m2_criterion g) (m2_mode g) (m2_done g) (m2_prep g)
       (Nat.eqb (length (p_rows (m2_prep g))) 0).
(** setters, .hpp, and setDoPreproc, lines 1962-1971 *)
Definition with_aggr (g : mir2) (v : Z) : mir2 :=
  Mir2 v (m2_multiply g) (m2_criterion g) (m2_mode g) (m2_done g) (m2_prep g) (m2_saved g).
Definition setMAXAGGR2 (g : mir2) (v : Z) : outcome mir2 :=
  if (0 <? v)%Z || (v =? -1)%Z || (v =? -2)%Z then Done (with_aggr g v) else Throws.
Definition setMULTIPLY2 (g : mir2) (v : bool) : mir2 :=
  Mir2 (m2_maxaggr g) v (m2_criterion g) (m2_mode g) (m2_done g) (m2_prep g) (m2_saved g).
Definition setCRITERION2 (g : mir2) (v : Z) : outcome mir2 :=
  if ((1 <=? v)%Z && (v <=? 3)%Z)
  then Done (Mir2 (m2_maxaggr g) (m2_multiply g) v (m2_mode g) (m2_done g) (m2_prep g) (m2_saved g)) else Throws.
Definition setDoPreproc2 (g : mir2) (v : Z) : outcome mir2 :=
  if negb (v =? -1)%Z && negb (v =? 0)%Z && negb (v =? 1)%Z then Throws
  else Done (Mir2 (m2_maxaggr g) (m2_multiply g) (m2_criterion g) v (m2_done g) (m2_prep g) (m2_saved g)).

(** What a call is given: the solver's answers and CglTreeInfo.  [q_clpmin]:
    the solver is an OsiClpSolverInterface and minimises (lines 77-79). *)
Record call2 := Call2 {
  q_call : call; q_inTree : bool; q_pass : Z; q_level : Z; q_options : Z; q_clpmin : bool
}.

(** ** Preprocessing *)
(** determineRowType, lines 718-805: empty rows, free rows and rows with a
    right-hand side beyond 1e20 are not used at all *)
Definition huge : Q := 100000000000000000000.
Definition determineRowType2 (m : mip) (v : vec) (s : sense) (rhs : Q) : rtype :=
  match v, s with
  | [], _ | _, SenseN => RUndefined
  | _, _ => if huge <? Qabs rhs then RUndefined else determineRowType m v s rhs
  end.
(** lines 501-519 *)
Definition row_prep2 (m : mip) (act : Q) (r : row) : rowp :=
  let rp := row_prep m act r in
  RowP (determineRowType2 m (r_form r) (rp_sense rp) (rp_rhs rp)) (rp_sense rp) (rp_rhs rp).
(** mixIntRoundPreprocess, lines 443-712 *)
Definition preprocess2 (c : call) : prep :=
  let m := c_mip c in
  let rps := map (fun ir => row_prep2 m (c_act c (fst ir)) (snd ir)) (combine (seq 0 (length (m_rows m))) (m_rows m)) in
  let rrs := combine rps (m_rows m) in
  let vubs := fold_left (vb_step m true) rrs (fun _ => None) in
  let vlbs := fold_left (vb_step m false) rrs (fun _ => None) in
  let is t (rr : rowp * row) := rtype_eqb (rp_type (fst rr)) t in
  let has_vb (rr : rowp * row) := existsb (fun e => some_vb (vlbs (fst e)) || some_vb (vubs (fst e))) (r_form (snd rr)) in
  Prep rps (m_ncols m) vubs vlbs
       (positions (is RMix) rrs ++ positions (fun rr => is RCont rr && has_vb rr) rrs ++ positions (is RInt) rrs).
(** refreshSolver, lines 1926-1938 *)
Definition refreshSolver2 (g : mir2) (c : call) : mir2 :=
  match m_rows (c_mip c) with
  | [] => Mir2 (m2_maxaggr g) (m2_multiply g) (m2_criterion g) (m2_mode g) false (m2_prep g) (m2_saved g)
  | _ => Mir2 (m2_maxaggr g) (m2_multiply g) (m2_criterion g) (m2_mode g) true (preprocess2 c) true
  end.

Section Generate2.
  Variable sqrt : Q -> Q.
  Variable srt : vec -> vec.
  Variable keep : nat * Q -> bool.
  Variable ins : list rowcut -> rowcut -> list rowcut.
  Variable crit : Z.
  Variable p : prep.
  Variable m : mip.
  Variable x : nat -> Q.
  Variable act : nat -> Q.

  (** ** Aggregation *)
  (** lines 1165-1184 with lines 928-936: all rows of a column that was used to
      aggregate are ROW_UNDEFINED until the next start row; [hid] are these
      columns *)
  Definition usable_row2 (used hid : list nat) (j i : nat) : bool :=
    usable_row p m used j i && negb (existsb (has (row_at m i)) hid).
  (** selectRowToAggregate, lines 1119-1195 *)
  Definition select_step2 (used hid : list nat) (s : option Q * option (nat * nat)) (e : nat * Q)
    : option Q * option (nat * nat) :=
    let j := fst e in
    if Nat.leb (p_ncols p) j || m_int m j || (Qabs (snd e) <? eps) then s
    else if exceeds (distance p m x j) (fst s) then
      match find (usable_row2 used hid j) (seq 0 (length (p_rows p))) with
      | Some i => (distance p m x j, Some (j, i))
      | None => s
      end
    else s.
  Definition selectRow2 (hid : list nat) (a : agg) : option (nat * nat) :=
    snd (fold_left (select_step2 (ag_rows a) hid) (ag_row a) (Some 0, None)).
  (** the loop in lines 871-945: the aggregated rows in order, and the columns
      that were used *)
  Fixpoint more2 (k : nat) (hid : list nat) (a : agg) : list agg * list nat :=
    match k with
    | O => ([a], hid)
    | S k' => match selectRow2 hid a with
              | Some (j, i) => let r := more2 k' (hid ++ [j]) (aggregate keep p m act a j i) in (a :: fst r, snd r)
              | None => ([a], hid)
              end
    end.

  (** ** Bound substitution *)
  (** lines 1281-1298: a coefficient below the tolerance is moved to the
      right-hand side at the worst bound of its column.  A slack has no entry
      in the arrays of column bounds.  The flag says that an infinite bound has
      made the right-hand side infinite.  The other cases are those of
      Model_MIR.subst_step (lines 1299-1372). *)
  Definition subst_step2 (a : agg) (s : option (knap * bool)) (e : nat * Q) : outcome (option (knap * bool)) :=
    match s with
    | None => Done None
    | Some (k, inf) =>
        let j := fst e in let c := snd e in
        if negb (Nat.ltb j (p_ncols p) && fixed m j) && (Qabs c <? eps) then
          if Nat.ltb j (p_ncols p) then
            match (if c <? 0 then m_chi m j else m_clo m j) with
            | Some b => Done (Some (Knap (k_row k) (k_rhs k - c * b) (k_star k) (k_cont k), inf))
            | None => Done (Some (k, inf || nonzero e))
            end
          else Undef OutOfBounds
        else Done (match subst_step crit p m x a (Some k) e with Some k' => Some (k', inf) | None => None end)
    end.
  (** boundSubstitution, lines 1256-1408.  With an infinite right-hand side no
      c-MIR inequality is violated, so that nothing comes of the knapsack. *)
  Definition boundSubstitution2 (a : agg) (row : vec) (rhs : Q) : outcome (option knap) :=
    do s <- ofold (subst_step2 a) row (Some (Knap [] rhs 0 [], false));
    Done (match s with
          | Some (k, false) =>
              match k_cont k, k_row k with
              | [], _ | _, [] => None
              | _, _ =>
                  if existsb (fun e => negb (Qabs (snd e) <? eps) &&
                                       match m_clo m (fst e) with Some l => eps <? Qabs l | None => true end) (k_row k)
                  then None else Some k
              end
          | _ => None
          end).

  (** ** Writing the cut *)
  (** lines 1631-1654: a slack is replaced through its row *)
  Definition write_slack (a : agg) (sc : Q) (s : vec * Q) (e : nat * Q) : vec * Q :=
    let i := nth (fst e - p_ncols p) (ag_rows a) 0%nat in
    let q := match rp_sense (rowp_at p i) with SenseL => - (sc * snd e) | _ => sc * snd e end in
    (fold_left (fun v f => add_to v (fst f) (snd f * q)) (row_at m i) (fst s), snd s + rp_rhs (rowp_at p i) * q).
  (** lines 1576-1654: first the columns, then the slacks *)
  Definition write2 (a : agg) (row : vec) (sc : Q) (cont : vec) (s : vec * Q) : outcome (vec * Q) :=
    do s1 <- ofold (write_step keep crit p m x a row sc) (filter (fun e => Nat.ltb (fst e) (p_ncols p)) cont) s;
    Done (fold_left (write_slack a sc) (filter (fun e => negb (Nat.ltb (fst e) (p_ncols p))) cont) s1).
  (** lines 1663-1669 *)
  Definition qmax (a b : Q) : Q := if a <? b then b else a.
  Definition largest (v : vec) : Q := fold_left (fun s e => qmax s (Qabs (snd e))) v 0.
  Definition test_value (v : vec) : Q := qmax ((1 # 1000000) * largest v) (1 # 1000000000000).
  (** lines 1671-1697: an entry up to [t] is weakened away *)
  Definition small (t : Q) (e : nat * Q) : bool := Qabs (snd e) <=? t.
  Definition weaken2 (t : Q) (rhs : option Q) (e : nat * Q) : option Q :=
    if small t e && nonzero e then
      match rhs, (if 0 <? snd e then m_clo m (fst e) else m_chi m (fst e)) with
      | Some r, Some b =>
          Some (if (if 0 <? snd e then 0 <? b else b <? 0) then r else r - snd e * b)
      | _, _ => None
      end
    else rhs.
  (** lines 1704-1714: the entries in increasing order of the column *)
  Definition pack (n : nat) (v : vec) : vec :=
    flat_map (fun i => if has v i && nonzero (i, coef v i) then [(i, coef v i)] else []) (seq 0 n).
  (** lines 1655-1740; the violation test is written without the division *)
  Definition finish2 (cut : vec) (rhs : Q) : option rowcut :=
    let t := test_value cut in
    match fold_left (weaken2 t) cut (Some rhs) with
    | None => None
    | Some r =>
        let kept := filter (fun e => negb (small t e)) cut in
        let norm := fold_left (fun s e => s + snd e * snd e) kept 0 in
        let viol := value kept x - r in
        if (0 <? viol) && (tol * sqrt norm <? viol) then Some (RowCut (pack (m_ncols m) kept) None (Some r)) else None
    end.
  (** cMirSeparation, lines 1413-1740 *)
  Definition cMirSeparation2 (a : agg) (row : vec) (k : knap) : outcome (option rowcut) :=
    match bestMir sqrt srt m x k with
    | None => Done None
    | Some c =>
        do s <- write2 a row (cm_s c) (k_cont k) (cm_row c, cm_rhs c);
        Done (finish2 (fst s) (snd s))
    end.

  (** lines 1000-1036: cuts that are not handed over.  [late] is
      info.pass || info.inTree. *)
  Definition smallest_ok (v : vec) (f : Q -> bool) : bool := forallb (fun e => f (Qabs (snd e))) v.
  Definition accepted (late : bool) (r : rowcut) : bool :=
    let v := rc_form r in
    negb (late && (8 * Z.of_nat (p_ncols p) <? 10 * Z.of_nat (length v))%Z) &&
    smallest_ok v (fun q => (largest v <=? 100000000 * q) && ((1 # 100000) <=? q)) &&
    (largest v <=? 10000000) &&
    match rc_ub r with Some u => u + (1 # 1000000) <=? value v x | None => false end.

  (** one pass of the loop in lines 949-1042 *)
  Definition try_row2 (late : bool) (a : agg) (cs : list rowcut) (neg : bool) : outcome (list rowcut) :=
    let row := if neg then scale (- (1)) (ag_row a) else ag_row a in
    let rhs := if neg then - ag_rhs a else ag_rhs a in
    do ok <- boundSubstitution2 a row rhs;
    match ok with
    | None => Done cs
    | Some k =>
        do c <- cMirSeparation2 a row k;
        Done (match c with Some r => if accepted late r then ins cs r else cs | None => cs end)
    end.
  (** generateMirCuts, lines 810-1075.  The row types are put back from the
      saved half of rowTypes_ (lines 1046-1059). *)
  Definition from_row (late saved : bool) (n : nat) (multiply : bool) (cs : list rowcut) (i : nat) : outcome (list rowcut) :=
    let r := more2 (n - 1) [] (start p m act i) in
    do cs' <- ofold (fun cs a => ofold (try_row2 late a) (if multiply then [false; true] else [false]) cs) (fst r) cs;
    match snd r with
    | [] => Done cs'
    | _ => if saved then Done cs' else Undef Uninitialised
    end.
  Definition generateMirCuts2 (late saved : bool) (n : nat) (multiply : bool) (cs : list rowcut) : outcome (list rowcut) :=
    ofold (from_row late saved n multiply) (p_start p) cs.
End Generate2.

(** ** generateCuts, lines 28-215 *)
(** lines 41-51; None is the return in line 49 *)
Definition eff_aggr (v : Z) (inTree : bool) (pass : Z) : option Z :=
  if (v <? 0)%Z then
    if negb inTree && (pass <? 1000)%Z then Some 5%Z
    else if (v =? -1)%Z then Some 1%Z else None
  else Some v.
(** lines 52-69 *)
Definition must_preprocess2 (g : mir2) (c : call) : bool :=
  if negb (c_hint_initial c) && negb (c_hint_resolve c) && (m2_mode g =? -1)%Z then negb (m2_done g)
  else if (m2_mode g =? 1)%Z then true
  else negb (m2_done g).
Definition prepared2 (g : mir2) (c : call) : mir2 :=
  if must_preprocess2 g c
  then Mir2 (m2_maxaggr g) (m2_multiply g) (m2_criterion g) (m2_mode g) true (preprocess2 c) true else g.
(** lines 115-160: rows without a (finite) upper side are negated in a copy of
    the solver *)
Definition no_upper (r : row) : bool :=
  match r_hi r with Some u => 100000000000000000000000000000000000000000000000000 <=? u | None => true end.
Definition neg_opt (o : option Q) : option Q := match o with Some q => Some (- q) | None => None end.
Definition neg_row (r : row) : row := if no_upper r then Row (scale (- (1)) (r_form r)) None (neg_opt (r_lo r)) else r.
Definition neg_call (c : call) : call :=
  let m := c_mip c in
  Call (Mip (m_ncols m) (map neg_row (m_rows m)) (m_clo m) (m_chi m) (m_int m)) (c_x c)
       (fun i => if no_upper (nth i (m_rows m) (Row [] None None)) then - c_act c i else c_act c i)
       (c_hint_initial c) (c_hint_resolve c).
Section Calls.
  Variable sqrt : Q -> Q.
  Variable srt : vec -> vec.
  Variable keep : nat * Q -> bool.
  Variable ins : list rowcut -> rowcut -> list rowcut.
  (** lines 177-206.  submatrixOfWithDuplicates reads rows that do not exist
      when the solver has fewer rows than were preprocessed. *)
  Definition from_object (g : mir2) (q : call2) (c : call) (cs : list rowcut) : outcome (list rowcut) :=
    if (length (m_rows (c_mip c)) <? length (p_rows (m2_prep g)))%nat then Undef OutOfBounds
    else generateMirCuts2 sqrt srt keep ins (m2_criterion g) (m2_prep g) (c_mip c) (c_x c) (c_act c)
           (negb (q_pass q =? 0)%Z || q_inTree q) (m2_saved g) (Z.to_nat (m2_maxaggr g)) (m2_multiply g) cs.
  (** lines 207-213: are the new cuts marked globally valid? *)
  Definition marks (q : call2) : bool :=
    negb (q_inTree q) && (Z.testbit (q_options q) 2 || (Z.testbit (q_options q) 3 && (q_pass q =? 0)%Z)).
  (** The object afterwards, the cuts, and the mark of the new ones.  The call
      on the negated copy (lines 162-165) is made with a negative level, with a
      positive MAXAGGR_, and is not followed by line 214. *)
  Definition generateCuts2 (clp : bool) (g : mir2) (q : call2) (cs : list rowcut) : outcome (mir2 * list rowcut * bool) :=
    let c := q_call q in
    match eff_aggr (m2_maxaggr g) (q_inTree q) (q_pass q) with
    | None => Done (g, cs, false)
    | Some v =>
        let g1 := prepared2 (with_aggr g v) c in
        if clp && negb (q_inTree q) && q_clpmin q && (0 <=? q_level q)%Z && existsb no_upper (m_rows (c_mip c)) then
          let g2 := prepared2 g1 (neg_call c) in
          do cs' <- from_object g2 q (neg_call c) cs;
          Done (g2, cs', marks q)
        else
          do cs' <- from_object g1 q c cs;
          Done (with_aggr g1 (m2_maxaggr g), cs', marks q)
    end.
End Calls.
