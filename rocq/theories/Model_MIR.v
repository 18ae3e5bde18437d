(** * Model of CglMixedIntegerRounding
    /repo/src/CglMixedIntegerRounding/CglMixedIntegerRounding.cpp and .hpp.

    Line numbers refer to CglMixedIntegerRounding.cpp.  CGL_DEBUG is not
    defined (line 22), so printStats and the debug output are left out, as is
    the effectiveness stored in a cut.  The arrays of the object are replaced
    by the lists they hold.

    Three things are parameters.  [sqrt] is the C library's square root: it
    only scales violations, and nothing is assumed about it here.  [srt] is
    CoinPackedVector::sortIncrElement.  [keep] says which entries the packed
    vector operators store.

    CoinPackedVector (CoinUtils, not part of /repo) is a list of (index, value).
    Its operator+ and operator- keep the order of the first operand and append
    the new indices of the second; CoinUtils stores entries that cancel to
    zero as well, but the theorems on validity hold for every [keep] that only
    drops zeros.  insert throws when the index is present. *)

From Coq Require Import Qabs.
From Verif Require Import Base.
Local Open Scope Q_scope.

(** EPSILON_ and TOLERANCE_, lines 189-191; there is no setter. *)
Definition eps : Q := 1 # 1000000.
Definition tol : Q := 1 # 10000.

(** RowType, .hpp lines 82-99 *)
Inductive rtype := RUndefined | RVarUB | RVarLB | RVarEQ | RMix | RCont | RInt | ROther.
Definition rtype_eqb (a b : rtype) : bool :=
  match a, b with
  | RUndefined, RUndefined | RVarUB, RVarUB | RVarLB, RVarLB | RVarEQ, RVarEQ
  | RMix, RMix | RCont, RCont | RInt, RInt | ROther, ROther => true
  | _, _ => false
  end.
(** CglMixIntRoundVUB and CglMixIntRoundVLB, .hpp lines 22-75; an undefined
    one is None *)
Record vb := VB { vb_var : nat; vb_val : Q }.
(** one row after the choice of a side: type, sense, right-hand side *)
Record rowp := RowP { rp_type : rtype; rp_sense : sense; rp_rhs : Q }.
(** numRows_, rowTypes_, sense_, RHS_; numCols_; vubs_, vlbs_; indRowMix_,
    indRowContVB_ and indRowInt_ follow each other in [p_start] *)
Record prep := Prep {
  p_rows : list rowp; p_ncols : nat;
  p_vub : nat -> option vb; p_vlb : nat -> option vb;
  p_start : list nat
}.
Definition p_none : prep := Prep [] 0 (fun _ => None) (fun _ => None) [].

(** The object *)
Record mirgen := MirGen {
  mg_maxaggr : Z; mg_multiply : bool; mg_criterion : Z; mg_mode : Z;
  mg_done : bool; mg_prep : prep
}.
(** gutsOfConstruct, lines 161-209; default constructor, lines 92-97 *)
Definition mg_construct (maxaggr : Z) (multiply : bool) (criterion mode : Z) : outcome mirgen :=
  if negb (0 <? maxaggr)%Z then Throws
  else if negb ((1 <=? criterion)%Z && (criterion <=? 3)%Z) then Throws
  else if negb ((-1 <=? mode)%Z && (mode <=? 2)%Z) then Throws
  else Done (MirGen maxaggr multiply criterion mode false p_none).
Definition mg_new : mirgen := MirGen 1 true 1 (-1) false p_none.
(** setters and getters, .hpp lines 164-204, lines 1687-1693 and 1719-1733 *)
Definition setMAXAGGR (g : mirgen) (v : Z) : outcome mirgen :=
  if (0 <? v)%Z then Done (MirGen v (mg_multiply g) (mg_criterion g) (mg_mode g) (mg_done g) (mg_prep g)) else Throws.
Definition setMULTIPLY (g : mirgen) (v : bool) : mirgen :=
  MirGen (mg_maxaggr g) v (mg_criterion g) (mg_mode g) (mg_done g) (mg_prep g).
Definition setCRITERION (g : mirgen) (v : Z) : outcome mirgen :=
  if ((1 <=? v)%Z && (v <=? 3)%Z)
  then Done (MirGen (mg_maxaggr g) (mg_multiply g) v (mg_mode g) (mg_done g) (mg_prep g)) else Throws.
Definition setDoPreproc (g : mirgen) (v : Z) : outcome mirgen :=
  if negb (v =? -1)%Z && negb (v =? 0)%Z && negb (v =? 1)%Z then Throws
  else Done (MirGen (mg_maxaggr g) (mg_multiply g) (mg_criterion g) v (mg_done g) (mg_prep g)).
Definition getDoPreproc (g : mirgen) : bool := negb (mg_mode g =? 0)%Z.
Definition refreshSolver (g : mirgen) : mirgen :=
  MirGen (mg_maxaggr g) (mg_multiply g) (mg_criterion g) (mg_mode g) false (mg_prep g).

(** What the solver is asked for *)
Record call := Call {
  c_mip : mip; c_x : nat -> Q; c_act : nat -> Q;
  c_hint_initial : bool; c_hint_resolve : bool
}.

(** ** Preprocessing *)
Definition count {A} (f : A -> bool) (l : list A) : nat := length (filter f l).

(** determineRowType, lines 566-657.  A finite right-hand side is implied by
    the sense. *)
Definition determineRowType (m : mip) (v : vec) (s : sense) (rhs : Q) : rtype :=
  match v with
  | [] => RUndefined
  | _ =>
      match s with
      | SenseN => ROther
      | _ =>
          let ni := count (fun e => (eps <? Qabs (snd e)) && m_int m (fst e)) v in
          let pc := count (fun e => (eps <? snd e) && negb (m_int m (fst e))) v in
          let nc := count (fun e => (eps <? Qabs (snd e)) && negb (m_int m (fst e))) v in
          if Nat.ltb 0 ni && Nat.ltb 0 nc then
            if Nat.eqb ni 1 && Nat.eqb nc 1 && (Qabs rhs <=? eps) then
              match s with
              | SenseL => if Nat.eqb pc 1 then RVarUB else RVarLB
              | SenseG => if Nat.eqb pc 1 then RVarLB else RVarUB
              | SenseE => RVarEQ
              | _ => RUndefined
              end
            else RMix
          else if Nat.eqb ni 0 then RCont
          else match s with SenseL | SenseG => RInt | _ => ROther end
      end
  end.
(** lines 353-372 *)
Definition row_prep (m : mip) (act : Q) (r : row) : rowp :=
  let low := match r_lo r with Some l => l | None => 0 end in
  let up := match r_hi r with Some u => u | None => 0 end in
  let toG := act - low <? up - act in
  let s := match row_sense r with SenseR => if toG then SenseG else SenseL | s => s end in
  let rhs := match row_sense r with SenseR => if toG then low else up | _ => row_rhs r end in
  RowP (determineRowType m (r_form r) s rhs) s rhs.

(** lines 493-533: the last integer and the last continuous entry above the
    tolerance; index and coefficient are 0 when there is none *)
Definition last_entry (f : nat * Q -> bool) (v : vec) : nat * Q :=
  fold_left (fun s e => if f e then e else s) v (0%nat, 0).
Definition var_bound (m : mip) (v : vec) : nat * vb :=
  let y := last_entry (fun e => (eps <? Qabs (snd e)) && m_int m (fst e)) v in
  let x := last_entry (fun e => (eps <? Qabs (snd e)) && negb (m_int m (fst e))) v in
  (fst x, VB (fst y) (- snd y / snd x)).
Definition updf {A} (f : nat -> A) (i : nat) (a : A) : nat -> A := fun j => if Nat.eqb j i then a else f j.
Definition vb_step (m : mip) (upper : bool) (f : nat -> option vb) (rr : rowp * row) : nat -> option vb :=
  let b := var_bound m (r_form (snd rr)) in
  match rp_type (fst rr), upper with
  | RVarUB, true | RVarLB, false | RVarEQ, _ => updf f (fst b) (Some (snd b))
  | _, _ => f
  end.
Definition positions (f : rowp * row -> bool) (l : list (rowp * row)) : list nat :=
  map fst (filter (fun ir => f (snd ir)) (combine (seq 0 (length l)) l)).
Definition some_vb (o : option vb) : bool := match o with Some _ => true | None => false end.
(** mixIntRoundPreprocess, lines 310-561 *)
Definition preprocess (c : call) : prep :=
  let m := c_mip c in
  let rps := map (fun ir => row_prep m (c_act c (fst ir)) (snd ir)) (combine (seq 0 (length (m_rows m))) (m_rows m)) in
  let rrs := combine rps (m_rows m) in
  let vubs := fold_left (vb_step m true) rrs (fun _ => None) in
  let vlbs := fold_left (vb_step m false) rrs (fun _ => None) in
  let is t (rr : rowp * row) := rtype_eqb (rp_type (fst rr)) t in
  let has_vb (rr : rowp * row) := existsb (fun e => some_vb (vlbs (fst e)) || some_vb (vubs (fst e))) (r_form (snd rr)) in
  Prep rps (m_ncols m) vubs vlbs
       (positions (is RMix) rrs ++ positions (fun rr => is RCont rr && has_vb rr) rrs ++ positions (is RInt) rrs).

(** ** Packed vectors *)
Definition coef (v : vec) (j : nat) : Q :=
  match find (fun e => Nat.eqb (fst e) j) v with Some e => snd e | None => 0 end.
Definition has (v : vec) (j : nat) : bool := existsb (fun e => Nat.eqb (fst e) j) v.
Definition nonzero (e : nat * Q) : bool := negb (Qeq_bool (snd e) 0).
Definition vplus (keep : nat * Q -> bool) (v w : vec) : vec :=
  filter keep (map (fun e => (fst e, snd e + coef w (fst e))) v) ++
  filter keep (filter (fun e => negb (has v (fst e))) w).
Definition vminus (keep : nat * Q -> bool) (v w : vec) : vec := vplus keep v (scale (- (1)) w).
Definition vinsert (v : vec) (j : nat) (a : Q) : outcome vec :=
  if has v j then Throws else Done (v ++ [(j, a)]).
(** setElement of an existing index, or insert *)
Fixpoint add_to (v : vec) (j : nat) (d : Q) : vec :=
  match v with
  | [] => [(j, d)]
  | (k, a) :: v' => if Nat.eqb k j then (k, a + d) :: v' else (k, a) :: add_to v' j d
  end.

Section Generate.
  Variable sqrt : Q -> Q.
  Variable srt : vec -> vec.
  Variable keep : nat * Q -> bool.
  Variable crit : Z.
  Variable p : prep.
  Variable m : mip.
  Variable x : nat -> Q.
  Variable act : nat -> Q.

  (** ** Aggregation *)
  (** rowAggregated, rhsAggregated, listRowsAggregated, xlpExtra *)
  Record agg := Agg { ag_row : vec; ag_rhs : Q; ag_rows : list nat; ag_extra : list Q }.
  Definition row_at (i : nat) : vec := r_form (nth i (m_rows m) (Row [] None None)).
  Definition rowp_at (i : nat) : rowp := nth i (p_rows p) (RowP RUndefined SenseN 0).
  (** copyRowSelected, lines 870-904: the row with its slack (index numCols_ +
      iAggregate) and the slack's value; xlpExtra is not written for an
      equality row, and then not read either *)
  Definition copyRow (k i : nat) : vec * Q :=
    let rp := rowp_at i in
    match rp_sense rp with
    | SenseL => (row_at i ++ [((p_ncols p + k)%nat, 1)], rp_rhs rp - act i)
    | SenseG => (row_at i ++ [((p_ncols p + k)%nat, - (1))], act i - rp_rhs rp)
    | _ => (row_at i, 0)
    end.
  (** the bounds at the LP solution, lines 940-948, 1100-1108 and 1375-1383;
      None is an infinite bound *)
  Definition cur_lb (j : nat) : option Q :=
    match p_vlb p j with Some b => Some (vb_val b * x (vb_var b)) | None => m_clo m j end.
  Definition cur_ub (j : nat) : option Q :=
    match p_vub p j with Some b => Some (vb_val b * x (vb_var b)) | None => m_chi m j end.
  (** line 951; None is infinite *)
  Definition distance (j : nat) : option Q :=
    match cur_lb j, cur_ub j with
    | Some l, Some u => Some (if u - x j <? x j - l then u - x j else x j - l)
    | Some l, None => Some (x j - l)
    | None, Some u => Some (u - x j)
    | None, None => None
    end.
  Definition exceeds (a b : option Q) : bool :=
    match a, b with
    | _, None => false
    | None, Some _ => true
    | Some q, Some r => r <? q
    end.
  (** lines 956-979: the first usable row of the column *)
  Definition usable_row (used : list nat) (j i : nat) : bool :=
    negb (existsb (Nat.eqb i) used) && has (row_at i) j &&
    (rtype_eqb (rp_type (rowp_at i)) RMix || rtype_eqb (rp_type (rowp_at i)) RCont) &&
    (eps <? Qabs (coef (row_at i) j)).
  (** selectRowToAggregate, lines 909-990: column and row *)
  Definition select_step (used : list nat) (s : option Q * option (nat * nat)) (e : nat * Q)
    : option Q * option (nat * nat) :=
    let j := fst e in
    if Nat.leb (p_ncols p) j || m_int m j || (Qabs (snd e) <? eps) then s
    else if exceeds (distance j) (fst s) then
      match find (usable_row used j) (seq 0 (length (p_rows p))) with
      | Some i => (distance j, Some (j, i))
      | None => s
      end
    else s.
  Definition selectRow (a : agg) : option (nat * nat) :=
    snd (fold_left (select_step (ag_rows a)) (ag_row a) (Some 0, None)).
  (** aggregateRow, lines 995-1012, after copyRowSelected *)
  Definition aggregate (a : agg) (j i : nat) : agg :=
    let c := copyRow (length (ag_rows a)) i in
    let q := coef (ag_row a) j / coef (fst c) j in
    Agg (vminus keep (ag_row a) (scale q (fst c))) (ag_rhs a - q * rp_rhs (rowp_at i))
        (ag_rows a ++ [i]) (ag_extra a ++ [snd c]).
  Definition start (i : nat) : agg :=
    let c := copyRow 0 i in Agg (fst c) (rp_rhs (rowp_at i)) [i] [snd c].
  (** the aggregated rows of the loop in lines 719-771, in order; they do not
      depend on the cuts found *)
  Fixpoint more (k : nat) (a : agg) : list agg :=
    a :: match k with
         | O => []
         | S k' => match selectRow a with
                   | Some (j, i) => more k' (aggregate a j i)
                   | None => []
                   end
         end.
  Definition aggregates (maxaggr : nat) : list agg :=
    flat_map (fun i => more (maxaggr - 1) (start i)) (p_start p).

  (** ** Bound substitution *)
  Definition opt_eqb (a b : option Q) : bool :=
    match a, b with Some q, Some r => Qeq_bool q r | None, None => true | _, _ => false end.
  (** isLowerSubst, lines 1017-1040; never called with two infinite bounds *)
  Definition isLower (a : Q) (j : nat) : bool :=
    let lb := cur_lb j in let ub := cur_ub j in
    if (crit =? 1)%Z then
      match lb, ub with
      | Some l, Some u => x j - l <? u - x j
      | Some _, None => true
      | None, _ => false
      end
    else if match ub with None => true | Some _ => false end || opt_eqb lb (Some (x j)) then true
    else if match lb with None => true | Some _ => false end || opt_eqb ub (Some (x j)) then false
    else if (crit =? 2)%Z then a <? 0 else 0 <? a.
  Definition opt_or0 (o : option Q) : Q := match o with Some q => q | None => 0 end.
  Definition fixed (j : nat) : bool :=
    match m_clo m j, m_chi m j with Some l, Some u => Qeq_bool l u | _, _ => false end.

  (** mixedKnapsack, rhsMixedKnapsack, sStar, contVariablesInS *)
  Record knap := Knap { k_row : vec; k_rhs : Q; k_star : Q; k_cont : vec }.
  (** the loop of boundSubstitution, lines 1070-1176; None is an early return *)
  Definition subst_step (a : agg) (s : option knap) (e : nat * Q) : option knap :=
    match s with
    | None => None
    | Some k =>
        let j := fst e in let c := snd e in
        if Nat.ltb j (p_ncols p) && fixed j then
          Some (Knap (k_row k) (k_rhs k - c * opt_or0 (m_clo m j)) (k_star k) (k_cont k))
        else if Qabs c <? eps then s
        else if Nat.ltb j (p_ncols p) then
          if m_int m j then Some (Knap (add_to (k_row k) j c) (k_rhs k) (k_star k) (k_cont k))
          else
            match cur_lb j, cur_ub j with
            | None, None => None
            | lb, ub =>
                if isLower c j then
                  let star := if c <? - eps then k_star k - c * (x j - opt_or0 lb) else k_star k in
                  let cont := if c <? - eps then k_cont k ++ [(j, c)] else k_cont k in
                  match p_vlb p j with
                  | Some b => Some (Knap (add_to (k_row k) (vb_var b) (c * vb_val b)) (k_rhs k) star cont)
                  | None => Some (Knap (k_row k) (k_rhs k - c * opt_or0 lb) star cont)
                  end
                else
                  let star := if eps <? c then k_star k + c * (opt_or0 ub - x j) else k_star k in
                  let cont := if eps <? c then k_cont k ++ [(j, - c)] else k_cont k in
                  match p_vub p j with
                  | Some b => Some (Knap (add_to (k_row k) (vb_var b) (c * vb_val b)) (k_rhs k) star cont)
                  | None => Some (Knap (k_row k) (k_rhs k - c * opt_or0 ub) star cont)
                  end
            end
        else if c <? - eps then
          Some (Knap (k_row k) (k_rhs k) (k_star k - c * nth (j - p_ncols p) (ag_extra a) 0) (k_cont k ++ [(j, c)]))
        else s
    end.
  (** boundSubstitution, lines 1047-1207 *)
  Definition boundSubstitution (a : agg) (row : vec) (rhs : Q) : option knap :=
    match fold_left (subst_step a) row (Some (Knap [] rhs 0 [])) with
    | None => None
    | Some k =>
        match k_cont k, k_row k with
        | [], _ | _, [] => None
        | _, _ =>
            if existsb (fun e => negb (Qabs (snd e) <? eps) &&
                                 match m_clo m (fst e) with Some l => eps <? Qabs l | None => true end) (k_row k)
            then None else Some k
        end
    end.

  (** ** Separation *)
  (** functionG, lines 1555-1563 *)
  Definition functionG (d f : Q) : Q :=
    let delta := d - qfloor d - f in
    if eps <? delta then qfloor d + delta / (1 - f) else qfloor d.
  (** an entry of the knapsack with the mark "in set C" *)
  Definition centry := (nat * Q * bool)%type.
  Record cmir := CMir { cm_row : vec; cm_rhs : Q; cm_s : Q; cm_viol : Q }.
  (** cMirInequality, lines 1504-1549 *)
  Definition g_of (delta f : Q) (e : centry) : Q :=
    let '(_, a, c) := e in if c : bool then functionG (- a / delta) f else functionG (a / delta) f.
  Definition cMirInequality (delta nb star : Q) (l : list centry) : cmir :=
    let beta := nb / delta in
    let f := beta - qfloor beta in
    let row := map (fun e : centry => (fst (fst e), if snd e then - g_of delta f e else g_of delta f e)) l in
    let rhs := fold_left (fun s (e : centry) => if snd e then s - g_of delta f e * opt_or0 (m_chi m (fst (fst e))) else s) l (qfloor beta) in
    let sCoef := 1 / (delta * (1 - f)) in
    let norm := fold_left (fun s e => s + g_of delta f e * g_of delta f e) l 0 + sCoef * sCoef in
    CMir row rhs sCoef ((value row x - (rhs + sCoef * star)) / sqrt norm).

  (** lines 1246-1273 *)
  Definition in_C (e : nat * Q) : bool :=
    match m_chi m (fst e) with Some u => u / 2 <=? x (fst e) | None => false end.
  Definition at_bound (j : nat) : bool :=
    (x j <=? eps) || match m_chi m j with Some u => u - eps <=? x j | None => false end.
  Definition complT (l : list (nat * (nat * Q))) : vec :=
    flat_map (fun ie => let j := fst (snd ie) in
                        match m_chi m j with
                        | Some u => if in_C (snd ie) || at_bound j then [] else [(fst ie, Qabs (x j - u / 2))]
                        | None => []
                        end) l.
  (** bestCut, rhsBestCut, sCoefBestCut, maxViolation; bestDelta *)
  Record best := Best { b_cut : cmir; b_delta : Q }.
  Definition max_viol (b : option best) : Q := match b with Some b => cm_viol (b_cut b) | None => 0 end.
  Definition better (b : option best) (c : cmir) (delta : Q) : option best :=
    if max_viol b + eps <? cm_viol c then Some (Best c delta) else b.
  (** lines 1276-1301 *)
  Definition delta_step (nb star : Q) (l : list centry) (b : option best) (e : centry) : option best :=
    let '(j, a, _) := e in
    if at_bound j || (a <=? eps) then b else better b (cMirInequality a nb star l) a.
  (** lines 1309-1327 *)
  Definition mult_step (base nb star : Q) (l : list centry) (b : option best) (k : Q) : option best :=
    better b (cMirInequality (base / k) nb star l) (base / k).
  Fixpoint set_C (l : list centry) (i : nat) : list centry :=
    match l, i with
    | [], _ => []
    | (e, _) :: l', O => (e, true) :: l'
    | c :: l', S i' => c :: set_C l' i'
    end.
  (** lines 1336-1364; the delta stays as it is *)
  Definition compl_step (delta star : Q) (s : best * list centry * Q) (ie : nat * Q) : best * list centry * Q :=
    let '(b, l, nb) := s in
    let '(j, a, _) := nth (fst ie) l (0%nat, 0, false) in
    let l' := set_C l (fst ie) in
    let nb' := nb - a * opt_or0 (m_chi m j) in
    let c := cMirInequality delta nb' star l' in
    if cm_viol (b_cut b) + eps <? cm_viol c then (Best c delta, l', nb') else s.
  (** the best c-MIR inequality, lines 1231-1365 *)
  Definition bestMir (k : knap) : option cmir :=
    let l := map (fun e => (e, in_C e)) (k_row k) in
    let nb := fold_left (fun s e => if in_C e then s - snd e * opt_or0 (m_chi m (fst e)) else s) (k_row k) (k_rhs k) in
    match fold_left (delta_step nb (k_star k) l) l None with
    | None => None
    | Some b =>
        match fold_left (mult_step (b_delta b) nb (k_star k) l) [2; 4; 8] (Some b) with
        | None => None
        | Some b' =>
            let c := srt (complT (combine (seq 0 (length (k_row k))) (k_row k))) in
            let '(b'', _, _) := fold_left (compl_step (b_delta b') (k_star k)) c (b', l, nb) in
            Some (b_cut b'')
        end
    end.

  (** Writing the cut with the model variables, lines 1367-1445.  [row] is
      rowToUse.  The assertion on the row's sense holds for every slack. *)
  Definition write_step (a : agg) (row : vec) (sc : Q) (s : vec * Q) (e : nat * Q) : outcome (vec * Q) :=
    let '(cut, rhs) := s in
    let j := fst e in let c := snd e in
    if Nat.ltb j (p_ncols p) then
      if isLower (coef row j) j then
        match p_vlb p j with
        | Some b => do v <- vinsert (add_to cut (vb_var b) (- (sc * c * vb_val b))) j (sc * c); Done (v, rhs)
        | None => do v <- vinsert cut j (sc * c); Done (v, rhs + sc * c * opt_or0 (m_clo m j))
        end
      else
        match p_vub p j with
        | Some b => do v <- vinsert (add_to cut (vb_var b) (sc * c * vb_val b)) j (- (sc * c)); Done (v, rhs)
        | None => do v <- vinsert cut j (- (sc * c)); Done (v, rhs - sc * c * opt_or0 (m_chi m j))
        end
    else
      let i := nth (j - p_ncols p) (ag_rows a) 0%nat in
      let q := match rp_sense (rowp_at i) with SenseL => - (sc * c) | _ => sc * c end in
      Done (vplus keep cut (scale q (row_at i)), rhs + q * rp_rhs (rowp_at i)).
  (** lines 1455-1476: small coefficients are weakened away; None when that
      makes the right-hand side infinite *)
  Definition tiny (e : nat * Q) : bool := Qabs (snd e) <=? 1 # 1000000000000.
  Definition weaken (rhs : option Q) (e : nat * Q) : option Q :=
    if tiny e && nonzero e then
      match rhs, (if 0 <? snd e then m_clo m (fst e) else m_chi m (fst e)) with
      | Some r, Some b => Some (r - snd e * b)
      | _, _ => None
      end
    else rhs.
  (** lines 1477-1495: violation / sqrt(normCut) > TOLERANCE_, written without
      the division (an empty cut with a negative right-hand side is kept) *)
  Definition finish (cut : vec) (rhs : Q) : option rowcut :=
    match fold_left weaken cut (Some rhs) with
    | None => None
    | Some r =>
        let kept := filter (fun e => negb (tiny e)) cut in
        let norm := fold_left (fun s e => s + snd e * snd e) kept 0 in
        let viol := value kept x - r in
        if (0 <? viol) && (tol * sqrt norm <? viol) then Some (RowCut kept None (Some r)) else None
    end.
  (** cMirSeparation, lines 1212-1499 *)
  Definition cMirSeparation (a : agg) (row : vec) (k : knap) : outcome (option rowcut) :=
    match bestMir k with
    | None => Done None
    | Some c =>
        do s <- ofold (write_step a row (cm_s c)) (k_cont k) (cm_row c, cm_rhs c);
        Done (finish (fst s) (snd s))
    end.

  (** one pass of the loop in lines 777-847 *)
  Definition try_row (a : agg) (cs : list rowcut) (neg : bool) : outcome (list rowcut) :=
    let row := if neg then scale (- (1)) (ag_row a) else ag_row a in
    let rhs := if neg then - ag_rhs a else ag_rhs a in
    match boundSubstitution a row rhs with
    | None => Done cs
    | Some k =>
        if (25000 <? Z.of_nat (length (k_row k)))%Z then Done cs
        else
          do c <- cMirSeparation a row k;
          Done (match c with Some r => insert_new cs r | None => cs end)
    end.
  (** generateMirCuts, lines 662-865 *)
  Definition generateMirCuts (maxaggr : nat) (multiply : bool) (cs : list rowcut) : outcome (list rowcut) :=
    ofold (fun cs a => ofold (try_row a) (if multiply then [false; true] else [false]) cs) (aggregates maxaggr) cs.
End Generate.

(** generateCuts, lines 26-87, with the same preprocessing logic as
    CglResidualCapacity.  submatrixOf throws when a row does not exist. *)
Definition must_preprocess (g : mirgen) (c : call) : bool :=
  if negb (c_hint_initial c) && negb (c_hint_resolve c) && (mg_mode g =? -1)%Z then negb (mg_done g)
  else if (mg_mode g =? 1)%Z then true
  else negb (mg_done g).
Definition prepared (g : mirgen) (c : call) : mirgen :=
  if must_preprocess g c
  then MirGen (mg_maxaggr g) (mg_multiply g) (mg_criterion g) (mg_mode g) true (preprocess c) else g.
Definition generateCuts (sqrt : Q -> Q) (srt : vec -> vec) (keep : nat * Q -> bool) (g : mirgen) (c : call) (cs : list rowcut)
  : outcome (mirgen * list rowcut) :=
  let g' := prepared g c in
  if (length (m_rows (c_mip c)) <? length (p_rows (mg_prep g')))%nat then Throws
  else
    do cs' <- generateMirCuts sqrt srt keep (mg_criterion g') (mg_prep g') (c_mip c) (c_x c) (c_act c)
                (Z.to_nat (mg_maxaggr g')) (mg_multiply g') cs;
    Done (g', cs').
