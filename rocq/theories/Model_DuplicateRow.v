(** * CglDuplicateRow

    Source: /repo/src/CglDuplicateRow/CglDuplicateRow.cpp and .hpp.

    Modelled: the constructors, the copies, refreshSolver (as far as the array
    that marks rows is concerned), generateCuts with its choice by mode,
    generateCuts8 (looking for cliques among the rows), outDupsEtc (the
    version of lines 2663-2927, which is the one compiled) and outDuplicates.

    Outside the model: generateCuts4 (lines 892-2273) is the parameter [gc4];
    generateCuts12 (lines 49-891) is never called; messages.  CoinSort_2
    (CoinUtils) is the parameter [sort2]: it sorts pairs by their first
    component, and what it does with equal keys is not known.  The asserts of
    line 2941 (the problem has rows and columns) and 2891, 2997 are left out;
    the one of line 44 is kept ([Aborts]).  Doubles are exact rationals, an
    infinite bound is [None]. *)

From Verif Require Import Spec Base Model_TreeInfo Model_Stored Model_Clique.
From Coq Require Import Arith Qabs.
Open Scope Q_scope.

Definition updf {A} (f : nat -> A) (i : nat) (v : A) : nat -> A := fun j => if Nat.eqb j i then v else f j.

(** The cuts of the collection: row cuts and column cuts. *)
Definition pool := (list rowcut * list colcut)%type.

(** COIN_DBL_MAX *)
Definition DBL_MAX : Q := inject_Z (2 ^ 1024 - 2 ^ 971).
(** The cut of lines 3113-3115. *)
Definition infeasible_cut : rowcut := RowCut [] (Some DBL_MAX) (Some 0).

(** ** Rows that are cliques (lines 2951-3058) *)

Section Rows.
  Variable m : mip.

  (** Line 2956. *)
  Definition is01 (j : nat) : bool :=
    match m_clo m j, m_chi m j with
    | Some l, Some u => Qeq_bool l 0 && Qeq_bool u 1
    | _, _ => false
    end.

  (** backward[j], lines 2954-2960: the number of 0-1 columns before [j]. *)
  Definition rank (j : nat) : nat := length (filter is01 (seq 0 j)).
  (** numberIntegers *)
  Definition num01 : nat := rank (m_ncols m).

  (** Line 2982. *)
  Definition fixed_at (j : nat) : option Q :=
    match m_clo m j, m_chi m j with
    | Some l, Some u => if u - l <? (1 # 100000000) then Some l else None
    | _, _ => None
    end.

  Definition osub (o : option Q) (q : Q) : option Q :=
    match o with Some a => Some (a - q) | None => None end.

  (** The loop over one row, lines 2979-3000: upperValue, lowerValue, whichP
      and [good]; a column that is neither fixed nor 0-1 ends the loop. *)
  Fixpoint row_scan (v : vec) (up lo : option Q) (which : list nat) (good : bool)
    : option Q * option Q * list nat * bool :=
    match v with
    | [] => (up, lo, which, good)
    | (j, a) :: v' =>
        match fixed_at j with
        | Some l => row_scan v' (osub up (l * a)) (osub lo (l * a)) which good
        | None =>
            if negb (is01 j) then (up, lo, which, false)
            else if negb (Qeq_bool a 1) then row_scan v' up lo which false
            else row_scan v' up lo (which ++ [rank j]) good
        end
    end.

  (** Lines 3001-3002.  Converting a double that does not fit is undefined. *)
  Definition iUpper (up : option Q) : outcome Z :=
    match up with
    | None => Done INT_MAX
    | Some u => if inject_Z INT_MAX <? u then Done INT_MAX
                else let z := Qfloor (u + (1 # 100000)) in
                     if (z <? INT_MIN)%Z then Undef FloatCast else Done z
    end.
  Definition iLower (lo : option Q) : outcome Z :=
    match lo with
    | None => Done INT_MIN
    | Some l => if l <? inject_Z INT_MIN then Done INT_MIN
                else let z := Qceiling (l - (1 # 100000)) in
                     if (INT_MAX <? z)%Z then Undef FloatCast else Done z
    end.

  (** The variable [state], lines 3003-3025.  Lines 3014-3023 can only make a
      zero negative, and only positive values are looked at afterwards. *)
  Definition state_of (up : option Q) (iu : Z) (nP1 : nat) : Z :=
    if (nP1 <? 2)%nat then (-1)%Z else
    match up with
    | None => 0%Z
    | Some u =>
        if u <? inject_Z 1000000 then
          if (1 # 1000000000) <? Qabs (inject_Z iu - u) then (-1)%Z
          else if (iu =? 1)%Z then 1%Z else if (iu =? 0)%Z then 2%Z else if (iu <? 0)%Z then 3%Z else 0%Z
        else 0%Z
    end.

  Inductive rkind := ROther | RInfeasible | RClique (cols : list nat) (eq : bool).

  (** One row, lines 2972-3056. *)
  Definition row_kind (r : row) : outcome rkind :=
    let '(up, lo, which, good) := row_scan (r_form r) (r_hi r) (r_lo r) [] true in
    do iu <- iUpper up;
    do il <- iLower lo;
    let s := state_of up iu (length which) in
    Done (if good && (0 <? s)%Z
          then if (s =? 3)%Z then RInfeasible
               else if (s =? 2)%Z then ROther
               else RClique which (il =? iu)%Z
          else ROther).

  (** The loop over the rows, lines 2971-3057; the two passes see the same
      rows, the first one only counts.  The list has one element per row: the
      clique with its type ([true] is 'E'), or nothing.  The flag is
      [feasible]; rows after the break are not looked at. *)
  Fixpoint scan_rows (rows : list row) : outcome (list (option (list nat * bool)) * bool) :=
    match rows with
    | [] => Done ([], true)
    | r :: rows' =>
        do k <- row_kind r;
        match k with
        | RInfeasible => Done (map (fun _ => None) rows, false)
        | ROther => do p <- scan_rows rows'; Done (None :: fst p, snd p)
        | RClique c e => do p <- scan_rows rows'; Done (Some (c, e) :: fst p, snd p)
        end
    end.
End Rows.

(** ** outDupsEtc (lines 2663-2927) *)

Section OutDups.
  (** CoinSort_2 on pairs (key, clique number). *)
  Variable sort2 : list (Z * nat) -> list (Z * nat).
  (** numberIntegers *)
  Variable N : nat.
  (** The cliques, each sorted (lines 2671-2677), and their types. *)
  Variable cls : list (list nat).
  Variable typ : list bool.

  Definition nC : nat := length cls.
  Definition clq (k : nat) : list nat := nth k cls [].
  Definition isE (k : nat) : bool := nth k typ false.
  (** entry and cliqueStart *)
  Definition flat : list nat := concat cls.
  Definition start (k : nat) : nat := length (concat (firstn k cls)).

  (** Sorting [which] between two places by the keys, lines 2688 and 2728. *)
  Definition sort_by (key : nat -> Z) (l : list nat) : list nat :=
    map snd (sort2 (map (fun k => (key k, k)) l)).

  (** statusClique and position during the lexicographic sort. *)
  Record lex := Lex { x_stat : nat -> Z; x_pos : nat -> nat }.

  (** statusClique after the clique has moved to place [p], lines 2718-2723. *)
  Definition val_at (k p : nat) : Z := Z.of_nat (nth p (clq k) N).

  (** Lines 2711-2727. *)
  Definition advance (s : lex) (k : nat) : lex :=
    if (x_stat s k <? Z.of_nat N)%Z
    then let p := Datatypes.S (x_pos s k) in Lex (updf (x_stat s) k (val_at k p)) (updf (x_pos s) k p)
    else s.

  (** iLowest and type, lines 2730-2743. *)
  Definition lowest (l : list nat) : nat :=
    fst (fold_left (fun (a : nat * bool) k =>
                      if isE k then (Nat.min (fst a) k, true)
                      else if snd a then a else (Nat.min (fst a) k, false)) l (nC, false)).

  (** Lines 2748-2755. *)
  Definition mark_dups (low : nat) (l : list nat) (s : lex) : lex :=
    Lex (fold_left (fun f k => if Nat.eqb k low then f else updf f k (-2)%Z) l (x_stat s)) (x_pos s).

  (** The loop of lines 2692-2758.  [which] is [done ++ rest], [lastDone] is
      the last place of [done]. *)
  Fixpoint lex_loop (fuel : nat) (s : lex) (done rest : list nat) : outcome (lex * list nat) :=
    match rest with
    | [] => Done (s, done)
    | f :: r =>
        match fuel with
        | O => OutOfFuel
        | Datatypes.S fuel' =>
            let same := fun k => negb ((x_stat s f <? x_stat s k)%Z || (x_pos s k <? x_pos s f)%nat) in
            let '(g, r') := span same r in
            match g with
            | [] => lex_loop fuel' s (done ++ [f]) r
            | _ :: _ =>
                let s1 := fold_left advance (f :: g) s in
                let g1 := sort_by (x_stat s1) (f :: g) in
                let '(l, g2) := span (fun k => (Z.of_nat N <=? x_stat s1 k)%Z) g1 in
                let s2 := match l with [] => s1 | _ :: _ => mark_dups (lowest l) l s1 end in
                lex_loop fuel' s2 (done ++ l) (g2 ++ r')
            end
        end
    end.

  (** Lines 2682-2688: [which] sorted by the first columns. *)
  Definition lex_init : lex := Lex (fun k => val_at k 0) (fun _ => O).
  Definition which0 : list nat := sort_by (x_stat lex_init) (seq 0 nC).

  (** statusClique, position, used, fixed, nOut and startLooking during the
      search for subsets. *)
  Record sub := Sub {
    u_stat : nat -> Z; u_pos : nat -> nat; u_used : nat -> nat;
    u_fixed : nat -> bool; u_out : Z; u_start : nat }.

  (** Lines 2777-2785. *)
  Definition sub_init (s : lex) : sub :=
    Sub (fun k => if (x_stat s k =? -2)%Z then (-2)%Z else val_at k 0)
        (fun k => start k) (fun _ => nC) (fun _ => false) 0 0.

  Definition set_stat (u : sub) (f : nat -> Z) : sub :=
    Sub f (u_pos u) (u_used u) (u_fixed u) (u_out u) (u_start u).

  (** The inner loop of lines 2811-2820, for the clique [i] up to the value
      [kv]; [iv] is iValue, [p] is position[i]. *)
  Fixpoint skip (fuel : nat) (i : nat) (kv iv : Z) (p : nat) : outcome (Z * nat) :=
    if (iv <? kv)%Z then
      match fuel with
      | O => OutOfFuel
      | Datatypes.S fuel' =>
          let p' := Datatypes.S p in
          if Nat.eqb p' (start (Datatypes.S i)) then skip fuel' i kv (Z.of_nat N) p'
          else match nth_error flat p' with
               | None => Undef OutOfBounds
               | Some c => skip fuel' i kv (Z.of_nat c) p'
               end
      end
    else Done (iv, p).

  (** The loops of lines 2835-2842 and 2886-2899: [idx] is j+offset, [e] is
      cliqueStart[i+1], [c] is iColumn, [kc] is kColumn; the columns passed
      over are collected. *)
  Fixpoint scan_to (fuel : nat) (e kc idx c : nat) (passed : list nat) : outcome (nat * nat * list nat) :=
    if (c <? kc)%nat then
      match fuel with
      | O => OutOfFuel
      | Datatypes.S fuel' =>
          let idx' := Datatypes.S idx in
          if (idx' <? e)%nat then
            match nth_error flat idx' with
            | None => Undef OutOfBounds
            | Some c' => scan_to fuel' e kc idx' c' (passed ++ [c])
            end
          else scan_to fuel' e kc idx' N (passed ++ [c])
      end
    else Done (idx, c, passed).

  (** The loop of lines 2832-2847: the columns [ks] of one clique are looked
      for from place [idx] on.  Line 2834 reads entry[j+offset] without a test
      against the end of the other clique. *)
  Fixpoint is_subset (fuel : nat) (e : nat) (ks : list nat) (idx : nat) : outcome bool :=
    match ks with
    | [] => Done true
    | kc :: ks' =>
        match nth_error flat idx with
        | None => Undef OutOfBounds
        | Some c =>
            do r <- scan_to fuel e kc idx c [];
            let '(idx', c', _) := r in
            if Nat.eqb c' kc then is_subset fuel e ks' (Datatypes.S idx') else Done false
        end
    end.

  (** The loop of lines 2883-2900. *)
  Fixpoint to_fix (fuel : nat) (e : nat) (ks : list nat) (idx : nat) (acc : list nat) : outcome (list nat) :=
    match ks with
    | [] => Done acc
    | kc :: ks' =>
        match nth_error flat idx with
        | None => Undef OutOfBounds
        | Some c =>
            do r <- scan_to fuel e kc idx c [];
            let '(idx', _, passed) := r in
            to_fix fuel e ks' (Datatypes.S idx') (acc ++ passed)
        end
    end.

  (** Recursion bound of the two loops: more than the length of entry. *)
  Definition scan_fuel : nat := Datatypes.S (Datatypes.S (length flat)).

  Definition nOutMax : Z := 2000000.

  (** A clique [k] has been found inside clique [i], lines 2848-2908. *)
  Definition found (u : sub) (i k : nat) : outcome sub :=
    let us := updf (u_used u) i (Nat.min (u_used u i) k) in
    let us' := updf us k (Nat.min (us k) i) in
    if isE k then
      do fx <- to_fix scan_fuel (start (Datatypes.S i)) (clq k) (start i) [];
      Done (Sub (u_stat u) (u_pos u) us'
                (fold_left (fun f c => updf f c true) fx (u_fixed u)) (u_out u) (u_start u))
    else
      Done (Sub (updf (u_stat u) k (-2)%Z) (u_pos u) us' (u_fixed u) (u_out u + 1)%Z (u_start u)).

  Variable which : list nat.
  Definition wh (j : nat) : nat := nth j which O.

  (** The loop over iiClique, lines 2797-2911, for clique [k] with value
      [kv]. *)
  Fixpoint look (iis : list nat) (k : nat) (kv : Z) (u : sub) : outcome sub :=
    match iis with
    | [] => Done u
    | ii :: iis' =>
        let i := wh ii in
        let iv := u_stat u i in
        if ((iv =? -2) || (iv =? Z.of_nat N))%Z then
          look iis' k kv (if Nat.eqb ii (u_start u)
                          then Sub (u_stat u) (u_pos u) (u_used u) (u_fixed u) (u_out u) (Datatypes.S (u_start u))
                          else u)
        else
          match nth_error flat (start (Datatypes.S i) - 1) with
          | None => Undef OutOfBounds
          | Some last =>
              if (Z.of_nat last <? kv)%Z then look iis' k kv (set_stat u (updf (u_stat u) i (Z.of_nat N)))
              else
                do r <- skip scan_fuel i kv iv (u_pos u i);
                let '(iv', p') := r in
                let u' := Sub (updf (u_stat u) i iv') (updf (u_pos u) i p') (u_used u) (u_fixed u) (u_out u)
                              (u_start u) in
                if (kv <? iv')%Z then look iis' k kv u'
                else if (length (clq k) <? start (Datatypes.S i) - p')%nat then
                  do b <- is_subset scan_fuel (start (Datatypes.S i)) (clq k) (start i);
                  if b && (u_out u' <=? nOutMax)%Z then found u' i k else look iis' k kv u'
                else look iis' k kv u'
          end
    end.

  (** The loop over jClique, lines 2786-2912. *)
  Fixpoint sub_loop (js : list nat) (u : sub) : outcome sub :=
    match js with
    | [] => Done u
    | j :: js' =>
        let k := wh j in
        if (u_stat u k =? -2)%Z then
          sub_loop js' (Sub (u_stat u) (u_pos u) (u_used u) (u_fixed u) (u_out u + 1)%Z
                            (if Nat.eqb j (u_start u) then Datatypes.S (u_start u) else u_start u))
        else
          do u' <- look (seq (u_start u) (j - u_start u)) k (u_stat u k) u;
          sub_loop js' u'
    end.
End OutDups.

(** The whole of outDupsEtc: statusClique at the end (lines 2917-2921), used
    and fixed. *)
Definition lex_fuel (cls : list (list nat)) : nat :=
  Datatypes.S (2 * length cls + length (concat cls)).

Definition outDupsEtc (sort2 : list (Z * nat) -> list (Z * nat)) (N : nat) (raw : list (list nat)) (typ : list bool)
  : outcome ((nat -> Z) * (nat -> nat) * (nat -> bool)) :=
  let cls := map sort_nat raw in
  do r <- lex_loop sort2 N cls typ (lex_fuel cls) (lex_init N cls) [] (which0 sort2 N cls);
  let '(s, which) := r in
  do u <- sub_loop N cls typ which (seq 0 (length cls)) (sub_init N cls s);
  Done (fun k => if (u_stat u k =? -2)%Z then (-2)%Z else (-1)%Z, u_used u, u_fixed u).

(** ** The object *)

(** duplicate_ (its whole length), storedCuts_, mode_, and the number of rows
    of matrix_. *)
Record dobj := DObj { o_mode : Z; o_dup : option (list Z); o_stored : option stored; o_mrows : nat }.

(** Default constructor, lines 3122-3135. *)
Definition dup_new : dobj := DObj 3 None None 0.
(** refreshSolver, lines 3228-3303: matrix_ and duplicate_.  rhs_ and lower_
    are used by generateCuts4 and generateCuts12 only. *)
Definition refresh (o : dobj) (m : mip) : dobj :=
  DObj (o_mode o) (Some (repeat (-1)%Z (length (m_rows m)))) (o_stored o) (length (m_rows m)).
(** Constructor from a solver, lines 3137-3151. *)
Definition dup_of (m : mip) : dobj := refresh dup_new m.
(** setMode, CglDuplicateRow.hpp:117-118. *)
Definition setMode (o : dobj) (z : Z) : dobj := DObj z (o_dup o) (o_stored o) (o_mrows o).
(** Copy constructor, clone and assignment to another object, lines 3156-3226:
    CoinCopyOfArray reads as many ints as matrix_ has rows. *)
Definition dup_copy (o : dobj) : outcome dobj :=
  match o_dup o with
  | None => Done o
  | Some d => if (o_mrows o <=? length d)%nat
              then Done (DObj (o_mode o) (Some (firstn (o_mrows o) d)) (o_stored o) (o_mrows o))
              else Undef OutOfBounds
  end.

(** ** generateCuts8 (lines 2929-3118) *)

(** Line 2972 writes duplicate_[iRow] for every row. *)
Definition dup_write (o : dobj) (nrows : nat) : outcome unit :=
  match o_dup o with
  | None => if Nat.eqb nrows 0 then Done tt else Undef NullDeref
  | Some d => if (nrows <=? length d)%nat then Done tt else Undef OutOfBounds
  end.

(** The clique number of each row (duplicate_ after line 3058, [None] for -1). *)
Fixpoint number_rows (k : nat) (l : list (option (list nat * bool))) : list (option nat) :=
  match l with
  | [] => []
  | None :: l' => None :: number_rows k l'
  | Some _ :: l' => Some k :: number_rows (Datatypes.S k) l'
  end.
Definition cliques_of (l : list (option (list nat * bool))) : list (list nat * bool) :=
  flat_map (fun o => match o with Some p => [p] | None => [] end) l.

(** The row of a clique (fixed after line 3081). *)
Fixpoint row_of (k : nat) (i : nat) (l : list (option nat)) : nat :=
  match l with
  | [] => O
  | Some c :: l' => if Nat.eqb c k then i else row_of k (Datatypes.S i) l'
  | None :: l' => row_of k (Datatypes.S i) l'
  end.

Section Gen.
  Variable sort2 : list (Z * nat) -> list (Z * nat).
  (** generateCuts4 *)
  Variable gc4 : dobj -> mip -> pool -> outcome (dobj * pool).

  (** [dup2] with [used2], lines 3082-3098; a row that was not reached (after
      the break of line 3031) keeps the earlier, negative, value of duplicate_
      and counts as "not clique". *)
  Definition dup2 (nums : list (option nat)) (nC : nat) (dups : nat -> Z) (used : nat -> nat) : list Z :=
    map (fun o => match o with Some k => dups k | None => (-3)%Z end) nums ++
    map (fun o => match o with
                  | Some k => if (used k <? nC)%nat then Z.of_nat (row_of (used k) 0 nums) else Z.of_nat (used k)
                  | None => (-1)%Z
                  end) nums.

  Definition generateCuts8 (o : dobj) (m : mip) (cs : pool) : outcome (dobj * pool) :=
    do w <- dup_write o (length (m_rows m));
    do sc <- scan_rows m (m_rows m);
    let '(per_row, feas) := sc in
    let cl := cliques_of per_row in
    do r <- outDupsEtc sort2 (num01 m) (map fst cl) (map snd cl);
    let '(dups, used, fixed) := r in
    let cols := filter (fun j => is01 m j && fixed (rank m j)) (seq 0 (m_ncols m)) in
    let cols' := match cols with [] => snd cs | _ => snd cs ++ [ColCut [] (map (fun j => (j, 0)) cols)] end in
    let rows' := if feas then fst cs else insert_new (fst cs) infeasible_cut in
    Done (DObj (o_mode o) (Some (dup2 (number_rows 0 per_row) (length cl) dups used)) (o_stored o) (o_mrows o),
          (rows', cols')).

  (** generateCuts, lines 24-48.  [sol] is the solver's solution, used by the
      stored cuts only. *)
  Definition generateCuts (o : dobj) (m : mip) (inTree : bool) (sol lower upper : nat -> Q) (cs : pool)
    : outcome (dobj * pool) :=
    if inTree then
      match o_stored o with
      | None => Done (o, cs)
      | Some s => do r <- st_generateCuts s sol lower upper (fst cs);
                  Done (DObj (o_mode o) (o_dup o) (Some (snd r)) (o_mrows o), (fst r, snd cs))
      end
    else if negb (Z.land (o_mode o) 3 =? 0)%Z then Done (o, cs)
    else if negb (Z.land (o_mode o) 4 =? 0)%Z then gc4 o m cs
    else if negb (Z.land (o_mode o) 8 =? 0)%Z then generateCuts8 o m cs
    else Aborts.

  (** ** outDuplicates (lines 3325-3380) *)

  (** deleteRows for the rows marked -2 or non-negative, lines 3340-3349. *)
  Definition dropped (z : Z) : bool := ((z =? -2) || (0 <=? z))%Z.
  Definition keep_rows (d : list Z) (rows : list row) : list row :=
    map snd (filter (fun p => negb (dropped (fst p))) (combine d rows)).

  (** Line 3365 and line 3373. *)
  Definition raise_lo (m : mip) (p : nat * Q) : mip :=
    let up := match m_clo m (fst p) with None => true | Some l => l <? snd p end in
    if up then Mip (m_ncols m) (m_rows m) (updf (m_clo m) (fst p) (Some (snd p))) (m_chi m) (m_int m) else m.
  Definition lower_hi (m : mip) (p : nat * Q) : mip :=
    let dn := match m_chi m (fst p) with None => true | Some u => snd p <? u end in
    if dn then Mip (m_ncols m) (m_rows m) (m_clo m) (updf (m_chi m) (fst p) (Some (snd p))) (m_int m) else m.
  Definition apply_colcut (m : mip) (c : colcut) : mip :=
    fold_left lower_hi (cc_ubs c) (fold_left raise_lo (cc_lbs c) m).

  Definition outDuplicates (o : dobj) (m : mip) (sol lower upper : nat -> Q) : outcome (dobj * mip) :=
    do r <- generateCuts o m false sol lower upper ([], []);
    let '(o', (_, cols)) := r in
    do w <- dup_write o' (length (m_rows m));
    let d := match o_dup o' with Some d => d | None => [] end in
    Done (o', fold_left apply_colcut cols
                (Mip (m_ncols m) (keep_rows d (m_rows m)) (m_clo m) (m_chi m) (m_int m))).
End Gen.
