(** * CglCliqueStrengthening

    Source: /repo/src/CglCliqueStrengthening/CglCliqueStrengthening.cpp and
    .hpp.

    A literal is a number below [2n]: [j < n] stands for column [j], [n + j]
    for its complement.

    Outside the model: the conflict graph and CoinCliqueExtender (CoinUtils)
    are the parameter [ext] ([ext i c] is what the [i]-th iteration of the
    extension loop gets when it asks for the clique [c] to be extended;
    [None] means "not extended"); the wall clock is the parameter [stop];
    messages are left out; getReducedCost (lines 429-444) only fills an array
    that is handed to the extender, so it and the choice of extension method
    are part of [ext].  CoinCliqueSet keeps the cliques in the order in which
    they were inserted; the order of the literals inside one clique is that
    of the extender. *)

From Verif Require Import Spec Base.
From Coq Require Import String Arith.
Open Scope Q_scope.

(** CLQ_STR_EPS and MAX_SIZE_CLIQUE_TO_BE_EXTENDED
    (CglCliqueStrengthening.cpp:29-30). *)
Definition CLQ_STR_EPS : Q := 1 # 1000000.
Definition MAX_SIZE_CLIQUE : nat := 256.

(** One entry of CliqueRows (CglCliqueStrengthening.hpp:39-108):
    elements_, rowIdx_ and rowStatus_ of one clique row; [cr_dom] is
    "status is Dominated". *)
Record crow := CRow { cr_lits : list nat; cr_orig : nat; cr_dom : bool }.

(** The solver rows with their names, as seen through getRowName and
    getMatrixByRow. *)
Notation nrow := (string * row)%type (only parsing).

(** The object together with the solver it works on
    (CglCliqueStrengthening.hpp: model_, cliqueRows_, posInClqRows_,
    rowClqNames_, nExtended_, nDominated_).  [o_cap] is the number of rows
    the solver had when the object was built, the length of posInClqRows_
    and dirtyRows_.  [o_cr = None] is a null cliqueRows_. *)
Record obj := Obj {
  o_n : nat;
  o_rows : list nrow;
  o_clo : nat -> option Q;
  o_chi : nat -> option Q;
  o_int : nat -> bool;
  o_cr : option (list crow);
  o_pos : list nat;
  o_cap : nat;
  o_names : list string;
  o_next : nat;
  o_ndom : nat }.

(** The mixed-integer program held by the solver. *)
Definition o_mip (o : obj) : mip :=
  Mip (o_n o) (map snd (o_rows o)) (o_clo o) (o_chi o) (o_int o).

(** "coefCol + EPS <= minCoef" (CglCliqueStrengthening.cpp:195, 198);
    [None] is the initial DBL_MAX. *)
Definition below (c : Q) (m : option Q) : bool :=
  match m with Some q => Qle_bool (c + CLQ_STR_EPS) q | None => true end.

Definition opt_is (q : Q) (o : option Q) : bool :=
  match o with Some b => Qeq_bool b q | None => false end.

(** isBinary (CglCliqueStrengthening.cpp:181-182). *)
Definition is_bin (clo chi : nat -> option Q) (int : nat -> bool) (j : nat) : bool :=
  int j && (opt_is 1 (clo j) || opt_is 0 (clo j))
        && (opt_is 0 (chi j) || opt_is 1 (chi j)).

(** The loop over the entries of one row (CglCliqueStrengthening.cpp:177-201).
    Accumulator: literals so far, right hand side, two smallest
    coefficients.  [Done None] is testRow = false.  [cap] is the length of
    tmpRow, numCols. *)
Fixpoint detect_entries (n : nat) (bin : nat -> bool) (mult : Q) (v : vec)
    (lits : list nat) (rhs : Q) (m1 m2 : option Q) :
    outcome (option (list nat * Q * option Q * option Q)) :=
  match v with
  | [] => Done (Some (lits, rhs, m1, m2))
  | (j, a) :: v' =>
      if (n <=? List.length lits)%nat then Undef OutOfBounds else
      if negb (bin j) then Done None else
      let c0 := a * mult in
      let neg := Qle_bool c0 (- CLQ_STR_EPS) in
      let c := if neg then - c0 else c0 in
      let l := if neg then (j + n)%nat else j in
      let rhs' := if neg then rhs + c else rhs in
      let lits' := lits ++ [l] in
      if below c m1 then detect_entries n bin mult v' lits' rhs' (Some c) m1
      else if below c m2 then detect_entries n bin mult v' lits' rhs' m1 (Some c)
      else detect_entries n bin mult v' lits' rhs' m1 m2
  end.

(** minCoef1 + minCoef2 >= rhs + EPS (CglCliqueStrengthening.cpp:207). *)
Definition min_sum_ge (m1 m2 : option Q) (q : Q) : bool :=
  match m1, m2 with Some a, Some b => Qle_bool q (a + b) | _, _ => true end.

(** One row (CglCliqueStrengthening.cpp:156-210): the literals of the row if
    it is taken for a set packing row. *)
Definition detect_row (n : nat) (bin : nat -> bool) (r : row) : outcome (option (list nat)) :=
  let nz := List.length (r_form r) in
  if (nz <=? 1)%nat || (MAX_SIZE_CLIQUE <? nz)%nat then Done None else
  match row_sense r with
  | SenseL | SenseG =>
      let mult := match row_sense r with SenseG => -(1) | _ => 1 end in
      do e <- detect_entries n bin mult (r_form r) [] (mult * row_rhs r) None None;
      match e with
      | None => Done None
      | Some (lits, rhs, m1, m2) =>
          if min_sum_ge m1 m2 (rhs + CLQ_STR_EPS) then Done (Some lits) else Done None
      end
  | _ => Done None
  end.

(** detectCliqueRows with CliqueRows::addRow
    (CglCliqueStrengthening.cpp:155-211, 51-57).  [room] is what is left of
    elements_; the positions not taken get numRows. *)
Fixpoint detect_rows (n nrows : nat) (bin : nat -> bool) (rows : list row) (i room : nat)
    (cr : list crow) (pos : list nat) : outcome (list crow * list nat) :=
  match rows with
  | [] => Done (cr, pos)
  | r :: rows' =>
      do d <- detect_row n bin r;
      match d with
      | None => detect_rows n nrows bin rows' (S i) room cr (pos ++ [nrows])
      | Some lits =>
          if (room <? List.length lits)%nat || (nrows <=? List.length cr)%nat then Undef OutOfBounds else
          detect_rows n nrows bin rows' (S i) (room - List.length lits)
            (cr ++ [CRow lits i false]) (pos ++ [List.length cr])
      end
  end.

(** getNumElements *)
Definition num_elements (rows : list row) : nat :=
  fold_right (fun r s => (List.length (r_form r) + s)%nat) 0%nat rows.

(** The constructor (CglCliqueStrengthening.cpp:98-124) on a solver holding
    the given named rows and columns. *)
Definition cs_new (n : nat) (rows : list nrow) (clo chi : nat -> option Q) (int : nat -> bool) : outcome obj :=
  let rs := map snd rows in
  let nr := List.length rows in
  if (num_elements rs =? 0)%nat then
    Done (Obj n rows clo chi int None [] nr [] 0 0)
  else
    do d <- detect_rows n nr (is_bin clo chi int) rs 0 (num_elements rs) [] [];
    let (cr, pos) := d in
    Done (Obj n rows clo chi int (Some cr) pos nr [] 0 0).

Definition memb (a : nat) (l : list nat) : bool := existsb (Nat.eqb a) l.

(** setStatus(k, Dominated) (CglCliqueStrengthening.cpp:87-92). *)
Fixpoint set_dom (k : nat) (cr : list crow) : list crow :=
  match cr, k with
  | [], _ => []
  | c :: cr', O => CRow (cr_lits c) (cr_orig c) true :: cr'
  | c :: cr', S k' => c :: set_dom k' cr'
  end.

(** colClqs_[col]: the clique rows in which a literal occurs, in order
    (fillCliquesByColumn, CglCliqueStrengthening.cpp:216-252). *)
Definition col_cliques (cr : list crow) (l : nat) : list nat :=
  filter (fun k => match nth_error cr k with
                   | Some c => memb l (cr_lits c)
                   | None => false
                   end) (seq 0 (List.length cr)).

(** The inner loop of checkDominance (CglCliqueStrengthening.cpp:465-490).
    [nrows] is the length of ivRow, [tested] the set bits of ivRow. *)
Fixpoint cd_rows (nrows : nat) (d : list nat) (ks : list nat) (tested : list nat) (cr : list crow) :
    outcome (list nat * list crow) :=
  match ks with
  | [] => Done (tested, cr)
  | k :: ks' =>
      match nth_error cr k with
      | None => Undef OutOfBounds
      | Some c =>
          if cr_dom c then cd_rows nrows d ks' tested cr else
          if (nrows <=? k)%nat then Undef OutOfBounds else
          if memb k tested then cd_rows nrows d ks' tested cr else
          let cr' := if forallb (fun l => memb l d) (cr_lits c) then set_dom k cr else cr in
          cd_rows nrows d ks' (k :: tested) cr'
      end
  end.

(** checkDominance (CglCliqueStrengthening.cpp:446-502); [n2] is the length
    of ivCol, twice the number of columns. *)
Fixpoint cd_cols (n2 nrows : nat) (d : list nat) (cols : list nat) (tested : list nat) (cr : list crow) :
    outcome (list crow) :=
  match cols with
  | [] => Done cr
  | l :: cols' =>
      if (n2 <=? l)%nat then Undef OutOfBounds else
      do p <- cd_rows nrows d (col_cliques cr l) tested cr;
      cd_cols n2 nrows d cols' (fst p) (snd p)
  end.
Definition check_dominance (n2 nrows : nat) (d : list nat) (cr : list crow) : outcome (list crow) :=
  cd_cols n2 nrows d d [] cr.

(** CoinCliqueSet::insertIfNotDuplicate compares cliques as sets. *)
Definition same_set (a b : list nat) : bool :=
  forallb (fun l => memb l b) a && forallb (fun l => memb l a) b.

(** State of the extension loop: clique rows, new cliques, rowClqNames_,
    nExtended_. *)
Record est := Est {
  e_cr : list crow; e_new : list (list nat); e_names : list string; e_ext : nat }.

(** The body of the extension loop for clique row [k]
    (CglCliqueStrengthening.cpp:329-357 and 391-418, the two are the same).
    [name] is a char[256] filled by sprintf("%s_ext"). *)
Definition ext_body (n : nat) (rows : list nrow) (ext : nat -> list nat -> option (list nat))
    (i k : nat) (st : est) : outcome est :=
  match nth_error (e_cr st) k with
  | None => Undef OutOfBounds
  | Some c =>
      if cr_dom c then Done st else
      match ext i (cr_lits c) with
      | None => Done st
      | Some d =>
          let cr1 := set_dom k (e_cr st) in
          if existsb (same_set d) (e_new st)
          then Done (Est cr1 (e_new st) (e_names st) (S (e_ext st)))
          else
            do cr2 <- check_dominance (2 * n) (List.length rows) d cr1;
            let nm := match nth_error rows (cr_orig c) with Some p => fst p | None => EmptyString end in
            if (256 <? String.length nm + 5)%nat then Undef OutOfBounds else
            Done (Est cr2 (e_new st ++ [d]) (e_names st ++ [append nm "_ext"]) (S (e_ext st)))
      end
  end.

(** The extension loops (CglCliqueStrengthening.cpp:324-359 over all clique
    rows, 386-420 over the rows asked for).  [ks] yields the position in
    CliqueRows of each iteration; [stop i] says that the clock ran out when
    iteration [i] looked at it. *)
Fixpoint ext_loop (n : nat) (rows : list nrow) (ext : nat -> list nat -> option (list nat))
    (stop : nat -> bool) (ks : list (outcome nat)) (i : nat) (st : est) : outcome est :=
  match ks with
  | [] => Done st
  | ok :: ks' =>
      if stop i then Done st else
      do k <- ok;
      do st' <- ext_body n rows ext i k st;
      ext_loop n rows ext stop ks' (S i) st'
  end.

(** deleteRows of the solver interface: CoinPackedMatrix throws on an index
    that is out of range or given twice. *)
Fixpoint nodup_b (l : list nat) : bool :=
  match l with [] => true | a :: l' => negb (memb a l') && nodup_b l' end.
Fixpoint delete_from {A} (i : nat) (idx : list nat) (rows : list A) : list A :=
  match rows with
  | [] => []
  | r :: rows' => if memb i idx then delete_from (S i) idx rows' else r :: delete_from (S i) idx rows'
  end.
Definition delete_rows {A} (idx : list nat) (rows : list A) : outcome (list A) :=
  if forallb (fun k => k <? List.length rows)%nat idx && nodup_b idx
  then Done (delete_from 0 idx rows) else Throws.

(** removeDominatedRows (CglCliqueStrengthening.cpp:504-520); toRemove has
    room for the current number of rows. *)
Definition remove_dominated (cr : list crow) (rows : list nrow) : outcome (nat * list nrow) :=
  let idx := map cr_orig (filter cr_dom cr) in
  if (List.length rows <? List.length idx)%nat then Undef OutOfBounds else
  if (List.length idx =? 0)%nat then Done (0%nat, rows) else
  do rows' <- delete_rows idx rows;
  Done (List.length idx, rows').

(** Adding one literal to the row under construction
    (CglCliqueStrengthening.cpp:543-571).  State: entries, rhs, duplicated. *)
Fixpoint bump (j : nat) (s : Q) (v : vec) : option vec :=
  match v with
  | [] => None
  | (i, a) :: v' =>
      if Nat.eqb i j then Some ((i, a + s) :: v')
      else match bump j s v' with Some w => Some ((i, a) :: w) | None => None end
  end.
Definition coef_at (j : nat) (v : vec) : Q :=
  match find (fun p => Nat.eqb (fst p) j) v with Some p => snd p | None => 0 end.
Definition lit_step (n : nat) (st : vec * Q * nat) (l : nat) : outcome (vec * Q * nat) :=
  let '(v, rhs, dup) := st in
  let pos := (l <? n)%nat in
  let j := if pos then l else (l - n)%nat in
  let s := if pos then 1 else -(1) in
  let rhs' := if pos then rhs else rhs - 1 in
  if (n <=? j)%nat then Undef OutOfBounds else
  match bump j s v with
  | None => Done (v ++ [(j, s)], rhs', dup)
  | Some w => if Qeq_bool (coef_at j w) 0 then Done (w, rhs', S dup) else Aborts
  end.

(** The row of one clique (CglCliqueStrengthening.cpp:536-597): [None] is
    more than one column occurring together with its complement. *)
Definition clique_row (n : nat) (d : list nat) : outcome (option (vec * Q * bool)) :=
  do st <- ofold (lit_step n) d ([], 1, 0%nat);
  let '(v, rhs, dup) := st in
  if (1 <? dup)%nat then Done None else
  if (dup =? 1)%nat then
    let w := filter (fun p => Qeq_bool (snd p) (-(1)) || Qeq_bool (snd p) 1) v in
    let neg := filter (fun p => Qeq_bool (snd p) (-(1))) w in
    Done (Some (w, - inject_Z (Z.of_nat (List.length neg)), true))
  else Done (Some (v, rhs, false)).

(** The loop over the new cliques (CglCliqueStrengthening.cpp:535-598).
    [names] is rowClqNames_ from the current position on, so the k-th clique
    uses the k-th name of the whole vector.  Result: rows and names, [None]
    for "feasible = false". *)
Fixpoint build_rows (n : nat) (ds : list (list nat)) (names : list string) :
    outcome (option (list row * list string)) :=
  match ds with
  | [] => Done (Some ([], names))
  | d :: ds' =>
      do c <- clique_row n d;
      match c with
      | None => Done None
      | Some (v, rhs, dup) =>
          match names with
          | [] => Undef OutOfBounds
          | nm :: names' =>
              if dup && (256 <? String.length nm + 5)%nat then Undef OutOfBounds else
              let nm' := if dup then append nm "_dup" else nm in
              do t <- build_rows n ds' names';
              match t with
              | None => Done None
              | Some (rs, nms) => Done (Some (Row v None (Some rhs) :: rs, nm' :: nms))
              end
          end
      end
  end.

(** The row added when two pairs of complementary literals are found
    (CglCliqueStrengthening.cpp:610). *)
Definition bad_row : row := Row [] (Some 1) (Some 0).

(** addStrongerCliques (CglCliqueStrengthening.cpp:522-619).  After a
    failure the names changed so far are not tracked (the vector is only
    read again by a later call). *)
Definition add_stronger (n : nat) (ds : list (list nat)) (names : list string) (rows : list nrow) :
    outcome (list nrow * list string) :=
  do b <- build_rows n ds names;
  match b with
  | Some (rs, nms) => Done (rows ++ combine nms rs, nms)
  | None => Done (rows ++ [(EmptyString, bad_row)], names)
  end.

(** Which rows a call works on: strengthenCliques(extMethod)
    (CglCliqueStrengthening.cpp:254-278) or strengthenCliques(n, rows,
    extMethod) (280-304). *)
Inductive which := AllRows | TheseRows (rows : list nat).

(** Positions in CliqueRows: all of them, or posInClqRows_[rows[i]]. *)
Definition positions (w : which) (cr : list crow) (pos : list nat) : list (outcome nat) :=
  match w with
  | AllRows => map (fun k => Done k) (seq 0 (List.length cr))
  | TheseRows rs => map (fun r => match nth_error pos r with Some k => Done k | None => Undef OutOfBounds end) rs
  end.

(** strengthenCliques, both forms. *)
Definition strengthen (ext : nat -> list nat -> option (list nat)) (stop : nat -> bool)
    (w : which) (o : obj) : outcome obj :=
  let o0 := Obj (o_n o) (o_rows o) (o_clo o) (o_chi o) (o_int o) (o_cr o) (o_pos o) (o_cap o)
                (o_names o) 0 0 in
  if (o_n o =? 0)%nat || (List.length (o_rows o) =? 0)%nat then Done o0 else
  match o_cr o with
  | None => Undef NullDeref
  | Some [] => Done o0
  | Some cr =>
      do st <- ext_loop (o_n o) (o_rows o) ext stop (positions w cr (o_pos o)) 0
                 (Est cr [] (o_names o) 0);
      match e_new st with
      | [] => Done (Obj (o_n o) (o_rows o) (o_clo o) (o_chi o) (o_int o) (Some (e_cr st)) (o_pos o)
                        (o_cap o) (e_names st) (e_ext st) 0)
      | ds =>
          do rm <- remove_dominated (e_cr st) (o_rows o);
          do ad <- add_stronger (o_n o) ds (e_names st) (snd rm);
          Done (Obj (o_n o) (fst ad) (o_clo o) (o_chi o) (o_int o) (Some (e_cr st)) (o_pos o)
                    (o_cap o) (snd ad) (e_ext st) (fst rm))
      end
  end.
