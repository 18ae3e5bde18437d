(** * Model of CglAllDifferent
    /repo/src/CglAllDifferent/CglAllDifferent.cpp and CglAllDifferent.hpp.

    Line numbers refer to CglAllDifferent.cpp.  Printing, the CGL_DEBUG block
    (lines 38-59) and the release of work arrays are not modelled.  The
    parameter [debug] tells whether assert is active (NDEBUG undefined).
    Work arrays are functions; the table possible (one row of gap characters
    per variable, stored flat) is a function of variable and value.  The bit
    words covered and bitmap[j] are used only when gap < 30, so every shift
    stays inside a 32-bit word; they are functions from bit number to bool. *)

From Verif Require Import Base.
Local Open Scope Q_scope.

(** Function update, the model's array store. *)
Definition put {A} (f : nat -> A) (k : nat) (a : A) (i : nat) : A :=
  if Nat.eqb i k then a else f i.
Definition memn (j : nat) (l : list nat) : bool := existsb (Nat.eqb j) l.

(** Members, CglAllDifferent.hpp lines 103-118.  start_ and which_ together
    are the list of sets; [ad_nd = None]: numberDifferent_ not initialised;
    [ad_null]: start_, which_ and originalWhich_ are NULL. *)
Record alldiff := AllDiff {
  ad_null : bool;
  ad_nd : option nat;
  ad_sets : list (list nat);
  ad_orig : list nat
}.

(** Default constructor, lines 418-429. *)
Definition ad_default : alldiff := AllDiff true (Some 0%nat) [] [].

(** The translation table of the constructor, lines 451-476: a listed column
    gets the number of listed columns before it. *)
Definition translate (which : list nat) (c : nat) : nat :=
  length (filter (fun d => memn d which) (seq 0 c)).
(** Useful constructor, lines 434-479.  The arrays starts and which are given
    as the list of sets.  With no set numberDifferent_ stays uninitialised. *)
Definition ad_new (sets : list (list nat)) : alldiff :=
  match sets with
  | [] => AllDiff true None [] []
  | _ =>
      let which := concat sets in
      let maxValue := S (fold_right Nat.max 0%nat which) in
      AllDiff false (Some (translate which maxValue)) (map (map (translate which)) sets) which
  end.
(** Copy constructor and assignment, lines 484-502 and 527-553: deep copies of
    all members (numberDifferent_ included). *)
Definition ad_copy (g : alldiff) : alldiff := g.

(** static_cast<int> of a bound; undefined when infinite or out of range. *)
Definition qtrunc (q : Q) : Z := (Z.quot (Qnum q) (Zpos (Qden q)))%Z.
Definition to_int (b : option Q) : outcome Z :=
  match b with
  | None => Undef FloatCast
  | Some q => if int_range (qtrunc q) then Done (qtrunc q) else Undef FloatCast
  end.
(** assert (floor(q+0.5)==q), lines 66 and 68. *)
Definition is_whole (b : option Q) : bool :=
  match b with Some q => Qeq_bool (qfloor (q + (1#2))) q | None => true end.

(** One step of the loop of lines 62-70. *)
Definition read_bounds (debug : bool) (m : mip) (iColumn : nat) : outcome (Z * Z) :=
  if negb (iColumn <? m_ncols m)%nat then if debug then Aborts else Undef OutOfBounds
  else
    do l <- to_int (m_clo m iColumn);
    if debug && negb (is_whole (m_clo m iColumn)) then Aborts else
    do u <- to_int (m_chi m iColumn);
    if debug && negb (is_whole (m_chi m iColumn)) then Aborts else
    if debug && (u <? l)%Z then Aborts else
    Done (l, u).

(** int subtraction and addition with overflow check: gap, lines 90 and 125. *)
Definition int_gap (maxValue offset : Z) : outcome Z :=
  let d := (maxValue - offset)%Z in
  if int_range d then if int_range (d + 1) then Done (d + 1)%Z else Undef IntOverflow
  else Undef IntOverflow.

(** Choice of the sets to look at, lines 77-97: stops after the first set
    that makes the table exceed ten million entries. *)
Fixpoint choose_sets (nd : nat) (bnd : nat -> Z * Z) (sets : list (list nat))
    (offset maxValue : Z) : outcome (Z * Z * list (list nat)) :=
  match sets with
  | [] => Done (offset, maxValue, [])
  | s :: sets' =>
      let offset := fold_left (fun o k => Z.min o (fst (bnd k))) s offset in
      let maxValue := fold_left (fun o k => Z.max o (snd (bnd k))) s maxValue in
      do gap <- int_gap maxValue offset;
      if (10000000 <? gap * Z.of_nat nd)%Z then Done (offset, maxValue, [s])
      else
        do r <- choose_sets nd bnd sets' offset maxValue;
        Done (fst r, s :: snd r)
  end.

(** State of the propagation. *)
Record st := St {
  s_poss : nat -> nat -> bool;       (* possible *)
  s_fix : nat -> option nat;         (* alreadyFixed, None for -1 *)
  s_nfix : nat;                      (* numberFixed *)
  s_inf : bool;                      (* infeasible *)
  s_fin : bool                       (* finished *)
}.

(** Initial table, lines 126-136: row i gets ones at lo[i]-offset .. up[i]-offset.
    A memset that leaves row i is reported as out of bounds even when it would
    still fall inside the table (it then corrupts another row); a negative
    length converts to a huge size_t. *)
Fixpoint init_rows (offset gap : Z) (bnd : nat -> Z * Z) (l : list nat)
    (poss : nat -> nat -> bool) : outcome (nat -> nat -> bool) :=
  match l with
  | [] => Done poss
  | i :: l' =>
      let a := (fst (bnd i) - offset)%Z in
      let n := (snd (bnd i) - fst (bnd i) + 1)%Z in
      if ((n <? 0) || (a <? 0) || (gap <? a + n))%Z then Undef OutOfBounds
      else
        init_rows offset gap bnd l'
          (put poss i (fun v => (Z.to_nat a <=? v)%nat && (v <? Z.to_nat (a + n))%nat))
  end.

(** "take out of all others", lines 143-153 and 207-217: back / backStart list
    the sets a variable is in; they are replaced by a scan of the sets (a set
    listing the variable twice is scanned once instead of twice). *)
Definition clear_others (sets : list (list nat)) (k v : nat) (poss : nat -> nat -> bool) :
    nat -> nat -> bool :=
  fold_left (fun poss s =>
    if memn k s
    then fold_left (fun poss kk => if Nat.eqb kk k then poss else put poss kk (put (poss kk) v false)) s poss
    else poss) sets poss.
(** Fixing a variable, lines 204-217 (also 140-153). *)
Definition fix_var (sets : list (list nat)) (k v : nat) (s : st) : st :=
  St (clear_others sets k v (s_poss s)) (put (s_fix s) k (Some v)) (S (s_nfix s)) (s_inf s) (s_fin s).
Definition set_infeasible (s : st) : st :=
  St (s_poss s) (s_fix s) (s_nfix s) true (s_fin s).

(** Initially fixed variables, lines 137-155. *)
Definition init_fix (sets : list (list nat)) (offset : Z) (bnd : nat -> Z * Z) (s : st) (i : nat) : st :=
  if Z.eqb (snd (bnd i) - fst (bnd i) + 1) 1
  then fix_var sets i (Z.to_nat (fst (bnd i) - offset)) s
  else s.

(** Counting the allowed values of the members of a set, lines 172-226.  The
    boolean result tells that the scan was left by break with i=numberLook. *)
Fixpoint scan_set (gap : nat) (sets : list (list nat)) (l : list nat)
    (check : nat -> nat) (s : st) : st * bool :=
  match l with
  | [] => (s, false)
  | k :: l' =>
      match s_fix s k with
      | Some v =>
          if Nat.eqb (check v) 0 then scan_set gap sets l' (put check v 1%nat) s
          else (set_infeasible s, true)
      | None =>
          let allowed := filter (s_poss s k) (seq 0 gap) in
          let check' := fun v => if memn v allowed then S (check v) else check v in
          match allowed with
          | [] => (set_infeasible s, true)
          | [v] => scan_set gap sets l' (put check' v 1%nat) (fix_var sets k v s)
          | _ => scan_set gap sets l' check' s
          end
      end
  end.

(** The smallest index from [jj] on, below [gap], with [f] true. *)
Definition next (f : nat -> bool) (jj gap : nat) : option nat :=
  find f (seq jj (gap - jj)).

Section Backtrack.
  Variable debug : bool.
  Variable gap : nat.
  Variable poss : nat -> nat -> bool.
  Variable which : list nat.
  Local Notation n := (length which).
  (** allowed row of the variable at position j, line 238 *)
  Definition allowed (j : nat) : nat -> bool := poss (nth j which 0%nat).
  (** first[j], lines 239-244 and 271-276; gap when the row is empty.  At the
      position after the last one the code has a stale value, never used.  *)
  Definition first (j : nat) : nat :=
    match next (allowed j) 0 gap with Some v => v | None => gap end.
  (** assert (jj<gap), lines 243 and 275 *)
  Definition assert_first : bool := forallb (fun j => first j <? gap)%nat (seq 0 n).

  (** Search state: depth nStack, good, stack, covered. *)
  Record ds := DS { d_pos : nat; d_good : bool; d_stack : nat -> nat; d_cov : nat -> bool }.

  (** First descent, lines 236-266; [rem] positions are left. *)
  Fixpoint descend (rem : nat) (j : nat) (stack : nat -> nat) (cov : nat -> bool) : ds :=
    match rem with
    | O => DS j true stack cov
    | S rem' =>
        let jj := first j in
        if negb (cov jj) then descend rem' (S j) (put stack j jj) (put cov jj true)
        else
          match next (fun v => allowed j v && negb (cov v)) (S jj) gap with
          | Some v => descend rem' (S j) (put stack j v) (put cov v true)
          | None => DS j false stack cov
          end
    end.

  (** Extension of a partial assignment, the while loop of lines 311-330. *)
  Fixpoint extend (rem : nat) (pos jj : nat) (stack : nat -> nat) (cov : nat -> bool) : ds :=
    match rem with
    | O => DS pos true stack cov
    | S rem' =>
        match next (fun v => allowed pos v && negb (cov v)) jj gap with
        | Some v =>
            extend rem' (S pos) (first (S pos))
              (put (put stack pos v) (S pos) (first (S pos))) (put cov v true)
        | None => DS pos false stack cov
        end
    end.

  (** Recording a complete assignment, lines 288-293. *)
  Definition record (stack : nat -> nat) (bm : nat -> nat -> bool) : nat -> nat -> bool :=
    fold_left (fun bm j => put bm j (put (bm j) (stack j) true)) (seq 0 n) bm.

  (** assert (covered==kBit), lines 299-308 *)
  Definition cov_ok (pos : nat) (stack : nat -> nat) (cov : nat -> bool) : bool :=
    forallb (fun v => Bool.eqb (cov v) (existsb (fun k => Nat.eqb (stack k) v) (seq 0 pos)))
            (seq 0 (S gap)).

  (** The loop of lines 279-331. *)
  Fixpoint search (fuel : nat) (d : ds) (bm : nat -> nat -> bool) : outcome (nat -> nat -> bool) :=
    match d_pos d with
    | O => Done bm
    | S pos =>
        match fuel with
        | O => OutOfFuel
        | S fuel' =>
            let bm' := if d_good d then record (d_stack d) bm else bm in
            let jj := d_stack d pos in
            let cov := put (d_cov d) jj false in
            if debug && negb (cov_ok pos (d_stack d) cov) then Aborts
            else
              search fuel' (extend (n - pos) pos (S jj) (put (d_stack d) pos (S jj)) cov) bm'
        end
    end.

  (** Lines 229-331: the values each position takes in some complete
      assignment of the set. *)
  Definition bitmap (fuel : nat) (nd : nat) : outcome (nat -> nat -> bool) :=
    if (nd <? n)%nat then Undef OutOfBounds
    else if debug && negb assert_first then Aborts
    else search fuel (descend n 0 (fun _ => 0%nat) (fun _ => false)) (fun _ _ => false).
End Backtrack.

(** Removal of the values never taken, lines 332-354. *)
Definition prune_one (gap : nat) (bm : nat -> bool) (k : nat) (s : st) : st :=
  let bad := existsb (fun v => negb (bm v) && s_poss s k v) (seq 0 gap) in
  St (put (s_poss s) k (fun v => if (v <? gap)%nat && negb (bm v) then false else s_poss s k v))
     (s_fix s) (s_nfix s) (s_inf s) (if bad then false else s_fin s).
Fixpoint prune (gap : nat) (bm : nat -> nat -> bool) (j : nat) (which : list nat) (s : st) : st :=
  match which with
  | [] => s
  | k :: w => prune gap bm (S j) w (prune_one gap (bm j) k s)
  end.

(** One pass over the sets, lines 171-356. *)
Fixpoint one_pass (debug : bool) (fuel gap nd : nat) (all sets : list (list nat)) (s : st) : outcome st :=
  match sets with
  | [] => Done s
  | w :: sets' =>
      let r := scan_set gap all w (fun _ => 0%nat) s in
      if snd r then Done (fst r)
      else if (gap <? 30)%nat && negb (s_inf (fst r)) then
        do bm <- bitmap debug gap (s_poss (fst r)) w fuel nd;
        one_pass debug fuel gap nd all sets' (prune gap bm 0 w (fst r))
      else one_pass debug fuel gap nd all sets' (fst r)
  end.
(** The loop of lines 168-359. *)
Fixpoint passes (debug : bool) (fuel gap nd : nat) (sets : list (list nat)) (f : nat) (s : st) : outcome st :=
  match f with
  | O => OutOfFuel
  | S f' =>
      let s0 := St (s_poss s) (s_fix s) (s_nfix s) (s_inf s) true in
      do s1 <- one_pass debug fuel gap nd sets sets s0;
      let fin := if (s_nfix s <? s_nfix s1)%nat then false else s_fin s1 in
      let s2 := St (s_poss s1) (s_fix s1) (s_nfix s1) (s_inf s1) fin in
      if fin then Done s2 else passes debug fuel gap nd sets f' s2
  end.

(** COIN_DBL_MAX *)
Definition DBL_MAX : Q := inject_Z (2 ^ 1024 - 2 ^ 971).
(** Lines 361-366: the cut no point satisfies. *)
Definition impossible_cut : rowcut := RowCut [] (Some DBL_MAX) (Some 0).

(** New bounds of one variable, lines 372-392; -1 when no value is left. *)
Definition first_lo (gap : nat) (row : nat -> bool) : Z :=
  match filter row (seq 0 gap) with [] => -1 | v :: _ => Z.of_nat v end.
Definition last_up (gap : nat) (row : nat -> bool) : Z :=
  match filter row (seq 0 gap) with [] => -1 | v :: l => Z.of_nat (last l v) end.
Definition new_lbs (gap : nat) (offset : Z) (bnd : nat -> Z * Z) (orig : list nat)
    (poss : nat -> nat -> bool) (i : nat) : list (nat * Q) :=
  let b := (first_lo gap (poss i) + offset)%Z in
  if (fst (bnd i) <? b)%Z then [(nth i orig 0%nat, inject_Z b)] else [].
Definition new_ubs (gap : nat) (offset : Z) (bnd : nat -> Z * Z) (orig : list nat)
    (poss : nat -> nat -> bool) (i : nat) : list (nat * Q) :=
  let b := (last_up gap (poss i) + offset)%Z in
  if (b <? snd (bnd i))%Z then [(nth i orig 0%nat, inject_Z b)] else [].

(** generateCuts, lines 30-413: the row cuts after the call and the column
    cut added, if any. *)
Definition generateCuts (debug : bool) (fuel : nat) (g : alldiff) (m : mip) (cs : list rowcut) :
    outcome (list rowcut * option colcut) :=
  match ad_nd g with
  | None => Undef Uninitialised
  | Some nd =>
      do bl <- omap (fun i => read_bounds debug m (nth i (ad_orig g) 0%nat)) (seq 0 nd);
      let bnd := fun i => nth i bl (0%Z, 0%Z) in
      if ad_null g then Undef NullDeref       (* start_[numberSets_], line 99 *)
      else
        do c <- choose_sets nd bnd (ad_sets g) INT_MAX (- INT_MAX);
        let offset := fst (fst c) in
        let sets := snd c in
        do gz <- int_gap (snd (fst c)) offset;
        if negb (int_range (gz * Z.of_nat nd)) then Undef IntOverflow else
        let gap := Z.to_nat gz in
        do p0 <- init_rows offset gz bnd (seq 0 nd) (fun _ _ => false);
        let s0 := fold_left (init_fix sets offset bnd) (seq 0 nd) (St p0 (fun _ => None) 0 false false) in
        do s <- passes debug fuel gap nd sets fuel s0;
        if s_inf s then Done (insert_new cs impossible_cut, None)
        else
          let lbs := flat_map (new_lbs gap offset bnd (ad_orig g) (s_poss s)) (seq 0 nd) in
          let ubs := flat_map (new_ubs gap offset bnd (ad_orig g) (s_poss s)) (seq 0 nd) in
          match lbs, ubs with
          | [], [] => Done (cs, None)
          | _, _ => Done (cs, Some (ColCut lbs ubs))
          end
  end.
