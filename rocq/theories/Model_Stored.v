(** * Model of CglStored
    /repo/src/CglCommon/CglStored.cpp and CglStored.hpp *)

From Verif Require Import Base Model_TreeInfo.
Local Open Scope Q_scope.

(** OsiRowCut::violated (OSI, outside /repo): the sum is compared with the
    upper bound first. *)
Definition osi_violated (c : rowcut) (solution : nat -> Q) : Q :=
  let sum := value (rc_form c) solution in
  let low := match rc_lb c with
             | Some l => if sum <? l then l - sum else 0
             | None => 0
             end in
  match rc_ub c with
  | Some u => if u <? sum then sum - u else low
  | None => low
  end.

(** Data members used by cut generation, CglStored.hpp lines 124-140.
    numberColumns_, bestSolution_ and bounds_ belong to saveStuff and are
    modelled with the copies (Model_Copies.v). *)
Record stored := Stored {
  sd_req  : Q;                   (* requiredViolation_ *)
  sd_pi   : option pinfo;        (* probingInfo_ *)
  sd_cuts : list rowcut          (* cuts_ *)
}.

(** Default constructor, CglStored.cpp lines 244-252. *)
Definition stored_new : stored := Stored (1 # 100000) None [].

(** addCut(OsiCuts), lines 197-206: only row cuts are taken. *)
Definition addCuts (s : stored) (cs : list rowcut) : stored :=
  Stored (sd_req s) (sd_pi s) (sd_cuts s ++ cs).
(** addCut(OsiRowCut), lines 208-214. *)
Definition addCut (s : stored) (c : rowcut) : stored :=
  Stored (sd_req s) (sd_pi s) (sd_cuts s ++ [c]).
(** addCut(lb, ub, vector), lines 216-228, and addCut(lb, ub, size, indices,
    elements), lines 230-240. *)
Definition addCutVec (s : stored) (lb ub : option Q) (v : vec) : stored :=
  addCut s (RowCut v lb ub).
(** setRequiredViolation and setProbingInfo, CglStored.hpp lines 36-50. *)
Definition setRequiredViolation (s : stored) (q : Q) : stored :=
  Stored q (sd_pi s) (sd_cuts s).
Definition setProbingInfo (s : stored) (p : pinfo) : stored :=
  Stored (sd_req s) (Some p) (sd_cuts s).

(** Stored cuts, lines 27-34. *)
Definition stored_part (s : stored) (solution : nat -> Q) (cs : list rowcut) : list rowcut :=
  fold_left (fun acc c => if sd_req s <=? osi_violated c solution then acc ++ [c] else acc)
            (sd_cuts s) cs.

(** A cut is built when its violation exceeds requiredViolation_. *)
Definition put_if (req violation : Q) (c : rowcut) (cs : list rowcut) : list rowcut :=
  if req <? violation then insert_new cs c else cs.

(** Entry of a variable going to zero, lines 52-116. *)
Definition zero_cut (req : Q) (intvar : list nat) (solution lower upper : nat -> Q) (iColumn : nat)
                    (cs : list rowcut) (e : Z) : outcome (list rowcut) :=
  let number01 := Z.of_nat (length intvar) in
  let value1 := solution iColumn in
  let jColumn := sequenceInCliqueEntry e in
  if (jColumn <? number01)%Z then
    match nth_error intvar (Z.to_nat jColumn) with
    | None => Undef OutOfBounds
    | Some j =>
        let value2 := solution j in
        Done (if oneFixesInCliqueEntry e
              then put_if req (1 - value1 - value2) (RowCut [(iColumn, 1); (j, 1)] (Some 1) None) cs
              else put_if req (value2 - value1) (RowCut [(iColumn, 1); (j, -1)] (Some 0) None) cs)
    end
  else
    let j := Z.to_nat (jColumn - number01) in
    let value2 := solution j in
    let lo := lower j in let up := upper j in
    Done (if oneFixesInCliqueEntry e
          then put_if req (up - value1 * (up - lo) - value2)
                      (RowCut [(iColumn, up - lo); (j, 1)] (Some up) None) cs
          else put_if req (value2 - value1 * (up - lo) - lo)
                      (RowCut [(iColumn, up - lo); (j, -1)] (Some (- lo)) None) cs).

(** Entry of a variable going to one, lines 117-190. *)
Definition one_cut (req : Q) (intvar : list nat) (solution lower upper : nat -> Q) (iColumn : nat)
                   (cs : list rowcut) (e : Z) : outcome (list rowcut) :=
  let number01 := Z.of_nat (length intvar) in
  let value1 := solution iColumn in
  let jColumn := sequenceInCliqueEntry e in
  if (jColumn <? number01)%Z then
    match nth_error intvar (Z.to_nat jColumn) with
    | None => Undef OutOfBounds
    | Some j =>
        let value2 := solution j in
        Done (if oneFixesInCliqueEntry e
              then put_if req (value1 - value2) (RowCut [(iColumn, 1); (j, -1)] None (Some 0)) cs
              else put_if req (value1 + value2 - 1) (RowCut [(iColumn, 1); (j, 1)] None (Some 1)) cs)
    end
  else
    let j := Z.to_nat (jColumn - number01) in
    let value2 := solution j in
    let lo := lower j in let up := upper j in
    Done (if oneFixesInCliqueEntry e
          then put_if req (lo + (up - lo) * value1 - value2)
                      (RowCut [(iColumn, up - lo); (j, -1)] None (Some (- lo))) cs
          else put_if req ((up - lo) * value1 + value2 - up)
                      (RowCut [(iColumn, up - lo); (j, 1)] None (Some up)) cs).

(** Body of the loop over 0-1 variables, lines 46-191. *)
Definition implied_step (req : Q) (intvar : list nat) (t : table) (solution lower upper : nat -> Q)
                        (cs : list rowcut) (ij : nat * nat) : outcome (list rowcut) :=
  let '(i, iColumn) := ij in
  if Qeq_bool (upper iColumn) (lower iColumn) then Done cs else
  do c1 <- ofold (zero_cut req intvar solution lower upper iColumn) (zero_entries t i) cs;
  ofold (one_cut req intvar solution lower upper iColumn) (one_entries t i) c1.

(** generateCuts, lines 23-195.  fixEntries(), toZero() and toOne() convert the
    tables first (CglTreeInfo.hpp lines 135-153).  Bounds are finite doubles.
    Result: the new cut collection and the new state of the generator. *)
Definition st_generateCuts (s : stored) (solution lower upper : nat -> Q) (cs : list rowcut)
  : outcome (list rowcut * stored) :=
  let cs1 := stored_part s solution cs in
  match sd_pi s with
  | None => Done (cs1, s)
  | Some p0 =>
      let p := convert p0 in
      let s' := Stored (sd_req s) (Some p) (sd_cuts s) in
      match pi_table p with
      | None => if (pi_nint p =? 0)%Z then Done (cs1, s') else Undef NullDeref
      | Some t =>
          do cs2 <- ofold (implied_step (sd_req s) (pi_intvar p) t solution lower upper)
                      (combine (seq 0 (length (pi_intvar p))) (pi_intvar p)) cs1;
          Done (cs2, s')
      end
  end.

(** Calls a user can make on the pool. *)
Inductive stored_op :=
  | OpAddCuts (cs : list rowcut)
  | OpAddCut (c : rowcut)
  | OpAddVec (lb ub : option Q) (v : vec)
  | OpSetRequired (q : Q)
  | OpGenerate (solution lower upper : nat -> Q) (cs : list rowcut).

Definition stored_do (s : stored) (o : stored_op) : outcome stored :=
  match o with
  | OpAddCuts cs => Done (addCuts s cs)
  | OpAddCut c => Done (addCut s c)
  | OpAddVec lb ub v => Done (addCutVec s lb ub v)
  | OpSetRequired q => Done (setRequiredViolation s q)
  | OpGenerate sol lo up cs => do r <- st_generateCuts s sol lo up cs; Done (snd r)
  end.

(** ** Constructor from a file, lines 276-329

    The file is a sequence of records (count, two right-hand sides, indices,
    coefficients).  A token is one successful group of freads; the end of the
    list is end of file.  [Count n] is the int read at line 297; [Body c] is
    the rest of a record.  Under NDEBUG a failing fread leaves its buffer
    unchanged, so at end of file [n] keeps its old value; in a debug build the
    assertion aborts. *)
Inductive token := Count (n : Z) | Body (c : rowcut).

(** [old] are the values of n and of the record buffers from before. *)
Fixpoint read_loop (debug : bool) (fuel : nat) (file : list token) (n : Z) (buf : rowcut)
                   (cuts : list rowcut) : outcome (list rowcut) :=
  match fuel with
  | O => OutOfFuel
  | S fuel' =>
      if (n <? 0)%Z then Done cuts else
      match file with
      | Count n' :: Body c :: rest =>
          if (n' <? 0)%Z then Done cuts
          else read_loop debug fuel' rest n' c (cuts ++ [c])
      | Count n' :: _ =>
          if (n' <? 0)%Z then Done cuts
          else if debug then Aborts
          else read_loop debug fuel' [] n' buf (cuts ++ [buf])
      | _ => if debug then Aborts
             else read_loop debug fuel' [] n buf (cuts ++ [buf])
      end
  end.
Definition stored_from_file (debug : bool) (fuel : nat) (file : list token) (garbage : rowcut)
  : outcome stored :=
  do cuts <- read_loop debug fuel file 0 garbage [];
  Done (Stored (1 # 100000) None cuts).
