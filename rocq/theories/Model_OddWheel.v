(** * CglOddWheel

    Source: /repo/src/CglOddWheel/CglOddWheel.cpp and .hpp.

    A literal is a number below [2n]: [j < n] stands for column [j], [n + j]
    for its complement.

    Parameters standing for code outside /repo ([wenv]):
    - [w_search], CoinOddWheelSeparator on the values of the literals (the
      reduced costs only steer it and are left out), given the extension
      method and the time limit (0 for none);
    - [w_pool], CoinCutPool; [w_dup], the comparison of
      OsiCuts::insertIfNotDuplicate.
    The counters sepCuts, sepTime are left out. *)

From Verif Require Import Spec Base Model_BKClique.
From Coq Require Import Arith Qabs.
Open Scope Q_scope.

(** One structure found by the separator: oddHole, oddWheelRHS, wheelCenter. *)
Record wheel := Wheel { w_hole : list nat; w_rhs : Q; w_center : list nat }.

Record wenv := WEnv {
  w_search : (nat -> Q) -> nat -> Q -> list wheel;
  w_pool : list (vec * Q) -> list (vec * Q);
  w_dup : list rowcut -> rowcut -> bool }.

(** The object: the extension method and the members of the base class
    (CglOddWheel.hpp:103-140, CglCutGenerator.hpp:141-160). *)
Record ow := OW { o_ext : nat; o_secs : Q; o_aggr : Z; o_global : bool }.
(** The constructor (CglOddWheel.cpp:38-44, CglCutGenerator.cpp:17-24). *)
Definition ow_new (ext : nat) : ow := OW ext 0 0 false.
(** The copy constructor (CglOddWheel.cpp:46-63) does not name the base
    class, so the members of the base get their default values. *)
Definition ow_copy (o : ow) : ow := OW (o_ext o) 0 0 false.
(** setExtendingMethod (CglOddWheel.cpp:266-273) and the setters of the base
    class (CglCutGenerator.hpp:85-107). *)
Inductive ow_set := WSetExt (k : nat) | WSetSecs (q : Q) | WSetAggr (z : Z) | WSetGlobal (b : bool).
Definition ow_apply (o : ow) (s : ow_set) : outcome ow :=
  match s with
  | WSetExt k => if (2 <? k)%nat then Aborts else Done (OW k (o_secs o) (o_aggr o) (o_global o))
  | WSetSecs q => Done (OW (o_ext o) q (o_aggr o) (o_global o))
  | WSetAggr z => Done (OW (o_ext o) (o_secs o) z (o_global o))
  | WSetGlobal b => Done (OW (o_ext o) (o_secs o) (o_aggr o) b)
  end.

(** The loops over the hole and over the centre (CglOddWheel.cpp:140-165,
    175-198), with coefficient [c]; [None] is a column met twice. *)
Fixpoint add_lits (n : nat) (c : Q) (ls : list nat) (v : vec) (rhs : Q) : outcome (option (vec * Q)) :=
  match ls with
  | [] => Done (Some (v, rhs))
  | l :: ls' =>
      let pos := (l <? n)%nat in
      let j := if pos then l else (l - n)%nat in
      if (n <=? j)%nat then Undef OutOfBounds else
      if existsb (Nat.eqb j) (map fst v) then Done None else
      add_lits n c ls' (v ++ [(j, if pos then c else - (1) * c)]) (if pos then rhs else rhs - c)
  end.

(** One structure (CglOddWheel.cpp:127-205); ODDHWC_EPS is line 31. *)
Definition wheel_cut (n : nat) (w : wheel) : outcome (option (vec * Q)) :=
  if (List.length (w_hole w) <? 5)%nat then Aborts else
  do h <- add_lits n 1 (w_hole w) [] (w_rhs w);
  match h with
  | None => Done None
  | Some (v, rhs) =>
      match w_center w with
      | [] => Done (Some (v, rhs))
      | _ => if Qle_bool (1 # 1000000) (Qabs rhs) then add_lits n rhs (w_center w) v rhs
             else Done (Some (v, rhs))
      end
  end.

(** What the pool is given. *)
Fixpoint somes {A} (l : list (option A)) : list A :=
  match l with [] => [] | Some a :: l' => a :: somes l' | None :: l' => somes l' end.

(** Lines 208-225 are lines 431-451 of CglBKClique.cpp word for word. *)
Definition finish (e : wenv) (i : info) (cuts : list (vec * Q)) (cs : list (rowcut * bool)) :
    list (rowcut * bool) :=
  let cs' := fold_left (fun cs c =>
    let rc := RowCut (fst c) None (Some (snd c)) in
    if w_dup e (map fst cs) rc then cs else cs ++ [(rc, false)]) cuts cs in
  if mark i then
    firstn (List.length cs) cs' ++ map (fun c => (fst c, true)) (skipn (List.length cs) cs')
  else cs'.

(** generateCuts (CglOddWheel.cpp:93-228); lines 111-116 give the separator
    the value of each literal. *)
Definition generateCuts (e : wenv) (i : info) (n nr gs : nat) (x : point) (o : ow) (cs : list (rowcut * bool)) :
    outcome (list (rowcut * bool)) :=
  if (n =? 0)%nat || (nr =? 0)%nat then Done cs else
  if negb (n =? Nat.div gs 2)%nat then Aborts else
  let secs := if Qltb 0 (o_secs o) then o_secs o else 0 in
  do cuts <- omap (wheel_cut n) (w_search e (lval n x) (o_ext o) secs);
  Done (finish e i (w_pool e (somes cuts)) cs).
