(** * Specification vocabulary

    Nothing in this file transcribes /repo.  It says what a mixed-integer
    program, a feasible point, a row cut and a column cut are, and what it
    means for a cut to keep every feasible point.  The property theorems are
    stated with these notions only. *)

From Coq Require Export List ZArith QArith Qround Bool.
Export ListNotations.
Local Open Scope Q_scope.

(** A sparse linear form: list of (column, coefficient). *)
Definition vec := list (nat * Q).

(** A point assigns a value to every column. *)
Definition point := nat -> Q.

(** Value of a linear form at a point. *)
Fixpoint value (v : vec) (x : point) : Q :=
  match v with
  | [] => 0
  | (j, a) :: v' => a * x j + value v' x
  end.

(** An optional bound: [None] is infinity. *)
Definition le_opt_hi (q : Q) (hi : option Q) : Prop :=
  match hi with Some h => q <= h | None => True end.
Definition ge_opt_lo (q : Q) (lo : option Q) : Prop :=
  match lo with Some l => l <= q | None => True end.

Definition integral (q : Q) : Prop := exists z : Z, q == inject_Z z.

(** A linear row  lo <= form <= hi. *)
Record row := Row { r_form : vec; r_lo : option Q; r_hi : option Q }.

Definition row_sat (r : row) (x : point) : Prop :=
  ge_opt_lo (value (r_form r) x) (r_lo r) /\
  le_opt_hi (value (r_form r) x) (r_hi r).

(** A mixed-integer program (the objective plays no role for validity). *)
Record mip := Mip {
  m_ncols : nat;
  m_rows  : list row;
  m_clo   : nat -> option Q;   (* column lower bounds *)
  m_chi   : nat -> option Q;   (* column upper bounds *)
  m_int   : nat -> bool        (* integrality markers *)
}.

Definition in_bounds (m : mip) (x : point) : Prop :=
  forall j, (j < m_ncols m)%nat ->
    ge_opt_lo (x j) (m_clo m j) /\ le_opt_hi (x j) (m_chi m j).

Definition integer_ok (m : mip) (x : point) : Prop :=
  forall j, (j < m_ncols m)%nat -> m_int m j = true -> integral (x j).

(** Feasible mixed-integer points. *)
Definition feasible (m : mip) (x : point) : Prop :=
  (forall r, In r (m_rows m) -> row_sat r x) /\ in_bounds m x /\ integer_ok m x.

(** All column indices used by the rows exist and no row mentions a column
    twice (CoinPackedMatrix guarantees both). *)
Definition wf_row (n : nat) (r : row) : Prop :=
  NoDup (map fst (r_form r)) /\
  forall j a, In (j, a) (r_form r) -> (j < n)%nat.
Definition wf_mip (m : mip) : Prop :=
  forall r, In r (m_rows m) -> wf_row (m_ncols m) r.

(** Row cuts  lb <= form <= ub. *)
Record rowcut := RowCut { rc_form : vec; rc_lb : option Q; rc_ub : option Q }.

Definition rowcut_sat (c : rowcut) (x : point) : Prop :=
  ge_opt_lo (value (rc_form c) x) (rc_lb c) /\
  le_opt_hi (value (rc_form c) x) (rc_ub c).

(** Column cuts: new lower bounds and new upper bounds for some columns. *)
Record colcut := ColCut { cc_lbs : list (nat * Q); cc_ubs : list (nat * Q) }.

Definition colcut_sat (c : colcut) (x : point) : Prop :=
  (forall j b, In (j, b) (cc_lbs c) -> b <= x j) /\
  (forall j b, In (j, b) (cc_ubs c) -> x j <= b).

(** A cut keeps every feasible point of [m]. *)
Definition keeps_all (m : mip) (c : rowcut) : Prop :=
  forall x, feasible m x -> rowcut_sat c x.
Definition col_keeps_all (m : mip) (c : colcut) : Prop :=
  forall x, feasible m x -> colcut_sat c x.

(** Amount by which a point violates a row cut (0 when satisfied). *)
Definition rowcut_violation (c : rowcut) (x : point) : Q :=
  let v := value (rc_form c) x in
  let below := match rc_lb c with Some l => l - v | None => 0 end in
  let above := match rc_ub c with Some u => v - u | None => 0 end in
  let m := if Qle_bool below above then above else below in
  if Qle_bool m 0 then 0 else m.

(** Outcome of running a piece of C++: a value, an exception, undefined
    behaviour (division by zero, overflow, bad memory access), or the model's
    own recursion bound being exhausted. *)
Inductive undef_kind :=
  | IntDivByZero | IntOverflow | OutOfBounds | UseAfterFree | DoubleFree
  | NullDeref | Uninitialised | FloatCast.
Inductive outcome (A : Type) :=
  | Done (a : A)
  | Throws
  | Aborts
  | Undef (k : undef_kind)
  | OutOfFuel.
Arguments Done {A} a. Arguments Throws {A}. Arguments Aborts {A}.
Arguments Undef {A} k. Arguments OutOfFuel {A}.

Definition bind {A B} (o : outcome A) (f : A -> outcome B) : outcome B :=
  match o with
  | Done a => f a
  | Throws => Throws
  | Aborts => Aborts
  | Undef k => Undef k
  | OutOfFuel => OutOfFuel
  end.
Notation "'do' x <- e ; f" := (bind e (fun x => f))
  (at level 200, x name, e at level 100, f at level 200, right associativity).
