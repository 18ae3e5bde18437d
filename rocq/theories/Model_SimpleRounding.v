(** * Model of CglSimpleRounding
    /repo/src/CglSimpleRounding/CglSimpleRounding.cpp and .hpp *)

From Verif Require Import Base.
Local Open Scope Q_scope.

(** gcd, CglSimpleRounding.hpp lines 130-142: swap so that a <= b, remainder
    b % a (undefined when a = 0), recurse on (remainder, a).  C++ int
    remainder truncates: [Z.rem].  The C++ recursion is unbounded; the model
    recurses on fuel. *)
Fixpoint gcd_rec (fuel : nat) (a b : Z) : outcome Z :=
  match fuel with
  | O => OutOfFuel
  | S f =>
      let '(a, b) := if (b <? a)%Z then (b, a) else (a, b) in
      if (a =? 0)%Z then Undef IntDivByZero else
      let remainder := Z.rem b a in
      if (remainder =? 0)%Z then Done a else gcd_rec f remainder a
  end.

(** Fuel: two calls per bit.  [Proofs_SimpleRounding] shows it is enough for
    all positive arguments. *)
Definition gcd_fuel (a b : Z) : nat :=
  (2 * S (Z.to_nat (Z.log2 (Z.max (Z.abs a) (Z.abs b)))) + 1)%nat.
Definition gcd (a b : Z) : outcome Z := gcd_rec (gcd_fuel a b) a b.

(** gcdv, CglSimpleRounding.hpp lines 148-162. *)
Definition gcdv (vi : list Z) : outcome Z :=
  match vi with
  | [] => Aborts                                  (* lines 151-152 *)
  | [a] => Done a                                 (* lines 154-155 *)
  | a :: b :: rest =>                             (* lines 157-161 *)
      do r <- gcd a b; ofold (fun r v => gcd r v) rest r
  end.

(** The tolerance test of line 278: infinite bounds never pass. *)
Definition nearly_fixed (eps : Q) (lo hi : option Q) : bool :=
  match lo, hi with
  | Some l, Some h => h - l <? eps
  | _, _ => false
  end.

(** The netting-out loop, CglSimpleRounding.cpp lines 249-288.  [irow] grows
    at the end (CoinPackedVector::insert).  [None] is the "return 0". *)
Fixpoint net_out (eps : Q) (m : mip) (sign : Q) (form : vec) (b : Q)
                 (irow : vec) : option (vec * Q) :=
  match form with
  | [] => Some (irow, b)
  | (j, a) :: form' =>
      if negb (m_int m j) then
        if sign * a <? - eps then
          match m_chi m j with
          | Some u => net_out eps m sign form' (b - sign * a * u) irow
          | None => None
          end
        else if eps <? sign * a then
          match m_clo m j with
          | Some l => net_out eps m sign form' (b - sign * a * l) irow
          | None => None
          end
        else net_out eps m sign form' b irow
      else
        if nearly_fixed eps (m_clo m j) (m_chi m j) then
          match m_chi m j with
          | Some u => net_out eps m sign form' (b - sign * a * u) irow
          | None => None (* unreachable: nearly_fixed needs both bounds *)
          end
        else net_out eps m sign form' b (irow ++ [(j, sign * a)])
  end.

(** Sign splitting, lines 300-310: elements below -eps are negated and their
    column is flagged. *)
Definition split_signs (eps : Q) (irow : vec) : vec * list nat :=
  (map (fun p => if snd p <? - eps then (fst p, snd p * (-1)) else p) irow,
   map fst (filter (fun p => snd p <? - eps) irow)).

(** deriveAnIntegerRow, lines 187-313. *)
Definition deriveAnIntegerRow (eps : Q) (m : mip) (r : row)
  : option (vec * Q * list nat) :=
  let go sign b :=
    match net_out eps m sign (r_form r) b [] with
    | None => None
    | Some ([], _) => None                        (* lines 291-293 *)
    | Some (irow, b) =>
        let '(el, neg) := split_signs eps irow in Some (el, b, neg)
    end in
  match row_sense r with
  | SenseE | SenseN => None                       (* lines 206-208 *)
  | SenseL => go 1 (row_rhs r)                    (* lines 210-212 *)
  | SenseG => go (-1) (- row_rhs r)               (* lines 215-218 *)
  | SenseR => go 1 (row_rhs r)                    (* lines 224-226 *)
  end.

Definition pow10 (p : nat) : Q := inject_Z (10 ^ Z.of_nat p).

Definition qabs (q : Q) : Q := if q <? 0 then - q else q.

(** The search for one element, lines 383-394: [tries] counts the remaining
    iterations of the for loop (16 in all).  Result [None] stands for
    power == 16. *)
Fixpoint find_power (tol v : Q) (power tries : nat) : option (nat * Q) :=
  match tries with
  | O => None
  | S t =>
      let tolerance := tol * pow10 power in
      let scaledValue := v * pow10 power in
      let fracPart := scaledValue - qfloor scaledValue in
      if (fracPart <? tolerance) || (1 - fracPart <? tolerance)
      then Some (power, scaledValue)
      else find_power tol v (S power) t
  end.

(** power10ToMakeDoubleAnInt, lines 328-414; [None] is the result -1. *)
Fixpoint power10 (tol : Q) (xs : list Q) (maxPower : nat) : option nat :=
  match xs with
  | [] => Some maxPower
  | x :: xs' =>
      match find_power tol (qabs x) 0 16 with
      | None => None
      | Some (p, scaledValue) =>
          if 2147483647 <? scaledValue then None
          else power10 tol xs' (if Nat.ltb maxPower p then p else maxPower)
      end
  end.

(** C++ double-to-int conversion: truncation, undefined out of range. *)
Definition to_int (q : Q) : outcome Z :=
  let z := if q <? 0 then Qceiling q else Qfloor q in
  if int_range z then Done z else Undef FloatCast.

(** C++ int division, undefined for divisor 0. *)
Definition int_div (a b : Z) : outcome Z :=
  if (b =? 0)%Z then Undef IntDivByZero else Done (Z.quot a b).

Definition memb (j : nat) (l : list nat) : bool := existsb (Nat.eqb j) l.

(** One iteration of the main loop, lines 47-174.  The result is the cut, if
    any, handed to insertIfNotDuplicate. *)
Definition process_row (eps : Q) (m : mip) (r : row) : outcome (option rowcut) :=
  match deriveAnIntegerRow eps m r with
  | None => Done None                                            (* 62-72 *)
  | Some (irow, b, negative) =>
      match power10 (eps * (1#10000)) (map snd irow) 0 with      (* 79 *)
      | None => Done None                                        (* 105-118 *)
      | Some power =>
          do xInt <- omap (fun p => to_int (snd p * pow10 power + (1#2))) irow;
                                                                 (* 94-96 *)
          do g <- gcdv xInt;                                     (* 121 *)
          do cf <- omap (fun x => int_div x g) xInt;             (* 130-132 *)
          let cutRhs := qfloor (b * pow10 power / inject_Z g) in (* 133 *)
          let cut :=                                             (* 136-146 *)
            map (fun q => let '(p, c) := q in
                   (fst p, if memb (fst p) negative
                           then inject_Z c * (-1) else inject_Z c))
                (combine irow cf) in
          if eps <? qabs (cutRhs * inject_Z g - b)               (* 150 *)
          then Done (Some (RowCut cut None (Some cutRhs)))       (* 151-155 *)
          else Done None
      end
  end.

(** generateCuts, lines 18-177. *)
Definition generateCuts (eps : Q) (m : mip) (cs : list rowcut)
  : outcome (list rowcut) :=
  ofold (fun cs r =>
           do oc <- process_row eps m r;
           Done (match oc with Some c => insert_new cs c | None => cs end))
        (m_rows m) cs.

(** The value epsilon_ is given by the constructor, line 422 (1.0e-08); there
    is no setter. *)
Definition epsilon_ : Q := 1 # 100000000.
