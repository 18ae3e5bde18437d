(** * Model of CglFlowCover (lifted simple generalized flow covers)

    /repo/src/CglFlowCover/CglFlowCover.cpp and .hpp.  Doubles are exact
    rationals; an infinite bound is [None] and larger than any number the
    code compares it with (solvers use COIN_DBL_MAX, and a coefficient above
    the tolerance times it is still above INFTY_).  The arrays vubs_, vlbs_
    and rowTypes_ are computed anew by every call and are not part of the
    generator's state here.

    The element cutCoef[cutLen] that line 1165 copies without using it is not
    modelled. *)

From Coq Require Import Qabs.
From Verif Require Import Base.
Local Open Scope Q_scope.

(** Default constructor, lines 350-369: EPSILON_, INFTY_, TOLERANCE_; the
    limit of line 639. *)
Definition fEPS : Q := 1 # 1000000.
Definition fINF : Q := inject_Z (10 ^ 30).
Definition fTOL : Q := 1 # 20.
Definition fBIG : Q := inject_Z (10 ^ 10).

(** maxNumCuts_ and numFlowCuts_, .hpp lines 177-186 *)
Record fgen := FGen { fg_max : Z; fg_num : Z }.
Definition fg_new : fgen := FGen 2000000 0.
Definition setMaxNumCuts (g : fgen) (n : Z) : fgen := FGen n (fg_num g).
Definition setNumFlowCuts (g : fgen) (n : Z) : fgen := FGen (fg_max g) n.

(** OsiSolverInterface::getColType equal to 1 (outside /repo): an integer
    column both of whose bounds are 0 or 1. *)
Definition zero_one (b : option Q) : bool :=
  match b with Some q => Qeq_bool q 0 || Qeq_bool q 1 | None => false end.
Definition is_bin (m : mip) (j : nat) : bool :=
  m_int m j && (zero_one (m_chi m j) && zero_one (m_clo m j)).

(** ** flowPreprocess, lines 40-216 *)

(** CglFlowRowType, .hpp lines 65-94 *)
Inductive ftype :=
  | FUndefined | FVarUB | FVarLB | FVarEQ | FMixUB | FMixEQ | FNoBinUB | FNoBinEQ
  | FSumVarUB | FSumVarEQ | FUninterested.

Definition negv (v : vec) : vec := map (fun e => (fst e, - snd e)) v.
Definition fcount (f : nat * Q -> bool) (v : vec) : nat := length (filter f v).

(** determineOneRowType, lines 1298-1407.  A row of sense N (no bound at all)
    is treated like an equality row: only 'L' is asked for. *)
Definition determineOneRowType (m : mip) (v0 : vec) (s : sense) (rhs0 : Q) : ftype :=
  match v0 with
  | [] => FUndefined
  | _ =>
      match s with
      | SenseR => FUninterested
      | _ =>
          let v := match s with SenseG => negv v0 | _ => v0 end in
          let rhs := match s with SenseG => - rhs0 | _ => rhs0 end in
          let isL := match s with SenseG | SenseL => true | _ => false end in
          let neg (e : nat * Q) := snd e <? - fEPS in
          let nNegCol := fcount neg v in
          let nPosCol := fcount (fun e => negb (neg e)) v in
          let nNegBin := fcount (fun e => neg e && is_bin m (fst e)) v in
          let nPosBin := fcount (fun e => negb (neg e) && is_bin m (fst e)) v in
          let nBin := (nNegBin + nPosBin)%nat in
          let mix := if isL then FMixUB else FMixEQ in
          if Nat.eqb nBin (length v) then FUninterested
          else if Nat.eqb nBin 0 then (if isL then FNoBinUB else FNoBinEQ)
          else if (rhs <? - fEPS) || (fEPS <? rhs) || negb (Nat.eqb nBin 1) then mix
          else if Nat.eqb (length v) 2 then
            if isL then
              if Nat.eqb nPosCol 1 && Nat.eqb nPosBin 1 then FVarLB
              else if Nat.eqb nNegCol 1 && Nat.eqb nNegBin 1 then FVarUB
              else mix
            else FVarEQ
          else if Nat.eqb nNegCol 1 && Nat.eqb nNegBin 1
          then (if isL then FSumVarUB else FSumVarEQ)
          else mix
      end
  end.
Definition row_type (m : mip) (r : row) : ftype :=
  determineOneRowType m (r_form r) (row_sense r) (row_rhs r).

(** Variable bounds, lines 163-212: y <= val x or y >= val x with x binary.
    A floating-point division by zero is undefined in C++ (with IEEE
    arithmetic it gives an infinite value). *)
Record vbound := VBound { v_var : nat; v_val : Q }.
Definition vtab := nat -> option vbound.
Definition fput (f : vtab) (j : nat) (b : vbound) : vtab := fun i => if Nat.eqb i j then Some b else f i.
Definition var_bound (m : mip) (v : vec) : outcome (nat * vbound) :=
  match v with
  | [(i0, c0); (i1, c1)] =>
      let '(xi, xc, yi, yc) := if is_bin m i0 then (i0, c0, i1, c1) else (i1, c1, i0, c0) in
      if Qeq_bool yc 0 then Undef IntDivByZero else Done (yi, VBound xi (- xc / yc))
  | _ => Undef OutOfBounds
  end.
Definition prep_row (m : mip) (t : vtab * vtab) (r : row) : outcome (vtab * vtab) :=
  match row_type m r with
  | FVarUB => do b <- var_bound m (r_form r); Done (fput (fst t) (fst b) (snd b), snd t)
  | FVarLB => do b <- var_bound m (r_form r); Done (fst t, fput (snd t) (fst b) (snd b))
  | FVarEQ => do b <- var_bound m (r_form r);
              Done (fput (fst t) (fst b) (snd b), fput (snd t) (fst b) (snd b))
  | _ => Done t
  end.
(** (vubs_, vlbs_) *)
Definition flowPreprocess (m : mip) : outcome (vtab * vtab) :=
  ofold (prep_row m) (m_rows m) (fun _ => None, fun _ => None).

(** ** generateOneFlowCut, lines 466-1272 *)

(** One entry of the row: column, coefficient (after the row was turned to
    "<="), positive or not, binary or not, up, x, y, and the variable of its
    variable upper bound. *)
Record fitem := FItem {
  i_col : nat; i_coef : Q; i_pos : bool; i_bin : bool;
  i_up : option Q; i_x : Q; i_y : Q; i_vub : option nat }.
(** candidate[] *)
Inductive cand := COut | CPrime | CSecondary.
(** An item with candidate[], label[] (INCUT or not) and ratio[]. *)
Record fstat := FStat { s_it : fitem; s_cand : cand; s_in : bool; s_ratio : Q }.

(** The upper bound of items that were chosen, which is finite. *)
Definition upv (it : fitem) : Q := match i_up it with Some u => u | None => 0 end.
(** up > q *)
Definition up_gt (it : fitem) (q : Q) : bool := match i_up it with Some u => q <? u | None => true end.

Section Row.
  Variable debug : bool.
  Variable m : mip.
  Variable vubs vlbs : vtab.
  Variable xlp : point.

  (** lines 494-515 *)
  Definition fractional (q : Q) : bool := (fEPS <? q - qfloor q) && (fEPS <? qceil q - q).
  Definition do_lift (v : vec) : bool :=
    existsb (fun e => fractional (xlp (fst e))) v &&
    forallb (fun e => fEPS <? Qabs (snd e)) v.

  (** lines 548-590: [None] when a lower bound is negative.  The bounds of the
      column are replaced by those of the variable bounds. *)
  Definition lower_of (j : nat) : option Q :=
    match vlbs j with Some b => Some (v_val b) | None => m_clo m j end.
  Definition upper_of (j : nat) : option Q :=
    match vubs j with Some b => Some (v_val b) | None => m_chi m j end.
  Definition item_of (e : nat * Q) : option fitem :=
    let j := fst e in let c := snd e in
    let low := match lower_of j with Some l => l <? - fEPS | None => true end in
    if low then None
    else
      let a := if 0 <? c then c else - c in
      let vv := option_map v_var (vubs j) in
      Some (if is_bin m j
            then FItem j c (0 <? c) true (Some a) (xlp j) (a * xlp j) vv
            else FItem j c (0 <? c) false
                   (option_map (fun u => a * u) (upper_of j))
                   (match vv with Some k => xlp k | None => 1 end) (a * xlp j) vv).
  Fixpoint items_of (v : vec) : option (list fitem) :=
    match v with
    | [] => Some []
    | e :: v' =>
        match item_of e with
        | None => None
        | Some it => option_map (cons it) (items_of v')
        end
    end.

  (** lines 594-635: candidates, (tempSum, knapRHS).  The assertion on up[i]
      and the division by it. *)
  Definition classify_item (st : list fstat * Q * Q) (it : fitem) : outcome (list fstat * Q * Q) :=
    let '(l, tsum, krhs) := st in
    if i_pos it then
      if fEPS <? i_y it then
        match i_up it with
        | None => Done (l ++ [FStat it CSecondary false 0], tsum, krhs)
        | Some u =>
            if Qeq_bool u 0 then Undef IntDivByZero
            else
              let ratio := (1 - i_x it) / u in
              if u * i_x it - fEPS <? i_y it
              then Done (l ++ [FStat it CPrime false ratio], tsum + u, krhs)
              else Done (l ++ [FStat it CSecondary false ratio], tsum, krhs)
        end
      else Done (l ++ [FStat it COut false fINF], tsum, krhs)
    else
      if up_gt it ((1 - fEPS) * fINF) then Done (l ++ [FStat it COut true fINF], tsum, krhs)
      else
        let u := upv it in
        if i_y it <? u then
          if Qeq_bool u 0 then (if debug then Aborts else Undef IntDivByZero)
          else Done (l ++ [FStat it CPrime false (i_x it / u)], tsum + u, krhs + u)
        else Done (l ++ [FStat it COut false fINF], tsum, krhs + u).

  (** Change the element at a position. *)
  Fixpoint upd {A} (n : nat) (f : A -> A) (l : list A) : list A :=
    match l, n with
    | [], _ => []
    | a :: l', O => f a :: l'
    | a :: l', S n' => a :: upd n' f l'
    end.
  Definition with_prime (s : fstat) : fstat := FStat (s_it s) CPrime (s_in s) (s_ratio s).
  Definition with_in (b : bool) (s : fstat) : fstat := FStat (s_it s) (s_cand s) b (s_ratio s).
  Definition up_at (l : list fstat) (n : nat) : Q :=
    match nth_error l n with Some s => upv (s_it s) | None => 0 end.
  Definition is_prime (s : fstat) : bool := match s_cand s with CPrime => true | _ => false end.
  Definition is_secondary (s : fstat) : bool := match s_cand s with CSecondary => true | _ => false end.

  (** lines 654-663: the secondary candidate with the least tempD *)
  Fixpoint best_secondary (l : list fstat) (i : nat) (diff : Q) (best : option nat) : Q * option nat :=
    match l with
    | [] => (diff, best)
    | s :: l' =>
        let take :=
          is_secondary s &&
          match i_up (s_it s) with
          | Some u => u * i_x (s_it s) - i_y (s_it s) <? diff - fEPS
          | None => false
          end in
        if take then best_secondary l' (S i) (upv (s_it s) * i_x (s_it s) - i_y (s_it s)) (Some i)
        else best_secondary l' (S i) diff best
    end.
  (** lines 653-679.  The loop ends because every round removes a secondary
      candidate. *)
  Fixpoint extend_cover (fuel : nat) (l : list fstat) (tsum krhs : Q) : outcome (option (list fstat)) :=
    match fuel with
    | O => OutOfFuel
    | S f =>
        if tsum <? krhs + fEPS then
          let '(diff, best) := best_secondary l 0 fINF None in
          if (1 - fEPS) * fINF <? diff then Done None
          else
            match best with
            | None => Undef OutOfBounds
            | Some i => extend_cover f (upd i with_prime l) (tsum + up_at l i) krhs
            end
        else Done (Some l)
    end.

  (** lines 682-689 *)
  Definition zero_ratio (st : list fstat * Q) (s : fstat) : list fstat * Q :=
    if is_prime s && (s_ratio s <? fEPS)
    then (fst st ++ [with_in true s], snd st + upv (s_it s))
    else (fst st ++ [s], snd st).
  (** lines 692-700 *)
  Fixpoint least_ratio (l : list fstat) (i : nat) (tmin : Q) (best : option nat) : option nat :=
    match l with
    | [] => best
    | s :: l' =>
        if is_prime s && negb (s_in s) && (s_ratio s <? tmin)
        then least_ratio l' (S i) (s_ratio s) (Some i)
        else least_ratio l' (S i) tmin best
    end.
  (** lines 691-717 *)
  Fixpoint fill_cover (fuel : nat) (l : list fstat) (tsum krhs : Q) : outcome (option (list fstat * Q)) :=
    match fuel with
    | O => OutOfFuel
    | S f =>
        if tsum <? krhs + fEPS then
          match least_ratio l 0 fINF None with
          | Some i => fill_cover f (upd i (with_in true) l) (tsum + up_at l i) krhs
          | None => Done None
          end
        else Done (Some (l, tsum))
    end.
  (** lines 720-735 *)
  Definition reduce_step (krhs : Q) (which : Q -> bool) (st : list fstat * Q) (s : fstat) : list fstat * Q :=
    if s_in s && which (s_ratio s) &&
       match i_up (s_it s) with Some u => krhs + fEPS <? snd st - u | None => false end
    then (fst st ++ [with_in false s], snd st - upv (s_it s))
    else (fst st ++ [s], snd st).
  Definition reduce_cover (krhs : Q) (l : list fstat) (tsum : Q) : list fstat * Q :=
    let st := fold_left (reduce_step krhs (fun r => fEPS <? r)) l ([], tsum) in
    fold_left (reduce_step krhs (fun r => r <? fEPS)) (fst st) ([], snd st).

  (** lines 594-765: the cover, each item with whether it is in it (N- turned
      round), and lambda *)
  Definition flip_neg (s : fstat) : fitem * bool :=
    (s_it s, if i_pos (s_it s) then s_in s else negb (s_in s)).
  Definition find_cover (its : list fitem) (rhs : Q) : outcome (option (list (fitem * bool) * Q)) :=
    do st <- ofold classify_item its ([], 0, rhs);
    let '(l, tsum, krhs) := st in
    if fBIG <? krhs then Done None
    else
      do ol <- extend_cover (S (length l)) l tsum krhs;
      match ol with
      | None => Done None
      | Some l1 =>
          let z := fold_left zero_ratio l1 ([], 0) in
          do of <- fill_cover (S (length l)) (fst z) (snd z) krhs;
          match of with
          | None => Done None
          | Some (l2, t2) =>
              let r := reduce_cover krhs l2 t2 in
              let cov := map flip_neg (fst r) in
              if existsb snd cov then Done (Some (cov, snd r - krhs)) else Done None
          end
      end.

  (** *** The cut, lines 796-1104 *)
  Section Cut.
    Variable cov : list (fitem * bool).
    Variable lam : Q.
    Variable rhs : Q.

    Definition cplus (c : fitem * bool) : bool := i_pos (fst c) && snd c.
    Definition cpp (c : fitem * bool) : bool := cplus c && (lam + fEPS <? upv (fst c)).
    Definition cminus (c : fitem * bool) : bool := negb (i_pos (fst c)) && snd c.
    Definition nminus (c : fitem * bool) : bool := negb (i_pos (fst c)) && negb (snd c).
    Definition lmin (c : fitem * bool) : bool := nminus c && up_gt (fst c) lam.
    Definition lminmin (c : fitem * bool) : bool := nminus c && negb (up_gt (fst c) lam).
    Definition nplus (c : fitem * bool) : bool := i_pos (fst c) && negb (snd c).

    Fixpoint sumq {A} (f : A -> Q) (l : list A) : Q :=
      match l with [] => 0 | a :: l' => f a + sumq f l' end.
    Definition only (b : bool) (q : Q) : Q := if b then q else 0.

    (** lines 813-871: coefficients before lifting *)
    Definition ycoef0 (c : fitem * bool) : Q :=
      if cplus c then 1 else if lminmin c then - (1) else 0.
    Definition xcoef0 (c : fitem * bool) : Q :=
      if cpp c then lam - upv (fst c) else if lmin c then - lam else 0.
    Definition dprime : Q := rhs + sumq (fun c => only (cminus c) (upv (fst c))) cov.
    Definition cutrhs0 : Q := dprime + sumq (fun c => only (cpp c) (lam - upv (fst c))) cov.
    (** temp; [None] is infinite *)
    Definition addo (a b : option Q) : option Q :=
      match a, b with Some p, Some q => Some (p + q) | _, _ => None end.
    Definition temp : option Q :=
      fold_left (fun t c => if nminus c then addo t (i_up (fst c)) else t) cov (Some dprime).
    Definition sum_small : Q :=
      sumq (fun c => only (cplus c && negb (cpp c)) (upv (fst c)) +
                     only (lminmin c) (upv (fst c))) cov.
    Definition qmin (a b : Q) : Q := if a <? b then a else b.
    Definition min_plus : Q :=
      fold_left (fun t c => if cpp c then qmin (upv (fst c)) t else t) cov fINF.

    (** lines 873-912: the values in decreasing order.  The loop stops at the
        first one not above lambda. *)
    Definition ge_o (a b : option Q) : bool :=
      match a, b with None, _ => true | Some _, None => false | Some p, Some q => q <=? p end.
    Fixpoint insert_desc (a : option Q) (l : list (option Q)) : list (option Q) :=
      match l with
      | [] => [a]
      | b :: l' => if ge_o a b then a :: b :: l' else b :: insert_desc a l'
      end.
    Definition sort_desc (l : list (option Q)) : list (option Q) := fold_right insert_desc [] l.
    Fixpoint above (l : list (option Q)) : list (option Q) :=
      match l with
      | [] => []
      | a :: l' => if match a with Some u => lam <? u | None => true end then a :: above l' else []
      end.
    Definition mt : list (option Q) :=
      above (sort_desc (map (fun c => i_up (fst c)) (filter (fun c => cplus c || lmin c) cov))).

    (** lines 953-964: t *)
    Fixpoint first_below (a : Q) (l : list (option Q)) : nat :=
      match l with
      | [] => 0
      | b :: l' => if match b with Some u => u <? a | None => false end then 0 else S (first_below a l')
      end.
    (** lines 966-974: M; the test of line 976 only acts in debugging builds *)
    Fixpoint prefix_sums (a : option Q) (l : list (option Q)) : list (option Q) :=
      a :: match l with [] => [] | b :: l' => prefix_sums (addo a b) l' end.
    Definition Ms : list (option Q) := prefix_sums (Some 0) mt.
    Definition M (i : nat) : option Q := nth i Ms None.
    Definition ml : Q := qmin sum_small lam.
    (** lines 1003-1012: rho, used for t <= i < index only, where mt[i] is
        finite *)
    Definition rho (i : nat) : Q :=
      let v := match nth i mt None with Some u => u | None => 0 end - ((min_plus - lam) + ml) in
      if 0 <? v then v else 0.

    (** Comparisons with values that may be infinite. *)
    Definition oge (z : Q) (b : option Q) : bool := match b with Some q => q <=? z | None => false end.
    Definition ole (z : Q) (b : option Q) : bool := match b with Some q => z <=? q | None => true end.
    Definition ogt (z : Q) (b : option Q) : bool := match b with Some q => q <? z | None => false end.
    Definition olt (z : Q) (b : option Q) : bool := match b with Some q => z <? q | None => true end.
    Definition plus_q (b : option Q) (q : Q) : option Q := option_map (fun p => p + q) b.
    Definition nq (i : nat) : Q := inject_Z (Z.of_nat i).
    (** z - M[i] + i*lambda; only evaluated for finite M[i] *)
    Definition ramp (z : Q) (i : nat) : Q := match M i with Some q => z - q + nq i * lam | None => 0 end.

    (** liftMinus, lines 1411-1462: the four loops and the last test *)
    Definition liftMinus (t r : nat) (z : Q) (dpp : option Q) : Q :=
      if ogt z dpp then ramp z r
      else
        match find (fun i => oge z (M i) && ole z (plus_q (M (S i)) (- lam))) (seq 0 t) with
        | Some i => nq i * lam
        | None =>
            match find (fun i => oge z (plus_q (M i) (- lam)) && ole z (M i)) (seq 1 (t - 1)) with
            | Some i => ramp z i
            | None =>
                match find (fun i => oge z (plus_q (M i) (- lam)) &&
                                     ole z (plus_q (M i) (- lam + ml + rho i))) (seq t (r - t)) with
                | Some i => ramp z i
                | None =>
                    match find (fun i => oge z (plus_q (M i) (- lam + ml + rho i)) &&
                                         ole z (plus_q (M (S i)) (- lam))) (seq t (r - t)) with
                    | Some i => nq i * lam
                    | None => if oge z (plus_q (M r) (- lam)) && ole z dpp then ramp z r else 0
                    end
                end
            end
        end.

    (** liftPlus, lines 1466-1538: (alpha, beta).  An infinite m_j is never
        lifted: it is not below dPrimePrime, and not below any M. *)
    Definition beta_of (i : nat) : Q := match M i with Some q => q - nq i * lam | None => 0 end.
    Definition try_plus (it : fitem) (i : nat) : Q * Q :=
      if 0 <? i_y it - i_x it * beta_of i then (1, beta_of i) else (0, 0).
    Definition in_step (u : Q) (i : nat) : bool := ogt u (plus_q (M i) (- lam)) && ole u (M i).
    Definition liftPlus (r : nat) (it : fitem) (dpp : option Q) : Q * Q :=
      match i_up it with
      | None => (0, 0)
      | Some u =>
          if ogt u (plus_q (M r) (- lam + fEPS)) then
            if olt u (plus_q dpp (- fEPS)) && in_step u r then try_plus it r else (0, 0)
          else
            match find (in_step u) (seq 1 r) with
            | Some i => try_plus it i
            | None => (0, 0)
            end
      end.

    Definition violation_of (cr : Q) (l : list (fitem * (Q * Q))) : Q :=
      - cr + sumq (fun c => i_y (fst c) * fst (snd c) + i_x (fst c) * snd (snd c)) l.
    (** The items with (yCoef, xCoef). *)
    Definition base_coefs : list (fitem * (Q * Q)) :=
      map (fun c => (fst c, (ycoef0 c, xcoef0 c))) cov.
    (** lines 1037-1082: coefficients and what is taken from cutRHS *)
    Definition lift_item (t r : nat) (dpp : option Q) (c : fitem * bool) : (fitem * (Q * Q)) * Q :=
      if nplus c then
        let ab := liftPlus r (fst c) dpp in ((fst c, (fst ab, - snd ab)), 0)
      else if cminus c then
        let g := liftMinus t r (upv (fst c)) dpp in
        if fEPS <? g then ((fst c, (0, - g)), g) else ((fst c, (0, 0)), 0)
      else ((fst c, (ycoef0 c, xcoef0 c)), 0).

    (** lines 914-933 and 1013-1100: [None] when there is no C++ *)
    Definition coefs : option (list (fitem * (Q * Q)) * Q) :=
      let r := length mt in
      if Nat.eqb r 0 || negb (existsb cpp cov) then None
      else if fTOL <? Qabs (violation_of cutrhs0 base_coefs) then
        let t := first_below min_plus mt in
        let dpp := addo temp (Some cutrhs0) in
        let ls := map (lift_item t r dpp) cov in
        Some (map fst ls, cutrhs0 - sumq snd ls)
      else Some (base_coefs, cutrhs0).
  End Cut.

  (** *** Back to the columns, lines 1106-1250 *)
  Definition nontiny (q : Q) : bool := fEPS <? Qabs q.
  (** The entries, and what is taken from cutRHS, of one item. *)
  Definition entries_of (c : fitem * (Q * Q)) : vec * Q :=
    let it := fst c in let yc := fst (snd c) in let xc := snd (snd c) in
    let s := if i_pos it then i_coef it else - i_coef it in
    if i_bin it then
      (if nontiny yc || nontiny xc then [(i_col it, s * yc + xc)] else [], 0)
    else
      ((if nontiny yc then [(i_col it, s * yc)] else []) ++
       (if nontiny xc then match i_vub it with Some k => [(k, xc)] | None => [] end else []),
       if nontiny xc then match i_vub it with Some _ => 0 | None => xc end else 0).
  (** CoinShortSort_2 by index and the sum of equal indices, lines 1155-1171 *)
  Fixpoint insert_idx (e : nat * Q) (v : vec) : vec :=
    match v with
    | [] => [e]
    | f :: v' => if (fst e <=? fst f)%nat then e :: f :: v' else f :: insert_idx e v'
    end.
  Definition sort_idx (v : vec) : vec := fold_right insert_idx [] v.
  Fixpoint merge (last : nat * Q) (v : vec) : vec :=
    match v with
    | [] => if fEPS <=? Qabs (snd last) then [last] else []
    | e :: v' =>
        if (fst last <? fst e)%nat
        then (if fEPS <=? Qabs (snd last) then [last] else []) ++ merge e v'
        else merge (fst last, snd last + snd e) v'
    end.

  (** The assertion cutLen, the test of the recomputed violation and the
      assertion on it, lines 1111-1250.  Result: row and right-hand side. *)
  Definition to_cut (cs : list (fitem * (Q * Q))) (cr : Q) : outcome (option rowcut) :=
    let viol := violation_of cr cs in
    if fTOL <? viol then
      let es := map entries_of cs in
      let cr' := cr - sumq snd es in
      match sort_idx (concat (map fst es)) with
      | [] => if debug then Aborts else Undef Uninitialised
      | e :: v =>
          let form := merge e v in
          match form with
          | [] => Done None
          | _ =>
              let viol' := value form xlp - cr' in
              if debug && negb (Qabs (viol' - viol) <? (1 # 100)) then Aborts
              else if fTOL <? viol' then Done (Some (RowCut form None (Some cr'))) else Done None
          end
      end
    else Done None.

  Definition generateOneFlowCut (v0 : vec) (isG : bool) (rhs0 : Q) : outcome (option rowcut) :=
    if do_lift v0 then
      let v := if isG then negv v0 else v0 in
      let rhs := if isG then - rhs0 else rhs0 in
      match items_of v with
      | None => Done None
      | Some its =>
          do oc <- find_cover its rhs;
          match oc with
          | None => Done None
          | Some (cov, lam) =>
              match coefs cov lam rhs with
              | None => Done None
              | Some (cs, cr) => to_cut cs cr
              end
          end
      end
    else Done None.
End Row.

(** ** generateCuts, lines 225-345 *)

Section Generate.
  Variable debug : bool.
  (** OsiCuts::insertIfNotDuplicateAndClean *)
  Variable ins : list rowcut -> rowcut -> list rowcut.
  Variable m : mip.
  Variable xlp : point.
  Variable tabs : vtab * vtab.

  Definition flow_type (t : ftype) : bool :=
    match t with
    | FMixUB | FMixEQ | FNoBinUB | FNoBinEQ | FSumVarUB | FSumVarEQ => true
    | _ => false
    end.
  (** lines 282-293: columns with equal bounds are moved to the right-hand
      side, with their lower bound (line 291 is only reached when both are
      finite or the bounds are contradictory). *)
  Definition is_free (j : nat) : bool :=
    match m_clo m j, m_chi m j with
    | Some l, Some u => l <? u
    | _, _ => true
    end.
  Definition lower_val (j : nat) : Q := match m_clo m j with Some l => l | None => 0 end.
  Definition row_part (r : row) : vec * Q :=
    (filter (fun e => is_free (fst e)) (r_form r),
     fold_left (fun q e => if is_free (fst e) then q else q - lower_val (fst e) * snd e)
               (r_form r) (row_rhs r)).
  (** One call of generateOneFlowCut and its consequences; [true] means stop. *)
  Record gstate := GState { gs_gen : fgen; gs_cuts : list rowcut; gs_stop : bool }.
  Definition try_row (v : vec) (rhs : Q) (isG : bool) (s : gstate) : outcome gstate :=
    if gs_stop s then Done s
    else
      do oc <- generateOneFlowCut debug m (fst tabs) (snd tabs) xlp v isG rhs;
      match oc with
      | None => Done s
      | Some c =>
          let g := FGen (fg_max (gs_gen s)) (fg_num (gs_gen s) + 1) in
          Done (GState g (ins (gs_cuts s) c) (fg_max g <=? fg_num g)%Z)
      end.
  Definition do_row (s : gstate) (r : row) : outcome gstate :=
    if gs_stop s then Done s
    else if flow_type (row_type m r) then
      let p := row_part r in
      match row_sense r with
      | SenseE => do s1 <- try_row (fst p) (snd p) false s; try_row (fst p) (snd p) true s1
      | SenseL => try_row (fst p) (snd p) false s
      | SenseG => try_row (fst p) (snd p) true s
      | _ => Done s
      end
    else Done s.
End Generate.

Definition generateCuts (debug : bool) (ins : list rowcut -> rowcut -> list rowcut)
    (g : fgen) (m : mip) (xlp : point) (cs : list rowcut) : outcome (fgen * list rowcut) :=
  if (fg_max g <=? 0)%Z then Done (g, cs)
  else if (fg_max g <=? fg_num g)%Z then Done (g, cs)
  else
    do tabs <- flowPreprocess m;
    do s <- ofold (do_row debug ins m xlp tabs) (m_rows m) (GState g cs false);
    Done (gs_gen s, gs_cuts s).
