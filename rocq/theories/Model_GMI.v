(** * Model of CglGMI
    /repo/src/CglGMI/CglGMI.cpp and .hpp.

    Line numbers refer to CglGMI.cpp.  OSI_TABLEAU, TRACK_REJECT,
    TRACK_REJECT_SIMPLE and the trace macros are not defined in /repo, so the
    tableau rows come from CoinFactorization and the rejection counters are left
    out.  Doubles are exact rationals; an infinite bound is None.

    Parameters, because the code lies outside /repo:
    - [binv k], the nonzero entries of the row of the basis inverse in which
      column k is basic (updateColumnTranspose applied to a unit vector, lines
      1152-1157), as (row, value) pairs; None when the factorization fails;
    - [rat], CoinRational's numerator and denominator for a number;
    - [sqrt], the C library's square root;
    - [ins], OsiCuts::insertIfNotDuplicateAndClean. *)

From Coq Require Import Qabs.
From Verif Require Import Base.
Local Open Scope Q_scope.

(** CleaningProcedure, CglGMIParam.hpp lines 57-72 *)
Inductive proc := LandP1 | LandP2 | RedSplit | IntegralCuts | LandP1_Int | LandP1_ScaleMax | LandP1_ScaleRhs.
(** The parameters the generator reads; INFINIT is infinite. *)
Record gparam := GP {
  gp_eps : Q; gp_away : Q; gp_eps_coeff : Q; gp_eps_elim : Q;
  gp_relax_abs : Q; gp_relax_rel : Q; gp_maxdyn : Q; gp_minviol : Q;
  gp_supp_abs : Z; gp_supp_rel : Q; gp_proc : proc; gp_scale_cont : bool; gp_enforce : bool
}.
(** the default constructor, CglGMIParam.hpp lines 210-224 *)
Definition gp_default : gparam :=
  GP (1 # 1000000000000) (5 # 1000) (1 # 100000000000) 0 (1 # 100000000000) (1 # 10000000000000) 1000000 (1 # 10000)
     1000 (1 # 10) LandP1 false true.

(** getBasisStatus: 0 free, 1 basic, 2 at upper, 3 at lower *)
Inductive stat := Free | Basic | Upper | Lower.
(** What the solver is asked for, lines 985-1009 *)
Record call := Call {
  c_mip : mip; c_x : nat -> Q; c_act : nat -> Q;
  c_cstat : nat -> stat; c_rstat : nat -> stat
}.

(** CglGMI.hpp lines 67-87 *)
Definition Qmax (a b : Q) : Q := if a <? b then b else a.
Definition areEqual (e : Q) (x y : option Q) : bool :=
  match x, y with
  | Some a, Some b => Qabs (a - b) <=? Qmax e (e * Qmax (Qabs a) (Qabs b))
  | _, _ => false
  end.
Definition ezero : Q := 1 # 100000000000000000000.
Definition isZero (x : Q) : bool := Qabs x <=? ezero.
Definition isIntegerValue (x : Q) : bool :=
  Qabs (x - qfloor (x + (1 # 2))) <=? Qmax (1 # 1000000000) ((1 # 1000000000000000) * Qabs x).

Definition coef (v : vec) (j : nat) : Q :=
  match find (fun e => Nat.eqb (fst e) j) v with Some e => snd e | None => 0 end.

(** ** Integral scaling *)
Definition int64 (z : Z) : bool := ((- 2 ^ 63 <=? z) && (z <? 2 ^ 63))%Z.
(** the loop in lines 957-961; each pass lowers |a| *)
Fixpoint euclid (fuel : nat) (a b : Z) : Z :=
  match fuel with
  | O => b
  | S f => if (a =? 0)%Z then b else euclid f (Z.rem b a) a
  end.
(** computeGcd, lines 936-963 *)
Definition computeGcd (a b : Z) : outcome Z :=
  let lo := Z.min a b in let hi := Z.max a b in
  if (lo =? 0)%Z then (if (hi =? 0)%Z then Aborts else Done hi)
  else Done (euclid (S (Z.abs_nat lo)) lo hi).

Section Generate.
  Variable sqrt : Q -> Q.
  Variable rat : Q -> Z * Z.
  Variable ins : list rowcut -> rowcut -> list rowcut.
  Variable p : gparam.
  Variable c : call.
  Notation m := (c_mip c).
  Notation x := (c_x c).

  (** lines 904-918; None when no rational is found *)
  Definition gcd_step (s : option (Z * Z)) (e : nat * Q) : outcome (option (Z * Z)) :=
    match s with
    | None => Done None
    | Some (g, l) =>
        if negb (m_int m (fst e)) && negb (gp_scale_cont p) then Done s
        else
          let '(n, d) := rat (snd e) in
          if (n =? 0)%Z then Done None
          else
            do g' <- computeGcd g n;
            do h <- computeGcd l d;
            let l' := (l * Z.quot d h)%Z in
            if int64 l' then Done (Some (g', l')) else Undef IntOverflow
    end.
  (** scaleCutIntegral, lines 885-933: the scaled cut, or None *)
  Definition scale_by (q : Q) (s : vec * Q) : vec * Q := (map (fun e => (fst e, snd e * q)) (fst s), snd s * q).
  Definition scaleCutIntegral (s : vec * Q) : outcome (option (vec * Q)) :=
    let '(n, d) := rat (snd s) in
    if (n =? 0)%Z then Done None
    else
      do r <- ofold gcd_step (fst s) (Some (Z.abs n, d));
      match r with
      | None => Done None
      | Some (g, l) =>
          let scale := inject_Z l / inject_Z g in
          if 1000 <? Qabs scale then Done None else Done (Some (scale_by scale s))
      end.
  (** scaleCut, lines 807-882 *)
  Definition max_abs (v : vec) (b : Q) : Q :=
    fold_left (fun s e => if isZero (snd e) then s else Qmax s (Qabs (snd e))) v b.
  Definition div_by (q : Q) (s : vec * Q) : vec * Q := (map (fun e => (fst e, snd e / q)) (fst s), snd s / q).
  Definition scaleCut (t : nat) (s : vec * Q) : outcome (option (vec * Q)) :=
    match t with
    | 0%nat => scaleCutIntegral s
    | 1%nat =>
        let mx := max_abs (fst s) (Qabs (snd s)) in
        if (mx <? gp_eps p) || (gp_maxdyn p <? mx) then Done None else Done (Some (div_by mx s))
    | 2%nat =>
        let mx := Qabs (snd s) in
        if (mx <? gp_eps p) || (gp_maxdyn p <? mx) then Done None else Done (Some (div_by mx s))
    | 3%nat =>
        let nz := filter (fun e => negb (isZero (snd e))) (fst s) in
        let norm := fold_left (fun s e => s + snd e * snd e) nz 0 in
        let scale := sqrt (norm / inject_Z (Z.of_nat (length nz))) in
        if (scale <? 2 # 100) || (100 <? scale) then Done None else Done (Some (div_by scale s))
    | _ => Done None
    end.

  (** ** Checks and clean-up *)
  (** checkViolation, lines 702-724 *)
  Definition checkViolation (s : vec * Q) : bool :=
    let v := value (fst s) x - snd s in
    let v' := if 1 <? Qabs (snd s) then v / Qabs (snd s) else v in
    gp_minviol p <=? v'.
  (** checkDynamism, lines 727-749: the least and largest nonzero absolute value *)
  Definition checkDynamism (s : vec * Q) : bool :=
    let nz := map (fun e => Qabs (snd e)) (filter (fun e => negb (isZero (snd e))) (fst s)) in
    let mx := fold_left Qmax nz 0 in
    match nz with
    | [] => true
    | a :: l => negb (fold_left (fun s b => if b <? s then b else s) l a * gp_maxdyn p <? mx)
    end.
  (** checkSupport, lines 752-762 *)
  Definition checkSupport (s : vec * Q) : bool :=
    inject_Z (Z.of_nat (length (fst s))) <=?
    inject_Z (gp_supp_abs p) + gp_supp_rel p * inject_Z (Z.of_nat (m_ncols m)).
  (** removeSmallCoefficients, lines 765-794 *)
  Definition small (a : Q) : bool := negb (isZero a) && (Qabs a <=? gp_eps_coeff p).
  Definition remove_step (s : vec * Q) (e : nat * Q) : vec * Q :=
    let '(v, rhs) := s in let '(j, a) := e in
    if small a then
      if 0 <? a then (v, match m_clo m j with Some l => rhs - a * l | None => rhs end)
      else (v, match m_chi m j with Some u => rhs - a * u | None => rhs end)
    else if gp_eps_coeff p <? Qabs a then (v ++ [(j, a)], rhs)
    else s.
  Definition removeSmall (s : vec * Q) : vec * Q := fold_left remove_step (fst s) ([], snd s).
  (** relaxRhs, lines 797-804 *)
  Definition relaxRhs (s : vec * Q) : vec * Q :=
    (fst s, if 0 <? gp_relax_rel p then snd s + (Qabs (snd s) * gp_relax_rel p + gp_relax_abs p)
            else snd s + gp_relax_abs p).

  (** cleanCut, lines 357-699, as a list of steps; [Scale t] keeps the cut as it
      is when scaling fails and is not enforced, [ScaleOrRelax] then relaxes it
      (lines 606-624) *)
  Inductive cstep := CheckViol | CheckDyn | CheckSupp | Relax | Remove | Scale (t : nat) | ScaleOrRelax.
  Definition steps (q : proc) : list cstep :=
    match q with
    | LandP1 => [CheckViol; Relax; Remove; CheckSupp; CheckDyn; CheckViol]
    | LandP2 => [CheckViol; Relax; CheckDyn; Scale 1; Remove; CheckSupp; CheckViol]
    | RedSplit => [Scale 3; Remove; CheckDyn; CheckSupp; CheckViol; Relax]
    | IntegralCuts => [Remove; CheckSupp; CheckDyn; Scale 0; CheckViol]
    | LandP1_Int => [CheckViol; Remove; CheckSupp; CheckDyn; ScaleOrRelax; CheckViol]
    | LandP1_ScaleMax => [CheckViol; Scale 1; Relax; Remove; CheckSupp; CheckDyn; CheckViol]
    | LandP1_ScaleRhs => [CheckViol; Scale 2; Relax; Remove; CheckSupp; CheckDyn; CheckViol]
    end.
  (** None: the cut is discarded *)
  Definition test (b : bool) (s : vec * Q) : outcome (option (vec * Q)) := Done (if b then Some s else None).
  Definition do_step (t : cstep) (s : vec * Q) : outcome (option (vec * Q)) :=
    match t with
    | CheckViol => test (checkViolation s) s
    | CheckDyn => test (checkDynamism s) s
    | CheckSupp => test (checkSupport s) s
    | Relax => Done (Some (relaxRhs s))
    | Remove => Done (Some (removeSmall s))
    | Scale k =>
        do r <- scaleCut k s;
        Done (match r with Some s' => Some s' | None => if gp_enforce p then None else Some s end)
    | ScaleOrRelax =>
        do r <- scaleCut 0 s;
        Done (match r with Some s' => Some s' | None => if gp_enforce p then None else Some (relaxRhs s) end)
    end.
  Fixpoint do_steps (l : list cstep) (s : vec * Q) : outcome (option (vec * Q)) :=
    match l with
    | [] => Done (Some s)
    | t :: l' => do r <- do_step t s; match r with Some s' => do_steps l' s' | None => Done None end
    end.
  Definition cleanCut (s : vec * Q) : outcome (option (vec * Q)) := do_steps (steps (gp_proc p)) s.

  (** ** The cut of a tableau row *)
  (** computeIsInteger, lines 1312-1329 *)
  Definition isInteger (j : nat) : bool :=
    m_int m j || (areEqual (gp_eps p) (m_clo m j) (m_chi m j) &&
                  match m_chi m j with Some u => isIntegerValue u | None => false end).
  Definition row_of (i : nat) : row := nth i (m_rows m) (Row [] None None).
  Definition slackVal (i : nat) : Q := row_rhs (row_of i) - c_act c i.
  (** lines 1173-1177 *)
  Definition rowElem (rho : vec) (j : nat) : Q :=
    fold_left (fun s e => s + coef (r_form (row_of (fst e))) j * snd e) rho 0.
  (** computeCutCoefficient, lines 265-291 *)
  Definition cutCoefficient (f0 : Q) (integer : bool) (a : Q) : Q :=
    let ratio := f0 / (1 - f0) in
    if integer then
      let f := frac a in if f0 <? f then - ((1 - f) * ratio) else - f
    else if a <? 0 then a * ratio else - a.
  (** flip, lines 320-325 *)
  Definition flip (s : stat) (a : Q) : Q := match s with Upper => - a | _ => a end.
  (** the dense cut and its right-hand side *)
  Definition dense := ((nat -> Q) * Q)%type.
  Definition upd (f : nat -> Q) (j : nat) (a : Q) : nat -> Q := fun k => if Nat.eqb k j then a else f k.
  Definition opt0 (o : option Q) : Q := match o with Some q => q | None => 0 end.
  (** one column, lines 1164-1190, with unflipOrig, lines 328-338 *)
  Definition col_step (f0 : Q) (rho : vec) (s : dense) (j : nat) : dense :=
    let '(cut, rhs) := s in
    match c_cstat c j with
    | Basic => s
    | st =>
        if areEqual (gp_eps p) (m_clo m j) (m_chi m j) then s
        else
          let a := rowElem rho j in
          if isZero a then s
          else
            let q := cutCoefficient f0 (isInteger j) (flip st a) in
            if isZero q then s
            else match st with
                 | Upper => (upd cut j (- q), rhs + - q * opt0 (m_chi m j))
                 | Lower => (upd cut j q, rhs + q * opt0 (m_clo m j))
                 | _ => (upd cut j q, rhs)
                 end
    end.
  (** eliminateSlack, lines 294-317 *)
  Definition eliminateSlack (q : Q) (i : nat) (s : dense) : dense :=
    let '(cut, rhs) := s in
    let r := row_of i in
    if negb (gp_eps_elim p <? Qabs q) || areEqual (gp_eps p) (r_lo r) (r_hi r) then s
    else (fun j => cut j - q * coef (r_form r) j, rhs - q * row_rhs r).
  (** one slack, lines 1205-1223, with unflipSlack, lines 341-353 *)
  Definition slack_step (f0 : Q) (s : dense) (e : nat * Q) : dense :=
    let '(cut, rhs) := s in let '(i, a) := e in
    if isZero a then s
    else
      let q := cutCoefficient f0 false (flip (c_rstat c i) a) in
      if isZero q then s
      else match c_rstat c i with
           | Upper => eliminateSlack (- q) i (cut, rhs + - q * slackVal i)
           | Lower => eliminateSlack q i (cut, rhs + q * slackVal i)
           | _ => eliminateSlack q i s
           end.
  Definition rawCut (f0 : Q) (rho : vec) : dense :=
    fold_left (slack_step f0) rho
      (fold_left (col_step f0 rho) (seq 0 (m_ncols m)) (fun _ => 0, - f0)).
  (** packRow, lines 356-366 *)
  Definition packRow (cut : nat -> Q) : vec :=
    filter (fun e => negb (isZero (snd e))) (map (fun j => (j, cut j)) (seq 0 (m_ncols m))).
  (** lines 1262-1270; an infinite difference makes the right-hand side infinite *)
  Definition relax_large (rhs : option Q) (e : nat * Q) : option Q :=
    if isInteger (fst e) then
      match rhs, m_clo m (fst e), m_chi m (fst e) with
      | Some r, Some l, Some u => if 10 <? u - l then Some (r + (1 # 100000000) * (u - l)) else rhs
      | _, _, _ => None
      end
    else rhs.
  (** one fractional basic variable, lines 1125-1282, with
      computeCutFractionality, lines 252-262 *)
  Definition cut_of (binv : nat -> vec) (cs : list rowcut) (k : nat) : outcome (list rowcut) :=
    let f0 := frac (x k) in
    if (f0 <? gp_away p) || (1 - f0 <? gp_away p) then Done cs
    else
      let raw := rawCut f0 (binv k) in
      match packRow (fst raw) with
      | [] => Done cs
      | v =>
          do r <- cleanCut (v, snd raw);
          Done (match r with
                | Some (e :: w, b) => ins cs (RowCut (e :: w) None (fold_left relax_large (e :: w) (Some b)))
                | _ => cs
                end)
      end.
  (** lines 1029-1050 *)
  Definition fractional (k : nat) : bool :=
    match c_cstat c k with
    | Basic => isInteger k && (gp_away p <? (if 1 - frac (x k) <? frac (x k) then 1 - frac (x k) else frac (x k)))
    | _ => false
    end.
  (** generateCuts(cs), lines 1012-1302 *)
  Definition generateCuts (binv : option (nat -> vec)) (cs : list rowcut) : outcome (list rowcut) :=
    match filter fractional (seq 0 (m_ncols m)), binv with
    | [], _ | _, None => Done cs
    | l, Some b => ofold (cut_of b) l cs
    end.
End Generate.
