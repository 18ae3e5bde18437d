(** * Models of the parameter classes
    /repo/src/CglCommon/CglParam.{hpp,cpp}, CglGMI/CglGMIParam.{hpp,cpp},
    CglRedSplit/CglRedSplitParam.{hpp,cpp},
    CglRedSplit2/CglRedSplit2Param.{hpp,cpp}

    Doubles are IEEE binary64 data as in the standard library's SpecFloat
    (signed zeros, infinities, NaN); comparisons are the IEEE ones, which are
    false when an operand is NaN. *)

From Coq Require Export SpecFloat.
From Verif Require Import Base.
Local Open Scope Z_scope.

Definition double := spec_float.
Definition prec := 53.
Definition emax := 1024.
(** The double nearest to an integer, resp. to a quotient of two exactly
    representable integers: the value of a C++ literal. *)
Definition dint (n : Z) : double := binary_normalize prec emax n 0 false.
Definition dlit (n d : Z) : double := SFdiv prec emax (dint n) (dint d).
Definition dneg (x : double) : double := SFopp x.
(** COIN_DBL_MAX and COIN_INT_MAX *)
Definition DBL_MAX : double := S754_finite false 9007199254740991 971.

(** C++ comparison operators on doubles *)
Definition dgt (a b : double) : bool := SFltb b a.
Definition dge (a b : double) : bool := SFleb b a.
Definition dle (a b : double) : bool := SFleb a b.

(** ** CglParam.  Data members: CglParam.hpp lines 69-87. *)
Record cparam := CParam {
  INFINIT : double; EPS : double; EPS_COEFF : double; MAX_SUPPORT : Z
}.
(** Constructor, CglParam.cpp lines 50-57 (no checks); defaults from
    CglParam.hpp lines 51-52. *)
Definition cparam_ctor (inf eps eps_c : double) (max_s : Z) : cparam := CParam inf eps eps_c max_s.
Definition cparam_default : cparam :=
  cparam_ctor DBL_MAX (dlit 1 1000000) (dlit 1 100000) INT_MAX.
(** Setters, CglParam.cpp lines 22-47. *)
Definition setINFINIT (p : cparam) (inf : double) : cparam :=
  if dgt inf (dint 0) then CParam inf (EPS p) (EPS_COEFF p) (MAX_SUPPORT p) else p.
Definition setEPS (p : cparam) (eps : double) : cparam :=
  if dge eps (dint 0) then CParam (INFINIT p) eps (EPS_COEFF p) (MAX_SUPPORT p) else p.
Definition setEPS_COEFF (p : cparam) (eps_c : double) : cparam :=
  if dge eps_c (dint 0) then CParam (INFINIT p) (EPS p) eps_c (MAX_SUPPORT p) else p.
Definition setMAX_SUPPORT (p : cparam) (max_s : Z) : cparam :=
  if 0 <? max_s then CParam (INFINIT p) (EPS p) (EPS_COEFF p) max_s else p.
(** Copy constructor and assignment (lines 60-66, 75-84) copy all four. *)
Definition cparam_assign (lhs rhs : cparam) : cparam :=
  CParam (INFINIT rhs) (EPS rhs) (EPS_COEFF rhs) (MAX_SUPPORT rhs).

(** ** CglGMIParam.  Data members: CglGMIParam.hpp lines 256-300. *)
Record gparam := GParam {
  g_base : cparam;
  g_AWAY : double; g_EPS_ELIM : double; g_RELAX_ABS : double; g_RELAX_REL : double;
  g_MAXDYN : double; g_MINVIOL : double; g_SUPP_REL : double;
  g_CLEAN : nat; g_INTSLACKS : bool; g_DUPL : bool; g_SCALE_CONT : bool; g_ENFORCE : bool
}.
(** Default constructor, CglGMIParam.hpp lines 209-224, .cpp lines 118-146. *)
Definition gparam_default : gparam :=
  GParam (cparam_ctor DBL_MAX (dlit 1 (10^12)) (dlit 1 (10^11)) 1000)
    (dlit 5 1000) (dint 0) (dlit 1 (10^11)) (dlit 1 (10^13)) (dint 1000000)
    (dlit 1 10000) (dlit 1 10) 0 false false false true.
Definition g_set_base (p : gparam) (b : cparam) : gparam :=
  GParam b (g_AWAY p) (g_EPS_ELIM p) (g_RELAX_ABS p) (g_RELAX_REL p) (g_MAXDYN p) (g_MINVIOL p)
    (g_SUPP_REL p) (g_CLEAN p) (g_INTSLACKS p) (g_DUPL p) (g_SCALE_CONT p) (g_ENFORCE p).
(** setAway, CglGMIParam.cpp lines 21-28. *)
Definition g_setAway (p : gparam) (v : double) : gparam :=
  if dgt v (dint 0) && dle v (dlit 1 2)
  then GParam (g_base p) v (g_EPS_ELIM p) (g_RELAX_ABS p) (g_RELAX_REL p) (g_MAXDYN p) (g_MINVIOL p)
         (g_SUPP_REL p) (g_CLEAN p) (g_INTSLACKS p) (g_DUPL p) (g_SCALE_CONT p) (g_ENFORCE p)
  else p.
(** setEPS_ELIM, lines 31-38. *)
Definition g_setEPS_ELIM (p : gparam) (v : double) : gparam :=
  if dge v (dint 0)
  then GParam (g_base p) (g_AWAY p) v (g_RELAX_ABS p) (g_RELAX_REL p) (g_MAXDYN p) (g_MINVIOL p)
         (g_SUPP_REL p) (g_CLEAN p) (g_INTSLACKS p) (g_DUPL p) (g_SCALE_CONT p) (g_ENFORCE p)
  else p.
(** setEPS_RELAX_ABS, lines 41-48. *)
Definition g_setRELAX_ABS (p : gparam) (v : double) : gparam :=
  if dge v (dint 0)
  then GParam (g_base p) (g_AWAY p) (g_EPS_ELIM p) v (g_RELAX_REL p) (g_MAXDYN p) (g_MINVIOL p)
         (g_SUPP_REL p) (g_CLEAN p) (g_INTSLACKS p) (g_DUPL p) (g_SCALE_CONT p) (g_ENFORCE p)
  else p.
(** setEPS_RELAX_REL, lines 51-58. *)
Definition g_setRELAX_REL (p : gparam) (v : double) : gparam :=
  if dge v (dint 0)
  then GParam (g_base p) (g_AWAY p) (g_EPS_ELIM p) (g_RELAX_ABS p) v (g_MAXDYN p) (g_MINVIOL p)
         (g_SUPP_REL p) (g_CLEAN p) (g_INTSLACKS p) (g_DUPL p) (g_SCALE_CONT p) (g_ENFORCE p)
  else p.
(** setMAXDYN, lines 61-69. *)
Definition g_setMAXDYN (p : gparam) (v : double) : gparam :=
  if dge v (dint 1)
  then GParam (g_base p) (g_AWAY p) (g_EPS_ELIM p) (g_RELAX_ABS p) (g_RELAX_REL p) v (g_MINVIOL p)
         (g_SUPP_REL p) (g_CLEAN p) (g_INTSLACKS p) (g_DUPL p) (g_SCALE_CONT p) (g_ENFORCE p)
  else p.
(** setMINVIOL, lines 72-80. *)
Definition g_setMINVIOL (p : gparam) (v : double) : gparam :=
  if dge v (dint 0)
  then GParam (g_base p) (g_AWAY p) (g_EPS_ELIM p) (g_RELAX_ABS p) (g_RELAX_REL p) (g_MAXDYN p) v
         (g_SUPP_REL p) (g_CLEAN p) (g_INTSLACKS p) (g_DUPL p) (g_SCALE_CONT p) (g_ENFORCE p)
  else p.
(** setMAX_SUPPORT_REL, lines 83-91. *)
Definition g_setSUPP_REL (p : gparam) (v : double) : gparam :=
  if dge v (dint 0) && dle v (dint 1)
  then GParam (g_base p) (g_AWAY p) (g_EPS_ELIM p) (g_RELAX_ABS p) (g_RELAX_REL p) (g_MAXDYN p)
         (g_MINVIOL p) v (g_CLEAN p) (g_INTSLACKS p) (g_DUPL p) (g_SCALE_CONT p) (g_ENFORCE p)
  else p.
(** setCLEAN_PROC (an enumeration), lines 114-116; setUSE_INTSLACKS,
    setCHECK_DUPLICATES, setINTEGRAL_SCALE_CONT, setENFORCE_SCALING (94-111). *)
Definition g_setCLEAN (p : gparam) (v : nat) : gparam :=
  GParam (g_base p) (g_AWAY p) (g_EPS_ELIM p) (g_RELAX_ABS p) (g_RELAX_REL p) (g_MAXDYN p)
    (g_MINVIOL p) (g_SUPP_REL p) v (g_INTSLACKS p) (g_DUPL p) (g_SCALE_CONT p) (g_ENFORCE p).
Definition g_setINTSLACKS (p : gparam) (v : bool) : gparam :=
  GParam (g_base p) (g_AWAY p) (g_EPS_ELIM p) (g_RELAX_ABS p) (g_RELAX_REL p) (g_MAXDYN p)
    (g_MINVIOL p) (g_SUPP_REL p) (g_CLEAN p) v (g_DUPL p) (g_SCALE_CONT p) (g_ENFORCE p).
Definition g_setDUPL (p : gparam) (v : bool) : gparam :=
  GParam (g_base p) (g_AWAY p) (g_EPS_ELIM p) (g_RELAX_ABS p) (g_RELAX_REL p) (g_MAXDYN p)
    (g_MINVIOL p) (g_SUPP_REL p) (g_CLEAN p) (g_INTSLACKS p) v (g_SCALE_CONT p) (g_ENFORCE p).
Definition g_setSCALE_CONT (p : gparam) (v : bool) : gparam :=
  GParam (g_base p) (g_AWAY p) (g_EPS_ELIM p) (g_RELAX_ABS p) (g_RELAX_REL p) (g_MAXDYN p)
    (g_MINVIOL p) (g_SUPP_REL p) (g_CLEAN p) (g_INTSLACKS p) (g_DUPL p) v (g_ENFORCE p).
Definition g_setENFORCE (p : gparam) (v : bool) : gparam :=
  GParam (g_base p) (g_AWAY p) (g_EPS_ELIM p) (g_RELAX_ABS p) (g_RELAX_REL p) (g_MAXDYN p)
    (g_MINVIOL p) (g_SUPP_REL p) (g_CLEAN p) (g_INTSLACKS p) (g_DUPL p) (g_SCALE_CONT p) v.

(** ** CglRedSplitParam.  Data members: CglRedSplitParam.hpp lines 205-270. *)
Record rparam := RParam {
  r_base : cparam;
  r_LUB : double; r_EPS_ELIM : double; r_RELAX_ABS : double; r_RELAX_REL : double;
  r_MAXDYN : double; r_MAXDYN_LUB : double; r_COEFF_LUB : double; r_MINVIOL : double;
  r_INTSLACKS : Z; r_CG2 : Z; r_norm0 : double; r_reduc : double; r_away : double; r_maxTab : double
}.
(** Default constructor, CglRedSplitParam.hpp lines 155-168. *)
Definition rparam_default : rparam :=
  RParam cparam_default (dint 1000) (dlit 1 (10^12)) (dlit 1 (10^8)) (dint 0)
    (dint (10^8)) (dint (10^13)) (dlit 1 (10^13)) (dlit 1 (10^7)) 0 0
    (dlit 1 100000) (dlit 5 100) (dlit 5 100) (dint (10^7)).
Definition r_set_base (p : rparam) b : rparam :=
  RParam b (r_LUB p) (r_EPS_ELIM p) (r_RELAX_ABS p) (r_RELAX_REL p) (r_MAXDYN p) (r_MAXDYN_LUB p)
    (r_COEFF_LUB p) (r_MINVIOL p) (r_INTSLACKS p) (r_CG2 p) (r_norm0 p) (r_reduc p) (r_away p) (r_maxTab p).
(** setAway, CglRedSplitParam.cpp lines 22-26. *)
Definition r_setAway (p : rparam) (v : double) : rparam :=
  if dgt v (dint 0) && dle v (dlit 1 2)
  then RParam (r_base p) (r_LUB p) (r_EPS_ELIM p) (r_RELAX_ABS p) (r_RELAX_REL p) (r_MAXDYN p) (r_MAXDYN_LUB p)
    (r_COEFF_LUB p) (r_MINVIOL p) (r_INTSLACKS p) (r_CG2 p) (r_norm0 p) (r_reduc p) v (r_maxTab p)
  else p.
(** setMaxTab, lines 29-38. *)
Definition r_setMaxTab (p : rparam) (v : double) : rparam :=
  if dgt v (dint 10)
  then RParam (r_base p) (r_LUB p) (r_EPS_ELIM p) (r_RELAX_ABS p) (r_RELAX_REL p) (r_MAXDYN p) (r_MAXDYN_LUB p)
    (r_COEFF_LUB p) (r_MINVIOL p) (r_INTSLACKS p) (r_CG2 p) (r_norm0 p) (r_reduc p) (r_away p) v
  else p.
(** setLUB, lines 41-49. *)
Definition r_setLUB (p : rparam) (v : double) : rparam :=
  if dgt v (dint 0)
  then RParam (r_base p) v (r_EPS_ELIM p) (r_RELAX_ABS p) (r_RELAX_REL p) (r_MAXDYN p) (r_MAXDYN_LUB p)
    (r_COEFF_LUB p) (r_MINVIOL p) (r_INTSLACKS p) (r_CG2 p) (r_norm0 p) (r_reduc p) (r_away p) (r_maxTab p)
  else p.
(** setEPS_ELIM, setEPS_RELAX_ABS, setEPS_RELAX_REL, lines 52-70. *)
Definition r_setEPS_ELIM (p : rparam) (v : double) : rparam :=
  if dge v (dint 0)
  then RParam (r_base p) (r_LUB p) v (r_RELAX_ABS p) (r_RELAX_REL p) (r_MAXDYN p) (r_MAXDYN_LUB p)
    (r_COEFF_LUB p) (r_MINVIOL p) (r_INTSLACKS p) (r_CG2 p) (r_norm0 p) (r_reduc p) (r_away p) (r_maxTab p)
  else p.
Definition r_setRELAX_ABS (p : rparam) (v : double) : rparam :=
  if dge v (dint 0)
  then RParam (r_base p) (r_LUB p) (r_EPS_ELIM p) v (r_RELAX_REL p) (r_MAXDYN p) (r_MAXDYN_LUB p)
    (r_COEFF_LUB p) (r_MINVIOL p) (r_INTSLACKS p) (r_CG2 p) (r_norm0 p) (r_reduc p) (r_away p) (r_maxTab p)
  else p.
Definition r_setRELAX_REL (p : rparam) (v : double) : rparam :=
  if dge v (dint 0)
  then RParam (r_base p) (r_LUB p) (r_EPS_ELIM p) (r_RELAX_ABS p) v (r_MAXDYN p) (r_MAXDYN_LUB p)
    (r_COEFF_LUB p) (r_MINVIOL p) (r_INTSLACKS p) (r_CG2 p) (r_norm0 p) (r_reduc p) (r_away p) (r_maxTab p)
  else p.
(** setMAXDYN, setMAXDYN_LUB, lines 73-94. *)
Definition r_setMAXDYN (p : rparam) (v : double) : rparam :=
  if dgt v (dint 1)
  then RParam (r_base p) (r_LUB p) (r_EPS_ELIM p) (r_RELAX_ABS p) (r_RELAX_REL p) v (r_MAXDYN_LUB p)
    (r_COEFF_LUB p) (r_MINVIOL p) (r_INTSLACKS p) (r_CG2 p) (r_norm0 p) (r_reduc p) (r_away p) (r_maxTab p)
  else p.
Definition r_setMAXDYN_LUB (p : rparam) (v : double) : rparam :=
  if dgt v (dint 1)
  then RParam (r_base p) (r_LUB p) (r_EPS_ELIM p) (r_RELAX_ABS p) (r_RELAX_REL p) (r_MAXDYN p) v
    (r_COEFF_LUB p) (r_MINVIOL p) (r_INTSLACKS p) (r_CG2 p) (r_norm0 p) (r_reduc p) (r_away p) (r_maxTab p)
  else p.
(** setEPS_COEFF_LUB, setMINVIOL, lines 97-118. *)
Definition r_setCOEFF_LUB (p : rparam) (v : double) : rparam :=
  if dgt v (dint 0) && dle v (dlit 1 10)
  then RParam (r_base p) (r_LUB p) (r_EPS_ELIM p) (r_RELAX_ABS p) (r_RELAX_REL p) (r_MAXDYN p) (r_MAXDYN_LUB p)
    v (r_MINVIOL p) (r_INTSLACKS p) (r_CG2 p) (r_norm0 p) (r_reduc p) (r_away p) (r_maxTab p)
  else p.
Definition r_setMINVIOL (p : rparam) (v : double) : rparam :=
  if dgt v (dint 0) && dle v (dlit 1 10)
  then RParam (r_base p) (r_LUB p) (r_EPS_ELIM p) (r_RELAX_ABS p) (r_RELAX_REL p) (r_MAXDYN p) (r_MAXDYN_LUB p)
    (r_COEFF_LUB p) v (r_INTSLACKS p) (r_CG2 p) (r_norm0 p) (r_reduc p) (r_away p) (r_maxTab p)
  else p.
(** setUSE_INTSLACKS, setUSE_CG2, lines 121-130. *)
Definition r_setINTSLACKS (p : rparam) (v : Z) : rparam :=
  RParam (r_base p) (r_LUB p) (r_EPS_ELIM p) (r_RELAX_ABS p) (r_RELAX_REL p) (r_MAXDYN p) (r_MAXDYN_LUB p)
    (r_COEFF_LUB p) (r_MINVIOL p) v (r_CG2 p) (r_norm0 p) (r_reduc p) (r_away p) (r_maxTab p).
Definition r_setCG2 (p : rparam) (v : Z) : rparam :=
  RParam (r_base p) (r_LUB p) (r_EPS_ELIM p) (r_RELAX_ABS p) (r_RELAX_REL p) (r_MAXDYN p) (r_MAXDYN_LUB p)
    (r_COEFF_LUB p) (r_MINVIOL p) (r_INTSLACKS p) v (r_norm0 p) (r_reduc p) (r_away p) (r_maxTab p).
(** setNormIsZero, setMinReduc, lines 133-154. *)
Definition r_setNorm0 (p : rparam) (v : double) : rparam :=
  if dgt v (dint 0) && dle v (dint 1)
  then RParam (r_base p) (r_LUB p) (r_EPS_ELIM p) (r_RELAX_ABS p) (r_RELAX_REL p) (r_MAXDYN p) (r_MAXDYN_LUB p)
    (r_COEFF_LUB p) (r_MINVIOL p) (r_INTSLACKS p) (r_CG2 p) v (r_reduc p) (r_away p) (r_maxTab p)
  else p.
Definition r_setMinReduc (p : rparam) (v : double) : rparam :=
  if dgt v (dint 0) && dle v (dint 1)
  then RParam (r_base p) (r_LUB p) (r_EPS_ELIM p) (r_RELAX_ABS p) (r_RELAX_REL p) (r_MAXDYN p) (r_MAXDYN_LUB p)
    (r_COEFF_LUB p) (r_MINVIOL p) (r_INTSLACKS p) (r_CG2 p) (r_norm0 p) v (r_away p) (r_maxTab p)
  else p.
(** getMAXDYN, CglRedSplitParam.hpp line 97: returns MAXDYN_LUB. *)
Definition r_getMAXDYN (p : rparam) : double := r_MAXDYN_LUB p.
Definition r_getMAXDYN_LUB (p : rparam) : double := r_MAXDYN_LUB p.

(** ** CglRedSplit2Param.  The numeric parameters (the strategy lists are in
    the second part). *)
Record r2param := R2Param {
  q_base : cparam;
  q_EPS_ELIM : double; q_RELAX_ABS : double; q_RELAX_REL : double; q_MAXDYN : double;
  q_MINVIOL : double; q_SUPP_REL : double; q_INTSLACKS : Z; q_norm0 : double; q_minNorm : double;
  q_maxSum : Z; q_normaliz : double; q_away : double; q_scaleBound : double; q_time : double;
  q_maxCuts : Z; q_maxComp : Z; q_maxNz : Z; q_skip : Z;
  q_numRows : list Z; q_numRowsLAP : list Z;
  q_col : list nat; q_row : list nat; q_colLAP : list nat; q_rowLAP : list nat
}.
(** Enumerations, CglRedSplit2Param.hpp lines 92-152: RS1..RS8 = 0..7,
    RS_ALL = 8, RS_BEST = 9; CS1..CS21 = 0..20, CS_ALL = 21, CS_BEST = 22,
    CS_ALLCONT = 23, CS_LAP_NONBASICS = 24. *)
Definition RS_ALL : nat := 8. Definition RS_BEST : nat := 9.
Definition CS_ALL : nat := 21. Definition CS_BEST : nat := 22.
Definition CS_LAP_NONBASICS : nat := 24.

Inductive q_id := QElim | QAbs | QRel | QMaxDyn | QMinViol | QSuppRel | QNorm0 | QMinNorm
                | QNormaliz | QAway | QScale | QTime.
Definition q_getd (p : r2param) (i : q_id) : double :=
  match i with
  | QElim => q_EPS_ELIM p | QAbs => q_RELAX_ABS p | QRel => q_RELAX_REL p | QMaxDyn => q_MAXDYN p
  | QMinViol => q_MINVIOL p | QSuppRel => q_SUPP_REL p | QNorm0 => q_norm0 p | QMinNorm => q_minNorm p
  | QNormaliz => q_normaliz p | QAway => q_away p | QScale => q_scaleBound p | QTime => q_time p
  end.
(** Writing one double member. *)
Definition q_putd (p : r2param) (i : q_id) (v : double) : r2param :=
  let d := fun j => match i, j with
    | QElim, QElim | QAbs, QAbs | QRel, QRel | QMaxDyn, QMaxDyn | QMinViol, QMinViol
    | QSuppRel, QSuppRel | QNorm0, QNorm0 | QMinNorm, QMinNorm | QNormaliz, QNormaliz
    | QAway, QAway | QScale, QScale | QTime, QTime => v
    | _, _ => q_getd p j end in
  R2Param (q_base p) (d QElim) (d QAbs) (d QRel) (d QMaxDyn) (d QMinViol) (d QSuppRel) (q_INTSLACKS p)
    (d QNorm0) (d QMinNorm) (q_maxSum p) (d QNormaliz) (d QAway) (d QScale) (d QTime)
    (q_maxCuts p) (q_maxComp p) (q_maxNz p) (q_skip p) (q_numRows p) (q_numRowsLAP p)
    (q_col p) (q_row p) (q_colLAP p) (q_rowLAP p).
(** The double setters, CglRedSplit2Param.cpp lines 21-82, 91-112, 127-136, 265-273,
    323-332.  setMAX_SUPP_REL (lines 73-82) assigns MINVIOL. *)
Definition q_setd (p : r2param) (i : q_id) (v : double) : r2param :=
  match i with
  | QAway => if dgt v (dint 0) && dle v (dlit 1 2) then q_putd p QAway v else p
  | QElim => if dge v (dint 0) then q_putd p QElim v else p
  | QAbs => if dge v (dint 0) then q_putd p QAbs v else p
  | QRel => if dge v (dint 0) then q_putd p QRel v else p
  | QMaxDyn => if dgt v (dint 1) then q_putd p QMaxDyn v else p
  | QMinViol => if dgt v (dint 0) && dle v (dlit 1 10) then q_putd p QMinViol v else p
  | QSuppRel => if dgt v (dint 0) && dle v (dlit 1 10) then q_putd p QMinViol v else p
  | QNorm0 => if dgt v (dint 0) && dle v (dint 1) then q_putd p QNorm0 v else p
  | QMinNorm => if dgt v (dint 0) && dle v (dint 1) then q_putd p QMinNorm v else p
  | QNormaliz => if dge v (dint 0) then q_putd p QNormaliz v else p
  | QScale => if dge v (dint 0) then q_putd p QScale v else p
  | QTime => if dge v (dint 0) then q_putd p QTime v else q_putd p QTime (dint 0)
  end.
Inductive q_iid := QIntSlacks | QMaxSum | QMaxCuts | QMaxComp | QMaxNz | QSkip.
Definition q_geti (p : r2param) (i : q_iid) : Z :=
  match i with
  | QIntSlacks => q_INTSLACKS p | QMaxSum => q_maxSum p | QMaxCuts => q_maxCuts p
  | QMaxComp => q_maxComp p | QMaxNz => q_maxNz p | QSkip => q_skip p
  end.
Definition q_puti (p : r2param) (i : q_iid) (v : Z) : r2param :=
  let d := fun j => match i, j with
    | QIntSlacks, QIntSlacks | QMaxSum, QMaxSum | QMaxCuts, QMaxCuts | QMaxComp, QMaxComp
    | QMaxNz, QMaxNz | QSkip, QSkip => v
    | _, _ => q_geti p j end in
  R2Param (q_base p) (q_EPS_ELIM p) (q_RELAX_ABS p) (q_RELAX_REL p) (q_MAXDYN p) (q_MINVIOL p)
    (q_SUPP_REL p) (d QIntSlacks) (q_norm0 p) (q_minNorm p) (d QMaxSum) (q_normaliz p) (q_away p)
    (q_scaleBound p) (q_time p) (d QMaxCuts) (d QMaxComp) (d QMaxNz) (d QSkip)
    (q_numRows p) (q_numRowsLAP p) (q_col p) (q_row p) (q_colLAP p) (q_rowLAP p).
(** The int setters, lines 85-88, 115-124, 277-312, 336-345. *)
Definition q_seti (p : r2param) (i : q_iid) (v : Z) : r2param :=
  match i with
  | QIntSlacks => q_puti p QIntSlacks v
  | QMaxSum => if 1 <? v then q_puti p QMaxSum v else p
  | QMaxCuts => if 0 <=? v then q_puti p QMaxCuts v else p
  | QMaxComp => if 0 <=? v then q_puti p QMaxComp v else p
  | QMaxNz => if 0 <=? v then q_puti p QMaxNz v else p
  | QSkip => if (0 <=? v) && (v <=? 1) then q_puti p QSkip v else p
  end.

(** Strategy lists. *)
Definition q_lists (p : r2param) nr nrl c r cl rl : r2param :=
  R2Param (q_base p) (q_EPS_ELIM p) (q_RELAX_ABS p) (q_RELAX_REL p) (q_MAXDYN p) (q_MINVIOL p)
    (q_SUPP_REL p) (q_INTSLACKS p) (q_norm0 p) (q_minNorm p) (q_maxSum p) (q_normaliz p) (q_away p)
    (q_scaleBound p) (q_time p) (q_maxCuts p) (q_maxComp p) (q_maxNz p) (q_skip p) nr nrl c r cl rl.
(** addNumRowsReduction, lines 139-148; LAP version 225-233. *)
Definition q_addNumRows (p : r2param) (v : Z) : r2param :=
  if 0 <=? v then q_lists p (q_numRows p ++ [v]) (q_numRowsLAP p) (q_col p) (q_row p) (q_colLAP p) (q_rowLAP p) else p.
Definition q_addNumRowsLAP (p : r2param) (v : Z) : r2param :=
  if 0 <=? v then q_lists p (q_numRows p) (q_numRowsLAP p ++ [v]) (q_col p) (q_row p) (q_colLAP p) (q_rowLAP p) else p.
(** addColumnSelectionStrategy, lines 151-199. *)
Definition q_addCol (p : r2param) (v : nat) : r2param :=
  let put l := q_lists p (q_numRows p) (q_numRowsLAP p) (q_col p ++ l) (q_row p) (q_colLAP p) (q_rowLAP p) in
  if negb (Nat.eqb v CS_ALL) && negb (Nat.eqb v CS_BEST) && negb (Nat.eqb v CS_LAP_NONBASICS)
  then put [v]
  else if Nat.eqb v CS_ALL then put (seq 0 21)
  else if Nat.eqb v CS_BEST
  then put ([3; 4; 5; 6; 7] ++ [8; 9; 10; 11] ++ [17; 18; 19; 20])%nat
  else p.
(** addRowSelectionStrategy, lines 202-221. *)
Definition q_addRow (p : r2param) (v : nat) : r2param :=
  let put l := q_lists p (q_numRows p) (q_numRowsLAP p) (q_col p) (q_row p ++ l) (q_colLAP p) (q_rowLAP p) in
  if negb (Nat.eqb v RS_ALL) && negb (Nat.eqb v RS_BEST) then put [v]
  else if Nat.eqb v RS_ALL then put (seq 0 8) else put [6; 7]%nat.
(** addColumnSelectionStrategyLAP, lines 236-247; addRowSelectionStrategyLAP,
    lines 250-261. *)
Definition q_addColLAP (p : r2param) (v : nat) : r2param :=
  let put l := q_lists p (q_numRows p) (q_numRowsLAP p) (q_col p) (q_row p) (q_colLAP p ++ l) (q_rowLAP p) in
  if negb (Nat.eqb v CS_ALL) && negb (Nat.eqb v CS_BEST) then put [v]
  else if Nat.eqb v CS_BEST then put [0%nat] else p.
Definition q_addRowLAP (p : r2param) (v : nat) : r2param :=
  let put l := q_lists p (q_numRows p) (q_numRowsLAP p) (q_col p) (q_row p) (q_colLAP p) (q_rowLAP p ++ l) in
  if negb (Nat.eqb v RS_ALL) && negb (Nat.eqb v RS_BEST) then put [v]
  else if Nat.eqb v RS_BEST then put [7%nat] else p.

(** Default constructor, CglRedSplit2Param.hpp lines 341-365, .cpp 348-399. *)
Definition r2param_default : r2param :=
  let p := R2Param (cparam_ctor DBL_MAX (dlit 1 (10^12)) (dlit 1 (10^11)) 1000)
    (dint 0) (dlit 1 (10^11)) (dlit 1 (10^13)) (dint 1000000) (dlit 1 1000) (dlit 1 10) 0
    (dlit 1 100000) (dlit 1 10) 10 (dlit 1 10000) (dlit 5 1000) (dint 5) (dint 60)
    10000 10000 1000 1 [] [] [] [] [] [] in
  q_addRowLAP (q_addColLAP (q_addNumRowsLAP
    (q_addRow (q_addCol (q_addNumRows p 5) CS_BEST) RS_BEST) 3) 0) 7.
