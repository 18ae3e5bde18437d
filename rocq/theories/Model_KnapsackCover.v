(** * Model of CglKnapsackCover
    /repo/src/CglKnapsackCover/CglKnapsackCover.cpp and .hpp.

    Line numbers refer to CglKnapsackCover.cpp.  GUBCOVER, CGL_DEBUG,
    PRINT_DEBUG and P0201 are not defined (lines 20-22), so everything between
    those preprocessor conditions is left out; gubifyCut (3395-3490) then does
    nothing.  The two seqLift routines (2972-3153) are only called under
    "#if 0" and are not modelled, nor are the global-validity mark set on the
    new cuts (lines 774-778) and effectiveness values.

    The std::sort calls are a parameter [srt]: all that is known about it is
    that it returns a permutation sorted by non-increasing key, so ties may be
    broken in any way.  Packed vectors are lists of (column, coefficient). *)

From Coq Require Import Qabs.
From Verif Require Import Base.
Local Open Scope Q_scope.

(** epsilon_, epsilon2_, onetol_, lines 3639-3645; there is no setter. *)
Definition eps : Q := 1 # 10000000.
Definition eps2 : Q := 1 # 100000.
Definition onetol : Q := 1 - eps.

Definition item := (nat * Q)%type.
Definition weight (v : list item) : Q := fold_right (fun e s => snd e + s) 0 v.

(** ** exactSolveKnapsack, lines 3505-3635

    The arrays p, w and xhat are a zipper: [k_path] holds the items before
    position j, latest first, with their xhat value, [k_rest] the items from j
    on.  Entries of xhat at or after position j are never read before they are
    written again, so they need no place in the state.  The sentinel item n+1
    (profit 0, weight COIN_DBL_MAX) is the end of [k_rest]: no capacity reaches
    COIN_DBL_MAX. *)
Definition pw := (Q * Q)%type.   (* profit, weight *)
Record ks := KS {
  k_path : list (bool * pw); k_rest : list pw;
  k_chat : Q; k_zhat : Q; k_z : Q; k_x : list bool
}.

(** step 2, the upper bound u, lines 3564-3580 *)
Fixpoint upper_bound (chat : Q) (l : list pw) (wsum psum : Q) : Q :=
  match l with
  | [] => psum
  | (p, w) :: l' =>
      if wsum + w <=? chat then upper_bound chat l' (wsum + w) (psum + p)
      else psum + qfloor ((chat - wsum) * p / w)
  end.
(** the inner loop of step 3, lines 3586-3591 *)
Fixpoint take (path : list (bool * pw)) (rest : list pw) (chat zhat : Q)
  : list (bool * pw) * list pw * Q * Q :=
  match rest with
  | (p, w) :: r => if w <=? chat then take ((true, (p, w)) :: path) r (chat - w) (zhat + p)
                   else (path, rest, chat, zhat)
  | [] => (path, rest, chat, zhat)
  end.
(** one pass of the do loop, lines 3585-3595 *)
Definition pass (path : list (bool * pw)) (rest : list pw) (chat zhat : Q)
  : list (bool * pw) * list pw * Q * Q :=
  let '(path1, rest1, chat1, zhat1) := take path rest chat zhat in
  match rest1 with
  | it :: r => ((false, it) :: path1, r, chat1, zhat1)
  | [] => (path1, [], chat1, zhat1)
  end.
(** step 3, lines 3584-3596; j == n says one item is left, and a pass over one
    item leaves none, so the do loop runs at most twice. *)
Definition forward (path : list (bool * pw)) (rest : list pw) (chat zhat : Q)
  : list (bool * pw) * list pw * Q * Q :=
  let '(path1, rest1, chat1, zhat1) := pass path rest chat zhat in
  match rest1 with
  | [_] => pass path1 rest1 chat1 zhat1
  | _ => (path1, rest1, chat1, zhat1)
  end.
(** step 5, lines 3619-3634: None when no item is taken, else the new zipper *)
Fixpoint backtrack (path : list (bool * pw)) (rest : list pw) (chat zhat : Q)
  : option (list (bool * pw) * list pw * Q * Q) :=
  match path with
  | [] => None
  | (true, it) :: p => Some ((false, it) :: p, rest, chat + snd it, zhat - fst it)
  | (false, it) :: p => backtrack p (it :: rest) chat zhat
  end.

Inductive kres := KDone (z : Q) (x : list bool) | KMore (s : ks).
Definition finish (path : list (bool * pw)) (rest : list pw) (chat zhat z : Q) (x : list bool) : kres :=
  match backtrack path rest chat zhat with
  | None => KDone z x
  | Some (path', rest', chat', zhat') => KMore (KS path' rest' chat' zhat' z x)
  end.
(** one turn of the outer loop, lines 3562-3634 *)
Definition kstep (s : ks) : kres :=
  let u := upper_bound (k_chat s) (k_rest s) 0 0 in
  if k_zhat s + u <=? k_z s then finish (k_path s) (k_rest s) (k_chat s) (k_zhat s) (k_z s) (k_x s)
  else
    let '(path, rest, chat, zhat) := forward (k_path s) (k_rest s) (k_chat s) (k_zhat s) in
    match rest with
    | _ :: _ => KMore (KS path rest chat zhat (k_z s) (k_x s))      (* j < n: continue *)
    | [] =>
        let better := k_z s <? zhat in
        let z := if better then zhat else k_z s in
        let x := if better then rev (map fst path) else k_x s in
        match path with
        | (true, it) :: p => finish p [it] (chat + snd it) (zhat - fst it) z x
        | (false, it) :: p => finish p [it] chat zhat z x
        | [] => finish [] [] chat zhat z x
        end
    end.
Fixpoint kloop (fuel : nat) (s : ks) : outcome (Q * list bool) :=
  match fuel with
  | O => OutOfFuel
  | S f => match kstep s with KDone z x => Done (z, x) | KMore s' => kloop f s' end
  end.
Definition exactSolveKnapsack (fuel : nat) (c : Q) (l : list pw) : outcome (Q * list bool) :=
  kloop fuel (KS [] l (c + eps2) 0 0 (map (fun _ => false) l)).

(** ** deriveAKnapsack, lines 912-1137 *)

(** si.isFreeBinary: integer with bounds 0 and 1 *)
Definition opt_is (b : option Q) (q : Q) : bool :=
  match b with Some v => Qeq_bool v q | None => false end.
Definition free_binary (m : mip) (j : nat) : bool :=
  m_int m j && opt_is (m_clo m j) 0 && opt_is (m_chi m j) 1.

(** lines 976-1006: net out everything that is not a free binary; None is the
    "return 0" for a missing bound *)
Fixpoint net_out (m : mip) (v : list item) (b : Q) : option (list item * Q) :=
  match v with
  | [] => Some ([], b)
  | (j, a) :: v' =>
      if free_binary m j then
        match net_out m v' b with Some (k, b') => Some ((j, a) :: k, b') | None => None end
      else if a <? - eps then
        match m_chi m j with Some u => net_out m v' (b - a * u) | None => None end
      else if eps <? a then
        match m_clo m j with Some l => net_out m v' (b - a * l) | None => None end
      else net_out m v' b
  end.
Definition negated (v : list item) : list item := map (fun e => (fst e, - snd e)) v.
(** lines 1080-1094: complement the columns with a negative coefficient *)
Definition flip (e : item) : item := if snd e <? - eps then (fst e, - snd e) else e.
Definition flip_rhs (v : list item) (b : Q) : Q :=
  fold_left (fun s e => if snd e <? - eps then s + - snd e else s) v b.
Definition flipped (v : list item) (j : nat) : bool :=
  existsb (fun e => Nat.eqb (fst e) j && (snd e <? - eps)) v.
Definition max_abs (v : list item) : Q :=
  fold_left (fun s e => if s <? Qabs (snd e) then Qabs (snd e) else s) v 0.
Definition min_abs (v : list item) (top : Q) : Q :=
  fold_left (fun s e => if Qabs (snd e) <? s then Qabs (snd e) else s) v top.

Record knap := Knap { kn_items : list item; kn_rhs : Q; kn_flip : nat -> bool; kn_x : nat -> Q }.

(** deriveAKnapsack.  The first component is the column cut of lines 1096-1113,
    the second the knapsack when 1 is returned.  [-COIN_DBL_MAX] as the start
    of the running maximum is replaced by 0 (absolute values are not below
    it), [COIN_DBL_MAX] as the start of the minimum by the maximum (used only
    when there are at least three entries).  The column cut built in lines
    1130-1134 is never inserted. *)
Definition deriveAKnapsack (m : mip) (x : nat -> Q) (less : bool) (b : Q) (v : list item)
  : list colcut * option knap :=
  match v with
  | [] => ([], None)
  | _ =>
      let v1 := if less then v else negated v in
      let b1 := if less then b else - b in
      match net_out m v1 b1 with
      | None => ([], None)
      | Some (raw, b2) =>
          let unsat := existsb (fun e => (eps <? x (fst e)) && (x (fst e) <? onetol)) raw in
          let mx := max_abs raw in
          let mn := min_abs raw mx in
          if Nat.ltb (length raw) 3 || negb unsat || (mx - mn <? (1 # 1000) * mx) then ([], None)
          else
            let items := map flip raw in
            let b3 := flip_rhs raw b2 in
            let fl := flipped raw in
            let cut :=
              if b3 <? 0 then
                match items with
                | (j, _) :: _ =>
                    let lb := match m_chi m j with Some u => u + 1 | None => 1 end in
                    [ColCut [(j, lb)] [(j, lb)]]
                | [] => []
                end
              else [] in
            if existsb (fun e => b3 <? snd e) items then (cut, None)
            else (cut, Some (Knap items b3 fl (fun j => if fl j then 1 - x j else x j)))
      end
  end.

(** ** Cover searches *)
Section Search.
  Variable srt : forall A : Type, (A -> Q) -> list A -> list A.
  Variable fuel : nat.
  Variable x : nat -> Q.

  Definition by_weight (v : list item) : list item := srt item snd v.

  (** findGreedyCover, lines 2078-2153 *)
  Definition greedy_step (b : Q) (s : list item * list item * Q * Q * bool) (e : item) :=
    let '(cover, rem, es, xs, got) := s in
    if (eps <=? x (fst e)) && (x (fst e) <=? onetol) && negb got then
      (cover ++ [e], rem, es + snd e, xs + x (fst e), b + eps2 <? es + snd e)
    else (cover, rem ++ [e], es, xs, got).
  Definition findGreedyCover (krow : list item) (b : Q) : option (list item * list item) :=
    let '(cover, rem, es, xs, got) := fold_left (greedy_step b) krow ([], [], 0, 0, false) in
    if (xs <=? (inject_Z (Z.of_nat (length cover)) - 1) + eps2) || negb got || Nat.ltb (length cover) 2
    then None else Some (cover, rem).

  (** Dropping the lightest member while the others still exceed the capacity:
      lines 1330-1340 (tol = 1e-12), 1512-1522 and 1755-1765 (tol = 0).  [rc] is
      the cover backwards, [less] the weight without its first entry.  Reading
      the entry before the first one is out of bounds. *)
  Fixpoint shrink (lim : Q) (rc : list item) (less : Q) (rem : list item) : outcome (list item * list item) :=
    match rc with
    | [] => Undef OutOfBounds
    | e :: rc' =>
        if lim <? less then
          match rc' with
          | [] => Undef OutOfBounds
          | e2 :: _ => shrink lim rc' (less - snd e2) (rem ++ [e])
          end
        else Done (rev rc, rem)
    end.
  Definition make_minimal (lim : Q) (cover : list item) (total : Q) (rem : list item)
    : outcome (list item * list item) :=
    match rev cover with
    | [] => Undef OutOfBounds
    | e :: _ => shrink lim (rev cover) (total - snd e) rem
    end.

  (** the sort key of lines 1245-1258 and 1448-1463 *)
  Definition ratio (e : item) : Q := if eps <? Qabs (snd e) then (1 - x (fst e)) / snd e else 0.

  (** lines 1261-1266: the critical element *)
  Fixpoint critical (lim : Q) (v : list item) (sum : Q) (r : nat) : outcome nat :=
    match v with
    | [] => Undef OutOfBounds
    | e :: v' => if sum + snd e <=? lim then critical lim v' (sum + snd e) (S r) else Done r
    end.
  Definition slack1 (v : list item) : Q := fold_right (fun e s => (1 - x (fst e)) + s) 0 v.

  (** findLPMostViolatedMinCover, lines 1183-1390; also returns krow as sorted *)
  Definition findLPMostViolatedMinCover (krow : list item) (b : Q)
    : outcome (option (list item * list item)) :=
    if weight krow <? b + eps then Done None
    else
      let k := srt item ratio krow in
      do r <- critical (weight krow - b - eps) k 0 0;
      if 1 - eps <? slack1 (skipn r k) then Done None
      else
        let cover := skipn r k in
        let rem := firstn r k in
        let total := weight cover in
        if total <=? b + (1 # 100000000) * (1 + Qabs b) then Done None
        else
          do cr <- make_minimal (b + (1 # 1000000000000)) (by_weight cover) total rem;
          if Nat.ltb (length (fst cr)) 2 then Done None else Done (Some cr).

  (** findExactMostViolatedMinCover, lines 1399-1570 *)
  Definition findExactMostViolatedMinCover (krow : list item) (b : Q)
    : outcome (option (list item * list item)) :=
    if weight krow <? b + eps then Done None
    else
      let k := srt item ratio krow in
      do zx <- exactSolveKnapsack fuel (weight krow - b - eps) (map (fun e => (1 - x (fst e), snd e)) k);
      if slack1 k - fst zx <? 1 then
        let tagged := combine k (snd zx) in
        let cover := map fst (filter (fun t => negb (snd t)) tagged) in
        let rem := map fst (filter snd tagged) in
        do cr <- make_minimal b (by_weight cover) (weight cover) rem;
        Done (Some cr)
      else Done None.

  (** The partition at the start of the two John-and-Ellis searches, lines
      1648-1662 and 1898-1912 *)
  Definition at_one (krow : list item) : list item := filter (fun e => onetol <? x (fst e)) krow.
  Definition unsat_of (krow : list item) : list item :=
    filter (fun e => negb (onetol <? x (fst e)) && (eps <=? x (fst e))) krow.
  Definition at_zero (krow : list item) : list item :=
    filter (fun e => negb (onetol <? x (fst e)) && negb (eps <=? x (fst e))) krow.

  (** largest coefficient from a position on, lines 1677-1688 and 1704-1713 *)
  Fixpoint biggest (v : list item) (i : nat) (best : Q * nat) : Q * nat :=
    match v with
    | [] => best
    | e :: v' => biggest v' (S i) (if fst best <? snd e then (snd e, i) else best)
    end.
  (** lines 1696-1719: Some (i, margin) when a cover was detected *)
  Fixpoint scan (v : list item) (i : nat) (margin : Q) (big : Q * nat) : option (nat * Q) :=
    match v with
    | [] => None
    | e :: v' =>
        let margin' := margin - snd e in
        let big' := if Nat.eqb i (snd big) then biggest v' (S i) (0, 0%nat) else big in
        if margin' + eps2 <? fst big' then Some (S i, margin') else scan v' (S i) margin' big'
    end.
  (** lines 1725-1731: bring the first entry that fills the margin to the front *)
  Fixpoint first_filling (margin : Q) (v : list item) : option (list item * item * list item) :=
    match v with
    | [] => None
    | e :: v' =>
        if snd e <? margin then
          match first_filling margin v' with
          | Some (pre, f, post) => Some (e :: pre, f, post)
          | None => None
          end
        else Some ([], e, v')
    end.
  Definition swapped (pre : list item) (f : item) (post : list item) : list item :=
    match pre with
    | [] => f :: post
    | h :: pre' => f :: pre' ++ h :: post
    end.
  (** lines 1664-1736, common to both searches: the chosen entries and the
      other unsatisfied ones *)
  Definition choose (krow : list item) (b : Q) : outcome (option (list item * list item)) :=
    let unsat := srt item (fun e => x (fst e)) (unsat_of krow) in
    let rhs := fold_left (fun s e => s - snd e) (at_one krow) b in
    match scan unsat 0 rhs (biggest unsat 0 (0, 0%nat)) with
    | None => Done None
    | Some (i, margin) =>
        let head := firstn i unsat in
        let tail := skipn i unsat in
        match tail with
        | [] => Done (Some (head, []))
        | _ =>
            match first_filling margin tail with
            | None => Undef OutOfBounds
            | Some (pre, f, post) =>
                let t := swapped pre f post in
                Done (Some (head ++ firstn 1 t, skipn 1 t))
            end
        end
    end.
  Definition xsum (v : list item) : Q := fold_right (fun e s => x (fst e) + s) 0 v.

  (** findPseudoJohnAndEllisCover, lines 1577-1815 *)
  Definition findPseudoJohnAndEllisCover (krow : list item) (b : Q)
    : outcome (option (list item * list item)) :=
    let rhs := fold_left (fun s e => s - snd e) (at_one krow) b in
    do c <- choose krow b;
    match c with
    | None => Done None
    | Some (chosen, others) =>
        if (inject_Z (Z.of_nat (length chosen)) - 1 <? xsum chosen) && (rhs + eps2 <? weight chosen) then
          let cover := chosen ++ at_one krow in
          do cr <- make_minimal b (by_weight cover) (weight cover) (at_zero krow ++ others);
          if Nat.ltb (length (fst cr)) 2 then Done None else Done (Some cr)
        else Done None
    end.
  (** findJohnAndEllisCover, lines 1828-2069: cover, at-one and remainder *)
  Definition findJohnAndEllisCover (krow : list item) (b : Q)
    : outcome (option (list item * list item * list item)) :=
    let rhs := fold_left (fun s e => s - snd e) (at_one krow) b in
    do c <- choose krow b;
    match c with
    | None => Done None
    | Some (chosen, others) =>
        if rhs + eps2 <? weight chosen then
          if Nat.ltb (length chosen) 2 then Done None
          else Done (Some (by_weight chosen, at_one krow, at_zero krow ++ others))
        else Done None
    end.

  (** ** Lifting *)

  (** liftCoverCut, lines 3167-3394.  [mu_i] is muMinusLambda[i]. *)
  Definition cw (cover : list item) (i : nat) : Q := snd (nth i cover (0%nat, 0)).
  Definition muML (cover : list item) (lambda : Q) (i : nat) : Q := weight (firstn i cover) - lambda.
  (** lines 3229-3266: the coefficient in the superadditive f case; None when
      no interval was found (goodCut = 0) *)
  Fixpoint f_search (cover : list item) (lambda a : Q) (i k : nat) : option Q :=
    match k with
    | O => None
    | S k' => if a <=? muML cover lambda i then Some (inject_Z (Z.of_nat i) - 1)
              else f_search cover lambda a (S i) k'
    end.
  Definition f_coef (cover : list item) (lambda a : Q) : option (option Q) :=
    if a <=? muML cover lambda 1 + eps then Some None
    else match f_search cover lambda a 2 (length cover - 1) with
         | Some q => Some (Some q)
         | None => None
         end.
  (** lines 3268-3299: the coefficient in the g case; None when it is not stored *)
  Definition rho (cover : list item) (lambda : Q) (i : nat) : Q :=
    match i with
    | O => lambda
    | _ => if Nat.ltb i (length cover)
           then let d := cw cover i - muML cover lambda 1 in if d <=? 0 then 0 else d
           else 0
    end.
  Fixpoint g_search (cover : list item) (lambda a : Q) (i k : nat) : option Q :=
    match k with
    | O => None
    | S k' =>
        if a <=? muML cover lambda (S i) then
          match i with O => None | _ => Some (inject_Z (Z.of_nat i)) end
        else if a <? muML cover lambda (S i) + rho cover lambda (S i) then
          let q := (inject_Z (Z.of_nat i) + 1)
                   - (muML cover lambda (S i) + rho cover lambda (S i) - a) / rho cover lambda 1 in
          if eps <? Qabs q then Some q else None
        else g_search cover lambda a (S i) k'
    end.
  Definition ones (v : list item) : list item := map (fun e => (fst e, 1)) v.
  Fixpoint f_lift (cover : list item) (lambda : Q) (rem : list item) : option (list item) :=
    match rem with
    | [] => Some []
    | (j, a) :: rem' =>
        match f_coef cover lambda a, f_lift cover lambda rem' with
        | Some (Some q), Some l => Some ((j, q) :: l)
        | Some None, Some l => Some l
        | _, _ => None
        end
    end.
  Fixpoint g_lift (cover : list item) (lambda : Q) (rem : list item) : list item :=
    match rem with
    | [] => []
    | (j, a) :: rem' =>
        match g_search cover lambda a 0 (length cover) with
        | Some q => (j, q) :: g_lift cover lambda rem'
        | None => g_lift cover lambda rem'
        end
    end.
  (** None is the return value 0.  Reading cover.getElements()[1] needs two
      members. *)
  Definition liftCoverCut (b : Q) (cover rem : list item) : outcome (option (list item)) :=
    let lambda := weight cover - b in
    if lambda <? eps2 then Done None
    else
      match cover with
      | _ :: _ :: _ =>
          if cw cover 1 - eps <=? muML cover lambda 1 then
            match f_lift cover lambda rem with
            | Some l => Done (Some (ones cover ++ l))
            | None => Done None
            end
          else Done (Some (ones cover ++ g_lift cover lambda rem))
      | _ => Undef OutOfBounds
      end.

  (** Undoing the complementation, lines 849-857 and 2918-2928 *)
  Definition uncomplement (fl : nat -> bool) (cut : list item) (rhs : Q) : rowcut :=
    RowCut (map (fun e => if fl (fst e) then (fst e, - snd e) else e) cut) None
           (Some (fold_left (fun s e => if fl (fst e) then s + - snd e else s) cut rhs)).

  (** liftAndUncomplementAndAdd, lines 816-902; None is the return value 0 *)
  Definition liftAndUncomplementAndAdd (b : Q) (fl : nat -> bool) (cover rem : list item)
    : outcome (option rowcut) :=
    let rhs := inject_Z (Z.of_nat (length cover)) - 1 in
    match rem with
    | [] => Done (Some (uncomplement fl (ones cover) rhs))
    | _ =>
        do c <- liftCoverCut b cover rem;
        match c with
        | Some cut => Done (Some (uncomplement fl cut rhs))
        | None => Done None
        end
    end.

  (** liftUpDownAndUncomplementAndAdd, lines 2179-2959.  The vectors a and
      alpha are one list of (column, ratio, (alpha, a)): they are always extended and
      sorted together, with the same key, and std::sort applied twice to the
      same sequence of keys permutes it in the same way.  The ratio of an entry
      inserted later is not guarded against a zero weight, lines 2733 and 2803.
      [lk_cut] is the cut so far. *)
  Definition entry := (nat * Q * pw)%type.
  Definition key (e : entry) : Q := snd (fst e).
  Definition lift_ratio (alpha a : Q) : Q := if eps <? Qabs a then alpha / a else 0.
  Record lk := LK { lk_items : list entry; lk_cut : list item; lk_rhs : Q; lk_unsat : Q }.

  (** lines 2571-2740 *)
  Definition lift_up (s : lk) (e : item) : outcome lk :=
    do psi <- (if eps <=? lk_unsat s - snd e then
                 do r <- exactSolveKnapsack fuel (lk_unsat s - snd e) (map snd (lk_items s)); Done (fst r)
               else Done (lk_rhs s));
    let alpha := lk_rhs s - psi in
    if eps <? alpha then
      Done (LK (srt entry key (lk_items s ++ [(fst e, alpha / snd e, (alpha, snd e))]))
               (lk_cut s ++ [(fst e, alpha)]) (lk_rhs s) (lk_unsat s))
    else Done s.
  (** lines 2769-2812; None is the early exit, which leaves COIN_DBL_MAX as
      right-hand side, so that no cut is added *)
  Fixpoint lift_down (s : lk) (ones : list item) : outcome (option lk) :=
    match ones with
    | [] => Done (Some s)
    | e :: l =>
        do r <- exactSolveKnapsack fuel (lk_unsat s + snd e) (map snd (lk_items s));
        let alpha := fst r - lk_rhs s in
        if Qabs (snd e) <=? eps then Done None
        else
          lift_down (LK (srt entry key (lk_items s ++ [(fst e, alpha / snd e, (alpha, snd e))]))
                        (if eps <? Qabs alpha then lk_cut s ++ [(fst e, alpha)] else lk_cut s)
                        (fst r) (lk_unsat s + snd e)) l
    end.
  Definition cut_at (cut : list item) : Q := value cut x.
  Definition liftUpDown (b : Q) (fl : nat -> bool) (frac ones_ rem : list item)
    : outcome (option rowcut) :=
    let cut0 := ones frac in
    let rhs0 := inject_Z (Z.of_nat (length frac)) - 1 in
    let unsat := b - weight ones_ in
    do s <- (if (0 <? unsat) && negb (Nat.eqb (length rem + length ones_) 0) then
               let items := srt entry key (map (fun e => (fst e, lift_ratio 1 (snd e), (1, snd e))) frac) in
               do s1 <- ofold lift_up (srt item (fun e => x (fst e)) rem) (LK items cut0 rhs0 unsat);
               lift_down s1 ones_
             else Done (Some (LK [] cut0 rhs0 unsat)));
    match s with
    | None => Done None
    | Some s =>
        if lk_rhs s + eps2 <? cut_at (lk_cut s) then Done (Some (uncomplement fl (lk_cut s) (lk_rhs s)))
        else Done None
    end.
End Search.

(** ** generateCuts, lines 26-799 *)

Definition add_opt (cs : list rowcut) (c : option rowcut) : list rowcut :=
  match c with Some r => insert_new cs r | None => cs end.

Section Row.
  Variable srt : forall A : Type, (A -> Q) -> list A -> list A.
  Variable fuel : nat.
  Variable expensive : bool.
  Variable longRow : nat.

  (** lines 517-737 for one derived knapsack.  The greedy search sorts krow by
      weight (line 2102); the others then see it in that order. *)
  Definition one_knapsack (k : knap) (cs : list rowcut) : outcome (list rowcut) :=
    let x := kn_x k in
    let b := kn_rhs k in
    let fl := kn_flip k in
    let krow := by_weight srt (kn_items k) in
    let n := length krow in
    (* greedy, lines 536-561 *)
    do g <- (match findGreedyCover x krow b with
             | Some (cover, rem) =>
                 do c <- liftAndUncomplementAndAdd b fl cover rem;
                 Done (match c with Some r => Some (insert_new cs r) | None => None end)
             | None => Done (Some cs)
             end);
    match g with
    | None => Done cs
    | Some cs1 =>
        (* pseudo John and Ellis, lines 574-650 *)
        do p <- findPseudoJohnAndEllisCover srt x krow b;
        do cs2 <- (match p with
                   | Some (cover, rem) =>
                       if Nat.leb n longRow && negb (weight cover - b <? eps) then
                         let frac := filter (fun e => x (fst e) <? 1) cover in
                         let ones_ := filter (fun e => negb (x (fst e) <? 1)) cover in
                         do c <- liftUpDown srt fuel x b fl frac ones_ rem;
                         Done (add_opt cs1 c)
                       else Done cs1
                   | None => Done cs1
                   end);
        (* John and Ellis, lines 652-676 *)
        do cs3 <- (if expensive || Nat.leb n longRow then
                     do je <- findJohnAndEllisCover srt x krow b;
                     match je with
                     | Some (frac, ones_, rem) =>
                         do c <- liftUpDown srt fuel x b fl frac ones_ rem;
                         Done (add_opt cs2 c)
                     | None => Done cs2
                     end
                   else Done cs2);
        (* most violated cover, lines 678-737 *)
        do mv <- (if Nat.leb n 20 then findExactMostViolatedMinCover srt fuel x krow b
                  else findLPMostViolatedMinCover srt x krow b);
        match mv with
        | Some (cover, rem) =>
            do c <- liftAndUncomplementAndAdd b fl cover rem;
            Done (add_opt cs3 c)
        | None => Done cs3
        end
    end.
End Row.

(** CglTreeInfo fields used: inTree, pass *)
Record kinfo := KInfo { ki_tree : bool; ki_pass : nat }.
(** The object: maxInKnapsack_, expensiveCuts_ and rowsToCheck_ *)
Record kgen := KGen { kg_max : nat; kg_expensive : bool; kg_rows : option (list Z) }.
(** default constructor, lines 3636-3659 *)
Definition kg_new : kgen := KGen 50 false None.

(** Status of a column: -1, -2, -10 or a row, lines 84-101. *)
Inductive status := SFree | SBinary | SFixed | SRow (r : nat).
Record scan_state := Scan {
  s_vub : nat -> status; s_vlb : nat -> status;
  (* per row: Some c = variable bound on column c, None = ordinary; skipped rows *)
  s_kind : nat -> option nat; s_skip : nat -> bool;
  s_coef : nat -> Q;                       (* vubValue / vlbValue *)
  s_lo : nat -> option Q; s_hi : nat -> option Q   (* effectiveLower / Upper *)
}.
Definition updf {A} (f : nat -> A) (i : nat) (v : A) : nat -> A := fun j => if Nat.eqb j i then v else f j.

(** getColType(true) == 1 (OSI): an integer column whose bounds are 0 or 1 *)
Definition zero_one_bound (b : option Q) : bool :=
  match b with Some q => Qeq_bool q 0 || Qeq_bool q 1 | None => false end.
Definition col_binary (m : mip) (j : nat) : bool :=
  m_int m j && zero_one_bound (m_clo m j) && zero_one_bound (m_chi m j).
Definition col_fixed (m : mip) (j : nat) : bool :=
  match m_clo m j, m_chi m j with Some l, Some u => Qeq_bool l u | _, _ => false end.
Definition col_open (m : mip) (j : nat) : bool :=
  match m_clo m j, m_chi m j with Some l, Some u => l <? u | _, _ => true end.
Definition col_status (m : mip) (j : nat) : status :=
  if col_fixed m j then SFixed else if col_binary m j then SBinary else SFree.

(** lines 80-86 *)
Definition clip (m : mip) (x : nat -> Q) (j : nat) : Q :=
  match m_chi m j with
  | Some u => if u <? x j then u
              else match m_clo m j with Some l => if x j <? l then l else x j | None => x j end
  | None => match m_clo m j with Some l => if x j <? l then l else x j | None => x j end
  end.
Definition big20 : Q := 100000000000000000000.
Definition above20 (b : option Q) : bool := match b with Some q => big20 <? q | None => true end.
Definition below20 (b : option Q) : bool := match b with Some q => q <? - big20 | None => true end.

(** counters of the row scan, lines 127-203 *)
Record tally := Tally { t_bin : nat; t_cont : nat; t_col : option nat; t_sum : Q; t_val : Q; t_fix : Q }.
Definition tally_step (m : mip) (x : nat -> Q) (s : scan_state) (mult : Q) (t : tally) (e : item) : tally :=
  let j := fst e in let a := snd e in
  if col_open m j then
    let sum := t_sum t + x j * a in
    let bin1 := match s_vub s j with SBinary => 0 <? a * mult | _ => false end in
    let bin2 := match s_vlb s j with SBinary => a * mult <? 0 | _ => false end in
    if bin1 || bin2 then Tally (S (t_bin t)) (t_cont t) (t_col t) sum (t_val t) (t_fix t)
    else match s_vub s j with
         | SFree => Tally (t_bin t) (S (t_cont t)) (Some j) sum a (t_fix t)
         | _ => Tally (t_bin t) (S (t_cont t)) None sum (t_val t) (t_fix t)
         end
  else
    let l := match m_clo m j with Some l => l | None => 0 end in
    Tally (t_bin t) (t_cont t) (t_col t) (t_sum t) (t_val t) (t_fix t + l * a).
Definition near (a : Q) (b : option Q) (tol : Q) : bool :=
  match b with Some q => Qabs (a - q) <? tol | None => false end.
Definition shift (b : option Q) (d : Q) : option Q :=
  match b with Some q => Some (q - d) | None => None end.

(** one row of the scan, lines 114-250 *)
Definition scan_row (m : mip) (x : nat -> Q) (tol : Q) (maxk : nat) (s : scan_state) (ir : nat * row) : scan_state :=
  let '(i, r) := ir in
  let mult : Q := if above20 (r_hi r) then - (1) else if below20 (r_lo r) then 1 else 0 in
  let t := fold_left (tally_step m x s mult) (r_form r) (Tally 0 0 None 0 0 0) in
  let up := shift (r_hi r) (t_fix t) in
  let lo := shift (r_lo r) (t_fix t) in
  let hiok := near (t_sum t) up tol in
  let look := near (t_sum t) lo tol in
  let possible := hiok || look in
  let few := Nat.leb (t_bin t + t_cont t) maxk in
  let hi' := updf (s_hi s) i (if hiok then up else None) in
  let lo' := updf (s_lo s) i (if look then lo else None) in
  if possible && negb (Nat.eqb (t_bin t) 0) && few then
    match t_col t with
    | Some c =>
        if Nat.eqb (t_cont t) 1 && Nat.eqb (t_bin t) 1 then
          let upper := 0 <? mult * t_val t in
          Scan (if upper then updf (s_vub s) c (SRow i) else s_vub s)
               (if upper then s_vlb s else updf (s_vlb s) c (SRow i))
               (updf (s_kind s) i (Some c)) (s_skip s)
               (updf (s_coef s) i (t_val t)) lo' hi'
        else Scan (s_vub s) (s_vlb s) (s_kind s)
                  (updf (s_skip s) i (negb (Nat.ltb 1 (t_bin t)))) (s_coef s) lo' hi'
    | None => Scan (s_vub s) (s_vlb s) (s_kind s)
                   (updf (s_skip s) i (negb (Nat.ltb 1 (t_bin t)))) (s_coef s) lo' hi'
    end
  else Scan (s_vub s) (s_vlb s) (s_kind s)
            (updf (s_skip s) i (negb possible || negb few)) (s_coef s) lo' hi'.
Definition indexed {A} (l : list A) : list (nat * A) := combine (seq 0 (length l)) l.
Definition scan_rows (m : mip) (x : nat -> Q) (tol : Q) (maxk : nat) : scan_state :=
  fold_left (scan_row m x tol maxk) (indexed (m_rows m))
    (Scan (col_status m) (col_status m) (fun _ => None) (fun _ => false) (fun _ => 0)
          (fun _ => None) (fun _ => None)).

(** Substituting variable bounds, lines 338-490.  [dsign] is sign[itry]. *)
Definition finite20 (b : option Q) (low : bool) : option Q :=
  match b with
  | Some q => if low then if - big20 <? q then Some q else None
              else if q <? big20 then Some q else None
  | None => None
  end.
(** lines 362-398 (and 399-435 for the other table): the row to use, its
    right-hand side and the coefficient of the column in it *)
Definition pick (s : scan_state) (i j : nat) (pos : bool) (st : status) : option (nat * Q * Q) :=
  match st with
  | SRow k =>
      if (match s_kind s k with Some c => Nat.eqb c j | None => false end) && negb (Nat.eqb k i) then
        let vb := s_coef s k in
        let want_low := if pos then 0 <? vb else vb <? 0 in
        let want_high := if pos then vb <? 0 else 0 <? vb in
        match finite20 (s_lo s k) true, finite20 (s_hi s k) false with
        | Some l, Some h => if want_low then Some (k, l, vb) else if want_high then Some (k, h, vb) else None
        | Some l, None => if want_low then Some (k, l, vb) else None
        | None, Some h => if want_high then Some (k, h, vb) else None
        | None, None => None
        end
      else None
  | _ => None
  end.
(** element -= change, or a new element, lines 452-466 *)
Fixpoint add_to (v : list item) (j : nat) (d : Q) : list item :=
  match v with
  | [] => [(j, d)]
  | (k, a) :: v' => if Nat.eqb k j then (k, a + d) :: v' else (k, a) :: add_to v' j d
  end.
Fixpoint set_zero (v : list item) (j : nat) : list item :=
  match v with
  | [] => []
  | (k, a) :: v' => if Nat.eqb k j then (k, 0) :: v' else (k, a) :: set_zero v' j
  end.
Definition binaries_of (m : mip) (s : scan_state) (k : nat) : list item :=
  filter (fun e => match s_vub s (fst e) with SBinary => true | _ => false end)
         (r_form (nth k (m_rows m) (Row [] None None))).
Definition subst_step (m : mip) (s : scan_state) (i : nat) (dsign : Q)
  (st : list item * Q * bool) (e : item) : list item * Q * bool :=
  let '(v, b, rep) := st in
  let j := fst e in
  let a := match find (fun f => Nat.eqb (fst f) j) v with Some f => snd f | None => 0 end in
  let pos := 0 <? dsign * a in
  let choice := match pick s i j pos (s_vlb s j) with
                | Some c => Some c
                | None => pick s i j pos (s_vub s j)
                end in
  match choice with
  | None => st
  | Some (k, rhs, vb) =>
      let sc := a / vb in
      (fold_left (fun u f => add_to u (fst f) (- (sc * snd f))) (binaries_of m s k) (set_zero v j),
       b - sc * rhs, true)
  end.
Definition drop_fixed (s : scan_state) (v : list item) : list item :=
  map (fun e => match s_vub s (fst e) with SFixed => (fst e, 0) | _ => e end) v.
(** None: nothing replaced, or too long *)
Definition substituted (m : mip) (s : scan_state) (maxk i : nat) (dsign : Q) (v : list item) (b : Q)
  : option (list item * Q) :=
  let v0 := drop_fixed s v in
  let '(v1, b1, rep) := fold_left (subst_step m s i dsign) v (v0, b, false) in
  if rep then
    let v2 := filter (fun e => negb (Qeq_bool (snd e) 0)) v1 in
    if Nat.leb (length v2) maxk then Some (v2, b1) else None
  else None.

Definition within20 (b : option Q) : option Q :=
  match b with Some q => if big20 <? Qabs q then None else Some q | None => None end.
(** the four tries of a row, lines 308-490: form, right-hand side, sense *)
Definition tries (m : mip) (s : scan_state) (maxk i : nat) (has_vub : bool) (r : row)
  : list (list item * Q * bool) :=
  let v := r_form r in
  let low := within20 (s_lo s i) in
  let high := within20 (s_hi s i) in
  (match low, r_lo r with Some _, Some l => [(v, l, false)] | _, _ => [] end) ++
  (match high, r_hi r with Some _, Some h => [(v, h, true)] | _, _ => [] end) ++
  (if has_vub then
     (match low with
      | Some l => match substituted m s maxk i (- (1)) v l with
                  | Some (v', b') => [(v', b', false)] | None => [] end
      | None => [] end) ++
     (match high with
      | Some h => match substituted m s maxk i 1 v h with
                  | Some (v', b') => [(v', b', true)] | None => [] end
      | None => [] end)
   else []).

Definition cuts := (list rowcut * list colcut)%type.
Definition one_try (srt : forall A : Type, (A -> Q) -> list A -> list A) (fuel : nat) (m : mip) (x : nat -> Q)
  (expensive : bool) (longRow : nat) (cs : cuts) (t : list item * Q * bool) : outcome cuts :=
  let '(v, b, less) := t in
  let '(cc, k) := deriveAKnapsack m x less b v in
  match k with
  | None => Done (fst cs, snd cs ++ cc)
  | Some k => do rcs <- one_knapsack srt fuel expensive longRow k (fst cs); Done (rcs, snd cs ++ cc)
  end.
Definition generateCuts (srt : forall A : Type, (A -> Q) -> list A -> list A) (fuel : nat)
  (g : kgen) (m : mip) (sol : nat -> Q) (info : kinfo) (cs : cuts) : outcome cuts :=
  let x := clip m sol in
  let root := negb (ki_tree info) in
  let first := Nat.eqb (ki_pass info) 0 in
  let tol : Q := if root then if first then 10000 else 1 # 10 else 1 # 100000 in
  let s := scan_rows m x tol (kg_max g) in
  let nrows := length (m_rows m) in
  let longRow := if root then if first then 30%nat else 25%nat else 20%nat in
  let has_vub := existsb (fun i => match s_kind s i with Some _ => true | None => false end) (seq 0 nrows) in
  let check := match kg_rows g with
               | None => seq 0 nrows
               | Some l => map Z.to_nat (filter (fun z => (0 <=? z)%Z && (z <? Z.of_nat nrows)%Z) l)
               end in
  ofold (fun cs i =>
           if s_skip s i then Done cs
           else ofold (one_try srt fuel m x (kg_expensive g) longRow)
                  (tries m s (kg_max g) i has_vub (nth i (m_rows m) (Row [] None None))) cs)
        check cs.
