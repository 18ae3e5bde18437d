(** * CglPreProcess::tightenPrimalBounds

    CglPreProcess.cpp:4640-5371, called without semicontinuous columns, and the
    static function tighten, 5375-5601 (the same numbering as in the file, the
    function starts at 5374).  CBC_PREPROCESS_EXPERIMENT is not defined.

    Numbers are exact.  Bounds and sides beyond 1e20 are infinite ([None]), so
    that the tests against 1e20, 1e30 and 1e100 are tests for [None].  The pointers
    got from the solver show what was set since (as with OsiClp).  Zeros stored in
    the matrix are not covered: the code divides by them. *)

From Coq Require Export Qabs.
From Verif Require Export Base.
Local Open Scope Q_scope.

Definition t12 : Q := inject_Z (10 ^ 12).
Definition t15 : Q := inject_Z (10 ^ 15).
Definition t31 : Q := inject_Z (10 ^ 31).
Definition te4 : Q := 1 # 10000.
Definition te5 : Q := 1 # 100000.
Definition te7 : Q := 1 # 10000000.
Definition te8 : Q := 1 # 100000000.
Definition te9 : Q := 1 # 1000000000.
Definition te12 : Q := 1 # 1000000000000.

Definition set_at {A} (f : nat -> A) (j : nat) (a : A) : nat -> A :=
  fun k => if Nat.eqb k j then a else f k.
(** Comparisons of a finite number with a bound *)
Definition above_lo (lo : option Q) (q : Q) : bool := match lo with Some l => l <? q | None => true end.
Definition below_hi (hi : option Q) (q : Q) : bool := match hi with Some u => q <? u | None => true end.

(** Rows without sides are passed over *)
Definition no_sides (rl ru : option Q) : bool := match rl, ru with None, None => true | _, _ => false end.

(** ** tighten *)
(** colUpper < 1.0e12, colLower > -1.0e12 *)
Definition fin_hi (hi : option Q) : option Q :=
  match hi with Some u => if u <? t12 then Some u else None | None => None end.
Definition fin_lo (lo : option Q) : option Q :=
  match lo with Some l => if - t12 <? l then Some l else None | None => None end.
Record t1 := {
  a_lo : nat -> option Q; a_hi : nat -> option Q;      (* colLower, colUpper *)
  a_rl : nat -> option Q; a_ru : nat -> option Q;      (* rowLower, rowUpper *)
  a_change : nat; a_inf : nat; a_stop : bool           (* nchange, ninfeas, break of 5453 *)
}.
(** The largest contribution of an entry, [None] if infinite *)
Definition top1 (s : t1) (e : nat * Q) : option Q :=
  match (if 0 <? snd e then fin_hi (a_hi s (fst e)) else fin_lo (a_lo s (fst e))) with
  | Some q => Some (q * snd e) | None => None end.
Definition bottom1 (s : t1) (e : nat * Q) : option Q :=
  match (if 0 <? snd e then fin_lo (a_lo s (fst e)) else fin_hi (a_hi s (fst e))) with
  | Some q => Some (q * snd e) | None => None end.
Definition infinite (l : list (option Q)) : nat :=
  length (filter (fun o => match o with None => true | _ => false end) l).
Definition finite_sum (l : list (option Q)) : Q :=
  fold_right (fun o s => match o with Some q => q + s | None => s end) 0 l.
Definition set_lo1 (tol : Q) (s : t1) (j : nat) (b : Q) : t1 :=
  {| a_lo := set_at (a_lo s) j (Some b); a_hi := a_hi s; a_rl := a_rl s; a_ru := a_ru s;
     a_change := S (a_change s);
     a_inf := match a_hi s j with
              | Some u => if (u - b <=? tol) && (u - b <? - (100 * tol)) then S (a_inf s) else a_inf s
              | None => a_inf s end;
     a_stop := a_stop s |}.
Definition set_hi1 (tol : Q) (s : t1) (j : nat) (b : Q) : t1 :=
  {| a_lo := a_lo s; a_hi := set_at (a_hi s) j (Some b); a_rl := a_rl s; a_ru := a_ru s;
     a_change := S (a_change s);
     a_inf := match a_lo s j with
              | Some l => if (b - l <=? tol) && (b - l <? - (100 * tol)) then S (a_inf s) else a_inf s
              | None => a_inf s end;
     a_stop := a_stop s |}.
(** 5468-5519 and 5525-5566: [side] is the side of the row, [sum] dmaxup or
    dmaxdown; a positive coefficient gives a lower bound with [up]. *)
Definition entry1 (tol : Q) (up : bool) (side sum : Q) (s : t1) (e : nat * Q) : t1 :=
  let (j, a) := e in
  if Bool.eqb up (0 <? a) then
    match fin_hi (a_hi s j) with
    | Some u =>
        let b := u + (side - sum) / a in
        if above_lo (option_map (fun l => l + te8) (a_lo s j)) b then set_lo1 tol s j b else s
    | None => s
    end
  else
    match fin_lo (a_lo s j) with
    | Some l =>
        let b := l + (side - sum) / a in
        if below_hi (option_map (fun u => u - te8) (a_hi s j)) b then set_hi1 tol s j b else s
    | None => s
    end.
(** 5400-5569 *)
Definition row1 (tol : Q) (odd : bool) (forms : nat -> vec) (s : t1) (i : nat) : t1 :=
  if a_stop s || no_sides (a_rl s i) (a_ru s i) then s else
      let rl := a_rl s i in
      let ru := a_ru s i in
      let v := forms i in
      let tops := map (top1 s) v in
      let bots := map (bottom1 s) v in
      let iu := negb (Nat.eqb (infinite tops) 0) in
      let il := negb (Nat.eqb (infinite bots) 0) in
      let up := if iu then t31 else finite_sum tops in
      let dn := if il then - t31 else finite_sum bots in
      if match ru with Some u => up <=? u + tol | None => true end &&
         match rl with Some l => l - tol <=? dn | None => true end
      then {| a_lo := a_lo s; a_hi := a_hi s; a_rl := set_at (a_rl s) i None;
              a_ru := set_at (a_ru s) i None; a_change := S (a_change s);
              a_inf := a_inf s; a_stop := false |}
      else if match rl with Some l => up <? l - tol | None => false end ||
              match ru with Some u => u + tol <? dn | None => false end
      then {| a_lo := a_lo s; a_hi := a_hi s; a_rl := a_rl s; a_ru := a_ru s;
              a_change := a_change s; a_inf := S (a_inf s); a_stop := true |}
      else
        let both := negb iu && negb il &&
          match rl with Some l => 0 <? l | None => false end &&
          match ru with Some u => u <? t15 | None => false end in
        let iu := iu || (both && odd) in
        let il := il || (both && negb odd) in
        let s1 := match rl with
                  | Some l => if negb iu && (- t15 <? l) then fold_left (entry1 tol true l up) v s else s
                  | None => s end in
        match ru with
        | Some u => if negb il && (u <? t15) then fold_left (entry1 tol false u dn) v s1 else s1
        | None => s1 end.
(** 5571-5595 *)
Definition round1 (ints : nat -> bool) (s : t1) (j : nat) : t1 :=
  if ints j then
    let hi := option_map (fun u => qfloor (u + te4)) (a_hi s j) in
    let lo := option_map (fun l => qceil (l - te4)) (a_lo s j) in
    let open := match a_lo s j, a_hi s j with Some l, Some u => te8 <? u - l | _, _ => true end in
    let less := match hi, a_hi s j with Some h, Some u => h <? u | _, _ => false end in
    let more := match lo, a_lo s j with Some h, Some l => l <? h | _, _ => false end in
    {| a_lo := set_at (a_lo s) j lo; a_hi := set_at (a_hi s) j hi; a_rl := a_rl s; a_ru := a_ru s;
       a_change := (a_change s + (if open && less then 1 else 0) + (if open && more then 1 else 0))%nat;
       a_inf := match lo, hi with Some l, Some u => if u <? l then S (a_inf s) else a_inf s
                | _, _ => a_inf s end;
       a_stop := a_stop s |}
  else s.
Definition pass1 (tol : Q) (odd : bool) (ints : nat -> bool) (n nr : nat) (forms : nat -> vec) (s : t1) : t1 :=
  let s0 := {| a_lo := a_lo s; a_hi := a_hi s; a_rl := a_rl s; a_ru := a_ru s;
               a_change := 0; a_inf := a_inf s; a_stop := false |} in
  fold_left (round1 ints) (seq 0 n) (fold_left (row1 tol odd forms) (seq 0 nr) s0).
Fixpoint tighten (maxpass : nat) (tol : Q) (odd : bool) (ints : nat -> bool) (n nr : nat)
    (forms : nat -> vec) (s : t1) : t1 :=
  match maxpass with
  | O => s
  | S k =>
      let s1 := pass1 tol odd ints n nr forms s in
      if Nat.eqb (a_change s1) 0 || negb (Nat.eqb (a_inf s1) 0) then s1
      else tighten k tol (negb odd) ints n nr forms s1
  end.

(** ** The second stage *)
Record t2 := {
  b_lo : nat -> option Q; b_hi : nat -> option Q;      (* newLower, newUpper *)
  b_rl : nat -> option Q; b_ru : nat -> option Q;      (* the sides in the solver *)
  b_change : nat; b_inf : nat; b_stop : bool
}.
(** What is known of one row: infiniteUpper, maximumUp, infiniteLower, maximumDown *)
Record wk := { w_s : t2; w_iu : nat; w_mu : Q; w_il : nat; w_md : Q }.
Definition top2 (s : t2) (e : nat * Q) : option Q :=
  match (if 0 <? snd e then b_hi s (fst e) else b_lo s (fst e)) with
  | Some q => Some (q * snd e) | None => None end.
Definition bottom2 (s : t2) (e : nat * Q) : option Q :=
  match (if 0 <? snd e then b_lo s (fst e) else b_hi s (fst e)) with
  | Some q => Some (q * snd e) | None => None end.
(** relax if original was large *)
Definition slack (sum : Q) : Q := if inject_Z (10 ^ 8) <? Qabs sum then te12 * Qabs sum else 0.
Definition set_lo2 (tol : Q) (s : t2) (j : nat) (b : Q) : t2 :=
  {| b_lo := set_at (b_lo s) j (Some b); b_hi := b_hi s; b_rl := b_rl s; b_ru := b_ru s;
     b_change := b_change s;
     b_inf := match b_hi s j with
              | Some u => if u - b <? - (100 * tol) then S (b_inf s) else b_inf s
              | None => b_inf s end;
     b_stop := b_stop s |}.
Definition set_hi2 (tol : Q) (s : t2) (j : nat) (b : Q) : t2 :=
  {| b_lo := b_lo s; b_hi := set_at (b_hi s) j (Some b); b_rl := b_rl s; b_ru := b_ru s;
     b_change := b_change s;
     b_inf := match b_lo s j with
              | Some l => if b - l <? - (100 * tol) then S (b_inf s) else b_inf s
              | None => b_inf s end;
     b_stop := b_stop s |}.
(** The new lower bound of a column: 4876-4911 with a positive coefficient, the
    lower side and the upper sum, 4996-5030 with a negative one, the upper side and
    the lower sum.  An infinite bound that is counted is the column's own. *)
Definition lower2 (tol side : Q) (w : wk) (j : nat) (a : Q) : outcome (wk * bool) :=
  let s := w_s w in
  let '(cnt, sum) := if 0 <? a then (w_iu w, w_mu w) else (w_il w, w_md w) in
  do nb <- match cnt, b_hi s j with
           | O, None => Aborts                       (* assert(nowUpper < large2) *)
           | O, Some u => Done (Some (u + (side - sum) / a - slack sum))
           | S O, None => Done (Some ((side - sum) / a - slack sum))
           | _, _ => Done None
           end;
  match nb with
  | Some b =>
      if above_lo (option_map (fun l => l + te12) (b_lo s j)) b then
        let '(dec, now) := match b_lo s j with None => (1%nat, 0) | Some l => (0%nat, l) end in
        let d := (b - now) * a in
        Done (if 0 <? a
              then {| w_s := set_lo2 tol s j b; w_iu := w_iu w; w_mu := w_mu w;
                      w_il := (w_il w - dec)%nat; w_md := w_md w + d |}
              else {| w_s := set_lo2 tol s j b; w_iu := (w_iu w - dec)%nat; w_mu := w_mu w + d;
                      w_il := w_il w; w_md := w_md w |}, true)
      else Done (w, false)
  | None => Done (w, false)
  end.
(** The new upper bound: 4912-4947 and 4961-4995 *)
Definition upper2 (tol side : Q) (w : wk) (j : nat) (a : Q) : outcome (wk * bool) :=
  let s := w_s w in
  let '(cnt, sum) := if 0 <? a then (w_il w, w_md w) else (w_iu w, w_mu w) in
  do nb <- match cnt, b_lo s j with
           | O, None => Aborts
           | O, Some l => Done (Some (l + (side - sum) / a + slack sum))
           | S O, None => Done (Some ((side - sum) / a + slack sum))
           | _, _ => Done None
           end;
  match nb with
  | Some b =>
      if below_hi (option_map (fun u => u - te12) (b_hi s j)) b then
        let '(dec, now) := match b_hi s j with None => (1%nat, 0) | Some u => (0%nat, u) end in
        let d := (b - now) * a in
        Done (if 0 <? a
              then {| w_s := set_hi2 tol s j b; w_iu := (w_iu w - dec)%nat; w_mu := w_mu w + d;
                      w_il := w_il w; w_md := w_md w |}
              else {| w_s := set_hi2 tol s j b; w_iu := w_iu w; w_mu := w_mu w;
                      w_il := (w_il w - dec)%nat; w_md := w_md w + d |}, true)
      else Done (w, false)
  | None => Done (w, false)
  end.
Definition note2 (w : wk) (c : bool) : wk :=
  if c then
    let s := w_s w in
    {| w_s := {| b_lo := b_lo s; b_hi := b_hi s; b_rl := b_rl s; b_ru := b_ru s;
                 b_change := S (b_change s); b_inf := b_inf s; b_stop := b_stop s |};
       w_iu := w_iu w; w_mu := w_mu w; w_il := w_il w; w_md := w_md w |}
  else w.
(** 4867-5032 *)
Definition entry2 (tol : Q) (rl ru : option Q) (w : wk) (e : nat * Q) : outcome wk :=
  let (j, a) := e in
  do p <- match rl with
          | Some l => if 0 <? a then lower2 tol l w j a else upper2 tol l w j a
          | None => Done (w, false) end;
  do q <- match ru with
          | Some u => if 0 <? a then upper2 tol u (fst p) j a else lower2 tol u (fst p) j a
          | None => Done (fst p, false) end;
  Done (note2 (fst q) (snd p || snd q)).
(** 4765-5122 *)
Definition row2 (tol : Q) (forms : nat -> vec) (s : t2) (i : nat) : outcome t2 :=
  if b_stop s || no_sides (b_rl s i) (b_ru s i) then Done s else
      let rl := b_rl s i in
      let ru := b_ru s i in
      let v := forms i in
      let tops := map (top2 s) v in
      let bots := map (bottom2 s) v in
      let mu := finite_sum tops + te8 * Qabs (finite_sum tops) in
      let md := finite_sum bots - te8 * Qabs (finite_sum bots) in
      let fu := Nat.eqb (infinite tops) 0 in
      let fl := Nat.eqb (infinite bots) 0 in
      if match ru with Some u => fu && (mu <=? u + tol) | None => true end &&
         match rl with Some l => fl && (l - tol <=? md) | None => true end
      then Done {| b_lo := b_lo s; b_hi := b_hi s; b_rl := set_at (b_rl s) i None;
                   b_ru := set_at (b_ru s) i None; b_change := b_change s;
                   b_inf := b_inf s; b_stop := false |}
      else if match rl with Some l => fu && (mu <? l - 100 * tol) | None => false end ||
              match ru with Some u => fl && (u + 100 * tol <? md) | None => false end
      then Done {| b_lo := b_lo s; b_hi := b_hi s; b_rl := b_rl s; b_ru := b_ru s;
                   b_change := b_change s; b_inf := S (b_inf s); b_stop := true |}
      else
        do w <- ofold (entry2 tol rl ru) v
          {| w_s := s; w_iu := infinite tops; w_mu := mu; w_il := infinite bots; w_md := md |};
        Done (w_s w).
(** 4752-5129; [check] is numberCheck ([None] in the first pass), [total]
    totalTightened *)
Fixpoint passes2 (k : nat) (check : option nat) (tol : Q) (nr : nat) (forms : nat -> vec)
    (total : nat) (s : t2) : outcome (t2 * nat) :=
  match k with
  | O => Done (s, total)
  | S k =>
      do s1 <- ofold (row2 tol forms) (seq 0 nr)
        {| b_lo := b_lo s; b_hi := b_hi s; b_rl := b_rl s; b_ru := b_ru s;
           b_change := 0; b_inf := b_inf s; b_stop := false |};
      let total := (total + b_change s1)%nat in
      let c := match check with None => Nat.div (b_change s1) 16 | Some c => c end in
      if negb (Nat.eqb (b_inf s1) 0) || negb (Nat.ltb c (b_change s1)) then Done (s1, total)
      else passes2 k (Some c) tol nr forms total s1
  end.

(** ** The bounds that are set, 5134-5184 *)
Definition round_half (q : Q) : Q := qfloor (q + (1 # 2)).
Definition off (q : Q) : Q := Qabs (q - round_half q).
Definition tiny (o : option Q) : bool := match o with Some q => Qabs q <? te8 | None => false end.
Definition max_lo (a b : option Q) : option Q :=
  match a, b with Some p, Some q => Some (if q <? p then p else q) | None, o => o | o, None => o end.
Definition min_hi (a b : option Q) : option Q :=
  match a, b with Some p, Some q => Some (if p <? q then p else q) | None, o => o | o, None => o end.
Definition final_lo (int : bool) (clo lo hi : option Q) : option Q :=
  if int then option_map (fun l => if off l <? te5 then round_half l else qceil l) lo
  else if tiny hi && tiny lo then Some 0
  else max_lo clo (option_map (fun l => if te9 <? off l then l - te5 else round_half l) lo).
Definition final_hi (int : bool) (chi lo hi : option Q) : option Q :=
  if int then option_map (fun u => if off u <? te5 then round_half u else qfloor u) hi
  else if tiny hi && tiny lo then Some 0
  else min_hi chi (option_map (fun u => if te9 <? off u then u + te5 else round_half u) hi).
Definition open2 (lo hi : option Q) : bool :=
  match lo, hi with Some l, Some u => l <? u | _, _ => true end.
(** numberInfeasible added for a column *)
Definition bad_col (int : bool) (clo chi lo hi : option Q) : bool :=
  if open2 clo chi then
    int && match final_lo int clo lo hi, final_hi int chi lo hi with
           | Some l, Some u => u <? l | _, _ => false end
  else match clo, chi with Some l, Some u => u <? l - te7 | _, _ => false end.

(** ** Large coefficients, 5185-5345 *)
Definition top3 (lo hi : nat -> option Q) (e : nat * Q) : option Q :=
  match (if 0 <? snd e then hi (fst e) else lo (fst e)) with
  | Some q => Some (q * snd e) | None => None end.
Definition bottom3 (lo hi : nat -> option Q) (e : nat * Q) : option Q :=
  match (if 0 <? snd e then lo (fst e) else hi (fst e)) with
  | Some q => Some (q * snd e) | None => None end.
Definition wide (lo hi : nat -> option Q) (e : nat * Q) : bool := open2 (lo (fst e)) (hi (fst e)).
Definition largest (v : vec) : Q :=
  fold_right (fun e m => if m <? Qabs (snd e) then Qabs (snd e) else m) 0 v.
Definition fixed_sum (lo hi : nat -> option Q) (v : vec) : Q :=
  fold_right (fun e s => if wide lo hi e then s
                         else match lo (fst e) with Some l => l * snd e + s | None => s end) 0 v.
(** [gap]; 0 if nothing is to be done *)
Definition gap3 (lo hi : nat -> option Q) (v : vec) (rl ru : option Q) : Q :=
  let w := filter (wide lo hi) v in
  let tops := map (top3 lo hi) w in
  let bots := map (bottom3 lo hi) w in
  let mu := finite_sum tops + fixed_sum lo hi v in
  let md := finite_sum bots + fixed_sum lo hi v in
  let fu := Nat.eqb (infinite tops) 0 in
  let fl := Nat.eqb (infinite bots) 0 in
  if match rl with Some l => (md <? l) && (l - md <? largest w) | None => false end &&
     match ru with Some u => (mu <=? u) && fu | None => true end
  then match rl with Some l => if fl then l - md else 0 | None => 0 end
  else if match ru with Some u => (u <? mu) && (mu - u <? largest w) | None => false end &&
          match rl with Some l => (l <=? md) && fl | None => true end
  then match ru with Some u => if fu then - (mu - u) else 0 | None => 0 end
  else 0.
(** The new coefficient, if it is changed *)
Definition new_coef (ints : nat -> bool) (lo hi : nat -> option Q) (gap : Q) (e : nat * Q) : option Q :=
  let (j, a) := e in
  match lo j, hi j with
  | Some l, Some u =>
      let d := u - l in
      if (0 <? d) && (d <=? 1) && (0 <? a * gap) && ints j then
        let b := if Qabs gap <? Qabs (a * d) then gap / d else a in
        if te12 <? Qabs (a - b) then Some b else None
      else None
  | _, _ => None
  end.
Definition shift (o : option Q) (q : Q) : option Q := option_map (fun b => b - q) o.
(** One entry; the value used for the side is the lower bound, since the signs of
    coefficient and gap agree *)
Definition entry3 (ints : nat -> bool) (lo hi : nat -> option Q) (gap : Q) (r : row * nat) (e : nat * Q)
    : row * nat :=
  let '(Row v rl ru, k) := r in
  match new_coef ints lo hi gap e with
  | Some b =>
      let q := match lo (fst e) with Some l => l * (snd e - b) | None => 0 end in
      (Row (v ++ [(fst e, b)]) (shift rl q) (shift ru q), S k)
  | None => (Row (v ++ [e]) rl ru, k)
  end.
Definition row3 (ints : nat -> bool) (lo hi : nat -> option Q) (v : vec) (rl ru : option Q) : row * nat :=
  let gap := gap3 lo hi v rl ru in
  if negb (no_sides rl ru) && (te8 <? Qabs gap)
  then fold_left (entry3 ints lo hi gap) v (Row [] rl ru, 0%nat)
  else (Row v rl ru, 0%nat).

(** ** tightenPrimalBounds *)
Section Run.
Variable srt : vec -> vec.      (* CoinSort_2 on the elements of a row *)
Definition forms_of (m : mip) (i : nat) : vec :=
  srt (r_form (nth i (m_rows m) (Row [] None None))).
Definition side_lo (m : mip) (i : nat) : option Q := r_lo (nth i (m_rows m) (Row [] None None)).
Definition side_hi (m : mip) (i : nat) : option Q := r_hi (nth i (m_rows m) (Row [] None None)).
Definition stage1 (m : mip) (tol : Q) : t1 :=
  tighten 20 tol true (m_int m) (m_ncols m) (length (m_rows m)) (forms_of m)
    {| a_lo := m_clo m; a_hi := m_chi m; a_rl := side_lo m; a_ru := side_hi m;
       a_change := 0; a_inf := 0; a_stop := false |}.
(** 4723-4740 *)
Definition lo1 (m : mip) (s : t1) (j : nat) : option Q := max_lo (m_clo m j) (a_lo s j).
Definition hi1 (m : mip) (s : t1) (j : nat) : option Q := min_hi (m_chi m j) (a_hi s j).
Definition freed (s : t1) (i : nat) : bool :=
  no_sides (a_rl s i) (a_ru s i).
Definition start2 (m : mip) (s : t1) : t2 :=
  {| b_lo := lo1 m s; b_hi := hi1 m s;
     b_rl := fun i => if freed s i then None else side_lo m i;
     b_ru := fun i => if freed s i then None else side_hi m i;
     b_change := 0; b_inf := 0; b_stop := false |}.
Definition indexed (m : mip) : list nat := seq 0 (length (m_rows m)).
Definition tighten_primal (m : mip) (tol : Q) : outcome (mip * Z) :=
  let s1 := stage1 m tol in
  let clo := lo1 m s1 in
  let chi := hi1 m s1 in
  do p <- passes2 10 None tol (length (m_rows m)) (forms_of m) 0 (start2 m s1);
  let (s, total) := p in
  let sides := fun i => Row (r_form (nth i (m_rows m) (Row [] None None))) (b_rl s i) (b_ru s i) in
  let fail := fun k => Done ({| m_ncols := m_ncols m; m_rows := map sides (indexed m);
                                m_clo := clo; m_chi := chi; m_int := m_int m |}, (- Z.of_nat k)%Z) in
  if negb (Nat.eqb (b_inf s) 0) then fail (b_inf s)
  else
    let bad := length (filter (fun j => bad_col (m_int m j) (clo j) (chi j) (b_lo s j) (b_hi s j))
                         (seq 0 (m_ncols m))) in
    if negb (Nat.eqb bad 0) then fail bad
    else
      let lo := fun j => if open2 (clo j) (chi j) then final_lo (m_int m j) (clo j) (b_lo s j) (b_hi s j)
                         else b_lo s j in
      let hi := fun j => if open2 (clo j) (chi j) then final_hi (m_int m j) (chi j) (b_lo s j) (b_hi s j)
                         else b_hi s j in
      let rows := map (fun i => row3 (m_int m) lo hi (forms_of m i) (b_rl s i) (b_ru s i)) (indexed m) in
      let n := fold_right (fun r k => (snd r + k)%nat) 0%nat rows in
      let free := length (filter (fun i => no_sides (b_rl s i) (b_ru s i)) (indexed m)) in
      Done ({| m_ncols := m_ncols m;
               m_rows := if Nat.eqb n 0 then map sides (indexed m) else map fst rows;
               m_clo := fun j => if open2 (clo j) (chi j) then lo j else clo j;
               m_chi := fun j => if open2 (clo j) (chi j) then hi j else chi j;
               m_int := m_int m |},
            (Z.of_nat total + if Nat.eqb free 0 then 0 else 1073741824 + Z.of_nat free)%Z).
End Run.
