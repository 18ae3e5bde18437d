(** * CglPreProcess::cliqueIt and class CglBK

    Set packing rows are replaced by the maximal cliques of their conflict
    graph, CglPreProcess.cpp:9505-9672 (cliqueIt), 9673-10118 (CglBK).
    Numbers are exact; column counts are not capped at 100 (the code only asks
    whether they are below 2). *)

From Verif Require Export Base.
Local Open Scope Q_scope.

Definition no_row : row := Row [] None None.
Definition row_at (m : mip) (i : nat) : row := nth i (m_rows m) no_row.
Definition cols_of (r : row) : list nat := map fst (r_form r).
Definition memb (a : nat) (l : list nat) : bool := existsb (Nat.eqb a) l.

(** upper == 1.0 && lower == 0.0 && isInteger, 9558 and 9788 *)
Definition binary (m : mip) (j : nat) : bool :=
  optq_eqb (m_chi m j) (Some 1) && optq_eqb (m_clo m j) (Some 0) && m_int m j.

(** ** cliqueIt *)

(** First pass, 9545-9579: the type of a row; -1 when it is not a clique.  The
    rows of the second kind, 9580-9608, get type -2, which is never told from
    -1; they are only counted for printing. *)
Definition row_type1 (m : mip) (r : row) : Z :=
  if optq_eqb (r_hi r) (Some 1) &&
     match r_lo r with None => true | Some l => Qle_bool l 0 || Qeq_bool l 1 end
  then
    if forallb (fun e => binary m (fst e) && Qeq_bool (snd e) 1) (r_form r) &&
       Nat.leb (length (r_form r)) 1000
    then match r_lo r with
         | Some l => if 0 <? l then 1%Z else 0%Z
         | None => 0%Z
         end
    else (-1)%Z
  else (-1)%Z.

(** numberInColumn after the first pass, 9566-9570 *)
Definition in_column (m : mip) (types : list Z) (j : nat) : nat :=
  length (filter (fun p : row * Z => (0 <=? snd p)%Z && memb j (cols_of (fst p)))
    (combine (m_rows m) types)).

(** Second pass, 9620-9644 *)
Definition row_type2 (m : mip) (types : list Z) (p : row * Z) : Z :=
  if (0 <=? snd p)%Z then
    if forallb (fun j => Nat.leb 2 (in_column m types j)) (cols_of (fst p))
    then snd p else (-1)%Z
  else snd p.

Definition count_cliques (types : list Z) : nat :=
  length (filter (fun t => (0 <=? t)%Z) types).
Definition count_elements (m : mip) (types : list Z) : nat :=
  fold_right Nat.add 0%nat
    (map (fun p : row * Z =>
       if (0 <=? snd p)%Z
       then (length (r_form (fst p)) * (length (r_form (fst p)) - 1))%nat else 0%nat)
      (combine (m_rows m) types)).

(** ** CglBK *)

Section WithRandom.
Variable rnd : nat -> Q.                          (* randomGenerator, 9732-9734 *)
Variable srt : list (Q * nat) -> list (Q * nat).  (* CoinSort_2, 9752 *)

(** The two entries of a row ordered by column, 9738-9743 and 9761-9776 *)
Definition two_entries (r : row) : option ((nat * Q) * (nat * Q)) :=
  match r_form r with
  | [a; b] => if Nat.ltb (fst b) (fst a) then Some (b, a) else Some (a, b)
  | _ => None
  end.
(** 9736-9750 *)
Definition doubleton_keys (m : mip) : list (Q * nat) :=
  flat_map (fun i =>
    match two_entries (row_at m i) with
    | Some (a, b) =>
        if optq_eqb (r_hi (row_at m i)) (Some 1)
        then [(snd a * rnd (fst a) + snd b * rnd (fst b), i)] else []
    | None => []
    end) (seq 0 (length (m_rows m))).
(** 9757-9781 *)
Definition same_doubleton (m : mip) (i1 i2 : nat) : bool :=
  optq_eqb (r_lo (row_at m i1)) (r_lo (row_at m i2)) &&
  match two_entries (row_at m i1), two_entries (row_at m i2) with
  | Some (a1, b1), Some (a2, b2) =>
      Nat.eqb (fst a1) (fst a2) && Nat.eqb (fst b1) (fst b2) &&
      Qeq_bool (snd a1) (snd a2) && Qeq_bool (snd b1) (snd b2)
  | _, _ => false
  end.
(** 9753-9785: the rows marked as copies of the one before *)
Fixpoint dup_rows (m : mip) (prev : Q * nat) (l : list (Q * nat)) : list nat :=
  match l with
  | [] => []
  | p :: r =>
      (if Qeq_bool (fst p) (fst prev) && same_doubleton m (snd prev) (snd p)
       then [snd p] else []) ++ dup_rows m p r
  end.
Definition dups (m : mip) : list nat :=
  match srt (doubleton_keys m) with [] => [] | p :: r => dup_rows m p r end.

(** The neighbours of a column with the row of each, 9789-9828 *)
Definition neighbours (m : mip) (types : list Z) (d : list nat) (j : nat)
    : list (nat * nat) :=
  if binary m j then
    flat_map (fun i =>
      if memb j (cols_of (row_at m i)) && (0 <=? nth i types (-1)%Z)%Z && negb (memb i d)
      then map (fun c => (c, i))
             (filter (fun c => negb (Nat.eqb c j)) (cols_of (row_at m i)))
      else []) (seq 0 (length (m_rows m)))
  else [].
(** The assertion of 9804 *)
Definition ones_only (m : mip) (types : list Z) (d : list nat) : bool :=
  forallb (fun i => negb (0 <=? nth i types (-1)%Z)%Z || memb i d ||
     forallb (fun e => negb (binary m (fst e)) || Qeq_bool (snd e) 1)
       (r_form (row_at m i))) (seq 0 (length (m_rows m))).

(** An object.  [bk_cand], [bk_not] and [bk_in] are the three parts in use of
    the array candidates_ of length [bk_cap]: entries 0 to numberCandidates_-1,
    firstNot_ to numberPossible_-1, and numberIn_ entries from numberPossible_.
    The mark array is all 0 between the loops that use it and is modelled by
    membership. *)
Record bk := {
  bk_adj : nat -> list (nat * nat);
  bk_type : nat -> Z;
  bk_np : nat;
  bk_cap : nat;
  bk_cand : list nat;
  bk_not : list nat;
  bk_in : list nat
}.
(** What all copies share: dominated_ and cliqueMatrix_. *)
Record shared := { sh_dom : nat -> bool; sh_rows : list (list nat) }.

(** The constructor, 9695-9840.  [nel] is the length of the arrays
    otherColumn_ and originalRow_. *)
Definition new_bk (m : mip) (types : list Z) (nel : nat) : outcome (bk * shared) :=
  let d := dups m in
  let adj := neighbours m types d in
  if negb (ones_only m types d) then Aborts
  else if Nat.ltb nel (fold_right Nat.add 0%nat
            (map (fun j => length (adj j)) (seq 0 (m_ncols m))))
  then Undef OutOfBounds
  else
    let possible := filter (fun j => negb (Nat.eqb (length (adj j)) 0))
                      (seq 0 (m_ncols m)) in
    Done ({| bk_adj := adj; bk_type := fun i => nth i types (-1)%Z;
             bk_np := length possible; bk_cap := 2 * m_ncols m;
             bk_cand := possible; bk_not := []; bk_in := [] |},
          {| sh_dom := fun i => memb i d; sh_rows := [] |}).

(** The copy constructor, 9844-9865: the array is read up to
    2 * numberPossible_. *)
Definition copy_bk (b : bk) : outcome bk :=
  if Nat.leb (2 * bk_np b) (bk_cap b) then
    Done {| bk_adj := bk_adj b; bk_type := bk_type b; bk_np := bk_np b;
            bk_cap := 2 * bk_np b; bk_cand := bk_cand b; bk_not := bk_not b;
            bk_in := bk_in b |}
  else Undef OutOfBounds.
(** The assignment, 9867-9891: the length is taken from the object assigned to,
    before it is overwritten. *)
Definition assign_bk (a b : bk) : outcome bk :=
  if Nat.leb (2 * bk_np a) (bk_cap b) then
    Done {| bk_adj := bk_adj b; bk_type := bk_type b; bk_np := bk_np b;
            bk_cap := 2 * bk_np a; bk_cand := bk_cand b; bk_not := bk_not b;
            bk_in := bk_in b |}
  else Undef OutOfBounds.
(** The default constructor, 9674-9692. *)
Definition empty_bk : bk :=
  {| bk_adj := fun _ => []; bk_type := fun _ => 0%Z; bk_np := 0; bk_cap := 0;
     bk_cand := []; bk_not := []; bk_in := [] |}.

(** A maximal clique, 9917-9950 *)
Definition save_clique (b : bk) (s : shared) : shared :=
  if Nat.ltb 2 (length (bk_in b)) then
    {| sh_dom := fun i => sh_dom s i ||
         ((bk_type b i =? 0)%Z &&
          existsb (fun c => existsb (fun e => Nat.eqb (snd e) i && memb (fst e) (bk_in b))
                              (bk_adj b c)) (bk_in b));
       sh_rows := sh_rows s ++ [bk_in b] |}
  else s.

(** The choice of the pivot, 9962-9993: the number of entries, with
    repetitions, in the list of neighbours that are candidates. *)
Definition weight (b : bk) (v : nat) : nat :=
  length (filter (fun e => memb (fst e) (bk_cand b)) (bk_adj b v)).
Definition better (b : bk) (st : nat * option nat) (v : nat) : nat * option nat :=
  if Nat.ltb (fst st) (weight b v) then (weight b v, Some v) else st.
Definition choose (b : bk) : nat * option nat :=
  let st := fold_left (better b) (rev (bk_not b)) (0%nat, None) in
  if Nat.ltb (fst st) (length (bk_cand b) - 1) || Nat.eqb (fst st) 0
  then fold_left (better b) (bk_cand b) st else st.

(** 9999-10019: the candidates to branch on.  Without a choice the pivot is
    candidates_[0]. *)
Definition branch (b : bk) : outcome (list nat) :=
  let st := choose b in
  do ch <- match snd st with
           | Some v => Done v
           | None => if Nat.eqb (bk_cap b) 0 then Undef OutOfBounds
                     else Done (hd 0%nat (bk_cand b))
           end;
  let temp := if Nat.ltb (fst st) (length (bk_cand b))
    then filter (fun v => negb (memb v (map fst (bk_adj b ch)))) (bk_cand b)
    else [] in
  if Nat.leb (bk_np b + length (bk_in b) + length temp) (bk_cap b)
  then Done temp else Undef OutOfBounds.

(** The copy for one branch, 10022-10059. *)
Definition child (b : bk) (v : nat) : outcome bk :=
  do c <- copy_bk b;
  if Nat.ltb (bk_np b + length (bk_in b)) (bk_cap c) then
    let near := fun w => memb w (map fst (bk_adj b v)) in
    Done {| bk_adj := bk_adj c; bk_type := bk_type c; bk_np := bk_np c;
            bk_cap := bk_cap c; bk_cand := filter near (bk_cand c);
            bk_not := filter near (bk_not c); bk_in := bk_in c ++ [v] |}
  else Undef OutOfBounds.

(** bronKerbosch, 9908-10071.  The object after the call is not used again
    except through what is shared.  Moving v to the other end of the array,
    10066, must find room. *)
Definition with_cand (b : bk) (p x : list nat) : bk :=
  {| bk_adj := bk_adj b; bk_type := bk_type b; bk_np := bk_np b; bk_cap := bk_cap b;
     bk_cand := p; bk_not := x; bk_in := bk_in b |}.
Fixpoint bron (fuel : nat) (b : bk) (s : shared) : outcome shared :=
  match fuel with
  | O => OutOfFuel
  | S f =>
    if Nat.eqb (length (bk_cand b)) 0 && Nat.eqb (length (bk_not b)) 0
    then Done (save_clique b s)
    else
      do temp <- branch b;
      do r <- ofold (fun (st : bk * shared) v =>
          let '(b0, s0) := st in
          let b1 := with_cand b0
            (filter (fun w => negb (Nat.eqb w v)) (bk_cand b0)) (bk_not b0) in
          do c <- child b1 v;
          do s1 <- bron f c s0;
          if Nat.ltb (length (bk_cand b1) + length (bk_not b1)) (bk_np b1)
          then Done (with_cand b1 (bk_cand b1) (v :: bk_not b1), s1)
          else Undef OutOfBounds) temp (b, s);
      Done (snd r)
  end.

(** newSolver, 10073-10117 *)
Definition clique_row (l : list nat) : row :=
  Row (map (fun j => (j, 1)) l) None (Some 1).
Fixpoint keep_rows (dom : nat -> bool) (i : nat) (l : list row) : list row :=
  match l with
  | [] => []
  | r :: t => if dom i then keep_rows dom (S i) t else r :: keep_rows dom (S i) t
  end.
Definition new_solver (m : mip) (s : shared) : option mip :=
  let ndel := length (filter (sh_dom s) (seq 0 (length (m_rows m)))) in
  if Nat.ltb (length (sh_rows s)) ndel then
    Some {| m_ncols := m_ncols m;
            m_rows := keep_rows (sh_dom s) 0 (m_rows m) ++ map clique_row (sh_rows s);
            m_clo := m_clo m; m_chi := m_chi m; m_int := m_int m |}
  else None.

(** cliqueIt, 9505-9672; [needed] is cliquesNeeded, at most 0.0001 in /repo. *)
Definition threshold (m : mip) (needed : Q) : nat :=
  Nat.max 1 (Z.to_nat (Qfloor (needed * inject_Z (Z.of_nat (length (m_rows m)))))).
Definition clique_it (m : mip) (needed : Q) : outcome (option mip) :=
  let t1 := map (row_type1 m) (m_rows m) in
  if Nat.ltb (threshold m needed) (count_cliques t1) then
    let t2 := map (row_type2 m t1) (combine (m_rows m) t1) in
    let nel := count_elements m t2 in
    if Nat.ltb (threshold m needed) (count_cliques t2) &&
       (Z.of_nat nel <? 50000000)%Z && Nat.ltb nel (count_cliques t2 * 100)
    then
      do r <- new_bk m t2 nel;
      do s <- bron (S (bk_np (fst r))) (fst r) (snd r);
      Done (new_solver m s)
    else Done None
  else Done None.

End WithRandom.
