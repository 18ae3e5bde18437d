(** * Lemmas on fixing columns *)
From Verif Require Import Model_ColumnFixing.
Local Open Scope Q_scope.

(** sum over the columns *)
Definition cost (n : nat) (obj : nat -> Q) (x : point) : Q :=
  value (map (fun j => (j, obj j)) (seq 0 n)) x.
(** sum over the rows of y_i times the activity *)
Fixpoint duals (rs : list row) (y : list Q) (x : point) : Q :=
  match rs, y with
  | r :: rs', q :: y' => q * value (r_form r) x + duals rs' y' x
  | _, _ => 0
  end.
(** The optimality conditions of the relaxation: the solution is within its
    bounds and rows, the reduced costs are those of some row prices, and prices and
    reduced costs have the signs of the sides they belong to. *)
Definition optimal (m : mip) (obj : nat -> Q) (dir : Q) (s : lp) : Prop :=
  lp_value s == cost (m_ncols m) obj (lp_sol s) /\
  (forall j, (j < m_ncols m)%nat ->
     (0 < dir * lp_rc s j -> exists l, m_clo m j = Some l /\ lp_sol s j == l) /\
     (dir * lp_rc s j < 0 -> exists u, m_chi m j = Some u /\ lp_sol s j == u)) /\
  exists y, length y = length (m_rows m) /\
    (forall d, cost (m_ncols m) obj d == cost (m_ncols m) (lp_rc s) d + duals (m_rows m) y d) /\
    (forall r q, In (r, q) (combine (m_rows m) y) ->
       (0 < dir * q -> exists l, r_lo r = Some l /\ value (r_form r) (lp_sol s) == l) /\
       (dir * q < 0 -> exists u, r_hi r = Some u /\ value (r_form r) (lp_sol s) == u)).

Lemma value_minus v x z : value v (fun j => x j - z j) == value v x - value v z.
Proof. induction v as [|[j a] v IH]; cbn [value]; [ring|]. rewrite IH. ring. Qed.
Lemma sign_prod a b : (0 < a -> 0 <= b) -> (a < 0 -> b <= 0) -> 0 <= a * b.
Proof.
  intros P N. destruct (Q_dec a 0) as [[L|L]|L].
  - specialize (N L). setoid_replace (a * b) with ((- a) * (- b)) by ring. apply Qmult_le_0_compat; lra.
  - apply Qmult_le_0_compat; [lra|auto].
  - rewrite L. lra.
Qed.
Lemma duals_nonneg dir x z rs y :
  (forall r, In r rs -> row_sat r x) ->
  (forall r q, In (r, q) (combine rs y) ->
       (0 < dir * q -> exists l, r_lo r = Some l /\ value (r_form r) z == l) /\
       (dir * q < 0 -> exists u, r_hi r = Some u /\ value (r_form r) z == u)) ->
  0 <= dir * duals rs y (fun j => x j - z j).
Proof.
  revert y. induction rs as [|r rs IH]; intros [|q y] F H; cbn [duals]; try lra.
  assert (A : 0 <= dir * duals rs y (fun j => x j - z j)).
  { apply IH; [intros; apply F; now right|intros; apply H; now right]. }
  assert (B : 0 <= (dir * q) * value (r_form r) (fun j => x j - z j)).
  { destruct (F r) as [F1 F2]; [now left|]. destruct (H r q) as [H1 H2]; [now left|].
    apply sign_prod; intro L; rewrite value_minus.
    - destruct (H1 L) as (l & E & V). rewrite E in F1. cbn in F1. lra.
    - destruct (H2 L) as (u & E & V). rewrite E in F2. cbn in F2. lra. }
  lra.
Qed.
Lemma sum_ge (rc d : nat -> Q) dir l j : (forall k, In k l -> 0 <= dir * rc k * d k) -> In j l ->
  dir * rc j * d j <= dir * value (map (fun k => (k, rc k)) l) d.
Proof.
  intros H I. assert (A : forall l', (forall k, In k l' -> 0 <= dir * rc k * d k) ->
    0 <= dir * value (map (fun k => (k, rc k)) l') d).
  { induction l' as [|k l' IH]; intro N; cbn [map value]; [lra|].
    pose proof (N k (or_introl eq_refl)). assert (0 <= dir * value (map (fun k => (k, rc k)) l') d) by (apply IH; intros; apply N; now right). lra. }
  induction l as [|k l IH]; [destruct I|]. cbn [map value]. destruct I as [->|I].
  - assert (0 <= dir * value (map (fun k => (k, rc k)) l) d) by (apply A; intros; apply H; now right). lra.
  - pose proof (H k (or_introl eq_refl)).
    assert (dir * rc j * d j <= dir * value (map (fun k => (k, rc k)) l) d) by (apply IH; [intros; apply H; now right|exact I]). lra.
Qed.
(** A point of the relaxation costs at least the value of the relaxation and the
    contribution of any single column. *)
Lemma one_column m obj dir s x j : optimal m obj dir s ->
  (forall r, In r (m_rows m) -> row_sat r x) -> in_bounds m x -> (j < m_ncols m)%nat ->
  dir * lp_value s + dir * lp_rc s j * (x j - lp_sol s j) <= dir * cost (m_ncols m) obj x.
Proof.
  intros (V & C & y & Ly & I & D) F B L.
  pose proof (duals_nonneg dir x (lp_sol s) _ y F D) as N.
  pose proof (I (fun j => x j - lp_sol s j)) as E. unfold cost in E at 1. rewrite value_minus in E.
  fold (cost (m_ncols m) obj x) in E. fold (cost (m_ncols m) obj (lp_sol s)) in E.
  assert (S : dir * lp_rc s j * (x j - lp_sol s j) <= dir * cost (m_ncols m) (lp_rc s) (fun j => x j - lp_sol s j)).
  { apply (sum_ge (lp_rc s) (fun j => x j - lp_sol s j)); [|apply in_seq; lia].
    intros k Ik. apply in_seq in Ik. destruct (C k) as [C1 C2]; [lia|]. destruct (B k) as [B1 B2]; [lia|].
    apply sign_prod; intro Lk.
    - destruct (C1 Lk) as (l & El & Sl). rewrite El in B1. cbn in B1. lra.
    - destruct (C2 Lk) as (u & Eu & Su). rewrite Eu in B2. cbn in B2. lra. }
  assert (T : dir * cost (m_ncols m) obj x == dir * cost (m_ncols m) obj (lp_sol s)
     + dir * cost (m_ncols m) (lp_rc s) (fun j => x j - lp_sol s j)
     + dir * duals (m_rows m) y (fun j => x j - lp_sol s j)).
  { setoid_replace (cost (m_ncols m) obj x) with
     (cost (m_ncols m) obj (lp_sol s) + (cost (m_ncols m) obj x - cost (m_ncols m) obj (lp_sol s))) by ring.
    rewrite E. ring. }
  rewrite V. lra.
Qed.

(** ** someFixed *)
Section SomeFixed.
Variable srt : list (Q * nat) -> list (Q * nat).
Variable keep : option (nat -> Z).
Variables (m : mip) (s : lp).
Definition may_fix (fixc : bool) (j : nat) : Prop :=
  (j < m_ncols m)%nat /\ (m_int m j = true \/ fixc = true) /\
  match keep with Some k => k j <> 1%Z | None => True end.
Lemma pick_cases fixc st i : pick keep m s fixc st i = st \/
  ((exists d, pick keep m s fixc st i = st ++ [(d, i)]) /\ (m_int m i = true \/ fixc = true) /\
   match keep with Some k => k i <> 1%Z | None => True end).
Proof.
  unfold pick. destruct (m_int m i || fixc) eqn:E; [|now left]. apply orb_true_iff in E.
  destruct keep as [k|].
  - destruct (Z.eqb_spec (k i) 1); [now left|]. destruct (k i =? -1)%Z; [right; eauto|].
    destruct (_ || _); [right; eauto|now left].
  - destruct (_ || _); [right; eauto|now left].
Qed.
Lemma picked_inv fixc l st : NoDup l -> NoDup (map snd st) -> (forall j, In j l -> ~ In j (map snd st)) ->
  let st' := fold_left (pick keep m s fixc) l st in
  NoDup (map snd st') /\ (forall j, In j (map snd st') -> In j (map snd st) \/ In j l /\
    (m_int m j = true \/ fixc = true) /\ match keep with Some k => k j <> 1%Z | None => True end).
Proof.
  revert st. induction l as [|i l IH]; intros st Nl Ns D; cbn [fold_left]; [cbn; auto|].
  inversion Nl as [|? ? Ni Nl']; subst.
  destruct (pick_cases fixc st i) as [E|((d & E) & P)]; rewrite E.
  - destruct (IH st Nl' Ns) as [A B]; [intros; apply D; now right|]. split; [exact A|].
    intros j J. destruct (B j J) as [K|(K1 & K2)]; [now left|right]. split; [now right|exact K2].
  - destruct (IH (st ++ [(d, i)]) Nl') as [A B].
    + rewrite map_app. cbn [map snd]. apply NoDup_Add with (a := i) (l := map snd st).
      * rewrite <- (app_nil_r (map snd st)) at 1. apply Add_app.
      * split; [exact Ns|]. apply D. now left.
    + intros j J K. rewrite map_app, in_app_iff in K. cbn in K. destruct K as [K|[<-|[]]]; [|contradiction].
      apply (D j); [now right|exact K].
    + split; [exact A|]. intros j J. destruct (B j J) as [K|(K1 & K2)].
      * rewrite map_app, in_app_iff in K. cbn in K. destruct K as [K|[<-|[]]]; [now left|].
        right. split; [now left|exact P].
      * right. split; [now right|exact K2].
Qed.
Lemma picked_spec fixc : NoDup (map snd (picked keep m s fixc)) /\
  forall j, In j (map snd (picked keep m s fixc)) -> may_fix fixc j.
Proof.
  destruct (picked_inv fixc (seq 0 (m_ncols m)) []) as [A B]; [apply seq_NoDup|constructor|auto|].
  split; [exact A|]. intros j J. destruct (B j J) as [[]|(I & K)]. apply in_seq in I. split; [lia|exact K].
Qed.
Lemma picked_length fixc : (length (picked keep m s fixc) <= m_ncols m)%nat /\
  (forall j, (j < m_ncols m)%nat -> ~ may_fix fixc j -> (length (picked keep m s fixc) < m_ncols m)%nat).
Proof.
  destruct (picked_spec fixc) as [A B]. rewrite <- (map_length snd), <- (seq_length (m_ncols m) 0).
  split.
  - apply NoDup_incl_length; [exact A|]. intros j J. apply in_seq. destruct (B j J). lia.
  - intros j L N. rewrite seq_length in L.
    assert (length (j :: map snd (picked keep m s fixc)) <= length (seq 0 (m_ncols m)))%nat; [|cbn in H; lia].
    apply NoDup_incl_length.
    + constructor; [|exact A]. intro I. apply N. now apply B.
    + intros k [<-|K]; apply in_seq; [lia|]. destruct (B k K). lia.
Qed.
Lemma fix_inv num l : forall r r', ofold (fix_one m s num) l r = Done r' ->
  m_ncols r' = m_ncols r /\ m_rows r' = m_rows r /\ m_clo r' = m_clo r /\ m_int r' = m_int r /\
  forall j, m_chi r' j = m_chi r j \/ (In j l /\ m_chi r' j = as_upper (m_clo m j)).
Proof.
  induction l as [|i l IH]; intros r r' E; cbn [ofold] in E.
  - apply Done_inj in E. subst r'. do 4 (split; [reflexivity|]). now left.
  - destruct (fix_one m s num r i) as [r1| | | |] eqn:E1; try discriminate E. cbn [bind] in E.
    destruct (IH r1 r' E) as (A1 & A2 & A3 & A4 & A5).
    assert (K : r1 = r \/ r1 = set_hi r i (as_upper (m_clo m i))).
    { unfold fix_one in E1. destruct (below _ _); [apply Done_inj in E1; now right|].
      destruct (Nat.leb _ _); [discriminate E1|]. destruct (above _ _); apply Done_inj in E1; auto. }
    destruct K as [-> | ->].
    + do 4 (split; [assumption|]). intro j. destruct (A5 j) as [H|[H1 H2]]; [now left|right; split; [now right|exact H2]].
    + cbn [set_hi m_ncols m_rows m_clo m_int m_chi] in *. do 4 (split; [assumption|]). intro j.
      destruct (A5 j) as [H|[H1 H2]]; [|right; split; [now right|exact H2]].
      destruct (Nat.eqb j i) eqn:Ej; [apply Nat.eqb_eq in Ej; right; split; [now left|]; rewrite H, Ej; reflexivity|now left].
Qed.
(** A column of the list is fixed at its lower bound if it is there, or if it is
    not at the upper bound of the column numbered [num] *)
Lemma fix_at num l j : forall r r', ofold (fix_one m s num) l r = Done r' ->
  In j l \/ m_chi r j = as_upper (m_clo m j) -> below (m_clo m j) (lp_sol s j) = true ->
  m_chi r' j = as_upper (m_clo m j).
Proof.
  induction l as [|i l IH]; intros r r' E I B; cbn [ofold] in E.
  - apply Done_inj in E. subst r'. destruct I as [[]|I]; exact I.
  - destruct (fix_one m s num r i) as [r1| | | |] eqn:E1; try discriminate E. cbn [bind] in E.
    apply (IH r1 r' E); [|exact B].
    destruct (Nat.eq_dec j i) as [->|Ne].
    + right. unfold fix_one in E1. rewrite B in E1. apply Done_inj in E1. subst r1. cbn. now rewrite Nat.eqb_refl.
    + destruct I as [[<-|I]|I]; [now exfalso|now left|]. right.
      unfold fix_one in E1. destruct (below (m_clo m i) _); [|destruct (Nat.leb _ _); [discriminate E1|destruct (above _ _)]];
        apply Done_inj in E1; subst r1; cbn; try exact I; apply Nat.eqb_neq in Ne; now rewrite Ne.
Qed.
Lemma fix_done num l : (num < m_ncols m)%nat -> forall r, exists r', ofold (fix_one m s num) l r = Done r'.
Proof.
  intro L. induction l as [|i l IH]; intro r; cbn [ofold]; [eauto|].
  assert (K : exists r1, fix_one m s num r i = Done r1).
  { unfold fix_one. destruct (below _ _); [eauto|]. replace (Nat.leb (m_ncols m) num) with false by (symmetry; apply Nat.leb_gt; lia).
    destruct (above _ _); eauto. }
  destruct K as (r1 & ->). apply IH.
Qed.
End SomeFixed.
