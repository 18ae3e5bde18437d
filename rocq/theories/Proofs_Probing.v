(** * Proofs about the bound-tightening stage of CglProbing *)

From Coq Require Import Qabs.
From Verif Require Import Base Model_ResidualCapacity Proofs_ResidualCapacity Model_Probing.
Local Open Scope Q_scope.

Lemma ofold_ok {A S} (P : S -> Prop) (f : S -> A -> outcome S) l s :
  (forall s a, In a l -> P s -> exists s', f s a = Done s' /\ P s') ->
  P s -> exists s', ofold f l s = Done s' /\ P s'.
Proof.
  revert s. induction l as [|a l IH]; simpl; intros s H Hs; [eauto|].
  destruct (H s a) as (s1 & E & P1); auto. rewrite E. simpl. apply IH; auto.
Qed.

Lemma set_at_same {A} (f : nat -> A) j a : set_at f j a j = a.
Proof. unfold set_at. now rewrite Nat.eqb_refl. Qed.
Lemma set_at_other {A} (f : nat -> A) j a k : k <> j -> set_at f j a k = f k.
Proof. intro H. unfold set_at. apply Nat.eqb_neq in H. now rewrite H. Qed.
Lemma set_at_case {A} (f : nat -> A) j a k : (k = j /\ set_at f j a k = a) \/ (k <> j /\ set_at f j a k = f k).
Proof.
  destruct (Nat.eq_dec k j) as [->|H]; [left|right]; split; auto using set_at_same, set_at_other.
Qed.

(** ** Activities *)

Definition acc (c : nat * Q -> bool) (t : nat * Q -> Q) (a : Q * nat) (e : nat * Q) : Q * nat :=
  if c e then (fst a + t e, snd a) else (fst a, S (snd a)).
Lemma acc_le c t v : forall s, (snd s <= snd (fold_left (acc c t) v s))%nat.
Proof.
  induction v as [|e v IH]; simpl; intro s; [lia|].
  eapply Nat.le_trans; [|apply IH]. unfold acc. destruct (c e); simpl; lia.
Qed.
Lemma acc_fold c t v : forall s, snd (fold_left (acc c t) v s) = 0%nat ->
  snd s = 0%nat /\ (forall e, In e v -> c e = true) /\
  fst (fold_left (acc c t) v s) == fst s + sumq (map t v).
Proof.
  induction v as [|e v IH]; simpl; intros s H.
  { conjs; [exact H|intros d []|lra]. }
  destruct (IH _ H) as (A & B & D).
  destruct (c e) eqn:E.
  - assert (Ea : acc c t s e = (fst s + t e, snd s)) by (unfold acc; now rewrite E).
    rewrite Ea in *. cbn [fst snd] in *. conjs; [exact A|intros d [<-|I]; auto|].
    eapply Qeq_trans; [exact D|]. unfold sumq. lra.
  - assert (Ea : acc c t s e = (fst s, S (snd s))) by (unfold acc; now rewrite E).
    rewrite Ea in A. discriminate.
Qed.

(** The largest and the smallest value of one term over the bounds. *)
Definition top (cl cu : nat -> Q) (e : nat * Q) : Q :=
  if 0 <? snd e then cu (fst e) * snd e else cl (fst e) * snd e.
Definition bot (cl cu : nat -> Q) (e : nat * Q) : Q :=
  if 0 <? snd e then cl (fst e) * snd e else cu (fst e) * snd e.
Definition signed (r : prow) : Prop :=
  (forall e, In e (p_neg r) -> snd e < 0) /\ (forall e, In e (p_pos r) -> 0 < snd e).

Lemma up_sum_eq st r : signed r -> snd (up_sum st r) = 0%nat ->
  fst (up_sum st r) == sumq (map (top (t_cl st) (t_cu st)) (p_form r)) /\
  (forall e, In e (p_neg r) -> - e12 < t_cl st (fst e)) /\
  (forall e, In e (p_pos r) -> t_cu st (fst e) < e12).
Proof.
  intros [N P] H. unfold up_sum in *.
  apply (acc_fold (fun e => t_cu st (fst e) <? e12) (fun e => t_cu st (fst e) * snd e)) in H
    as (A & B & D).
  apply (acc_fold (fun e => - e12 <? t_cl st (fst e)) (fun e => t_cl st (fst e) * snd e)) in A
    as (_ & B' & D').
  conjs.
  - eapply Qeq_trans; [exact D|]. rewrite D'.
    unfold p_form. rewrite map_app, sumq_app. cbn [fst].
    rewrite (sumq_ext (top (t_cl st) (t_cu st)) (fun e => t_cl st (fst e) * snd e) (p_neg r)).
    2:{ intros e I. apply N in I. unfold top. destruct (0 <? snd e) eqn:E; [qb; lra|reflexivity]. }
    rewrite (sumq_ext (top (t_cl st) (t_cu st)) (fun e => t_cu st (fst e) * snd e) (p_pos r)).
    2:{ intros e I. apply P in I. unfold top. destruct (0 <? snd e) eqn:E; [reflexivity|qb; lra]. }
    lra.
  - intros e I. apply B' in I. now apply Qltb_lt in I.
  - intros e I. apply B in I. now apply Qltb_lt in I.
Qed.
Lemma down_sum_eq st r : signed r -> snd (down_sum st r) = 0%nat ->
  fst (down_sum st r) == sumq (map (bot (t_cl st) (t_cu st)) (p_form r)) /\
  (forall e, In e (p_neg r) -> t_cu st (fst e) < e12) /\
  (forall e, In e (p_pos r) -> - e12 < t_cl st (fst e)).
Proof.
  intros [N P] H. unfold down_sum in *.
  apply (acc_fold (fun e => - e12 <? t_cl st (fst e)) (fun e => t_cl st (fst e) * snd e)) in H
    as (A & B & D).
  apply (acc_fold (fun e => t_cu st (fst e) <? e12) (fun e => t_cu st (fst e) * snd e)) in A
    as (_ & B' & D').
  conjs.
  - eapply Qeq_trans; [exact D|]. rewrite D'.
    unfold p_form. rewrite map_app, sumq_app. cbn [fst].
    rewrite (sumq_ext (bot (t_cl st) (t_cu st)) (fun e => t_cu st (fst e) * snd e) (p_neg r)).
    2:{ intros e I. apply N in I. unfold bot. destruct (0 <? snd e) eqn:E; [qb; lra|reflexivity]. }
    rewrite (sumq_ext (bot (t_cl st) (t_cu st)) (fun e => t_cl st (fst e) * snd e) (p_pos r)).
    2:{ intros e I. apply P in I. unfold bot. destruct (0 <? snd e) eqn:E; [reflexivity|qb; lra]. }
    lra.
  - intros e I. apply B' in I. now apply Qltb_lt in I.
  - intros e I. apply B in I. now apply Qltb_lt in I.
Qed.

Lemma sum_swap {A} (f g : A -> Q) l e :
  (forall a, In a l -> f a <= g a) -> In e l ->
  sumq (map f l) - f e + g e <= sumq (map g l).
Proof.
  induction l as [|a l IH]; simpl; intros H K; [destruct K|]. destruct K as [->|I].
  - assert (sumq (map f l) <= sumq (map g l)) by (apply sumq_le; auto). unfold sumq in *. lra.
  - assert (f a <= g a) by auto.
    assert (sumq (map f l) - f e + g e <= sumq (map g l)) by auto. unfold sumq in *. lra.
Qed.

Definition box (n : nat) (cl cu : nat -> Q) (y : point) : Prop :=
  forall j, (j < n)%nat -> cl j <= y j /\ y j <= cu j.
Definition cols_in (n : nat) (v : vec) : Prop := forall e, In e v -> (fst e < n)%nat.

Lemma top_ge n cl cu y v : box n cl cu y -> cols_in n v ->
  forall e, In e v -> snd e * y (fst e) <= top cl cu e.
Proof.
  intros B C e I. specialize (C e I). destruct (B _ C) as [L U]. unfold top.
  destruct (0 <? snd e) eqn:E; qb; nra.
Qed.
Lemma bot_le n cl cu y v : box n cl cu y -> cols_in n v ->
  forall e, In e v -> bot cl cu e <= snd e * y (fst e).
Proof.
  intros B C e I. specialize (C e I). destruct (B _ C) as [L U]. unfold bot.
  destruct (0 <? snd e) eqn:E; qb; nra.
Qed.
Lemma top_sum n cl cu y v : box n cl cu y -> cols_in n v ->
  value v y <= sumq (map (top cl cu) v).
Proof.
  intros B C. rewrite value_sum. apply sumq_le. eapply top_ge; eauto.
Qed.
Lemma bot_sum n cl cu y v : box n cl cu y -> cols_in n v ->
  sumq (map (bot cl cu) v) <= value v y.
Proof.
  intros B C. rewrite value_sum. apply sumq_le. eapply bot_le; eauto.
Qed.
Lemma top_but n cl cu y v e : box n cl cu y -> cols_in n v -> In e v ->
  value v y - snd e * y (fst e) + top cl cu e <= sumq (map (top cl cu) v).
Proof.
  intros B C I. rewrite value_sum.
  apply (sum_swap (fun e => snd e * y (fst e)) (top cl cu)); auto. eapply top_ge; eauto.
Qed.
Lemma bot_but n cl cu y v e : box n cl cu y -> cols_in n v -> In e v ->
  sumq (map (bot cl cu) v) <= value v y - snd e * y (fst e) + bot cl cu e.
Proof.
  intros B C I. rewrite value_sum.
  assert (G : sumq (map (fun e => - (snd e * y (fst e))) v) - - (snd e * y (fst e)) + - bot cl cu e
              <= sumq (map (fun e => - bot cl cu e) v)).
  { apply (sum_swap (fun e => - (snd e * y (fst e))) (fun e => - bot cl cu e)); auto.
    intros d J. pose proof (bot_le n cl cu y v B C d J). lra. }
  rewrite !sumq_opp in G. lra.
Qed.

Lemma div_le a b c : 0 < a -> b <= a * c -> b / a <= c.
Proof. intros P H. apply Qle_shift_div_r; [exact P|]. lra. Qed.
Lemma div_ge a b c : 0 < a -> a * c <= b -> c <= b / a.
Proof. intros P H. apply Qle_shift_div_l; [exact P|]. lra. Qed.
Lemma div_neg a b : ~ a == 0 -> b / a == (- b) / (- a).
Proof. intro H. field. exact H. Qed.

Section Run.
Variable nRows nCols : nat.
Variable rows : nat -> prow.
Variable rowsOf : nat -> list nat.
Variable isInt : nat -> bool.
Variable tol : Q.
Hypothesis Tol : 0 <= tol.
Hypothesis Sgn : forall i, signed (rows i).
Hypothesis Cols : forall i, cols_in nCols (p_form (rows i)).
Hypothesis Rof : forall j i, In i (rowsOf j) -> (i < nRows)%nat.

Notation changed := (changed nRows nCols rowsOf tol).
Notation up_entry := (up_entry nRows nCols rowsOf tol).
Notation down_entry := (down_entry nRows nCols rowsOf tol).
Notation step_row := (step_row nRows nCols rows rowsOf tol).
Notation pass := (pass nRows nCols rows rowsOf isInt tol).
Notation passes := (passes nRows nCols rows rowsOf isInt tol).

Lemma form_nonzero i e : In e (p_form (rows i)) -> ~ snd e == 0.
Proof.
  intros H. apply in_app_or in H. destruct (Sgn i) as [N P].
  destruct H as [H|H]; [apply N in H|apply P in H]; lra.
Qed.

Lemma changed_fields st j st' : changed st j = Done st' ->
  t_cl st' = t_cl st /\ t_cu st' = t_cu st /\ t_rl st' = t_rl st /\ t_ru st' = t_ru st /\
  t_stop st' = t_stop st /\
  t_inf st' = (if t_cu st j - t_cl st j <? - (100 # 1) * tol then S (t_inf st) else t_inf st).
Proof.
  unfold Model_Probing.changed. intro E.
  apply bind_done in E as (c & _ & E). apply bind_done in E as (m & _ & E).
  apply Done_inj in E. subst st'. simpl. auto 10.
Qed.

(** ** Nothing feasible is lost *)

Section Point.
Variable y : point.
Hypothesis Yint : forall j, (j < nCols)%nat -> isInt j = true -> integral (y j).

Definition rows_ok (st : tstate) : Prop := forall i,
  ge_opt_lo (value (p_form (rows i)) y) (t_rl st i) /\
  le_opt_hi (value (p_form (rows i)) y) (t_ru st i).
Definition sized (st : tstate) : Prop := forall i,
  (forall l, t_rl st i = Some l -> l <= e31) /\ (forall u, t_ru st i = Some u -> - e31 <= u).
Definition inv (st : tstate) : Prop :=
  box nCols (t_cl st) (t_cu st) y /\ rows_ok st /\ t_inf st = 0%nat /\ t_stop st = false /\ sized st.

Lemma set_lower_inv st j b st' : inv st -> (j < nCols)%nat -> b <= y j ->
  changed (set_lower st j b) j = Done st' ->
  inv st' /\ t_cu st' = t_cu st /\ t_cl st' = set_at (t_cl st) j b.
Proof.
  intros (B & R & F & S & Z) J H E. apply changed_fields in E as (E1 & E2 & E3 & E4 & E5 & E6).
  cbn [set_lower t_cl t_cu t_rl t_ru t_stop t_inf] in *.
  split; [|auto]. unfold inv, rows_ok, sized. rewrite E1, E2, E3, E4, E5, E6.
  assert (B' : box nCols (set_at (t_cl st) j b) (t_cu st) y).
  { intros k K. destruct (B k K). destruct (set_at_case (t_cl st) j b k) as [[-> ->]|[_ ->]]; auto. }
  conjs; auto.
  destruct (B' j J). rewrite set_at_same in *.
  destruct (t_cu st j - b <? - (100 # 1) * tol) eqn:Q; [|auto]. qb. nra.
Qed.
Lemma set_upper_inv st j b st' : inv st -> (j < nCols)%nat -> y j <= b ->
  changed (set_upper st j b) j = Done st' ->
  inv st' /\ t_cl st' = t_cl st /\ t_cu st' = set_at (t_cu st) j b.
Proof.
  intros (B & R & F & S & Z) J H E. apply changed_fields in E as (E1 & E2 & E3 & E4 & E5 & E6).
  cbn [set_upper t_cl t_cu t_rl t_ru t_stop t_inf] in *.
  split; [|auto]. unfold inv, rows_ok, sized. rewrite E1, E2, E3, E4, E5, E6.
  assert (B' : box nCols (t_cl st) (set_at (t_cu st) j b) y).
  { intros k K. destruct (B k K). destruct (set_at_case (t_cu st) j b k) as [[-> ->]|[_ ->]]; auto. }
  conjs; auto.
  destruct (B' j J). rewrite set_at_same in *.
  destruct (b - t_cl st j <? - (100 # 1) * tol) eqn:Q; [|auto]. qb. nra.
Qed.

(** Bounds at least as tight as at the start of the row. *)
Definition inside (cl0 cu0 : nat -> Q) (st : tstate) : Prop :=
  forall j, cl0 j <= t_cl st j /\ t_cu st j <= cu0 j.

Lemma up_entry_inv cl0 cu0 i lo dmax st e st' :
  In e (p_form (rows i)) ->
  (forall e, In e (p_form (rows i)) ->
     value (p_form (rows i)) y - snd e * y (fst e) + top cl0 cu0 e <= dmax) ->
  lo <= value (p_form (rows i)) y ->
  inv st /\ inside cl0 cu0 st -> up_entry lo dmax st e = Done st' ->
  inv st' /\ inside cl0 cu0 st'.
Proof.
  intros I D L [V Nn] E. pose proof (form_nonzero i e I) as Nz. pose proof (Cols i e I) as J.
  specialize (D e I). destruct e as [j a]. cbn [fst snd] in *. unfold top in D. cbn [fst snd] in D.
  destruct (Nn j) as [N1 N2]. unfold Model_Probing.up_entry in E.
  destruct (0 <? a) eqn:S; qb.
  - destruct (t_cu st j <? e12) eqn:C; [|apply Done_inj in E; subst; auto].
    cbv zeta in E.
    destruct (t_cl st j + eps8 <? t_cu st j + (lo - dmax) / a) eqn:Q;
      [|apply Done_inj in E; subst; auto].
    apply set_lower_inv in E as (V' & EU & EL); auto.
    + split; [exact V'|]. intro k. rewrite EU, EL.
      destruct (Nn k) as [K1 K2]. split; [|exact K2].
      destruct (set_at_case (t_cl st) j (t_cu st j + (lo - dmax) / a) k) as [[-> ->]|[_ ->]]; auto.
      qb. unfold eps8 in *. lra.
    + assert ((lo - dmax) / a <= y j - t_cu st j); [|lra]. apply div_le; [exact S|]. nra.
  - destruct (- e12 <? t_cl st j) eqn:C; [|apply Done_inj in E; subst; auto].
    cbv zeta in E.
    destruct (t_cl st j + (lo - dmax) / a <? t_cu st j - eps8) eqn:Q;
      [|apply Done_inj in E; subst; auto].
    apply set_upper_inv in E as (V' & EL & EU); auto.
    + split; [exact V'|]. intro k. rewrite EU, EL.
      destruct (Nn k) as [K1 K2]. split; [exact K1|].
      destruct (set_at_case (t_cu st) j (t_cl st j + (lo - dmax) / a) k) as [[-> ->]|[_ ->]]; auto.
      qb. unfold eps8 in *. lra.
    + assert (a < 0) by lra.
      assert (y j - t_cl st j <= (lo - dmax) / a); [|lra].
      rewrite (div_neg a) by exact Nz. apply div_ge; [lra|]. nra.
Qed.
Lemma down_entry_inv cl0 cu0 i hi dmin st e st' :
  In e (p_form (rows i)) ->
  (forall e, In e (p_form (rows i)) ->
     dmin <= value (p_form (rows i)) y - snd e * y (fst e) + bot cl0 cu0 e) ->
  value (p_form (rows i)) y <= hi ->
  inv st /\ inside cl0 cu0 st -> down_entry hi dmin st e = Done st' ->
  inv st' /\ inside cl0 cu0 st'.
Proof.
  intros I D L [V Nn] E. pose proof (form_nonzero i e I) as Nz. pose proof (Cols i e I) as J.
  specialize (D e I). destruct e as [j a]. cbn [fst snd] in *. unfold bot in D. cbn [fst snd] in D.
  destruct (Nn j) as [N1 N2]. unfold Model_Probing.down_entry in E.
  destruct (a <? 0) eqn:S; qb.
  - assert (Z : (0 <? a) = false) by (apply Qltb_ge; lra). rewrite Z in D.
    destruct (t_cu st j <? e12) eqn:C; [|apply Done_inj in E; subst; auto].
    cbv zeta in E.
    destruct (t_cl st j + eps8 <? t_cu st j + (hi - dmin) / a) eqn:Q;
      [|apply Done_inj in E; subst; auto].
    apply set_lower_inv in E as (V' & EU & EL); auto.
    + split; [exact V'|]. intro k. rewrite EU, EL.
      destruct (Nn k) as [K1 K2]. split; [|exact K2].
      destruct (set_at_case (t_cl st) j (t_cu st j + (hi - dmin) / a) k) as [[-> ->]|[_ ->]]; auto.
      qb. unfold eps8 in *. lra.
    + assert ((hi - dmin) / a <= y j - t_cu st j); [|lra].
      rewrite (div_neg a) by exact Nz. apply div_le; [lra|]. nra.
  - assert (A : 0 < a) by lra. assert (Z : (0 <? a) = true) by (apply Qltb_lt; lra). rewrite Z in D.
    destruct (- e12 <? t_cl st j) eqn:C; [|apply Done_inj in E; subst; auto].
    cbv zeta in E.
    destruct (t_cl st j + (hi - dmin) / a <? t_cu st j - eps8) eqn:Q;
      [|apply Done_inj in E; subst; auto].
    apply set_upper_inv in E as (V' & EL & EU); auto.
    + split; [exact V'|]. intro k. rewrite EU, EL.
      destruct (Nn k) as [K1 K2]. split; [exact K1|].
      destruct (set_at_case (t_cu st) j (t_cl st j + (hi - dmin) / a) k) as [[-> ->]|[_ ->]]; auto.
      qb. unfold eps8 in *. lra.
    + assert (y j - t_cl st j <= (hi - dmin) / a); [|lra]. apply div_ge; [exact A|]. nra.
Qed.

Lemma drop_inv st i : inv st -> inv (drop_row st i).
Proof.
  intros (B & R & F & S & Z). unfold inv, rows_ok, sized, drop_row. simpl. conjs; auto.
  - intro k. destruct (R k).
    destruct (set_at_case (t_rl st) i None k) as [[_ ->]|[_ ->]];
    destruct (set_at_case (t_ru st) i None k) as [[_ ->]|[_ ->]]; simpl; auto.
  - intro k. destruct (Z k).
    destruct (set_at_case (t_rl st) i None k) as [[_ ->]|[_ ->]];
    destruct (set_at_case (t_ru st) i None k) as [[_ ->]|[_ ->]]; simpl; split; intros; auto; congruence.
Qed.

Lemma step_row_inv odd st i st' : inv st -> step_row odd st i = Done st' -> inv st'.
Proof.
  intros V E. unfold Model_Probing.step_row in E. pose proof V as (B & R & F & St & Z).
  rewrite St in E.
  destruct (lo_lt (t_rl st i) (- e20) && hi_gt (t_ru st i) e20); [apply Done_inj in E; now subst|].
  cbv zeta in E.
  destruct (up_sum st (rows i)) as [us fu] eqn:EU. destruct (down_sum st (rows i)) as [ds fd] eqn:ED.
  match type of E with (if ?b then _ else _) = _ => destruct b end.
  { apply Done_inj in E. subst. now apply drop_inv. }
  set (v := value (p_form (rows i)) y).
  destruct (R i) as [RL RU]. fold v in RL, RU. destruct (Z i) as [ZL ZU].
  assert (KU : fu = 0%nat -> us == sumq (map (top (t_cl st) (t_cu st)) (p_form (rows i)))).
  { intro H. pose proof (up_sum_eq st (rows i) (Sgn i)) as K. rewrite EU in K. cbn [fst snd] in K.
    now apply K in H. }
  assert (KD : fd = 0%nat -> ds == sumq (map (bot (t_cl st) (t_cu st)) (p_form (rows i)))).
  { intro H. pose proof (down_sum_eq st (rows i) (Sgn i)) as K. rewrite ED in K. cbn [fst snd] in K.
    now apply K in H. }
  pose proof (top_sum nCols _ _ y (p_form (rows i)) B (Cols i)) as TU. fold v in TU.
  pose proof (bot_sum nCols _ _ y (p_form (rows i)) B (Cols i)) as TD. fold v in TD.
  match type of E with (if ?b then _ else _) = _ => destruct b eqn:EI end.
  { exfalso. apply orb_true_iff in EI as [EI|EI].
    - unfold lo_gt in EI. destruct (t_rl st i) as [l|]; [|discriminate]. simpl in RL.
      destruct (Nat.eqb fu 0) eqn:EF; qb.
      + apply Nat.eqb_eq in EF. specialize (KU EF). lra.
      + specialize (ZL l eq_refl). lra.
    - unfold hi_lt in EI. destruct (t_ru st i) as [u|]; [|discriminate]. simpl in RU.
      destruct (Nat.eqb fd 0) eqn:EF; qb.
      + apply Nat.eqb_eq in EF. specialize (KD EF). lra.
      + specialize (ZU u eq_refl). lra. }
  apply bind_done in E as (st1 & E1 & E2).
  assert (V1 : inv st1 /\ inside (t_cl st) (t_cu st) st1).
  { assert (V0 : inv st /\ inside (t_cl st) (t_cu st) st) by (split; [exact V|intro; split; lra]).
    destruct (t_rl st i) as [l|]; [|apply Done_inj in E1; subst; auto].
    match type of E1 with (if ?b then _ else _) = _ => destruct b eqn:EC end;
      [|apply Done_inj in E1; subst; auto].
    apply andb_true_iff in EC as [EC _]. apply andb_true_iff in EC as [EC _]. rewrite EC in E1.
    apply Nat.eqb_eq in EC. revert E1.
    apply (ofold_inv (fun s => inv s /\ inside (t_cl st) (t_cu st) s)); [|exact V0].
    intros s e s' I P E. eapply up_entry_inv; [exact I| |exact RL|exact P|exact E].
    intros d Id. rewrite (KU EC). eapply top_but; eauto. }
  destruct (t_ru st i) as [u|]; [|apply Done_inj in E2; subst; tauto].
  match type of E2 with (if ?b then _ else _) = _ => destruct b eqn:EC end;
    [|apply Done_inj in E2; subst; tauto].
  apply andb_true_iff in EC as [EC _]. apply andb_true_iff in EC as [EC _]. rewrite EC in E2.
  apply Nat.eqb_eq in EC.
  enough (inv st' /\ inside (t_cl st) (t_cu st) st') by tauto. revert E2.
  apply (ofold_inv (fun s => inv s /\ inside (t_cl st) (t_cu st) s)); [|exact V1].
  intros s e s' I P E. eapply down_entry_inv; [exact I| |exact RU|exact P|exact E].
  intros d Id. rewrite (KD EC). eapply bot_but; eauto.
Qed.

Lemma round_inv st j : (j < nCols)%nat -> inv st -> inv (round_col isInt st j).
Proof.
  intros J (B & R & F & S & Z). unfold round_col. destruct (isInt j) eqn:I; [|unfold inv; auto].
  pose proof (Yint j J I) as Y. destruct (B j J) as [L U].
  assert (U' : y j <= qfloor (t_cu st j + eps4)) by (apply integral_le_floor; [exact Y|unfold eps4; lra]).
  assert (L' : qceil (t_cl st j - eps4) <= y j) by (apply integral_ge_ceil; [exact Y|unfold eps4; lra]).
  cbv zeta. unfold inv, rows_ok, sized. simpl. conjs; auto.
  - intros k K. destruct (B k K).
    destruct (set_at_case (t_cl st) j (qceil (t_cl st j - eps4)) k) as [[E1 ->]|[E1 ->]];
    destruct (set_at_case (t_cu st) j (qfloor (t_cu st j + eps4)) k) as [[E2 ->]|[E2 ->]];
    try congruence; subst; split; auto.
  - destruct (qfloor (t_cu st j + eps4) <? qceil (t_cl st j - eps4)) eqn:Q; [|exact F].
    apply Qltb_lt in Q. exfalso. apply (Qlt_irrefl (y j)).
    eapply Qle_lt_trans; [exact U'|]. eapply Qlt_le_trans; [exact Q|exact L'].
Qed.
End Point.

(** ** Memory: the two work lists never outgrow their arrays *)

Definition fits (st : tstate) : Prop :=
  NoDup (t_cols st) /\ (forall j, In j (t_cols st) -> (j < nCols)%nat) /\
  NoDup (t_next st) /\ (forall i, In i (t_next st) -> (i < nRows)%nat) /\
  (forall i, In i (t_next st) -> t_mark st i <> 0%nat).

Lemma room (n : nat) (l : list nat) a :
  NoDup l -> (forall j, In j l -> (j < n)%nat) -> (a < n)%nat -> ~ In a l -> (length l < n)%nat.
Proof.
  intros N B A O.
  assert (H : (length (a :: l) <= length (seq 0 n))%nat).
  { apply NoDup_incl_length; [constructor; auto|]. intros k [<-|K]; apply in_seq; [lia|].
    apply B in K. lia. }
  rewrite seq_length in H. simpl in H. lia.
Qed.
Lemma mem_spec j l : existsb (Nat.eqb j) l = true <-> In j l.
Proof.
  rewrite existsb_exists. split; [intros (k & K & E); apply Nat.eqb_eq in E; now subst|].
  intro H. exists j. split; [exact H|apply Nat.eqb_refl].
Qed.
Lemma mem_no j l : existsb (Nat.eqb j) l = false -> ~ In j l.
Proof. intros H K. apply mem_spec in K. congruence. Qed.
Lemma push_ok n l a :
  NoDup l -> (forall j, In j l -> (j < n)%nat) -> (a < n)%nat -> ~ In a l ->
  push n l a = Done (l ++ [a]) /\ NoDup (l ++ [a]) /\ (forall j, In j (l ++ [a]) -> (j < n)%nat).
Proof.
  intros N B A O. pose proof (room n l a N B A O) as R. unfold push.
  apply Nat.ltb_lt in R. rewrite R. conjs; [reflexivity| |].
  - apply NoDup_rev in N. rewrite <- (rev_involutive (l ++ [a])). apply NoDup_rev.
    rewrite rev_app_distr. simpl. constructor; [|exact N]. now rewrite <- in_rev.
  - intros j K. apply in_app_or in K as [K|[<-|[]]]; auto.
Qed.

Lemma note_ok st j : fits st -> exists m nx, note_rows nRows rowsOf st j = Done (m, nx) /\
  NoDup nx /\ (forall i, In i nx -> (i < nRows)%nat) /\ (forall i, In i nx -> m i <> 0%nat).
Proof.
  intros (A & B & C & D & E). unfold note_rows.
  destruct (ofold_ok (fun mn : (nat -> nat) * list nat => NoDup (snd mn) /\
     (forall i, In i (snd mn) -> (i < nRows)%nat) /\ (forall i, In i (snd mn) -> fst mn i <> 0%nat))
     (fun mn i =>
           if Nat.eqb (fst mn i) 0 then
             do nx <- push nRows (snd mn) i; Done (set_at (fst mn) i 1%nat, nx)
           else Done mn) (rowsOf j) (t_mark st, t_next st)) as ([m nx] & X & Y); [| |exists m, nx; auto].
  - intros [m nx] i I (P1 & P2 & P3). cbn [fst snd] in *. apply Rof in I.
    destruct (Nat.eqb (m i) 0) eqn:M; [|exists (m, nx); auto].
    apply Nat.eqb_eq in M.
    destruct (push_ok nRows nx i P1 P2 I) as (Q1 & Q2 & Q3); [intro K; now apply P3 in K|].
    rewrite Q1. simpl. eexists. split; [reflexivity|]. cbn [fst snd]. conjs; auto.
    intros k K. destruct (set_at_case m i 1%nat k) as [[-> ->]|[Nk ->]]; [lia|].
    apply in_app_or in K as [K|[<-|[]]]; [auto|congruence].
  - cbn [fst snd]. auto.
Qed.
Lemma changed_ok st j : fits st -> (j < nCols)%nat -> exists st', changed st j = Done st' /\ fits st' /\
  In j (t_cols st') /\ (forall k, In k (t_cols st) -> In k (t_cols st')).
Proof.
  intros V J. pose proof V as (A & B & C & D & E). unfold Model_Probing.changed.
  destruct (note_ok st j V) as (m & nx & N & N1 & N2 & N3).
  destruct (existsb (Nat.eqb j) (t_cols st)) eqn:M.
  - simpl. rewrite N. simpl. eexists. split; [reflexivity|]. apply mem_spec in M.
    unfold fits. simpl. auto 10.
  - apply mem_no in M. destruct (push_ok nCols (t_cols st) j A B J M) as (Q1 & Q2 & Q3).
    rewrite Q1. simpl. rewrite N. simpl. eexists. split; [reflexivity|]. unfold fits. simpl.
    conjs; auto; intros; apply in_or_app; simpl; auto.
Qed.

(** The integer bounds that are not listed for rounding are integral. *)
Definition unlisted (st : tstate) : Prop := forall j, (j < nCols)%nat -> isInt j = true ->
  In j (t_cols st) \/ (integral (t_cl st j) /\ integral (t_cu st j)).

Lemma set_bound_ok st st0 j : fits st -> unlisted st -> (j < nCols)%nat ->
  t_cols st0 = t_cols st -> t_next st0 = t_next st -> t_mark st0 = t_mark st ->
  (forall k, k <> j -> t_cl st0 k = t_cl st k /\ t_cu st0 k = t_cu st k) ->
  exists st', changed st0 j = Done st' /\ fits st' /\ unlisted st'.
Proof.
  intros V U J E1 E2 E3 E4.
  assert (V0 : fits st0) by (unfold fits in *; rewrite E1, E2, E3; exact V).
  destruct (changed_ok st0 j V0 J) as (st' & H & V' & I & K).
  exists st'. conjs; auto. intros k L T. apply changed_fields in H as (H1 & H2 & _).
  rewrite H1, H2. destruct (Nat.eq_dec k j) as [->|N]; [auto|].
  destruct (E4 k N) as [-> ->]. destruct (U k L T) as [G|G]; [|auto].
  left. apply K. now rewrite E1.
Qed.
Lemma up_entry_ok lo dmax st e : (fst e < nCols)%nat -> fits st /\ unlisted st ->
  exists st', up_entry lo dmax st e = Done st' /\ fits st' /\ unlisted st'.
Proof.
  intros J [V U]. destruct e as [j a]. cbn [fst] in J. unfold Model_Probing.up_entry. cbv zeta.
  assert (G : exists st', Done st = Done st' /\ fits st' /\ unlisted st') by eauto.
  destruct (0 <? a); destruct (_ <? _); auto; destruct (_ <? _); auto.
  - apply (set_bound_ok st); auto. intros k N. simpl. now rewrite set_at_other.
  - apply (set_bound_ok st); auto. intros k N. simpl. now rewrite set_at_other.
Qed.
Lemma down_entry_ok lo dmax st e : (fst e < nCols)%nat -> fits st /\ unlisted st ->
  exists st', down_entry lo dmax st e = Done st' /\ fits st' /\ unlisted st'.
Proof.
  intros J [V U]. destruct e as [j a]. cbn [fst] in J. unfold Model_Probing.down_entry. cbv zeta.
  assert (G : exists st', Done st = Done st' /\ fits st' /\ unlisted st') by eauto.
  destruct (a <? 0); destruct (_ <? _); auto; destruct (_ <? _); auto.
  - apply (set_bound_ok st); auto. intros k N. simpl. now rewrite set_at_other.
  - apply (set_bound_ok st); auto. intros k N. simpl. now rewrite set_at_other.
Qed.
Lemma step_row_ok odd st i : fits st /\ unlisted st ->
  exists st', step_row odd st i = Done st' /\ fits st' /\ unlisted st'.
Proof.
  intros [V U]. unfold Model_Probing.step_row. cbv zeta.
  assert (G : exists st', Done st = Done st' /\ fits st' /\ unlisted st') by eauto.
  destruct (t_stop st); auto.
  destruct (lo_lt (t_rl st i) (- e20) && hi_gt (t_ru st i) e20); auto.
  destruct (up_sum st (rows i)) as [us fu]. destruct (down_sum st (rows i)) as [ds fd].
  match goal with |- exists _, (if ?b then _ else _) = _ /\ _ => destruct b end.
  { eexists. split; [reflexivity|]. split; [|exact U]. destruct V as (A & B & C & D & E).
    unfold fits. simpl. conjs; auto. intros k K.
    destruct (set_at_case (t_mark st) i 2%nat k) as [[-> ->]|[_ ->]]; auto. }
  match goal with |- exists _, (if ?b then _ else _) = _ /\ _ => destruct b end.
  { eexists. split; [reflexivity|]. split; [exact V|exact U]. }
  assert (X : forall st0 b f, (forall s e, In e (p_form (rows i)) -> fits s /\ unlisted s ->
              exists s', f s e = Done s' /\ fits s' /\ unlisted s') -> fits st0 /\ unlisted st0 ->
            exists st', (if b : bool then ofold f (p_form (rows i)) st0 else Done st0) = Done st' /\
                        fits st' /\ unlisted st').
  { intros st0 b f Hf V0. destruct b; [|eauto].
    apply (ofold_ok (fun s => fits s /\ unlisted s)); auto. }
  match goal with |- exists _, (do _ <- ?m; _) = _ /\ _ =>
    assert (Y : exists st', m = Done st' /\ fits st' /\ unlisted st') end.
  { destruct (t_rl st i) as [l|]; [|auto]. apply X; [|auto].
    intros s e I P. apply up_entry_ok; [exact (Cols i e I)|exact P]. }
  destruct Y as (st1 & -> & V1). cbn [bind].
  destruct (t_ru st i) as [u|]; [|eauto]. apply X; [|auto].
  intros s e I P. apply down_entry_ok; [exact (Cols i e I)|exact P].
Qed.

Lemma round_fields st j :
  t_cols (round_col isInt st j) = t_cols st /\ t_next (round_col isInt st j) = t_next st /\
  t_mark (round_col isInt st j) = t_mark st.
Proof. unfold round_col. destruct (isInt j); simpl; auto. Qed.
Lemma round_all l : forall st,
  (forall j, (j < nCols)%nat -> isInt j = true ->
     In j l \/ (integral (t_cl st j) /\ integral (t_cu st j))) ->
  forall j, (j < nCols)%nat -> isInt j = true ->
    integral (t_cl (fold_left (round_col isInt) l st) j) /\
    integral (t_cu (fold_left (round_col isInt) l st) j).
Proof.
  induction l as [|k l IH]; cbn [fold_left]; intros st H j J I.
  - destruct (H j J I) as [[]|G]; exact G.
  - apply IH; [|exact J|exact I]. intros m M T. unfold round_col.
    destruct (isInt k) eqn:K.
    + simpl. destruct (set_at_case (t_cl st) k (qceil (t_cl st k - eps4)) m) as [[E1 ->]|[N ->]];
      destruct (set_at_case (t_cu st) k (qfloor (t_cu st k + eps4)) m) as [[E ->]|[N' ->]]; try congruence.
      * right. split; apply integral_inject.
      * destruct (H m M T) as [[E|G]|G]; [congruence|auto|auto].
    + destruct (H m M T) as [[E|G]|G]; [congruence|auto|auto].
Qed.

Definition ready (st : tstate) : Prop :=
  forall j, (j < nCols)%nat -> isInt j = true -> integral (t_cl st j) /\ integral (t_cu st j).

Lemma fold_round_fields l : forall st,
  t_cols (fold_left (round_col isInt) l st) = t_cols st /\
  t_next (fold_left (round_col isInt) l st) = t_next st /\
  t_mark (fold_left (round_col isInt) l st) = t_mark st.
Proof.
  induction l as [|k l IH]; cbn [fold_left]; intro st; [auto|].
  destruct (IH (round_col isInt st k)) as (-> & -> & ->). apply round_fields.
Qed.

Lemma pass_ok odd look st : ready st ->
  exists st', pass odd look st = Done st' /\ ready st'.
Proof.
  intros Rd. unfold Model_Probing.pass.
  destruct (ofold_ok (fun s => fits s /\ unlisted s) (step_row odd) look (begin_pass st))
    as (st1 & E & V & U).
  - intros s a _ P. now apply step_row_ok.
  - split.
    + unfold fits, begin_pass. simpl. conjs; try constructor; intros ? [].
    + intros j J I. right. now apply Rd.
  - rewrite E. cbn [bind]. eexists. split; [reflexivity|].
    intros j J I. apply round_all; auto.
Qed.
Lemma passes_ok k : forall odd look st, ready st ->
  exists st', passes k odd look st = Done st' /\ ready st'.
Proof.
  induction k as [|k IH]; intros odd look st Rd; [cbn [Model_Probing.passes]; eauto|].
  cbn [Model_Probing.passes]. destruct (pass_ok odd look st Rd) as (st1 & E & R1). rewrite E. cbn [bind].
  destruct (Nat.eqb (t_inf st1) 0); [|eauto]. destruct (Nat.eqb (t_chg st1) 0); [eauto|]. now apply IH.
Qed.

(** ** The whole run keeps a feasible point *)

(** The columns listed in a pass exist (needed to round them). *)
Lemma changed_cols st j st' : changed st j = Done st' -> (j < nCols)%nat ->
  (forall k, In k (t_cols st) -> (k < nCols)%nat) -> forall k, In k (t_cols st') -> (k < nCols)%nat.
Proof.
  unfold Model_Probing.changed. intros E J H.
  apply bind_done in E as (c & E1 & E). apply bind_done in E as (m & _ & E).
  apply Done_inj in E. subst st'. simpl.
  destruct (existsb (Nat.eqb j) (t_cols st)).
  - apply Done_inj in E1. now subst.
  - unfold push in E1. destruct (Nat.ltb _ _); [|discriminate]. apply Done_inj in E1. subst c.
    intros k K. apply in_app_or in K as [K|[<-|[]]]; auto.
Qed.
Definition cols_ok (st : tstate) : Prop := forall k, In k (t_cols st) -> (k < nCols)%nat.
Lemma up_entry_cols lo d st e st' : (fst e < nCols)%nat -> cols_ok st ->
  up_entry lo d st e = Done st' -> cols_ok st'.
Proof.
  intros J C E. destruct e as [j a]. cbn [fst] in J. unfold Model_Probing.up_entry in E. cbv zeta in E.
  destruct (0 <? a); destruct (_ <? _); try (apply Done_inj in E; now subst);
  destruct (_ <? _); try (apply Done_inj in E; now subst).
  all: unfold cols_ok; eapply changed_cols; eauto.
Qed.
Lemma down_entry_cols lo d st e st' : (fst e < nCols)%nat -> cols_ok st ->
  down_entry lo d st e = Done st' -> cols_ok st'.
Proof.
  intros J C E. destruct e as [j a]. cbn [fst] in J. unfold Model_Probing.down_entry in E. cbv zeta in E.
  destruct (a <? 0); destruct (_ <? _); try (apply Done_inj in E; now subst);
  destruct (_ <? _); try (apply Done_inj in E; now subst).
  all: unfold cols_ok; eapply changed_cols; eauto.
Qed.
Lemma step_row_cols odd st i st' : cols_ok st -> step_row odd st i = Done st' -> cols_ok st'.
Proof.
  intros C E. unfold Model_Probing.step_row in E. cbv zeta in E.
  destruct (t_stop st); [apply Done_inj in E; now subst|].
  destruct (lo_lt (t_rl st i) (- e20) && hi_gt (t_ru st i) e20); [apply Done_inj in E; now subst|].
  destruct (up_sum st (rows i)) as [us fu]. destruct (down_sum st (rows i)) as [ds fd].
  match type of E with (if ?b then _ else _) = _ => destruct b end; [apply Done_inj in E; now subst|].
  match type of E with (if ?b then _ else _) = _ => destruct b end; [apply Done_inj in E; now subst|].
  apply bind_done in E as (st1 & E1 & E2).
  assert (C1 : cols_ok st1).
  { destruct (t_rl st i) as [l|]; [|apply Done_inj in E1; now subst].
    match type of E1 with (if ?b then _ else _) = _ => destruct b end; [|apply Done_inj in E1; now subst].
    revert E1. apply (ofold_inv cols_ok); [|exact C].
    intros s e s' I P E. eapply up_entry_cols; [exact (Cols i e I)|exact P|exact E]. }
  destruct (t_ru st i) as [u|]; [|apply Done_inj in E2; now subst].
  match type of E2 with (if ?b then _ else _) = _ => destruct b end; [|apply Done_inj in E2; now subst].
  revert E2. apply (ofold_inv cols_ok); [|exact C1].
  intros s e s' I P E. eapply down_entry_cols; [exact (Cols i e I)|exact P|exact E].
Qed.

Lemma pass_inv y odd look st st' :
  (forall j, (j < nCols)%nat -> isInt j = true -> integral (y j)) ->
  inv y st -> pass odd look st = Done st' -> inv y st'.
Proof.
  intros Y V E. unfold Model_Probing.pass in E. apply bind_done in E as (st1 & E & E2).
  apply Done_inj in E2. subst st'.
  assert (W : inv y st1 /\ cols_ok st1).
  { revert E. apply (ofold_inv (fun s => inv y s /\ cols_ok s)).
    - intros s i s' _ [P C] E. split; [eapply step_row_inv; eauto|eapply step_row_cols; eauto].
    - split; [exact V|intros k []]. }
  destruct W as [W C].
  assert (G : forall l st, inv y st -> (forall k, In k l -> (k < nCols)%nat) ->
              inv y (fold_left (round_col isInt) l st)).
  { induction l as [|k l IH]; cbn [fold_left]; intros s P Q; [exact P|].
    apply IH; [|intros; apply Q; now right]. apply round_inv; auto. apply Q. now left. }
  apply G; [exact W|exact C].
Qed.
Lemma passes_inv y k : forall odd look st st',
  (forall j, (j < nCols)%nat -> isInt j = true -> integral (y j)) ->
  inv y st -> passes k odd look st = Done st' -> inv y st'.
Proof.
  induction k as [|k IH]; intros odd look st st' Y V E; cbn [Model_Probing.passes] in E.
  - apply Done_inj in E. now subst.
  - apply bind_done in E as (st1 & E1 & E). pose proof (pass_inv y odd look st st1 Y V E1) as V1.
    destruct (Nat.eqb (t_inf st1) 0); [|apply Done_inj in E; now subst].
    destruct (Nat.eqb (t_chg st1) 0); [apply Done_inj in E; now subst|].
    eapply IH; eauto.
Qed.

(** ** Freed rows are implied by the final bounds *)

Section Freed.
Variable rl0 ru0 : nat -> option Q.
Hypothesis Small : forall i,
  (forall l, rl0 i = Some l -> - e31 < l - tol) /\ (forall u, ru0 i = Some u -> u + tol < e31).

Definition slackq (j : nat) : Q := if isInt j then eps4 else 0.
Definition activity_ok (i : nat) (bl bu : nat -> Q) : Prop :=
  (forall u, ru0 i = Some u -> sumq (map (top bl bu) (p_form (rows i))) <= u + tol) /\
  (forall l, rl0 i = Some l -> l - tol <= sumq (map (bot bl bu) (p_form (rows i)))).
Definition within (bl bu cl cu s : nat -> Q) : Prop :=
  forall j, (j < nCols)%nat -> bl j - s j <= cl j /\ cu j <= bu j + s j.
Definition zero : nat -> Q := fun _ => 0.
(** [c0l], [c0u]: the bounds at the start of the pass. *)
Definition row_state (c0l c0u : nat -> Q) (st : tstate) (i : nat) : Prop :=
  (t_rl st i = rl0 i /\ t_ru st i = ru0 i) \/
  (t_rl st i = None /\ t_ru st i = None /\
   exists bl bu, activity_ok i bl bu /\
     (within bl bu (t_cl st) (t_cu st) zero \/ within bl bu c0l c0u slackq)).
Definition during (c0l c0u : nat -> Q) (st : tstate) : Prop :=
  inside c0l c0u st /\ forall i, row_state c0l c0u st i.

Lemma tighter_during c0l c0u st st' : during c0l c0u st ->
  t_rl st' = t_rl st -> t_ru st' = t_ru st ->
  (forall j, t_cl st j <= t_cl st' j /\ t_cu st' j <= t_cu st j) -> during c0l c0u st'.
Proof.
  intros [I R] E1 E2 H. split.
  - intro j. destruct (I j), (H j). split; lra.
  - intro i. destruct (R i) as [A|(A & B & bl & bu & C & D)].
    + left. now rewrite E1, E2.
    + right. rewrite E1, E2. conjs; auto. exists bl, bu. split; [exact C|].
      destruct D as [D|D]; [left|right; exact D].
      intros j J. destruct (D j J), (H j). unfold zero in *. split; lra.
Qed.
Lemma entry_tighter lo hi up st e st' :
  (if up : bool then up_entry lo hi st e else down_entry lo hi st e) = Done st' ->
  t_rl st' = t_rl st /\ t_ru st' = t_ru st /\
  (forall j, t_cl st j <= t_cl st' j /\ t_cu st' j <= t_cu st j).
Proof.
  intro E. destruct e as [j a].
  assert (X : Done st = Done st' -> t_rl st' = t_rl st /\ t_ru st' = t_ru st /\
              (forall j, t_cl st j <= t_cl st' j /\ t_cu st' j <= t_cu st j)).
  { intro H. apply Done_inj in H. subst. conjs; auto. intro; split; lra. }
  assert (Y : forall b, (t_cl st j + eps8 <? b) = true -> changed (set_lower st j b) j = Done st' ->
              t_rl st' = t_rl st /\ t_ru st' = t_ru st /\
              (forall j, t_cl st j <= t_cl st' j /\ t_cu st' j <= t_cu st j)).
  { intros b Q H. apply changed_fields in H as (H1 & H2 & H3 & H4 & _). rewrite H1, H2, H3, H4.
    cbn [set_lower t_cl t_cu t_rl t_ru]. conjs; auto. intro k. split; [|lra].
    destruct (set_at_case (t_cl st) j b k) as [[-> ->]|[_ ->]]; [|lra].
    apply Qltb_lt in Q. unfold eps8 in Q. lra. }
  assert (W : forall b, (b <? t_cu st j - eps8) = true -> changed (set_upper st j b) j = Done st' ->
              t_rl st' = t_rl st /\ t_ru st' = t_ru st /\
              (forall j, t_cl st j <= t_cl st' j /\ t_cu st' j <= t_cu st j)).
  { intros b Q H. apply changed_fields in H as (H1 & H2 & H3 & H4 & _). rewrite H1, H2, H3, H4.
    cbn [set_upper t_cl t_cu t_rl t_ru]. conjs; auto. intro k. split; [lra|].
    destruct (set_at_case (t_cu st) j b k) as [[-> ->]|[_ ->]]; [|lra].
    apply Qltb_lt in Q. unfold eps8 in Q. lra. }
  destruct up.
  - unfold Model_Probing.up_entry in E. cbv zeta in E.
    destruct (0 <? a); destruct (_ <? e12) in E || destruct (- e12 <? _) in E; auto.
    + match type of E with (if ?b then _ else _) = _ => destruct b eqn:Q end; eauto.
    + match type of E with (if ?b then _ else _) = _ => destruct b eqn:Q end; eauto.
  - unfold Model_Probing.down_entry in E. cbv zeta in E.
    destruct (a <? 0); destruct (_ <? e12) in E || destruct (- e12 <? _) in E; auto.
    + match type of E with (if ?b then _ else _) = _ => destruct b eqn:Q end; eauto.
    + match type of E with (if ?b then _ else _) = _ => destruct b eqn:Q end; eauto.
Qed.

Lemma step_row_during c0l c0u odd st i st' :
  during c0l c0u st -> step_row odd st i = Done st' -> during c0l c0u st'.
Proof.
  intros V E. unfold Model_Probing.step_row in E. cbv zeta in E.
  destruct (t_stop st); [apply Done_inj in E; now subst|].
  destruct (lo_lt (t_rl st i) (- e20) && hi_gt (t_ru st i) e20) eqn:Fr; [apply Done_inj in E; now subst|].
  destruct (up_sum st (rows i)) as [us fu] eqn:EU. destruct (down_sum st (rows i)) as [ds fd] eqn:ED.
  match type of E with (if ?b then _ else _) = _ => destruct b eqn:EQ end.
  { apply Done_inj in E. subst st'. destruct V as [I R]. split; [exact I|].
    intro k. unfold drop_row. unfold row_state. simpl.
    destruct (set_at_case (t_rl st) i None k) as [[E1 ->]|[N1 ->]];
    destruct (set_at_case (t_ru st) i None k) as [[E2 ->]|[N2 ->]]; try congruence; [|exact (R k)].
    subst k. destruct (R i) as [[A B]|(A & B & C)]; [|right; auto].
    right. conjs; auto. exists (t_cl st), (t_cu st). split.
    - destruct (Small i) as [S1 S2]. rewrite A, B in EQ. apply andb_true_iff in EQ as [Q1 Q2].
      split.
      + intros u U. rewrite U in Q1. apply Qleb_le in Q1. specialize (S2 u U).
        destruct (Nat.eqb fu 0) eqn:F; [|lra]. apply Nat.eqb_eq in F. subst fu.
        pose proof (up_sum_eq st (rows i) (Sgn i)) as K. rewrite EU in K. cbn [fst snd] in K.
        destruct (K eq_refl) as (K1 & _). lra.
      + intros l L. rewrite L in Q2. apply Qleb_le in Q2. specialize (S1 l L).
        destruct (Nat.eqb fd 0) eqn:F; [|lra]. apply Nat.eqb_eq in F. subst fd.
        pose proof (down_sum_eq st (rows i) (Sgn i)) as K. rewrite ED in K. cbn [fst snd] in K.
        destruct (K eq_refl) as (K1 & _). lra.
    - left. intros j J. unfold zero. split; lra. }
  match type of E with (if ?b then _ else _) = _ => destruct b end.
  { apply Done_inj in E. subst st'. exact V. }
  apply bind_done in E as (st1 & E1 & E2).
  assert (V1 : during c0l c0u st1).
  { destruct (t_rl st i) as [l|]; [|apply Done_inj in E1; now subst].
    match type of E1 with (if ?b then _ else _) = _ => destruct b end; [|apply Done_inj in E1; now subst].
    revert E1. apply (ofold_inv (during c0l c0u)); [|exact V].
    intros s e s' _ P E. apply (entry_tighter _ _ true) in E as (A & B & C).
    eapply tighter_during; eauto. }
  destruct (t_ru st i) as [u|]; [|apply Done_inj in E2; now subst].
  match type of E2 with (if ?b then _ else _) = _ => destruct b end; [|apply Done_inj in E2; now subst].
  revert E2. apply (ofold_inv (during c0l c0u)); [|exact V1].
  intros s e s' _ P E. apply (entry_tighter _ _ false) in E as (A & B & C).
  eapply tighter_during; eauto.
Qed.

Lemma floor_again q : qfloor (qfloor q + eps4) = qfloor q.
Proof.
  unfold qfloor at 1 3. f_equal. apply Qfloor_unique; unfold qfloor, eps4; lra.
Qed.
Lemma ceil_unique q (z : Z) : inject_Z z - 1 < q -> q <= inject_Z z -> Qceiling q = z.
Proof.
  intros A B. unfold Qceiling. rewrite (Qfloor_unique (- q) (- z)); [lia| |].
  - rewrite inject_Z_opp. lra.
  - rewrite inject_Z_opp. lra.
Qed.
Lemma ceil_again q : qceil (qceil q - eps4) = qceil q.
Proof.
  unfold qceil at 1 3. f_equal. apply ceil_unique; unfold qceil, eps4; lra.
Qed.
Definition rounded (st1 st : tstate) : Prop := forall j,
  (t_cl st j = t_cl st1 j \/ (isInt j = true /\ t_cl st j = qceil (t_cl st1 j - eps4))) /\
  (t_cu st j = t_cu st1 j \/ (isInt j = true /\ t_cu st j = qfloor (t_cu st1 j + eps4))).
Lemma rounded_step st1 st k : rounded st1 st -> rounded st1 (round_col isInt st k).
Proof.
  intros H. unfold round_col. destruct (isInt k) eqn:I; [|exact H].
  intro j. destruct (H j) as [L U]. simpl. split.
  - destruct (set_at_case (t_cl st) k (qceil (t_cl st k - eps4)) j) as [[E ->]|[_ ->]]; [|exact L].
    subst j. right. split; [exact I|]. destruct L as [->|[_ ->]]; [reflexivity|apply ceil_again].
  - destruct (set_at_case (t_cu st) k (qfloor (t_cu st k + eps4)) j) as [[E ->]|[_ ->]]; [|exact U].
    subst j. right. split; [exact I|]. destruct U as [->|[_ ->]]; [reflexivity|apply floor_again].
Qed.
Lemma rounded_all l : forall st, rounded st (fold_left (round_col isInt) l st).
Proof.
  intro st0. assert (G : forall l st, rounded st0 st -> rounded st0 (fold_left (round_col isInt) l st)).
  { induction l0 as [|k l0 IH]; cbn [fold_left]; intros st H; [exact H|]. apply IH. now apply rounded_step. }
  apply G. intro j. auto.
Qed.
Lemma round_rows l : forall st, t_rl (fold_left (round_col isInt) l st) = t_rl st /\
  t_ru (fold_left (round_col isInt) l st) = t_ru st.
Proof.
  induction l as [|k l IH]; cbn [fold_left]; intro st; [auto|].
  destruct (IH (round_col isInt st k)) as [-> ->]. unfold round_col. destruct (isInt k); auto.
Qed.

(** Integer bounds are integral between passes. *)
Definition between (st : tstate) : Prop :=
  ready st /\ forall i, row_state (t_cl st) (t_cu st) st i.

Lemma floor_int_le q u : integral u -> q <= u -> qfloor (q + eps4) <= u.
Proof.
  intros [z Hz] H. rewrite Hz in *. unfold qfloor. rewrite <- Zle_Qle.
  pose proof (Qfloor_le (q + eps4)) as A.
  assert (B : inject_Z (Qfloor (q + eps4)) < inject_Z (z + 1)).
  { rewrite inject_Z_plus. change (inject_Z 1) with 1. unfold eps4 in *. lra. }
  rewrite <- Zlt_Qlt in B. lia.
Qed.
Lemma ceil_int_ge q l : integral l -> l <= q -> l <= qceil (q - eps4).
Proof.
  intros [z Hz] H. rewrite Hz in *. unfold qceil. rewrite <- Zle_Qle.
  pose proof (Qle_ceiling (q - eps4)) as A.
  assert (B : inject_Z (z - 1) < inject_Z (Qceiling (q - eps4))).
  { unfold Z.sub. rewrite inject_Z_plus. change (inject_Z (- (1))) with (- (1)). unfold eps4 in *. lra. }
  rewrite <- Zlt_Qlt in B. lia.
Qed.

Lemma pass_between odd look st st' : between st -> pass odd look st = Done st' -> between st'.
Proof.
  intros [Z R] E. split.
  { destruct (pass_ok odd look st Z) as (st2 & E' & Rd). rewrite E in E'. apply Done_inj in E'.
    subst. exact Rd. }
  unfold Model_Probing.pass in E. apply bind_done in E as (st1 & E & E2).
  apply Done_inj in E2. subst st'.
  assert (W : during (t_cl st) (t_cu st) st1).
  { revert E. apply (ofold_inv (during (t_cl st) (t_cu st))).
    - intros s i s' _ P E. eapply step_row_during; eauto.
    - split; [intro j; simpl; split; lra|exact R]. }
  destruct W as [I W]. set (st2 := fold_left (round_col isInt) (t_cols st1) (reset_marks st1)) in *.
  destruct (round_rows (t_cols st1) (reset_marks st1)) as [R1 R2]. fold st2 in R1, R2.
  pose proof (rounded_all (t_cols st1) (reset_marks st1)) as Rd. fold st2 in Rd.
  intro i. unfold row_state. rewrite R1, R2. destruct (W i) as [A|(A & B & bl & bu & C & D)].
  - left. exact A.
  - right. conjs; [exact A|exact B|]. exists bl, bu. split; [exact C|]. right.
    intros j J. destruct (Rd j) as [L U]. cbn [reset_marks t_cl t_cu] in L, U.
    destruct (I j) as [I1 I2]. unfold slackq.
    destruct D as [D|D]; destruct (D j J) as [D1 D2]; unfold zero, slackq in D1, D2.
    + split.
      * destruct L as [->|[T ->]]; [destruct (isInt j); unfold eps4; lra|]. rewrite T.
        pose proof (qceil_ge (t_cl st1 j - eps4)). lra.
      * destruct U as [->|[T ->]]; [destruct (isInt j); unfold eps4; lra|]. rewrite T.
        pose proof (qfloor_le (t_cu st1 j + eps4)). lra.
    + split.
      * destruct L as [->|[T ->]]; [lra|]. destruct (Z j J T) as [Z1 Z2].
        pose proof (ceil_int_ge (t_cl st1 j) (t_cl st j) Z1 I1). lra.
      * destruct U as [->|[T ->]]; [lra|]. destruct (Z j J T) as [Z1 Z2].
        pose proof (floor_int_le (t_cu st1 j) (t_cu st j) Z2 I2). lra.
Qed.
Lemma passes_between k : forall odd look st st', between st ->
  passes k odd look st = Done st' -> between st'.
Proof.
  induction k as [|k IH]; intros odd look st st' V E; cbn [Model_Probing.passes] in E.
  - apply Done_inj in E. now subst.
  - apply bind_done in E as (st1 & E1 & E). pose proof (pass_between odd look st st1 V E1) as V1.
    destruct (Nat.eqb (t_inf st1) 0); [|apply Done_inj in E; now subst].
    destruct (Nat.eqb (t_chg st1) 0); [apply Done_inj in E; now subst|].
    eapply IH; eauto.
Qed.

(** What a freed row means for a point within the final bounds. *)
Definition rounding_slack (i : nat) : Q :=
  sumq (map (fun e => Qabs (snd e) * slackq (fst e)) (p_form (rows i))).
Lemma row_state_use st i y : row_state (t_cl st) (t_cu st) st i ->
  box nCols (t_cl st) (t_cu st) y ->
  (t_rl st i = rl0 i /\ t_ru st i = ru0 i) \/
  (forall u, ru0 i = Some u -> value (p_form (rows i)) y <= u + tol + rounding_slack i) /\
  (forall l, rl0 i = Some l -> l - tol - rounding_slack i <= value (p_form (rows i)) y).
Proof.
  intros [R|(_ & _ & bl & bu & [A1 A2] & D)] B; [left; exact R|right].
  assert (W : within bl bu (t_cl st) (t_cu st) slackq).
  { destruct D as [D|D]; [|exact D]. intros j J. destruct (D j J). unfold zero, slackq in *.
    destruct (isInt j); unfold eps4; split; lra. }
  assert (T : sumq (map (top (t_cl st) (t_cu st)) (p_form (rows i)))
              <= sumq (map (top bl bu) (p_form (rows i))) + rounding_slack i).
  { unfold rounding_slack. rewrite <- sumq_plus. apply sumq_le. intros e I.
    destruct (W (fst e) (Cols i e I)) as [W1 W2]. unfold top.
    destruct (0 <? snd e) eqn:S; qb.
    - rewrite Qabs_pos by lra. nra.
    - rewrite Qabs_neg by lra. nra. }
  assert (T' : sumq (map (bot bl bu) (p_form (rows i)))
              <= sumq (map (bot (t_cl st) (t_cu st)) (p_form (rows i))) + rounding_slack i).
  { unfold rounding_slack. rewrite <- sumq_plus. apply sumq_le. intros e I.
    destruct (W (fst e) (Cols i e I)) as [W1 W2]. unfold bot.
    destruct (0 <? snd e) eqn:S; qb.
    - rewrite Qabs_pos by lra. nra.
    - rewrite Qabs_neg by lra. nra. }
  pose proof (top_sum nCols _ _ y (p_form (rows i)) B (Cols i)) as U1.
  pose proof (bot_sum nCols _ _ y (p_form (rows i)) B (Cols i)) as U2.
  split.
  - intros u H. specialize (A1 u H). lra.
  - intros l H. specialize (A2 l H). lra.
Qed.
End Freed.
End Run.
