(** * CglKnapsackCover: from a row to its cuts *)

From Coq Require Import Permutation Sorted Qabs.
From Verif Require Import Base Proofs_Clique Model_KnapsackCover Proofs_Knapsack Proofs_KnapsackLift
  Proofs_KnapsackUpDown Proofs_KnapsackSearch.
Local Open Scope Q_scope.

(** The point in complemented variables. *)
Definition comp (fl : nat -> bool) (w : nat -> Q) : nat -> Q := fun j => if fl j then 1 - w j else w j.

(** ** Undoing the complementation *)
Lemma uncomplement_value fl cut rhs w :
  value (rc_form (uncomplement fl cut rhs)) w - fold_left (fun s (e : nat * Q) => if fl (fst e) then s + - snd e else s) cut rhs ==
  value cut (comp fl w) - rhs.
Proof.
  unfold uncomplement; cbn [rc_form]. revert rhs. induction cut as [|[j a] cut IH]; intro rhs; [reflexivity|].
  cbn [map fold_left value fst snd]. unfold comp at 1.
  destruct (fl j); cbn [value]; [specialize (IH (rhs + - a))|specialize (IH rhs)]; lra.
Qed.
Lemma uncomplement_iff fl cut rhs w :
  rowcut_sat (uncomplement fl cut rhs) w <-> value cut (comp fl w) <= rhs.
Proof.
  pose proof (uncomplement_value fl cut rhs w) as E. unfold rowcut_sat, uncomplement in *. cbn [rc_form rc_lb rc_ub ge_opt_lo le_opt_hi] in *.
  split; [intros [_ H]; lra|intro H; split; [exact I|lra]].
Qed.

(** ** deriveAKnapsack *)
Definition sizable (v : list item) : Prop := forall e, In e v -> snd e < - eps \/ eps < snd e.
Definition bounds_on (m : mip) (v : list item) (y : nat -> Q) : Prop :=
  forall e, In e v -> ge_opt_lo (y (fst e)) (m_clo m (fst e)) /\ le_opt_hi (y (fst e)) (m_chi m (fst e)).

Lemma free_binary_bounds m j : free_binary m j = true ->
  m_int m j = true /\ exists l u, m_clo m j = Some l /\ m_chi m j = Some u /\ l == 0 /\ u == 1.
Proof.
  unfold free_binary, opt_is. intro H. apply andb_true_iff in H as [H H2]. apply andb_true_iff in H as [H0 H1].
  split; [exact H0|]. destruct (m_clo m j) as [l|]; [|discriminate]. destruct (m_chi m j) as [u|]; [|discriminate].
  qb. exists l, u. auto.
Qed.

Lemma net_out_ok m : forall v b raw b', net_out m v b = Some (raw, b') ->
  (forall y, sizable v -> bounds_on m v y -> b - b' <= value v y - value raw y) /\
  incl raw v /\ (NoDup (map fst v) -> NoDup (map fst raw)) /\
  (forall e, In e raw -> free_binary m (fst e) = true).
Proof.
  induction v as [|[j a] v IH]; intros b raw b' E; cbn [net_out] in E.
  - apply Some_inj in E. inversion E; subst. split; [intros; simpl; lra|]. split; [apply incl_refl|]. split; [auto|intros e []].
  - assert (Sub : forall y, sizable ((j, a) :: v) -> bounds_on m ((j, a) :: v) y -> sizable v /\ bounds_on m v y).
    { intros y S B. split; intros e I; [apply S|apply B]; right; exact I. }
    assert (ND : forall r, incl r v -> NoDup (map fst ((j, a) :: v)) -> ~ In j (map fst r)).
    { intros r I H. inversion H; subst. intro K. apply in_map_iff in K as (e & <- & Ie). apply I in Ie. apply H2. apply in_map. exact Ie. }
    destruct (free_binary m j) eqn:FB.
    + destruct (net_out m v b) as [[k b1]|] eqn:E1; [|discriminate]. apply Some_inj in E. inversion E; subst.
      destruct (IH b k b' E1) as (I1 & I2 & I3 & I4). split; [|split; [|split]].
      * intros y S B. destruct (Sub y S B) as [S1 B1]. specialize (I1 y S1 B1). simpl. lra.
      * intros e [<-|I]; [left; reflexivity|right; apply I2; exact I].
      * intro H. simpl. constructor; [exact (ND k I2 H)|apply I3; simpl in H; inversion H; assumption].
      * intros e [<-|I]; [exact FB|exact (I4 e I)].
    + assert (Step : forall d, (forall y, sizable ((j, a) :: v) -> bounds_on m ((j, a) :: v) y -> d <= a * y j) ->
                net_out m v (b - d) = Some (raw, b') -> 
                (forall y, sizable ((j, a) :: v) -> bounds_on m ((j, a) :: v) y -> b - b' <= value ((j, a) :: v) y - value raw y) /\
                incl raw ((j, a) :: v) /\ (NoDup (map fst ((j, a) :: v)) -> NoDup (map fst raw)) /\
                (forall e, In e raw -> free_binary m (fst e) = true)).
      { intros d D E1. destruct (IH (b - d) raw b' E1) as (I1 & I2 & I3 & I4). split; [|split; [|split]].
        - intros y S B. destruct (Sub y S B) as [S1 B1]. specialize (I1 y S1 B1). specialize (D y S B). simpl. lra.
        - apply incl_tl. exact I2.
        - intro H. apply I3. simpl in H. inversion H; assumption.
        - exact I4. }
      destruct (a <? - eps) eqn:Q0; qb.
      * destruct (m_chi m j) as [u|] eqn:U; [|discriminate]. apply (Step (a * u)); [|exact E].
        intros y S B. destruct (B (j, a) (or_introl eq_refl)) as [_ B2]. simpl in B2. rewrite U in B2. simpl in B2.
        assert (X : 0 <= (- a) * (u - y j)) by (apply Qmult_le_0_compat; unfold eps in Q0; lra). lra.
      * destruct (eps <? a) eqn:Q1; qb.
        -- destruct (m_clo m j) as [l|] eqn:Lo; [|discriminate]. apply (Step (a * l)); [|exact E].
           intros y S B. destruct (B (j, a) (or_introl eq_refl)) as [B1 _]. simpl in B1. rewrite Lo in B1. simpl in B1.
           assert (X : 0 <= a * (y j - l)) by (apply Qmult_le_0_compat; unfold eps in Q1; lra). lra.
        -- destruct (IH b raw b' E) as (I1 & I2 & I3 & I4). split; [|split; [|split]].
           ++ intros y S B. exfalso. destruct (S (j, a) (or_introl eq_refl)) as [H|H]; simpl in H; lra.
           ++ apply incl_tl. exact I2.
           ++ intro H. apply I3. simpl in H. inversion H; assumption.
           ++ exact I4.
Qed.

Lemma flip_rhs_shift v b : flip_rhs v b == b + flip_rhs v 0.
Proof.
  unfold flip_rhs. assert (G : forall v b, fold_left (fun s (e : nat * Q) => if snd e <? - eps then s + - snd e else s) v b ==
      b + fold_left (fun s (e : nat * Q) => if snd e <? - eps then s + - snd e else s) v 0).
  { clear. induction v as [|[j a] v IH]; intro b; cbn [fold_left snd]; [lra|].
    destruct (a <? - eps); [rewrite IH, (IH (0 + - a)); lra|apply IH]. }
  apply G.
Qed.
Lemma flip_value fl y : forall raw b, (forall e, In e raw -> fl (fst e) = (snd e <? - eps)) ->
  value (map flip raw) (comp fl y) - flip_rhs raw b == value raw y - b.
Proof.
  induction raw as [|[j a] raw IH]; intros b H; [unfold flip_rhs; simpl; lra|].
  pose proof (H (j, a) (or_introl eq_refl)) as Hj. simpl in Hj.
  specialize (IH b (fun e I => H e (or_intror I))). rewrite (flip_rhs_shift raw b) in IH.
  rewrite flip_rhs_shift. unfold flip_rhs at 1. cbn [map fold_left snd]. unfold flip at 1; cbn [fst snd].
  destruct (a <? - eps); cbn [value]; unfold comp at 1; rewrite Hj.
  - change (fold_left _ raw (0 + - a)) with (flip_rhs raw (0 + - a)). rewrite (flip_rhs_shift raw (0 + - a)). cbn [value]. lra.
  - change (fold_left _ raw 0) with (flip_rhs raw 0). cbn [value]. lra.
Qed.
Lemma flipped_at raw : NoDup (map fst raw) -> forall e, In e raw -> flipped raw (fst e) = (snd e <? - eps).
Proof.
  intros ND [j a] I. simpl. unfold flipped. destruct (a <? - eps) eqn:Q0.
  - apply existsb_exists. exists (j, a). split; [exact I|]. simpl. rewrite Nat.eqb_refl, Q0. reflexivity.
  - apply not_true_is_false. intro H. apply existsb_exists in H as ([j2 a2] & I2 & H). simpl in H.
    apply andb_true_iff in H as [H1 H2]. apply Nat.eqb_eq in H1. subst j2.
    assert (E : (j, a2) = (j, a)).
    { clear - ND I I2. induction raw as [|[k c] raw IH]; [destruct I|]. simpl in ND. inversion ND as [|? ? N1 N2]; subst.
      destruct I as [I|I], I2 as [I2|I2].
      - congruence.
      - inversion I; subst. exfalso. apply N1. apply (in_map fst) in I2. exact I2.
      - inversion I2; subst. exfalso. apply N1. apply (in_map fst) in I. exact I.
      - apply IH; assumption. }
    inversion E; subst. congruence.
Qed.
Lemma value_negated v y : value (negated v) y == - value v y.
Proof. induction v as [|[j a] v IH]; simpl; [lra|]. rewrite IH. lra. Qed.

Definition row_side (less : bool) (b : Q) (v : list item) (y : nat -> Q) : Prop :=
  if less then value v y <= b else b <= value v y.

Lemma derive_ok m x less b v cc ok : sizable v -> NoDup (map fst v) ->
  deriveAKnapsack m x less b v = (cc, ok) ->
  (cc <> [] -> forall y, bounds_on m v y -> row_side less b v y -> False) /\
  match ok with
  | None => True
  | Some k =>
      (forall y, bounds_on m v y -> row_side less b v y -> value (kn_items k) (comp (kn_flip k) y) <= kn_rhs k) /\
      positive (kn_items k) /\ Forall (fun e => eps < snd e) (kn_items k) /\
      (forall e, In e (kn_items k) -> In (fst e) (map fst v) /\ free_binary m (fst e) = true /\ snd e <= kn_rhs k) /\
      (3 <= length (kn_items k))%nat /\ NoDup (map fst (kn_items k)) /\
      (forall j, kn_x k j = comp (kn_flip k) x j)
  end.
Proof.
  intros S ND E. unfold deriveAKnapsack in E.
  destruct v as [|e0 v0]; [inversion E; subst; split; [congruence|exact I]|].
  set (v := e0 :: v0) in *. cbv zeta in E.
  set (v1 := if less then v else negated v) in *. set (b1 := if less then b else - b) in *.
  assert (S1 : sizable v1).
  { unfold v1. destruct less; [exact S|]. intros e I. unfold negated in I. apply in_map_iff in I as (f & <- & If). simpl.
    destruct (S f If); [right|left]; lra. }
  assert (M1 : map fst v1 = map fst v) by (unfold v1, negated; destruct less; [reflexivity|rewrite map_map; reflexivity]).
  assert (Bd : forall y, bounds_on m v y -> bounds_on m v1 y).
  { intros y B e I. assert (J : In (fst e) (map fst v)) by (rewrite <- M1; apply in_map; exact I).
    apply in_map_iff in J as (f & Ef & If). rewrite <- Ef. apply B. exact If. }
  assert (Rs : forall y, row_side less b v y -> value v1 y <= b1).
  { intros y R. unfold v1, b1, row_side in *. destruct less; [exact R|]. rewrite value_negated. lra. }
  destruct (net_out m v1 b1) as [[raw b2]|] eqn:N; [|inversion E; subst; split; [congruence|exact I]].
  destruct (net_out_ok m v1 b1 raw b2 N) as (N1 & N2 & N3 & N4).
  specialize (N3 ltac:(rewrite M1; exact ND)).
  match type of E with (if ?c then _ else _) = _ => destruct c eqn:Q0 end; [inversion E; subst; split; [congruence|exact I]|].
  apply orb_false_iff in Q0 as [Q0 _]. apply orb_false_iff in Q0 as [Q0 _]. apply Nat.ltb_ge in Q0.
  pose proof (flipped_at raw N3) as FA.
  assert (V : forall y, bounds_on m v y -> row_side less b v y -> value (map flip raw) (comp (flipped raw) y) <= flip_rhs raw b2).
  { intros y B R. pose proof (flip_value (flipped raw) y raw b2 FA) as F. specialize (N1 y S1 (Bd y B)). specialize (Rs y R). lra. }
  assert (Pe : forall e, In e (map flip raw) -> eps < snd e).
  { intros e I. apply in_map_iff in I as (f & <- & If). unfold flip. destruct (snd f <? - eps) eqn:Q1; qb; simpl; [lra|].
    destruct (S1 f (N2 f If)) as [H|H]; [lra|exact H]. }
  assert (Fst : map fst (map flip raw) = map fst raw).
  { rewrite map_map. apply map_ext. intro e. unfold flip. destruct (snd e <? - eps); reflexivity. }
  assert (Nneg : forall y, bounds_on m v y -> row_side less b v y -> 0 <= flip_rhs raw b2).
  { intros y B R. eapply Qle_trans; [|exact (V y B R)].
    assert (G : forall l, (forall e, In e l -> eps < snd e /\ 0 <= comp (flipped raw) y (fst e)) -> 0 <= value l (comp (flipped raw) y)).
    { clear. induction l as [|[j a] l IH]; intros H; simpl; [lra|]. destruct (H (j, a) (or_introl eq_refl)) as [H1 H2]. simpl in H1, H2.
      assert (0 <= a * comp (flipped raw) y j) by (apply Qmult_le_0_compat; [unfold eps in H1; lra|exact H2]).
      specialize (IH (fun e I => H e (or_intror I))). lra. }
    apply G. intros e I. split; [exact (Pe e I)|].
    assert (J : In (fst e) (map fst raw)) by (rewrite <- Fst; apply in_map; exact I).
    apply in_map_iff in J as (f & Ef & If). rewrite <- Ef. destruct (free_binary_bounds m (fst f) (N4 f If)) as (_ & l & u & Hl & Hu & El & Eu).
    destruct (Bd y B f (N2 f If)) as [B1 B2]. rewrite Hl in B1. rewrite Hu in B2. simpl in B1, B2.
    unfold comp. destruct (flipped raw (fst f)); lra. }
  assert (Cut : forall cut, cut = (if flip_rhs raw b2 <? 0 then
                match map flip raw with
                | (j, _) :: _ => [ColCut [(j, match m_chi m j with Some u => u + 1 | None => 1 end)] [(j, match m_chi m j with Some u => u + 1 | None => 1 end)]]
                | [] => [] end else []) -> cut <> [] -> forall y, bounds_on m v y -> row_side less b v y -> False).
  { intros cut -> NE y B R. specialize (Nneg y B R). destruct (flip_rhs raw b2 <? 0) eqn:Q1; [qb; lra|congruence]. }
  destruct (existsb (fun e : nat * Q => flip_rhs raw b2 <? snd e) (map flip raw)) eqn:X; inversion E; subst.
  - split; [apply Cut; reflexivity|exact I].
  - split; [apply Cut; reflexivity|]. cbn [kn_items kn_flip kn_rhs kn_x].
    split; [exact V|]. split; [|split; [|split; [|split; [|split]]]].
    + apply Forall_forall. intros e I. specialize (Pe e I). unfold eps in Pe. lra.
    + apply Forall_forall. exact Pe.
    + intros e I. assert (J : In (fst e) (map fst raw)) by (rewrite <- Fst; apply in_map; exact I).
      apply in_map_iff in J as (f & Ef & If). split; [|split].
      * rewrite <- M1, <- Ef. apply in_map. apply N2. exact If.
      * rewrite <- Ef. apply N4. exact If.
      * destruct (Qlt_le_dec (flip_rhs raw b2) (snd e)) as [L|L]; [|exact L]. exfalso.
        assert (existsb (fun e : nat * Q => flip_rhs raw b2 <? snd e) (map flip raw) = true); [|congruence].
        apply existsb_exists. exists e. split; [exact I|]. apply Qltb_lt. exact L.
    + rewrite map_length. exact Q0.
    + rewrite Fst. exact N3.
    + intro j. unfold comp. reflexivity.
Qed.

(** ** Data on a grid *)
Definition on_grid (d q : Q) : Prop := exists z : Z, q == d * inject_Z z.
Lemma grid_plus d a b : on_grid d a -> on_grid d b -> on_grid d (a + b).
Proof. intros [p P] [q R]. exists (p + q)%Z. rewrite inject_Z_plus, P, R. ring. Qed.
Lemma grid_opp d a : on_grid d a -> on_grid d (- a).
Proof. intros [p P]. exists (- p)%Z. rewrite inject_Z_opp, P. ring. Qed.
Lemma grid_minus d a b : on_grid d a -> on_grid d b -> on_grid d (a - b).
Proof. intros A B. unfold Qminus. apply grid_plus; [exact A|apply grid_opp; exact B]. Qed.
Lemma grid_0 d : on_grid d 0.
Proof. exists 0%Z. change (inject_Z 0) with 0. ring. Qed.
Lemma grid_eq d a b : a == b -> on_grid d a -> on_grid d b.
Proof. intros E [z H]. exists z. rewrite <- E. exact H. Qed.
Lemma grid_le d a b : 0 < d -> on_grid d a -> on_grid d b -> a < b + d -> a <= b.
Proof.
  intros D [p P] [q R] H. rewrite P, R in *.
  assert (p < q + 1)%Z.
  { rewrite Zlt_Qlt, inject_Z_plus. change (inject_Z 1) with 1.
    apply (Qmult_lt_l _ _ d D). lra. }
  assert (inject_Z p <= inject_Z q) by (rewrite <- Zle_Qle; lia).
  apply (proj2 (Qmult_le_l _ _ d D)). exact H1.
Qed.
Lemma weight_grid d v : Forall (fun e : item => on_grid d (snd e)) v -> on_grid d (weight v).
Proof. induction 1; simpl; [apply grid_0|apply grid_plus; assumption]. Qed.
Lemma cw_grid d v i : Forall (fun e : item => on_grid d (snd e)) v -> on_grid d (cw v i).
Proof.
  intro H. unfold cw. revert i. induction H; intros [|i]; simpl; try apply grid_0; [assumption|apply IHForall].
Qed.

Lemma value_nonneg01 v y : positive v -> binary_on v y -> 0 <= value v y.
Proof.
  intros P B. induction P as [|[j a] v P1 P2 IH]; simpl in *; [lra|].
  assert (0 <= value v y) by (apply IH; intros e I; apply B; right; exact I).
  destruct (B (j, a) (or_introl eq_refl)) as [Y|Y]; simpl in Y; rewrite Y; lra.
Qed.

(** ** One derived knapsack *)
Section Knapsack.
  Variable srt : forall A : Type, (A -> Q) -> list A -> list A.
  Variable fuel : nat.
  Hypothesis SRT : sort_spec srt.
  Variable d : Q.
  Hypothesis D : eps2 < d.
  Variable items : list item.
  Variable b : Q.
  Variable fl : nat -> bool.
  Variable x : nat -> Q.
  Hypothesis P : positive items.
  Hypothesis Pe : Forall (fun e => eps < snd e) items.
  Hypothesis G : Forall (fun e : item => on_grid d (snd e)) items.
  Hypothesis Gb : on_grid d b.

  (** satisfied by every 0-1 point of the knapsack *)
  Definition kvalid (r : rowcut) : Prop :=
    forall w, binary_on items (comp fl w) -> value items (comp fl w) <= b -> rowcut_sat r w.

  Lemma grid_sub v v' : Permutation (v ++ v') items -> Forall (fun e : item => on_grid d (snd e)) v.
  Proof.
    intro H. assert (F : Forall (fun e : item => on_grid d (snd e)) (v ++ v')).
    { eapply Permutation_Forall; [apply Permutation_sym; exact H|exact G]. }
    apply Forall_app in F. apply F.
  Qed.
  Lemma lift_add_ok lim cover rem r : lim < b + d ->
    Permutation (cover ++ rem) items -> sorted_cover cover -> last_needed lim cover ->
    (rem = [] -> b < weight cover) ->
    liftAndUncomplementAndAdd b fl cover rem = Done (Some r) -> kvalid r.
  Proof.
    intros L Pm So (u & e & Eu & Wu) Rm E w B K.
    assert (Pp : positive (cover ++ rem)) by (eapply Permutation_Forall; [apply Permutation_sym; exact Pm|exact P]).
    apply Forall_app in Pp as [P1 P2]. pose proof (grid_sub cover rem Pm) as G1.
    assert (B1 : binary_on cover (comp fl w)).
    { intros f I. apply B. apply (Permutation_in _ Pm). apply in_or_app. left. exact I. }
    assert (B2 : binary_on rem (comp fl w)).
    { intros f I. apply B. apply (Permutation_in _ Pm). apply in_or_app. right. exact I. }
    assert (Kv : value cover (comp fl w) + value rem (comp fl w) <= b).
    { rewrite <- value_app. rewrite (value_perm _ _ _ Pm). exact K. }
    unfold liftAndUncomplementAndAdd in E. cbv zeta in E.
    destruct rem as [|f rem].
    - apply Done_inj in E. apply Some_inj in E. subst r. apply uncomplement_iff.
      assert (X : value (ones cover) (comp fl w) + 0 <= inject_Z (Z.of_nat (length cover)) - 1).
      { apply (close_cover (comp fl w) b cover []); auto; [simpl; lra|left; lra]. }
      lra.
    - apply bind_done in E as (c & E1 & E). destruct c as [cut|]; [|discriminate].
      apply Done_inj in E. apply Some_inj in E. subst r. apply uncomplement_iff.
      assert (Dp : 0 < d) by (unfold eps2 in D; lra).
      assert (Min : weight u <= b).
      { apply (grid_le d); auto.
        - apply weight_grid. rewrite Eu in G1. apply Forall_app in G1. apply G1.
        - lra. }
      apply (liftCoverCut_ok b cover (f :: rem) cut (comp fl w)); auto.
      + apply last_first; [exact So|]. exists u, e. auto.
      + set (q := cw cover 0 - (weight cover - b)).
        assert (Gq : on_grid d q).
        { unfold q. apply grid_minus; [apply cw_grid; exact G1|]. apply grid_minus; [apply weight_grid; exact G1|exact Gb]. }
        destruct (Qlt_le_dec q (cw cover 1 - eps)) as [H|H]; [right; exact H|left].
        apply (grid_le d); auto; [apply cw_grid; exact G1|]. unfold eps, eps2 in *. lra.
  Qed.

  (** the LP point: within the knapsack, and 0, 1 or clearly fractional *)
  Hypothesis crisp : forall e, In e items -> x (fst e) == 0 \/ eps <= x (fst e) <= onetol \/ x (fst e) == 1.
  Hypothesis lp : value items x <= b.

  Lemma lp_part frac ones_ rem : Permutation (frac ++ ones_ ++ rem) items ->
    (forall e, In e ones_ -> x (fst e) == 1) -> value frac x <= b - weight ones_.
  Proof.
    intros Pm H. rewrite <- (value_perm _ _ x Pm), !value_app in lp.
    assert (O : value ones_ x == weight ones_).
    { clear - H. induction ones_ as [|[j a] v IH]; simpl; [reflexivity|]. rewrite IH by (intros e I; apply H; right; exact I).
      rewrite (H (j, a) (or_introl eq_refl) : x j == 1). lra. }
    assert (R : 0 <= value rem x).
    { assert (Sub : forall e, In e rem -> In e items).
      { intros e I. apply (Permutation_in _ Pm). apply in_or_app. right. apply in_or_app. right. exact I. }
      clear - P crisp Sub. unfold positive in P. rewrite Forall_forall in P.
      induction rem as [|[j a] v IH]; simpl; [lra|].
      pose proof (Sub (j, a) (or_introl eq_refl)) as I. specialize (P _ I). simpl in P.
      assert (0 <= x j) by (destruct (crisp _ I) as [H|[[H _]|H]]; simpl in H; unfold eps in *; lra).
      assert (0 <= a * x j) by (apply Qmult_le_0_compat; lra).
      specialize (IH (fun e J => Sub e (or_intror J))). lra. }
    lra.
  Qed.
  Lemma frac_pos frac : frac <> [] -> incl frac items -> (forall e, In e frac -> eps <= x (fst e)) -> 0 < value frac x.
  Proof.
    intros N S H. destruct frac as [|[j a] v]; [congruence|].
    assert (V : 0 <= value v x).
    { assert (Sv : incl v items) by (intros e I; apply S; right; exact I).
      assert (Hv : forall e, In e v -> eps <= x (fst e)) by (intros e I; apply H; right; exact I).
      clear - P Sv Hv. unfold positive in P. rewrite Forall_forall in P. induction v as [|[k c] v IH]; simpl; [lra|].
      pose proof (P _ (Sv (k, c) (or_introl eq_refl))) as Pc. pose proof (Hv (k, c) (or_introl eq_refl)) as Xk. simpl in Pc, Xk.
      assert (0 <= c * x k) by (apply Qmult_le_0_compat; unfold eps in Xk; lra).
      assert (0 <= value v x) by (apply IH; intros e I; [apply Sv|apply Hv]; right; exact I). lra. }
    unfold positive in P. rewrite Forall_forall in P.
    pose proof (P _ (S (j, a) (or_introl eq_refl))) as Pa. pose proof (H (j, a) (or_introl eq_refl)) as Xj. simpl in Pa, Xj.
    simpl. assert (0 < a * x j) by (apply Qmult_lt_0_compat; unfold eps in Xj; lra). lra.
  Qed.

  Lemma updown_ok frac ones_ rem r : Permutation (frac ++ ones_ ++ rem) items ->
    frac <> [] -> (forall e, In e frac -> eps <= x (fst e)) -> (forall e, In e ones_ -> x (fst e) == 1) ->
    b - weight ones_ < weight frac ->
    (match ones_ with
     | [] => True
     | e :: _ => (exists f, In f frac /\ weight frac - snd f <= b - weight ones_ + snd e + eps2) \/ length frac = 2%nat
     end) ->
    liftUpDown srt fuel x b fl frac ones_ rem = Done (Some r) -> kvalid r.
  Proof.
    intros Pm N Xf Xo C At E w B K.
    assert (Pp : positive (frac ++ ones_ ++ rem)) by (eapply Permutation_Forall; [apply Permutation_sym; exact Pm|exact P]).
    assert (Ppe : Forall (fun e => eps < snd e) (frac ++ ones_ ++ rem)) by (eapply Permutation_Forall; [apply Permutation_sym; exact Pm|exact Pe]).
    apply Forall_app in Pp as [P1 Pp]. apply Forall_app in Pp as [P2 P3]. apply Forall_app in Ppe as [Pe1 _].
    pose proof (lp_part frac ones_ rem Pm Xo) as Lp.
    assert (Sf : incl frac items) by (intros e I; apply (Permutation_in _ Pm), in_or_app; left; exact I).
    pose proof (frac_pos frac N Sf Xf) as Fp.
    destruct (liftUpDown_inner srt fuel SRT x b fl frac ones_ rem r) as (cut & rhs & -> & _ & Ic & V); auto; [left; lra| |].
    - destruct ones_ as [|e o]; [exact I|]. destruct At as [At|At]; [left; exact At|right].
      split; [exact At|]. split; [exact Xo|]. split; [exact Lp|]. intros f F. specialize (Xf f F). unfold eps in Xf. lra.
    - apply uncomplement_iff.
      set (t := fun j => Qeq_bool (comp fl w j) 1).
      assert (Ag : forall e, In e items -> comp fl w (fst e) == pt t (fst e)).
      { intros e I. unfold pt, t. destruct (Qeq_bool (comp fl w (fst e)) 1) eqn:Q0; qb; [exact Q0|].
        destruct (B e I) as [Y|Y]; [exact Y|contradiction]. }
      assert (Ex : forall v, incl (map fst v) (map fst items) -> value v (comp fl w) == value v (pt t)).
      { clear - Ag. induction v as [|[j a] v IH]; intro H; [reflexivity|]. cbn [value].
        assert (J : In j (map fst items)) by (apply H; left; reflexivity).
        apply in_map_iff in J as (f & Ef & If). rewrite <- Ef, (Ag f If). rewrite IH; [reflexivity|].
        intros k I. apply H. right. exact I. }
      assert (Ms : incl (map fst (frac ++ ones_ ++ rem)) (map fst items)).
      { intros k I. eapply Permutation_in; [apply Permutation_map; exact Pm|exact I]. }
      rewrite Ex by (eapply incl_tran; [exact Ic|exact Ms]). apply V.
      rewrite (Ex items (incl_refl _)) in K. rewrite <- (value_perm _ _ (pt t) Pm), !value_app in K. lra.
  Qed.

  Lemma one_knapsack_ok expensive longRow cs cs' :
    one_knapsack srt fuel expensive longRow (Knap items b fl x) cs = Done cs' ->
    forall r, In r cs' -> In r cs \/ kvalid r.
  Proof.
    intro E. unfold one_knapsack in E. cbv zeta in E. cbn [kn_items kn_rhs kn_flip kn_x] in E.
    destruct (by_weight_ok srt SRT items) as [Pk Sk]. set (krow := by_weight srt items) in *.
    assert (Ppos : positive krow) by (eapply positive_perm; [exact Pk|exact P]).
    apply bind_done in E as (g & E1 & E).
    assert (Gr : match g with None => True | Some cs1 => forall r, In r cs1 -> In r cs \/ kvalid r end).
    { destruct (findGreedyCover x krow b) as [[cover rem]|] eqn:F.
      - apply bind_done in E1 as (c & E2 & E1). apply Done_inj in E1. subst g. destruct c as [r0|]; [|exact I].
        intros r Hr. apply insert_new_in in Hr as [Hr| ->]; [left; exact Hr|right].
        destruct (greedy_ok x krow b cover rem F) as (H1 & H2 & _ & H3 & H4).
        apply (lift_add_ok (b + eps2) cover rem r0); auto; [lra|eapply Permutation_trans; eassumption|intros _; unfold eps2 in H2; lra].
      - apply Done_inj in E1. subst g. auto. }
    destruct g as [cs1|]; [|apply Done_inj in E; subst cs'; auto].
    apply bind_done in E as (p & Ep & E). apply bind_done in E as (cs2 & E2 & E). apply bind_done in E as (cs3 & E3 & E).
    apply bind_done in E as (mv & Em & E).
    assert (H2 : forall r, In r cs2 -> In r cs \/ kvalid r).
    { destruct p as [[cover rem]|]; [|apply Done_inj in E2; subst cs2; exact Gr].
      match type of E2 with (if ?c then _ else _) = _ => destruct c end; [|apply Done_inj in E2; subst cs2; exact Gr].
      apply bind_done in E2 as (c & E4 & E2). apply Done_inj in E2. subst cs2. destruct c as [r0|]; [|exact Gr].
      intros r Hr. simpl in Hr. apply insert_new_in in Hr as [Hr| ->]; [exact (Gr r Hr)|right].
      destruct (pseudo_ok srt x SRT krow b cover rem Ppos Ep) as ([C1 C2 C3 C4] & _ & C5).
      set (frac := filter (fun e : nat * Q => x (fst e) <? 1) cover) in *.
      set (on := filter (fun e : nat * Q => negb (x (fst e) <? 1)) cover) in *.
      assert (Pc : Permutation (frac ++ on) cover).
      { eapply Permutation_trans; [apply Permutation_app_comm|]. apply filter_split. }
      assert (Pm : Permutation (frac ++ on ++ rem) items).
      { rewrite app_assoc. eapply Permutation_trans; [apply Permutation_app_tail; exact Pc|]. eapply Permutation_trans; eassumption. }
      assert (Wc : weight frac + weight on == weight cover) by (rewrite <- weight_app; apply weight_perm; exact Pc).
      assert (Xo : forall e, In e on -> x (fst e) == 1).
      { intros e I. assert (Ie : In e items) by (apply (Permutation_in _ Pm), in_or_app; right; apply in_or_app; left; exact I).
        unfold on in I. apply filter_In in I as [_ I]. apply negb_true_iff in I. qb.
        destruct (crisp e Ie) as [H|[[_ H]|H]]; [lra|unfold onetol, eps in H; lra|exact H]. }
      pose proof (lp_part frac on rem Pm Xo) as Lp.
      assert (Nf : frac <> []).
      { intro Z. rewrite Z in *. simpl in *. lra. }
      apply (updown_ok frac on rem r0); auto.
      - intros e I. apply C5. unfold frac in I. apply filter_In in I. apply I.
      - lra.
      - destruct on as [|e1 o] eqn:Eo; [exact I|left]. destruct C3 as (u & e & Eu & Wu).
        assert (Ie : In e (frac ++ e1 :: o)) by (apply (Permutation_in _ (Permutation_sym Pc)); rewrite Eu; apply in_or_app; right; left; reflexivity).
        rewrite Eu, weight_app in Wc. cbn [weight fold_right] in Wc. fold (weight o) in *.
        change (weight (e1 :: o)) with (snd e1 + weight o).
        apply in_app_or in Ie as [Ie|Ie].
        + exists e. split; [exact Ie|]. assert (0 < snd e1).
          { assert (I1 : In e1 items) by (apply (Permutation_in _ Pm), in_or_app; right; left; reflexivity).
            unfold positive in P. rewrite Forall_forall in P. apply P. exact I1. }
          unfold eps2. lra.
        + destruct frac as [|f frac0]; [congruence|]. exists f. split; [left; reflexivity|].
          assert (If : 0 < snd f).
          { assert (I1 : In f items) by (apply (Permutation_in _ Pm); left; reflexivity).
            unfold positive in P. rewrite Forall_forall in P. apply P. exact I1. }
          assert (Hv : snd e <= snd e1).
          { assert (I1 : In e1 cover) by (apply (Permutation_in _ Pc), in_or_app; right; left; reflexivity).
            rewrite Eu in I1. apply in_app_or in I1 as [I1|[I1|[]]]; [|subst; lra].
            rewrite Eu in C4. clear - C4 I1. induction u as [|a u IH]; [destruct I1|]. simpl in C4. inversion C4 as [|? ? S1 S2]; subst.
            destruct I1 as [->|I1]; [|apply IH; assumption]. rewrite Forall_forall in S2. apply (S2 e). apply in_or_app. right. left. reflexivity. }
          unfold eps2. lra. }
    assert (H3 : forall r, In r cs3 -> In r cs \/ kvalid r).
    { destruct (expensive || Nat.leb (length krow) longRow); [|apply Done_inj in E3; subst cs3; exact H2].
      apply bind_done in E3 as (je & Ej & E3). destruct je as [[[frac on] rem]|]; [|apply Done_inj in E3; subst cs3; exact H2].
      apply bind_done in E3 as (c & E4 & E3). apply Done_inj in E3. subst cs3. destruct c as [r0|]; [|exact H2].
      intros r Hr. simpl in Hr. apply insert_new_in in Hr as [Hr| ->]; [exact (H2 r Hr)|right].
      destruct (je_ok srt x SRT krow b frac on rem Ppos Ej) as (J1 & J2 & J3 & J4 & J5 & J6 & J7).
      assert (Pm : Permutation (frac ++ on ++ rem) items) by (eapply Permutation_trans; eassumption).
      apply (updown_ok frac on rem r0); auto.
      - intros ->. simpl in J4. lia.
      - intros e I. apply J6. exact I.
      - intros e I. assert (Ie : In e items) by (apply (Permutation_in _ Pm), in_or_app; right; apply in_or_app; left; exact I).
        rewrite J2 in I. unfold at_one in I. apply filter_In in I as [_ I]. qb.
        destruct (crisp e Ie) as [H|[[_ H]|H]]; [unfold onetol, eps in I; lra|lra|exact H].
      - unfold eps2 in J3. lra.
      - destruct on as [|e1 o]; [exact I|]. destruct J7 as [(f & F1 & F2)|J7]; [left|right; exact J7].
        exists f. split; [exact F1|]. assert (0 < snd e1).
        { assert (I1 : In e1 items) by (apply (Permutation_in _ Pm), in_or_app; right; left; reflexivity).
          unfold positive in P. rewrite Forall_forall in P. apply P. exact I1. }
        lra. }
    destruct mv as [[cover rem]|]; [|apply Done_inj in E; subst cs'; exact H3].
    apply bind_done in E as (c & E4 & E). apply Done_inj in E. subst cs'. destruct c as [r0|]; [|exact H3].
    intros r Hr. simpl in Hr. apply insert_new_in in Hr as [Hr| ->]; [exact (H3 r Hr)|right].
    destruct (Nat.leb (length krow) 20).
    - destruct (exact_ok srt fuel x SRT krow b cover rem Ppos Em) as ([C1 C2 C3 C4] & C5).
      apply (lift_add_ok b cover rem r0); auto; [unfold eps2 in D; lra|eapply Permutation_trans; eassumption].
    - destruct (lp_ok srt x SRT krow b cover rem Em) as ([C1 C2 C3 C4] & _).
      apply (lift_add_ok (b + (1 # 1000000000000)) cover rem r0); auto; [unfold eps2 in D; lra|eapply Permutation_trans; eassumption|intros _; lra].
  Qed.
End Knapsack.

(** ** Integer data *)
Definition int_vec (v : list item) : Prop := forall e, In e v -> integral (snd e).
Definition int_opt (o : option Q) : Prop := match o with Some q => integral q | None => True end.
Definition int_bounds (m : mip) (v : list item) : Prop :=
  forall e, In e v -> int_opt (m_clo m (fst e)) /\ int_opt (m_chi m (fst e)).

Lemma net_out_int m : forall v b raw b', net_out m v b = Some (raw, b') ->
  int_vec v -> int_bounds m v -> integral b -> integral b'.
Proof.
  induction v as [|[j a] v IH]; intros b raw b' E V B Ib; cbn [net_out] in E.
  - apply Some_inj in E. inversion E; subst. exact Ib.
  - assert (V1 : int_vec v) by (intros e I; apply V; right; exact I).
    assert (B1 : int_bounds m v) by (intros e I; apply B; right; exact I).
    pose proof (V (j, a) (or_introl eq_refl)) as Va. destruct (B (j, a) (or_introl eq_refl)) as [L U]. simpl in Va, L, U.
    destruct (free_binary m j).
    + destruct (net_out m v b) as [[k b1]|] eqn:E1; [|discriminate]. apply Some_inj in E. inversion E; subst. exact (IH b k b' E1 V1 B1 Ib).
    + destruct (a <? - eps).
      * destruct (m_chi m j); [|discriminate]. apply (IH _ _ _ E V1 B1). apply integral_minus; [exact Ib|]. apply integral_mult; assumption.
      * destruct (eps <? a).
        -- destruct (m_clo m j); [|discriminate]. apply (IH _ _ _ E V1 B1). apply integral_minus; [exact Ib|]. apply integral_mult; assumption.
        -- exact (IH _ _ _ E V1 B1 Ib).
Qed.
Lemma flip_rhs_int raw : forall b, int_vec raw -> integral b -> integral (flip_rhs raw b).
Proof.
  unfold flip_rhs. induction raw as [|[j a] v IH]; intros b V Ib; cbn [fold_left]; [exact Ib|].
  apply IH; [intros e I; apply V; right; exact I|]. destruct (snd (j, a) <? - eps); [|exact Ib].
  apply integral_plus; [exact Ib|apply integral_opp]. exact (V (j, a) (or_introl eq_refl)).
Qed.
Lemma derive_int m x less b v cc k : int_vec v -> int_bounds m v -> integral b ->
  deriveAKnapsack m x less b v = (cc, Some k) -> int_vec (kn_items k) /\ integral (kn_rhs k).
Proof.
  intros V B Ib E. unfold deriveAKnapsack in E. destruct v as [|e0 v0]; [inversion E|].
  set (v := e0 :: v0) in *. cbv zeta in E.
  set (v1 := if less then v else negated v) in *. set (b1 := if less then b else - b) in *.
  assert (V1 : int_vec v1).
  { unfold v1. destruct less; [exact V|]. intros e I. unfold negated in I. apply in_map_iff in I as (f & <- & If). simpl.
    apply integral_opp. exact (V f If). }
  assert (B1 : int_bounds m v1).
  { unfold v1. destruct less; [exact B|]. intros e I. unfold negated in I. apply in_map_iff in I as (f & <- & If). simpl. exact (B f If). }
  assert (Ib1 : integral b1) by (unfold b1; destruct less; [exact Ib|apply integral_opp; exact Ib]).
  destruct (net_out m v1 b1) as [[raw b2]|] eqn:N; [|inversion E].
  destruct (net_out_ok m v1 b1 raw b2 N) as (_ & N2 & _ & _).
  assert (V2 : int_vec raw) by (intros e I; apply V1; apply N2; exact I).
  pose proof (net_out_int m v1 b1 raw b2 N V1 B1 Ib1) as Ib2.
  match type of E with (if ?c then _ else _) = _ => destruct c end; [inversion E|].
  match type of E with (if ?c then _ else _) = _ => destruct c end; inversion E; subst. cbn [kn_items kn_rhs].
  split; [|apply flip_rhs_int; assumption].
  intros e I. apply in_map_iff in I as (f & <- & If). unfold flip. destruct (snd f <? - eps); simpl; [apply integral_opp|]; exact (V2 f If).
Qed.

(** ** The row scan *)
Definition bins (m : mip) (v : list item) : list item :=
  filter (fun e : nat * Q => match col_status m (fst e) with SBinary => true | _ => false end) v.
Definition inside (m : mip) (v : list item) : Prop := forall e, In e v -> (fst e < m_ncols m)%nat.
(** the constants contributed by the closed columns *)
Fixpoint fixsum (m : mip) (v : list item) : Q :=
  match v with
  | [] => 0
  | (j, a) :: v' =>
      (if col_open m j then 0 else match m_clo m j with Some l => l | None => 0 end * a) + fixsum m v'
  end.
Definition plain (m : mip) (j : nat) : Prop := col_status m j <> SFree.
Record tables_ok (m : mip) (s : scan_state) : Prop := {
  tb_bin : forall j, s_vub s j = SBinary <-> col_status m j = SBinary;
  tb_binl : forall j, s_vlb s j = SBinary <-> col_status m j = SBinary;
  tb_fix : forall j, s_vub s j = SFixed <-> col_status m j = SFixed;
  tb_free : forall j, s_vub s j = SFree -> col_status m j = SFree }.

Lemma closed_value m j y : col_open m j = false -> (j < m_ncols m)%nat -> in_bounds m y ->
  y j == match m_clo m j with Some l => l | None => 0 end /\ col_status m j = SFixed.
Proof.
  intros C L B. destruct (B j L) as [B1 B2]. unfold col_open, col_status, col_fixed in *.
  destruct (m_clo m j) as [l|]; [|discriminate]. destruct (m_chi m j) as [u|]; [|discriminate]. simpl in *. qb.
  assert (E : Qeq_bool l u = true) by (apply Qeqb_eq; lra). rewrite E. split; [lra|reflexivity].
Qed.
Lemma open_not_fixed m j : col_open m j = true -> col_status m j <> SFixed.
Proof.
  unfold col_open, col_status, col_fixed. intro H. destruct (m_clo m j) as [l|], (m_chi m j) as [u|]; try (destruct (col_binary m j); discriminate).
  qb. destruct (Qeq_bool l u) eqn:E; qb; [lra|destruct (col_binary m j); discriminate].
Qed.

Definition tally_of m x s mult v t0 := fold_left (tally_step m x s mult) v t0.
Lemma tally_fix m x s mult : forall v t0, t_fix (tally_of m x s mult v t0) == t_fix t0 + fixsum m v.
Proof.
  unfold tally_of. induction v as [|[j a] v IH]; intro t0; cbn [fold_left fixsum]; [lra|]. rewrite IH.
  unfold tally_step. cbv zeta. cbn [fst snd]. destruct (col_open m j); [|simpl; lra].
  match goal with |- context [if ?c then _ else _] => destruct c end; [simpl; lra|]. destruct (s_vub s j); simpl; lra.
Qed.
Lemma tally_cont m x s mult : forall v t0, (t_cont t0 <= t_cont (tally_of m x s mult v t0))%nat.
Proof.
  unfold tally_of. induction v as [|[j a] v IH]; intro t0; cbn [fold_left]; [lia|].
  eapply Nat.le_trans; [|apply IH]. unfold tally_step. cbv zeta. cbn [fst snd]. destruct (col_open m j); [|simpl; lia].
  match goal with |- context [if ?c then _ else _] => destruct c end; [simpl; lia|]. destruct (s_vub s j); simpl; lia.
Qed.
(** what one step does *)
Lemma tally_cases m x s mult t0 j a : tables_ok m s ->
  let t1 := tally_step m x s mult t0 (j, a) in
  (col_open m j = true /\ col_status m j = SBinary /\ t_cont t1 = t_cont t0 /\ t_col t1 = t_col t0 /\ t_val t1 = t_val t0) \/
  (col_open m j = false /\ t_cont t1 = t_cont t0 /\ t_col t1 = t_col t0 /\ t_val t1 = t_val t0) \/
  (col_open m j = true /\ t_cont t1 = S (t_cont t0) /\
   (t_col t1 = None \/ (t_col t1 = Some j /\ t_val t1 = a /\ col_status m j = SFree))).
Proof.
  intros T t1. unfold t1, tally_step. cbv zeta. cbn [fst snd]. destruct (col_open m j).
  - match goal with |- context [if ?c then _ else _] => destruct c eqn:Q0 end.
    + left. cbn. split; [reflexivity|]. split; [|auto]. apply orb_true_iff in Q0 as [Q0|Q0].
      * apply (tb_bin m s T). destruct (s_vub s j); try discriminate. reflexivity.
      * apply (tb_binl m s T). destruct (s_vlb s j); try discriminate. reflexivity.
    + right; right. split; [reflexivity|]. destruct (s_vub s j) eqn:Ev; cbn; (split; [reflexivity|]); try (left; reflexivity).
      right. split; [reflexivity|]. split; [reflexivity|]. apply (tb_free m s T). exact Ev.
  - right; left. cbn. auto.
Qed.
Lemma tally_same m x s mult : tables_ok m s -> forall v t0, t_cont (tally_of m x s mult v t0) = t_cont t0 ->
  t_col (tally_of m x s mult v t0) = t_col t0 /\ t_val (tally_of m x s mult v t0) = t_val t0 /\
  (forall y, inside m v -> in_bounds m y -> value v y == value (bins m v) y + fixsum m v /\
    (forall e, In e v -> plain m (fst e))).
Proof.
  intro T. induction v as [|[j a] v IH]; intros t0 E.
  - split; [reflexivity|]. split; [reflexivity|]. intros y _ _. split; [simpl; lra|intros e []].
  - unfold tally_of in *. cbn [fold_left] in *. set (t1 := tally_step m x s mult t0 (j, a)) in *.
    pose proof (tally_cont m x s mult v t1) as Mo. unfold tally_of in Mo.
    destruct (tally_cases m x s mult t0 j a T) as [(O & St & C1 & C2 & C3)|[(O & C1 & C2 & C3)|(O & C1 & _)]]; fold t1 in C1.
    + destruct (IH t1) as (I1 & I2 & I3); [congruence|]. fold t1 in C2, C3. split; [congruence|]. split; [congruence|].
      intros y N B. assert (N1 : inside m v) by (intros e I; apply N; right; exact I).
      destruct (I3 y N1 B) as [V Pl]. split.
      * cbn [value fixsum bins filter fst]. rewrite St, O. cbn [value]. rewrite V. unfold bins. lra.
      * intros e [<-|I]; [unfold plain; simpl; congruence|exact (Pl e I)].
    + destruct (IH t1) as (I1 & I2 & I3); [congruence|]. fold t1 in C2, C3. split; [congruence|]. split; [congruence|].
      intros y N B. assert (N1 : inside m v) by (intros e I; apply N; right; exact I).
      destruct (I3 y N1 B) as [V Pl]. destruct (closed_value m j y O (N (j, a) (or_introl eq_refl)) B) as [Y F]. split.
      * cbn [value fixsum bins filter fst]. rewrite F, O, Y, V. unfold bins. ring.
      * intros e [<-|I]; [unfold plain; simpl; congruence|exact (Pl e I)].
    + exfalso. lia.
Qed.
Lemma tally_one m x s mult : tables_ok m s -> forall v t0 c, t_cont (tally_of m x s mult v t0) = S (t_cont t0) ->
  t_col (tally_of m x s mult v t0) = Some c -> col_status m c = SFree /\
  (forall y, inside m v -> in_bounds m y ->
     value v y == t_val (tally_of m x s mult v t0) * y c + value (bins m v) y + fixsum m v /\
     exists pre post, v = pre ++ (c, t_val (tally_of m x s mult v t0)) :: post /\
       forall e, In e (pre ++ post) -> plain m (fst e)).
Proof.
  intro T. induction v as [|[j a] v IH]; intros t0 c E Ec; [unfold tally_of in E; simpl in E; lia|].
  unfold tally_of in *. cbn [fold_left] in *. set (t1 := tally_step m x s mult t0 (j, a)) in *.
  pose proof (tally_cases m x s mult t0 j a T) as K. cbv zeta in K. fold t1 in K.
  destruct K as [(O & St & C1 & C2 & C3)|[(O & C1 & C2 & C3)|(O & C1 & C4)]].
  - destruct (IH t1 c) as (I0 & I3); [congruence|exact Ec|]. split; [exact I0|].
    intros y N B. assert (N1 : inside m v) by (intros e I; apply N; right; exact I).
    destruct (I3 y N1 B) as [V (pre & post & Ev & Pl)]. split.
    + cbn [value fixsum bins filter fst]. rewrite St, O. cbn [value]. rewrite V. unfold bins. lra.
    + exists ((j, a) :: pre), post. split; [rewrite Ev at 1; reflexivity|].
      intros e [<-|I]; [unfold plain; simpl; congruence|exact (Pl e I)].
  - destruct (IH t1 c) as (I0 & I3); [congruence|exact Ec|]. split; [exact I0|].
    intros y N B. assert (N1 : inside m v) by (intros e I; apply N; right; exact I).
    destruct (I3 y N1 B) as [V (pre & post & Ev & Pl)]. destruct (closed_value m j y O (N (j, a) (or_introl eq_refl)) B) as [Y F]. split.
    + cbn [value fixsum bins filter fst]. rewrite F, O, Y, V. unfold bins. ring.
    + exists ((j, a) :: pre), post. split; [rewrite Ev at 1; reflexivity|].
      intros e [<-|I]; [unfold plain; simpl; congruence|exact (Pl e I)].
  - destruct (tally_same m x s mult T v t1) as (I1 & I2 & I3); [unfold tally_of; congruence|]. unfold tally_of in I1, I2.
    destruct C4 as [C4|(C4 & C5 & C6)]; [congruence|]. assert (j = c) by congruence. subst j.
    split; [exact C6|]. intros y N B. assert (N1 : inside m v) by (intros e I; apply N; right; exact I).
    destruct (I3 y N1 B) as [V Pl]. rewrite I2, C5. split.
    + cbn [value fixsum bins filter fst]. rewrite C6, O, V. unfold bins. lra.
    + exists [], v. split; [reflexivity|exact Pl].
Qed.

(** what the tables say about row k *)
Definition vb_row (m : mip) (r : row) (c : nat) (vb : Q) : Prop :=
  col_status m c = SFree /\
  (forall y, inside m (r_form r) -> in_bounds m y ->
     value (r_form r) y == vb * y c + value (bins m (r_form r)) y + fixsum m (r_form r) /\
     exists pre post, r_form r = pre ++ (c, vb) :: post /\ forall e, In e (pre ++ post) -> plain m (fst e)).
Definition opt_shift (o o' : option Q) (d : Q) : Prop :=
  match o with None => True | Some q => exists q0, o' = Some q0 /\ q == q0 - d end.
Definition row_at (m : mip) (k : nat) : row := nth k (m_rows m) (Row [] None None).
Record scan_ok (m : mip) (s : scan_state) : Prop := {
  sc_tables : tables_ok m s;
  sc_kind : forall k c, s_kind s k = Some c -> In (row_at m k) (m_rows m) /\ vb_row m (row_at m k) c (s_coef s k);
  sc_lo : forall k, opt_shift (s_lo s k) (r_lo (row_at m k)) (fixsum m (r_form (row_at m k)));
  sc_hi : forall k, opt_shift (s_hi s k) (r_hi (row_at m k)) (fixsum m (r_form (row_at m k))) }.

Lemma updf_eq {A} (f : nat -> A) i v j : updf f i v j = if Nat.eqb j i then v else f j.
Proof. reflexivity. Qed.
Lemma scan_row_ok m x tol maxk s i : (i < length (m_rows m))%nat -> scan_ok m s -> scan_ok m (scan_row m x tol maxk s (i, row_at m i)).
Proof.
  intros Li [T K Lo Hi]. unfold scan_row. cbv zeta. set (r := row_at m i).
  match goal with |- context [fold_left (tally_step m x s ?q) _ ?t0] => set (mult := q); set (tt := t0) end.
  fold (tally_of m x s mult (r_form r) tt). set (t := tally_of m x s mult (r_form r) tt).
  assert (Fx : t_fix t == fixsum m (r_form r)) by (unfold t; rewrite tally_fix; simpl; lra).
  assert (Lo' : forall (c : bool) k, opt_shift (updf (s_lo s) i (if c then shift (r_lo r) (t_fix t) else None) k) (r_lo (row_at m k)) (fixsum m (r_form (row_at m k)))).
  { intros c k. rewrite updf_eq. destruct (Nat.eqb k i) eqn:Ek; [|apply Lo]. apply Nat.eqb_eq in Ek. subst k. fold r.
    destruct c; [|exact I]. unfold shift. destruct (r_lo r) as [q|]; [|exact I]. exists q. split; [reflexivity|]. rewrite Fx. reflexivity. }
  assert (Hi' : forall (c : bool) k, opt_shift (updf (s_hi s) i (if c then shift (r_hi r) (t_fix t) else None) k) (r_hi (row_at m k)) (fixsum m (r_form (row_at m k)))).
  { intros c k. rewrite updf_eq. destruct (Nat.eqb k i) eqn:Ek; [|apply Hi]. apply Nat.eqb_eq in Ek. subst k. fold r.
    destruct c; [|exact I]. unfold shift. destruct (r_hi r) as [q|]; [|exact I]. exists q. split; [reflexivity|]. rewrite Fx. reflexivity. }
  assert (Same : forall sk (c1 c2 : bool), scan_ok m (Scan (s_vub s) (s_vlb s) (s_kind s) sk (s_coef s)
      (updf (s_lo s) i (if c1 then shift (r_lo r) (t_fix t) else None)) (updf (s_hi s) i (if c2 then shift (r_hi r) (t_fix t) else None)))).
  { intros sk c1 c2. constructor; cbn [s_kind s_lo s_hi s_coef]; auto. destruct T as [T1 T2 T3 T4]. constructor; assumption. }
  match goal with |- scan_ok m (if ?c then _ else _) => destruct c eqn:Q0 end; [|apply Same].
  destruct (t_col t) as [c|] eqn:Ec; [|apply Same].
  destruct (Nat.eqb (t_cont t) 1 && Nat.eqb (t_bin t) 1) eqn:Q1; [|apply Same].
  apply andb_true_iff in Q1 as [Q1 _]. apply Nat.eqb_eq in Q1.
  destruct (tally_one m x s mult T (r_form r) tt c) as [F V]; [exact Q1|exact Ec|].
  constructor; cbn [s_kind s_lo s_hi s_coef]; auto.
  - destruct T as [T1 T2 T3 T4]. constructor; cbn [s_vub s_vlb].
    + intro j. destruct (0 <? mult * t_val t); [|apply T1]. rewrite updf_eq. destruct (Nat.eqb j c) eqn:Ej; [|apply T1].
      apply Nat.eqb_eq in Ej. subst j. split; congruence.
    + intro j. destruct (0 <? mult * t_val t); [apply T2|]. rewrite updf_eq. destruct (Nat.eqb j c) eqn:Ej; [|apply T2].
      apply Nat.eqb_eq in Ej. subst j. split; congruence.
    + intro j. destruct (0 <? mult * t_val t); [|apply T3]. rewrite updf_eq. destruct (Nat.eqb j c) eqn:Ej; [|apply T3].
      apply Nat.eqb_eq in Ej. subst j. split; congruence.
    + intro j. destruct (0 <? mult * t_val t); [|apply T4]. rewrite updf_eq. destruct (Nat.eqb j c) eqn:Ej; [discriminate|apply T4].
  - intros k c' Ek. rewrite !updf_eq in *. destruct (Nat.eqb k i) eqn:Ei; [|exact (K k c' Ek)].
    apply Nat.eqb_eq in Ei. subst k. apply Some_inj in Ek. subst c'. split; [apply nth_In; exact Li|].
    fold r. split; [exact F|exact V].
Qed.
Lemma indexed_in {A} (l : list A) d : forall i a, In (i, a) (indexed l) -> (i < length l)%nat /\ a = nth i l d.
Proof.
  unfold indexed. intros i a I.
  assert (G : forall l s, In (i, a) (combine (seq s (length l)) l) -> (s <= i < s + length l)%nat /\ a = nth (i - s) l d).
  { clear. induction l as [|b l IH]; intros s I; [destruct I|]. cbn [length seq combine] in I. destruct I as [I|I].
    - inversion I; subst. rewrite Nat.sub_diag. simpl. split; [lia|reflexivity].
    - apply IH in I as [H1 H2]. simpl. split; [lia|]. replace (i - s)%nat with (S (i - S s)) by lia. exact H2. }
  apply G in I as [H1 H2]. rewrite Nat.sub_0_r in H2. split; [lia|exact H2].
Qed.
Lemma scan_rows_ok m x tol maxk : scan_ok m (scan_rows m x tol maxk).
Proof.
  unfold scan_rows.
  assert (G : forall l s, (forall ir, In ir l -> In ir (indexed (m_rows m))) -> scan_ok m s -> scan_ok m (fold_left (scan_row m x tol maxk) l s)).
  { induction l as [|[i r] l IH]; intros s H S; [exact S|]. cbn [fold_left]. apply IH; [intros ir I; apply H; right; exact I|].
    destruct (indexed_in (m_rows m) (Row [] None None) i r (H _ (or_introl eq_refl))) as [H1 ->]. apply scan_row_ok; assumption. }
  apply G; [auto|]. constructor; cbn; try (intros; exact I); [|intros; discriminate].
  constructor; cbn; intros; try tauto; assumption.
Qed.

(** ** Substituting variable bounds *)
Lemma add_to_value y j q : forall v, value (add_to v j q) y == value v y + q * y j.
Proof.
  induction v as [|[k a] v IH]; simpl; [ring|]. destruct (Nat.eqb k j) eqn:E; simpl; [|rewrite IH; ring].
  apply Nat.eqb_eq in E. subst. ring.
Qed.
Lemma set_zero_value y j : forall v,
  value (set_zero v j) y == value v y - match find (fun f : nat * Q => Nat.eqb (fst f) j) v with Some f => snd f | None => 0 end * y j.
Proof.
  induction v as [|[k a] v IH]; simpl; [ring|]. destruct (Nat.eqb k j) eqn:E; simpl; [|rewrite IH; ring].
  apply Nat.eqb_eq in E. subst. ring.
Qed.
Lemma add_all_value y sc : forall l v,
  value (fold_left (fun u (f : nat * Q) => add_to u (fst f) (- (sc * snd f))) l v) y == value v y - sc * value l y.
Proof.
  induction l as [|[k a] l IH]; intro v; cbn [fold_left value]; [ring|]. rewrite IH, add_to_value. simpl. ring.
Qed.
Lemma set_zero_fst j : forall v, map fst (set_zero v j) = map fst v.
Proof. induction v as [|[k a] v IH]; simpl; [reflexivity|]. destruct (Nat.eqb k j); simpl; congruence. Qed.
Lemma add_to_fst j q : forall v, (In j (map fst v) /\ map fst (add_to v j q) = map fst v) \/
  (~ In j (map fst v) /\ map fst (add_to v j q) = map fst v ++ [j]).
Proof.
  induction v as [|[k a] v IH]; simpl; [right; split; [tauto|reflexivity]|]. destruct (Nat.eqb k j) eqn:E; simpl.
  - apply Nat.eqb_eq in E. left. tauto.
  - apply Nat.eqb_neq in E. destruct IH as [[I ->]|[I ->]]; [left; tauto|right; split; [tauto|reflexivity]].
Qed.
Lemma add_all_fst sc : forall l v, NoDup (map fst v) ->
  NoDup (map fst (fold_left (fun u (f : nat * Q) => add_to u (fst f) (- (sc * snd f))) l v)) /\
  (forall k, In k (map fst (fold_left (fun u (f : nat * Q) => add_to u (fst f) (- (sc * snd f))) l v)) -> In k (map fst v) \/ In k (map fst l)).
Proof.
  induction l as [|[j a] l IH]; intros v N; cbn [fold_left]; [split; [exact N|tauto]|]. cbn [fst snd map].
  destruct (add_to_fst j (- (sc * a)) v) as [[I E]|[I E]].
  - destruct (IH (add_to v j (- (sc * a)))) as [H1 H2]; [rewrite E; exact N|]. split; [exact H1|].
    intros k K. destruct (H2 k K) as [H|H]; [left; rewrite <- E; exact H|right; right; exact H].
  - destruct (IH (add_to v j (- (sc * a)))) as [H1 H2].
    { rewrite E. apply nodup_app; [exact N|constructor; [tauto|constructor]|]. intros k K [<-|[]]. contradiction. }
    split; [exact H1|]. intros k K. destruct (H2 k K) as [H|H]; [|right; right; exact H].
    rewrite E in H. apply in_app_or in H as [H|[<-|[]]]; [left; exact H|right; left; reflexivity].
Qed.
Lemma add_to_int j q : forall v, int_vec v -> integral q -> int_vec (add_to v j q).
Proof.
  induction v as [|[k a] v IH]; intros V Q0 e I; simpl in I.
  - destruct I as [<-|[]]. exact Q0.
  - destruct (Nat.eqb k j); destruct I as [<-|I].
    + simpl. apply integral_plus; [exact (V (k, a) (or_introl eq_refl))|exact Q0].
    + apply V. right. exact I.
    + exact (V (k, a) (or_introl eq_refl)).
    + refine (IH _ Q0 e I). intros f F. apply V. right. exact F.
Qed.
Lemma add_all_int sc : integral sc -> forall l v, int_vec l -> int_vec v ->
  int_vec (fold_left (fun u (f : nat * Q) => add_to u (fst f) (- (sc * snd f))) l v).
Proof.
  intro S. induction l as [|[j a] l IH]; intros v L V; cbn [fold_left]; [exact V|].
  apply IH; [intros e I; apply L; right; exact I|]. apply add_to_int; [exact V|].
  apply integral_opp, integral_mult; [exact S|]. exact (L (j, a) (or_introl eq_refl)).
Qed.
Lemma set_zero_int j : forall v, int_vec v -> int_vec (set_zero v j).
Proof.
  induction v as [|[k a] v IH]; intros V e I; simpl in I; [destruct I|].
  destruct (Nat.eqb k j); destruct I as [<-|I].
  - apply integral_0.
  - apply V. right. exact I.
  - exact (V (k, a) (or_introl eq_refl)).
  - refine (IH _ e I). intros f F. apply V. right. exact F.
Qed.

(** Integer data, bounds included, and variable-bound rows with unit
    coefficients on the bounded column. *)
Definition int_data (m : mip) : Prop :=
  (forall r, In r (m_rows m) -> int_opt (r_lo r) /\ int_opt (r_hi r) /\
     forall j a, In (j, a) (r_form r) -> integral a /\ ~ a == 0) /\
  (forall j, (j < m_ncols m)%nat -> int_opt (m_clo m j) /\ int_opt (m_chi m j)).
Definition unit_bounds (m : mip) : Prop :=
  forall r c a pre post, In r (m_rows m) -> r_form r = pre ++ (c, a) :: post -> col_status m c = SFree ->
    (forall e, In e (pre ++ post) -> plain m (fst e)) -> a == 1 \/ a == - (1).
Definition lp_feasible (m : mip) (y : point) : Prop := (forall r, In r (m_rows m) -> row_sat r y) /\ in_bounds m y.

Lemma fixsum_int m v : inside m v -> (forall j, (j < m_ncols m)%nat -> int_opt (m_clo m j) /\ int_opt (m_chi m j)) ->
  int_vec v -> integral (fixsum m v).
Proof.
  intros N B V. induction v as [|[j a] v IH]; cbn [fixsum]; [apply integral_0|]. apply integral_plus.
  - destruct (col_open m j); [apply integral_0|]. apply integral_mult; [|exact (V (j, a) (or_introl eq_refl))].
    destruct (B j (N (j, a) (or_introl eq_refl))) as [L _]. destruct (m_clo m j); [exact L|apply integral_0].
  - apply IH; intros e I; [apply N|apply V]; right; exact I.
Qed.
Lemma drop_fixed_value m s v y : tables_ok m s -> inside m v -> in_bounds m y ->
  value (drop_fixed s v) y == value v y - fixsum m v.
Proof.
  intros T N B. induction v as [|[j a] v IH]; [reflexivity|].
  assert (N1 : inside m v) by (intros e I; apply N; right; exact I). specialize (IH N1).
  cbn [drop_fixed map fst fixsum value]. fold (drop_fixed s v).
  destruct (col_open m j) eqn:O.
  - pose proof (open_not_fixed m j O) as NF. destruct (s_vub s j) eqn:Es; cbn [value]; try (rewrite IH; ring).
    exfalso. apply NF. apply (tb_fix m s T). exact Es.
  - destruct (closed_value m j y O (N (j, a) (or_introl eq_refl)) B) as [Y F].
    apply (tb_fix m s T) in F. rewrite F. cbn [value]. rewrite IH, Y. ring.
Qed.
Lemma drop_fixed_fst s v : map fst (drop_fixed s v) = map fst v.
Proof. unfold drop_fixed. rewrite map_map. apply map_ext. intro e. destruct (s_vub s (fst e)); reflexivity. Qed.
Lemma drop_fixed_int s v : int_vec v -> int_vec (drop_fixed s v).
Proof.
  intros V e I. unfold drop_fixed in I. apply in_map_iff in I as (f & <- & If).
  destruct (s_vub s (fst f)); try exact (V f If). apply integral_0.
Qed.
Lemma binaries_bins m s k : tables_ok m s -> binaries_of m s k = bins m (r_form (row_at m k)).
Proof.
  intro T. unfold binaries_of, bins, row_at. apply filter_ext. intro e. pose proof (tb_bin m s T (fst e)) as [H1 H2].
  destruct (s_vub s (fst e)), (col_status m (fst e)); try reflexivity; (specialize (H1 eq_refl); discriminate) || (specialize (H2 eq_refl); discriminate).
Qed.

Section Subst.
  Variable m : mip.
  Variable s : scan_state.
  Hypothesis WF : wf_mip m.
  Hypothesis ID : int_data m.
  Hypothesis UB : unit_bounds m.
  Hypothesis OK : scan_ok m s.

  Lemma row_inside r : In r (m_rows m) -> inside m (r_form r).
  Proof. intros I [j a] J. destruct (WF r I) as [_ H]. exact (H j a J). Qed.
  Lemma row_int r : In r (m_rows m) -> int_vec (r_form r).
  Proof. intros I [j a] J. destruct ID as [H _]. destruct (H r I) as (_ & _ & H2). exact (proj1 (H2 j a J)). Qed.
  Lemma fix_int r : In r (m_rows m) -> integral (fixsum m (r_form r)).
  Proof. intro I. apply fixsum_int; [apply row_inside; exact I|apply ID|apply row_int; exact I]. Qed.

  (** the right-hand side chosen bounds the combined term from the proper side *)
  Lemma pick_ok i j pos st k rhs vb x0 : in_bounds m x0 -> pick s i j pos st = Some (k, rhs, vb) ->
    In (row_at m k) (m_rows m) /\ (vb == 1 \/ vb == - (1)) /\ integral rhs /\
    forall y, lp_feasible m y ->
      let q := vb * y j + value (bins m (r_form (row_at m k))) y - rhs in
      if pos then 0 <= q / vb else q / vb <= 0.
  Proof.
    intros B0 E. unfold pick in E. destruct st as [| | |k0]; try discriminate.
    match type of E with (if ?c then _ else _) = _ => destruct c eqn:Q0 end; [|discriminate].
    apply andb_true_iff in Q0 as [Q0 _]. destruct (s_kind s k0) as [c|] eqn:Kc; [|discriminate]. apply Nat.eqb_eq in Q0. subst c.
    destruct (sc_kind m s OK k0 j Kc) as [Ir [F V]]. cbv zeta in E.
    pose proof (sc_lo m s OK k0) as Lo. pose proof (sc_hi m s OK k0) as Hi.
    set (r := row_at m k0) in *. set (cf := s_coef s k0) in *.
    assert (Un : cf == 1 \/ cf == - (1)).
    { destruct (V x0 (row_inside r Ir) B0) as [_ (pre & post & Er & Pl)]. exact (UB r j cf pre post Ir Er F Pl). }
    assert (Nz : ~ cf == 0) by (destruct Un; lra).
    assert (Gen : forall rh, integral rh -> (forall y, lp_feasible m y -> let q := cf * y j + value (bins m (r_form r)) y - rh in
              if pos then 0 <= q / cf else q / cf <= 0) -> Some (k0, rh, cf) = Some (k, rhs, vb) ->
              In (row_at m k) (m_rows m) /\ (vb == 1 \/ vb == - (1)) /\ integral rhs /\
              forall y, lp_feasible m y -> let q := vb * y j + value (bins m (r_form (row_at m k))) y - rhs in
                if pos then 0 <= q / vb else q / vb <= 0).
    { intros rh Ih H He. apply Some_inj in He. inversion He; subst. fold r. auto. }
    assert (LowI : forall q, s_lo s k0 = Some q -> integral q /\ forall y, lp_feasible m y -> 0 <= cf * y j + value (bins m (r_form r)) y - q).
    { intros q Eq. rewrite Eq in Lo. destruct Lo as (q0 & E0 & E1). split.
      - destruct ID as [H _]. destruct (H r Ir) as (H1 & _ & _). rewrite E0 in H1.
        eapply integral_eq; [apply Qeq_sym; exact E1|]. apply integral_minus; [exact H1|apply fix_int; exact Ir].
      - intros y [Ry By]. destruct (V y (row_inside r Ir) By) as [Vy _]. destruct (Ry r Ir) as [R1 _]. rewrite E0 in R1. simpl in R1.
        rewrite Vy in R1. lra. }
    assert (HighI : forall q, s_hi s k0 = Some q -> integral q /\ forall y, lp_feasible m y -> cf * y j + value (bins m (r_form r)) y - q <= 0).
    { intros q Eq. rewrite Eq in Hi. destruct Hi as (q0 & E0 & E1). split.
      - destruct ID as [H _]. destruct (H r Ir) as (_ & H1 & _). rewrite E0 in H1.
        eapply integral_eq; [apply Qeq_sym; exact E1|]. apply integral_minus; [exact H1|apply fix_int; exact Ir].
      - intros y [Ry By]. destruct (V y (row_inside r Ir) By) as [Vy _]. destruct (Ry r Ir) as [_ R1]. rewrite E0 in R1. simpl in R1.
        rewrite Vy in R1. lra. }
    assert (Div : forall q, (0 < cf -> q / cf == q) /\ (cf < 0 -> q / cf == - q)).
    { intro q. split; intro H; destruct Un as [U|U]; try lra; rewrite U; field. }
    assert (FL : forall q, finite20 (s_lo s k0) true = Some q -> s_lo s k0 = Some q).
    { intros q H. unfold finite20 in H. destruct (s_lo s k0) as [q1|]; [|discriminate]. destruct (- big20 <? q1); [exact H|discriminate]. }
    assert (FH : forall q, finite20 (s_hi s k0) false = Some q -> s_hi s k0 = Some q).
    { intros q H. unfold finite20 in H. destruct (s_hi s k0) as [q1|]; [|discriminate]. destruct (q1 <? big20); [exact H|discriminate]. }
    assert (UseL : forall q, s_lo s k0 = Some q -> (if pos then 0 <? cf else cf <? 0) = true -> Some (k0, q, cf) = Some (k, rhs, vb) ->
              In (row_at m k) (m_rows m) /\ (vb == 1 \/ vb == - (1)) /\ integral rhs /\
              forall y, lp_feasible m y -> let q := vb * y j + value (bins m (r_form (row_at m k))) y - rhs in
                if pos then 0 <= q / vb else q / vb <= 0).
    { intros q Eq W. apply Gen; [apply (LowI q Eq)|]. intros y Hy. cbv zeta. destruct (LowI q Eq) as [_ H]. specialize (H y Hy).
      set (z := cf * y j + value (bins m (r_form r)) y - q) in *. destruct (Div z) as [D1 D2]. destruct pos; qb.
      - rewrite (D1 W). exact H.
      - rewrite (D2 W). lra. }
    assert (UseH : forall q, s_hi s k0 = Some q -> (if pos then cf <? 0 else 0 <? cf) = true -> Some (k0, q, cf) = Some (k, rhs, vb) ->
              In (row_at m k) (m_rows m) /\ (vb == 1 \/ vb == - (1)) /\ integral rhs /\
              forall y, lp_feasible m y -> let q := vb * y j + value (bins m (r_form (row_at m k))) y - rhs in
                if pos then 0 <= q / vb else q / vb <= 0).
    { intros q Eq W. apply Gen; [apply (HighI q Eq)|]. intros y Hy. cbv zeta. destruct (HighI q Eq) as [_ H]. specialize (H y Hy).
      set (z := cf * y j + value (bins m (r_form r)) y - q) in *. destruct (Div z) as [D1 D2]. destruct pos; qb.
      - rewrite (D2 W). lra.
      - rewrite (D1 W). exact H. }
    destruct (finite20 (s_lo s k0) true) as [l|] eqn:El, (finite20 (s_hi s k0) false) as [h|] eqn:Eh; try discriminate.
    - destruct (if pos then 0 <? cf else cf <? 0) eqn:W1; [exact (UseL l (FL l eq_refl) eq_refl E)|].
      destruct (if pos then cf <? 0 else 0 <? cf) eqn:W2; [exact (UseH h (FH h eq_refl) eq_refl E)|discriminate].
    - destruct (if pos then 0 <? cf else cf <? 0) eqn:W1; [exact (UseL l (FL l eq_refl) eq_refl E)|discriminate].
    - destruct (if pos then cf <? 0 else 0 <? cf) eqn:W2; [exact (UseH h (FH h eq_refl) eq_refl E)|discriminate].
  Qed.

  Definition side (dsign : Q) (v : list item) (b : Q) (y : point) : Prop := dsign * value v y <= dsign * b.
  Definition work_ok (dsign : Q) (st : list item * Q * bool) : Prop :=
    let '(v, b, _) := st in
    int_vec v /\ integral b /\ NoDup (map fst v) /\ inside m v /\ forall y, lp_feasible m y -> side dsign v b y.

  Lemma subst_step_ok i dsign st e x0 : in_bounds m x0 -> dsign == 1 \/ dsign == - (1) -> work_ok dsign st ->
    work_ok dsign (subst_step m s i dsign st e).
  Proof.
    destruct st as [[v b] rep]. intros B0 Ds (H1 & H2 & H3 & H4 & H5). unfold subst_step. cbv zeta.
    set (j := fst e). set (a := match find (fun f : nat * Q => Nat.eqb (fst f) j) v with Some f => snd f | None => 0 end).
    set (choice := match pick s i j (0 <? dsign * a) (s_vlb s j) with Some c => Some c | None => pick s i j (0 <? dsign * a) (s_vub s j) end).
    destruct choice as [[[k rhs] vb]|] eqn:Ch; [|repeat split; assumption].
    assert (Pk : exists st0, pick s i j (0 <? dsign * a) st0 = Some (k, rhs, vb)).
    { unfold choice in Ch. destruct (pick s i j (0 <? dsign * a) (s_vlb s j)) as [c|] eqn:E1; [|eexists; exact Ch].
      apply Some_inj in Ch. subst c. eexists. exact E1. }
    destruct Pk as (st0 & Pk). destruct (pick_ok i j _ st0 k rhs vb x0 B0 Pk) as (Ir & Un & Ih & V).
    assert (Ia : integral a).
    { unfold a. destruct (find (fun f : nat * Q => Nat.eqb (fst f) j) v) as [f|] eqn:Ff; [|apply integral_0].
      apply find_some in Ff as [Ff _]. exact (H1 f Ff). }
    assert (Isc : integral (a / vb)).
    { destruct Un as [U|U].
      - eapply integral_eq; [|exact Ia]. rewrite U. field.
      - eapply integral_eq; [|apply integral_opp; exact Ia]. rewrite U. field. }
    rewrite (binaries_bins m s k (sc_tables m s OK)).
    assert (Ibn : int_vec (bins m (r_form (row_at m k)))).
    { intros f F. unfold bins in F. apply filter_In in F as [F _]. exact (row_int _ Ir f F). }
    unfold work_ok. repeat apply conj.
    - apply add_all_int; [exact Isc|exact Ibn|apply set_zero_int; exact H1].
    - apply integral_minus; [exact H2|]. apply integral_mult; [exact Isc|exact Ih].
    - apply add_all_fst. rewrite set_zero_fst. exact H3.
    - intros f F. apply (in_map fst) in F. apply add_all_fst in F; [|rewrite set_zero_fst; exact H3].
      rewrite set_zero_fst in F. destruct F as [F|F]; apply in_map_iff in F as (g & <- & Ig).
      + exact (H4 g Ig).
      + unfold bins in Ig. apply filter_In in Ig as [Ig _]. exact (row_inside _ Ir g Ig).
    - intros y Hy. specialize (H5 y Hy). specialize (V y Hy). cbv zeta in V. unfold side in *.
      rewrite add_all_value, set_zero_value. fold a.
      set (B := value (bins m (r_form (row_at m k))) y) in *. set (W := value v y) in *.
      set (q := vb * y j + B - rhs) in *.
      assert (Eq : (W - a * y j - a / vb * B) - (b - a / vb * rhs) == W - b - a * (q / vb)).
      { unfold q. field. destruct Un as [U|U]; rewrite U; discriminate. }
      assert (Sg : 0 <= dsign * a * (q / vb)).
      { destruct (0 <? dsign * a) eqn:Q0; qb.
        - apply Qmult_le_0_compat; [lra|exact V].
        - setoid_replace (dsign * a * (q / vb)) with ((- (dsign * a)) * (- (q / vb))) by ring. apply Qmult_le_0_compat; lra. }
      assert (Fin : dsign * ((W - a * y j - a / vb * B) - (b - a / vb * rhs)) <= 0).
      { rewrite Eq. setoid_replace (dsign * (W - b - a * (q / vb))) with (dsign * W - dsign * b - dsign * a * (q / vb)) by ring. lra. }
      setoid_replace (dsign * (W - a * y j - a / vb * B)) with (dsign * ((W - a * y j - a / vb * B) - (b - a / vb * rhs)) + dsign * (b - a / vb * rhs)) by ring. lra.
  Qed.

  (** the forms handed to deriveAKnapsack *)
  Definition form_ok (t : list item * Q * bool) : Prop :=
    let '(v, b, less) := t in
    int_vec v /\ integral b /\ NoDup (map fst v) /\ inside m v /\ sizable v /\ forall y, lp_feasible m y -> row_side less b v y.

  Lemma int_sizable v : int_vec v -> (forall e, In e v -> ~ snd e == 0) -> sizable v.
  Proof.
    intros V N e I. specialize (V e I). specialize (N e I).
    destruct (Qlt_le_dec (snd e) 0) as [L|L].
    - left. pose proof (integral_lt_le1 _ _ V integral_0 L). unfold eps. lra.
    - right. assert (L2 : 0 < snd e) by (destruct (Qeq_dec (snd e) 0); [contradiction|lra]).
      pose proof (integral_lt_le1 _ _ integral_0 V L2). unfold eps. lra.
  Qed.
  Lemma substituted_ok maxk i dsign r b v' b' x0 : in_bounds m x0 -> dsign == 1 \/ dsign == - (1) -> In r (m_rows m) -> integral b ->
    (forall y, lp_feasible m y -> side dsign (drop_fixed s (r_form r)) b y) ->
    substituted m s maxk i dsign (r_form r) b = Some (v', b') ->
    int_vec v' /\ integral b' /\ NoDup (map fst v') /\ inside m v' /\ sizable v' /\ forall y, lp_feasible m y -> side dsign v' b' y.
  Proof.
    intros B0 Ds Ir Ib H E. unfold substituted in E. cbv zeta in E.
    assert (G : forall l st, work_ok dsign st -> work_ok dsign (fold_left (subst_step m s i dsign) l st)).
    { induction l as [|e l IH]; intros st W; [exact W|]. cbn [fold_left]. apply IH. apply (subst_step_ok i dsign st e x0); assumption. }
    destruct (fold_left (subst_step m s i dsign) (r_form r) (drop_fixed s (r_form r), b, false)) as [[v1 b1] rep] eqn:F.
    assert (W : work_ok dsign (v1, b1, rep)).
    { rewrite <- F. apply G. split; [apply drop_fixed_int, row_int; exact Ir|]. split; [exact Ib|].
      split; [rewrite drop_fixed_fst; apply (WF r Ir)|]. split; [|exact H].
      intros f If. apply (in_map fst) in If. rewrite drop_fixed_fst in If. apply in_map_iff in If as (g & <- & Ig). exact (row_inside r Ir g Ig). }
    destruct W as (W1 & W2 & W3 & W4 & W5). destruct rep; [|discriminate].
    match type of E with (if ?c then _ else _) = _ => destruct c end; [|discriminate]. apply Some_inj in E. inversion E; subst; clear E.
    set (v2 := filter (fun e : nat * Q => negb (Qeq_bool (snd e) 0)) v1).
    assert (Iv : int_vec v2) by (intros e I; unfold v2 in I; apply filter_In in I as [I _]; exact (W1 e I)).
    split; [exact Iv|]. split; [exact W2|]. split; [|split; [|split]].
    - unfold v2. clear - W3. induction v1 as [|e v IH]; simpl; [constructor|]. inversion W3; subst. specialize (IH H2).
      destruct (negb (Qeq_bool (snd e) 0)); [|exact IH]. simpl. constructor; [|exact IH]. intro K. apply H1.
      apply in_map_iff in K as (f & <- & If). apply filter_In in If as [If _]. apply in_map. exact If.
    - intros e I. unfold v2 in I. apply filter_In in I as [I _]. exact (W4 e I).
    - apply int_sizable; [exact Iv|]. intros e I. unfold v2 in I. apply filter_In in I as [_ I]. apply negb_true_iff in I. qb. exact I.
    - intros y Hy. specialize (W5 y Hy). unfold side in *.
      assert (Ev : value v2 y == value v1 y).
      { unfold v2. clear. induction v1 as [|[j a] v IH]; simpl; [reflexivity|]. destruct (Qeq_bool a 0) eqn:Q0; simpl; [qb; rewrite IH, Q0; ring|rewrite IH; reflexivity]. }
      rewrite Ev. exact W5.
  Qed.

  Lemma tries_ok maxk i has x0 : in_bounds m x0 -> (i < length (m_rows m))%nat ->
    forall t, In t (tries m s maxk i has (row_at m i)) -> form_ok t.
  Proof.
    intros B0 Li t I. set (r := row_at m i) in *. assert (Ir : In r (m_rows m)) by (apply nth_In; exact Li).
    unfold tries in I. cbv zeta in I.
    assert (Ro : int_vec (r_form r) /\ NoDup (map fst (r_form r)) /\ inside m (r_form r) /\ sizable (r_form r)).
    { split; [apply row_int; exact Ir|]. split; [apply (WF r Ir)|]. split; [apply row_inside; exact Ir|].
      apply int_sizable; [apply row_int; exact Ir|]. intros [j a] J. destruct ID as [H _]. destruct (H r Ir) as (_ & _ & H2). exact (proj2 (H2 j a J)). }
    destruct Ro as (R1 & R2 & R3 & R4). destruct ID as [Hid _]. destruct (Hid r Ir) as (Il & Ih & _).
    pose proof (sc_lo m s OK i) as Lo. pose proof (sc_hi m s OK i) as Hi. fold r in Lo, Hi.
    pose proof (fix_int r Ir) as Fi.
    assert (Win : forall o q, within20 o = Some q -> o = Some q).
    { intros o q H. unfold within20 in H. destruct o as [p|]; [|discriminate]. destruct (big20 <? Qabs p); [discriminate|exact H]. }
    assert (Dv : forall y, lp_feasible m y -> value (drop_fixed s (r_form r)) y == value (r_form r) y - fixsum m (r_form r)).
    { intros y [_ By]. apply (drop_fixed_value m s); [apply sc_tables; exact OK|exact R3|exact By]. }
    apply in_app_or in I as [I|I]; [|apply in_app_or in I as [I|I]].
    - destruct (within20 (s_lo s i)) as [l0|]; [|destruct I]. destruct (r_lo r) as [l|] eqn:El; [|destruct I]. destruct I as [<-|[]].
      unfold form_ok. repeat (apply conj; [assumption|]). intros y [Hy _]. destruct (Hy r Ir) as [H _]. rewrite El in H. exact H.
    - destruct (within20 (s_hi s i)) as [h0|]; [|destruct I]. destruct (r_hi r) as [h|] eqn:Eh; [|destruct I]. destruct I as [<-|[]].
      unfold form_ok. repeat (apply conj; [assumption|]). intros y [Hy _]. destruct (Hy r Ir) as [_ H]. rewrite Eh in H. exact H.
    - destruct has; [|destruct I]. apply in_app_or in I as [I|I].
      + destruct (within20 (s_lo s i)) as [l0|] eqn:E0; [|destruct I]. apply Win in E0. rewrite E0 in Lo. destruct Lo as (q0 & Eq & El).
        rewrite Eq in Il. simpl in Il.
        destruct (substituted m s maxk i (- (1)) (r_form r) l0) as [[v' b']|] eqn:Es; [|destruct I]. destruct I as [<-|[]].
        assert (Ib : integral l0) by (eapply integral_eq; [apply Qeq_sym; exact El|apply integral_minus; assumption]).
        destruct (substituted_ok maxk i (- (1)) r l0 v' b' x0 B0 (or_intror (Qeq_refl _)) Ir Ib) as (S1 & S2 & S3 & S4 & S5 & S6); [|exact Es|].
        * intros y Hy. unfold side. rewrite (Dv y Hy). destruct Hy as [Hy _]. destruct (Hy r Ir) as [H _]. rewrite Eq in H. simpl in H. lra.
        * unfold form_ok. repeat (apply conj; [assumption|]). intros y Hy. specialize (S6 y Hy). unfold side in S6. simpl. lra.
      + destruct (within20 (s_hi s i)) as [h0|] eqn:E0; [|destruct I]. apply Win in E0. rewrite E0 in Hi. destruct Hi as (q0 & Eq & El).
        rewrite Eq in Ih. simpl in Ih.
        destruct (substituted m s maxk i 1 (r_form r) h0) as [[v' b']|] eqn:Es; [|destruct I]. destruct I as [<-|[]].
        assert (Ib : integral h0) by (eapply integral_eq; [apply Qeq_sym; exact El|apply integral_minus; assumption]).
        destruct (substituted_ok maxk i 1 r h0 v' b' x0 B0 (or_introl (Qeq_refl _)) Ir Ib) as (S1 & S2 & S3 & S4 & S5 & S6); [|exact Es|].
        * intros y Hy. unfold side. rewrite (Dv y Hy). destruct Hy as [Hy _]. destruct (Hy r Ir) as [_ H]. rewrite Eq in H. simpl in H. lra.
        * unfold form_ok. repeat (apply conj; [assumption|]). intros y Hy. specialize (S6 y Hy). unfold side in S6. simpl. lra.
  Qed.
End Subst.

(** ** generateCuts *)
(** every 0-1 column of the LP point is 0, 1, or at least 1e-7 away from both *)
Definition crisp_point (m : mip) (x : point) : Prop :=
  forall j, (j < m_ncols m)%nat -> free_binary m j = true -> x j == 0 \/ eps <= x j <= onetol \/ x j == 1.

Lemma clip_same m sol j : in_bounds m sol -> (j < m_ncols m)%nat -> clip m sol j = sol j.
Proof.
  intros B L. destruct (B j L) as [B1 B2]. unfold clip.
  destruct (m_chi m j) as [u|]; destruct (m_clo m j) as [l|]; simpl in *;
  repeat match goal with |- context [if ?c then _ else _] => destruct c eqn:?; qb end; try reflexivity; exfalso; lra.
Qed.

Lemma one_try_ok srt fuel m x expensive longRow cs t cs' : sort_spec srt ->
  int_data m -> lp_feasible m x -> crisp_point m x -> form_ok m t ->
  one_try srt fuel m x expensive longRow cs t = Done cs' ->
  snd cs' = snd cs /\ forall r, In r (fst cs') -> In r (fst cs) \/ forall y, feasible m y -> rowcut_sat r y.
Proof.
  intros SRT ID Lp Cr Fo E. destruct t as [[v b] less]. destruct Fo as (F1 & F2 & F3 & F4 & F5 & F6).
  unfold one_try in E. destruct (deriveAKnapsack m x less b v) as [cc ok] eqn:Dk.
  assert (Bo : forall y, in_bounds m y -> bounds_on m v y) by (intros y B e I; apply B; exact (F4 e I)).
  assert (Bi : int_bounds m v) by (intros e I; apply ID; exact (F4 e I)).
  destruct (derive_ok m x less b v cc ok F5 F3 Dk) as [Nc K].
  assert (Ecc : cc = []).
  { destruct cc as [|c cc]; [reflexivity|]. exfalso. apply Nc with (y := x); [discriminate|apply Bo; apply Lp|apply F6; exact Lp]. }
  subst cc. destruct ok as [k|]; [|apply Done_inj in E; subst cs'; cbn [fst snd]; split; [apply app_nil_r|auto]].
  apply bind_done in E as (rcs & E1 & E). apply Done_inj in E. subst cs'. cbn [fst snd]. split; [apply app_nil_r|].
  destruct K as (K1 & K2 & K3 & K4 & _ & _ & K5). destruct (derive_int m x less b v [] k F1 Bi F2 Dk) as [I1 I2].
  destruct k as [items rhs fl kx]. cbn [kn_items kn_rhs kn_flip kn_x] in *.
  assert (Gi : forall q, integral q -> on_grid 1 q) by (intros q [z Hz]; exists z; rewrite Hz; ring).
  assert (De : eps2 < 1) by (unfold eps2; lra).
  assert (In_n : forall e, In e items -> (fst e < m_ncols m)%nat).
  { intros e I. destruct (K4 e I) as (J & _). apply in_map_iff in J as (f & <- & If). exact (F4 f If). }
  intros r Hr.
  destruct (one_knapsack_ok srt fuel SRT 1 De items rhs fl kx K2 K3) with (expensive := expensive) (longRow := longRow) (cs := fst cs) (cs' := rcs) (r := r) as [H|H].
  - apply Forall_forall. intros e I. apply Gi. exact (I1 e I).
  - apply Gi. exact I2.
  - intros e I. rewrite K5. destruct (K4 e I) as (_ & Fb & _). destruct (Cr (fst e) (In_n e I) Fb) as [H|[[H H2]|H]]; unfold comp; destruct (fl (fst e)); unfold onetol in *.
    + right; right; lra. + left; lra.
    + right; left. unfold eps in *. lra. + right; left; lra.
    + left; lra. + right; right; lra.
  - assert (Ex : value items kx == value items (comp fl x)) by (apply value_ext; intros j a _; rewrite K5; reflexivity).
    rewrite Ex. apply K1; [apply Bo; apply Lp|apply F6; exact Lp].
  - exact E1.
  - exact Hr.
  - left. exact H.
  - right. intros y Fy. apply H.
    + intros e I. destruct (K4 e I) as (_ & Fb & _). destruct (free_binary_bounds m (fst e) Fb) as (Ii & l & u & El & Eu & L0 & U1).
      destruct Fy as (_ & By & Iy). destruct (By (fst e) (In_n e I)) as [B1 B2]. specialize (Iy (fst e) (In_n e I) Ii).
      rewrite El in B1. rewrite Eu in B2. simpl in B1, B2.
      assert (Y : y (fst e) == 0 \/ y (fst e) == 1).
      { destruct (Qeq_dec (y (fst e)) 0) as [Z|Z]; [left; exact Z|right].
        assert (0 < y (fst e)) by lra. pose proof (integral_lt_le1 _ _ integral_0 Iy H0). lra. }
      unfold comp. destruct (fl (fst e)); destruct Y as [Y|Y]; rewrite Y; [right|left|left|right]; ring.
    + destruct Fy as (Ry & By & _). apply K1; [apply Bo; exact By|apply F6; split; assumption].
Qed.

Lemma generate_ok srt fuel g m sol info cs cs' : sort_spec srt ->
  wf_mip m -> int_data m -> unit_bounds m -> lp_feasible m sol -> crisp_point m sol ->
  generateCuts srt fuel g m sol info cs = Done cs' ->
  snd cs' = snd cs /\ forall r, In r (fst cs') -> In r (fst cs) \/ forall y, feasible m y -> rowcut_sat r y.
Proof.
  intros SRT WF ID UB Lp Cr E. unfold generateCuts in E. cbv zeta in E.
  set (x := clip m sol) in *.
  assert (Ag : forall j, (j < m_ncols m)%nat -> x j = sol j) by (intros j L; apply clip_same; [apply Lp|exact L]).
  assert (Lx : lp_feasible m x).
  { destruct Lp as [R B]. split; [|intros j L; rewrite (Ag j L); exact (B j L)].
    intros r I. specialize (R r I). assert (Ev : value (r_form r) x == value (r_form r) sol).
    { apply value_ext. intros j a J. rewrite Ag; [reflexivity|]. exact (proj2 (WF r I) j a J). }
    unfold row_sat in *. unfold ge_opt_lo, le_opt_hi in *. destruct (r_lo r), (r_hi r); rewrite ?Ev; exact R. }
  assert (Cx : crisp_point m x) by (intros j L F; rewrite (Ag j L); exact (Cr j L F)).
  match type of E with context [scan_rows m x ?q ?k] => set (s := scan_rows m x q k) in *; pose proof (scan_rows_ok m x q k : scan_ok m s) as OK end.
  match type of E with ofold _ ?l _ = _ => set (check := l) in *; assert (Hc : forall i, In i check -> (i < length (m_rows m))%nat) end.
  { intros i I. unfold check in I. destruct (kg_rows g) as [l|].
    - apply in_map_iff in I as (z & <- & Iz). apply filter_In in Iz as [_ Iz]. apply andb_true_iff in Iz as [I1 I2].
      apply Z.leb_le in I1. apply Z.ltb_lt in I2. lia.
    - apply in_seq in I. lia. }
  set (Pc := fun c : cuts => snd c = snd cs /\ forall r, In r (fst c) -> In r (fst cs) \/ forall y, feasible m y -> rowcut_sat r y).
  change (Pc cs'). revert E. apply (ofold_inv Pc); [|split; [reflexivity|auto]].
  intros c1 i c2 I P1 E. destruct (s_skip s i); [apply Done_inj in E; subst; exact P1|].
  revert E. apply (ofold_inv Pc); [|exact P1]. clear c1 c2 P1. intros c1 t c2 It [P1 P2] E.
  assert (Fo : form_ok m t) by (eapply (tries_ok m s WF ID UB OK) with (x0 := x); [apply Lx|exact (Hc i I)|exact It]).
  destruct (one_try_ok srt fuel m x _ _ c1 t c2 SRT ID Lx Cx Fo E) as [H1 H2].
  split; [congruence|]. intros r Hr. destruct (H2 r Hr) as [H|H]; [exact (P2 r H)|right; exact H].
Qed.
