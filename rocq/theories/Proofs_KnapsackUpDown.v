(** * Sequential up- and down-lifting of cover inequalities *)

From Coq Require Import Permutation Sorted Qabs.
From Verif Require Import Base Proofs_Clique Model_KnapsackCover Proofs_Knapsack Proofs_KnapsackLift.
Local Open Scope Q_scope.

(** What is known about std::sort. *)
Definition sort_spec (srt : forall A : Type, (A -> Q) -> list A -> list A) : Prop :=
  forall A key l, Permutation (srt A key l) l /\ StronglySorted (fun a b => key b <= key a) (srt A key l).

(** 0-1 points as selections of columns *)
Definition pt (s : nat -> bool) : nat -> Q := fun j => if s j then 1 else 0.
Lemma pt_at t j : pt t j = if t j then 1 else 0.
Proof. reflexivity. Qed.
Definition chosen (s : nat -> bool) (l : list entry) : list bool := map (fun e => s (fst (fst e))) l.
Definition alpha_of (l : list entry) (s : nat -> bool) : Q := pf (map snd l) (chosen s l).
Definition a_of (l : list entry) (s : nat -> bool) : Q := wt (map snd l) (chosen s l).

Lemma alpha_cons j k p l s : alpha_of ((j, k, p) :: l) s = (if s j then fst p else 0) + alpha_of l s.
Proof. destruct p. reflexivity. Qed.
Lemma a_cons j k p l s : a_of ((j, k, p) :: l) s = (if s j then snd p else 0) + a_of l s.
Proof. destruct p. reflexivity. Qed.
Lemma alpha_perm l l' s : Permutation l l' -> alpha_of l s == alpha_of l' s.
Proof.
  induction 1; [reflexivity| | |lra].
  - destruct x as [[j k] p]. rewrite !alpha_cons. lra.
  - destruct x as [[j k] p], y as [[j' k'] p']. rewrite !alpha_cons. lra.
Qed.
Lemma a_perm l l' s : Permutation l l' -> a_of l s == a_of l' s.
Proof.
  induction 1; [reflexivity| | |lra].
  - destruct x as [[j k] p]. rewrite !a_cons. lra.
  - destruct x as [[j k] p], y as [[j' k'] p']. rewrite !a_cons. lra.
Qed.
Lemma alpha_app l l' s : alpha_of (l ++ l') s == alpha_of l s + alpha_of l' s.
Proof. induction l as [|[[j k] p] l IH]; [simpl; unfold alpha_of; simpl; lra|]. simpl app. rewrite !alpha_cons, IH. lra. Qed.
Lemma a_app l l' s : a_of (l ++ l') s == a_of l s + a_of l' s.
Proof. induction l as [|[[j k] p] l IH]; [simpl; unfold a_of; simpl; lra|]. simpl app. rewrite !a_cons, IH. lra. Qed.

Lemma sel_perm (l l' : list pw) : Permutation l l' -> forall y', length y' = length l' ->
  exists y, length y = length l /\ pf l y == pf l' y' /\ wt l y == wt l' y'.
Proof.
  induction 1 as [|[p w] l l' H IH|[p w] [p2 w2] l|l l' l'' H1 IH1 H2 IH2]; intros y' L.
  - exists y'. split; [exact L|]. split; reflexivity.
  - destruct y' as [|b y']; [discriminate|]. destruct (IH y') as (y & A & B & C); [simpl in L; congruence|].
    exists (b :: y). simpl. split; [congruence|]. split; lra.
  - destruct y' as [|b [|b2 y']]; try discriminate. exists (b2 :: b :: y'). simpl in *. split; [exact L|]. split; lra.
  - destruct (IH2 y' L) as (y & A & B & C). destruct (IH1 y A) as (z & A1 & B1 & C1).
    exists z. split; [exact A1|]. split; lra.
Qed.

Definition entry_ok (e : entry) : Prop := item_ok (snd e) /\ key e == fst (snd e) / snd (snd e).
Lemma sorted_entries l : Forall entry_ok l -> StronglySorted (fun a b => key b <= key a) l -> sorted_items (map snd l).
Proof.
  intros F S. induction S as [|e l S IH H]; simpl; [constructor|]. inversion F as [|? ? F1 F2]; subst.
  constructor; [apply IH; exact F2|]. rewrite Forall_map. rewrite Forall_forall in *. intros f I.
  specialize (H f I). destruct F1 as ((W1 & _) & K1). destruct (F2 f I) as ((W2 & _) & K2).
  rewrite K1, K2 in H. unfold dominates.
  destruct e as [ce [pe we]], f as [cf [p' w']]. simpl in *.
  assert (X : (p' / w') * (we * w') <= (pe / we) * (we * w')).
  { apply Qmult_le_compat_r; [exact H|]. apply Qmult_le_0_compat; lra. }
  assert (E1 : (p' / w') * (we * w') == p' * we) by (field; lra).
  assert (E2 : (pe / we) * (we * w') == pe * w') by (field; lra). lra.
Qed.

Section UpDown.
  Variable srt : forall A : Type, (A -> Q) -> list A -> list A.
  Variable fuel : nat.
  Hypothesis SRT : sort_spec srt.

  (** [K]: all items dealt with so far *)
  Record lift_inv (K : list item) (s : lk) : Prop := LI {
    li_ok : Forall entry_ok (lk_items s);
    li_sorted : sorted_items (map snd (lk_items s));
    li_rhs : integral (lk_rhs s);
    li_cut : forall t, value (lk_cut s) (pt t) == alpha_of (lk_items s) t;
    li_sub : forall t, a_of (lk_items s) t <= value K (pt t);
    li_valid : forall t, a_of (lk_items s) t <= lk_unsat s -> alpha_of (lk_items s) t <= lk_rhs s;
    li_cols : incl (map fst (lk_cut s)) (map fst K)
  }.

  Lemma items_ok (l : list entry) : Forall entry_ok l -> Forall item_ok (map snd l).
  Proof. intro H. rewrite Forall_map. eapply Forall_impl; [|exact H]. intros e (A & _). exact A. Qed.

  (** one call of the solver bounds all points *)
  Lemma solver_bound l c z x : Forall entry_ok l -> sorted_items (map snd l) -> 0 <= c + eps2 ->
    exactSolveKnapsack fuel c (map snd l) = Done (z, x) ->
    integral z /\ 0 <= z /\ length x = length (map snd l) /\ z == pf (map snd l) x /\ wt (map snd l) x <= c + eps2 /\
    (forall t, a_of l t <= c + eps2 -> alpha_of l t <= z) /\
    (forall y, length y = length (map snd l) -> wt (map snd l) y <= c + eps2 -> pf (map snd l) y <= z).
  Proof.
    intros O S C E. destruct (solver_ok fuel c _ z x S (items_ok l O) C E) as ((L & W & Z & P) & M).
    split; [|split; [exact P|split; [exact L|split; [exact Z|split; [exact W|split]]]]].
    - destruct (pf_integral (map snd l) x (items_ok l O)) as [k K]. exists k. lra.
    - intros t A. apply M; [unfold chosen; rewrite !map_length; reflexivity|exact A].
    - exact M.
  Qed.

  Lemma insert_inv K s j al a rhs' unsat' cut' :
    lift_inv K s -> 0 < a -> 0 <= al -> integral al -> integral rhs' ->
    (forall t : nat -> bool, value cut' (pt t) == value (lk_cut s) (pt t) + (if t j then al else 0)) ->
    (forall t : nat -> bool, (if t j then a else 0) + a_of (lk_items s) t <= unsat' ->
               (if t j then al else 0) + alpha_of (lk_items s) t <= rhs') ->
    incl (map fst cut') (j :: map fst K) ->
    lift_inv ((j, a) :: K) (LK (srt entry key (lk_items s ++ [(j, al / a, (al, a))]) ) cut' rhs' unsat').
  Proof.
    intros [A B C D E F G] Pa Pl Il Ir Hc Hv Hi.
    set (l := lk_items s ++ [(j, al / a, (al, a))]).
    destruct (SRT entry key l) as [Pm So].
    assert (Ok : Forall entry_ok (srt entry key l)).
    { eapply Permutation_Forall; [apply Permutation_sym; exact Pm|]. apply Forall_app. split; [exact A|].
      constructor; [|constructor]. split; [split; [exact Pa|split; [exact Pl|exact Il]]|reflexivity]. }
    assert (Al : forall t, alpha_of (srt entry key l) t == (if t j then al else 0) + alpha_of (lk_items s) t).
    { intro t. rewrite (alpha_perm _ _ t Pm). unfold l. rewrite alpha_app, alpha_cons. unfold alpha_of at 2. simpl. lra. }
    assert (Aa : forall t, a_of (srt entry key l) t == (if t j then a else 0) + a_of (lk_items s) t).
    { intro t. rewrite (a_perm _ _ t Pm). unfold l. rewrite a_app, a_cons. unfold a_of at 2. simpl. lra. }
    constructor; simpl.
    - exact Ok.
    - apply sorted_entries; [exact Ok|exact So].
    - exact Ir.
    - intro t. rewrite Hc, Al, D. lra.
    - intro t. rewrite Aa. specialize (E t). rewrite ?pt_at. destruct (t j); lra.
    - intro t. rewrite Aa, Al. apply Hv.
    - exact Hi.
  Qed.

  Lemma value_snoc v j a y : value (v ++ [(j, a)]) y == value v y + a * y j.
  Proof. rewrite value_app. simpl. lra. Qed.

  Lemma lift_up_inv K s e s' : lift_inv K s -> 0 < snd e ->
    lift_up srt fuel s e = Done s' ->
    lift_inv (e :: K) s' /\ lk_unsat s' = lk_unsat s /\ lk_rhs s' = lk_rhs s /\
    (exists l, Permutation (map snd (lk_items s')) (l ++ map snd (lk_items s)) /\ length l <= 1)%nat.
  Proof.
    intros I Pe E. destruct e as [j a]. simpl in Pe. unfold lift_up in E. simpl fst in E. simpl snd in E.
    apply bind_done in E as (psi & E1 & E).
    assert (Skip : lift_inv ((j, a) :: K) s).
    { destruct I as [A B C D F G Hi]. constructor; auto; [|simpl; apply incl_tl; exact Hi]. intro t. specialize (F t). cbn [value]. rewrite ?pt_at. destruct (t j); lra. }
    assert (Nil : exists l : list pw, (Permutation (map snd (lk_items s)) (l ++ map snd (lk_items s)) /\ (length l <= 1)%nat)).
    { exists []. split; [apply Permutation_refl|simpl; lia]. }
    destruct (eps <=? lk_unsat s - a) eqn:Q0.
    - qb. apply bind_done in E1 as ([z x] & E1 & E2). apply Done_inj in E2. simpl in E2. subst psi.
      pose proof I as [A B C D F G Hi].
      assert (Cap : 0 <= lk_unsat s - a + eps2) by (unfold eps, eps2 in *; lra).
      destruct (solver_bound _ _ _ _ A B Cap E1) as (Iz & Pz & _ & _ & _ & M & _).
      destruct (eps <? lk_rhs s - z) eqn:Q1; apply Done_inj in E; subst s'; [|auto].
      qb. split; [|split; [reflexivity|split; [reflexivity|]]].
      + apply (insert_inv K s j (lk_rhs s - z) a (lk_rhs s) (lk_unsat s)); auto.
        * unfold eps in Q1. lra.
        * apply integral_minus; assumption.
        * intro t. rewrite value_snoc. rewrite ?pt_at. destruct (t j); lra.
        * intros t H. destruct (t j).
          -- assert (alpha_of (lk_items s) t <= z) by (apply M; unfold eps2; lra). lra.
          -- assert (alpha_of (lk_items s) t <= lk_rhs s) by (apply G; lra). lra.
        * rewrite map_app. intros c Hin. apply in_app_or in Hin as [Hin|[Hin|[]]]; [right; apply Hi; exact Hin|left; exact Hin].
      + simpl. destruct (SRT entry key (lk_items s ++ [(j, (lk_rhs s - z) / a, (lk_rhs s - z, a))])) as [Pm _].
        apply (Permutation_map snd) in Pm. exists [(lk_rhs s - z, a)]. split; [|simpl; lia].
        eapply Permutation_trans; [exact Pm|]. rewrite map_app. simpl. apply Permutation_sym, Permutation_cons_append.
    - apply Done_inj in E1. subst psi. destruct (eps <? lk_rhs s - lk_rhs s) eqn:Q1; apply Done_inj in E; subst s'; [|auto].
      qb. unfold eps in Q1. lra.
  Qed.
  Lemma lift_ups_inv : forall rem K s s', lift_inv K s -> positive rem ->
    ofold (lift_up srt fuel) rem s = Done s' ->
    exists K', lift_inv K' s' /\ Permutation K' (rem ++ K) /\ lk_unsat s' = lk_unsat s /\ lk_rhs s' = lk_rhs s /\
      exists l, Permutation (map snd (lk_items s')) (l ++ map snd (lk_items s)).
  Proof.
    induction rem as [|e rem IH]; intros K s s' I P E; simpl in E.
    - apply Done_inj in E. subst. exists K. split; [exact I|]. split; [apply Permutation_refl|]. split; [reflexivity|]. split; [reflexivity|].
      exists []. apply Permutation_refl.
    - inversion P as [|? ? P1 P2]; subst. apply bind_done in E as (s1 & E1 & E2).
      destruct (lift_up_inv K s e s1 I P1 E1) as (I1 & U1 & R1 & l1 & L1 & _).
      destruct (IH (e :: K) s1 s' I1 P2 E2) as (K' & I2 & Pm & U2 & R2 & l2 & L2).
      exists K'. split; [exact I2|]. split.
      + eapply Permutation_trans; [exact Pm|]. simpl. apply Permutation_sym, Permutation_middle.
      + split; [congruence|]. split; [congruence|]. exists (l2 ++ l1).
        eapply Permutation_trans; [exact L2|]. rewrite <- app_assoc. apply Permutation_app_head. exact L1.
  Qed.

  (** a selection of value at least the right-hand side fits *)
  Definition attains (l : list pw) (w p : Q) : Prop :=
    exists y, length y = length l /\ wt l y <= w /\ p <= pf l y.
  Lemma attains_more l l' extra w w' p : attains l w p -> Permutation l' (extra ++ l) -> w <= w' -> attains l' w' p.
  Proof.
    intros (y & L & W & P) Pm H.
    destruct (sel_perm _ _ Pm (map (fun _ => false) extra ++ y)) as (y' & A & B & C).
    { rewrite !app_length, map_length. congruence. }
    assert (Z : forall e : list pw, pf e (map (fun _ => false) e) == 0 /\ wt e (map (fun _ => false) e) == 0).
    { clear. induction e as [|[p w] e [I1 I2]]; simpl; split; lra. }
    rewrite pf_app in B by (rewrite map_length; reflexivity). rewrite wt_app in C by (rewrite map_length; reflexivity).
    destruct (Z extra) as [Z1 Z2]. exists y'. split; [exact A|]. split; lra.
  Qed.

  Lemma lift_down_inv : forall ones_ K s s', lift_inv K s -> positive ones_ -> 0 <= lk_unsat s ->
    (match ones_ with [] => True | e :: _ => attains (map snd (lk_items s)) (lk_unsat s + snd e + eps2) (lk_rhs s) end) ->
    lift_down srt fuel s ones_ = Done (Some s') ->
    exists K', lift_inv K' s' /\ Permutation K' (ones_ ++ K) /\ lk_unsat s' == lk_unsat s + weight ones_.
  Proof.
    induction ones_ as [|[j a] ones_ IH]; intros K s s' I P U At E; simpl in E.
    - apply Done_inj in E. apply Some_inj in E. subst. exists K. split; [exact I|]. split; [apply Permutation_refl|]. simpl. lra.
    - inversion P as [|? ? P1 P2]; subst. simpl in P1, At.
      apply bind_done in E as ([z x] & E1 & E). simpl in E.
      pose proof I as [A B C D F G Hi].
      assert (Cap : 0 <= lk_unsat s + a + eps2) by (unfold eps2; lra).
      destruct (solver_bound _ _ _ _ A B Cap E1) as (Iz & Pz & Lx & Zx & Wx & M & My).
      destruct (Qabs a <=? eps) eqn:Q0; [discriminate|].
      assert (Al : 0 <= z - lk_rhs s).
      { destruct At as (y & L & W & Pf). specialize (My y L W). lra. }
      set (s1 := LK (srt entry key (lk_items s ++ [(j, (z - lk_rhs s) / a, (z - lk_rhs s, a))]))
                    (if eps <? Qabs (z - lk_rhs s) then lk_cut s ++ [(j, z - lk_rhs s)] else lk_cut s) z (lk_unsat s + a)) in *.
      assert (I1 : lift_inv ((j, a) :: K) s1).
      { apply (insert_inv K s j (z - lk_rhs s) a z (lk_unsat s + a)); auto.
        - apply integral_minus; assumption.
        - intro t. destruct (eps <? Qabs (z - lk_rhs s)) eqn:Q1.
          + rewrite value_snoc. rewrite ?pt_at. destruct (t j); lra.
          + qb. assert (Z0 : z - lk_rhs s == 0).
            { destruct (integral_minus _ _ Iz C) as [k Kk]. rewrite Qabs_pos in Q1 by exact Al.
              rewrite Kk in *. assert (k < 1)%Z.
              { rewrite Zlt_Qlt. eapply Qle_lt_trans; [exact Q1|]. reflexivity. }
              assert (0 <= k)%Z by (rewrite Zle_Qle; exact Al).
              assert (k = 0)%Z by lia. subst k. reflexivity. }
            destruct (t j); lra.
        - intros t H. destruct (t j).
          + assert (alpha_of (lk_items s) t <= lk_rhs s) by (apply G; lra). lra.
          + assert (alpha_of (lk_items s) t <= z) by (apply M; unfold eps2; lra). lra.
        - destruct (eps <? Qabs (z - lk_rhs s)); [|apply incl_tl; exact Hi].
          rewrite map_app. intros c Hin. apply in_app_or in Hin as [Hin|[Hin|[]]]; [right; apply Hi; exact Hin|left; exact Hin]. }
      destruct (IH ((j, a) :: K) s1 s' I1 P2) as (K' & I2 & Pm & U2).
      + unfold s1; simpl. lra.
      + destruct ones_ as [|[j2 a2] ones_]; [exact Logic.I|]. unfold s1 at 1 2; cbn [lk_items lk_unsat lk_rhs snd].
        destruct (SRT entry key (lk_items s ++ [(j, (z - lk_rhs s) / a, (z - lk_rhs s, a))])) as [Pm _].
        apply (Permutation_map snd) in Pm.
        apply (attains_more (map snd (lk_items s)) _ [(z - lk_rhs s, a)] (lk_unsat s + a + eps2)).
        * exists x. split; [exact Lx|]. split; [exact Wx|]. unfold s1; simpl. lra.
        * eapply Permutation_trans; [exact Pm|]. rewrite map_app. simpl. apply Permutation_sym, Permutation_cons_append.
        * inversion P2 as [|? ? P3 _]; subst. simpl in P3. lra.
      + exact E.
      + exists K'. split; [exact I2|]. split.
        * eapply Permutation_trans; [exact Pm|]. simpl. apply Permutation_sym, Permutation_middle.
        * unfold s1 in U2; simpl in U2. simpl. lra.
  Qed.

  (** the start *)
  Definition start_items (frac : list item) : list entry :=
    srt entry key (map (fun e => (fst e, lift_ratio 1 (snd e), (1, snd e))) frac).
  Lemma start_value frac t :
    alpha_of (map (fun e : item => (fst e, lift_ratio 1 (snd e), (1, snd e))) frac) t == value (ones frac) (pt t) /\
    a_of (map (fun e : item => (fst e, lift_ratio 1 (snd e), (1, snd e))) frac) t == value frac (pt t).
  Proof.
    induction frac as [|[j a] frac [I1 I2]]; [split; reflexivity|]. simpl map. rewrite alpha_cons, a_cons, I1, I2.
    unfold ones. cbn [map value fst snd]. fold (ones frac). rewrite ?pt_at. destruct (t j); split; lra.
  Qed.
  Lemma value_le_weight frac t : positive frac -> value frac (pt t) <= weight frac.
  Proof.
    induction 1 as [|[j a] frac H1 H2 IH]; simpl in *; [lra|]. rewrite ?pt_at. destruct (t j); lra.
  Qed.
  Lemma count_le frac t : value (ones frac) (pt t) <= inject_Z (Z.of_nat (length frac)) /\
    (inject_Z (Z.of_nat (length frac)) - 1 < value (ones frac) (pt t) -> value frac (pt t) == weight frac).
  Proof.
    induction frac as [|[j a] frac [I1 I2]]; [split; [apply Qle_refl|intros; reflexivity]|].
    change (value (ones ((j, a) :: frac)) (pt t)) with (1 * pt t j + value (ones frac) (pt t)).
    simpl length. rewrite Nat2Z.inj_succ. unfold Z.succ. rewrite inject_Z_plus. change (inject_Z 1) with 1.
    cbn [value weight fold_right snd]. fold (weight frac). rewrite ?pt_at. destruct (t j).
    - split; [lra|]. intro H. rewrite I2 by lra. lra.
    - split; [lra|]. intro H. exfalso. lra.
  Qed.

  Lemma start_inv frac unsat : positive frac -> Forall (fun e => eps < snd e) frac -> unsat < weight frac ->
    lift_inv frac (LK (start_items frac) (ones frac) (inject_Z (Z.of_nat (length frac)) - 1) unsat).
  Proof.
    intros P Pe H. unfold start_items.
    match goal with |- context [srt entry key ?m] => set (l := m) end.
    destruct (SRT entry key l) as [Pm So].
    assert (Ok : Forall entry_ok (srt entry key l)).
    { eapply Permutation_Forall; [apply Permutation_sym; exact Pm|]. unfold l. rewrite Forall_map.
      unfold positive in P. rewrite Forall_forall in *. intros [j a] I. specialize (P _ I). specialize (Pe _ I). simpl in *.
      split; [unfold item_ok; simpl; split; [exact P|split; [lra|exists 1%Z; reflexivity]]|]. unfold key, lift_ratio; simpl.
      destruct (eps <? Qabs a) eqn:Q0; [reflexivity|]. qb. rewrite Qabs_pos in Q0 by lra. lra. }
    constructor; cbn [lk_items lk_cut lk_rhs lk_unsat].
    - exact Ok.
    - apply sorted_entries; assumption.
    - apply integral_minus; [exists (Z.of_nat (length frac)); reflexivity|exists 1%Z; reflexivity].
    - intro t. rewrite (alpha_perm _ _ t Pm). unfold l. rewrite (proj1 (start_value frac t)). reflexivity.
    - intro t. rewrite (a_perm _ _ t Pm). unfold l. rewrite (proj2 (start_value frac t)). lra.
    - intros t. rewrite (a_perm _ _ t Pm), (alpha_perm _ _ t Pm). unfold l.
      destruct (start_value frac t) as [V1 V2]. rewrite V1, V2. intro A.
      destruct (count_le frac t) as [C1 C2].
      destruct (Qlt_le_dec (inject_Z (Z.of_nat (length frac)) - 1) (value (ones frac) (pt t))) as [L|L]; [|exact L].
      specialize (C2 L). lra.
    - unfold ones. rewrite map_map. simpl. apply incl_refl.
  Qed.
  Lemma start_attains frac f w : In f frac -> weight frac - snd f <= w ->
    attains (map snd (start_items frac)) w (inject_Z (Z.of_nat (length frac)) - 1).
  Proof.
    intros I W. unfold start_items. set (l := map (fun e : item => (fst e, lift_ratio 1 (snd e), (1, snd e))) frac).
    destruct (SRT entry key l) as [Pm _]. apply (Permutation_map snd) in Pm.
    apply (attains_more (map snd l) _ [] w); [|exact Pm|lra].
    assert (M : map snd l = map (fun e : item => (1, snd e)) frac) by (unfold l; rewrite map_map; reflexivity). rewrite M.
    assert (All : forall g : list item, pf (map (fun e : item => (1, snd e)) g) (map (fun _ => true) g) == inject_Z (Z.of_nat (length g)) /\
                        wt (map (fun e : item => (1, snd e)) g) (map (fun _ => true) g) == weight g).
    { clear. induction g as [|[j a] g [I1 I2]]; [split; reflexivity|].
      simpl length. rewrite Nat2Z.inj_succ. unfold Z.succ. rewrite inject_Z_plus. change (inject_Z 1) with 1.
      cbn [map pf wt weight fold_right snd]. fold (weight g). rewrite I1, I2. split; lra. }
    apply in_split in I as (u & v & ->).
    exists (map (fun _ => true) u ++ false :: map (fun _ => true) v).
    split; [rewrite app_length, !map_length, app_length; simpl; rewrite map_length; reflexivity|].
    rewrite map_app. cbn [map]. rewrite wt_app, pf_app by (rewrite !map_length; reflexivity). cbn [pf wt].
    destruct (All u) as [U1 U2], (All v) as [V1 V2]. rewrite U1, U2, V1, V2.
    rewrite weight_app in W. cbn [weight fold_right] in W. fold (weight v) in W.
    rewrite app_length, inj_add. simpl length. rewrite Nat2Z.inj_succ. unfold Z.succ. rewrite inject_Z_plus. change (inject_Z 1) with 1.
    split; lra.
  Qed.

  (** ** When no selection of value [|C| - 1] fits: the two-element covers

      The down-lifting coefficients may then be negative, but the cut is not
      violated, so it is not added. *)
  Lemma lift_up_track s e s' K : lift_inv K s -> 0 < snd e -> lk_rhs s == 1 ->
    lift_up srt fuel s e = Done s' ->
    s' = s \/ attains (map snd (lk_items s')) (lk_unsat s') (lk_rhs s').
  Proof.
    intros I Pe R E. destruct e as [j a]. simpl in Pe. unfold lift_up in E. simpl fst in E. simpl snd in E.
    apply bind_done in E as (psi & E1 & E).
    destruct (eps <=? lk_unsat s - a) eqn:Q0.
    - qb. apply bind_done in E1 as ([z x] & E1 & E2). apply Done_inj in E2. simpl in E2. subst psi.
      pose proof I as [A B C D F G Hi].
      assert (Cap : 0 <= lk_unsat s - a + eps2) by (unfold eps, eps2 in *; lra).
      destruct (solver_bound _ _ _ _ A B Cap E1) as (Iz & Pz & _).
      destruct (eps <? lk_rhs s - z) eqn:Q1; apply Done_inj in E; subst s'; [|left; reflexivity].
      qb. right. cbn [lk_items lk_unsat lk_rhs].
      assert (Z0 : z == 0).
      { destruct Iz as [k Hk]. rewrite Hk in *. assert (0 <= k)%Z by (rewrite Zle_Qle; exact Pz).
        assert (k < 1)%Z. { rewrite Zlt_Qlt. change (inject_Z 1) with 1. unfold eps in Q1. revert Q1 R. generalize (inject_Z k) (lk_rhs s). clear. intros. lra. }
        assert (k = 0)%Z by lia. subst k. reflexivity. }
      destruct (SRT entry key (lk_items s ++ [(j, (lk_rhs s - z) / a, (lk_rhs s - z, a))])) as [Pm _].
      apply (Permutation_map snd) in Pm.
      apply (attains_more [(lk_rhs s - z, a)] _ (map snd (lk_items s)) (lk_unsat s)).
      + exists [true]. simpl. split; [reflexivity|]. unfold eps in Q0. split; lra.
      + eapply Permutation_trans; [exact Pm|]. rewrite map_app. apply Permutation_refl.
      + lra.
    - apply Done_inj in E1. subst psi. destruct (eps <? lk_rhs s - lk_rhs s) eqn:Q1; apply Done_inj in E; subst s'; [|left; reflexivity].
      qb. unfold eps in Q1. lra.
  Qed.
  Lemma lift_ups_track : forall rem K s s', lift_inv K s -> positive rem -> lk_rhs s == 1 ->
    ofold (lift_up srt fuel) rem s = Done s' ->
    s' = s \/ attains (map snd (lk_items s')) (lk_unsat s') (lk_rhs s').
  Proof.
    induction rem as [|e rem IH]; intros K s s' I P R E; simpl in E; [apply Done_inj in E; left; congruence|].
    inversion P as [|? ? P1 P2]; subst. apply bind_done in E as (s1 & E1 & E2).
    destruct (lift_up_inv K s e s1 I P1 E1) as (I1 & U1 & R1 & _).
    destruct (lift_ups_inv rem (e :: K) s1 s' I1 P2 E2) as (K' & _ & _ & U2 & R2 & l2 & L2).
    destruct (lift_up_track s e s1 K I P1 R E1) as [H|H].
    - subst s1. exact (IH (e :: K) s s' I1 P2 R E2).
    - right. rewrite U2, R2. eapply attains_more; [exact H|exact L2|lra].
  Qed.
  Lemma pf_int l y : Forall (fun i : pw => integral (fst i)) l -> integral (pf l y).
  Proof.
    intro H. revert y. induction H as [|[p w] l Hw H IH]; intros [|b y]; simpl; try apply integral_0.
    apply integral_plus; [|apply IH]. destruct b; [apply Hw|apply integral_0].
  Qed.
  Lemma lift_down_tele (x : nat -> Q) : forall ones_ s s',
    Forall (fun e : entry => 0 < snd (snd e) /\ integral (fst (snd e))) (lk_items s) -> integral (lk_rhs s) ->
    positive ones_ -> 0 <= lk_unsat s -> (forall e, In e ones_ -> x (fst e) == 1) ->
    lift_down srt fuel s ones_ = Done (Some s') ->
    value (lk_cut s') x - lk_rhs s' == value (lk_cut s) x - lk_rhs s.
  Proof.
    induction ones_ as [|[j a] ones_ IH]; intros s s' F R P U X E; simpl in E.
    - apply Done_inj in E. apply Some_inj in E. subst. reflexivity.
    - inversion P as [|? ? P1 P2]; subst. simpl in P1. apply bind_done in E as ([z y] & E1 & E). simpl in E.
      assert (F' : Forall (fun e : entry => 0 < snd (snd e)) (lk_items s) /\ Forall (fun e : entry => integral (fst (snd e))) (lk_items s)).
      { split; eapply Forall_impl; try exact F; intros e [A B]; assumption. }
      destruct F' as [F1 F2].
      assert (Cap : 0 <= lk_unsat s + a + eps2) by (unfold eps2; lra).
      destruct (solver_fits fuel _ _ z y ltac:(rewrite Forall_map; exact F1) Cap E1) as (_ & _ & Z & _).
      assert (Iz : integral z).
      { destruct (pf_int (map snd (lk_items s)) y ltac:(rewrite Forall_map; exact F2)) as [k Hk]. exists k. rewrite Z. exact Hk. }
      destruct (Qabs a <=? eps) eqn:Q0; [discriminate|].
      set (s1 := LK (srt entry key (lk_items s ++ [(j, (z - lk_rhs s) / a, (z - lk_rhs s, a))]))
                    (if eps <? Qabs (z - lk_rhs s) then lk_cut s ++ [(j, z - lk_rhs s)] else lk_cut s) z (lk_unsat s + a)) in *.
      assert (F3 : Forall (fun e : entry => 0 < snd (snd e) /\ integral (fst (snd e))) (lk_items s1)).
      { unfold s1; simpl. destruct (SRT entry key (lk_items s ++ [(j, (z - lk_rhs s) / a, (z - lk_rhs s, a))])) as [Pm _].
        eapply Permutation_Forall; [apply Permutation_sym; exact Pm|]. apply Forall_app. split; [exact F|].
        constructor; [|constructor]. simpl. split; [exact P1|apply integral_minus; assumption]. }
      assert (U1 : 0 <= lk_unsat s1) by (unfold s1; simpl; lra).
      rewrite (IH s1 s' F3 Iz P2 U1 (fun e I => X e (or_intror I)) E).
      unfold s1; cbn [lk_cut lk_rhs]. pose proof (X (j, a) (or_introl eq_refl)) as Xj. simpl in Xj.
      destruct (eps <? Qabs (z - lk_rhs s)) eqn:Q1; qb.
      + rewrite value_snoc, Xj. lra.
      + assert (Z0 : z - lk_rhs s == 0).
        { destruct (integral_minus _ _ Iz R) as [k Kk]. rewrite Kk in *.
          apply Qabs_Qle_condition in Q1 as [Qa Qb].
          assert (k < 1)%Z by (rewrite Zlt_Qlt; eapply Qle_lt_trans; [exact Qb|reflexivity]).
          assert (-1 < k)%Z by (rewrite Zlt_Qlt; eapply Qlt_le_trans; [|exact Qa]; reflexivity).
          assert (k = 0)%Z by lia. subst k. reflexivity. }
        lra.
  Qed.

  (** what is known of the LP point in the two-element case *)
  Definition lp_at (x : nat -> Q) (b : Q) (frac ones_ : list item) : Prop :=
    length frac = 2%nat /\ (forall e, In e ones_ -> x (fst e) == 1) /\ value frac x <= b - weight ones_ /\
    (forall e, In e frac -> 0 <= x (fst e)).

  Lemma liftUpDown_inner x b fl frac ones_ rem r :
    positive frac -> Forall (fun e => eps < snd e) frac -> positive ones_ -> positive rem ->
    (0 < b - weight ones_ \/ ones_ = []) -> b - weight ones_ < weight frac ->
    (match ones_ with
     | [] => True
     | e :: _ => (exists f, In f frac /\ weight frac - snd f <= b - weight ones_ + snd e + eps2) \/ lp_at x b frac ones_
     end) ->
    liftUpDown srt fuel x b fl frac ones_ rem = Done (Some r) ->
    exists cut rhs, r = uncomplement fl cut rhs /\ rhs + eps2 < value cut x /\
      incl (map fst cut) (map fst (frac ++ ones_ ++ rem)) /\
      forall t, value frac (pt t) + value ones_ (pt t) + value rem (pt t) <= b -> value cut (pt t) <= rhs.
  Proof.
    intros Pf Pe Po Pr U C At E. unfold liftUpDown in E. cbv zeta in E. fold (start_items frac) in E.
    apply bind_done in E as (os & E1 & E). destruct os as [s|]; [|discriminate].
    destruct (lk_rhs s + eps2 <? cut_at x (lk_cut s)) eqn:Q0; [|discriminate].
    apply Done_inj in E. apply Some_inj in E. subst r. qb.
    exists (lk_cut s), (lk_rhs s). split; [reflexivity|]. split; [exact Q0|].
    pose proof (start_inv frac (b - weight ones_) Pf Pe C) as I0.
    assert (Nn : forall v t, positive v -> 0 <= value v (pt t)).
    { clear. intros v t H. induction H as [|[j a] v H1 H2 IH]; simpl in *; [lra|]. rewrite ?pt_at. destruct (t j); lra. }
    destruct ((0 <? b - weight ones_) && negb (Nat.eqb (length rem + length ones_) 0)) eqn:Q1.
    - apply andb_true_iff in Q1 as [Q1 _]. qb.
      apply bind_done in E1 as (s1 & E1 & E2).
      assert (Psrt : positive (srt item (fun e : item => x (fst e)) rem)).
      { destruct (SRT item (fun e : item => x (fst e)) rem) as [Pm _]. eapply Permutation_Forall; [apply Permutation_sym; exact Pm|exact Pr]. }
      destruct (lift_ups_inv _ _ _ _ I0 Psrt E1) as (K1 & I1 & Pm1 & U1 & R1 & l & L1). simpl in U1, R1.
      assert (At1 : match ones_ with [] => True | e :: _ => attains (map snd (lk_items s1)) (lk_unsat s1 + snd e + eps2) (lk_rhs s1) end).
      { destruct ones_ as [|e ones_]; [exact Logic.I|]. inversion Po as [|? ? Po1 Po2]; subst.
        destruct At as [(f & F1 & F2)|(A1 & A2 & A3 & A4)].
        - rewrite U1, R1. eapply attains_more; [exact (start_attains frac f _ F1 F2)|exact L1|lra].
        - destruct frac as [|[j1 a1] [|[j2 a2] [|]]]; try discriminate.
          destruct (Qlt_le_dec (b - weight (e :: ones_) + snd e + eps2) a2) as [H2|H2].
          2:{ rewrite U1, R1. eapply attains_more; [apply (start_attains _ (j1, a1)); [left; reflexivity|]|exact L1|apply Qle_refl]. simpl in *. lra. }
          destruct (Qlt_le_dec (b - weight (e :: ones_) + snd e + eps2) a1) as [H1|H1].
          2:{ rewrite U1, R1. eapply attains_more; [apply (start_attains _ (j2, a2)); [right; left; reflexivity|]|exact L1|apply Qle_refl]. simpl in *. lra. }
          assert (Rone : lk_rhs (LK (start_items [(j1, a1); (j2, a2)]) (ones [(j1, a1); (j2, a2)])
                          (inject_Z (Z.of_nat (length [(j1, a1); (j2, a2)])) - 1) (b - weight (e :: ones_))) == 1) by reflexivity.
          destruct (lift_ups_track _ _ _ _ I0 Psrt Rone E1) as [->|H3].
          + exfalso. cbn [lk_unsat] in U1.
            assert (T : value (lk_cut s) x - lk_rhs s == value (ones [(j1, a1); (j2, a2)]) x - 1).
            { refine (lift_down_tele x (e :: ones_) _ s _ _ Po _ A2 E2).
              - cbn [lk_items]. destruct I0 as [Ok _ _ _ _ _ _]. cbn [lk_items] in Ok. eapply Forall_impl; [|exact Ok].
                intros en ((W & _ & Ii) & _). split; assumption.
              - cbn [lk_rhs]. exists 1%Z. reflexivity.
              - cbn [lk_unsat]. apply Qlt_le_weak. exact Q1. }
            unfold cut_at in Q0. cbn [ones map value fst snd] in T. simpl value in A3.
            pose proof (A4 (j1, a1) (or_introl eq_refl)) as X1. pose proof (A4 (j2, a2) (or_intror (or_introl eq_refl))) as X2.
            simpl in X1, X2. set (u := b - weight (e :: ones_)) in *.
            assert (Y1 : u * x j1 <= a1 * x j1) by (apply Qmult_le_compat_r; [unfold eps2 in *; lra|exact X1]).
            assert (Y2 : u * x j2 <= a2 * x j2) by (apply Qmult_le_compat_r; [unfold eps2 in *; lra|exact X2]).
            assert (Y3 : u * (x j1 + x j2) <= u * 1) by lra.
            assert (Y4 : x j1 + x j2 <= 1) by (apply (proj1 (Qmult_le_l _ _ u Q1)) in Y3; exact Y3).
            unfold eps2 in Q0. lra.
          + apply (attains_more _ _ [] _ (lk_unsat s1 + snd e + eps2) _ H3); [apply Permutation_refl|unfold eps2; lra]. }
      destruct (lift_down_inv ones_ K1 s1 s I1 Po) as (K2 & I2 & Pm2 & U2); [rewrite U1; lra|exact At1|exact E2|].
      destruct (SRT item (fun e : item => x (fst e)) rem) as [Pm _].
      assert (PK : Permutation K2 (frac ++ ones_ ++ rem)).
      { eapply Permutation_trans; [exact Pm2|]. eapply Permutation_trans; [apply Permutation_app_head; exact Pm1|].
        eapply Permutation_trans; [apply Permutation_app_head, Permutation_app_tail; exact Pm|].
        rewrite app_assoc. apply Permutation_app_comm. }
      split.
      { destruct I2 as [_ _ _ _ _ _ Hi]. intros c Hin. apply Hi in Hin. eapply Permutation_in; [apply Permutation_map; exact PK|exact Hin]. }
      intros t K. destruct I2 as [A B Cr D F G _]. rewrite D. apply G.
      specialize (F t). rewrite U2, U1.
      rewrite (value_perm _ _ (pt t) PK), !value_app in F. lra.
    - apply Done_inj in E1. apply Some_inj in E1. subst s. simpl. split.
      { unfold ones. rewrite map_map. simpl. rewrite map_app. apply incl_appl, incl_refl. }
      intros t K.
      destruct I0 as [A B Cr D F G _]. simpl in *. rewrite D. apply G.
      assert (W0 : weight ones_ == 0).
      { destruct U as [U| ->]; [|simpl; lra]. apply andb_false_iff in Q1 as [Q1|Q1]; [qb; lra|].
        apply negb_false_iff, Nat.eqb_eq in Q1. destruct ones_; [simpl; lra|simpl in Q1; lia]. }
      specialize (F t). pose proof (Nn ones_ t Po). pose proof (Nn rem t Pr). lra.
  Qed.
End UpDown.
