(** * Lemmas about the simple rounding model *)

From Verif Require Import Base Model_SimpleRounding.
Local Open Scope Q_scope.

(** ** gcd *)

Lemma gcd_rec_core : forall n f a b,
  (0 < a)%Z -> (a <= b)%Z -> (a < 2 ^ Z.of_nat n)%Z -> (2 * n <= f)%nat ->
  gcd_rec f a b = Done (Z.gcd a b).
Proof.
  induction n as [|n IH]; intros f a b Ha Hab Hn Hf.
  { simpl in Hn. lia. }
  destruct f as [|f]; [lia|]. cbn [gcd_rec].
  assert (E1 : (b <? a)%Z = false) by lia. rewrite E1.
  assert (E2 : (a =? 0)%Z = false) by lia. rewrite E2.
  assert (ER : Z.rem b a = (b mod a)%Z) by (apply Z.rem_mod_nonneg; lia).
  rewrite ER.
  pose proof (Z.mod_pos_bound b a Ha) as Hr.
  assert (G1 : Z.gcd a b = Z.gcd (b mod a) a).
  { rewrite Z.gcd_mod by lia. reflexivity. }
  destruct (b mod a =? 0)%Z eqn:E3.
  - apply Z.eqb_eq in E3. rewrite G1, E3, Z.gcd_0_l, Z.abs_eq by lia. reflexivity.
  - apply Z.eqb_neq in E3. set (r := (b mod a)%Z) in *.
    destruct f as [|f]; [lia|]. cbn [gcd_rec].
    assert (E4 : (a <? r)%Z = false) by lia. rewrite E4.
    assert (E5 : (r =? 0)%Z = false) by lia. rewrite E5.
    assert (ER2 : Z.rem a r = (a mod r)%Z) by (apply Z.rem_mod_nonneg; lia).
    rewrite ER2. assert (Hr0 : (0 < r)%Z) by lia.
    pose proof (Z.mod_pos_bound a r Hr0) as Hr'.
    assert (G2 : Z.gcd r a = Z.gcd (a mod r) r).
    { rewrite Z.gcd_mod by lia. reflexivity. }
    destruct (a mod r =? 0)%Z eqn:E6.
    + apply Z.eqb_eq in E6. rewrite G1, G2, E6, Z.gcd_0_l, Z.abs_eq by lia. reflexivity.
    + apply Z.eqb_neq in E6.
      rewrite IH; [rewrite G1, G2; reflexivity|lia|lia| |lia].
      assert (Hhalf : (2 * (a mod r) < a)%Z).
      { pose proof (Z.div_mod a r). assert (1 <= a / r)%Z by (apply Z.div_le_lower_bound; lia). nia. }
      rewrite Nat2Z.inj_succ, Z.pow_succ_r in Hn by lia. lia.
Qed.

Lemma gcd_rec_swap f a b : (0 < f)%nat -> (b < a)%Z -> gcd_rec f a b = gcd_rec f b a.
Proof.
  intros Hf H. destruct f as [|f]; [lia|]. cbn [gcd_rec].
  assert (E1 : (b <? a)%Z = true) by lia. assert (E2 : (a <? b)%Z = false) by lia.
  rewrite E1, E2. reflexivity.
Qed.

Lemma lt_pow_log2 a : (0 < a)%Z -> (a < 2 ^ Z.of_nat (S (Z.to_nat (Z.log2 a))))%Z.
Proof.
  intro H. pose proof (Z.log2_spec a H) as [_ L].
  rewrite Nat2Z.inj_succ, Z2Nat.id by apply Z.log2_nonneg. exact L.
Qed.

Lemma gcd_correct a b : (0 < a)%Z -> (0 < b)%Z -> gcd a b = Done (Z.gcd a b).
Proof.
  intros Ha Hb. unfold gcd, gcd_fuel.
  rewrite !Z.abs_eq by lia.
  set (n := S (Z.to_nat (Z.log2 (Z.max a b)))).
  assert (L : (Z.max a b < 2 ^ Z.of_nat n)%Z) by (apply lt_pow_log2; lia).
  destruct (Z.le_gt_cases a b) as [H|H].
  - apply gcd_rec_core with (n := n); lia.
  - rewrite gcd_rec_swap by lia. rewrite Z.gcd_comm.
    apply gcd_rec_core with (n := n); lia.
Qed.

Definition gcd_list (l : list Z) : Z := fold_right Z.gcd 0%Z l.

Lemma ofold_gcd l r : (0 < r)%Z -> Forall (fun z => 0 < z)%Z l ->
  ofold (fun r v => gcd r v) l r = Done (Z.gcd r (gcd_list l)).
Proof.
  revert r. induction l as [|v l IH]; simpl; intros r Hr Hl.
  - rewrite Z.gcd_0_r, Z.abs_eq by lia. reflexivity.
  - inversion Hl; subst. rewrite gcd_correct by assumption. simpl.
    rewrite IH; [|pose proof (Z.gcd_nonneg r v);
      assert (Z.gcd r v <> 0)%Z by (rewrite Z.gcd_eq_0; lia); lia|assumption].
    rewrite Z.gcd_assoc. reflexivity.
Qed.

Lemma gcdv_correct l : l <> [] -> Forall (fun z => 0 < z)%Z l ->
  gcdv l = Done (gcd_list l).
Proof.
  intros Hne Hl. destruct l as [|a [|b l]]; [congruence| |].
  - simpl. inversion Hl; subst. rewrite Z.gcd_0_r, Z.abs_eq by lia. reflexivity.
  - inversion Hl as [|? ? Ha Hl']; subst. inversion Hl' as [|? ? Hb Hl'']; subst.
    cbn [gcdv]. rewrite gcd_correct by assumption. cbn [bind].
    rewrite ofold_gcd.
    + simpl. rewrite Z.gcd_assoc. reflexivity.
    + pose proof (Z.gcd_nonneg a b). assert (Z.gcd a b <> 0)%Z by (rewrite Z.gcd_eq_0; lia). lia.
    + assumption.
Qed.

Lemma gcd_list_divides l z : In z l -> (gcd_list l | z)%Z.
Proof.
  induction l as [|a l IH]; simpl; [tauto|]. intros [<-|H].
  - apply Z.gcd_divide_l.
  - eapply Z.divide_trans; [apply Z.gcd_divide_r|auto].
Qed.
Lemma gcd_list_greatest l d : (forall z, In z l -> (d | z)%Z) -> (d | gcd_list l)%Z.
Proof.
  induction l as [|a l IH]; simpl; intros H; [apply Z.divide_0_r|].
  apply Z.gcd_greatest; [apply H; left; reflexivity|]. apply IH. intros; apply H; right; assumption.
Qed.
Lemma gcd_list_pos l : l <> [] -> Forall (fun z => 0 < z)%Z l -> (0 < gcd_list l)%Z.
Proof.
  intros Hne Hl. destruct l as [|a l]; [congruence|]. inversion Hl; subst. simpl.
  pose proof (Z.gcd_nonneg a (gcd_list l)).
  assert (Z.gcd a (gcd_list l) <> 0)%Z by (rewrite Z.gcd_eq_0; lia). lia.
Qed.

(** A zero entry: undefined behaviour. *)
Lemma gcd_zero_l b : (0 <= b)%Z -> gcd 0 b = Undef IntDivByZero.
Proof.
  intro H. unfold gcd, gcd_fuel. rewrite Nat.add_1_r. cbn [gcd_rec].
  destruct (b <? 0)%Z eqn:E; [lia|]. reflexivity.
Qed.
Lemma gcd_zero_r a : (0 <= a)%Z -> gcd a 0 = Undef IntDivByZero.
Proof.
  intro H. unfold gcd, gcd_fuel. rewrite Nat.add_1_r. cbn [gcd_rec].
  destruct (0 <? a)%Z eqn:E; [reflexivity|].
  assert (a = 0)%Z by lia. subst. reflexivity.
Qed.

Lemma ofold_gcd_zero l r : (0 < r)%Z -> Forall (fun z => 0 <= z)%Z l -> In 0%Z l ->
  ofold (fun r v => gcd r v) l r = Undef IntDivByZero.
Proof.
  revert r. induction l as [|v l IH]; cbn [ofold]; intros r Hr Hl Hin; [destruct Hin|].
  inversion Hl; subst.
  destruct (Z.eq_dec v 0) as [->|Hv].
  - rewrite gcd_zero_r by lia. reflexivity.
  - rewrite gcd_correct by lia. cbn [bind]. destruct Hin as [Hin|Hin]; [congruence|].
    apply IH; auto.
    pose proof (Z.gcd_nonneg r v). assert (Z.gcd r v <> 0)%Z by (rewrite Z.gcd_eq_0; lia). lia.
Qed.
Lemma gcdv_zero l : (2 <= length l)%nat -> Forall (fun z => 0 <= z)%Z l -> In 0%Z l ->
  gcdv l = Undef IntDivByZero.
Proof.
  intros Hlen Hl Hin. destruct l as [|a [|b l]]; simpl in Hlen; try lia.
  inversion Hl as [|? ? Ha Hl']; subst. inversion Hl' as [|? ? Hb Hl'']; subst.
  cbn [gcdv].
  destruct (Z.eq_dec a 0) as [->|Ha0]; [rewrite gcd_zero_l by lia; reflexivity|].
  destruct (Z.eq_dec b 0) as [->|Hb0]; [rewrite gcd_zero_r by lia; reflexivity|].
  rewrite gcd_correct by lia. cbn [bind].
  apply ofold_gcd_zero; auto.
  - pose proof (Z.gcd_nonneg a b). assert (Z.gcd a b <> 0)%Z by (rewrite Z.gcd_eq_0; lia). lia.
  - destruct Hin as [?|[?|?]]; congruence || assumption.
Qed.

(** ** Netting out *)

Definition clean_entry (eps : Q) (m : mip) (j : nat) (a : Q) : Prop :=
  (a == 0 \/ a < - eps \/ eps < a) /\
  (m_int m j = true -> forall l h, m_clo m j = Some l -> m_chi m j = Some h ->
      h - l < eps -> l == h).

Lemma net_out_sound eps m sign x : forall form b irow irow' b',
  (sign == 1 \/ sign == -1) ->
  (forall j a, In (j, a) form -> clean_entry eps m j a) ->
  (forall j a, In (j, a) form ->
      ge_opt_lo (x j) (m_clo m j) /\ le_opt_hi (x j) (m_chi m j)) ->
  0 < eps ->
  net_out eps m sign form b irow = Some (irow', b') ->
  sign * value form x + value irow x <= b ->
  value irow' x <= b'.
Proof.
  induction form as [|[j a] form IH]; cbn [net_out value]; intros b irow irow' b' Hs Hc Hb He E H.
  - injection E as <- <-. lra.
  - assert (Hc' : forall j a, In (j, a) form -> clean_entry eps m j a)
      by (intros; apply Hc; right; assumption).
    assert (Hb' : forall j a, In (j, a) form ->
      ge_opt_lo (x j) (m_clo m j) /\ le_opt_hi (x j) (m_chi m j))
      by (intros; eapply Hb; right; eassumption).
    destruct (Hc j a (or_introl eq_refl)) as [Ha Hfix].
    destruct (Hb j a (or_introl eq_refl)) as [Hlo Hhi].
    destruct (m_int m j) eqn:Ei; cbn [negb] in E.
    + destruct (nearly_fixed eps (m_clo m j) (m_chi m j)) eqn:En.
      * unfold nearly_fixed in En.
        destruct (m_clo m j) as [l|] eqn:El; [|discriminate].
        destruct (m_chi m j) as [u|] eqn:Eu; [|discriminate]. qb.
        specialize (Hfix eq_refl l u eq_refl eq_refl En).
        simpl in Hlo, Hhi. assert (Ex : x j == u) by lra.
        eapply IH in E; eauto. rewrite Ex in H. lra.
      * eapply IH in E; eauto. rewrite value_app. simpl. lra.
    + destruct (sign * a <? - eps) eqn:E1.
      * destruct (m_chi m j) as [u|] eqn:Eu; [|discriminate]. qb. simpl in Hhi.
        eapply IH in E; eauto. nra.
      * destruct (eps <? sign * a) eqn:E2.
        -- destruct (m_clo m j) as [l|] eqn:El; [|discriminate]. qb. simpl in Hlo.
           eapply IH in E; eauto. nra.
        -- qb. eapply IH in E; eauto.
           assert (a == 0). { destruct Ha as [?|[?|?]]; [assumption| |]; destruct Hs as [Hs|Hs]; rewrite Hs in *; lra. }
           rewrite H0 in H. lra.
Qed.

Lemma net_out_entries eps m sign : forall form b irow irow' b',
  net_out eps m sign form b irow = Some (irow', b') ->
  forall j c, In (j, c) irow' ->
    In (j, c) irow \/ (exists a, In (j, a) form /\ c = sign * a /\ m_int m j = true).
Proof.
  induction form as [|[k a] form IH]; cbn [net_out]; intros b irow irow' b' E j c Hin.
  - injection E as <- <-. left. exact Hin.
  - assert (K : forall b1 irow1, net_out eps m sign form b1 irow1 = Some (irow', b') ->
       (irow1 = irow \/ (irow1 = irow ++ [(k, sign * a)] /\ m_int m k = true)) ->
       In (j, c) irow \/ (exists a0, In (j, a0) ((k, a) :: form) /\ c = sign * a0 /\ m_int m j = true)).
    { intros b1 irow1 E1 Hi. destruct (IH _ _ _ _ E1 j c Hin) as [H|(a0 & H1 & H2 & H3)].
      - destruct Hi as [->|[-> Hm]]; [left; exact H|].
        apply in_app_or in H. destruct H as [H|[H|[]]]; [left; exact H|].
        injection H as <- <-. right. exists a. simpl. auto.
      - right. exists a0. simpl. auto. }
    destruct (m_int m k) eqn:Ei; cbn [negb] in E.
    + destruct (nearly_fixed _ _ _).
      * destruct (m_chi m k); [|discriminate]. eapply K; eauto.
      * eapply K; eauto.
    + destruct (sign * a <? - eps).
      * destruct (m_chi m k); [|discriminate]. eapply K; eauto.
      * destruct (eps <? sign * a).
        -- destruct (m_clo m k); [|discriminate]. eapply K; eauto.
        -- eapply K; eauto.
Qed.

Lemma net_out_nodup eps m sign : forall form b irow irow' b',
  net_out eps m sign form b irow = Some (irow', b') ->
  NoDup (map fst irow ++ map fst form) -> NoDup (map fst irow').
Proof.
  induction form as [|[k a] form IH]; cbn [net_out]; intros b irow irow' b' E Hn.
  - injection E as <- <-. simpl in Hn. rewrite app_nil_r in Hn. exact Hn.
  - simpl in Hn.
    assert (N1 : NoDup (map fst irow ++ map fst form)) by (eapply NoDup_remove_1; exact Hn).
    destruct (m_int m k) eqn:Ei; cbn [negb] in E.
    + destruct (nearly_fixed _ _ _).
      * destruct (m_chi m k); [|discriminate]. eapply IH; eauto.
      * eapply IH; eauto. rewrite map_app. simpl. rewrite <- app_assoc. exact Hn.
    + destruct (sign * a <? - eps).
      * destruct (m_chi m k); [|discriminate]. eapply IH; eauto.
      * destruct (eps <? sign * a).
        -- destruct (m_clo m k); [|discriminate]. eapply IH; eauto.
        -- eapply IH; eauto.
Qed.

(** ** Powers of ten *)

Lemma pow10_pos p : 0 < pow10 p.
Proof.
  unfold pow10. change 0 with (inject_Z 0). rewrite <- Zlt_Qlt. apply Z.pow_pos_nonneg; lia.
Qed.
Lemma pow10_ge1 p : 1 <= pow10 p.
Proof.
  unfold pow10. change 1 with (inject_Z 1). rewrite <- Zle_Qle.
  pose proof (Z.pow_pos_nonneg 10 (Z.of_nat p)). lia.
Qed.
Lemma pow10_split p q : (p <= q)%nat -> pow10 q == pow10 p * inject_Z (10 ^ Z.of_nat (q - p)).
Proof.
  intro H. unfold pow10. rewrite <- inject_Z_mult, <- Z.pow_add_r by lia.
  replace (Z.of_nat p + Z.of_nat (q - p))%Z with (Z.of_nat q) by lia. reflexivity.
Qed.

(** The tolerance test of find_power at power [p]. *)
Definition near_int (tol v : Q) (p : nat) : bool :=
  let s := v * pow10 p in
  (frac s <? tol * pow10 p) || (1 - frac s <? tol * pow10 p).

Lemma find_power_near tol v : forall tries p q s,
  find_power tol v p tries = Some (q, s) ->
  near_int tol v q = true /\ (p <= q < p + tries)%nat /\ s = v * pow10 q.
Proof.
  induction tries as [|t IH]; simpl; intros p q s E; [discriminate|].
  destruct (_ || _) eqn:En.
  - injection E as <- <-. split; [|split; [lia|reflexivity]].
    unfold near_int, frac. exact En.
  - apply IH in E as (A & B & C). split; [exact A|split; [lia|exact C]].
Qed.

Lemma power10_bound tol xs : forall mp p,
  power10 tol xs mp = Some p -> (mp <= p)%nat.
Proof.
  induction xs as [|x xs IH]; cbn [power10]; intros mp p E; [injection E as <-; lia|].
  destruct (find_power _ _ _ _) as [[q s]|]; [|discriminate].
  destruct (_ <? s); [discriminate|]. apply IH in E.
  destruct (Nat.ltb_spec mp q); lia.
Qed.
Lemma power10_entry tol xs : forall mp p,
  power10 tol xs mp = Some p -> forall x, In x xs ->
  exists q, (q <= p)%nat /\ (q < 16)%nat /\ near_int tol (qabs x) q = true.
Proof.
  induction xs as [|y xs IH]; cbn [power10]; intros mp p E x Hin; [destruct Hin|].
  destruct (find_power _ _ _ _) as [[q s]|] eqn:Ef; [|discriminate].
  destruct (_ <? s); [discriminate|].
  destruct Hin as [<-|Hin].
  - exists q. apply find_power_near in Ef as (A & B & C).
    apply power10_bound in E. destruct (Nat.ltb_spec mp q); repeat split; auto; lia.
  - eapply IH; eauto.
Qed.

(** Exact decimal data: whenever the coefficient passes the tolerance test at
    some power of ten it really is integral at that power. *)
Definition exact_decimal (tol a : Q) : Prop :=
  forall p, (p < 16)%nat -> near_int tol (qabs a) p = true -> integral (qabs a * pow10 p).

Lemma qabs_cases q : (q < 0 /\ qabs q = - q) \/ (0 <= q /\ qabs q = q).
Proof. unfold qabs. destruct (q <? 0) eqn:E; qb; auto. Qed.
Lemma qabs_nonneg q : 0 <= qabs q.
Proof. destruct (qabs_cases q) as [[? ->]|[? ->]]; lra. Qed.

Lemma power10_integral tol xs p :
  power10 tol xs 0 = Some p -> (forall x, In x xs -> exact_decimal tol x) ->
  forall x, In x xs -> integral (qabs x * pow10 p).
Proof.
  intros E Hx x Hin. destruct (power10_entry _ _ _ _ E x Hin) as (q & A & B & C).
  apply (Hx x Hin) in C; [|assumption].
  eapply integral_eq; [|apply integral_mult; [exact C|apply (integral_inject (10 ^ Z.of_nat (p - q)))]].
  rewrite (pow10_split q p A). ring.
Qed.

Lemma omap_forall2 {A B} (f : A -> outcome B) l l' :
  omap f l = Done l' -> Forall2 (fun a b => f a = Done b) l l'.
Proof.
  revert l'. induction l as [|a l IH]; simpl; intros l' E.
  - injection E as <-. constructor.
  - apply bind_done in E as (b & E1 & E). apply bind_done in E as (bs & E2 & E).
    injection E as <-. constructor; auto.
Qed.

Lemma to_int_half q q' z : integral q -> 0 <= q -> q' == q + (1#2) ->
  to_int q' = Done z -> inject_Z z == q.
Proof.
  intros [w Hw] H0 Hq E. unfold to_int in E. cbv zeta in E.
  destruct (q' <? 0) eqn:E0; qb; [lra|].
  destruct (int_range _); [|discriminate]. apply Done_inj in E. subst z.
  rewrite (Qfloor_unique _ w); [symmetry; exact Hw| |]; lra.
Qed.

(** ** The cut is a positive multiple of the derived inequality *)

Lemma cut_value eps p negative g x : forall irow0 xInt cf,
  0 < eps -> (0 < g)%Z ->
  (forall j c, In (j, c) irow0 -> memb j negative = (c <? - eps)) ->
  (forall j c, In (j, c) irow0 -> c == 0 \/ c < - eps \/ eps < c) ->
  (forall j c, In (j, c) irow0 -> integral (qabs c * pow10 p)) ->
  Forall2 (fun a b => to_int (snd a * pow10 p + (1#2)) = Done b)
    (map (fun p => if snd p <? - eps then (fst p, snd p * (-1)) else p) irow0) xInt ->
  Forall2 (fun a b => int_div a g = Done b) xInt cf ->
  (forall z, In z xInt -> (g | z)%Z) ->
  value (map (fun q => let '(p, c) := q in
                   (fst p, if memb (fst p) negative
                           then inject_Z c * (-1) else inject_Z c))
             (combine (map (fun p => if snd p <? - eps then (fst p, snd p * (-1)) else p) irow0) cf)) x
    * inject_Z g == pow10 p * value irow0 x.
Proof.
  induction irow0 as [|[j c] irow0 IH]; intros xInt cf He Hg Hneg Hc Hint F1 F2 Hdiv.
  - simpl. ring.
  - cbn [map] in F1. inversion F1 as [|? z ? xInt' Hz F1']; subst.
    inversion F2 as [|? q ? cf' Hq F2']; subst.
    cbn [combine map value].
    rewrite Qmult_plus_distr_l, IH with (xInt := xInt'); auto;
      [|intros; apply Hneg; right; assumption
       |intros; eapply Hc; right; eassumption
       |intros; eapply Hint; right; eassumption
       |intros; apply Hdiv; right; assumption].
    simpl (snd (j, c)) in *. simpl (fst (j, c)).
    cbn [value]. rewrite Qmult_plus_distr_r. apply Qplus_inj_r.
    assert (Ez : inject_Z z == qabs c * pow10 p).
    { eapply to_int_half; [apply (Hint j); left; reflexivity| | |exact Hz].
      - pose proof (qabs_nonneg c). pose proof (pow10_pos p). nra.
      - apply Qplus_inj_r. apply Qmult_inj_r; [pose proof (pow10_pos p); lra|].
        destruct (c <? - eps) eqn:E; qb; simpl;
          destruct (qabs_cases c) as [[? ->]|[? ->]]; try lra.
        destruct (Hc j c (or_introl eq_refl)) as [H1|[H1|H1]]; lra. }
    assert (Eq : inject_Z q * inject_Z g == inject_Z z).
    { unfold int_div in Hq. destruct (g =? 0)%Z eqn:Eg; [lia|]. injection Hq as <-.
      rewrite <- inject_Z_mult. f_equiv.
      destruct (Hdiv z (or_introl eq_refl)) as [k Hk]. subst z.
      rewrite Z.quot_mul by lia. reflexivity. }
    assert (Hfst : fst (if c <? - eps then (j, c * (-1)) else (j, c)) = j)
      by (destruct (c <? - eps); reflexivity).
    rewrite Hfst. rewrite (Hneg j c (or_introl eq_refl)).
    destruct (c <? - eps) eqn:E; qb; destruct (qabs_cases c) as [[? Hq1]|[? Hq1]]; rewrite Hq1 in Ez.
    + setoid_replace (inject_Z q * -1 * x j * inject_Z g) with (- (inject_Z q * inject_Z g) * x j) by ring.
      rewrite Eq, Ez. ring.
    + lra.
    + destruct (Hc j c (or_introl eq_refl)) as [H1|[H1|H1]]; lra.
    + setoid_replace (inject_Z q * x j * inject_Z g) with ((inject_Z q * inject_Z g) * x j) by ring.
      rewrite Eq, Ez. ring.
Qed.

Lemma memb_In j l : memb j l = true <-> In j l.
Proof.
  unfold memb. rewrite existsb_exists. split.
  - intros (k & A & B). apply Nat.eqb_eq in B. subst. exact A.
  - intro H. exists j. split; [exact H|apply Nat.eqb_refl].
Qed.

Lemma negative_flags eps irow0 :
  NoDup (map fst irow0) -> forall j c, In (j, c) irow0 ->
  memb j (map fst (filter (fun p => snd p <? - eps) irow0)) = (c <? - eps).
Proof.
  induction irow0 as [|[k d] irow0 IH]; simpl; intros Hn j c Hin; [destruct Hin|].
  inversion Hn as [|? ? Hk Hn']; subst.
  destruct Hin as [Hin|Hin].
  - injection Hin as -> ->.
    destruct (c <? - eps) eqn:E; simpl; [rewrite Nat.eqb_refl; reflexivity|].
    destruct (memb j _) eqn:Em; [|reflexivity].
    apply memb_In in Em. apply in_map_iff in Em as ([j' c'] & E1 & E2). simpl in E1; subst.
    apply filter_In in E2 as [E2 _]. exfalso. apply Hk. apply in_map_iff. exists (j, c'); auto.
  - rewrite <- (IH Hn' j c Hin).
    destruct (d <? - eps) eqn:E; [|reflexivity]. simpl.
    destruct (Nat.eqb_spec j k) as [->|Hne]; [|reflexivity].
    exfalso. apply Hk. apply in_map_iff. exists (k, c); auto.
Qed.

(** Data on which one row of the generator is exact. *)
Definition clean_row (eps : Q) (m : mip) (r : row) : Prop :=
  forall j a, In (j, a) (r_form r) ->
    clean_entry eps m j a /\
    (m_int m j = true -> exact_decimal (eps * (1#10000)) a).

Lemma process_row_valid eps m r c :
  0 < eps -> wf_row (m_ncols m) r -> clean_row eps m r ->
  process_row eps m r = Done (Some c) ->
  forall x, row_sat r x -> in_bounds m x -> integer_ok m x -> rowcut_sat c x.
Proof.
  intros He [Hnd Hwf] Hcl E x Hsat Hbd Hint.
  unfold process_row in E.
  destruct (deriveAnIntegerRow eps m r) as [[[irow b] negative]|] eqn:Ed; [|discriminate].
  (* reconstruct the derivation *)
  assert (K : exists sign b0 irow0, (sign == 1 \/ sign == -1) /\
     (sign = 1 \/ sign = -1) /\
     net_out eps m sign (r_form r) b0 [] = Some (irow0, b) /\ irow0 <> [] /\
     (irow, negative) = split_signs eps irow0 /\
     sign * value (r_form r) x <= b0).
  { unfold deriveAnIntegerRow in Ed. destruct Hsat as [Hlo Hhi].
    unfold row_sense, row_rhs in Ed.
    destruct (r_lo r) as [lo|] eqn:El, (r_hi r) as [hi|] eqn:Eh; simpl in Hlo, Hhi;
      try discriminate.
    - destruct (Qeq_bool lo hi); [discriminate|].
      destruct (net_out eps m 1 (r_form r) hi []) as [[[|p irow0] b1]|] eqn:En; try discriminate.
      exists 1, hi, (p :: irow0). injection Ed as <- <- <-.
      repeat split; auto; try discriminate; lra.
    - destruct (net_out eps m (-1) (r_form r) (- lo) []) as [[[|p irow0] b1]|] eqn:En; try discriminate.
      exists (-1), (- lo), (p :: irow0). injection Ed as <- <- <-.
      repeat split; auto; try discriminate; try lra.
    - destruct (net_out eps m 1 (r_form r) hi []) as [[[|p irow0] b1]|] eqn:En; try discriminate.
      exists 1, hi, (p :: irow0). injection Ed as <- <- <-.
      repeat split; auto; try discriminate; lra. }
  destruct K as (sign & b0 & irow0 & Hs & Hs' & En & Hne & Esp & Hb0).
  injection Esp as -> ->.
  assert (Hval : value irow0 x <= b).
  { eapply net_out_sound; [exact Hs| | |exact He|exact En|].
    - intros j a Hin. apply (Hcl j a Hin).
    - intros j a Hin. apply Hbd. eapply Hwf; eauto.
    - simpl. lra. }
  assert (Hent : forall j c, In (j, c) irow0 ->
     exists a, In (j, a) (r_form r) /\ c = sign * a /\ m_int m j = true).
  { intros j c0 Hin. destruct (net_out_entries _ _ _ _ _ _ _ _ En j c0 Hin) as [[]|H]. exact H. }
  assert (Hnd0 : NoDup (map fst irow0)).
  { eapply net_out_nodup; [exact En|]. simpl. exact Hnd. }
  assert (Habs : forall a, qabs (sign * a) == qabs a).
  { intro a. destruct Hs' as [-> | ->].
    - destruct (qabs_cases (1 * a)) as [[? ->]|[? ->]], (qabs_cases a) as [[? ->]|[? ->]]; lra.
    - destruct (qabs_cases (-1 * a)) as [[? ->]|[? ->]], (qabs_cases a) as [[? ->]|[? ->]]; lra. }
  assert (Hc0 : forall j c, In (j, c) irow0 -> c == 0 \/ c < - eps \/ eps < c).
  { intros j c0 Hin. destruct (Hent j c0 Hin) as (a & Ha & -> & _).
    destruct (Hcl j a Ha) as [[H _] _]. destruct Hs' as [-> | ->]; destruct H as [H|[H|H]]; lra. }
  destruct (power10 _ _ _) as [p|] eqn:Ep; [|discriminate].
  apply bind_done in E as (xInt & E1 & E).
  apply bind_done in E as (g & Eg & E).
  apply bind_done in E as (cf & E2 & E).
  destruct (eps <? _); [|discriminate]. injection E as <-.
  apply omap_forall2 in E1. apply omap_forall2 in E2.
  assert (Hpi : forall j c, In (j, c) irow0 -> integral (qabs c * pow10 p)).
  { intros j c0 Hin. destruct (Hent j c0 Hin) as (a & Ha & -> & Hm).
    destruct (Hcl j a Ha) as [_ Hex]. specialize (Hex Hm).
    (* the element stored is |c|; its own tolerance test *)
    set (el := if sign * a <? - eps then sign * a * (-1) else sign * a).
    assert (Hel : In el (map snd (map (fun p => if snd p <? - eps then (fst p, snd p * (-1)) else p) irow0))).
    { rewrite map_map. apply in_map_iff. exists (j, sign * a). split; [|exact Hin].
      unfold el. simpl. destruct (sign * a <? - eps); reflexivity. }
    destruct (power10_entry _ _ _ _ Ep el Hel) as (q & Q1 & Q2 & Q3).
    assert (Heq : qabs el == qabs a).
    { unfold el. rewrite <- (Habs a). destruct (sign * a <? - eps) eqn:E0; [|reflexivity]. qb.
      destruct (qabs_cases (sign * a * -1)) as [[? ->]|[? ->]], (qabs_cases (sign * a)) as [[? ->]|[? ->]]; lra. }
    assert (Hnear : near_int (eps * (1#10000)) (qabs a) q = true).
    { rewrite <- Q3. unfold near_int, frac, qfloor.
      assert (Hs1 : qabs a * pow10 q == qabs el * pow10 q) by (rewrite Heq; reflexivity).
      rewrite (Qfloor_comp _ _ Hs1).
      unfold Qltb. rewrite !Hs1. reflexivity. }
    apply Hex in Hnear; [|assumption].
    eapply integral_eq; [|apply integral_mult; [exact Hnear|apply (integral_inject (10 ^ Z.of_nat (p - q)))]].
    rewrite (pow10_split q p Q1), (Habs a). ring. }
  (* the integers are non-negative, and positive because gcdv succeeded *)
  assert (Hnn : Forall (fun z => 0 <= z)%Z xInt /\ length xInt = length irow0).
  { clear - E1 Hpi Hc0 He. revert xInt E1. induction irow0 as [|[j c] irow0 IH]; intros xInt F; cbn [map] in F;
      inversion F as [|? z ? xs Hz F']; subst; [split; [constructor|reflexivity]|].
    destruct (IH (fun j c H => Hc0 j c (or_intror H)) (fun j c H => Hpi j c (or_intror H)) xs F') as [I1 I2].
    split; [|simpl; congruence]. constructor; [|exact I1].
    simpl snd in Hz. unfold to_int in Hz. cbv zeta in Hz.
    set (v := snd (if c <? - eps then (j, c * -1) else (j, c)) * pow10 p + (1 # 2)) in *.
    assert (Hv : 0 <= v).
    { unfold v. pose proof (pow10_pos p).
      destruct (c <? - eps) eqn:E; simpl; qb; [nra|].
      destruct (Hc0 j c (or_introl eq_refl)) as [H1|[H1|H1]]; [rewrite H1; lra|lra|nra]. }
    destruct (v <? 0) eqn:Ev; qb; [lra|].
    destruct (int_range _); [|discriminate]. apply Done_inj in Hz. subst z.
    rewrite <- (Qfloor_Z 0). apply Qfloor_resp_le. exact Hv. }
  destruct Hnn as [Hnn Hlen].
  assert (Hxne : xInt <> []) by (intro H; rewrite H in Hlen; simpl in Hlen; apply Hne; destruct irow0; [reflexivity|discriminate]).
  assert (Hpos : Forall (fun z => 0 < z)%Z xInt).
  { destruct (in_dec Z.eq_dec 0%Z xInt) as [Hin|Hnin].
    - exfalso. destruct xInt as [|z [|z2 xs]]; [congruence| |].
      + destruct Hin as [->|[]]. simpl in Eg. injection Eg as <-.
        inversion E2 as [|? ? ? ? H1 H2]. discriminate H1.
      + rewrite gcdv_zero in Eg; [discriminate|simpl; lia|assumption|assumption].
    - rewrite Forall_forall in *. intros z Hz. specialize (Hnn z Hz). cbv beta in Hnn.
      destruct (Z.eq_dec z 0) as [->|]; [contradiction|lia]. }
  rewrite (gcdv_correct _ Hxne Hpos) in Eg. injection Eg as <-.
  assert (Hg : (0 < gcd_list xInt)%Z) by (apply gcd_list_pos; assumption).
  assert (HgQ : 0 < inject_Z (gcd_list xInt)) by (change 0 with (inject_Z 0); rewrite <- Zlt_Qlt; exact Hg).
  assert (Hcv := cut_value eps p
     (map fst (filter (fun p => snd p <? - eps) irow0)) (gcd_list xInt) x irow0 xInt cf He Hg
     (negative_flags eps irow0 Hnd0) Hc0 Hpi E1 E2 (fun z H => gcd_list_divides xInt z H)).
  unfold rowcut_sat. cbn [rc_form rc_lb rc_ub ge_opt_lo le_opt_hi]. split; [exact I|].
  apply integral_le_floor.
  - apply value_integral. intros j a Hin.
    apply in_map_iff in Hin as ([pp cc] & Heq & Hin). injection Heq as Hj Ha.
    split.
    + rewrite <- Ha. destruct (memb _ _); [|apply integral_inject].
      apply integral_mult; [apply integral_inject|]. exists (-1)%Z. reflexivity.
    + apply in_combine_l in Hin. apply in_map_iff in Hin as ([k d] & Hk & Hin).
      assert (fst pp = k) by (rewrite <- Hk; simpl; destruct (d <? - eps); reflexivity).
      assert (j = k) by congruence. subst j k.
      destruct (Hent _ _ Hin) as (a0 & H1 & _ & H3). apply Hint; [eapply Hwf; eauto|congruence].
  - apply Qle_shift_div_l; [exact HgQ|]. rewrite Hcv. rewrite (Qmult_comm b).
    apply Qmult_le_l; [apply pow10_pos|exact Hval].
Qed.

(** ** Coefficients of the cut have no common factor *)

Lemma cf_coprime g xInt cf :
  g = gcd_list xInt -> (0 < g)%Z ->
  Forall2 (fun a b => int_div a g = Done b) xInt cf -> xInt <> [] ->
  forall d, (forall z, In z cf -> (d | z)%Z) -> (d | 1)%Z.
Proof.
  intros -> Hg F Hne d Hd.
  assert (H : (d * gcd_list xInt | gcd_list xInt)%Z).
  { apply gcd_list_greatest. intros z Hz.
    assert (K : exists q, In q cf /\ (z = q * gcd_list xInt)%Z).
    { clear Hne Hd. remember (gcd_list xInt) as g eqn:Eg.
      assert (Hdiv : forall z, In z xInt -> (g | z)%Z) by (subst; apply gcd_list_divides).
      clear Eg. induction F as [|a b xs ys Hab F IH]; [destruct Hz|].
      destruct Hz as [->|Hz].
      - exists b. split; [left; reflexivity|]. unfold int_div in Hab.
        destruct (g =? 0)%Z eqn:E; [lia|]. injection Hab as <-.
        destruct (Hdiv z (or_introl eq_refl)) as [k ->]. rewrite Z.quot_mul by lia. reflexivity.
      - destruct IH as (q & A & B); auto. intros; apply Hdiv; right; assumption.
        exists q. split; [right; exact A|exact B]. }
    destruct K as (q & Hq & ->). apply Z.mul_divide_mono_r. apply Hd. exact Hq. }
  destruct H as [k Hk]. exists k. nia.
Qed.

Lemma derive_nonneg eps m r irow b negative :
  0 < eps -> clean_row eps m r ->
  deriveAnIntegerRow eps m r = Some (irow, b, negative) ->
  forall j a, In (j, a) irow -> 0 <= a.
Proof.
  intros He Hc Ed. unfold deriveAnIntegerRow in Ed.
  assert (K : forall sign b0, (sign = 1 \/ sign = -1) ->
    match net_out eps m sign (r_form r) b0 [] with
    | Some ([], _) | None => None
    | Some ((_ :: _) as irow, b) => let '(el, neg) := split_signs eps irow in Some (el, b, neg)
    end = Some (irow, b, negative) ->
    forall j a, In (j, a) irow -> 0 <= a).
  { intros sign b0 Hs E.
    destruct (net_out eps m sign (r_form r) b0 []) as [[[|p0 ir0] b1]|] eqn:En; try discriminate.
    set (irow0 := p0 :: ir0) in *. injection E as <- _ _.
    intros j a Hin.
    change ((if snd p0 <? - eps then (fst p0, snd p0 * -1) else p0)
      :: map (fun p : nat * Q => if snd p <? - eps then (fst p, snd p * -1) else p) ir0)
      with (map (fun p : nat * Q => if snd p <? - eps then (fst p, snd p * -1) else p) irow0) in Hin.
    apply in_map_iff in Hin as ([k c] & Hk & Hin). simpl in Hk.
    destruct (net_out_entries _ _ _ _ _ _ _ _ En k c Hin) as [[]|(a0 & Ha0 & -> & Hm)].
    destruct (Hc k a0 Ha0) as [HH _]. unfold clean_entry in HH.
    destruct (sign * a0 <? - eps) eqn:E0; injection Hk as <- <-; qb; [lra|].
    destruct HH as [HH _]. destruct (qabs_cases a0) as [[? Hq]|[? Hq]]; rewrite ?Hq in HH;
    destruct Hs as [-> | ->]; destruct HH as [HH|HH]; lra. }
  destruct (row_sense r); try discriminate Ed.
  - apply (K 1 (row_rhs r)); auto.
  - apply (K (-1) (- row_rhs r)); auto.
  - apply (K 1 (row_rhs r)); auto.
Qed.

Lemma process_row_coprime eps m r c :
  0 < eps -> clean_row eps m r -> process_row eps m r = Done (Some c) ->
  exists cf : list Z,
    Forall2 (fun (p : nat * Q) z => snd p == inject_Z z) (rc_form c) cf /\
    forall d, (forall z, In z cf -> (d | z)%Z) -> (d | 1)%Z.
Proof.
  intros He Hcl E. unfold process_row in E.
  destruct (deriveAnIntegerRow eps m r) as [[[irow b] negative]|] eqn:Ed; [|discriminate].
  destruct (power10 _ _ _) as [p|] eqn:Ep; [|discriminate].
  apply bind_done in E as (xInt & E1 & E).
  apply bind_done in E as (g & Eg & E).
  apply bind_done in E as (cf & E2 & E).
  destruct (eps <? _); [|discriminate]. injection E as <-.
  apply omap_forall2 in E1. apply omap_forall2 in E2. cbn [rc_form].
  set (sg := fun (pc : (nat * Q) * Z) => let '(p, c) := pc in
               (if memb (fst p) negative then - c else c)%Z).
  exists (map sg (combine irow cf)). split.
  - clear. generalize (combine irow cf). induction l as [|[[j a] z] l IH]; simpl; constructor; auto.
    simpl. destruct (memb j negative); [|reflexivity]. rewrite inject_Z_opp. ring.
  - pose proof (derive_nonneg _ _ _ _ _ _ He Hcl Ed) as Hnn. intros d Hd.
    assert (Hnn' : Forall (fun z => 0 <= z)%Z xInt).
    { clear - E1 Hnn. induction E1 as [|[j a] z l l' Hz F IH]; constructor; auto.
      - simpl in Hz. unfold to_int in Hz. cbv zeta in Hz.
        assert (Hv : 0 <= a * pow10 p + (1#2)).
        { specialize (Hnn j a (or_introl eq_refl)). pose proof (pow10_pos p). nra. }
        destruct (_ <? 0) eqn:Ev; qb; [lra|].
        destruct (int_range _); [|discriminate]. apply Done_inj in Hz. subst z.
        rewrite <- (Qfloor_Z 0). apply Qfloor_resp_le. exact Hv.
      - apply IH. intros; eapply Hnn; right; eassumption. }
    assert (Hlen : length irow = length xInt) by (eapply forall2_len; exact E1).
    assert (Hlen2 : length xInt = length cf) by (eapply forall2_len; exact E2).
    assert (Hxne : xInt <> []) by (intros ->; discriminate Eg).
    assert (Hpos : Forall (fun z => 0 < z)%Z xInt).
    { destruct (in_dec Z.eq_dec 0%Z xInt) as [Hin|Hnin].
      - exfalso. destruct xInt as [|z [|z2 xs]]; [congruence| |].
        + destruct Hin as [->|[]]. simpl in Eg. injection Eg as <-.
          inversion E2 as [|? ? ? ? H1 H2]. discriminate H1.
        + rewrite gcdv_zero in Eg; [discriminate|simpl; lia|assumption|assumption].
      - rewrite Forall_forall in *. intros z Hz. specialize (Hnn' z Hz). cbv beta in Hnn'.
        destruct (Z.eq_dec z 0) as [->|]; [contradiction|lia]. }
    rewrite (gcdv_correct _ Hxne Hpos) in Eg. injection Eg as <-.
    apply (cf_coprime (gcd_list xInt) xInt cf eq_refl); auto.
    + apply gcd_list_pos; assumption.
    + intros z Hz.
      assert (K : In z (map sg (combine irow cf)) \/ In (-z)%Z (map sg (combine irow cf))).
      { assert (Hl : length irow = length cf) by congruence. clear - Hz Hl.
        revert irow Hl. induction cf as [|q cf IH]; intros irow Hl; [destruct Hz|].
        destruct irow as [|pp irow]; [discriminate|]. simpl.
        destruct Hz as [->|Hz].
        - destruct (memb (fst pp) negative); [right|left]; left; lia.
        - destruct (IH Hz irow) as [A|A]; [simpl in Hl; lia| |]; auto. }
      destruct K as [K|K]; apply Hd in K; [exact K|]. destruct K as [k Hk]. exists (-k)%Z. lia.
Qed.

(** ** No undefined behaviour on integer data *)

Lemma omap_all {A B} (f : A -> outcome B) l :
  (forall a, In a l -> exists b, f a = Done b) -> exists l', omap f l = Done l'.
Proof.
  induction l as [|a l IH]; simpl; intros H; [eauto|].
  destruct (H a (or_introl eq_refl)) as [b Hb]. rewrite Hb. simpl.
  destruct IH as [l' Hl]; [intros; apply H; auto|]. rewrite Hl. simpl. eauto.
Qed.

Lemma frac_integral q : integral q -> frac q == 0.
Proof.
  intros [z Hz]. unfold frac, qfloor. rewrite (Qfloor_unique q z); lra.
Qed.

Lemma power10_zero tol xs : 0 < tol ->
  (forall x, In x xs -> integral x /\ qabs x <= 2147483647) ->
  power10 tol xs 0 = Some 0%nat.
Proof.
  intros Ht. induction xs as [|x xs IH]; intros H; [reflexivity|].
  cbn [power10]. change 16%nat with (S 15). cbn [find_power].
  destruct (H x (or_introl eq_refl)) as [Hi Hb].
  assert (Hi' : integral (qabs x * pow10 0)).
  { apply integral_mult; [|apply integral_inject]. destruct (qabs_cases x) as [[? ->]|[? ->]]; auto.
    apply integral_opp; assumption. }
  pose proof (frac_integral _ Hi') as Hf. unfold frac in Hf.
  assert (E1 : qabs x * pow10 0 - qfloor (qabs x * pow10 0) <? tol * pow10 0 = true).
  { apply Qltb_lt. rewrite Hf. pose proof (pow10_pos 0). nra. }
  rewrite E1. cbn [orb].
  assert (E2 : 2147483647 <? qabs x * pow10 0 = false).
  { apply Qltb_ge. unfold pow10. change (inject_Z (10 ^ Z.of_nat 0)) with 1. lra. }
  rewrite E2. cbn [Nat.ltb Nat.leb]. apply IH. intros; apply H; right; assumption.
Qed.

Lemma process_row_defined eps m r :
  0 < eps -> eps < 1 ->
  (forall j a, In (j, a) (r_form r) -> m_int m j = true ->
     integral a /\ ~ a == 0 /\ qabs a <= 2147483647) ->
  exists oc, process_row eps m r = Done oc.
Proof.
  intros He He1 Hr. unfold process_row.
  destruct (deriveAnIntegerRow eps m r) as [[[irow b] negative]|] eqn:Ed; [|eauto].
  assert (Hirow : irow <> [] /\ forall j a, In (j, a) irow -> integral a /\ 0 < a /\ a <= 2147483647).
  { unfold deriveAnIntegerRow in Ed.
    assert (K : forall sign b0, (sign = 1 \/ sign = -1) ->
      match net_out eps m sign (r_form r) b0 [] with
      | Some ([], _) | None => None
      | Some ((_ :: _) as irow, b) => let '(el, neg) := split_signs eps irow in Some (el, b, neg)
      end = Some (irow, b, negative) ->
      irow <> [] /\ forall j a, In (j, a) irow -> integral a /\ 0 < a /\ a <= 2147483647).
    { intros sign b0 Hs E.
      destruct (net_out eps m sign (r_form r) b0 []) as [[[|p0 ir0] b1]|] eqn:En; try discriminate.
      set (irow0 := p0 :: ir0) in *. injection E as <- _ _. split; [discriminate|].
      intros j a Hin.
      change ((if snd p0 <? - eps then (fst p0, snd p0 * -1) else p0)
        :: map (fun p : nat * Q => if snd p <? - eps then (fst p, snd p * -1) else p) ir0)
        with (map (fun p : nat * Q => if snd p <? - eps then (fst p, snd p * -1) else p) irow0) in Hin.
      apply in_map_iff in Hin as ([k c] & Hk & Hin). simpl in Hk.
      destruct (net_out_entries _ _ _ _ _ _ _ _ En k c Hin) as [[]|(a0 & Ha0 & -> & Hm)].
      destruct (Hr k a0 Ha0 Hm) as (I1 & I2 & I3).
      assert (I4 : a0 <= -1 \/ 1 <= a0).
      { destruct I1 as [z Hz]. rewrite Hz in I2 |- *.
        destruct (Z.lt_trichotomy z 0) as [L|[L|L]].
        - left. change (-1) with (inject_Z (-1)). rewrite <- Zle_Qle. lia.
        - subst z. exfalso. apply I2. reflexivity.
        - right. change 1 with (inject_Z 1). rewrite <- Zle_Qle. lia. }
      assert (I5 : integral (sign * a0)).
      { apply integral_mult; [|assumption]. destruct Hs as [-> | ->]; [exists 1%Z|exists (-1)%Z]; reflexivity. }
      assert (I6 : - 2147483647 <= a0 <= 2147483647).
      { destruct (qabs_cases a0) as [[? Hq]|[? Hq]]; rewrite Hq in I3; lra. }
      destruct (sign * a0 <? - eps) eqn:E0; injection Hk as <- <-; qb.
      - repeat split.
        + apply integral_mult; [exact I5|]. exists (-1)%Z. reflexivity.
        + lra.
        + destruct Hs as [-> | ->]; lra.
      - repeat split; [exact I5| |]; destruct Hs as [-> | ->]; lra. }
    destruct (row_sense r); try discriminate Ed.
    - apply (K 1 (row_rhs r)); auto.
    - apply (K (-1) (- row_rhs r)); auto.
    - apply (K 1 (row_rhs r)); auto. }
  destruct Hirow as [Hne Hi].
  rewrite power10_zero.
  2:{ nra. }
  2:{ intros x Hx. apply in_map_iff in Hx as ([j a] & <- & Hin). simpl.
      destruct (Hi j a Hin) as (A & B & C). split; [exact A|].
      destruct (qabs_cases a) as [[? ->]|[? ->]]; lra. }
  destruct (omap_all (fun p => to_int (snd p * pow10 0 + (1#2))) irow) as [xInt Hx].
  { intros [j a] Hin. destruct (Hi j a Hin) as ([z Hz] & B & C). cbn [snd].
    exists z. unfold to_int. cbv zeta.
    assert (Ep : pow10 0 = 1) by reflexivity. 
    assert (E0 : a * pow10 0 + (1#2) <? 0 = false) by (apply Qltb_ge; rewrite Ep; lra).
    rewrite E0. rewrite (Qfloor_unique _ z); [|rewrite Ep; lra|rewrite Ep; lra].
    rewrite Hz in B, C. change 0 with (inject_Z 0) in B. rewrite <- Zlt_Qlt in B.
    change 2147483647 with (inject_Z 2147483647) in C. rewrite <- Zle_Qle in C.
    unfold int_range, INT_MIN, INT_MAX.
    assert ((-2147483648 <=? z)%Z = true) as -> by lia.
    assert ((z <=? 2147483647)%Z = true) as -> by lia. reflexivity. }
  rewrite Hx. cbn [bind].
  pose proof (omap_forall2 _ _ _ Hx) as F.
  assert (Hpos : Forall (fun z => 0 < z)%Z xInt).
  { clear - F Hi. induction F as [|[j a] z l l' Hz F IH]; constructor; auto.
    - cbn [snd] in Hz. destruct (Hi j a (or_introl eq_refl)) as ([w Hw] & B & C).
      unfold to_int in Hz. cbv zeta in Hz.
      assert (Ep : pow10 0 = 1) by reflexivity.
      assert (E0 : a * pow10 0 + (1#2) <? 0 = false) by (apply Qltb_ge; rewrite Ep; lra).
      rewrite E0 in Hz. rewrite (Qfloor_unique _ w) in Hz; [|rewrite Ep; lra|rewrite Ep; lra].
      destruct (int_range w); [|discriminate]. injection Hz as <-.
      rewrite Hw in B. change 0 with (inject_Z 0) in B. rewrite <- Zlt_Qlt in B. exact B.
    - apply IH. intros j0 a0 Hin0; apply (Hi j0); right; exact Hin0. }
  assert (Hxne : xInt <> []).
  { intros ->. inversion F. subst. apply Hne. reflexivity. }
  rewrite (gcdv_correct _ Hxne Hpos). cbn [bind].
  destruct (omap_all (fun x => int_div x (gcd_list xInt)) xInt) as [cf Hcf].
  { intros z _. unfold int_div. pose proof (gcd_list_pos _ Hxne Hpos).
    destruct (gcd_list xInt =? 0)%Z eqn:E; [lia|]. eauto. }
  rewrite Hcf. cbn [bind]. destruct (eps <? _); eauto.
Qed.

Lemma gcd_negative_loops fuel : gcd_rec fuel (-9) 5 = OutOfFuel /\ gcd_rec fuel 5 (-9) = OutOfFuel.
Proof.
  induction fuel as [|f [IH1 IH2]]; [split; reflexivity|].
  split; cbn [gcd_rec]; change (5 <? -9)%Z with false; change (-9 <? 5)%Z with true;
    cbv beta iota zeta; change (-9 =? 0)%Z with false; change (Z.rem 5 (-9)) with 5%Z;
    change (5 =? 0)%Z with false; cbv iota; exact IH2.
Qed.
