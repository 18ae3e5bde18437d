(** * Cuts of the flow cover model: validity, violation, totality *)

From Verif Require Import Base Model_FlowCover Proofs_FlowCover Proofs_FlowCut Proofs_FlowBack Proofs_FlowRow.
From Coq Require Import Lia Lqa Qabs.
Local Open Scope Q_scope.

Lemma zero_one_spec b : zero_one b = true -> exists q, b = Some q /\ (q == 0 \/ q == 1).
Proof.
  destruct b as [q|]; [|discriminate]. simpl. intros H. exists q. split; [reflexivity|].
  apply orb_prop in H. destruct H as [H|H]; apply Qeq_bool_iff in H; auto.
Qed.
Lemma bin_bounds m j p : is_bin m j = true -> (j < m_ncols m)%nat -> in_bounds m p -> 0 <= p j <= 1.
Proof.
  unfold is_bin. intros H Hj Hb. apply andb_prop in H. destruct H as [_ H]. apply andb_prop in H.
  destruct H as [H1 H2]. apply zero_one_spec in H1, H2.
  destruct H1 as (u & E1 & U), H2 as (l & E2 & L). destruct (Hb j Hj) as [B1 B2].
  rewrite E2 in B1. rewrite E1 in B2. simpl in *. split; [destruct L; lra|destruct U; lra].
Qed.
Lemma bin_value m j p : is_bin m j = true -> (j < m_ncols m)%nat -> in_bounds m p -> integer_ok m p ->
  p j == 0 \/ p j == 1.
Proof.
  intros H Hj Hb Hi. pose proof (bin_bounds m j p H Hj Hb) as [B1 B2].
  assert (I1 : m_int m j = true) by (unfold is_bin in H; apply andb_prop in H; tauto).
  destruct (Hi j Hj I1) as [z Hz].
  assert (Hz0 : (0 <= z)%Z) by (rewrite Zle_Qle; change (inject_Z 0) with 0; lra).
  assert (Hz1 : (z <= 1)%Z) by (rewrite Zle_Qle; change (inject_Z 1) with 1; lra).
  assert (z = 0 \/ z = 1)%Z as [->| ->] by lia; [left|right]; exact Hz.
Qed.
Lemma abs_unit q : 0 <= q <= 1 -> Qabs q <= 1.
Proof. intros [H1 H2]. rewrite Qabs_pos; assumption. Qed.
Lemma abs_split c : fEPS < Qabs c -> (if 0 <? c then c else - c) == Qabs c.
Proof.
  intros H. destruct (0 <? c) eqn:E; qb; [rewrite Qabs_pos by lra; reflexivity|].
  rewrite Qabs_neg by lra. reflexivity.
Qed.

(** ** Totality of the search for a cover *)
Lemma upd_length {A} (f : A -> A) : forall l n, length (upd n f l) = length l.
Proof. induction l as [|a l IH]; intros [|n]; simpl; auto. Qed.
Definition cntb {A} (f : A -> bool) (l : list A) : nat := length (filter f l).
Lemma cntb_le {A} (f : A -> bool) l : (cntb f l <= length l)%nat.
Proof. unfold cntb. induction l as [|a l IH]; simpl; [lia|]. destruct (f a); simpl; lia. Qed.
Lemma cntb_upd {A} (f : A -> bool) (g : A -> A) : forall l n s, nth_error l n = Some s ->
  f s = true -> f (g s) = false -> S (cntb f (upd n g l)) = cntb f l.
Proof.
  unfold cntb. induction l as [|a l IH]; intros n s E H1 H2; [destruct n; discriminate|].
  destruct n as [|n]; simpl in *.
  - injection E as ->. rewrite H1, H2. reflexivity.
  - specialize (IH n s E H1 H2). destruct (f a); simpl; lia.
Qed.
Lemma best_secondary_nth : forall l i diff best d n pre,
  i = length pre ->
  (forall k, best = Some k -> exists s, nth_error pre k = Some s /\ is_secondary s = true) ->
  (best = None -> diff = fINF) ->
  best_secondary l i diff best = (d, n) ->
  (forall k, n = Some k -> exists s, nth_error (pre ++ l) k = Some s /\ is_secondary s = true) /\
  (n = None -> d = fINF).
Proof.
  induction l as [|a l IH]; intros i diff best d n pre Hi H1 H2 E.
  - simpl in E. injection E as <- <-. rewrite app_nil_r. auto.
  - cbn [best_secondary] in E.
    replace (pre ++ a :: l) with ((pre ++ [a]) ++ l) by (rewrite <- app_assoc; reflexivity).
    assert (Hi' : S i = length (pre ++ [a])) by (rewrite app_length; simpl; lia).
    destruct (is_secondary a) eqn:Ha; cbn [andb] in E.
    + destruct (match i_up (s_it a) with Some u => u * i_x (s_it a) - i_y (s_it a) <? diff - fEPS | None => false end).
      * eapply (IH _ _ _ _ _ _ Hi'); [| |exact E]; [|discriminate].
        intros k Ek. injection Ek as <-. exists a. split; [|exact Ha].
        rewrite nth_error_app2 by lia. rewrite Hi, Nat.sub_diag. reflexivity.
      * eapply (IH _ _ _ _ _ _ Hi'); [| |exact E]; [|exact H2].
        intros k Ek. destruct (H1 k Ek) as (s & S1 & S2). exists s. split; [|exact S2].
        rewrite nth_error_app1; [exact S1|]. apply nth_error_Some. congruence.
    + eapply (IH _ _ _ _ _ _ Hi'); [| |exact E]; [|exact H2].
      intros k Ek. destruct (H1 k Ek) as (s & S1 & S2). exists s. split; [|exact S2].
      rewrite nth_error_app1; [exact S1|]. apply nth_error_Some. congruence.
Qed.
Lemma least_ratio_nth : forall l i tmin best n pre,
  i = length pre ->
  (forall k, best = Some k -> exists s, nth_error pre k = Some s /\ is_prime s && negb (s_in s) = true) ->
  least_ratio l i tmin best = Some n ->
  exists s, nth_error (pre ++ l) n = Some s /\ is_prime s && negb (s_in s) = true.
Proof.
  induction l as [|a l IH]; intros i tmin best n pre Hi H1 E.
  - simpl in E. rewrite app_nil_r. auto.
  - cbn [least_ratio] in E.
    replace (pre ++ a :: l) with ((pre ++ [a]) ++ l) by (rewrite <- app_assoc; reflexivity).
    assert (Hi' : S i = length (pre ++ [a])) by (rewrite app_length; simpl; lia).
    destruct (is_prime a && negb (s_in a)) eqn:Ha; cbn [andb] in E.
    + destruct (s_ratio a <? tmin).
      * eapply (IH _ _ _ _ _ Hi'); [|exact E].
        intros k Ek. injection Ek as <-. exists a. split; [|exact Ha].
        rewrite nth_error_app2 by lia. rewrite Hi, Nat.sub_diag. reflexivity.
      * eapply (IH _ _ _ _ _ Hi'); [|exact E].
        intros k Ek. destruct (H1 k Ek) as (s & S1 & S2). exists s. split; [|exact S2].
        rewrite nth_error_app1; [exact S1|]. apply nth_error_Some. congruence.
    + eapply (IH _ _ _ _ _ Hi'); [|exact E].
      intros k Ek. destruct (H1 k Ek) as (s & S1 & S2). exists s. split; [|exact S2].
      rewrite nth_error_app1; [exact S1|]. apply nth_error_Some. congruence.
Qed.

Lemma extend_total : forall fuel l t k, (cntb is_secondary l < fuel)%nat ->
  exists o, extend_cover fuel l t k = Done o /\ (forall l', o = Some l' -> length l' = length l).
Proof.
  induction fuel as [|f IH]; intros l t k H; [lia|]. cbn [extend_cover].
  destruct (t <? k + fEPS).
  - destruct (best_secondary l 0 fINF None) as [d n] eqn:B.
    destruct (best_secondary_nth l 0 fINF None d n [] eq_refl) as [B1 B2];
      [discriminate|reflexivity|exact B|].
    destruct ((1 - fEPS) * fINF <? d) eqn:T.
    + exists None. split; [reflexivity|discriminate].
    + destruct n as [n|].
      * destruct (B1 n eq_refl) as (s & S1 & S2). simpl in S1.
        destruct (IH (upd n with_prime l) (t + up_at l n) k) as (o & E1 & E2).
        { pose proof (cntb_upd is_secondary with_prime l n s S1 S2 eq_refl). lia. }
        exists o. split; [exact E1|]. intros l' El. rewrite (E2 l' El). apply upd_length.
      * rewrite (B2 eq_refl) in T. exfalso. vm_compute in T. discriminate.
  - exists (Some l). split; [reflexivity|]. intros l' E. now injection E as <-.
Qed.
Lemma fill_total : forall fuel l t k,
  (cntb (fun s => is_prime s && negb (s_in s)) l < fuel)%nat ->
  exists o, fill_cover fuel l t k = Done o.
Proof.
  induction fuel as [|f IH]; intros l t k H; [lia|]. cbn [fill_cover].
  destruct (t <? k + fEPS); [|eauto].
  destruct (least_ratio l 0 fINF None) as [n|] eqn:B; [|eauto].
  destruct (least_ratio_nth l 0 fINF None n [] eq_refl) as (s & S1 & S2); [discriminate|exact B|].
  simpl in S1. apply IH.
  assert (S3 : is_prime (with_in true s) && negb (s_in (with_in true s)) = false).
  { unfold with_in. cbn [s_in]. rewrite andb_false_r. reflexivity. }
  pose proof (cntb_upd (fun s => is_prime s && negb (s_in s)) (with_in true) l n s S1 S2 S3). lia.
Qed.
Lemma zero_ratio_length : forall l st, length (fst (fold_left zero_ratio l st)) = (length (fst st) + length l)%nat.
Proof.
  induction l as [|a l IH]; intros st; cbn [fold_left]; [simpl; lia|].
  rewrite IH. unfold zero_ratio. destruct (_ && _); cbn [fst]; rewrite app_length; simpl; lia.
Qed.

(** What the search needs of the items. *)
Definition item_lp (it : fitem) : Prop :=
  0 <= i_y it /\ forall u, i_up it = Some u -> i_y it <= u * i_x it.
Lemma classify_total debug : forall its st, (forall it, In it its -> item_lp it) ->
  exists st', ofold (classify_item debug) its st = Done st'.
Proof.
  induction its as [|it its IH]; intros st H; cbn [ofold]; [eauto|].
  assert (E : exists st1, classify_item debug st it = Done st1).
  { destruct (H it (or_introl eq_refl)) as [Y0 Yu]. destruct st as [[l t] k]. unfold classify_item.
    destruct (i_pos it).
    - destruct (fEPS <? i_y it) eqn:Ey; [|eauto]. destruct (i_up it) as [u|] eqn:Eu; [|eauto].
      destruct (Qeq_bool u 0) eqn:Ez.
      + apply Qeq_bool_iff in Ez. specialize (Yu u eq_refl). rewrite Ez in Yu. qb. pose proof fEPS_pos. lra.
      + destruct (u * i_x it - fEPS <? i_y it); eauto.
    - destruct (up_gt it ((1 - fEPS) * fINF)) eqn:Ei; [eauto|].
      destruct (i_y it <? upv it) eqn:Ey; [|eauto].
      destruct (Qeq_bool (upv it) 0) eqn:Ez; [|eauto].
      apply Qeq_bool_iff in Ez. qb. lra. }
  destruct E as (st1 & E). rewrite E. cbn [bind]. apply IH. intros it' Hi. apply H. now right.
Qed.
Lemma find_cover_total debug its rhs : (forall it, In it its -> item_lp it) ->
  exists o, find_cover debug its rhs = Done o.
Proof.
  intros H. unfold find_cover.
  destruct (classify_total debug its ([], 0, rhs) H) as ([[l t] k] & E). rewrite E. cbn [bind].
  destruct (fBIG <? k); [eauto|].
  destruct (extend_total (S (length l)) l t k) as (o & E1 & E2).
  { pose proof (cntb_le is_secondary l). lia. }
  rewrite E1. cbn [bind]. destruct o as [l1|]; [|eauto].
  set (z := fold_left zero_ratio l1 ([], 0)).
  destruct (fill_total (S (length l)) (fst z) (snd z) k) as (o2 & E3).
  { pose proof (cntb_le (fun s => is_prime s && negb (s_in s)) (fst z)) as C.
    assert (L : length (fst z) = length l).
    { unfold z. rewrite zero_ratio_length. simpl. apply E2. reflexivity. }
    lia. }
  rewrite E3. cbn [bind]. destruct o2 as [[l2 t2]|]; [|eauto].
  destruct (existsb snd _); eauto.
Qed.

(** ** Items *)
Section Items.
  Variable m : mip.
  Variable R : Q -> Prop.
  Variable vubs vlbs : vtab.
  Variable xlp : point.
  Hypothesis Ht : tabs_ok m R (vubs, vlbs).
  Hypothesis Hlow : lows_ok m.

  Lemma item_facts e it : item_of m vubs vlbs xlp e = Some it ->
    i_col it = fst e /\ i_coef it = snd e /\ i_pos it = (0 <? snd e) /\ i_bin it = is_bin m (fst e) /\
    i_x it = xval it xlp /\ i_y it = yval it xlp /\ i_vub it = option_map v_var (vubs (fst e)) /\
    sgn it = (if 0 <? snd e then snd e else - snd e) /\
    i_up it = (if is_bin m (fst e) then Some (sgn it) else option_map (fun u => sgn it * u) (upper_of m vubs (fst e))).
  Proof.
    unfold item_of, yval, sgn. cbv zeta. destruct (match lower_of m vlbs (fst e) with Some _ => _ | None => _ end); [discriminate|].
    destruct (is_bin m (fst e)) eqn:B; intros E; injection E as <-; unfold xval;
      cbn [i_col i_coef i_pos i_bin i_x i_y i_vub i_up]; repeat split.
  Qed.

  Lemma item_vub e it k : item_of m vubs vlbs xlp e = Some it -> i_vub it = Some k ->
    is_bin m k = true /\ (k < m_ncols m)%nat /\ i_bin it = false.
  Proof.
    intros E H. destruct (item_facts e it E) as (_ & _ & _ & F4 & _ & _ & F & _).
    rewrite H in F. destruct (vubs (fst e)) as [b|] eqn:V; [|discriminate]. injection F as ->.
    destruct Ht as [T1 _]. destruct (T1 (fst e) b V) as [(V1 & V2 & V3 & _) _].
    rewrite F4. auto.
  Qed.

  Lemma item_xval e it p : item_of m vubs vlbs xlp e = Some it -> (fst e < m_ncols m)%nat ->
    in_bounds m p -> 0 <= xval it p <= 1.
  Proof.
    intros E Hj Hb. destruct (item_facts e it E) as (F1 & F2 & F3 & F4 & F5 & F6 & F7 & F8 & F9).
    unfold xval. rewrite F4, F1. destruct (is_bin m (fst e)) eqn:B; [now apply (bin_bounds m)|].
    destruct (i_vub it) as [k|] eqn:V; [|split; lra].
    destruct (item_vub e it k E V) as (V1 & V2 & _). now apply (bin_bounds m).
  Qed.
  Lemma item_xval01 e it p : item_of m vubs vlbs xlp e = Some it -> (fst e < m_ncols m)%nat ->
    in_bounds m p -> integer_ok m p -> xval it p == 0 \/ xval it p == 1.
  Proof.
    intros E Hj Hb Hi. destruct (item_facts e it E) as (F1 & F2 & F3 & F4 & F5 & F6 & F7 & F8 & F9).
    unfold xval. rewrite F4, F1. destruct (is_bin m (fst e)) eqn:B; [now apply (bin_value m)|].
    destruct (i_vub it) as [k|] eqn:V; [|right; reflexivity].
    destruct (item_vub e it k E V) as (V1 & V2 & _). now apply (bin_value m).
  Qed.

  Lemma item_low e it p : item_of m vubs vlbs xlp e = Some it -> (fst e < m_ncols m)%nat ->
    in_bounds m p -> rows_ok m p -> 0 <= p (fst e).
  Proof.
    intros E Hj Hb Hr. destruct (is_bin m (fst e)) eqn:B; [now apply (bin_bounds m)|].
    unfold item_of in E. cbv zeta in E. unfold lower_of in E. destruct (vlbs (fst e)) as [b|] eqn:V.
    - destruct Ht as [_ T2]. destruct (T2 (fst e) b V) as [(V1 & V2 & V3 & V4 & _) V5].
      specialize (V5 p Hr). pose proof (bin_bounds m (v_var b) p V1 V2 Hb) as [B1 _].
      assert (0 <= v_val b * p (v_var b)) by (apply Qmult_le_0_compat; lra). lra.
    - destruct (m_clo m (fst e)) as [l|] eqn:L; [|discriminate].
      destruct (l <? - fEPS) eqn:T; [discriminate|]. qb.
      destruct (Hb (fst e) Hj) as [B1 _]. rewrite L in B1. simpl in B1.
      destruct (Hlow (fst e) l B L); lra.
  Qed.

  Lemma item_point e it p : item_of m vubs vlbs xlp e = Some it -> (fst e < m_ncols m)%nat ->
    fEPS < Qabs (snd e) -> in_bounds m p -> rows_ok m p ->
    0 <= yval it p /\ (forall u, i_up it = Some u -> yval it p <= u * xval it p /\ 0 <= u) /\
    (i_up it = None -> xval it p == 1).
  Proof.
    intros E Hj Hc Hb Hr. pose proof (item_low e it p E Hj Hb Hr) as P0.
    destruct (item_facts e it E) as (F1 & F2 & F3 & F4 & F5 & F6 & F7 & F8 & F9).
    assert (S0 : 0 < sgn it). { rewrite F8, (abs_split _ Hc). pose proof fEPS_pos. lra. }
    unfold yval. rewrite F1. split; [apply Qmult_le_0_compat; lra|].
    unfold xval. rewrite F4, F1. destruct (is_bin m (fst e)) eqn:B.
    - split.
      + intros u Eu. rewrite Eu in F9. injection F9 as ->. split; lra.
      + intros Eu. rewrite Eu in F9. discriminate.
    - rewrite F7. unfold upper_of in F9. destruct (vubs (fst e)) as [b|] eqn:V; cbn [option_map] in *.
      + split.
        * intros u Eu. rewrite Eu in F9. injection F9 as ->.
          destruct Ht as [T1 _]. destruct (T1 (fst e) b V) as [(V1 & V2 & V3 & V4 & _) V5].
          specialize (V5 p Hr). split; [|apply Qmult_le_0_compat; lra].
          rewrite <- Qmult_assoc, (Qmult_comm (sgn it)), (Qmult_comm (sgn it)).
          apply Qmult_le_compat_r; lra.
        * intros Eu. rewrite Eu in F9. discriminate.
      + split.
        * intros u Eu. rewrite Eu in F9. destruct (m_chi m (fst e)) as [h|] eqn:Hh; [|discriminate].
          cbn [option_map] in F9. injection F9 as ->.
          destruct (Hb (fst e) Hj) as [_ B2]. rewrite Hh in B2. simpl in B2.
          assert (0 <= sgn it * (h - p (fst e))) by (apply Qmult_le_0_compat; lra).
          assert (0 <= sgn it * h) by (apply Qmult_le_0_compat; lra). split; lra.
        * intros _. reflexivity.
  Qed.

  Lemma items_forall2 : forall v its, items_of m vubs vlbs xlp v = Some its ->
    Forall2 (fun e it => item_of m vubs vlbs xlp e = Some it) v its.
  Proof.
    induction v as [|e v IH]; cbn [items_of]; intros its E.
    - injection E as <-. constructor.
    - destruct (item_of m vubs vlbs xlp e) as [it|] eqn:I1; [|discriminate].
      destruct (items_of m vubs vlbs xlp v) as [its'|] eqn:I2; [|discriminate].
      injection E as <-. constructor; auto.
  Qed.
End Items.

(** ** One cut *)
Section One.
  Variable debug : bool.
  Variable m : mip.
  Variable R : Q -> Prop.
  Variable vubs vlbs : vtab.
  Variable xlp : point.
  Hypothesis Ht : tabs_ok m R (vubs, vlbs).
  Hypothesis Hlow : lows_ok m.
  Variable G : Q -> Prop.
  Variable d : Q.
  Hypothesis d0 : 0 <= d.
  Hypothesis G0 : G 0.
  Hypothesis Gplus : forall a b, G a -> G b -> G (a + b).
  Hypothesis Gopp : forall a, G a -> G (- a).
  Hypothesis Geq : forall a b, a == b -> G a -> G b.
  Hypothesis Gsmall : forall a, G a -> Qabs a <= fEPS -> Qabs a <= d.

  Variable v : vec.
  Variable rhs : Q.
  Hypothesis Vwf : NoDup (map fst v) /\ (forall j a, In (j, a) v -> (j < m_ncols m)%nat).
  Hypothesis Vbig : forall e, In e v -> fEPS < Qabs (snd e).
  Hypothesis Grhs : G rhs.
  Hypothesis Gv : forall j c, In (j, c) v ->
    (is_bin m j = true -> G c) /\
    (is_bin m j = false -> (forall u, m_chi m j = Some u -> G (c * u)) /\ (forall q, R q -> G (c * q))).

  Definition len : Q := inject_Z (Z.of_nat (length v)).

  Section Cover.
    Variable its : list fitem.
    Hypothesis Hits : items_of m vubs vlbs xlp v = Some its.
    Variable cov : list (fitem * bool).
    Variable lam : Q.
    Hypothesis CK : cover_ok its rhs cov lam.
    Variable cs : list (fitem * (Q * Q)).
    Variable cr : Q.
    Hypothesis Hcs : coefs cov lam rhs = Some (cs, cr).

    Lemma cs_items : map fst cs = its.
    Proof. rewrite (coefs_items _ _ _ _ _ Hcs). apply (ck_items _ _ _ _ CK). Qed.
    Lemma in_its it : In it its -> exists e, In e v /\ item_of m vubs vlbs xlp e = Some it.
    Proof.
      pose proof (items_forall2 _ _ _ _ _ _ Hits) as F. clear - F.
      induction F as [|e it' w its' H F IH]; simpl; [tauto|].
      intros [->|Hi]; [exists e; auto|]. destruct (IH Hi) as (e' & H1 & H2). exists e'. auto.
    Qed.
    Lemma its_cols : map i_col its = map fst v.
    Proof.
      pose proof (items_forall2 _ _ _ _ _ _ Hits) as F. clear - F.
      induction F as [|e it' w its' H F IH]; simpl; [reflexivity|].
      destruct (item_facts _ _ _ _ _ _ H) as (F1 & _). now rewrite F1, IH.
    Qed.
    Lemma its_len : length its = length v.
    Proof. rewrite <- (map_length i_col), its_cols. apply map_length. Qed.
    Lemma e_lt e : In e v -> (fst e < m_ncols m)%nat.
    Proof. destruct e as [j a]. intros H. destruct Vwf as [_ V]. exact (V j a H). Qed.
    Lemma Gsgn e c : In e v -> G (snd e * c) -> G ((if 0 <? snd e then snd e else - snd e) * c).
    Proof.
      intros _ H. destruct (0 <? snd e); [exact H|]. apply Geq with (- (snd e * c)); [ring|auto].
    Qed.
    Lemma Gup it : In it its -> G (upv it).
    Proof.
      intros Hi. destruct (in_its it Hi) as (e & He & E).
      destruct (item_facts _ _ _ _ _ _ E) as (F1 & F2 & F3 & F4 & F5 & F6 & F7 & F8 & F9).
      destruct e as [j c]. cbn [fst snd] in *. destruct (Gv j c He) as [Gb Gc].
      unfold upv. rewrite F9. destruct (is_bin m j) eqn:B.
      - rewrite F8. destruct (0 <? c); [now apply Gb|now apply Gopp, Gb].
      - unfold upper_of. destruct (Gc eq_refl) as [Gc1 Gc2]. destruct (vubs j) as [b|] eqn:V.
        + cbn [option_map]. rewrite F8. apply (Gsgn (j, c)); [exact He|]. apply Gc2.
          destruct Ht as [T1 _]. destruct (T1 j b V) as [(_ & _ & _ & _ & V5) _]. exact V5.
        + destruct (m_chi m j) as [h|] eqn:Hh; cbn [option_map]; [|exact G0].
          rewrite F8. apply (Gsgn (j, c)); [exact He|]. now apply Gc1.
    Qed.
    Lemma cov_in c : In c cov -> In (fst c) its.
    Proof. intros H. rewrite <- (ck_items _ _ _ _ CK). now apply in_map. Qed.
    Lemma cs_in c : In c cs -> In (fst c) its.
    Proof. intros H. rewrite <- cs_items. now apply in_map. Qed.

    Lemma cs_it_ok p : in_bounds m p -> forall c, In c cs -> it_ok p G c.
    Proof.
      intros Hb c Hc. destruct (in_its _ (cs_in c Hc)) as (e & He & E).
      destruct (coefs_ok G G0 Gplus Gopp Geq its cov lam rhs CK (fun b Hb => Gup _ (cov_in b Hb)) Grhs cs cr Hcs c Hc) as [K1 K2].
      destruct (item_facts _ _ _ _ _ _ E) as (F1 & F2 & F3 & F4 & F5 & F6 & F7 & F8 & F9).
      pose proof (e_lt e He) as Hj. constructor.
      - exact K1.
      - exact K2.
      - apply abs_unit. now apply (item_xval m R vubs vlbs xlp Ht e).
      - intros B. split.
        + apply abs_unit. rewrite F1. apply (bin_bounds m); [congruence|exact Hj|exact Hb].
        + apply Gplus; [|exact K2].
          pose proof (Gup _ (cs_in c Hc)) as GU. unfold upv in GU. rewrite F9, <- F4, B in GU.
          destruct K1 as [-> | [-> | ->]].
          * apply Geq with 0; [ring|exact G0].
          * apply Geq with (sgn (fst c)); [ring|exact GU].
          * apply Geq with (- sgn (fst c)); [ring|auto].
      - intros _. rewrite F2. now apply Vbig.
      - intros k B V. destruct (item_vub m R vubs vlbs xlp Ht e _ k E V) as (V1 & V2 & _).
        apply abs_unit. now apply (bin_bounds m).
    Qed.

    Lemma cs_form p e w : in_bounds m p -> sort_idx (all_entries cs) = e :: w ->
      Qabs (value (merge e w) p + sumq snd (map entries_of cs) - sumq (term p) cs) <= d * 2 * len.
    Proof.
      intros Hb E.
      assert (L : len = inject_Z (Z.of_nat (length cs))).
      { unfold len. rewrite <- its_len, <- cs_items, map_length. reflexivity. }
      rewrite L. apply (form_err p G d d0 Gplus Gsmall cs e w (is_bin m)); auto.
      - now apply cs_it_ok.
      - rewrite <- (map_map fst i_col), cs_items, its_cols. apply Vwf.
      - intros c Hc. destruct (in_its _ (cs_in c Hc)) as (e' & He & E').
        destruct (item_facts _ _ _ _ _ _ E') as (F1 & _ & _ & F4 & _). congruence.
      - intros c k Hc V. destruct (in_its _ (cs_in c Hc)) as (e' & He & E').
        now destruct (item_vub m R vubs vlbs xlp Ht e' _ k E' V) as (V1 & _).
    Qed.

    Lemma cs_viol : violation_of cr cs == sumq (term xlp) cs - cr.
    Proof.
      unfold violation_of.
      assert (E : sumq (fun c => i_y (fst c) * fst (snd c) + i_x (fst c) * snd (snd c)) cs == sumq (term xlp) cs).
      { apply sumq_ext. intros c Hc. destruct (in_its _ (cs_in c Hc)) as (e' & He & E').
        destruct (item_facts _ _ _ _ _ _ E') as (F1 & F2 & F3 & F4 & F5 & F6 & _).
        unfold term. rewrite F5, F6. ring. }
      rewrite E. ring.
    Qed.

    (** The inequality holds at a feasible point. *)
    Lemma cs_holds p : in_bounds m p -> rows_ok m p -> integer_ok m p -> value v p <= rhs ->
      sumq (term p) cs <= cr.
    Proof.
      intros Hb Hr Hi Hv.
      apply (coefs_valid its cov lam rhs CK (fun it => xval it p) (fun it => yval it p)) with (cs := cs) (cr := cr); [..|exact Hcs].
      - intros c Hc. destruct (in_its _ (cov_in c Hc)) as (e & He & E).
        apply (item_xval01 m R vubs vlbs xlp Ht e); auto. now apply e_lt.
      - intros c Hc. destruct (in_its _ (cov_in c Hc)) as (e & He & E).
        apply (item_point m R vubs vlbs xlp Ht Hlow e); auto. now apply e_lt.
      - intros c u Hc. destruct (in_its _ (cov_in c Hc)) as (e & He & E).
        apply (item_point m R vubs vlbs xlp Ht Hlow e); auto. now apply e_lt.
      - intros c Hc. destruct (in_its _ (cov_in c Hc)) as (e & He & E).
        apply (item_point m R vubs vlbs xlp Ht Hlow e); auto. now apply e_lt.
      - assert (E : sumq (fun c => if i_pos (fst c) then yval (fst c) p else - yval (fst c) p) cov == value v p).
        { rewrite <- (sumq_map fst (fun it => if i_pos it then yval it p else - yval it p)).
          rewrite (ck_items _ _ _ _ CK).
          pose proof (items_forall2 _ _ _ _ _ _ Hits) as F. clear - F.
          induction F as [|e it' w its' H F IH]; [reflexivity|].
          cbn [sumq]. rewrite IH. destruct e as [j c]. cbn [value].
          destruct (item_facts _ _ _ _ _ _ H) as (F1 & F2 & F3 & _).
          unfold yval, sgn. rewrite F1, F2. cbn [fst snd]. destruct (i_pos it'); ring. }
        rewrite E. exact Hv.
    Qed.

    Lemma cut_valid p c : to_cut debug xlp cs cr = Done (Some c) ->
      in_bounds m p -> rows_ok m p -> integer_ok m p -> value v p <= rhs ->
      exists form ub, c = RowCut form None (Some ub) /\ value form p <= ub + d * 2 * len.
    Proof.
      unfold to_cut. intros E Hb Hr Hi Hv. destruct (fTOL <? violation_of cr cs); [|discriminate].
      fold (all_entries cs) in E. destruct (sort_idx (all_entries cs)) as [|e w] eqn:S1; [destruct debug; discriminate|].
      set (ub := cr - sumq snd (map entries_of cs)) in *.
      assert (Hc : c = RowCut (merge e w) None (Some ub)).
      { destruct (merge e w) as [|e' w'] eqn:Em; [discriminate|].
        destruct (_ && _); [discriminate|]. destruct (fTOL <? _); [|discriminate].
        injection E as <-. reflexivity. }
      exists (merge e w), ub. split; [exact Hc|].
      pose proof (cs_form p e w Hb S1) as F. apply Qabs_le_iff in F. destruct F as [_ F].
      pose proof (cs_holds p Hb Hr Hi Hv) as H. unfold ub. lra.
    Qed.

    Lemma cut_total : in_bounds m xlp -> (debug = true -> d * 2 * len < 1 # 100) ->
      exists oc, to_cut debug xlp cs cr = Done oc.
    Proof.
      intros Hb Hd. unfold to_cut. destruct (fTOL <? violation_of cr cs); [|eauto].
      fold (all_entries cs). destruct (coefs_nonempty _ _ _ _ _ Hcs) as (e & w & S1). rewrite S1.
      pose proof (cs_form xlp e w Hb S1) as F. pose proof cs_viol as V.
      destruct (merge e w) as [|e' w']; [eauto|]. set (form := e' :: w') in *.
      assert (A : Qabs (value form xlp - (cr - sumq snd (map entries_of cs)) - violation_of cr cs) <= d * 2 * len).
      { eapply Qle_trans; [|exact F]. apply Qle_lteq. right. apply Qabs_eq. rewrite V. ring. }
      destruct debug; cbn [andb].
      - specialize (Hd eq_refl). destruct (Qabs _ <? 1 # 100) eqn:T; cbn [negb]; [|qb; lra].
        destruct (fTOL <? _); eauto.
      - destruct (fTOL <? _); eauto.
    Qed.
  End Cover.
End One.

Lemma cut_violated debug xlp cs cr c : to_cut debug xlp cs cr = Done (Some c) ->
  exists form ub, c = RowCut form None (Some ub) /\ form <> [] /\ fTOL < value form xlp - ub.
Proof.
  unfold to_cut. destruct (fTOL <? violation_of cr cs); [|discriminate].
  destruct (sort_idx _) as [|e w] eqn:S1; [destruct debug; discriminate|].
  destruct (merge e w) as [|e' w'] eqn:Em; [discriminate|].
  destruct (_ && _); [discriminate|]. destruct (fTOL <? _) eqn:T; [|discriminate].
  intros E. injection E as <-. qb. eexists _, _. split; [reflexivity|]. split; [discriminate|exact T].
Qed.

(** ** One call of generateOneFlowCut *)
Lemma negv_value v p : value (negv v) p == - value v p.
Proof. induction v as [|[j a] v IH]; simpl; [reflexivity|]. rewrite IH. ring. Qed.
Lemma negv_fst v : map fst (negv v) = map fst v.
Proof. unfold negv. rewrite map_map. reflexivity. Qed.
Lemma in_negv j a v : In (j, a) (negv v) <-> exists b, In (j, b) v /\ a = - b.
Proof.
  unfold negv. rewrite in_map_iff. split.
  - intros ([k b] & E & H). injection E as <- <-. eauto.
  - intros (b & H & ->). exists (j, b). auto.
Qed.
Lemma do_lift_big xlp v : do_lift xlp v = true -> forall e, In e v -> fEPS < Qabs (snd e).
Proof.
  unfold do_lift. intros H e He. apply andb_prop in H. destruct H as [_ H].
  rewrite forallb_forall in H. specialize (H e He). now qb.
Qed.

Definition turn (isG : bool) (v : vec) : vec := if isG then negv v else v.
Definition turnq (isG : bool) (q : Q) : Q := if isG then - q else q.

Section Call.
  Variable debug : bool.
  Variable m : mip.
  Variable R : Q -> Prop.
  Variable vubs vlbs : vtab.
  Variable xlp : point.
  Hypothesis Ht : tabs_ok m R (vubs, vlbs).
  Hypothesis Hlow : lows_ok m.
  Variable G : Q -> Prop.
  Variable d : Q.
  Hypothesis d0 : 0 <= d.
  Hypothesis G0 : G 0.
  Hypothesis Gplus : forall a b, G a -> G b -> G (a + b).
  Hypothesis Gopp : forall a, G a -> G (- a).
  Hypothesis Geq : forall a b, a == b -> G a -> G b.
  Hypothesis Gsmall : forall a, G a -> Qabs a <= fEPS -> Qabs a <= d.
  Variable v0 : vec.
  Variable rhs0 : Q.
  Variable isG : bool.
  Hypothesis Vwf : NoDup (map fst v0) /\ (forall j a, In (j, a) v0 -> (j < m_ncols m)%nat).
  Hypothesis Grhs : G rhs0.
  Hypothesis Gv : forall j c, In (j, c) v0 ->
    (is_bin m j = true -> G c) /\
    (is_bin m j = false -> (forall u, m_chi m j = Some u -> G (c * u)) /\ (forall q, R q -> G (c * q))).

  Lemma turn_wf : NoDup (map fst (turn isG v0)) /\ (forall j a, In (j, a) (turn isG v0) -> (j < m_ncols m)%nat).
  Proof.
    unfold turn. destruct isG; [|exact Vwf]. destruct Vwf as [V1 V2]. split; [now rewrite negv_fst|].
    intros j a H. apply in_negv in H. destruct H as (b & H & _). eauto.
  Qed.
  Lemma turn_big : do_lift xlp v0 = true -> forall e, In e (turn isG v0) -> fEPS < Qabs (snd e).
  Proof.
    intros D. pose proof (do_lift_big xlp v0 D) as B. unfold turn. destruct isG; [|exact B].
    intros [j a] H. apply in_negv in H. destruct H as (b & H & ->). cbn [snd]. rewrite Qabs_opp. exact (B _ H).
  Qed.
  Lemma turn_G : forall j c, In (j, c) (turn isG v0) ->
    (is_bin m j = true -> G c) /\
    (is_bin m j = false -> (forall u, m_chi m j = Some u -> G (c * u)) /\ (forall q, R q -> G (c * q))).
  Proof.
    unfold turn. destruct isG; [|exact Gv]. intros j c H. apply in_negv in H. destruct H as (b & H & ->).
    destruct (Gv j b H) as [G1 G2]. split; [intros B; apply Gopp; auto|]. intros B. destruct (G2 B) as [G3 G4].
    split; [intros u Hu; apply Geq with (- (b * u)); [ring|auto]|intros q Hq; apply Geq with (- (b * q)); [ring|auto]].
  Qed.
  Lemma turn_Gq : G (turnq isG rhs0).
  Proof. unfold turnq. destruct isG; auto. Qed.
  Lemma turn_len : length (turn isG v0) = length v0.
  Proof. unfold turn. destruct isG; [apply map_length|reflexivity]. Qed.

  Lemma call_valid p c : generateOneFlowCut debug m vubs vlbs xlp v0 isG rhs0 = Done (Some c) ->
    in_bounds m p -> rows_ok m p -> integer_ok m p ->
    value (turn isG v0) p <= turnq isG rhs0 ->
    exists form ub, c = RowCut form None (Some ub) /\
      value form p <= ub + d * 2 * inject_Z (Z.of_nat (length v0)).
  Proof.
    intros E Hb Hr Hi Hv. unfold generateOneFlowCut in E.
    destruct (do_lift xlp v0) eqn:D; [|discriminate].
    fold (turn isG v0) in E. fold (turnq isG rhs0) in E.
    destruct (items_of m vubs vlbs xlp (turn isG v0)) as [its|] eqn:I1; [|discriminate].
    apply bind_done in E. destruct E as (oc & E1 & E). destruct oc as [[cov lam]|]; [|discriminate].
    apply find_cover_ok in E1. destruct (coefs cov lam (turnq isG rhs0)) as [[cs cr]|] eqn:C; [|discriminate].
    destruct (cut_valid debug m R vubs vlbs xlp Ht Hlow G d d0 G0 Gplus Gopp Geq Gsmall
                (turn isG v0) (turnq isG rhs0) turn_wf (turn_big D) turn_Gq turn_G its I1 cov lam E1 cs cr C p c E Hb Hr Hi Hv)
      as (form & ub & H1 & H2).
    exists form, ub. split; [exact H1|]. unfold len in H2. rewrite turn_len in H2. exact H2.
  Qed.

  Lemma call_total : in_bounds m xlp -> rows_ok m xlp ->
    (debug = true -> d * 2 * inject_Z (Z.of_nat (length v0)) < 1 # 100) ->
    exists oc, generateOneFlowCut debug m vubs vlbs xlp v0 isG rhs0 = Done oc.
  Proof.
    intros Hb Hr Hd. unfold generateOneFlowCut.
    destruct (do_lift xlp v0) eqn:D; [|eauto].
    fold (turn isG v0). fold (turnq isG rhs0).
    destruct (items_of m vubs vlbs xlp (turn isG v0)) as [its|] eqn:I1; [|eauto].
    destruct (find_cover_total debug its (turnq isG rhs0)) as (oc & E1).
    { intros it Hit. destruct (in_its m vubs vlbs xlp (turn isG v0) its I1 it Hit) as (e & He & E).
      destruct (item_facts _ _ _ _ _ _ E) as (F1 & F2 & F3 & F4 & F5 & F6 & _).
      assert (Hj : (fst e < m_ncols m)%nat) by (destruct e as [j a]; apply (proj2 turn_wf j a He)).
      destruct (item_point m R vubs vlbs xlp Ht Hlow e it xlp E Hj (turn_big D e He) Hb Hr) as (P1 & P2 & _).
      split; [rewrite F6; exact P1|]. intros u Hu. rewrite F5, F6. now apply P2. }
    rewrite E1. cbn [bind]. destruct oc as [[cov lam]|]; [|eauto].
    apply find_cover_ok in E1. destruct (coefs cov lam (turnq isG rhs0)) as [[cs cr]|] eqn:C; [|eauto].
    apply (cut_total debug m R vubs vlbs xlp Ht G d d0 G0 Gplus Gopp Geq Gsmall
             (turn isG v0) (turnq isG rhs0) turn_wf (turn_big D) turn_Gq turn_G its I1 cov lam E1 cs cr C Hb).
    intros Hdb. unfold len. rewrite turn_len. auto.
  Qed.
End Call.

Lemma call_violated debug m vubs vlbs xlp v0 isG rhs0 c :
  generateOneFlowCut debug m vubs vlbs xlp v0 isG rhs0 = Done (Some c) ->
  exists form ub, c = RowCut form None (Some ub) /\ form <> [] /\ fTOL < value form xlp - ub.
Proof.
  unfold generateOneFlowCut. destruct (do_lift xlp v0); [|discriminate].
  destruct (items_of _ _ _ _ _) as [its|]; [|discriminate].
  intros E. apply bind_done in E. destruct E as (oc & E1 & E). destruct oc as [[cov lam]|]; [|discriminate].
  destruct (coefs cov lam _) as [[cs cr]|]; [|discriminate]. now apply cut_violated in E.
Qed.

(** ** generateCuts *)

(** The part of a row that is passed on. *)
Lemma row_part_value m r p : (forall j a, In (j, a) (r_form r) -> (j < m_ncols m)%nat) -> in_bounds m p ->
  value (fst (row_part m r)) p - snd (row_part m r) == value (r_form r) p - row_rhs r.
Proof.
  intros Hj Hb. unfold row_part. cbn [fst snd]. revert Hj. generalize (row_rhs r). induction (r_form r) as [|[j a] v IH]; intros q Hj.
  - reflexivity.
  - cbn [filter fold_left fst snd value].
    assert (Hj' : forall k b, In (k, b) v -> (k < m_ncols m)%nat) by (intros; eapply Hj; right; eauto).
    destruct (is_free m j) eqn:F.
    + cbn [value]. specialize (IH q Hj'). lra.
    + specialize (IH (q - lower_val m j * a) Hj').
      assert (P : p j == lower_val m j).
      { unfold is_free in F. unfold lower_val. destruct (Hb j (Hj j a (or_introl eq_refl))) as [B1 B2].
        destruct (m_clo m j) as [l|]; [|discriminate]. destruct (m_chi m j) as [u|]; [|discriminate].
        qb. simpl in *. lra. }
      rewrite P. lra.
Qed.
Lemma nodup_filter {A B} (f : A -> B) (g : A -> bool) l : NoDup (map f l) -> NoDup (map f (filter g l)).
Proof.
  induction l as [|a l IH]; simpl; intros H; [constructor|]. inversion H; subst.
  destruct (g a); [|auto]. simpl. constructor; [|auto].
  intros Hin. apply H2. apply in_map_iff in Hin. destruct Hin as (b & E & Hb). apply filter_In in Hb.
  apply in_map_iff. exists b. tauto.
Qed.
Lemma row_part_wf m r : wf_row (m_ncols m) r ->
  NoDup (map fst (fst (row_part m r))) /\ (forall j a, In (j, a) (fst (row_part m r)) -> (j < m_ncols m)%nat).
Proof.
  intros [H1 H2]. unfold row_part. cbn [fst]. split; [now apply nodup_filter|].
  intros j a H. apply filter_In in H. apply (H2 j a). tauto.
Qed.
Lemma row_part_len m r : (length (fst (row_part m r)) <= length (r_form r))%nat.
Proof.
  unfold row_part. cbn [fst]. induction (r_form r) as [|e v IH]; simpl; [lia|]. destruct (is_free m (fst e)); simpl; lia.
Qed.

Section Generate.
  Variable debug : bool.
  Variable ins : list rowcut -> rowcut -> list rowcut.
  Variable m : mip.
  Variable xlp : point.
  Hypothesis Hwf : wf_mip m.
  Hypothesis Hvb : vb_rows_ok m.
  Hypothesis Hlow : lows_ok m.
  Variable R : Q -> Prop.
  Hypothesis HR : ratios_ok m R.
  Variable G : Q -> Prop.
  Variable d : Q.
  Hypothesis d0 : 0 <= d.
  Hypothesis G0 : G 0.
  Hypothesis Gplus : forall a b, G a -> G b -> G (a + b).
  Hypothesis Gopp : forall a, G a -> G (- a).
  Hypothesis Geq : forall a b, a == b -> G a -> G b.
  Hypothesis Gsmall : forall a, G a -> Qabs a <= fEPS -> Qabs a <= d.
  Hypothesis Grow : forall r, In r (m_rows m) -> G (row_rhs r) /\ forall j c, In (j, c) (r_form r) ->
    (is_bin m j = true -> G c) /\
    (forall l, m_clo m j = Some l -> G (c * l)) /\
    (forall u, m_chi m j = Some u -> G (c * u)) /\ (forall q, R q -> G (c * q)).

  Lemma Gpart r : In r (m_rows m) -> G (snd (row_part m r)).
  Proof.
    intros Hr. destruct (Grow r Hr) as [G1 G2]. unfold row_part. cbn [snd].
    revert G1. generalize (row_rhs r). revert G2. induction (r_form r) as [|[j a] v IH]; intros G2 q Hq; cbn [fold_left]; [exact Hq|].
    apply IH; [intros; apply G2; now right|]. cbn [fst snd]. destruct (is_free m j); [exact Hq|].
    apply Gplus; [exact Hq|]. apply Gopp. destruct (G2 j a (or_introl eq_refl)) as (_ & G3 & _).
    unfold lower_val. destruct (m_clo m j) as [l|] eqn:L.
    - apply Geq with (a * l); [ring|auto].
    - apply Geq with 0; [ring|exact G0].
  Qed.
  Lemma Gpartv r : In r (m_rows m) -> forall j c, In (j, c) (fst (row_part m r)) ->
    (is_bin m j = true -> G c) /\
    (is_bin m j = false -> (forall u, m_chi m j = Some u -> G (c * u)) /\ (forall q, R q -> G (c * q))).
  Proof.
    intros Hr j c H. unfold row_part in H. cbn [fst] in H. apply filter_In in H. destruct H as [H _].
    destruct (Grow r Hr) as [_ G2]. destruct (G2 j c H) as (G3 & _ & G4 & G5). auto.
  Qed.

  (** A cut from a row, called with the right sign. *)
  Definition from_row (c : rowcut) : Prop :=
    exists t r isG, flowPreprocess m = Done t /\ In r (m_rows m) /\
      (row_sense r = SenseE \/ (row_sense r = SenseG /\ isG = true) \/ (row_sense r = SenseL /\ isG = false)) /\
      generateOneFlowCut debug m (fst t) (snd t) xlp (fst (row_part m r)) isG (snd (row_part m r)) = Done (Some c).

  Lemma from_row_valid c p : from_row c -> feasible m p ->
    exists r form ub, In r (m_rows m) /\ c = RowCut form None (Some ub) /\
      value form p <= ub + d * 2 * inject_Z (Z.of_nat (length (r_form r))).
  Proof.
    intros (t & r & isG & Et & Hr & Hs & E) (Fr & Fb & Fi).
    destruct (preprocess_ok m Hwf Hvb R HR) as (t' & Et' & Ht). rewrite Et in Et'. apply Done_inj in Et'. subst t'.
    destruct t as [vubs vlbs]. cbn [fst snd] in E.
    destruct (call_valid debug m R vubs vlbs xlp Ht Hlow G d d0 G0 Gplus Gopp Geq Gsmall
                (fst (row_part m r)) (snd (row_part m r)) isG (row_part_wf m r (Hwf r Hr)) (Gpart r Hr) (Gpartv r Hr)
                p c E Fb Fr Fi) as (form & ub & H1 & H2).
    { pose proof (row_part_value m r p (proj2 (Hwf r Hr)) Fb) as V.
      unfold turn, turnq. destruct isG.
      - rewrite negv_value. assert (row_rhs r <= value (r_form r) p).
        { apply sense_ge; [auto|]. destruct Hs as [Hs|[[Hs _]|[_ Hs]]]; auto. discriminate. }
        lra.
      - assert (value (r_form r) p <= row_rhs r).
        { apply sense_le; [auto|]. destruct Hs as [Hs|[[_ Hs]|[Hs _]]]; auto. discriminate. }
        lra. }
    exists r, form, ub. split; [exact Hr|]. split; [exact H1|].
    eapply Qle_trans; [exact H2|]. apply Qplus_le_r.
    rewrite (Qmult_comm (d * 2)), (Qmult_comm (d * 2)). apply Qmult_le_compat_r; [|lra].
    rewrite <- Zle_Qle. apply inj_le. apply row_part_len.
  Qed.

  Hypothesis Hdebug : debug = true ->
    forall r, In r (m_rows m) -> d * 2 * inject_Z (Z.of_nat (length (r_form r))) < 1 # 100.
  Lemma row_call_total t r isG : tabs_ok m R t -> In r (m_rows m) -> in_bounds m xlp -> rows_ok m xlp ->
    exists oc, generateOneFlowCut debug m (fst t) (snd t) xlp (fst (row_part m r)) isG (snd (row_part m r)) = Done oc.
  Proof.
    intros Ht Hr Hb Hx. destruct t as [vubs vlbs]. cbn [fst snd].
    apply (call_total debug m R vubs vlbs xlp Ht Hlow G d d0 G0 Gplus Gopp Geq Gsmall
             (fst (row_part m r)) (snd (row_part m r)) isG (row_part_wf m r (Hwf r Hr)) (Gpart r Hr) (Gpartv r Hr) Hb Hx).
    intros Hd. specialize (Hdebug Hd r Hr). eapply Qle_lt_trans; [|exact Hdebug].
    rewrite (Qmult_comm (d * 2)), (Qmult_comm (d * 2)). apply Qmult_le_compat_r; [|lra].
    rewrite <- Zle_Qle. apply inj_le. apply row_part_len.
  Qed.
  Lemma do_row_total t : tabs_ok m R t -> in_bounds m xlp -> rows_ok m xlp ->
    forall l s, (forall r, In r l -> In r (m_rows m)) -> exists s', ofold (do_row debug ins m xlp t) l s = Done s'.
  Proof.
    intros Ht Hb Hx.
    assert (T : forall r isG s, In r (m_rows m) ->
              exists s', try_row debug ins m xlp t (fst (row_part m r)) (snd (row_part m r)) isG s = Done s').
    { intros r isG s Hr. unfold try_row. destruct (gs_stop s); [eauto|].
      destruct (row_call_total t r isG Ht Hr Hb Hx) as (oc & E). rewrite E. cbn [bind]. destruct oc; eauto. }
    induction l as [|r l IH]; intros s Sub; cbn [ofold]; [eauto|].
    assert (E : exists s1, do_row debug ins m xlp t s r = Done s1).
    { unfold do_row. destruct (gs_stop s); [eauto|]. destruct (flow_type (row_type m r)); [|eauto].
      cbv zeta. pose proof (fun isG s => T r isG s (Sub r (or_introl eq_refl))) as T'.
      destruct (row_sense r); eauto.
      destruct (T' false s) as (s1 & E1). rewrite E1. cbn [bind]. apply T'. }
    destruct E as (s1 & E). rewrite E. cbn [bind]. apply IH. intros; apply Sub; now right.
  Qed.
  Lemma generate_total g cs : in_bounds m xlp -> rows_ok m xlp ->
    exists g' cs', generateCuts debug ins g m xlp cs = Done (g', cs').
  Proof.
    intros Hb Hx. unfold generateCuts. destruct (fg_max g <=? 0)%Z; [eauto|].
    destruct (fg_max g <=? fg_num g)%Z; [eauto|].
    destruct (preprocess_ok m Hwf Hvb R HR) as (t & Et & Ht). rewrite Et. cbn [bind].
    destruct (do_row_total t Ht Hb Hx (m_rows m) (GState g cs false)) as (s & Es); [auto|].
    rewrite Es. cbn [bind]. eauto.
  Qed.
End Generate.

(** The cuts that are offered to the collection, and the counter. *)
Section Trace.
  Variable debug : bool.
  Variable ins : list rowcut -> rowcut -> list rowcut.
  Variable m : mip.
  Variable xlp : point.

  (** [cs'] is [cs] after inserting the cuts of [l] in turn. *)
  Definition inserted (cs : list rowcut) (l : list rowcut) : list rowcut := fold_left ins l cs.

  Definition tr (g : fgen) (cs : list rowcut) (s : gstate) : Prop :=
    exists l, gs_cuts s = inserted cs l /\ Forall (from_row debug m xlp) l /\
      fg_max (gs_gen s) = fg_max g /\ fg_num (gs_gen s) = (fg_num g + Z.of_nat (length l))%Z /\
      (gs_stop s = false -> (fg_num (gs_gen s) < fg_max g)%Z) /\ (fg_num (gs_gen s) <= fg_max g)%Z.

  Lemma try_row_tr g cs t r isG s s' : flowPreprocess m = Done t -> In r (m_rows m) ->
    (row_sense r = SenseE \/ (row_sense r = SenseG /\ isG = true) \/ (row_sense r = SenseL /\ isG = false)) ->
    tr g cs s -> try_row debug ins m xlp t (fst (row_part m r)) (snd (row_part m r)) isG s = Done s' -> tr g cs s'.
  Proof.
    intros Et Hr Hs (l & T1 & T2 & T3 & T4 & T5 & T6) E. unfold try_row in E.
    destruct (gs_stop s) eqn:St; [apply Done_inj in E; subst; exists l; rewrite St in *; auto 10|].
    apply bind_done in E. destruct E as (oc & E1 & E). destruct oc as [c|].
    - apply Done_inj in E. subst s'. exists (l ++ [c]). unfold inserted. rewrite fold_left_app, app_length.
      cbn [gs_cuts gs_gen gs_stop fg_max fg_num fold_left length]. fold (inserted cs l). rewrite T1.
      split; [reflexivity|]. specialize (T5 eq_refl).
      split. { apply Forall_app. split; [exact T2|]. constructor; [|constructor]. exists t, r, isG. auto. }
      split; [exact T3|]. split; [lia|]. split; [|lia].
      intros H. apply Z.leb_gt in H. lia.
    - apply Done_inj in E. subst s'. exists l. rewrite St. auto 10.
  Qed.
  Lemma do_row_tr g cs t s r s' : flowPreprocess m = Done t -> In r (m_rows m) -> tr g cs s ->
    do_row debug ins m xlp t s r = Done s' -> tr g cs s'.
  Proof.
    intros Et Hr T E. unfold do_row in E. destruct (gs_stop s) eqn:St; [apply Done_inj in E; now subst|].
    destruct (flow_type (row_type m r)); [|apply Done_inj in E; now subst]. cbv zeta in E.
    destruct (row_sense r) eqn:RS; try (apply Done_inj in E; now subst).
    - apply bind_done in E. destruct E as (s1 & E1 & E2).
      apply (try_row_tr g cs t r false s s1) in E1; auto.
      apply (try_row_tr g cs t r true s1 s') in E2; auto.
    - apply (try_row_tr g cs t r false s s') in E; auto.
    - apply (try_row_tr g cs t r true s s') in E; auto.
  Qed.
  Lemma generate_trace g cs g' cs' : generateCuts debug ins g m xlp cs = Done (g', cs') ->
    exists l, cs' = inserted cs l /\ Forall (from_row debug m xlp) l /\
      fg_max g' = fg_max g /\ fg_num g' = (fg_num g + Z.of_nat (length l))%Z /\
      (l <> [] -> (fg_num g' <= fg_max g)%Z).
  Proof.
    unfold generateCuts. intros E.
    assert (Base : (g, cs) = (g', cs') -> exists l, cs' = inserted cs l /\ Forall (from_row debug m xlp) l /\
      fg_max g' = fg_max g /\ fg_num g' = (fg_num g + Z.of_nat (length l))%Z /\ (l <> [] -> (fg_num g' <= fg_max g)%Z)).
    { intros H. injection H as <- <-. exists []. repeat split; auto; [simpl; lia|congruence]. }
    destruct (fg_max g <=? 0)%Z; [apply Done_inj in E; auto|].
    destruct (fg_max g <=? fg_num g)%Z eqn:L; [apply Done_inj in E; auto|]. apply Z.leb_gt in L. clear Base.
    apply bind_done in E. destruct E as (t & Et & E). apply bind_done in E. destruct E as (s & Es & E).
    apply Done_inj in E. injection E as <- <-.
    assert (T : tr g cs s).
    { apply (ofold_inv (tr g cs)) in Es; [exact Es| |].
      - intros s0 r s1 Hr T E. exact (do_row_tr g cs t s0 r s1 Et Hr T E).
      - exists []. repeat split; auto; cbn [gs_gen gs_stop gs_cuts length]; lia. }
    destruct T as (l & T1 & T2 & T3 & T4 & T5 & T6). exists l. auto.
  Qed.
End Trace.
