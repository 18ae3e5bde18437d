(** * Properties of the probing-information object (C26, C27, C29, C30) *)

From Verif Require Import Base Model_TreeInfo Proofs_TreeInfo.
Local Open Scope Q_scope.


(** ** C26: the entry word *)
Theorem C26_entry_round_trip :
  forall (w s : Z) (b : bool), (0 <= s < 2147483648)%Z ->
    sequenceInCliqueEntry (setSequenceInCliqueEntry w s) = s /\
    oneFixesInCliqueEntry (setSequenceInCliqueEntry w s) = oneFixesInCliqueEntry w /\
    oneFixesInCliqueEntry (setOneFixesInCliqueEntry w b) = b /\
    sequenceInCliqueEntry (setOneFixesInCliqueEntry w b) = sequenceInCliqueEntry w /\
    (0 <= setSequenceInCliqueEntry w s < 2 ^ 32)%Z /\
    (0 <= setOneFixesInCliqueEntry w b < 2 ^ 32)%Z.
Proof.
  intros w s b H. repeat split.
  - apply seq_setSeq; exact H.
  - apply one_setSeq; exact H.
  - apply one_setOne.
  - apply seq_setOne.
  - apply setSeq_word; exact H.
  - apply setSeq_word; exact H.
  - apply setOne_word.
  - apply setOne_word.
Qed.
Print Assumptions C26_entry_round_trip.
Example C26_example :
  let w := setOneFixesInCliqueEntry (setSequenceInCliqueEntry 0 12345) true in
  sequenceInCliqueEntry w = 12345%Z /\ oneFixesInCliqueEntry w = true.
Proof. vm_compute. auto. Qed.
(** A negative sequence overwrites the flag. *)
Theorem C26_negative_sequence_refuted :
  exists w s, oneFixesInCliqueEntry (setSequenceInCliqueEntry w s) <> oneFixesInCliqueEntry w.
Proof. exists 0%Z, (-1)%Z. vm_compute. discriminate. Qed.
Print Assumptions C26_negative_sequence_refuted.

(** ** C27: recorded implications and the tables read back *)

(** What a reader of the tables sees: "column v going to 1 (up) or 0 (not up)
    puts column w at its lower (low) or upper bound".  Uses only the public
    accessors integerVariable(), numberIntegers(), toZero(), toOne(),
    fixEntries() and the two entry readers. *)
Definition listed (s : pinfo) (t : table) (v : nat) (up : bool) (w : nat) (low : bool) : Prop :=
  exists i e, nth_error (pi_intvar s) i = Some v /\
    In e (if up then one_entries t i else zero_entries t i) /\
    oneFixesInCliqueEntry e = negb low /\
    (if (sequenceInCliqueEntry e <? pi_nint s)%Z
     then nth_error (pi_intvar s) (Z.to_nat (sequenceInCliqueEntry e)) = Some w
     else sequenceInCliqueEntry e = (pi_nint s + Z.of_nat w)%Z).

(** The one call convert() may lose: the target is not 0-1, goes to its lower
    bound, and its code equals the sentinel numberVariables + 1. *)
Definition sentinel_clash (types : list nat) (s : pinfo) (c : call) : Prop :=
  c_lower c = true /\ nth_error types (c_fix c) <> Some 1%nat /\
  (pi_nint s + Z.of_nat (c_fix c) = Z.of_nat (length types) + 1)%Z.

Theorem C27_tables_list_exactly_the_recorded_implications :
  forall (types : list nat) (calls : list call) (s0 : pinfo),
    (Z.of_nat (length types) < 2 ^ 30)%Z ->
    initializeFixing pinfo_default types = (1%Z, s0) ->
    (forall c, In c calls -> (c_var c < length types)%nat /\ (c_fix c < length types)%nat) ->
    exists s1 accepted t,
      run_calls s0 calls = Done (s1, accepted) /\ incl accepted calls /\
      pi_table (convert s1) = Some t /\
      (forall v up w low, listed (convert s1) t v up w low ->
         In (Call v up w low) accepted /\ nth_error types v = Some 1%nat) /\
      (forall v up w low, In (Call v up w low) accepted -> nth_error types v = Some 1%nat ->
         ~ sentinel_clash types s1 (Call v up w low) -> listed (convert s1) t v up w low).
Proof.
  intros types calls s0 Hlen Hinit Hc.
  destruct (init_wf types s0 Hlen Hinit) as (W & Hn0 & Hcoll0 & Ht0 & Hbl & Hnv & I1 & I1' & I2).
  destruct (run_calls_spec calls s0 W) as (s1 & acc & E & F & Hn1 & Ec & Hincl).
  { lia. } { rewrite Hbl. exact Hc. }
  pose proof (wf_frame _ _ F W) as W1.
  assert (Hbs : pi_back s1 = pi_back s0) by (apply F).
  assert (Hiv : pi_intvar s1 = pi_intvar s0) by (apply F).
  assert (Hnv1 : pi_nvars s1 = pi_nvars s0) by (apply F).
  assert (Ec1 : pi_coll s1 = enc_list s1 acc).
  { rewrite Ec, Hcoll0. cbn. unfold enc_list. apply flat_map_ext. intro a. rewrite (encode_frame _ _ a F). reflexivity. }
  destruct (listed_spec s1 acc W1 Hn1 Ec1) as (t & T1 & T2 & T3 & T4 & T5 & T6 & T7 & T8).
  exists s1, acc, t. split; [exact E|]. split; [exact Hincl|]. split; [exact T1|].
  assert (Hni : pi_nint (convert s1) = pi_nint s1) by (unfold pi_nint; rewrite T2; reflexivity).
  split.
  - intros v up w low (i & e & Hi & He & Ho & Htgt). rewrite T2 in Hi, Htgt. rewrite Hni in Htgt.
    assert (Hil : (i < length (pi_intvar s1))%nat) by (apply nth_error_Some; congruence).
    destruct (T8 i up Hil) as (A & _ & _). destruct (A e He) as (_ & c & Hin & Hup & Hv & Hen).
    destruct (encode_decode s1 c _ W1 Hen) as (v' & f & Hv' & Hf & Hv0 & _ & Hseq & Hone & _).
    cbn [snd] in Hseq, Hone.
    assert (c_var c = v).
    { rewrite Hbs in Hv. destruct (I1 _ _ Hv) as [_ K]; [lia|]. rewrite Nat2Z.id in K. rewrite Hiv in Hi. congruence. }
    assert (c_fix c = w).
    { rewrite Hbs in Hf. destruct (Z.ltb_spec f 0) as [Hneg|Hpos].
      - rewrite Hseq in Htgt. destruct (Z.ltb_spec (pi_nint s1 + Z.of_nat (c_fix c)) (pi_nint s1)); lia.
      - destruct (I1 _ _ Hf Hpos) as [_ K]. rewrite Hseq in Htgt.
        destruct W1 as (W1a & _). rewrite <- Hbs in Hf. specialize (W1a _ _ Hf).
        destruct (Z.ltb_spec f (pi_nint s1)); [|lia]. rewrite Hiv in Htgt. congruence. }
    assert (c_lower c = low) by (rewrite Ho in Hone; destruct low, (c_lower c); simpl in Hone; congruence).
    subst. split; [destruct c; cbn in *; subst; exact Hin|].
    rewrite Hbs in Hv. apply (I1 _ _ Hv). lia.
  - intros v up w low Hin Hty Hns.
    assert (Hcl : (v < length types)%nat /\ (w < length types)%nat) by (apply (Hc _ (Hincl _ Hin))).
    destruct (nth_error (pi_back s0) v) as [zv|] eqn:Ev; [|apply nth_error_None in Ev; lia].
    destruct (nth_error (pi_back s0) w) as [zw|] eqn:Ew; [|apply nth_error_None in Ew; lia].
    destruct (Z_lt_ge_dec zv 0) as [Hneg|Hpos]; [exfalso; exact (I1' v zv Ev Hneg Hty)|].
    assert (Hzv : (0 <= zv)%Z) by lia. destruct (I1 v zv Ev Hzv) as [_ Hivv].
    assert (Hil : (Z.to_nat zv < length (pi_intvar s1))%nat).
    { rewrite Hiv. apply nth_error_Some. congruence. }
    destruct (T8 (Z.to_nat zv) up Hil) as (_ & B & _). rewrite Z2Nat.id in B by lia.
    set (c := Call v up w low) in *.
    assert (Hen : exists e, encode s1 c = Some (2 * zv + (if up then 1 else 0), e)%Z).
    { unfold encode. cbn [c_var c_fix c_up c_lower c]. rewrite Hbs, Ev, Ew.
      destruct (Z.ltb_spec zv 0); [lia|]. eexists. f_equal. f_equal.
      destruct up; [rewrite lor_odd by lia|]; ring. }
    destruct Hen as [e Hen].
    destruct (encode_decode s1 c _ W1 Hen) as (v' & f & Hv' & Hf & Hv0 & _ & Hseq & Hone & Hword).
    cbn [snd c_fix c_lower c] in Hseq, Hone, Hf, Hword. rewrite Hbs, Ew in Hf. injection Hf as <-.
    exists (Z.to_nat zv), e. rewrite T2, Hni.
    split; [rewrite Hiv; exact Hivv|]. split; [|split; [exact Hone|]].
    + apply (B c e Hin Hen). intros ->. apply Hns.
      assert (Hs : sentinel (pi_nvars s1) = (Z.of_nat (length types) + 1)%Z).
      { unfold sentinel. rewrite setSeq_val, Hnv1, Hnv by (rewrite ?Hnv1, ?Hnv; unfold B31; lia).
        cbn. lia. }
      rewrite Hs in Hseq, Hone.
      assert (Hone' : oneFixesInCliqueEntry (Z.of_nat (length types) + 1) = false).
      { pose proof (one_add (Z.of_nat (length types) + 1) false) as Q. rewrite Z.add_0_r in Q. apply Q. unfold B31. lia. }
      rewrite seq_mod, Z.mod_small in Hseq by (unfold B31; lia).
      assert (Hzw : (zw < 0)%Z).
      { destruct (Z.ltb_spec zw 0); [assumption|].
        destruct W as (Wa & Wb & Wc). specialize (Wa _ _ Ew). lia. }
      unfold sentinel_clash. cbn [c_lower c_fix c].
      split; [|split].
      * rewrite Hone in Hone'. destruct low; [reflexivity|discriminate].
      * eapply I1'; eauto.
      * destruct (Z.ltb_spec zw 0); lia.
    + rewrite Hseq. destruct (Z.ltb_spec zw 0) as [Hz|Hz].
      * destruct (Z.ltb_spec (pi_nint s1 + Z.of_nat w) (pi_nint s1)); lia.
      * destruct W as (Wa & _). specialize (Wa _ _ Ew).
        assert (pi_nint s1 = pi_nint s0) by (unfold pi_nint; rewrite Hiv; reflexivity).
        destruct (Z.ltb_spec zw (pi_nint s1)); [|lia]. rewrite Hiv. apply (I1 w zw Ew Hz).
Qed.
Print Assumptions C27_tables_list_exactly_the_recorded_implications.

(** Non-vacuity, and the size of the tables: three columns, two binaries. *)
Example C27_example :
  exists s0 s1 t, initializeFixing pinfo_default [1; 0; 1]%nat = (1%Z, s0) /\
    run_calls s0 [Call 0 true 2 true; Call 2 false 0 false; Call 0 true 2 true; Call 0 true 1 false]
      = Done (s1, [Call 0 true 2 true; Call 2 false 0 false; Call 0 true 2 true; Call 0 true 1 false]) /\
    pi_table (convert s1) = Some t /\
    t_toZero t = [0; 2; 3]%nat /\ t_toOne t = [0; 3]%nat /\
    listed (convert s1) t 0 true 1 false.
Proof.
  eexists _, _, _. conjs; veq.
  exists 0%nat, 2147483651%Z. conjs; [reflexivity|vm_compute; auto|reflexivity|reflexivity].
Qed.

(** The proviso is needed: with three columns, two of them 0-1 and column 2
    continuous, the implication "column 0 to 1 puts column 2 at its lower
    bound" is accepted and then lost, because its code 2 + 2 equals the
    sentinel 3 + 1. *)
Theorem C27_recorded_implication_lost_refuted :
  exists types s0 s1 t,
    initializeFixing pinfo_default types = (1%Z, s0) /\
    run_calls s0 [Call 0 true 2 true] = Done (s1, [Call 0 true 2 true]) /\
    pi_table (convert s1) = Some t /\ t_entry t = [] /\
    ~ listed (convert s1) t 0 true 2 true.
Proof.
  exists [1; 1; 0]%nat. eexists _, _, _. conjs; veq.
  intros (i & e & Hi & He & _). vm_compute in Hi, He.
  destruct i as [|[|i]]; vm_compute in He; try contradiction.
  destruct i; discriminate.
Qed.
Print Assumptions C27_recorded_implication_lost_refuted.

(** Duplicates going to the upper bound are not taken out, although convert()
    is documented to "take out duplicates". *)
Theorem C27_upper_duplicates_kept_refuted :
  exists types calls s0 s1 t,
    initializeFixing pinfo_default types = (1%Z, s0) /\
    run_calls s0 calls = Done (s1, calls) /\ pi_table (convert s1) = Some t /\
    ~ NoDup (one_entries t 0).
Proof.
  exists [1; 1]%nat, [Call 0 true 1 false; Call 0 true 1 false].
  eexists _, _, _. conjs; veq.
  vm_compute. intro H. inversion H as [|? ? H1 _]. apply H1. left. reflexivity.
Qed.
Print Assumptions C27_upper_duplicates_kept_refuted.

(** ** C29: using the tables on a solver *)

(** A point that is 0-1 on the 0-1 columns and satisfies every recorded
    implication between 0-1 columns. *)
Definition satisfies_recorded (types : list nat) (acc : list call) (x : nat -> Q) : Prop :=
  (forall v, nth_error types v = Some 1%nat -> x v == 0 \/ x v == 1) /\
  (forall c, In c acc -> nth_error types (c_var c) = Some 1%nat -> nth_error types (c_fix c) = Some 1%nat ->
     x (c_var c) == (if c_up c then 1 else 0) -> x (c_fix c) == (if c_lower c then 0 else 1)).

Lemma recorded_obeys types calls s0 :
    (Z.of_nat (length types) < 2 ^ 30)%Z ->
    initializeFixing pinfo_default types = (1%Z, s0) ->
    (forall c, In c calls -> (c_var c < length types)%nat /\ (c_fix c < length types)%nat) ->
    exists s1 acc n s2 t2, run_calls s0 calls = Done (s1, acc) /\
      packDown s1 = Done (n, s2) /\ pi_table s2 = Some t2 /\
      (forall k, In k (pi_intvar s2) -> nth_error types k = Some 1%nat) /\
      packed (pi_intvar s2) t2 /\
      forall x, satisfies_recorded types acc x -> obeys (pi_intvar s2) t2 x.
Proof.
  intros Hlen Hinit Hc.
  destruct (init_wf types s0 Hlen Hinit) as (W & Hn0 & Hcoll0 & Ht0 & Hbl & Hnv & I1 & I1' & I2).
  destruct (run_calls_spec calls s0 W) as (s1 & acc & E & F & Hn1 & Ec & Hincl).
  { lia. } { rewrite Hbl. exact Hc. }
  pose proof (wf_frame _ _ F W) as W1.
  assert (Hbs : pi_back s1 = pi_back s0) by (apply F).
  assert (Hiv : pi_intvar s1 = pi_intvar s0) by (apply F).
  assert (Ec1 : pi_coll s1 = enc_list s1 acc).
  { rewrite Ec, Hcoll0. cbn. unfold enc_list. apply flat_map_ext. intro a. rewrite (encode_frame _ _ a F). reflexivity. }
  destruct (listed_spec s1 acc W1 Hn1 Ec1) as (t & T1 & T2 & T3 & T4 & T5 & T6 & T7 & T8).
  assert (Hnum : (pi_num (convert s1) < 0)%Z).
  { unfold convert. rewrite (proj2 (Z.leb_le _ _) Hn1).
    destruct (convert_loop _ _ _ _ _) as [[? ?] ?]. cbn. lia. }
  assert (Hcc : convert (convert s1) = convert s1).
  { unfold convert at 1. destruct (Z.leb_spec 0 (pi_num (convert s1))); [lia|reflexivity]. }
  assert (Hpk : packDown s1 = packDown (convert s1)) by (unfold packDown; rewrite Hcc; reflexivity).
  destruct (packDown_spec (convert s1) t Hnum T1) as (n & s2 & t2 & P1 & P2 & P3 & P4 & P5 & P6).
  { rewrite T2. exact T5. } { exact T7. } { intro K. rewrite K in T6. discriminate. }
  exists s1, acc, n, s2, t2. split; [exact E|]. split; [rewrite Hpk; exact P1|]. split; [exact P2|].
  rewrite P3, T2.
  assert (Hni : pi_nint (convert s1) = pi_nint s1) by (unfold pi_nint; rewrite T2; reflexivity).
  rewrite T2, Hni in P6.
  split; [|split].
  - intros k Hk. apply In_nth_error in Hk as [i Hi]. rewrite Hiv in Hi. apply I2 in Hi. apply (I1 _ _ Hi). lia.
  - intros j e Hj He. destruct (P6 j Hj) as [Z0 Z1]. rewrite Z0, Z1 in He.
    assert (Hs : (sequenceInCliqueEntry e < pi_nint s1)%Z).
    { destruct He as [He|He]; apply filter_In in He as [_ He]; apply Z.ltb_lt in He; exact He. }
    apply nth_error_Some. unfold pi_nint in Hs.
    assert (0 <= sequenceInCliqueEntry e)%Z by (rewrite seq_mod; apply Z.mod_pos_bound; reflexivity). lia.
  - intros x (_ & Hx) j i Hj e k Hk.
    assert (Hjl : (j < length (pi_intvar s1))%nat) by (apply nth_error_Some; congruence).
    destruct (P6 j Hjl) as [Z0 Z1]. rewrite Z0, Z1.
    assert (K : forall up : bool, In e (if up then one_entries t j else zero_entries t j) ->
       (sequenceInCliqueEntry e < pi_nint s1)%Z ->
       x i == (if up then 1 else 0) -> x k == if oneFixesInCliqueEntry e then 1 else 0).
    { intros up He Hs Hxi. destruct (T8 j up Hjl) as (A & _ & _).
      destruct (A e He) as (_ & c & Hin & Hup & Hv & Hen).
      destruct (encode_decode s1 c _ W1 Hen) as (v' & f & Hv' & Hf & Hv0 & _ & Hseq & Hone & _).
      cbn [snd] in Hseq, Hone.
      rewrite Hbs in Hv, Hf.
      destruct (I1 _ _ Hv (Nat2Z.is_nonneg j)) as [Hty1 Hiv1]. rewrite Nat2Z.id in Hiv1.
      assert (c_var c = i) by (rewrite Hiv in Hj; congruence).
      destruct (Z.ltb_spec f 0); [lia|].
      destruct (I1 _ _ Hf H0) as [Hty2 Hiv2].
      assert (c_fix c = k) by (rewrite Hiv, Hseq in Hk; congruence).
      specialize (Hx c Hin Hty1 Hty2). rewrite H, H1 in Hx. rewrite Hup in Hx.
      specialize (Hx Hxi). rewrite Hone. destruct (c_lower c); exact Hx. }
    split; intros He Hxi; apply filter_In in He as [He Hs]; apply Z.ltb_lt in Hs.
    + apply (K false He Hs Hxi).
    + apply (K true He Hs Hxi).
Qed.

(** After any history of recorded implications, packDown() and fixColumns(si)
    are defined; the new bounds are no looser; no point satisfying the recorded
    implications is lost; and the answer -1 (infeasible) is only given when no
    such point lies within the bounds. *)
Theorem C29_fixColumns_loses_no_solution :
  forall (types : list nat) (calls : list call) (s0 : pinfo) (lower upper : nat -> Q),
    (Z.of_nat (length types) < 2 ^ 30)%Z ->
    initializeFixing pinfo_default types = (1%Z, s0) ->
    (forall c, In c calls -> (c_var c < length types)%nat /\ (c_fix c < length types)%nat) ->
    (forall k, nth_error types k = Some 1%nat -> 0 <= lower k /\ upper k <= 1) ->
    exists s1 accepted n s2 r lower' upper',
      run_calls s0 calls = Done (s1, accepted) /\ packDown s1 = Done (n, s2) /\
      fixColumns s2 (lower, upper) = Done (r, (lower', upper')) /\
      (forall k, lower k <= lower' k /\ upper' k <= upper k) /\
      (forall x, satisfies_recorded types accepted x -> (forall k, lower k <= x k <= upper k) ->
         (forall k, lower' k <= x k <= upper' k) /\ r <> (-1)%Z).
Proof.
  intros types calls s0 lower upper Hlen Hinit Hc Hb.
  destruct (recorded_obeys types calls s0 Hlen Hinit Hc) as (s1 & acc & n & s2 & t2 & E & P1 & P2 & Hty & Hpk & Hob).
  destruct (fixColumns_defined (pi_intvar s2) t2 (combine (seq 0 (length (pi_intvar s2))) (pi_intvar s2))
             ((lower, upper), 0%nat, true) Hpk (combine_seq_nth0 _)) as [st' Est].
  assert (H01 : b01 (pi_intvar s2) (lower, upper)) by (intros k Hk; apply Hb, Hty, Hk).
  destruct st' as [[[lo up] n'] f] eqn:Est'.
  exists s1, acc, n, s2, (if f then Z.of_nat n' else (-1)%Z), lo, up.
  split; [exact E|]. split; [exact P1|]. split; [|split].
  - unfold fixColumns. rewrite P2. cbv iota beta. exact (f_equal (fun o => bind o (fun r => let '(b0, m, feas) := r in Done (if (feas : bool) then Z.of_nat m else (-1)%Z, b0))) Est).
  - assert (Hmono : forall cols st st', (forall ij, In ij cols -> nth_error (pi_intvar s2) (fst ij) = Some (snd ij)) ->
        b01 (pi_intvar s2) (fst (fst st)) ->
        ofold (fixColumns_step (pi_intvar s2) t2) cols st = Done st' ->
        forall k, fst (fst (fst st)) k <= fst (fst (fst st')) k /\ snd (fst (fst st')) k <= snd (fst (fst st)) k).
    { induction cols as [|[j i] cols IH]; intros st st0 Hcc HH EE k.
      - injection EE as <-. split; apply Qle_refl.
      - cbn [ofold] in EE. apply bind_done in EE as (sx & EE1 & EE2).
        assert (KK : b01 (pi_intvar s2) (fst (fst sx)) /\ forall k, fst (fst (fst st)) k <= fst (fst (fst sx)) k /\ snd (fst (fst sx)) k <= snd (fst (fst st)) k).
        { unfold fixColumns_step in EE1. destruct st as [[[l0 u0] m0] f0].
          destruct (Qeq_bool (u0 i) 0); [|destruct (Qeq_bool (l0 i) 1)].
          - destruct (fix_entries_inv (pi_intvar s2) (fun _ => 0) _ (l0, u0, m0, f0) _ HH EE1) as (A & B & _). auto.
          - destruct (fix_entries_inv (pi_intvar s2) (fun _ => 0) _ (l0, u0, m0, f0) _ HH EE1) as (A & B & _). auto.
          - injection EE1 as <-. split; [exact HH|]. intro; split; apply Qle_refl. }
        destruct KK as [K1 K2]. destruct (K2 k).
        destruct (IH sx st0 (fun p Hp => Hcc p (or_intror Hp)) K1 EE2 k).
        split; eapply Qle_trans; eauto. }
    intro k. exact (Hmono _ ((lower, upper), 0%nat, true) _ (combine_seq_nth0 _) H01 Est k).
  - intros x Hx Hin.
    destruct (fixColumns_inv (pi_intvar s2) t2 x _ ((lower, upper), 0%nat, true) _
                (fun k Hk => proj1 Hx k (Hty k Hk)) (Hob x Hx) (combine_seq_nth0 _) H01 Est) as (_ & C).
    destruct (C Hin) as [C1 C2]. cbn in C1, C2. split; [exact C1|].
    rewrite (C2 eq_refl). lia.
Qed.
Print Assumptions C29_fixColumns_loses_no_solution.

(** Without packDown() (the header does not ask for it) the target code of a
    continuous column indexes past the initialised part of integerVariable. *)
Theorem C29_fixColumns_without_packDown_refuted :
  exists types s0 s1,
    initializeFixing pinfo_default types = (1%Z, s0) /\
    run_calls s0 [Call 0 true 1 false] = Done (s1, [Call 0 true 1 false]) /\
    fixColumns (convert s1) (fun _ => 1, fun _ => 1) = Undef Uninitialised.
Proof. exists [1; 0]%nat. eexists _, _. conjs; veq. Qed.
Print Assumptions C29_fixColumns_without_packDown_refuted.

Example C29_example :
  exists s0 s1 s2 r b,
    initializeFixing pinfo_default [1; 0; 1]%nat = (1%Z, s0) /\
    run_calls s0 [Call 0 true 2 true; Call 0 true 1 false] = Done (s1, [Call 0 true 2 true; Call 0 true 1 false]) /\
    packDown s1 = Done (1%nat, s2) /\
    fixColumns s2 (fun k => if Nat.eqb k 0 then 1 else 0, fun _ => 1) = Done (r, b) /\
    r = 1%Z /\ snd b 2%nat == 0.
Proof. eexists _, _, _, _, _. conjs; veq. Qed.

(** ** C30: cuts generated from the tables *)
Theorem C30_implication_cuts_valid :
  forall (types : list nat) (calls : list call) (s0 : pinfo) (lower upper colsol : nat -> Q),
    (Z.of_nat (length types) < 2 ^ 30)%Z ->
    initializeFixing pinfo_default types = (1%Z, s0) ->
    (forall c, In c calls -> (c_var c < length types)%nat /\ (c_fix c < length types)%nat) ->
    (forall k, nth_error types k = Some 1%nat ->
        (lower k == 0 \/ lower k == 1) /\ (upper k == 0 \/ upper k == 1)) ->
    exists s1 accepted n s2,
      run_calls s0 calls = Done (s1, accepted) /\ packDown s1 = Done (n, s2) /\
      forall cs ccs cs' ccs',
        pi_generateCuts s2 lower upper colsol cs ccs = Done (cs', ccs') ->
        forall x, satisfies_recorded types accepted x -> (forall k, lower k <= x k <= upper k) ->
          (forall c, In c cs' -> In c cs \/ rowcut_sat c x) /\
          (forall c, In c ccs' -> In c ccs \/ colcut_sat c x).
Proof.
  intros types calls s0 lower upper colsol Hlen Hinit Hc Hb.
  destruct (recorded_obeys types calls s0 Hlen Hinit Hc) as (s1 & acc & n & s2 & t2 & E & P1 & P2 & Hty & Hpk & Hob).
  exists s1, acc, n, s2. split; [exact E|]. split; [exact P1|].
  intros cs ccs cs' ccs' Eg x Hx Hin.
  eapply (pi_generateCuts_ok s2 t2 lower upper colsol x); eauto.
  intros k Hk. destruct (Hb k (Hty k Hk)) as [A B]. repeat split; auto.
  - apply Hin. - apply Hin. - apply (proj1 Hx). apply Hty; exact Hk.
Qed.
Print Assumptions C30_implication_cuts_valid.

Example C30_example :
  exists s0 s1 s2 c,
    initializeFixing pinfo_default [1; 0; 1]%nat = (1%Z, s0) /\
    run_calls s0 [Call 0 true 2 true] = Done (s1, [Call 0 true 2 true]) /\
    packDown s1 = Done (1%nat, s2) /\
    pi_generateCuts s2 (fun _ => 0) (fun _ => 1) (fun _ => 3#4) [] [] = Done ([c], []) /\
    rc_form c = [(0%nat, 1); (2%nat, 1)] /\ rc_ub c = Some 1.
Proof. eexists _, _, _, _. conjs; veq. Qed.
