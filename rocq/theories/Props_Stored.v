(** * Properties of the stored-cut pool (C03, C04, C31) *)

From Verif Require Import Base Model_TreeInfo Proofs_TreeInfo Model_Stored.
Local Open Scope Q_scope.


(** A cut whose two sides are not contradictory. *)
Definition sides_ordered (c : rowcut) : Prop :=
  match rc_lb c, rc_ub c with Some l, Some u => l <= u | _, _ => True end.

Lemma osi_violated_spec c x : sides_ordered c -> osi_violated c x == rowcut_violation c x.
Proof.
  unfold osi_violated, rowcut_violation, sides_ordered. intro H.
  destruct (rc_lb c) as [l|], (rc_ub c) as [u|]; cbv zeta;
  set (v := value (rc_form c) x) in *;
  repeat match goal with
  | |- context [Qltb ?a ?b] => destruct (Qltb a b) eqn:?
  | |- context [Qle_bool ?a ?b] =>
      lazymatch a with context [Qle_bool _ _] => fail | _ => destruct (Qle_bool a b) eqn:? end
  end; qb; lra.
Qed.

Lemma stored_part_filter s x cs :
  stored_part s x cs = cs ++ filter (fun c => Qle_bool (sd_req s) (osi_violated c x)) (sd_cuts s).
Proof.
  unfold stored_part. revert cs. induction (sd_cuts s) as [|c l IH]; intro cs; simpl.
  - rewrite app_nil_r. reflexivity.
  - rewrite IH. destruct (Qle_bool _ _); [rewrite <- app_assoc|]; reflexivity.
Qed.

(** ** C03 *)

(** The specification: the cuts handed over so far, oldest first, and the
    last required violation set, read off the history of calls. *)
Definition cuts_of (o : stored_op) : list rowcut :=
  match o with
  | OpAddCuts cs => cs
  | OpAddCut c => [c]
  | OpAddVec lb ub v => [RowCut v lb ub]
  | _ => []
  end.
Definition added (h : list stored_op) : list rowcut := flat_map cuts_of h.
Fixpoint last_required (d : Q) (h : list stored_op) : Q :=
  match h with
  | [] => d
  | OpSetRequired q :: h' => last_required q h'
  | _ :: h' => last_required d h'
  end.
(** Violated by at least [r], in order. *)
Inductive selects (r : Q) (x : point) : list rowcut -> list rowcut -> Prop :=
  | sel_nil : selects r x [] []
  | sel_take c l l' : r <= rowcut_violation c x -> selects r x l l' -> selects r x (c :: l) (c :: l')
  | sel_skip c l l' : rowcut_violation c x < r -> selects r x l l' -> selects r x (c :: l) l'.

Lemma history_state h : forall s, sd_pi s = None ->
  exists s', ofold stored_do h s = Done s' /\ sd_pi s' = None /\
    sd_cuts s' = sd_cuts s ++ added h /\ sd_req s' = last_required (sd_req s) h.
Proof.
  induction h as [|o h IH]; intros s Hp.
  - exists s. simpl. rewrite app_nil_r. auto.
  - destruct o as [cs|c|lb ub v|q|sol lo up cs]; cbn [ofold stored_do bind added flat_map cuts_of last_required];
    fold (added h).
    + destruct (IH (addCuts s cs) Hp) as (s' & A & B & C & D). exists s'. rewrite C, D. cbn. rewrite app_assoc. auto.
    + destruct (IH (addCut s c) Hp) as (s' & A & B & C & D). exists s'. rewrite C, D. cbn. rewrite <- app_assoc. auto.
    + destruct (IH (addCutVec s lb ub v) Hp) as (s' & A & B & C & D). exists s'. rewrite C, D. cbn. rewrite <- app_assoc. auto.
    + destruct (IH (setRequiredViolation s q) Hp) as (s' & A & B & C & D). exists s'. rewrite C, D. cbn. auto.
    + unfold st_generateCuts. rewrite Hp. cbn [bind snd].
      destruct (IH s Hp) as (s' & A & B & C & D). exists s'. rewrite C, D. auto.
Qed.

Lemma filter_selects r x l : (forall c, In c l -> sides_ordered c) ->
  selects r x l (filter (fun c => Qle_bool r (osi_violated c x)) l).
Proof.
  induction l as [|c l IH]; intros H; simpl; [constructor|].
  pose proof (osi_violated_spec c x (H c (or_introl eq_refl))) as E.
  destruct (Qle_bool _ _) eqn:Q; qb.
  - apply sel_take; [lra|]. apply IH. intros; apply H; right; auto.
  - apply sel_skip; [lra|]. apply IH. intros; apply H; right; auto.
Qed.

(** For every history of calls on a fresh pool and every point: the next
    generateCuts appends to the caller's collection exactly the cuts added so
    far whose violation is at least the last required violation, in the order
    they were added and with multiplicity, and leaves the pool as it was. *)
Theorem C03_pool_emits_exactly_the_violated_cuts :
  forall (h : list stored_op) (x lower upper : point) (cs : list rowcut),
    (forall c, In c (added h) -> sides_ordered c) ->
    exists s emitted,
      ofold stored_do h stored_new = Done s /\
      st_generateCuts s x lower upper cs = Done (cs ++ emitted, s) /\
      selects (last_required (1 # 100000) h) x (added h) emitted.
Proof.
  intros h x lower upper cs Ho.
  destruct (history_state h stored_new eq_refl) as (s & A & B & C & D).
  exists s, (filter (fun c => Qle_bool (sd_req s) (osi_violated c x)) (sd_cuts s)).
  split; [exact A|]. split.
  - unfold st_generateCuts. rewrite B, stored_part_filter. reflexivity.
  - cbn in C, D. rewrite C, <- D. apply filter_selects. exact Ho.
Qed.
Print Assumptions C03_pool_emits_exactly_the_violated_cuts.

Example C03_example :
  let c := RowCut [(0%nat, 1); (1%nat, 1)] None (Some 1) in
  let d := RowCut [(0%nat, 1)] (Some (1#2)) None in
  exists s, ofold stored_do [OpAddCut c; OpSetRequired (1#10); OpAddCuts [d; c]] stored_new = Done s /\
    st_generateCuts s (fun _ => 3#4) (fun _ => 0) (fun _ => 1) [d] = Done ([d; c; c], s).
Proof. cbv zeta. eexists. conjs; veq. Qed.

(** The header says "violations of more than this will be added"; a violation
    equal to the threshold is added too, so with threshold 0 satisfied cuts
    are emitted. *)
Theorem C03_more_than_refuted :
  exists h x c s, In c (added h) /\ rowcut_sat c x /\
    ofold stored_do h stored_new = Done s /\
    st_generateCuts s x (fun _ => 0) (fun _ => 1) [] = Done ([c], s).
Proof.
  exists [OpSetRequired 0; OpAddCut (RowCut [(0%nat, 1)] None (Some 1))], (fun _ => 0), (RowCut [(0%nat, 1)] None (Some 1)).
  eexists. conjs.
  - left. reflexivity.
  - split; vm_compute; [exact I|discriminate].
  - vm_compute. reflexivity.
  - vm_compute. reflexivity.
Qed.
Print Assumptions C03_more_than_refuted.

(** ** C04 *)

(** A point satisfies the recorded implications.  [rlo], [rup] are the bounds
    in force when they were recorded: "column w goes to its lower bound" means
    x w <= rlo w, "to its upper bound" means rup w <= x w. *)
Definition obeys_recorded (types : list nat) (acc : list call) (rlo rup x : nat -> Q) : Prop :=
  (forall v, nth_error types v = Some 1%nat -> x v == 0 \/ x v == 1) /\
  (forall c, In c acc -> nth_error types (c_var c) = Some 1%nat ->
     x (c_var c) == (if c_up c then 1 else 0) ->
     if c_lower c then x (c_fix c) <= rlo (c_fix c) else rup (c_fix c) <= x (c_fix c)).

(** What one table entry says at x. *)
Definition entry_says (intvar : list nat) (rlo rup : nat -> Q) (e : Z) (x : nat -> Q) : Prop :=
  forall w, (if (sequenceInCliqueEntry e <? Z.of_nat (length intvar))%Z
             then nth_error intvar (Z.to_nat (sequenceInCliqueEntry e)) = Some w
             else w = Z.to_nat (sequenceInCliqueEntry e - Z.of_nat (length intvar))) ->
    if oneFixesInCliqueEntry e then rup w <= x w else x w <= rlo w.

Definition fresh_ok (cs : list rowcut) (x : nat -> Q) (cs' : list rowcut) : Prop :=
  forall c, In c cs' -> In c cs \/ rowcut_sat c x.

Lemma put_if_ok req v c cs x cs0 : fresh_ok cs0 x cs -> rowcut_sat c x -> fresh_ok cs0 x (put_if req v c cs).
Proof.
  intros H S d Hd. unfold put_if in Hd. destruct (req <? v); [|auto].
  apply insert_new_in in Hd as [Hd| ->]; auto.
Qed.

Section entries.
  Variable intvar : list nat.
  Variables req : Q.
  Variables sol lower upper rlo rup x : nat -> Q.
  Hypothesis Hx01 : forall k, In k intvar -> x k == 0 \/ x k == 1.
  Hypothesis Hr01 : forall k, In k intvar -> rlo k == 0 /\ rup k == 1.
  Hypothesis Hcur : forall k, lower k <= x k <= upper k.
  Hypothesis Hrec : forall k, rlo k <= lower k /\ upper k <= rup k.

  Lemma zero_cut_ok i cs0 cs e cs' : In i intvar ->
    (x i == 0 -> entry_says intvar rlo rup e x) ->
    fresh_ok cs0 x cs -> zero_cut req intvar sol lower upper i cs e = Done cs' -> fresh_ok cs0 x cs'.
  Proof.
    intros Hi He Hcs E. unfold zero_cut in E. cbv zeta in E. unfold entry_says in He.
    destruct (Z.ltb_spec (sequenceInCliqueEntry e) (Z.of_nat (length intvar))) as [Hs|Hs].
    - destruct (nth_error intvar (Z.to_nat (sequenceInCliqueEntry e))) as [j|] eqn:Ej; [|discriminate].
      apply Done_inj in E. subst cs'. pose proof (nth_error_In _ _ Ej) as Hj.
      destruct (Hx01 i Hi) as [X0|X1].
      + specialize (He X0 j eq_refl). destruct (Hr01 j Hj).
        destruct (oneFixesInCliqueEntry e); apply put_if_ok; auto; split; cbn; auto; lra.
      + destruct (Hx01 j Hj); destruct (oneFixesInCliqueEntry e); apply put_if_ok; auto; split; cbn; auto; lra.
    - apply Done_inj in E. subst cs'. set (j := Z.to_nat _) in *.
      pose proof (Hcur j) as Hj. pose proof (Hrec j) as Hr.
      destruct (Hx01 i Hi) as [X0|X1].
      + specialize (He X0 j eq_refl).
        destruct (oneFixesInCliqueEntry e); apply put_if_ok; auto; split; cbn; auto; rewrite X0; lra.
      + destruct (oneFixesInCliqueEntry e); apply put_if_ok; auto; split; cbn; auto; rewrite X1; lra.
  Qed.
  Lemma one_cut_ok i cs0 cs e cs' : In i intvar ->
    (x i == 1 -> entry_says intvar rlo rup e x) ->
    fresh_ok cs0 x cs -> one_cut req intvar sol lower upper i cs e = Done cs' -> fresh_ok cs0 x cs'.
  Proof.
    intros Hi He Hcs E. unfold one_cut in E. cbv zeta in E. unfold entry_says in He.
    destruct (Z.ltb_spec (sequenceInCliqueEntry e) (Z.of_nat (length intvar))) as [Hs|Hs].
    - destruct (nth_error intvar (Z.to_nat (sequenceInCliqueEntry e))) as [j|] eqn:Ej; [|discriminate].
      apply Done_inj in E. subst cs'. pose proof (nth_error_In _ _ Ej) as Hj.
      destruct (Hx01 i Hi) as [X0|X1].
      + destruct (Hx01 j Hj); destruct (oneFixesInCliqueEntry e); apply put_if_ok; auto; split; cbn; auto; lra.
      + specialize (He X1 j eq_refl). destruct (Hr01 j Hj).
        destruct (oneFixesInCliqueEntry e); apply put_if_ok; auto; split; cbn; auto; lra.
    - apply Done_inj in E. subst cs'. set (j := Z.to_nat _) in *.
      pose proof (Hcur j) as Hj. pose proof (Hrec j) as Hr.
      destruct (Hx01 i Hi) as [X0|X1].
      + destruct (oneFixesInCliqueEntry e); apply put_if_ok; auto; split; cbn; auto; rewrite X0; lra.
      + specialize (He X1 j eq_refl).
        destruct (oneFixesInCliqueEntry e); apply put_if_ok; auto; split; cbn; auto; rewrite X1; lra.
  Qed.
End entries.

Lemma zero_cut_defined req iv sol lo up i cs e : exists cs', zero_cut req iv sol lo up i cs e = Done cs'.
Proof.
  unfold zero_cut. cbv zeta. destruct (Z.ltb_spec (sequenceInCliqueEntry e) (Z.of_nat (length iv))); [|eauto].
  destruct (nth_error iv _) eqn:E; [eauto|]. apply nth_error_None in E.
  assert (0 <= sequenceInCliqueEntry e)%Z by (rewrite seq_mod; apply Z.mod_pos_bound; reflexivity). lia.
Qed.
Lemma one_cut_defined req iv sol lo up i cs e : exists cs', one_cut req iv sol lo up i cs e = Done cs'.
Proof.
  unfold one_cut. cbv zeta. destruct (Z.ltb_spec (sequenceInCliqueEntry e) (Z.of_nat (length iv))); [|eauto].
  destruct (nth_error iv _) eqn:E; [eauto|]. apply nth_error_None in E.
  assert (0 <= sequenceInCliqueEntry e)%Z by (rewrite seq_mod; apply Z.mod_pos_bound; reflexivity). lia.
Qed.
Lemma ofold_defined {A S} (f : S -> A -> outcome S) l : (forall s a, exists s', f s a = Done s') ->
  forall s, exists s', ofold f l s = Done s'.
Proof.
  intro H. induction l as [|a l IH]; intro s; simpl; [eauto|].
  destruct (H s a) as [s1 ->]. simpl. apply IH.
Qed.

(** Every cut a pool with probing information adds beyond the stored ones is
    satisfied by every point that obeys the recorded implications and lies in
    the current bounds, whatever the history of recording; the call always
    returns. *)
Theorem C04_implication_cuts_are_implied :
  forall (types : list nat) (calls : list call) (p0 : pinfo) (s : stored)
         (rlo rup sol lower upper : nat -> Q) (cs : list rowcut),
    (Z.of_nat (length types) < 2 ^ 30)%Z ->
    initializeFixing pinfo_default types = (1%Z, p0) ->
    (forall c, In c calls -> (c_var c < length types)%nat /\ (c_fix c < length types)%nat) ->
    (forall k, nth_error types k = Some 1%nat -> rlo k == 0 /\ rup k == 1) ->
    (forall k, rlo k <= lower k /\ upper k <= rup k) ->
    exists p1 accepted cs' s',
      run_calls p0 calls = Done (p1, accepted) /\
      st_generateCuts (setProbingInfo s p1) sol lower upper cs = Done (cs', s') /\
      forall x, obeys_recorded types accepted rlo rup x -> (forall k, lower k <= x k <= upper k) ->
        forall c, In c cs' -> In c cs \/ In c (sd_cuts s) \/ rowcut_sat c x.
Proof.
  intros types calls s0 s rlo rup sol lower upper cs Hlen Hinit Hc Hr01 Hrec.
  destruct (init_wf types s0 Hlen Hinit) as (W & Hn0 & Hcoll0 & Ht0 & Hbl & Hnv & I1 & I1' & I2).
  destruct (run_calls_spec calls s0 W) as (s1 & acc & E & F & Hn1 & Ec & Hincl).
  { lia. } { rewrite Hbl. exact Hc. }
  pose proof (wf_frame _ _ F W) as W1.
  assert (Hbs : pi_back s1 = pi_back s0) by (apply F).
  assert (Hiv : pi_intvar s1 = pi_intvar s0) by (apply F).
  assert (Ec1 : pi_coll s1 = enc_list s1 acc).
  { rewrite Ec, Hcoll0. cbn. unfold enc_list. apply flat_map_ext. intro a. rewrite (encode_frame _ _ a F). reflexivity. }
  destruct (listed_spec s1 acc W1 Hn1 Ec1) as (t & T1 & T2 & T3 & T4 & T5 & T6 & T7 & T8).
  assert (Hdef : exists cs2, ofold (implied_step (sd_req s) (pi_intvar (convert s1)) t sol lower upper)
             (combine (seq 0 (length (pi_intvar (convert s1)))) (pi_intvar (convert s1)))
             (stored_part (setProbingInfo s s1) sol cs) = Done cs2).
  { apply ofold_defined. intros cs1 [i j]. unfold implied_step. destruct (Qeq_bool _ _); [eauto|].
    destruct (ofold_defined (zero_cut (sd_req s) (pi_intvar (convert s1)) sol lower upper j) (zero_entries t i)
      (fun a b => zero_cut_defined _ _ _ _ _ _ a b) cs1) as [c1 ->]. cbn [bind].
    apply ofold_defined. intros; apply one_cut_defined. }
  destruct Hdef as [cs2 Hdef].
  exists s1, acc, cs2, (Stored (sd_req s) (Some (convert s1)) (sd_cuts s)).
  split; [exact E|]. split.
  { unfold st_generateCuts. cbn [sd_pi setProbingInfo]. cbv zeta. rewrite T1. cbn [sd_req setProbingInfo sd_cuts].
    rewrite Hdef. reflexivity. }
  intros x (Hx01 & Hximp) Hcur.
  assert (Hty : forall k, In k (pi_intvar s1) -> nth_error types k = Some 1%nat).
  { intros k Hk. apply In_nth_error in Hk as [i Hi]. rewrite Hiv in Hi. apply I2 in Hi. apply (I1 _ _ Hi). lia. }
  assert (K : fresh_ok (stored_part (setProbingInfo s s1) sol cs) x cs2).
  { eapply (ofold_inv (fresh_ok (stored_part (setProbingInfo s s1) sol cs) x)); [| |exact Hdef].
    2:{ intros c Hcc. left. exact Hcc. }
    intros ca [j i] cb Hin Hca Hst. rewrite T2 in Hin, Hst.
    pose proof (combine_seq_nth0 (pi_intvar s1) (j, i) Hin) as Hnth. cbn [fst snd] in Hnth.
    assert (Hjl : (j < length (pi_intvar s1))%nat) by (apply nth_error_Some; congruence).
    assert (Hii : In i (pi_intvar s1)) by (eapply nth_error_In; eauto).
    assert (Hent : forall (up : bool) e, In e (if up then one_entries t j else zero_entries t j) ->
       x i == (if up then 1 else 0) -> entry_says (pi_intvar s1) rlo rup e x).
    { intros up e He Hxi w Hw. destruct (T8 j up Hjl) as (A & _ & _).
      destruct (A e He) as (_ & c & Hcin & Hup & Hv & Hen).
      destruct (encode_decode s1 c _ W1 Hen) as (v' & f & Hv' & Hf & Hv0 & _ & Hseq & Hone & _).
      cbn [snd] in Hseq, Hone. rewrite Hbs in Hv, Hf.
      destruct (I1 _ _ Hv (Nat2Z.is_nonneg j)) as [Hty1 Hiv1]. rewrite Nat2Z.id in Hiv1.
      assert (Hci : c_var c = i) by (rewrite Hiv in Hnth; congruence).
      assert (Hcw : c_fix c = w).
      { rewrite Hseq in Hw. fold (pi_nint s1) in Hw. destruct (Z.ltb_spec f 0) as [Hneg|Hpos].
        - destruct (Z.ltb_spec (pi_nint s1 + Z.of_nat (c_fix c)) (pi_nint s1)); lia.
        - destruct (I1 _ _ Hf Hpos) as [_ K]. destruct W as (Wa & _). specialize (Wa _ _ Hf).
          assert (Hnn : pi_nint s1 = pi_nint s0) by (unfold pi_nint; rewrite Hiv; reflexivity).
          destruct (Z.ltb_spec f (pi_nint s1)); [|lia]. rewrite Hiv in Hw. congruence. }
      specialize (Hximp c Hcin Hty1). rewrite Hci, Hcw, Hup in Hximp.
      specialize (Hximp Hxi). rewrite Hone. destruct (c_lower c); exact Hximp. }
    unfold implied_step in Hst. destruct (Qeq_bool _ _); [apply Done_inj in Hst; subst; exact Hca|].
    apply bind_done in Hst as (c1 & S1 & S2).
    assert (Hc1 : fresh_ok (stored_part (setProbingInfo s s1) sol cs) x c1).
    { eapply (ofold_inv (fresh_ok _ x)); [| |exact S1]; [|exact Hca].
      intros sa e sb He Hsa Hsb. eapply zero_cut_ok; eauto using (Hent false e He). }
    eapply (ofold_inv (fresh_ok _ x)); [| |exact S2]; [|exact Hc1].
    intros sa e sb He Hsa Hsb. eapply one_cut_ok; eauto using (Hent true e He). }
  intros c Hcin. destruct (K c Hcin) as [Hold|Hs]; [|auto].
  rewrite stored_part_filter in Hold. apply in_app_or in Hold as [Hold|Hold]; [auto|].
  apply filter_In in Hold as [Hold _]. right. left. exact Hold.
Qed.
Print Assumptions C04_implication_cuts_are_implied.

(** Two binaries (columns 0, 1) and a continuous column 2 in [0, 10]:
    "column 0 to 1 puts column 2 at 10" and "column 0 to 0 puts column 1 at 1". *)
Example C04_example :
  exists p0 p1 c1 c2 s',
    initializeFixing pinfo_default [1; 1; 0]%nat = (1%Z, p0) /\
    run_calls p0 [Call 0 true 2 false; Call 0 false 1 false] = Done (p1, [Call 0 true 2 false; Call 0 false 1 false]) /\
    st_generateCuts (setProbingInfo stored_new p1) (fun k => if Nat.eqb k 2 then 1 else 1#4)
      (fun _ => 0) (fun k => if Nat.eqb k 2 then 10 else 1) [] = Done ([c1; c2], s') /\
    rc_form c1 = [(0%nat, 1); (1%nat, 1)] /\ rc_lb c1 = Some 1 /\
    rc_form c2 = [(0%nat, 10); (2%nat, -1)] /\ rc_ub c2 = Some 0.
Proof. eexists _, _, _, _, _. conjs; veq. Qed.

(** The current bounds must be at least as tight as when recording: with a
    wider current range the emitted cut can remove an implied point. *)
Theorem C04_with_looser_bounds_refuted :
  exists types calls p0 p1 sol lower upper c s' x,
    initializeFixing pinfo_default types = (1%Z, p0) /\
    run_calls p0 calls = Done (p1, calls) /\
    obeys_recorded types calls (fun _ => 0) (fun k => if Nat.eqb k 1 then 5 else 1) x /\
    (forall k, lower k <= x k <= upper k) /\
    st_generateCuts (setProbingInfo stored_new p1) sol lower upper [] = Done ([c], s') /\
    ~ rowcut_sat c x.
Proof.
  exists [1; 0]%nat, [Call 0 true 1 false]. eexists _, _.
  exists (fun k => if Nat.eqb k 1 then 0 else 1), (fun _ => 0), (fun k => if Nat.eqb k 1 then 10 else 1).
  eexists _, _. exists (fun k => if Nat.eqb k 0 then 1 else if Nat.eqb k 1 then 5 else 0).
  conjs.
  - vm_compute. reflexivity.
  - vm_compute. reflexivity.
  - split.
    + intros [|[|v]] Hv; cbn in Hv; try discriminate; [right; reflexivity|]. destruct v; discriminate.
    + intros c [<-|[]] _ _. cbn. lra.
  - intros [|[|k]]; cbn; lra.
  - vm_compute. reflexivity.
  - intros [_ H]. vm_compute in H. apply H. reflexivity.
Qed.
Print Assumptions C04_with_looser_bounds_refuted.

(** ** C31: reading a pool from a file *)

Definition write_file (cuts : list (Z * rowcut)) : list token :=
  flat_map (fun p => [Count (fst p); Body (snd p)]) cuts ++ [Count (-1)].

Lemma read_complete debug cuts : forall fuel n buf acc,
  (forall p, In p cuts -> (0 <= fst p)%Z) -> (0 <= n)%Z -> (length cuts < fuel)%nat ->
  read_loop debug fuel (write_file cuts) n buf acc = Done (acc ++ map snd cuts).
Proof.
  induction cuts as [|[m c] cuts IH]; intros fuel n buf acc Hp Hn Hf.
  - destruct fuel; [lia|]. cbn. destruct (Z.ltb_spec n 0); [lia|]. rewrite app_nil_r. reflexivity.
  - destruct fuel; [cbn in Hf; lia|]. cbn. destruct (Z.ltb_spec n 0); [lia|].
    destruct (Z.ltb_spec m 0); [specialize (Hp _ (or_introl eq_refl)); cbn in Hp; lia|].
    specialize (IH fuel m c (acc ++ [c])). unfold write_file in IH. rewrite IH.
    + rewrite <- app_assoc. reflexivity.
    + intros; apply Hp; right; auto. + lia. + cbn in Hf. lia.
Qed.

(** A complete file (records, then a negative count) gives a pool with exactly
    the cuts of the file in order, in both build modes. *)
Theorem C31_complete_file_is_read_back :
  forall (debug : bool) (cuts : list (Z * rowcut)) (garbage : rowcut),
    (forall p, In p cuts -> (0 <= fst p)%Z) ->
    exists fuel, stored_from_file debug fuel (write_file cuts) garbage
                 = Done (Stored (1 # 100000) None (map snd cuts)).
Proof.
  intros debug cuts g H. exists (S (length cuts)). unfold stored_from_file.
  rewrite read_complete by (auto; lia). reflexivity.
Qed.
Print Assumptions C31_complete_file_is_read_back.
Example C31_example :
  stored_from_file false 5 (write_file [(1%Z, RowCut [(3%nat, 2)] None (Some 4))]) (RowCut [] None None)
  = Done (Stored (1 # 100000) None [RowCut [(3%nat, 2)] None (Some 4)]).
Proof. reflexivity. Qed.

(** A file without the final negative count (for example an empty or truncated
    one) is never finished in a release build: no amount of steps suffices. *)
Lemma read_empty_loops fuel : forall n buf acc, (0 <= n)%Z -> read_loop false fuel [] n buf acc = OutOfFuel.
Proof.
  induction fuel as [|fuel IH]; intros n buf acc Hn; [reflexivity|].
  cbn. destruct (Z.ltb_spec n 0); [lia|]. apply IH. exact Hn.
Qed.
Theorem C31_truncated_file_loops_refuted :
  forall (cuts : list (Z * rowcut)) (garbage : rowcut),
    (forall p, In p cuts -> (0 <= fst p)%Z) ->
    forall fuel, stored_from_file false fuel
      (flat_map (fun p => [Count (fst p); Body (snd p)]) cuts) garbage = OutOfFuel.
Proof.
  intros cuts g H fuel. unfold stored_from_file.
  assert (K : forall l fuel n buf acc, (forall p, In p l -> (0 <= fst p)%Z) -> (0 <= n)%Z ->
     read_loop false fuel (flat_map (fun p => [Count (fst p); Body (snd p)]) l) n buf acc = OutOfFuel).
  { induction l as [|[m c] l IH]; intros f n buf acc Hp Hn.
    - apply read_empty_loops. exact Hn.
    - destruct f; [reflexivity|]. cbn. destruct (Z.ltb_spec n 0); [lia|].
      destruct (Z.ltb_spec m 0); [specialize (Hp _ (or_introl eq_refl)); cbn in Hp; lia|].
      apply IH; [intros; apply Hp; right; auto|lia]. }
  rewrite K by (auto; lia). reflexivity.
Qed.
Print Assumptions C31_truncated_file_loops_refuted.
