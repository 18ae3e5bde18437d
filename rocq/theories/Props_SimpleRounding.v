(** * Properties of CglSimpleRounding (C01, C02)

    Statements use [Spec] plus the small data condition [sr_exact_data]
    below. *)

From Verif Require Import Base Model_SimpleRounding Proofs_SimpleRounding.
Local Open Scope Q_scope.

(** Data the tolerances of the generator read without error.
    [eps] is the generator's epsilon (1e-8):
    - a coefficient is 0 or larger than [eps] in absolute value;
    - an integer column whose bounds are closer than [eps] is really fixed;
    - whenever a coefficient of an integer column, times 10^p, is closer than
      eps * 1e-4 * 10^p to an integer, it is that integer. *)
Definition sr_exact_data (eps : Q) (m : mip) : Prop :=
  forall r j a, In r (m_rows m) -> In (j, a) (r_form r) ->
    (a == 0 \/ a < - eps \/ eps < a) /\
    (m_int m j = true ->
      (forall l h, m_clo m j = Some l -> m_chi m j = Some h -> h - l < eps -> l == h) /\
      (forall (p : nat) (z : Z), (p < 16)%nat ->
          - (eps * (1#10000) * inject_Z (10 ^ Z.of_nat p))
            < a * inject_Z (10 ^ Z.of_nat p) - inject_Z z
            < eps * (1#10000) * inject_Z (10 ^ Z.of_nat p) ->
          integral (a * inject_Z (10 ^ Z.of_nat p)))).

Lemma exact_clean eps m r : 0 < eps -> sr_exact_data eps m -> In r (m_rows m) -> clean_row eps m r.
Proof.
  intros He H Hr j a Ha. destruct (H r j a Hr Ha) as [H1 H2]. split; [split|].
  - exact H1.
  - intros Hm. exact (proj1 (H2 Hm)).
  - intros Hm p Hp Hnear. destruct (H2 Hm) as [_ H3].
    assert (Hin : integral (a * pow10 p)).
    { unfold near_int in Hnear. cbv zeta in Hnear.
      set (s := qabs a * pow10 p) in *.
      assert (exists z : Z, - (eps * (1#10000) * pow10 p) < s - inject_Z z < eps * (1#10000) * pow10 p) as [z Hz].
      { pose proof (frac_nonneg s). pose proof (frac_lt1 s). pose proof (pow10_pos p).
        assert (0 < eps * (1#10000) * pow10 p) by nra.
        apply orb_true_iff in Hnear as [Hn|Hn]; qb; unfold frac in *.
        - exists (Qfloor s). unfold qfloor in *. lra.
        - exists (Qfloor s + 1)%Z. rewrite inject_Z_plus. change (inject_Z 1) with 1. unfold qfloor in *. lra. }
      destruct (qabs_cases a) as [[Hn Hq]|[Hn Hq]].
      - apply (H3 p (-z)%Z Hp). rewrite inject_Z_opp. fold (pow10 p).
        unfold s in Hz. rewrite Hq in Hz. lra.
      - apply (H3 p z Hp). fold (pow10 p). unfold s in Hz. rewrite Hq in Hz. lra. }
    destruct (qabs_cases a) as [[Hn ->]|[Hn ->]]; [|exact Hin].
    eapply integral_eq; [|apply integral_opp; exact Hin]. ring.
Qed.

(** ** C01: every cut added keeps every feasible mixed-integer point. *)
Theorem C01_simple_rounding_valid :
  forall (m : mip) (cs cs' : list rowcut),
    wf_mip m -> sr_exact_data epsilon_ m ->
    generateCuts epsilon_ m cs = Done cs' ->
    forall c, In c cs' -> In c cs \/ keeps_all m c.
Proof.
  intros m cs cs' Hwf Hex E. unfold generateCuts in E.
  eapply (ofold_inv (fun l => forall c, In c l -> In c cs \/ keeps_all m c)); [| |exact E].
  2: auto.
  - intros s r s' Hr IH Es c Hc.
    apply bind_done in Es as (oc & Eo & Es). injection Es as <-.
    destruct oc as [c0|]; [|auto].
    destruct (insert_new_in _ _ _ Hc) as [Hin| ->]; [auto|].
    right. intros x (Hf1 & Hf2 & Hf3).
    eapply (process_row_valid epsilon_ m r); eauto; try reflexivity.
    apply exact_clean; auto. reflexivity.
Qed.
Print Assumptions C01_simple_rounding_valid.

(** C01, second half: on integer data that fits a C++ int the generator never
    reaches undefined behaviour, an abort or an endless loop, and keeps the
    cuts already in the collection. *)
Theorem C01_simple_rounding_total_on_integer_data :
  forall (m : mip) (cs : list rowcut),
    (forall r j a, In r (m_rows m) -> In (j, a) (r_form r) -> m_int m j = true ->
       exists z : Z, a == inject_Z z /\ (z <> 0 /\ -2147483647 <= z <= 2147483647)%Z) ->
    exists cs', generateCuts epsilon_ m cs = Done cs' /\ incl cs cs'.
Proof.
  intros m cs H. unfold generateCuts. generalize dependent cs.
  assert (K : forall r, In r (m_rows m) -> exists oc, process_row epsilon_ m r = Done oc).
  { intros r Hr. apply process_row_defined; try reflexivity.
    intros j a Ha Hm. destruct (H r j a Hr Ha Hm) as (z & Hz & Hz0 & Hb).
    repeat split.
    - exists z; exact Hz.
    - rewrite Hz. unfold Qeq. simpl. lia.
    - destruct (qabs_cases a) as [[? ->]|[? ->]]; rewrite Hz.
      + rewrite <- inject_Z_opp. change 2147483647 with (inject_Z 2147483647).
        rewrite <- Zle_Qle. lia.
      + change 2147483647 with (inject_Z 2147483647). rewrite <- Zle_Qle. lia. }
  clear H. induction (m_rows m) as [|r rs IH]; intros cs.
  - exists cs. split; [reflexivity|apply incl_refl].
  - destruct (K r (or_introl eq_refl)) as [oc Ho]. simpl. rewrite Ho. simpl.
    destruct (IH (fun r Hr => K r (or_intror Hr))
                (match oc with Some c => insert_new cs c | None => cs end)) as (cs' & A & B).
    exists cs'. split; [exact A|]. intros c Hc. apply B.
    destruct oc; [apply insert_new_incl; exact Hc|exact Hc].
Qed.
Print Assumptions C01_simple_rounding_total_on_integer_data.

(** Non-vacuity: 2x + 2y + z <= 5, x,y integer in [0,10], z continuous in
    [1,4]; the generator derives x + y <= 2. *)
Definition ex_mip : mip :=
  Mip 3 [Row [(0%nat, 2); (1%nat, 2); (2%nat, 1)] None (Some 6)]
      (fun j => if Nat.eqb j 2 then Some 1 else Some 0)
      (fun j => if Nat.eqb j 2 then Some 4 else Some 10)
      (fun j => negb (Nat.eqb j 2)).
Example C01_example_cut :
  exists c, generateCuts epsilon_ ex_mip [] = Done [c] /\
    rc_form c = [(0%nat, 1); (1%nat, 1)] /\ rc_ub c = Some 2 /\ rc_lb c = None.
Proof. eexists. split; [vm_compute; reflexivity|]. repeat split. Qed.
Example C01_example_data : wf_mip ex_mip /\ sr_exact_data epsilon_ ex_mip.
Proof.
  split.
  - intros r [<-|[]]. split.
    + repeat constructor; simpl; intuition discriminate.
    + simpl. intros j a Hin. simpl. intuition (match goal with H : _ = _ |- _ => injection H as <- _ end; lia).
  - intros r j a [<-|[]] Hin. split.
    + simpl in Hin. destruct Hin as [H|[H|[H|[]]]]; injection H as _ <-;
      right; right; reflexivity.
    + intros Hm. split.
      * simpl in Hin. simpl. intros l h. 
        destruct (Nat.eqb j 2); intros Hl Hh; injection Hl as <-; injection Hh as <-;
          intro K; unfold epsilon_ in K; exfalso; lra.
      * intros p z _ _. apply integral_mult; [|apply integral_inject].
        simpl in Hin. destruct Hin as [H|[H|[H|[]]]]; injection H as _ <-;
        [exists 2%Z|exists 2%Z|exists 1%Z]; reflexivity.
Qed.
Example C01_example_feasible : feasible ex_mip (fun j => if Nat.eqb j 2 then 3#2 else 1).
Proof.
  split; [|split].
  - intros r [<-|[]]. split; [exact I|]. vm_compute. discriminate.
  - intros j Hj. simpl in Hj. simpl. destruct j as [|[|[|j]]]; try lia; simpl; split; lra.
  - intros j _ Hm. simpl in Hm. destruct (Nat.eqb j 2); [discriminate|]. apply integral_1.
Qed.

(** The proviso cannot be dropped: the row (1 - 5e-13) x <= 1e13 + 0.5 with
    x integer gives the cut x <= 1e13 although x = 1e13 + 1 is feasible. *)
Definition bad_mip : mip :=
  Mip 1 [Row [(0%nat, 1 - (5 # 10000000000000))] None (Some (10000000000000 + (1#2)))]
      (fun _ => Some 0) (fun _ => None) (fun _ => true).
Theorem C01_without_exact_data_refuted :
  exists (m : mip) (c : rowcut) (x : point),
    wf_mip m /\ generateCuts epsilon_ m [] = Done [c] /\ feasible m x /\ ~ rowcut_sat c x.
Proof.
  exists bad_mip. eexists. exists (fun _ => inject_Z 10000000000001).
  split; [|split; [vm_compute; reflexivity|split]].
  - intros r [<-|[]]. split.
    + simpl. repeat constructor; simpl; tauto.
    + simpl. intuition (match goal with H : _ = _ |- _ => injection H as <- _ end; lia).
  - split; [|split].
    + intros r [<-|[]]. split; [exact I|]. vm_compute. discriminate.
    + intros j _. split; [vm_compute; discriminate|exact I].
    + intros j _ _. apply integral_inject.
  - intros [_ H]. vm_compute in H. apply H. reflexivity.
Qed.
Print Assumptions C01_without_exact_data_refuted.

(** ** C02: the gcd helper *)

(** On positive integers it terminates with the greatest common divisor. *)
Theorem C02_gcdv_is_greatest_common_divisor :
  forall l : list Z, l <> [] -> (forall z, In z l -> (0 < z)%Z) ->
    exists g, gcdv l = Done g /\ (0 < g)%Z /\
      (forall z, In z l -> (g | z)%Z) /\
      (forall d, (forall z, In z l -> (d | z)%Z) -> (d <= g)%Z).
Proof.
  intros l Hne Hp. assert (Hp' : Forall (fun z => 0 < z)%Z l) by (apply Forall_forall; exact Hp).
  exists (gcd_list l). pose proof (gcd_list_pos l Hne Hp'). repeat split; auto.
  - apply gcdv_correct; auto.
  - apply gcd_list_divides.
  - intros d Hd. apply Z.divide_pos_le; auto. apply gcd_list_greatest; auto.
Qed.
Print Assumptions C02_gcdv_is_greatest_common_divisor.
Example C02_example : gcdv [12; 18; 30]%Z = Done 6%Z.
Proof. reflexivity. Qed.

(** Any list of two or more nonnegative entries containing a zero divides by
    zero. *)
Theorem C02_zero_entry_is_undefined :
  forall l : list Z, (2 <= length l)%nat -> (forall z, In z l -> (0 <= z)%Z) -> In 0%Z l ->
    gcdv l = Undef IntDivByZero.
Proof. intros l H1 H2 H3. apply gcdv_zero; auto. apply Forall_forall. exact H2. Qed.
Print Assumptions C02_zero_entry_is_undefined.

(** With a negative argument the recursion need not end: no amount of fuel is
    enough for gcd(-9,5). *)
Theorem C02_negative_argument_refuted :
  forall fuel, gcd_rec fuel (-9) 5 = OutOfFuel.
Proof. intro fuel. apply gcd_negative_loops. Qed.
Print Assumptions C02_negative_argument_refuted.

(** The undefined division is reachable from generateCuts: a row with an
    explicit zero coefficient. *)
Definition zero_mip : mip :=
  Mip 2 [Row [(0%nat, 0); (1%nat, 2)] None (Some 3)]
      (fun _ => Some 0) (fun _ => None) (fun _ => true).
Theorem C02_generator_reaches_undefined_refuted :
  exists m, wf_mip m /\ generateCuts epsilon_ m [] = Undef IntDivByZero.
Proof.
  exists zero_mip. split; [|vm_compute; reflexivity].
  intros r [<-|[]]. split.
  - simpl. repeat constructor; simpl; intuition discriminate.
  - simpl. intuition (match goal with H : _ = _ |- _ => injection H as <- _ end; lia).
Qed.
Print Assumptions C02_generator_reaches_undefined_refuted.

(** The emitted coefficients are integers without a common factor. *)
Theorem C02_emitted_cut_is_reduced :
  forall (m : mip) (cs' : list rowcut),
    sr_exact_data epsilon_ m ->
    generateCuts epsilon_ m [] = Done cs' ->
    forall c, In c cs' ->
      exists zs : list Z,
        Forall2 (fun (p : nat * Q) z => snd p == inject_Z z) (rc_form c) zs /\
        forall d, (forall z, In z zs -> (d | z)%Z) -> (d | 1)%Z.
Proof.
  intros m cs' Hex E. unfold generateCuts in E.
  eapply (ofold_inv (fun l => forall c, In c l -> exists zs : list Z,
        Forall2 (fun (p : nat * Q) z => snd p == inject_Z z) (rc_form c) zs /\
        forall d, (forall z, In z zs -> (d | z)%Z) -> (d | 1)%Z)); [| |exact E].
  2: intros c [].
  - intros s r s' Hr IH Es c Hc.
    apply bind_done in Es as (oc & Eo & Es). injection Es as <-.
    destruct oc as [c0|]; [|auto].
    destruct (insert_new_in _ _ _ Hc) as [Hin| ->]; [auto|].
    eapply (process_row_coprime epsilon_ m r); eauto; [reflexivity|].
    apply exact_clean; auto. reflexivity.
Qed.
Print Assumptions C02_emitted_cut_is_reduced.
