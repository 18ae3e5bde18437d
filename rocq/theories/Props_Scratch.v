(** * The scratch arrays of CglBKClique and CglOddWheel (C75) *)

From Verif Require Import Spec Base Model_Scratch.
From Coq Require Import Lia Arith.

(** A program that only names objects it has built and not yet destroyed;
    [alive] says which of the objects built so far are. *)
Fixpoint polite (os : list op) (alive : list bool) : Prop :=
  match os with
  | [] => True
  | ONew :: os' => polite os' (alive ++ [true])
  | OClone i :: os' => nth i alive false = true /\ polite os' (alive ++ [true])
  | OAssign i j :: os' => nth i alive false = true /\ nth j alive false = true /\ polite os' alive
  | OGenerate i _ :: os' => nth i alive false = true /\ polite os' alive
  | ODestroy i :: os' => nth i alive false = true /\ polite os' (set_nth alive i false)
  end.
(** Objects alive at the end. *)
Fixpoint alive_after (os : list op) (alive : list bool) : list bool :=
  match os with
  | [] => alive
  | ONew :: os' | OClone _ :: os' => alive_after os' (alive ++ [true])
  | ODestroy i :: os' => alive_after os' (set_nth alive i false)
  | _ :: os' => alive_after os' alive
  end.
Definition no_assign (o : op) : Prop := match o with OAssign _ _ => False | _ => True end.

Lemma set_nth_length {A} (l : list A) k a : List.length (set_nth l k a) = List.length l.
Proof. revert k. induction l as [|b l IH]; intros [|k]; cbn; congruence. Qed.
Lemma set_nth_same {A} (l : list A) k a : (k < List.length l)%nat -> nth_error (set_nth l k a) k = Some a.
Proof.
  revert k. induction l as [|b l IH]; intros [|k] H; cbn in *; try lia; [reflexivity|]. apply IH. lia.
Qed.
Lemma set_nth_other {A} (l : list A) k a i : i <> k -> nth_error (set_nth l k a) i = nth_error l i.
Proof.
  revert k i. induction l as [|b l IH]; intros [|k] [|i] H; cbn in *; try reflexivity; try lia. apply IH. lia.
Qed.

Definition inv (w : world) : Prop :=
  (forall i s p, nth_error (m_objs w) i = Some (Some s) -> s_ptr s = Some p -> In p (m_live w)) /\
  (forall i j s t p, nth_error (m_objs w) i = Some (Some s) -> nth_error (m_objs w) j = Some (Some t) ->
     s_ptr s = Some p -> s_ptr t = Some p -> i = j) /\
  (forall p, In p (m_live w) -> exists i s, nth_error (m_objs w) i = Some (Some s) /\ s_ptr s = Some p) /\
  (forall p, In p (m_live w) -> (p < m_next w)%nat) /\
  (forall i s, nth_error (m_objs w) i = Some (Some s) -> (s_cap s = 0%nat <-> s_ptr s = None)).
Definition matches (w : world) (alive : list bool) : Prop :=
  map (fun o => match o with Some _ => true | None => false end) (m_objs w) = alive.

Lemma inv_w0 : inv w0.
Proof.
  unfold inv, w0. cbn. conjs; try solve [intros p []]; intros [|i]; cbn; intros; discriminate.
Qed.

Lemma matches_at w alive i : matches w alive -> nth i alive false = true ->
  exists s, nth_error (m_objs w) i = Some (Some s).
Proof.
  unfold matches. intros <- H. revert i H. induction (m_objs w) as [|[s|] l IH]; intros [|i] H; cbn in *; try discriminate.
  - exists s. reflexivity. - apply IH. exact H. - apply IH. exact H.
Qed.
Lemma map_set_nth {A B} (f : A -> B) l k a : map f (set_nth l k a) = set_nth (map f l) k (f a).
Proof. revert k. induction l as [|b l IH]; intros [|k]; cbn; congruence. Qed.
Lemma set_nth_noop (l : list bool) k : nth k l false = true -> set_nth l k true = l.
Proof. revert k. induction l as [|b l IH]; intros [|k] H; cbn in *; try congruence. rewrite IH by exact H. reflexivity. Qed.
Lemma nth_len {A} (l : list A) i a : nth_error l i = Some a -> (i < List.length l)%nat.
Proof. intros H. apply nth_error_Some. congruence. Qed.

Lemma at_app {A} (l : list A) a i b : nth_error (l ++ [a]) i = Some b ->
  nth_error l i = Some b \/ (i = List.length l /\ b = a).
Proof.
  intros H. destruct (Nat.lt_ge_cases i (List.length l)) as [G|G].
  - left. rewrite nth_error_app1 in H by exact G. exact H.
  - right. rewrite nth_error_app2 in H by exact G. destruct (i - List.length l)%nat as [|k] eqn:E; cbn in H.
    + split; [lia|congruence]. + destruct k; discriminate.
Qed.

(** A new object with arrays of its own, or with none. *)
Lemma inv_new_none w : inv w -> inv (with_objs w (m_objs w ++ [Some (SObj 0 None)])).
Proof.
  intros (A & B & C & D & E). unfold inv. cbn [with_objs m_objs m_live m_next]. conjs.
  - intros i s p H P. apply at_app in H. destruct H as [H|[_ H]]; [apply (A i s p H P)|].
    inversion H; subst. discriminate.
  - intros i j s t p H K P Q. apply at_app in H. apply at_app in K.
    destruct H as [H|[_ H]]; [|inversion H; subst; discriminate].
    destruct K as [K|[_ K]]; [|inversion K; subst; discriminate]. apply (B i j s t p H K P Q).
  - intros p P. destruct (C p P) as (i & s & S1 & S2). exists i, s. split; [|exact S2].
    rewrite nth_error_app1; [exact S1|apply nth_len in S1; exact S1].
  - exact D.
  - intros i s H. apply at_app in H. destruct H as [H|[_ H]]; [apply (E i s H)|]. inversion H; subst. cbn. tauto.
Qed.
Lemma inv_new_some w c : inv w -> c <> 0%nat ->
  inv (World (m_next w :: m_live w) (S (m_next w)) (m_objs w ++ [Some (SObj c (Some (m_next w)))])).
Proof.
  intros (A & B & C & D & E) NZ. unfold inv. cbn [m_objs m_live m_next]. conjs.
  - intros i s p H P. apply at_app in H. destruct H as [H|[_ H]]; [right; apply (A i s p H P)|].
    inversion H; subst. cbn in P. inversion P. left. reflexivity.
  - intros i j s t p H K P Q. apply at_app in H. apply at_app in K.
    destruct H as [H|[I1 H]], K as [K|[I2 K]].
    + apply (B i j s t p H K P Q).
    + exfalso. inversion K; subst. cbn in Q. inversion Q; subst. pose proof (D _ (A i s _ H P)). lia.
    + exfalso. inversion H; subst. cbn in P. inversion P; subst. pose proof (D _ (A j t _ K Q)). lia.
    + congruence.
  - intros p [<-|P].
    + exists (List.length (m_objs w)). eexists. rewrite nth_error_app2, Nat.sub_diag by lia. split; reflexivity.
    + destruct (C p P) as (i & s & S1 & S2). exists i, s. split; [|exact S2].
      rewrite nth_error_app1; [exact S1|apply nth_len in S1; exact S1].
  - intros p [<-|P]; [lia|]. pose proof (D p P). lia.
  - intros i s H. apply at_app in H. destruct H as [H|[_ H]]; [apply (E i s H)|]. inversion H; subst. cbn.
    split; [contradiction|discriminate].
Qed.

(** Giving object [i] a fresh family, its old one being gone. *)
Definition freed (s : sobj) (live : list nat) : list nat :=
  match s_ptr s with Some p => filter (fun q => negb (q =? p)%nat) live | None => live end.
Lemma freed_in s live q : In q (freed s live) <-> In q live /\ s_ptr s <> Some q.
Proof.
  unfold freed. destruct (s_ptr s) as [p|]; [|split; [intros H; split; [exact H|discriminate]|tauto]].
  rewrite filter_In. destruct (Nat.eqb_spec q p) as [->|N]; cbn [negb].
  - split; intros [H K]; [discriminate|exfalso; apply K; reflexivity].
  - split; intros [H _]; (split; [exact H|]); [congruence|reflexivity].
Qed.
Lemma release_ok w i s p : inv w -> nth_error (m_objs w) i = Some (Some s) -> s_ptr s = Some p ->
  release p w = Done (World (freed s (m_live w)) (m_next w) (m_objs w)).
Proof.
  intros (A & _) H P. unfold release. assert (X : existsb (Nat.eqb p) (m_live w) = true).
  { apply existsb_exists. exists p. split; [apply (A i s p H P)|apply Nat.eqb_refl]. }
  rewrite X. unfold freed. rewrite P. reflexivity.
Qed.
Lemma release_opt w i s : inv w -> nth_error (m_objs w) i = Some (Some s) ->
  (match s_ptr s with Some p => release p w | None => Done w end) =
  Done (World (freed s (m_live w)) (m_next w) (m_objs w)).
Proof.
  intros I0 H. destruct (s_ptr s) as [p|] eqn:P; [apply (release_ok w i s p I0 H P)|].
  unfold freed. rewrite P. destruct w; reflexivity.
Qed.

Lemma inv_regrow w i s n : inv w -> nth_error (m_objs w) i = Some (Some s) -> n <> 0%nat ->
  inv (World (m_next w :: freed s (m_live w)) (S (m_next w))
         (set_nth (m_objs w) i (Some (SObj n (Some (m_next w)))))).
Proof.
  intros (A & B & C & D & E) H NZ. assert (IL := nth_len _ _ _ H). unfold inv. cbn [m_objs m_live m_next]. conjs.
  - intros j t p K P. destruct (Nat.eq_dec j i) as [->|N].
    + rewrite set_nth_same in K by exact IL. inversion K; subst. cbn in P. inversion P. left. reflexivity.
    + rewrite set_nth_other in K by exact N. right. apply freed_in. split; [apply (A j t p K P)|].
      intros Q. apply N. apply (B j i t s p K H P Q).
  - intros j k t u p K L P Q. destruct (Nat.eq_dec j i) as [->|N], (Nat.eq_dec k i) as [->|M]; [reflexivity| | |].
    + rewrite set_nth_same in K by exact IL. rewrite set_nth_other in L by exact M.
      inversion K; subst. cbn in P. inversion P; subst. exfalso. pose proof (D _ (A k u _ L Q)). lia.
    + rewrite set_nth_same in L by exact IL. rewrite set_nth_other in K by exact N.
      inversion L; subst. cbn in Q. inversion Q; subst. exfalso. pose proof (D _ (A j t _ K P)). lia.
    + rewrite set_nth_other in K by exact N. rewrite set_nth_other in L by exact M. apply (B j k t u p K L P Q).
  - intros p [<-|P].
    + exists i. eexists. rewrite set_nth_same by exact IL. split; reflexivity.
    + apply freed_in in P. destruct P as [P PN]. destruct (C p P) as (j & t & T1 & T2). exists j, t.
      split; [|exact T2]. rewrite set_nth_other; [exact T1|]. intros ->. rewrite H in T1. inversion T1; subst. contradiction.
  - intros p [<-|P]; [lia|]. apply freed_in in P. destruct P as [P _]. pose proof (D p P). lia.
  - intros j t K. destruct (Nat.eq_dec j i) as [->|N].
    + rewrite set_nth_same in K by exact IL. inversion K; subst. cbn. split; [contradiction|discriminate].
    + rewrite set_nth_other in K by exact N. apply (E j t K).
Qed.
Lemma inv_drop w i s : inv w -> nth_error (m_objs w) i = Some (Some s) ->
  inv (World (freed s (m_live w)) (m_next w) (set_nth (m_objs w) i None)).
Proof.
  intros (A & B & C & D & E) H. assert (IL := nth_len _ _ _ H). unfold inv. cbn [m_objs m_live m_next].
  assert (OT : forall j t, nth_error (set_nth (m_objs w) i None) j = Some (Some t) ->
             j <> i /\ nth_error (m_objs w) j = Some (Some t)).
  { intros j t K. destruct (Nat.eq_dec j i) as [->|N].
    - rewrite set_nth_same in K by exact IL. discriminate.
    - rewrite set_nth_other in K by exact N. split; assumption. }
  conjs.
  - intros j t p K P. apply OT in K. destruct K as [N K]. apply freed_in. split; [apply (A j t p K P)|].
    intros Q. apply N. apply (B j i t s p K H P Q).
  - intros j k t u p K L P Q. apply OT in K. apply OT in L. apply (B j k t u p); tauto.
  - intros p P. apply freed_in in P. destruct P as [P PN]. destruct (C p P) as (j & t & T1 & T2). exists j, t.
    split; [|exact T2]. rewrite set_nth_other; [exact T1|]. intros ->. rewrite H in T1. inversion T1; subst. contradiction.
  - intros p P. apply freed_in in P. apply (D p). tauto.
  - intros j t K. apply OT in K. apply (E j t). tauto.
Qed.

Lemma step_ok w alive o : inv w -> matches w alive -> no_assign o -> polite [o] alive ->
  exists w', step w o = Done w' /\ inv w' /\ matches w' (alive_after [o] alive).
Proof.
  intros J M NA P. pose proof J as J0. destruct J0 as (_ & _ & _ & _ & E).
  destruct o as [|i|i j|i n|i]; cbn [step]; [| |destruct NA| |].
  - eexists. conjs; [reflexivity|apply inv_new_none; exact J|].
    cbn [alive_after]. unfold matches in *. cbn [with_objs m_objs]. rewrite map_app, M. reflexivity.
  - destruct P as [P _]. destruct (matches_at w alive i M P) as (s & H). unfold obj_at. rewrite H. cbn [bind].
    destruct (Nat.ltb_spec 0 (s_cap s)) as [G|G].
    + eexists. cbn [acquire]. conjs; [reflexivity|apply (inv_new_some w (s_cap s) J); lia|].
      cbn [alive_after]. unfold matches in *. cbn [with_objs m_objs]. rewrite map_app, M. reflexivity.
    + replace (s_cap s) with 0%nat by lia. eexists. conjs; [reflexivity|apply inv_new_none; exact J|].
      cbn [alive_after]. unfold matches in *. cbn [with_objs m_objs]. rewrite map_app, M. reflexivity.
  - destruct P as [P _]. destruct (matches_at w alive i M P) as (s & H). unfold obj_at. rewrite H. cbn [bind].
    cbn [alive_after]. destruct (Nat.eqb_spec n 0) as [Z|Z].
    { exists w. conjs; [reflexivity|exact J|exact M]. }
    unfold checkMemory. destruct (Nat.ltb_spec (s_cap s) n) as [G|G].
    + assert (X : (if (0 <? s_cap s)%nat then match s_ptr s with Some p => release p w | None => Done w end else Done w) =
                  Done (World (freed s (m_live w)) (m_next w) (m_objs w))).
      { destruct (Nat.ltb_spec 0 (s_cap s)); [apply (release_opt w i s J H)|].
        unfold freed. rewrite (proj1 (E i s H)) by lia. destruct w; reflexivity. }
      rewrite X. cbn [bind acquire m_next m_live m_objs]. cbn [bind s_ptr existsb]. rewrite Nat.eqb_refl. cbn [orb].
      eexists. conjs; [reflexivity|apply (inv_regrow w i s n J H Z)|].
      unfold matches in *. cbn [with_objs m_objs]. rewrite map_set_nth, M. apply set_nth_noop. exact P.
    + cbn [bind]. destruct (s_ptr s) as [p|] eqn:PT.
      2: { exfalso. pose proof (proj2 (E i s H) PT). lia. }
      assert (X : existsb (Nat.eqb p) (m_live w) = true).
      { apply existsb_exists. exists p. split; [apply (proj1 J i s p H PT)|apply Nat.eqb_refl]. }
      rewrite X. exists w. assert (ID : set_nth (m_objs w) i (Some s) = m_objs w).
      { clear - H. revert i H. induction (m_objs w) as [|b l IH]; intros [|i] H; cbn in *; try discriminate.
        - inversion H. reflexivity. - rewrite IH by exact H. reflexivity. }
      rewrite ID. conjs; [destruct w; reflexivity|exact J|exact M].
  - destruct P as [P _]. destruct (matches_at w alive i M P) as (s & H). unfold obj_at. rewrite H. cbn [bind].
    rewrite (release_opt w i s J H). cbn [bind]. eexists. conjs; [reflexivity|apply (inv_drop w i s J H)|].
    cbn [alive_after]. unfold matches in *. cbn [with_objs m_objs]. rewrite map_set_nth, M. reflexivity.
Qed.

Lemma polite_cons o os alive : polite (o :: os) alive -> polite [o] alive /\ polite os (alive_after [o] alive).
Proof. destruct o; cbn; tauto. Qed.
Lemma alive_cons o os alive : alive_after (o :: os) alive = alive_after os (alive_after [o] alive).
Proof. destruct o; reflexivity. Qed.

Lemma run_ok os : forall w alive, inv w -> matches w alive -> Forall no_assign os -> polite os alive ->
  exists w', run os w = Done w' /\ inv w' /\ matches w' (alive_after os alive).
Proof.
  induction os as [|o os IH]; intros w alive J M NA P.
  - exists w. conjs; [reflexivity|exact J|exact M].
  - inversion NA as [|? ? N1 N2]; subst. destruct (polite_cons o os alive P) as [P1 P2].
    destruct (step_ok w alive o J M N1 P1) as (w1 & E1 & J1 & M1).
    destruct (IH w1 _ J1 M1 N2 P2) as (w2 & E2 & J2 & M2).
    exists w2. rewrite alive_cons. conjs; [|exact J2|exact M2].
    unfold run in *. cbn [ofold]. rewrite E1. exact E2.
Qed.

(** Building, cloning, generating on problems of any sizes and destroying, in
    any order: nothing is released twice, used after its release or read
    through a null pointer, and when every object has been destroyed nothing
    is left allocated. *)
Theorem C75_scratch_safe : forall os, Forall no_assign os -> polite os [] ->
  exists w, run os w0 = Done w /\
    (Forall (fun a => a = false) (alive_after os []) -> m_live w = []).
Proof.
  intros os NA P. destruct (run_ok os w0 [] inv_w0 eq_refl NA P) as (w & E & J & M).
  exists w. split; [exact E|]. intros F. destruct J as (_ & _ & C & _).
  destruct (m_live w) as [|p l]; [reflexivity|]. exfalso.
  destruct (C p (or_introl eq_refl)) as (i & s & S1 & _). unfold matches in M. rewrite <- M in F.
  apply nth_error_In in S1. rewrite Forall_forall in F.
  assert (X := F true). discriminate X. apply in_map_iff. exists (Some s). split; [reflexivity|exact S1].
Qed.
Print Assumptions C75_scratch_safe.

(** With assignment allowed the statement fails: two objects then own the
    same arrays, and destroying both releases them twice; growing one leaves
    the other with arrays that are gone. *)
Theorem C75_assignment_refuted :
  (exists os, polite os [] /\ run os w0 = Undef DoubleFree) /\
  (exists os, polite os [] /\ run os w0 = Undef UseAfterFree) /\
  (exists os w, polite os [] /\ run os w0 = Done w /\ Forall (fun a => a = false) (alive_after os []) /\ m_live w <> []).
Proof.
  conjs.
  - exists [ONew; ONew; OGenerate 0 3; OAssign 1 0; ODestroy 0; ODestroy 1]. split; [cbn; tauto|reflexivity].
  - exists [ONew; ONew; OGenerate 0 3; OAssign 1 0; OGenerate 0 5; OGenerate 1 3]. split; [cbn; tauto|reflexivity].
  - exists [ONew; ONew; OGenerate 1 3; OAssign 1 0; ODestroy 0; ODestroy 1]. eexists.
    conjs; [cbn; tauto|reflexivity|cbn; repeat constructor|discriminate].
Qed.
Print Assumptions C75_assignment_refuted.

(** A program that meets the hypotheses: a generator is used on problems of
    three sizes and cloned in between. *)
Example C75_case : exists os w, Forall no_assign os /\ polite os [] /\ run os w0 = Done w /\
  Forall (fun a => a = false) (alive_after os []) /\ m_next w = 4%nat.
Proof.
  exists [ONew; OGenerate 0 3; OClone 0; OGenerate 0 2; OGenerate 1 7; OClone 1; ODestroy 0; OGenerate 2 7; ODestroy 2; ODestroy 1].
  eexists. conjs; [repeat constructor|cbn; repeat split|vm_compute; reflexivity|cbn; repeat constructor|reflexivity].
Qed.
