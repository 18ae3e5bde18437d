(** * Runs of the CglCliqueStrengthening model *)

From Verif Require Import Spec Base Spec_Literals Model_CliqueStrengthening
  Proofs_CliqueStrengthening Proofs_CliqueStrRow.
From Coq Require Import Lia Lqa String Arith.
Open Scope Q_scope.

Lemma memb_in a l : memb a l = true <-> In a l.
Proof.
  unfold memb. rewrite existsb_exists. split.
  - intros (b & H & E). apply Nat.eqb_eq in E. subst. assumption.
  - intros H. exists a. split; [assumption|apply Nat.eqb_refl].
Qed.
Lemma memb_notin a l : memb a l = false <-> ~ In a l.
Proof. rewrite <- memb_in. destruct (memb a l); split; intros; try discriminate; congruence. Qed.
Lemma forallb_incl c d : forallb (fun l => memb l d) c = true <-> incl c d.
Proof.
  rewrite forallb_forall. split.
  - intros H a A. apply memb_in. apply H. assumption.
  - intros H a A. apply memb_in. apply H. assumption.
Qed.
Lemma nodup_b_ok l : nodup_b l = true <-> NoDup l.
Proof.
  induction l as [|a l IH]; cbn [nodup_b]; [split; [constructor|reflexivity]|].
  rewrite andb_true_iff, negb_true_iff, memb_notin, IH. split.
  - intros [A B]. constructor; assumption.
  - intros H. inversion H; subst. split; assumption.
Qed.

(** ** Detection *)

Lemma detect_entries_total n bin mult v : forall lits rhs m1 m2,
  (List.length lits + List.length v <= n)%nat ->
  exists r, detect_entries n bin mult v lits rhs m1 m2 = Done r.
Proof.
  induction v as [|[j a] v IH]; intros lits rhs m1 m2 H; cbn [detect_entries]; [eexists; reflexivity|].
  cbn [List.length] in H. destruct (Nat.leb_spec n (List.length lits)); [lia|].
  destruct (negb (bin j)); [eexists; reflexivity|].
  destruct (below _ m1); [apply IH; rewrite app_length; cbn [List.length]; lia|].
  destruct (below _ m2); apply IH; rewrite app_length; cbn [List.length]; lia.
Qed.

Lemma wf_row_len n r : wf_row n r -> (List.length (r_form r) <= n)%nat.
Proof.
  intros [ND WF]. rewrite <- (map_length fst). rewrite <- (seq_length n 0). apply NoDup_incl_length; [assumption|].
  intros j H. apply in_map_iff in H. destruct H as ([j' a] & E & H). cbn in E. subst. apply in_seq.
  specialize (WF j a H). lia.
Qed.

Lemma detect_row_total n bin r : wf_row n r -> exists d, detect_row n bin r = Done d.
Proof.
  intros WF. unfold detect_row. destruct (_ || _); [eexists; reflexivity|].
  pose proof (wf_row_len n r WF).
  assert (G : forall mult, exists d, bind (detect_entries n bin mult (r_form r) [] (mult * row_rhs r) None None)
      (fun e => match e with
      | None => Done None
      | Some (lits, rhs, m1, m2) =>
          if min_sum_ge m1 m2 (rhs + CLQ_STR_EPS) then Done (Some lits) else Done None
      end) = Done d).
  { intros mult. destruct (detect_entries_total n bin mult (r_form r) [] (mult * row_rhs r) None None) as [e E]; [cbn; lia|].
    rewrite E. cbn [bind]. destruct e as [[[[l q] a] b]|]; [|eexists; reflexivity].
    destruct (min_sum_ge _ _ _); eexists; reflexivity. }
  destruct (row_sense r); try (eexists; reflexivity); apply G.
Qed.

(** The clique rows known to the object describe the rows of the solver. *)
Definition cr_ok (n : nat) (bin : nat -> bool) (rs : list row) (cr : list crow) : Prop :=
  NoDup (map cr_orig cr) /\
  forall c, In c cr -> cr_dom c = false /\
    exists r, nth_error rs (cr_orig c) = Some r /\ detect_row n bin r = Done (Some (cr_lits c)).
Definition pos_ok (n : nat) (bin : nat -> bool) (rs : list row) (cr : list crow) (pos : list nat) : Prop :=
  List.length pos = List.length rs /\
  forall i r lits, nth_error rs i = Some r -> detect_row n bin r = Done (Some lits) ->
    exists k c, nth_error pos i = Some k /\ nth_error cr k = Some c /\ cr_orig c = i.

Lemma pos_ok_weaken n bin rs cr pos r d x :
  pos_ok n bin rs cr pos ->
  (forall lits, detect_row n bin r = Done (Some lits) -> exists c, d = [c] /\ x = List.length cr /\ cr_orig c = List.length rs) ->
  pos_ok n bin (rs ++ [r]) (cr ++ d) (pos ++ [x]).
Proof.
  intros [L P] H. split; [rewrite !app_length, L; reflexivity|].
  intros i r0 lits N D. destruct (Nat.lt_ge_cases i (List.length rs)) as [A|A].
  - rewrite nth_error_app1 in N by assumption. destruct (P i r0 lits N D) as (k & c & K1 & K2 & K3).
    exists k, c. conjs; [rewrite nth_error_app1; [assumption|lia]| |assumption].
    rewrite nth_error_app1; [assumption|]. apply nth_error_Some. congruence.
  - rewrite nth_error_app2 in N by assumption.
    destruct (i - List.length rs)%nat as [|q] eqn:E; [|destruct q; discriminate].
    cbn in N. apply Some_inj in N. subst r0. assert (i = List.length rs) by lia. subst i.
    destruct (H lits D) as (c & -> & -> & O). exists (List.length cr), c. conjs.
    + rewrite <- L. rewrite nth_error_app2 by lia. rewrite Nat.sub_diag. reflexivity.
    + rewrite nth_error_app2 by lia. rewrite Nat.sub_diag. reflexivity.
    + assumption.
Qed.

Lemma cr_ok_grow n bin rs cr r : cr_ok n bin rs cr -> cr_ok n bin (rs ++ [r]) cr.
Proof.
  intros [A B]. split; [assumption|]. intros c H. destruct (B c H) as (D & r0 & R1 & R2). split; [assumption|].
  exists r0. split; [|assumption]. rewrite nth_error_app1; [assumption|]. apply nth_error_Some. congruence.
Qed.
Lemma cr_ok_orig n bin rs cr c : cr_ok n bin rs cr -> In c cr -> (cr_orig c < List.length rs)%nat.
Proof. intros [_ B] H. destruct (B c H) as (_ & r & R & _). apply nth_error_Some. congruence. Qed.
Lemma cr_ok_len n bin rs cr : cr_ok n bin rs cr -> (List.length cr <= List.length rs)%nat.
Proof.
  intros OK. rewrite <- (map_length cr_orig cr). rewrite <- (seq_length (List.length rs) 0).
  apply NoDup_incl_length; [apply OK|]. intros i H. apply in_map_iff in H. destruct H as (c & <- & H).
  apply in_seq. pose proof (cr_ok_orig _ _ _ _ _ OK H). lia.
Qed.

Lemma detect_rows_ok n nrows bin rows : forall pre room cr pos,
  (forall r, In r rows -> wf_row n r) ->
  (num_elements rows <= room)%nat -> (List.length pre + List.length rows <= nrows)%nat ->
  cr_ok n bin pre cr -> pos_ok n bin pre cr pos ->
  exists cr' pos', detect_rows n nrows bin rows (List.length pre) room cr pos = Done (cr', pos') /\
    cr_ok n bin (pre ++ rows) cr' /\ pos_ok n bin (pre ++ rows) cr' pos'.
Proof.
  induction rows as [|r rows IH]; intros pre room cr pos WF RM LN CO PO; cbn [detect_rows].
  - exists cr, pos. rewrite app_nil_r. conjs; [reflexivity|assumption|assumption].
  - cbn [num_elements fold_right List.length] in RM, LN. fold (num_elements rows) in RM.
    assert (WR : wf_row n r) by (apply WF; left; reflexivity).
    destruct (detect_row_total n bin r WR) as [d D]. rewrite D. cbn [bind].
    assert (EL : S (List.length pre) = List.length (pre ++ [r])) by (rewrite app_length; cbn [List.length]; lia).
    destruct d as [lits|].
    + pose proof (detect_row_lits n bin r lits WR D) as (_ & _ & _ & LL).
      destruct (Nat.ltb_spec room (List.length lits)); [lia|].
      pose proof (cr_ok_len _ _ _ _ CO).
      destruct (Nat.leb_spec nrows (List.length cr)); [lia|]. cbn [orb].
      rewrite EL. destruct (IH (pre ++ [r]) (room - List.length lits)%nat
          (cr ++ [CRow lits (List.length pre) false]) (pos ++ [List.length cr])) as (cr' & pos' & E & A & B).
      * intros; apply WF; right; assumption.
      * lia.
      * rewrite app_length. cbn [List.length]. lia.
      * destruct (cr_ok_grow n bin pre cr r CO) as [G1 G2]. split.
        -- rewrite map_app. cbn [map cr_orig]. apply NoDup_rev in G1. rewrite <- (rev_involutive (_ ++ _)).
           apply NoDup_rev. rewrite rev_app_distr. cbn [rev app]. constructor; [|assumption].
           rewrite <- in_rev. intros HH. apply in_map_iff in HH. destruct HH as (c & E & HH).
           pose proof (cr_ok_orig _ _ _ _ _ CO HH). lia.
        -- intros c HH. apply in_app_iff in HH. destruct HH as [HH|[<-|[]]]; [apply G2; assumption|].
           cbn [cr_dom cr_orig cr_lits]. split; [reflexivity|]. exists r. split; [|assumption].
           rewrite nth_error_app2 by lia. rewrite Nat.sub_diag. reflexivity.
      * apply pos_ok_weaken; [assumption|]. intros l' D'. eexists. conjs; reflexivity.
      * exists cr', pos'. rewrite <- !app_assoc in A, B. conjs; assumption.
    + rewrite EL. destruct (IH (pre ++ [r]) room cr (pos ++ [nrows])) as (cr' & pos' & E & A & B).
      * intros; apply WF; right; assumption.
      * lia.
      * rewrite app_length. cbn [List.length]. lia.
      * apply cr_ok_grow. assumption.
      * rewrite <- (app_nil_r cr). apply pos_ok_weaken; [assumption|]. intros l' D'. rewrite D in D'. discriminate.
      * exists cr', pos'. rewrite <- !app_assoc in A, B. conjs; assumption.
Qed.

(** An object whose bookkeeping matches its solver: the state after
    construction, and after calls that extended nothing. *)
Definition o_bin (o : obj) : nat -> bool := is_bin (o_clo o) (o_chi o) (o_int o).
Definition fresh (o : obj) : Prop :=
  wf_mip (o_mip o) /\ o_names o = [] /\
  match o_cr o with
  | None => num_elements (map snd (o_rows o)) = 0%nat
  | Some cr => cr_ok (o_n o) (o_bin o) (map snd (o_rows o)) cr /\
               pos_ok (o_n o) (o_bin o) (map snd (o_rows o)) cr (o_pos o) /\
               num_elements (map snd (o_rows o)) <> 0%nat
  end.

Lemma cs_new_ok n rows clo chi int : wf_mip (Mip n (map snd rows) clo chi int) ->
  exists o, cs_new n rows clo chi int = Done o /\ fresh o /\
    o_n o = n /\ o_rows o = rows /\ o_clo o = clo /\ o_chi o = chi /\ o_int o = int.
Proof.
  intros WF. unfold cs_new. destruct (Nat.eqb_spec (num_elements (map snd rows)) 0) as [E|E].
  - eexists. split; [reflexivity|]. conjs; try reflexivity. split; [exact WF|split; [reflexivity|exact E]].
  - destruct (detect_rows_ok n (List.length rows) (is_bin clo chi int) (map snd rows) []
       (num_elements (map snd rows)) [] []) as (cr & pos & D & A & B).
    + intros r H. apply WF. exact H.
    + lia.
    + cbn [List.length]. rewrite map_length. lia.
    + split; [constructor|intros c []].
    + split; [reflexivity|]. intros i r l H. destruct i; discriminate.
    + cbn [List.length] in D.
      match goal with |- context [detect_rows ?a ?b ?c ?e ?f ?g ?h ?i] =>
        replace (detect_rows a b c e f g h i) with (Done (cr, pos)) by (symmetry; exact D) end.
      cbn [bind]. eexists. split; [reflexivity|]. conjs; try reflexivity.
      split; [exact WF|]. split; [reflexivity|]. cbn [o_cr o_n o_rows o_pos]. unfold o_bin. cbn [o_clo o_chi o_int].
      conjs; [exact A|exact B|exact E].
Qed.

(** ** The extension loop *)

Definition cr_step (P : list nat -> Prop) (c c' : crow) : Prop :=
  cr_lits c' = cr_lits c /\ cr_orig c' = cr_orig c /\
  (cr_dom c = true -> cr_dom c' = true) /\
  (cr_dom c' = true -> cr_dom c = true \/ P (cr_lits c)).

Lemma cr_step_refl P cr : Forall2 (cr_step P) cr cr.
Proof. induction cr; constructor; [|assumption]. unfold cr_step. tauto. Qed.
Lemma cr_step_trans P a b c : Forall2 (cr_step P) a b -> Forall2 (cr_step P) b c -> Forall2 (cr_step P) a c.
Proof.
  intros H. revert c. induction H as [|x y a b XY AB IH]; intros c K; inversion K; subst; constructor.
  - destruct XY as (A1 & A2 & A3 & A4). rename y0 into z. destruct H1 as (B1 & B2 & B3 & B4). unfold cr_step.
    conjs; [congruence|congruence|tauto|]. intros D. destruct (B4 D) as [D2|D2]; [tauto|]. right. congruence.
  - apply IH. assumption.
Qed.
Lemma cr_step_mono (P Q : list nat -> Prop) a b : (forall l, P l -> Q l) ->
  Forall2 (cr_step P) a b -> Forall2 (cr_step Q) a b.
Proof.
  intros PQ H. induction H; constructor; [|assumption]. destruct H as (A & B & C & D).
  unfold cr_step. conjs; [assumption|assumption|assumption|]. intros E. destruct (D E); [left; assumption|right; auto].
Qed.
Lemma set_dom_step (P : list nat -> Prop) k : forall cr, (forall c, nth_error cr k = Some c -> P (cr_lits c)) ->
  Forall2 (cr_step P) cr (set_dom k cr).
Proof.
  induction k as [|k IH]; intros [|c cr] H; cbn [set_dom]; try constructor.
  - unfold cr_step. cbn [cr_lits cr_orig cr_dom]. conjs; try reflexivity. intros _. right. apply H. reflexivity.
  - apply cr_step_refl.
  - unfold cr_step. tauto.
  - apply IH. intros c' E. apply H. exact E.
Qed.
Lemma set_dom_len k : forall cr, List.length (set_dom k cr) = List.length cr.
Proof. induction k as [|k IH]; intros [|c cr]; cbn [set_dom List.length]; try reflexivity. rewrite IH. reflexivity. Qed.

Lemma cd_rows_step nrows d ks : forall tested cr tested' cr',
  cd_rows nrows d ks tested cr = Done (tested', cr') -> Forall2 (cr_step (fun c => incl c d)) cr cr'.
Proof.
  induction ks as [|k ks IH]; intros tested cr tested' cr' E; cbn [cd_rows] in E.
  - apply Done_inj in E. inversion E; subst. apply cr_step_refl.
  - destruct (nth_error cr k) as [c|] eqn:EN; [|discriminate].
    destruct (cr_dom c); [eauto|]. destruct (nrows <=? k)%nat; [discriminate|].
    destruct (memb k tested); [eauto|]. apply IH in E.
    eapply cr_step_trans; [|exact E]. destruct (forallb _ (cr_lits c)) eqn:EF; [|apply cr_step_refl].
    apply set_dom_step. intros c' H. rewrite EN in H. apply Some_inj in H. subst c'.
    apply forallb_incl. assumption.
Qed.
Lemma cd_rows_total nrows d ks : forall tested cr, (forall k, In k ks -> (k < List.length cr)%nat) ->
  (List.length cr <= nrows)%nat -> exists p, cd_rows nrows d ks tested cr = Done p.
Proof.
  induction ks as [|k ks IH]; intros tested cr H L; cbn [cd_rows]; [eexists; reflexivity|].
  pose proof (H k (or_introl eq_refl)) as HK.
  destruct (nth_error cr k) as [c|] eqn:EN; [|apply nth_error_None in EN; lia].
  assert (H2 : forall k, In k ks -> (k < List.length cr)%nat) by (intros; apply H; right; assumption).
  destruct (cr_dom c); [apply IH; assumption|]. destruct (Nat.leb_spec nrows k); [lia|].
  destruct (memb k tested); [apply IH; assumption|].
  apply IH; destruct (forallb _ _); rewrite ?set_dom_len; assumption.
Qed.
Lemma cd_cols_step n2 nrows d cols : forall tested cr cr',
  cd_cols n2 nrows d cols tested cr = Done cr' -> Forall2 (cr_step (fun c => incl c d)) cr cr'.
Proof.
  induction cols as [|l cols IH]; intros tested cr cr' E; cbn [cd_cols] in E.
  - apply Done_inj in E. subst. apply cr_step_refl.
  - destruct (n2 <=? l)%nat; [discriminate|]. apply bind_done in E. destruct E as ([t c1] & E1 & E2).
    apply cd_rows_step in E1. cbn [fst snd] in E2. apply IH in E2. eapply cr_step_trans; eassumption.
Qed.
Lemma cd_cols_total n2 nrows d cols : forall tested cr, (forall l, In l cols -> (l < n2)%nat) ->
  (List.length cr <= nrows)%nat -> exists cr', cd_cols n2 nrows d cols tested cr = Done cr'.
Proof.
  induction cols as [|l cols IH]; intros tested cr H L; cbn [cd_cols]; [eexists; reflexivity|].
  pose proof (H l (or_introl eq_refl)). destruct (Nat.leb_spec n2 l); [lia|].
  destruct (cd_rows_total nrows d (col_cliques cr l) tested cr) as [[t c1] E]; [|assumption|].
  - intros k K. apply filter_In in K. destruct K as [K _]. apply in_seq in K. lia.
  - rewrite E. cbn [bind fst snd]. apply IH; [intros; apply H; right; assumption|].
    apply cd_rows_step in E. apply forall2_len in E. lia.
Qed.

(** What the caller of an extension routine may rely on. *)
Definition ext_spec (n : nat) (adj : nat -> nat -> Prop) (ext : nat -> list nat -> option (list nat)) : Prop :=
  forall i c d, NoDup c -> (forall l, In l c -> (l < 2 * n)%nat) -> ext i c = Some d -> ext_ok n adj c d.

Lemma step_nth P cr0 cr : Forall2 (cr_step P) cr0 cr -> forall k c, nth_error cr k = Some c ->
  exists c0, nth_error cr0 k = Some c0 /\ cr_step P c0 c.
Proof.
  intros H. induction H as [|x y a b XY AB IH]; intros [|k] c E; try discriminate.
  - cbn in E. apply Some_inj in E. subst. exists x. split; [reflexivity|assumption].
  - cbn in E. destruct (IH k c E) as (c0 & C1 & C2). exists c0. split; assumption.
Qed.


Section Loop.
  Variables (n : nat) (rows : list nrow) (bin : nat -> bool) (adj : nat -> nat -> Prop)
    (ext : nat -> list nat -> option (list nat)) (stop : nat -> bool)
    (cr0 : list crow) (names0 : list string).
  Hypothesis WF : forall r, In r (map snd rows) -> wf_row n r.
  Hypothesis OK : cr_ok n bin (map snd rows) cr0.
  Hypothesis EX : ext_spec n adj ext.

  (** The clique rows of the state are those of the start, the dominated
      ones are inside a new clique, the new cliques come from the extender. *)
  Definition loop_inv (st : est) : Prop :=
    Forall2 (cr_step (fun c => exists d, In d (e_new st) /\ incl c d)) cr0 (e_cr st) /\
    (forall d, In d (e_new st) -> exists i c, In c cr0 /\ ext i (cr_lits c) = Some d) /\
    (List.length (e_new st) <= e_ext st)%nat /\
    (e_new st = [] -> e_ext st = 0%nat) /\
    exists more, e_names st = names0 ++ more /\ List.length more = List.length (e_new st) /\
      forall s, In s more -> exists p, In p rows /\ s = append (fst p) "_ext" /\ (String.length (fst p) < 252)%nat.

  Lemma cr0_lits c : In c cr0 -> NoDup (cr_lits c) /\ (forall l, In l (cr_lits c) -> (l < 2 * n)%nat /\ bin (lit_col n l) = true).
  Proof.
    intros H. destruct OK as [_ B]. destruct (B c H) as (_ & r & R & D).
    assert (WR : wf_row n r) by (apply WF; eapply nth_error_In; exact R).
    pose proof (detect_row_lits n bin r _ WR D) as (A & C & _). split; assumption.
  Qed.

  Lemma ext_body_inv i k st st' : loop_inv st -> ext_body n rows ext i k st = Done st' -> loop_inv st'.
  Proof.
    intros (F & N & L & Z & more & M1 & M2 & M3). unfold ext_body.
    destruct (nth_error (e_cr st) k) as [c|] eqn:EN; [|discriminate].
    destruct (step_nth _ _ _ F k c EN) as (c0 & C1 & (C2 & C3 & _ & _)).
    assert (I0 : In c0 cr0) by (eapply nth_error_In; exact C1).
    destruct (cr0_lits c0 I0) as [ND LT].
    destruct (cr_dom c); [intros E; apply Done_inj in E; subst; unfold loop_inv; conjs; try assumption; exists more; conjs; assumption|].
    destruct (ext i (cr_lits c)) as [d|] eqn:EE;
      [|intros E; apply Done_inj in E; subst; unfold loop_inv; conjs; try assumption; exists more; conjs; assumption].
    rewrite C2 in EE. assert (XO : ext_ok n adj (cr_lits c0) d).
    { eapply EX; [exact ND|intros l HL; apply LT; exact HL|exact EE]. }
    destruct XO as (XI & _).
    destruct (existsb (same_set d) (e_new st)) eqn:ES.
    - intros E. apply Done_inj in E. subst st'. unfold loop_inv. cbn [e_cr e_new e_ext e_names]. conjs.
      + eapply cr_step_trans; [exact F|]. apply set_dom_step. intros c' H. rewrite EN in H. apply Some_inj in H. subst c'.
        apply existsb_exists in ES. destruct ES as (d' & D1 & D2). exists d'. split; [assumption|].
        unfold same_set in D2. apply andb_prop in D2. destruct D2 as [D2 _]. apply forallb_incl in D2.
        rewrite C2. eapply incl_tran; eassumption.
      + assumption.
      + lia.
      + intros H. rewrite H in ES. discriminate.
      + exists more. conjs; assumption.
    - intros E. apply bind_done in E. destruct E as (cr2 & E1 & E2).
      set (nm := match nth_error rows (cr_orig c) with Some p => fst p | None => EmptyString end) in *.
      destruct (Nat.ltb_spec 256 (String.length nm + 5)) as [|LN]; [discriminate|].
      apply Done_inj in E2. subst st'. unfold loop_inv. cbn [e_cr e_new e_ext e_names]. conjs.
      + apply cr_step_trans with (b := e_cr st).
        { eapply cr_step_mono; [|exact F]. intros l (d' & D1 & D2). exists d'. split; [apply in_app_iff; left|]; assumption. }
        eapply cr_step_trans with (b := set_dom k (e_cr st)).
        { apply set_dom_step. intros c' H. rewrite EN in H. apply Some_inj in H. subst c'.
          exists d. split; [apply in_app_iff; right; left; reflexivity|]. rewrite C2. assumption. }
        unfold check_dominance in E1. apply cd_cols_step in E1. eapply cr_step_mono; [|exact E1].
        intros l IL. exists d. split; [apply in_app_iff; right; left; reflexivity|assumption].
      + intros d' H. apply in_app_iff in H. destruct H as [H|[<-|[]]]; [apply N; assumption|].
        exists i, c0. split; assumption.
      + rewrite app_length. cbn [List.length]. lia.
      + intros H. apply app_eq_nil in H. destruct H as [_ H]. discriminate H.
      + exists (more ++ [append nm "_ext"]). rewrite M1, app_assoc. conjs; [reflexivity| |].
        * rewrite !app_length, M2. reflexivity.
        * intros s H. apply in_app_iff in H. destruct H as [H|[<-|[]]]; [apply M3; assumption|].
          destruct OK as [_ B]. destruct (B c0 I0) as (_ & r & R & _). rewrite <- C3 in R.
          rewrite nth_error_map in R. subst nm. destruct (nth_error rows (cr_orig c)) as [p|] eqn:EP; [|discriminate].
          exists p. conjs; [eapply nth_error_In; exact EP|reflexivity|lia].
  Qed.

  Lemma ext_body_total i k st : loop_inv st -> (k < List.length cr0)%nat ->
    (forall p, In p rows -> (String.length (fst p) < 252)%nat) ->
    exists st', ext_body n rows ext i k st = Done st'.
  Proof.
    intros (F & N & L & Z & more & M1 & M2 & M3) K NM. unfold ext_body.
    pose proof (forall2_len _ _ _ F) as FL.
    destruct (nth_error (e_cr st) k) as [c|] eqn:EN; [|apply nth_error_None in EN; lia].
    destruct (step_nth _ _ _ F k c EN) as (c0 & C1 & (C2 & C3 & _ & _)).
    assert (I0 : In c0 cr0) by (eapply nth_error_In; exact C1).
    destruct (cr0_lits c0 I0) as [ND LT].
    destruct (cr_dom c); [eexists; reflexivity|].
    destruct (ext i (cr_lits c)) as [d|] eqn:EE; [|eexists; reflexivity].
    rewrite C2 in EE. assert (XO : ext_ok n adj (cr_lits c0) d).
    { eapply EX; [exact ND|intros l HL; apply LT; exact HL|exact EE]. }
    destruct XO as (_ & _ & XL & _).
    destruct (existsb (same_set d) (e_new st)); [eexists; reflexivity|].
    unfold check_dominance.
    destruct (cd_cols_total (2 * n) (List.length rows) d d [] (set_dom k (e_cr st)) XL) as [cr2 E2].
    - rewrite set_dom_len, <- FL. pose proof (cr_ok_len _ _ _ _ OK). rewrite map_length in H. assumption.
    - rewrite E2. cbn [bind]. destruct (nth_error rows (cr_orig c)) as [p|] eqn:EP.
      + pose proof (NM p (nth_error_In _ _ EP)).
        destruct (Nat.ltb_spec 256 (String.length (fst p) + 5)); [lia|]. eexists; reflexivity.
      + cbn [String.length]. eexists; reflexivity.
  Qed.

  Lemma ext_loop_inv ks : forall i st st', loop_inv st -> ext_loop n rows ext stop ks i st = Done st' -> loop_inv st'.
  Proof.
    induction ks as [|ok ks IH]; intros i st st' J E; cbn [ext_loop] in E; [apply Done_inj in E; subst; assumption|].
    destruct (stop i); [apply Done_inj in E; subst; assumption|].
    apply bind_done in E. destruct E as (k & _ & E). apply bind_done in E. destruct E as (st1 & E1 & E).
    eapply IH; [|exact E]. eapply ext_body_inv; eassumption.
  Qed.
  Lemma ext_loop_total ks : forall i st, loop_inv st ->
    (forall ok, In ok ks -> exists k, ok = Done k /\ (k < List.length cr0)%nat) ->
    (forall p, In p rows -> (String.length (fst p) < 252)%nat) ->
    exists st', ext_loop n rows ext stop ks i st = Done st'.
  Proof.
    induction ks as [|ok ks IH]; intros i st J KS NM; cbn [ext_loop]; [eexists; reflexivity|].
    destruct (stop i); [eexists; reflexivity|].
    destruct (KS ok (or_introl eq_refl)) as (k & -> & K). cbn [bind].
    destruct (ext_body_total i k st J K NM) as [st1 E1]. rewrite E1. cbn [bind].
    apply IH; [eapply ext_body_inv; eassumption|intros; apply KS; right; assumption|assumption].
  Qed.
  Lemma loop_inv_start : loop_inv (Est cr0 [] names0 0).
  Proof.
    unfold loop_inv. cbn [e_cr e_new e_ext e_names]. conjs.
    - apply cr_step_refl. - intros d []. - cbn; lia. - reflexivity.
    - exists []. rewrite app_nil_r. conjs; [reflexivity|reflexivity|intros s []].
  Qed.
End Loop.

(** ** Deleting and adding rows *)

Lemma delete_from_in {A} idx (rows : list A) : forall i0 p, In p (delete_from i0 idx rows) <->
  exists k, nth_error rows k = Some p /\ ~ In (i0 + k)%nat idx.
Proof.
  induction rows as [|r rows IH]; intros i0 p; cbn [delete_from].
  - split; [intros []|]. intros (k & H & _). destruct k; discriminate.
  - destruct (memb i0 idx) eqn:E.
    + apply memb_in in E. rewrite IH. split.
      * intros (k & K1 & K2). exists (S k). split; [exact K1|]. rewrite Nat.add_succ_r. exact K2.
      * intros (k & K1 & K2). destruct k as [|k]; [rewrite Nat.add_0_r in K2; contradiction|].
        exists k. split; [exact K1|]. rewrite Nat.add_succ_r in K2. exact K2.
    + apply memb_notin in E. cbn [In]. rewrite IH. split.
      * intros [->|(k & K1 & K2)].
        -- exists 0%nat. split; [reflexivity|]. rewrite Nat.add_0_r. assumption.
        -- exists (S k). split; [exact K1|]. rewrite Nat.add_succ_r. exact K2.
      * intros (k & K1 & K2). destruct k as [|k]; [left; apply Some_inj; exact K1|].
        right. exists k. split; [exact K1|]. rewrite Nat.add_succ_r in K2. exact K2.
Qed.

Definition built (n : nat) (d : list nat) (r : row) : Prop :=
  exists v rhs b, clique_row n d = Done (Some (v, rhs, b)) /\ r = Row v None (Some rhs).

Lemma build_rows_some n ds : forall names rs nms, build_rows n ds names = Done (Some (rs, nms)) ->
  Forall2 (built n) ds rs /\ List.length nms = List.length names /\
  (List.length ds <= List.length names)%nat /\
  forall s, In s nms -> exists t, In t names /\ (s = t \/ s = append t "_dup").
Proof.
  induction ds as [|d ds IH]; intros names rs nms E; cbn [build_rows] in E.
  - apply Done_inj in E. apply Some_inj in E. inversion E; subst. conjs; [constructor|reflexivity|cbn; lia|].
    intros s H. exists s. split; [assumption|left; reflexivity].
  - apply bind_done in E. destruct E as (c & E1 & E). destruct c as [[[v rhs] b]|]; [|discriminate].
    destruct names as [|nm names]; [discriminate|].
    destruct (b && _)%bool; [discriminate|]. apply bind_done in E. destruct E as (t & E2 & E).
    destruct t as [[rs1 nms1]|]; [|discriminate]. apply Done_inj in E. apply Some_inj in E. inversion E; subst.
    destruct (IH _ _ _ E2) as (A & B & C & D). conjs.
    + constructor; [|assumption]. exists v, rhs, b. split; [assumption|reflexivity].
    + cbn [List.length]. lia.
    + cbn [List.length]. lia.
    + intros s [<-|H].
      * exists nm. split; [left; reflexivity|]. destruct b; [right|left]; reflexivity.
      * destruct (D s H) as (t & T1 & T2). exists t. split; [right; assumption|assumption].
Qed.
Lemma build_rows_none n ds : forall names, build_rows n ds names = Done None ->
  exists d, In d ds /\ clique_row n d = Done None.
Proof.
  induction ds as [|d ds IH]; intros names E; cbn [build_rows] in E; [discriminate|].
  apply bind_done in E. destruct E as (c & E1 & E). destruct c as [[[v rhs] b]|].
  - destruct names as [|nm names]; [discriminate|]. destruct (b && _)%bool; [discriminate|].
    apply bind_done in E. destruct E as (t & E2 & E). destruct t as [[rs1 nms1]|]; [discriminate|].
    destruct (IH _ E2) as (d' & D1 & D2). exists d'. split; [right|]; assumption.
  - exists d. split; [left; reflexivity|assumption].
Qed.
Lemma build_rows_total n ds : forall names, (List.length ds <= List.length names)%nat ->
  (forall d, In d ds -> NoDup d /\ forall l, In l d -> (l < 2 * n)%nat) ->
  (forall s, In s names -> (String.length s <= 251)%nat) ->
  exists r, build_rows n ds names = Done r.
Proof.
  induction ds as [|d ds IH]; intros names L DD NM; cbn [build_rows]; [eexists; reflexivity|].
  destruct (DD d (or_introl eq_refl)) as [D1 D2].
  destruct (clique_row_ok n d D1 D2) as (res & E & _). rewrite E. cbn [bind].
  destruct res as [[[v rhs] b]|]; [|eexists; reflexivity].
  destruct names as [|nm names]; [cbn in L; lia|].
  pose proof (NM nm (or_introl eq_refl)). destruct (Nat.ltb_spec 256 (String.length nm + 5)); [lia|].
  rewrite andb_false_r. destruct (IH names) as [t T].
  - cbn [List.length] in L. lia.
  - intros; apply DD; right; assumption.
  - intros; apply NM; right; assumption.
  - rewrite T. cbn [bind]. destruct t as [[rs nms]|]; eexists; reflexivity.
Qed.

Lemma combine_snd {A B} (a : list A) : forall b : list B, (List.length b <= List.length a)%nat ->
  map snd (combine a b) = b.
Proof.
  induction a as [|x a IH]; intros [|z b] L; cbn [combine map List.length] in *; try reflexivity; try lia.
  f_equal. apply IH. lia.
Qed.

(** ** One call *)

(** The rows of a call on an object [o] with result [o'], extension spec
    [adj]: which were removed, which were added. *)
Definition replaced (adj : nat -> nat -> Prop) (o o' : obj) (ds : list (list nat)) (idx : list nat) (added : list nrow) : Prop :=
  o_rows o' = delete_from 0 idx (o_rows o) ++ added /\
  NoDup idx /\ o_ndom o' = List.length idx /\ (1 <= List.length ds <= o_next o')%nat /\
  (forall i, In i idx -> exists p lits d, nth_error (o_rows o) i = Some p /\
     detect_row (o_n o) (o_bin o) (snd p) = Done (Some lits) /\ In d ds /\ incl lits d) /\
  (forall d, In d ds -> exists p lits, In p (o_rows o) /\
     detect_row (o_n o) (o_bin o) (snd p) = Done (Some lits) /\ ext_ok (o_n o) adj lits d) /\
  ((exists d, In d ds /\ clique_row (o_n o) d = Done None /\ added = [(EmptyString, bad_row)]) \/
   (Forall2 (built (o_n o)) ds (map snd added) /\
    forall q, In q added -> exists p, In p (o_rows o) /\
      (fst q = append (fst p) "_ext" \/ fst q = append (append (fst p) "_ext") "_dup"))).

Definition same_cols (o o' : obj) : Prop :=
  o_n o' = o_n o /\ o_clo o' = o_clo o /\ o_chi o' = o_chi o /\ o_int o' = o_int o.

Lemma strengthen_cases adj ext stop w o o' : fresh o -> ext_spec (o_n o) adj ext ->
  strengthen ext stop w o = Done o' ->
  same_cols o o' /\
  ((o_rows o' = o_rows o /\ fresh o' /\ o_next o' = 0%nat /\ o_ndom o' = 0%nat) \/
   exists ds idx added, replaced adj o o' ds idx added).
Proof.
  intros FR EX. unfold strengthen.
  assert (F0 : fresh (Obj (o_n o) (o_rows o) (o_clo o) (o_chi o) (o_int o) (o_cr o) (o_pos o) (o_cap o) (o_names o) 0 0)).
  { exact FR. }
  destruct (_ || _).
  { intros E. apply Done_inj in E. subst o'. split; [unfold same_cols; cbn; tauto|]. left. conjs; try reflexivity. exact F0. }
  destruct FR as (WF & NM & FR). destruct (o_cr o) as [cr|] eqn:EC; [|discriminate].
  destruct FR as (CO & PO & NE).
  destruct cr as [|c1 cr1].
  { intros E. apply Done_inj in E. subst o'. split; [unfold same_cols; cbn; tauto|]. left. conjs; try reflexivity. exact F0. }
  set (cr := c1 :: cr1) in *. intros E. apply bind_done in E. destruct E as (st & E1 & E).
  assert (WR : forall r, In r (map snd (o_rows o)) -> wf_row (o_n o) r) by exact WF.
  pose proof (ext_loop_inv (o_n o) (o_rows o) (o_bin o) adj ext stop cr (o_names o) WR CO EX _ _ _ _
     (loop_inv_start _ _ _ _ ) E1) as (F & N & L & Z & more & M1 & M2 & M3).
  destruct (e_new st) as [|d0 ds0] eqn:EN.
  { apply Done_inj in E. subst o'. split; [unfold same_cols; cbn; tauto|]. 
    left. cbn [o_rows o_next o_ndom].
    assert (ME : more = []) by (destruct more; [reflexivity|discriminate]). subst more. rewrite app_nil_r in M1.
    assert (EE : e_cr st = cr).
    { clear - F CO. destruct CO as [_ B]. induction F as [|x y a b XY AB IH]; [reflexivity|]. f_equal.
      - destruct XY as (A1 & A2 & A3 & A4). destruct (B x (or_introl eq_refl)) as [D _].
        destruct y as [yl yo yd], x as [xl xo xd]. cbn in *. subst.
        destruct yd; [|reflexivity]. destruct (A4 eq_refl) as [|(d & [] & _)]. discriminate.
      - apply IH. intros c H. apply B. right. assumption. }
    rewrite EE. conjs; [reflexivity| |apply Z; reflexivity|reflexivity].
    split; [exact WF|]. cbn [o_names]. rewrite M1. split; [exact NM|]. cbn [o_cr].
    conjs; [exact CO|exact PO|exact NE]. }
  apply bind_done in E. destruct E as ([nd rows1] & E2 & E). apply bind_done in E. destruct E as ([rows2 nms] & E3 & E).
  apply Done_inj in E. subst o'. split; [unfold same_cols; cbn; tauto|]. right.
  set (ds := d0 :: ds0) in *. cbn [fst snd] in *.
  set (idx := map cr_orig (filter cr_dom (e_cr st))) in *.
  assert (IX : forall i, In i idx -> exists p lits d, nth_error (o_rows o) i = Some p /\
     detect_row (o_n o) (o_bin o) (snd p) = Done (Some lits) /\ In d ds /\ incl lits d).
  { intros i H. apply in_map_iff in H. destruct H as (c & <- & H). apply filter_In in H. destruct H as [H D].
    apply In_nth_error in H. destruct H as [k K]. destruct (step_nth _ _ _ F k c K) as (c0 & K0 & (A1 & A2 & A3 & A4)).
    destruct CO as [_ B]. destruct (B c0 (nth_error_In _ _ K0)) as (D0 & r & R1 & R2).
    destruct (A4 D) as [D1|(d & D1 & D2)]; [congruence|].
    rewrite nth_error_map in R1. rewrite A2. destruct (nth_error (o_rows o) (cr_orig c0)) as [p|]; [|discriminate R1].
    cbn in R1. apply Some_inj in R1. subst r. exists p, (cr_lits c0), d. conjs; try reflexivity; assumption. }
  assert (DX : forall d, In d ds -> exists p lits, In p (o_rows o) /\
     detect_row (o_n o) (o_bin o) (snd p) = Done (Some lits) /\ ext_ok (o_n o) adj lits d).
  { intros d H. destruct (N d H) as (i & c & IC & XE). destruct CO as [CN B].
    destruct (B c IC) as (_ & r & R1 & R2).
    destruct (cr0_lits (o_n o) (o_rows o) (o_bin o) cr WR (conj CN B) c IC) as [ND LT].
    rewrite nth_error_map in R1. destruct (nth_error (o_rows o) (cr_orig c)) as [p|] eqn:EP; [|discriminate R1].
    cbn in R1. apply Some_inj in R1. subst r. exists p, (cr_lits c). conjs.
    - eapply nth_error_In; exact EP. - assumption.
    - eapply EX; [exact ND|intros l HL; apply LT; exact HL|exact XE]. }
  assert (OR : map cr_orig (e_cr st) = map cr_orig cr).
  { clear - F. induction F as [|x y a b XY AB IH]; [reflexivity|]. cbn [map]. destruct XY as (_ & A & _). congruence. }
  assert (NI : NoDup idx).
  { destruct CO as [CN _]. rewrite <- OR in CN. subst idx. clear - CN. induction (e_cr st) as [|c l IH]; [constructor|].
    cbn [map] in CN. inversion CN as [|? ? N1 N2]; subst. cbn [filter]. destruct (cr_dom c); [|apply IH; assumption].
    cbn [map]. constructor; [|apply IH; assumption]. intros H. apply N1. apply in_map_iff in H.
    destruct H as (q & Q1 & Q2). apply filter_In in Q2. apply in_map_iff. exists q. tauto. }
  assert (RM : nd = List.length idx /\ rows1 = delete_from 0 idx (o_rows o)).
  { unfold remove_dominated in E2. fold idx in E2. destruct (_ <? _)%nat; [discriminate|].
    destruct (Nat.eqb_spec (List.length idx) 0) as [H0|H0].
    - apply Done_inj in E2. inversion E2; subst. split; [congruence|].
      destruct idx; [|discriminate]. clear. generalize 0%nat. induction (o_rows o) as [|r l IH]; intros k; [reflexivity|].
      cbn [delete_from memb existsb]. f_equal. apply IH.
    - apply bind_done in E2. destruct E2 as (r' & E2 & E4). apply Done_inj in E4. inversion E4; subst.
      split; [reflexivity|]. unfold delete_rows in E2. destruct (_ && _); [|discriminate]. apply Done_inj in E2. congruence. }
  destruct RM as [-> ->]. unfold add_stronger in E3. apply bind_done in E3. destruct E3 as (b & E3 & E4).
  rewrite NM in M1. cbn [app] in M1. destruct b as [[rs nms1]|].
  - apply Done_inj in E4. inversion E4; subst rows2 nms1. destruct (build_rows_some _ _ _ _ _ E3) as (B1 & B2 & B3 & B4).
    exists ds, idx, (combine nms rs). unfold replaced. cbn [o_rows o_ndom o_next].
    assert (CS : map snd (combine nms rs) = rs).
    { apply combine_snd. rewrite B2. apply forall2_len in B1. lia. }
    conjs; try reflexivity; try assumption.
    + subst ds. cbn [List.length]. lia.
    + right. split; [rewrite CS; exact B1|].
      intros [s r] Hq. apply in_combine_l in Hq. destruct (B4 s Hq) as (t & T1 & T2). rewrite M1 in T1.
      destruct (M3 t T1) as (p & P1 & -> & _). exists p. split; [assumption|]. exact T2.
  - apply Done_inj in E4. inversion E4; subst rows2 nms. destruct (build_rows_none _ _ _ E3) as (d & D1 & D2).
    exists ds, idx, [(EmptyString, bad_row)]. unfold replaced. cbn [o_rows o_ndom o_next].
    conjs; try reflexivity; try assumption.
    + subst ds. cbn [List.length]. lia.
    + left. exists d. conjs; [assumption|assumption|reflexivity].
Qed.

(** ** Both directions *)

Lemma ext_bins adj o d lits p y : fresh o -> graph_sound (o_mip o) adj ->
  In p (o_rows o) -> detect_row (o_n o) (o_bin o) (snd p) = Done (Some lits) ->
  ext_ok (o_n o) adj lits d -> in_bounds (o_mip o) y ->
  (forall l, In l d -> (l < 2 * o_n o)%nat /\ bin_col (o_mip o) (lit_col (o_n o) l)).
Proof.
  intros (WF & _) GS IP D (XI & XN & XL & XA) B l H. split; [apply XL; assumption|].
  assert (WR : wf_row (o_n o) (snd p)) by (apply WF; apply in_map; assumption).
  pose proof (detect_row_lits _ _ _ _ WR D) as (LN & LB & L2 & _).
  destruct (in_dec Nat.eq_dec l lits) as [I|I].
  - apply is_bin_col. apply LB. assumption.
  - destruct lits as [|a lits']; [cbn in L2; lia|].
    assert (NE : l <> a) by (intros ->; apply I; left; reflexivity).
    destruct (XA l a H (XI a (or_introl eq_refl)) NE) as [[A _]|[A _]]; [contradiction|].
    destruct (GS l a A) as (_ & _ & G & _). exact G.
Qed.

(** No feasible point is lost. *)
Lemma replaced_keeps adj o o' ds idx added y : fresh o -> graph_sound (o_mip o) adj ->
  (forall p, In p (o_rows o) -> spaced (map snd (r_form (snd p)))) ->
  same_cols o o' -> replaced adj o o' ds idx added -> feasible (o_mip o) y -> feasible (o_mip o') y.
Proof.
  intros FR GS SP (C1 & C2 & C3 & C4) (R1 & R2 & R3 & R4 & R5 & R6 & R7) FE.
  pose proof FE as (FR1 & FB & FI).
  assert (LS : forall d, In d ds -> lits_sum (o_n o) d y <= 1 /\ NoDup d /\ (forall l, In l d -> (l < 2 * o_n o)%nat) /\
     forall l, In l d -> 0 <= y (lit_col (o_n o) l) <= 1).
  { intros d H. destruct (R6 d H) as (p & lits & P1 & P2 & P3).
    pose proof (ext_bins adj o d lits p y FR GS P1 P2 P3 FB) as BN.
    destruct P3 as (XI & XN & XL & XA).
    assert (BX : forall l, In l d -> 0 <= y (lit_col (o_n o) l) <= 1).
    { intros l HL. destruct (BN l HL) as [BL BC]. apply (bin_col_01 (o_mip o)); [assumption| |assumption].
      apply lit_col_lt. assumption. }
    assert (B01 : forall l, In l d -> y (lit_col (o_n o) l) == 0 \/ y (lit_col (o_n o) l) == 1).
    { intros l HL. destruct (BN l HL) as [BL BC]. apply integral_01; [|apply BX; assumption].
      apply FI; [apply lit_col_lt; assumption|apply BC]. }
    conjs; try assumption. apply lits_sum_le1; [assumption|intros l HL; apply lit_val_01; apply B01; assumption|].
    intros a b HA HB NE [VA VB]. destruct (XA a b HA HB NE) as [[IA IB]|[AD _]].
    - destruct FR as (WF & _).
      assert (WR : wf_row (o_n o) (snd p)) by (apply WF; apply in_map; assumption).
      pose proof (detect_row_lits _ _ _ _ WR P2) as (LN & LB & L2 & _).
      assert (lits_sum (o_n o) lits y < 2).
      { eapply detect_row_conflict; [exact WR|apply SP; exact P1|exact P2|apply FR1; apply in_map; exact P1|].
        intros j c HC. pose proof (detect_row_inv _ _ _ _ P2) as (_ & _ & EL & _).
        assert (HJ : (j < o_n o)%nat) by (eapply (proj2 WR); exact HC).
        assert (IL : In (lit_of (o_n o) (mult_of (snd p)) (j, c)) lits) by (rewrite EL; apply in_map; exact HC).
        pose proof (B01 _ (XI _ IL)) as Q0. rewrite lit_of_col in Q0 by exact HJ. exact Q0. }
      assert (lit_val (o_n o) a y + lit_val (o_n o) b y <= lits_sum (o_n o) lits y).
      { apply lits_sum_ge2; try assumption. intros l HL. apply lit_val_box. apply BX. apply XI. assumption. }
      lra.
    - destruct (GS a b AD) as (_ & _ & _ & _ & G). apply (G y FE). split; assumption. }
  unfold feasible. conjs.
  - intros r H. cbn [o_mip m_rows] in H. rewrite R1, map_app in H. apply in_app_iff in H. destruct H as [H|H].
    + apply in_map_iff in H. destruct H as (p & <- & H). apply delete_from_in in H. destruct H as (k & K & _).
      apply FR1. apply in_map. eapply nth_error_In; exact K.
    + destruct R7 as [(d & D1 & D2 & ->)|[R7 _]].
      * exfalso. destruct (LS d D1) as (L1 & L2 & L3 & L4).
        destruct (clique_row_ok (o_n o) d L2 L3) as (res & E & RES). rewrite D2 in E. apply Done_inj in E. subst res.
        specialize (RES y L4). lra.
      * apply In_nth_error in H. destruct H as [k K].
        assert (G : exists d, In d ds /\ built (o_n o) d r).
        { clear - R7 K. revert k K. induction R7 as [|d r0 a b XY AB IH]; intros [|k] K; try discriminate.
          - cbn in K. apply Some_inj in K. subst. exists d. split; [left; reflexivity|assumption].
          - destruct (IH k K) as (d' & D1 & D2). exists d'. split; [right|]; assumption. }
        destruct G as (d & D1 & (v & rhs & b & E & ->)). destruct (LS d D1) as (L1 & L2 & L3 & L4).
        destruct (clique_row_ok (o_n o) d L2 L3) as (res & E' & RES). rewrite E in E'. apply Done_inj in E'. subst res.
        destruct RES as (_ & _ & RES). specialize (RES y). unfold row_sat. cbn. split; [exact Logic.I|]. lra.
  - intros j J. cbn [o_mip m_ncols m_clo m_chi] in *. rewrite C1 in J. rewrite C2, C3. apply (FB j J).
  - intros j J. cbn [o_mip m_ncols m_int] in *. rewrite C1 in J. rewrite C4. apply (FI j J).
Qed.

(** No point is gained: not even a fractional one. *)
Lemma replaced_back adj o o' ds idx added y : fresh o -> graph_sound (o_mip o) adj ->
  (forall p, In p (o_rows o) -> no_tiny (snd p) /\ singles_ok (snd p)) ->
  same_cols o o' -> replaced adj o o' ds idx added -> in_bounds (o_mip o) y ->
  (forall r, In r (map snd (o_rows o')) -> row_sat r y) ->
  forall r, In r (map snd (o_rows o)) -> row_sat r y.
Proof.
  intros FR GS SI (C1 & C2 & C3 & C4) (R1 & R2 & R3 & R4 & R5 & R6 & R7) FB RS r HR.
  rewrite R1, map_app in RS.
  apply in_map_iff in HR. destruct HR as (p & <- & HR). apply In_nth_error in HR. destruct HR as [k K].
  destruct (in_dec Nat.eq_dec k idx) as [I|I].
  - destruct (R5 k I) as (p' & lits & d & P1 & P2 & P3 & P4). rewrite K in P1. apply Some_inj in P1. subst p'.
    assert (IP : In p (o_rows o)) by (eapply nth_error_In; exact K).
    destruct (R6 d P3) as (q & lits2 & Q1 & Q2 & Q3).
    pose proof (ext_bins adj o d lits2 q y FR GS Q1 Q2 Q3 FB) as BN. destruct Q3 as (_ & XN & XL & _).
    assert (BX : forall l, In l d -> 0 <= y (lit_col (o_n o) l) <= 1).
    { intros l HL. destruct (BN l HL) as [BL BC]. apply (bin_col_01 (o_mip o)); [assumption| |assumption].
      apply lit_col_lt. assumption. }
    destruct FR as (WF & _).
    assert (WR : wf_row (o_n o) (snd p)) by (apply WF; apply in_map; assumption).
    pose proof (detect_row_lits _ _ _ _ WR P2) as (LN & LB & L2 & _).
    assert (LD : lits_sum (o_n o) d y <= 1).
    { destruct R7 as [(d' & D1 & D2 & ->)|[R7 _]].
      - exfalso. assert (B : row_sat bad_row y) by (apply RS; apply in_app_iff; right; left; reflexivity).
        destruct B as [B1 B2]. cbn in B1, B2. lra.
      - assert (G : exists r, In r (map snd added) /\ built (o_n o) d r).
        { clear - R7 P3. induction R7 as [|d0 r0 a b XY AB IH]; [destruct P3|]. destruct P3 as [->|P3].
          - exists r0. split; [left; reflexivity|assumption].
          - destruct (IH P3) as (r1 & G1 & G2). exists r1. split; [right|]; assumption. }
        destruct G as (r & G1 & (v & rhs & b & E & ->)).
        destruct (clique_row_ok (o_n o) d XN XL) as (res & E' & RES). rewrite E in E'. apply Done_inj in E'. subst res.
        destruct RES as (_ & _ & RES). specialize (RES y).
        assert (B : row_sat (Row v None (Some rhs)) y) by (apply RS; apply in_app_iff; right; assumption).
        destruct B as [_ B]. cbn in B. lra. }
    eapply detect_row_back; [exact WR|apply SI; exact IP|apply SI; exact IP|exact P2| |].
    + intros j c HC. pose proof (detect_row_inv _ _ _ _ P2) as (_ & _ & EL & _).
      assert (HJ : (j < o_n o)%nat) by (eapply (proj2 WR); exact HC).
      assert (IL : In (lit_of (o_n o) (mult_of (snd p)) (j, c)) lits) by (rewrite EL; apply in_map; exact HC).
      pose proof (BX _ (P4 _ IL)) as Q0. rewrite lit_of_col in Q0 by exact HJ. exact Q0.
    + assert (lits_sum (o_n o) lits y <= lits_sum (o_n o) d y); [|lra].
      apply lits_sum_incl; try assumption. intros l HL. apply lit_val_box. apply BX. assumption.
  - apply RS. apply in_app_iff. left. apply in_map. apply delete_from_in. exists k. split; assumption.
Qed.

(** ** Totality *)

(** A plain set packing row: a sum of 2 to 256 binary columns, at most one. *)
Definition plain_packing (bin : nat -> bool) (r : row) : Prop :=
  r_lo r = None /\ (exists h, r_hi r = Some h /\ h == 1) /\
  (2 <= List.length (r_form r) <= 256)%nat /\
  forall j a, In (j, a) (r_form r) -> bin j = true /\ a == 1.

Lemma plain_entries n bin v : forall lits rhs m1 m2,
  (List.length lits + List.length v <= n)%nat ->
  (forall j a, In (j, a) v -> bin j = true /\ a == 1) ->
  (forall q, m1 = Some q -> q == 1) -> (forall q, m2 = Some q -> q == 1) ->
  exists m1' m2', detect_entries n bin 1 v lits rhs m1 m2 = Done (Some (lits ++ map fst v, rhs, m1', m2')) /\
    (forall q, m1' = Some q -> q == 1) /\ (forall q, m2' = Some q -> q == 1).
Proof.
  induction v as [|[j a] v IH]; intros lits rhs m1 m2 L P Q1 Q2; cbn [detect_entries].
  - exists m1, m2. cbn [map]. rewrite app_nil_r. conjs; [reflexivity|assumption|assumption].
  - cbn [List.length] in L. destruct (Nat.leb_spec n (List.length lits)); [lia|].
    destruct (P j a (or_introl eq_refl)) as [B A]. rewrite B. cbn [negb].
    destruct (Qle_bool (a * 1) (- CLQ_STR_EPS)) eqn:EN; [apply Qleb_le in EN; unfold CLQ_STR_EPS in EN; lra|].
    assert (QA : forall q, Some (a * 1) = Some q -> q == 1) by (intros q E; apply Some_inj in E; subst q; rewrite A; ring).
    assert (G : forall q1 q2, (forall q, q1 = Some q -> q == 1) -> (forall q, q2 = Some q -> q == 1) ->
      exists m1' m2', detect_entries n bin 1 v (lits ++ [j]) rhs q1 q2 =
        Done (Some (lits ++ map fst ((j, a) :: v), rhs, m1', m2')) /\
        (forall q, m1' = Some q -> q == 1) /\ (forall q, m2' = Some q -> q == 1)).
    { intros q1 q2 H1 H2. cbn [map fst].
      destruct (IH (lits ++ [j]) rhs q1 q2) as (a1 & a2 & E & E1 & E2).
      - rewrite app_length. cbn [List.length]. lia.
      - intros; apply P; right; assumption.
      - assumption. - assumption.
      - exists a1, a2. rewrite <- app_assoc in E. conjs; assumption. }
    destruct (below (a * 1) m1); [apply G; assumption|]. destruct (below (a * 1) m2); apply G; assumption.
Qed.
Lemma plain_detected n bin r : wf_row n r -> plain_packing bin r ->
  detect_row n bin r = Done (Some (map fst (r_form r))).
Proof.
  intros WF (P1 & (h & P2 & P3) & P4 & P5). pose proof (wf_row_len n r WF). unfold detect_row.
  destruct (Nat.leb_spec (List.length (r_form r)) 1); [lia|]. unfold MAX_SIZE_CLIQUE.
  destruct (Nat.ltb_spec 256 (List.length (r_form r))); [lia|]. cbn [orb].
  assert (RS : row_sense r = SenseL) by (unfold row_sense; rewrite P1, P2; reflexivity). rewrite RS.
  destruct (plain_entries n bin (r_form r) [] (1 * row_rhs r) None None) as (m1 & m2 & E & E1 & E2).
  - cbn; lia. - assumption. - intros q Hq; discriminate. - intros q Hq; discriminate.
  - rewrite E. cbn [bind app]. assert (M : min_sum_ge m1 m2 (1 * row_rhs r + CLQ_STR_EPS) = true).
    { unfold min_sum_ge. destruct m1 as [a|]; [|reflexivity]. destruct m2 as [b|]; [|reflexivity].
      apply Qleb_le. rewrite (E1 a eq_refl), (E2 b eq_refl). unfold row_rhs, CLQ_STR_EPS. rewrite P1, P2. lra. }
    rewrite M. reflexivity.
Qed.

Lemma positions_ok n bin rs w cr pos : cr_ok n bin rs cr -> pos_ok n bin rs cr pos ->
  (forall r, In r rs -> wf_row n r) ->
  (forall l, w = TheseRows l -> forall i, In i l -> exists r, nth_error rs i = Some r /\ plain_packing bin r) ->
  forall ok, In ok (positions w cr pos) -> exists k, ok = Done k /\ (k < List.length cr)%nat.
Proof.
  intros CO [PL PO] WF W ok H. destruct w as [|l]; cbn [positions] in H; apply in_map_iff in H.
  - destruct H as (k & <- & H). apply in_seq in H. exists k. split; [reflexivity|lia].
  - destruct H as (i & <- & H). destruct (W l eq_refl i H) as (r & R1 & R2).
    destruct (PO i r _ R1 (plain_detected n bin r (WF r (nth_error_In _ _ R1)) R2)) as (k & c & K1 & K2 & _).
    rewrite K1. exists k. split; [reflexivity|]. apply nth_error_Some. congruence.
Qed.

Lemma str_len_app a b : String.length (append a b) = (String.length a + String.length b)%nat.
Proof. induction a as [|x a IH]; cbn [append String.length]; [reflexivity|]. rewrite IH. reflexivity. Qed.

Lemma strengthen_total adj ext stop w o : fresh o -> ext_spec (o_n o) adj ext ->
  (forall p, In p (o_rows o) -> (String.length (fst p) <= 247)%nat) ->
  (num_elements (map snd (o_rows o)) = 0%nat -> o_n o = 0%nat \/ o_rows o = []) ->
  (forall l, w = TheseRows l -> forall i, In i l -> exists p, nth_error (o_rows o) i = Some p /\ plain_packing (o_bin o) (snd p)) ->
  exists o', strengthen ext stop w o = Done o'.
Proof.
  intros (WF & NM & FR) EX LN NE W. unfold strengthen.
  destruct (Nat.eqb_spec (o_n o) 0) as [H0|H0]; [eexists; reflexivity|].
  destruct (Nat.eqb_spec (List.length (o_rows o)) 0) as [H1|H1]; [eexists; reflexivity|]. cbn [orb].
  destruct (o_cr o) as [cr|] eqn:EC.
  2:{ exfalso. destruct (NE FR) as [|E]; [contradiction|]. rewrite E in H1. contradiction H1. reflexivity. }
  destruct FR as (CO & PO & _). destruct cr as [|c1 cr1]; [eexists; reflexivity|]. set (cr := c1 :: cr1) in *.
  assert (WR : forall r, In r (map snd (o_rows o)) -> wf_row (o_n o) r) by exact WF.
  destruct (ext_loop_total (o_n o) (o_rows o) (o_bin o) adj ext stop cr (o_names o) WR CO EX
     (positions w cr (o_pos o)) 0 _ (loop_inv_start _ _ _ _)) as [st E].
  - eapply positions_ok; [exact CO|exact PO|exact WR|]. intros l Hl i Hi. destruct (W l Hl i Hi) as (p & P1 & P2).
    exists (snd p). split; [|assumption]. rewrite nth_error_map, P1. reflexivity.
  - intros p Hp. specialize (LN p Hp). lia.
  - rewrite E. cbn [bind].
    pose proof (ext_loop_inv (o_n o) (o_rows o) (o_bin o) adj ext stop cr (o_names o) WR CO EX _ _ _ _
      (loop_inv_start _ _ _ _ ) E) as (F & N & L & Z & more & M1 & M2 & M3).
    destruct (e_new st) as [|d0 ds0] eqn:EN; [eexists; reflexivity|]. set (ds := d0 :: ds0) in *.
    assert (OR : map cr_orig (e_cr st) = map cr_orig cr).
    { clear - F. induction F as [|x y a b XY AB IH]; [reflexivity|]. cbn [map]. destruct XY as (_ & A & _). congruence. }
    set (idx := map cr_orig (filter cr_dom (e_cr st))).
    assert (NI : NoDup idx).
    { destruct CO as [CN _]. rewrite <- OR in CN. subst idx. clear - CN. induction (e_cr st) as [|c l IH]; [constructor|].
      cbn [map] in CN. inversion CN as [|? ? N1 N2]; subst. cbn [filter]. destruct (cr_dom c); [|apply IH; assumption].
      cbn [map]. constructor; [|apply IH; assumption]. intros H. apply N1. apply in_map_iff in H.
      destruct H as (q & Q1 & Q2). apply filter_In in Q2. apply in_map_iff. exists q. tauto. }
    assert (IL : forall i, In i idx -> (i < List.length (o_rows o))%nat).
    { intros i H. assert (I1 : In i (map cr_orig cr)).
      { rewrite <- OR. apply in_map_iff in H. destruct H as (c & C1 & C2). apply filter_In in C2.
        apply in_map_iff. exists c. tauto. }
      apply in_map_iff in I1. destruct I1 as (c & <- & C2). pose proof (cr_ok_orig _ _ _ _ _ CO C2) as Q0.
      rewrite map_length in Q0. exact Q0. }
    assert (LE : (List.length idx <= List.length (o_rows o))%nat).
    { rewrite <- (seq_length (List.length (o_rows o)) 0). apply NoDup_incl_length; [assumption|].
      intros i H. apply in_seq. specialize (IL i H). lia. }
    unfold remove_dominated. fold idx. destruct (Nat.ltb_spec (List.length (o_rows o)) (List.length idx)); [lia|].
    assert (TA : forall rws, exists ad, add_stronger (o_n o) ds (e_names st) rws = Done ad).
    { intros rws. unfold add_stronger.
      destruct (build_rows_total (o_n o) ds (e_names st)) as [b B].
      - rewrite M1, app_length. lia.
      - intros d Hd. destruct (N d Hd) as (i & c & IC & XE).
        destruct (cr0_lits (o_n o) (o_rows o) (o_bin o) cr WR CO c IC) as [ND LT].
        destruct (EX i (cr_lits c) d ND (fun l HL => proj1 (LT l HL)) XE) as (_ & X1 & X2 & _). split; assumption.
      - intros s Hs. rewrite M1, NM in Hs. cbn [app] in Hs. destruct (M3 s Hs) as (p & P1 & -> & _).
        rewrite str_len_app. specialize (LN p P1). cbn [String.length]. lia.
      - rewrite B. cbn [bind]. destruct b as [[rs nms]|]; eexists; reflexivity. }
    destruct (Nat.eqb_spec (List.length idx) 0).
    + cbn [bind snd]. destruct (TA (o_rows o)) as [ad AD]. rewrite AD. eexists; reflexivity.
    + unfold delete_rows.
      assert (FB : forallb (fun k => (k <? List.length (o_rows o))%nat) idx = true).
      { apply forallb_forall. intros i Hi. apply Nat.ltb_lt. apply IL. assumption. }
      rewrite FB, (proj2 (nodup_b_ok idx) NI). cbn [andb bind snd].
      destruct (TA (delete_from 0 idx (o_rows o))) as [ad AD]. rewrite AD. eexists; reflexivity.
Qed.

(** ** Checkers used by the examples *)

Definition spacedb (cs : list Q) : bool :=
  forallb (fun a => Qeq_bool a 0 || Qle_bool CLQ_STR_EPS (Qabs.Qabs a)) cs &&
  forallb (fun a => forallb (fun b => Qeq_bool (Qabs.Qabs a) (Qabs.Qabs b) ||
     (Qle_bool (Qabs.Qabs a + CLQ_STR_EPS) (Qabs.Qabs b) || Qle_bool (Qabs.Qabs b + CLQ_STR_EPS) (Qabs.Qabs a))) cs) cs.
Lemma spacedb_ok cs : spacedb cs = true -> spaced cs.
Proof.
  unfold spacedb. intros H. apply andb_prop in H. destruct H as [H1 H2].
  rewrite forallb_forall in H1, H2. split.
  - intros a A. specialize (H1 a A). apply orb_prop in H1. destruct H1 as [H1|H1].
    + left. apply Qeqb_eq. assumption. + right. apply Qleb_le. assumption.
  - intros a b A B. specialize (H2 a A). rewrite forallb_forall in H2. specialize (H2 b B).
    apply orb_prop in H2. destruct H2 as [H2|H2]; [left; apply Qeqb_eq; assumption|right].
    apply orb_prop in H2. destruct H2 as [H2|H2]; [left|right]; apply Qleb_le; assumption.
Qed.
Definition singlesb (r : row) : bool :=
  forallb (fun p => match r_hi r with Some h => Qle_bool (min_act (r_form r) + Qabs.Qabs (snd p)) h | None => true end &&
                    match r_lo r with Some l => Qle_bool l (max_act (r_form r) - Qabs.Qabs (snd p)) | None => true end) (r_form r).
Lemma singlesb_ok r : singlesb r = true -> singles_ok r.
Proof.
  unfold singlesb. rewrite forallb_forall. intros H. split.
  - intros h E j a I. specialize (H (j, a) I). rewrite E in H. apply andb_prop in H. destruct H as [H _].
    apply Qleb_le. exact H.
  - intros h E j a I. specialize (H (j, a) I). rewrite E in H. apply andb_prop in H. destruct H as [_ H].
    apply Qleb_le. exact H.
Qed.
Lemma spaced_no_tiny r : spaced (map snd (r_form r)) -> no_tiny r.
Proof. intros [S1 _] j a H. apply S1. apply in_map_iff. exists (j, a). split; [reflexivity|assumption]. Qed.
