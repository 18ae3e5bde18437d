(** * CglLandP: termination, memory safety and the number of cuts *)

From Coq Require Import Qabs Permutation.
From Verif Require Import Base Model_LandP Proofs_LandP Proofs_LandPCut Proofs_LandPLoop Proofs_LandPGen.
Local Open Scope Q_scope.

(** [U] says whether undefined behaviour is tolerated: with True the lemmas speak
    of termination only, with False of safety too. *)
Definition ends {A} (U : Prop) (P : A -> Prop) (o : outcome A) : Prop :=
  match o with Done a => P a | Undef _ => U | OutOfFuel => False | _ => True end.
Lemma ends_bind {A B} U (P : A -> Prop) (R : B -> Prop) (o : outcome A) f :
  ends U P o -> (forall a, o = Done a -> P a -> ends U R (f a)) -> ends U R (bind o f).
Proof. destruct o; cbn; intros H K; auto. Qed.
Lemma ends_weak {A} U (P R : A -> Prop) o : ends U P o -> (forall a, o = Done a -> P a -> R a) -> ends U R o.
Proof. destruct o; cbn; intros H K; auto. Qed.
Lemma ends_ofold {A S} U (P : S -> Prop) (f : S -> A -> outcome S) l : forall s, P s ->
  (forall s a, In a l -> P s -> ends U P (f s a)) -> ends U P (ofold f l s).
Proof.
  induction l as [|a l IH]; intros s Ps H; cbn [ofold]; [exact Ps|].
  eapply ends_bind; [apply H; [left; reflexivity|exact Ps]|]. intros s' _ Ps'. apply IH; [exact Ps'|]. intros; apply H; [right; assumption|assumption].
Qed.

Lemma filter_len {A} (f : A -> bool) l : (length (filter f l) <= length l)%nat.
Proof. induction l as [|a l IH]; cbn; [lia|]. destruct (f a); cbn; lia. Qed.

Section Validator.
  Variables (U : Prop) (eps : Q) (nb : nat) (lo up : nat -> option Q).
  Lemma clean_loop_ends ratio l : (U \/ forall j a, In (j, a) l -> (j < nb)%nat) -> forall s, ends U (fun _ => True) (clean_loop eps ratio nb lo up l s).
  Proof.
    induction l as [|(j, a) l IH]; intros H s; cbn [clean_loop]; [exact I|].
    eapply ends_bind with (P := fun _ => True).
    - unfold clean_step. destruct (Qabs a <=? eps).
      + destruct (_ && _); [exact I|]. destruct (Qeq_bool _ _); [exact I|].
        destruct (Nat.leb_spec nb j) as [LB|LB].
        * cbn. destruct H as [H|H]; [exact H|]. specialize (H j a (or_introl eq_refl)). lia.
        * destruct (if 0 <? a then _ else _); exact I.
      + destruct (_ <? _); exact I.
    - intros r _ _. destruct r; [|exact I]. apply IH. destruct H as [H|H]; [left; exact H|]. right. intros; eapply H; right; eassumption.
  Qed.
  Lemma cleanCut_ends v ncols x c : (U \/ exists z, max_nnz v ncols = Done z) -> (U \/ forall j a, In (j, a) (fst c) -> (j < nb)%nat) ->
    ends U (fun _ => True) (cleanCut eps v ncols nb lo up x c).
  Proof.
    intros M H. unfold cleanCut. eapply ends_bind with (P := fun _ => True).
    - unfold max_nnz in *. destruct (int_range _); cbn; [exact I|]. destruct M as [M|(z & M)]; [exact M|discriminate].
    - intros mx _ _. destruct (_ <? _); [exact I|]. eapply ends_bind; [apply clean_loop_ends|intros r _ _].
      + exact H.
      + destruct r; [|exact I]. destruct (_ <? _)%Z; [exact I|]. destruct (Nat.eqb _ _); [exact I|]. destruct (_ <? _); exact I.
  Qed.
End Validator.

Section Safe.
  Variable U : Prop.
  Variable m : mip.
  Variable s_ : solver.
  Variable h : choices.
  Variable p : lpar.
  Variable v_ : validator.
  Variable x0 : nat -> Q.
  Notation n := (m_ncols m).
  Notation nrow := (length (m_rows m)).
  (** what safety asks of the parameters and of the numerical choices *)
  Record careful : Prop := {
    ca_rule : p_rule p <> InitialReducedCosts;
    ca_col : forall s lv dir g j, h_col h s lv dir g = Col j -> (j < n)%nat;
    ca_best : forall s l k j, h_best h s l = Some (k, Col j) -> (j < n)%nat;
    ca_pivot : forall b i o dir order, length (b_basics b) = nrow -> s_pivot s_ b i o dir = Some order -> length order = nrow;
    ca_nnz : exists z, max_nnz v_ n = Done z
  }.
  Hypothesis C : U \/ careful.

  Definition basis_len (b : basis) : Prop := U \/ (length (b_basics b) = nrow /\ length (b_nonbasics b) = n).
  Lemma pull_ends b r : basis_len b -> (U \/ r < nrow)%nat -> ends U (fun t => t_num t = r) (pull m s_ b r).
  Proof.
    intros B R. unfold pull. destruct (nth_error (b_basics b) r) as [k|] eqn:E.
    - destruct (forallb _ _); [|exact I]. destruct (basic_value m s_ b k); [reflexivity|exact I].
    - cbn. destruct B as [B|(B & _)]; [exact B|]. destruct R as [R|R]; [exact R|]. apply nth_error_None in E. lia.
  Qed.
  Lemma term_fold_ends (f : (nat -> Q) * Q -> nat -> outcome ((nat -> Q) * Q)) l :
    (forall s v, ends U (fun _ => True) (f s v)) -> forall s, ends U (fun _ => True) (ofold f l s).
  Proof. intros H s. apply ends_ofold; [exact I|]. intros; apply H. Qed.
  Lemma mul_opt_ends rhs a o : ends U (fun _ => True) (mul_opt rhs a o).
  Proof. destruct o; exact I. Qed.
  Lemma mig_term_ends b t s v : ends U (fun _ => True) (mig_term m b t s v).
  Proof.
    unfold mig_term. destruct (Qeq_bool _ _); [exact I|]. destruct (v <? n)%nat.
    - destruct (stat_eqb _ _); (eapply ends_bind; [apply mul_opt_ends|intros; exact I]).
    - destruct (r_hi _); (eapply ends_bind; [apply mul_opt_ends|intros; exact I]).
  Qed.
  Lemma int_term_ends b t s v : ends U (fun _ => True) (int_term m b t s v).
  Proof.
    unfold int_term. destruct (_ <=? _); [exact I|]. destruct (v <? n)%nat.
    - destruct (stat_eqb _ _); (eapply ends_bind; [apply mul_opt_ends|intros; exact I]).
    - destruct (r_lo _); [destruct (_ || _); exact I|]. destruct (stat_eqb _ _); [|exact I]. eapply ends_bind; [apply mul_opt_ends|intros; exact I].
  Qed.
  Lemma unflip_ends b t : ends U (fun t' => t_num t' = t_num t) (unflip m b t).
  Proof. unfold unflip. destruct (forallb _ _); cbn; auto. Qed.
  Lemma create_ends b t : ends U (fun r => t_num (fst r) = t_num t) (create m p b t).
  Proof.
    unfold create, createMIG, createIC. destruct (_ || _).
    - eapply ends_bind; [apply unflip_ends|]. intros t1 _ E1. eapply ends_bind; [apply term_fold_ends; intros; apply mig_term_ends|]. intros r _ _. exact E1.
    - eapply ends_bind; [apply unflip_ends|]. intros t1 _ E1. eapply ends_bind; [apply term_fold_ends; intros; apply int_term_ends|]. intros r _ _. exact E1.
  Qed.
  Lemma generateMig_ends b i : basis_len b -> (U \/ i < nrow)%nat -> ends U (fun r => t_num (fst r) = i) (generateMig m s_ p b i).
  Proof.
    intros B R. unfold generateMig. eapply ends_bind; [apply pull_ends; eassumption|]. intros t _ T.
    eapply ends_weak; [apply create_ends|]. intros r _ E. rewrite E. exact T.
  Qed.
  Definition st (s : ost) : Prop := basis_len (o_b s) /\ (U \/ t_num (o_k s) < nrow)%nat.
  Lemma extra_step_ends s i : st s -> (U \/ i < nrow)%nat -> ends U (fun s' => st s' /\ o_piv s' = o_piv s) (extra_step m s_ h p v_ x0 s i).
  Proof.
    intros (B & K) R. unfold extra_step.
    destruct (few_extra p s && match nth_error (b_basics (o_b s)) i with Some c => (c <? n)%nat | None => false end) eqn:X;
      [|split; [split; assumption|reflexivity]].
    unfold extra_cut. destruct (nth_error (b_basics (o_b s)) i) as [c|] eqn:Ec; [|rewrite andb_false_r in X; discriminate].
    destruct (_ || _); [split; [split; assumption|reflexivity]|].
    eapply ends_bind; [apply generateMig_ends; eassumption|]. intros r Er T. destruct (Qabs _ <? c1e10); [|exact I].
    eapply ends_bind; [apply cleanCut_ends|].
    - destruct C as [C'|C']; [left; exact C'|right; apply (ca_nnz C')].
    - destruct r as (t', f). unfold generateMig in Er. apply bind_done in Er. destruct Er as (t0 & _ & Er).
      right. intros j a Ij. destruct (create_shape m p _ _ _ _ Er) as (_ & G). specialize (G j a Ij). lia.
    - intros cc _ _. assert (K' : (U \/ t_num (fst r) < nrow)%nat) by (rewrite T; exact R).
      destruct (fst cc); (split; [split; assumption|reflexivity]).
  Qed.

  (** *** Searching *)
  Definition cnt (f : nat -> bool) : nat := length (filter f (seq 0 nrow)).
  Lemma cnt_upd f lv : f lv = true -> (lv < nrow)%nat -> S (cnt (upd f lv false)) = cnt f.
  Proof.
    intros F L. unfold cnt. assert (G : forall l, NoDup l -> In lv l -> S (length (filter (upd f lv false) l)) = length (filter f l)).
    { clear L. induction l as [|a l IH]; intros ND I; [destruct I|]. inversion ND; subst. cbn [filter]. unfold upd at 1.
      destruct (Nat.eqb_spec a lv) as [->|N].
      - rewrite F. cbn [length]. f_equal. rewrite (filter_ext_in (upd f lv false) f); [reflexivity|].
        intros b Ib. apply upd_other. intros ->. contradiction.
      - destruct I as [->|I]; [congruence|]. destruct (f a); cbn [length]; rewrite <- (IH H2 I); reflexivity. }
    apply G; [apply seq_NoDup|]. apply in_seq. lia.
  Qed.
  Lemma cnt_upd_le f lv : (cnt (upd f lv false) <= cnt f)%nat.
  Proof.
    unfold cnt. induction (seq 0 nrow) as [|a l IH]; cbn [filter]; [lia|]. unfold upd at 1.
    destruct (Nat.eqb a lv); [destruct (f a); cbn [length]; lia|]. destruct (f a); cbn [length]; lia.
  Qed.
  Lemma cnt_le f : (cnt f <= nrow)%nat.
  Proof. unfold cnt. pose proof (filter_len f (seq 0 nrow)) as H. rewrite seq_length in H. exact H. Qed.
  (** the pick: an existing row and column *)
  Definition pick_ok (r : ost * pick) : Prop :=
    match snd r with Some (lv, _, Some j) => (U \/ (lv < nrow /\ j < n))%nat | _ => True end.
  Definition kept (s : ost) (r : ost * pick) : Prop := st (fst r) /\ o_piv (fst r) = o_piv s /\ pick_ok r.
  Lemma st_same s s' : o_b s' = o_b s -> o_k s' = o_k s -> st s -> st s'.
  Proof. unfold st. intros -> ->. auto. Qed.
  Lemma try_rows_ends fuel : forall s lv dir g c, st s -> (U \/ lv < nrow)%nat ->
    (U \/ match c with Col j => j < n | _ => True end)%nat -> (cnt (o_flag s) + (if o_flag s lv then 0 else 1) <= fuel)%nat ->
    (lv < nrow)%nat -> ends U (kept s) (try_rows m h p fuel s lv dir g c).
  Proof.
    assert (J : forall (s : ost) lv (dir : Z) j, st s -> (U \/ lv < nrow)%nat -> (U \/ j < n)%nat -> kept s (s, Some (lv, dir, Some j))).
    { intros s lv dir j S L Lj. split; [exact S|]. split; [reflexivity|]. cbn. destruct L as [L|L]; [auto|]. destruct Lj; auto. }
    induction fuel as [|fuel IH]; intros s lv dir g c S L Lc F LV; cbn [try_rows].
    - assert (Z : False -> ends U (kept s) (@OutOfFuel (ost * pick))) by (intros []).
      destruct c as [j| |]; [apply J; assumption| |]; (destruct (o_failed s <? 5)%Z; [|split; [exact S|split; [reflexivity|exact I]]]); apply Z;
        destruct (o_flag s lv) eqn:E; try lia; assert (H := cnt_upd (o_flag s) lv E LV); lia.
    - assert (G : forall s1, o_b s1 = o_b s -> o_k s1 = o_k s -> o_piv s1 = o_piv s -> o_flag s1 = o_flag s ->
        ends U (kept s) match rescan m p (tick (set_flag s1 lv)) with
              | Some (lv', dir', g') => try_rows m h p fuel (tick (set_flag s1 lv)) lv' dir' g' (h_col h (tick (set_flag s1 lv)) lv' dir' g')
              | None => Done (tick (set_flag s1 lv), None) end).
      { intros s1 E1 E2 E3 E4. set (s2 := tick (set_flag s1 lv)).
        assert (S2 : st s2) by (apply (st_same s); [exact E1|exact E2|exact S]).
        destruct (rescan m p s2) as [[[lv' dir'] g']|] eqn:R; [|split; [exact S2|split; [exact E3|exact I]]].
        destruct (rescan_flag m p s2 lv' dir' g' R) as (R1 & R2).
        eapply ends_weak; [apply IH|]; auto.
        - destruct C as [C'|C']; [left; exact C'|]. right. destruct (h_col h s2 lv' dir' g') eqn:HC; auto. apply (ca_col C' _ _ _ _ _ HC).
        - rewrite R1. cbn [s2 tick set_flag o_flag]. rewrite E4. destruct (o_flag s lv) eqn:Fl.
          + assert (H := cnt_upd (o_flag s) lv Fl LV). lia.
          + pose proof (cnt_upd_le (o_flag s) lv). lia.
        - intros r _ (K1 & K2 & K3). split; [exact K1|]. split; [|exact K3]. rewrite K2. exact E3. }
      destruct c as [j| |]; [apply J; assumption| |]; (destruct (o_failed s <? 5)%Z; [|split; [exact S|split; [reflexivity|exact I]]]).
      + apply (G (add_failed s)); reflexivity.
      + destruct (p_countRc p); [apply (G (add_failed s)); reflexivity|apply (G s); reflexivity].
  Qed.
  Lemma try_initial_ends fuel : forall s, U -> st s -> (cnt (o_flag s) < fuel)%nat -> ends U (kept s) (try_initial m h p fuel s).
  Proof.
    induction fuel as [|fuel IH]; intros s HU S F; [lia|]. cbn [try_initial].
    destruct (rescan m p s) as [[[lv dir] g]|] eqn:R; [|exact HU]. destruct (rescan_flag m p s lv dir g R) as (R1 & R2).
    set (s1 := tick (set_flag s lv)). assert (S1 : st s1) by (apply (st_same s); [reflexivity|reflexivity|exact S]).
    assert (F1 : (cnt (o_flag s1) < fuel)%nat). { cbn [s1 tick set_flag o_flag]. pose proof (cnt_upd (o_flag s) lv R1 R2). lia. }
    destruct (h_col h s1 lv dir g); [split; [exact S1|split; [reflexivity|left; exact HU]]| |];
      (eapply ends_weak; [apply (IH s1 HU S1 F1)|intros r _ K; exact K]).
  Qed.
  Lemma search_ends s : st s -> ends U (kept s) (search m s_ h p s).
  Proof.
    intro S. unfold search. destruct (negb _ || _) eqn:X.
    - destruct (s_clp s_); [|exact I]. set (s1 := tick (set_tables m h p s (rule_eqb (p_rule p) InitialReducedCosts))).
      assert (S1 : st s1) by (apply (st_same s); [reflexivity|reflexivity|exact S]).
      destruct (find_row m h p s) as [[[lv dir] g]|] eqn:FR; [|split; [exact S1|split; [reflexivity|exact I]]].
      destruct (find_row_ok m h p s lv dir g FR) as (L & _).
      assert (T : forall s2, o_b s2 = o_b s -> o_k s2 = o_k s -> o_piv s2 = o_piv s -> ends U (kept s) (try_rows m h p (Datatypes.S (Datatypes.S nrow)) s2 lv dir g (h_col h s2 lv dir g))).
      { intros s2 E1 E2 E3. eapply ends_weak; [apply try_rows_ends|]; auto.
        - apply (st_same s); assumption.
        - destruct C as [C'|C']; [left; exact C'|]. right. destruct (h_col h s2 lv dir g) eqn:HC; auto. apply (ca_col C' _ _ _ _ _ HC).
        - pose proof (cnt_le (o_flag s2)). destruct (o_flag s2 lv); lia.
        - intros r _ (K1 & K2 & K3). split; [exact K1|]. split; [rewrite K2; exact E3|exact K3]. }
      destruct (p_rule p) eqn:RE.
      + apply T; reflexivity.
      + destruct (h_best h s1 (candidates m p s1)) as [(k, c)|] eqn:HB; [|split; [exact S1|split; [reflexivity|exact I]]].
        destruct (nth_error (candidates m p s1) k) as [(lv', dir')|] eqn:N; [|split; [exact S1|split; [reflexivity|exact I]]].
        split; [exact S1|]. split; [reflexivity|]. cbn. destruct c as [j| |]; auto. destruct C as [C'|C']; [left; exact C'|]. right.
        split; [|apply (ca_best C' _ _ _ _ HB)]. apply nth_error_In in N. unfold candidates in N. apply in_flat_map in N. destruct N as (i & Ii & N).
        apply in_seq in Ii. destruct (o_tab s1 i) as [[[ul vl] uu] vu]. destruct (o_flag s1 i); [|destruct N].
        apply in_app_or in N. destruct N as [N|N]; destruct (_ || _) in N; try (destruct N); try contradiction; injection H as <- _; lia.
      + apply T; reflexivity.
    - destruct C as [C'|C'].
      + eapply ends_weak; [apply try_initial_ends; [exact C'|apply (st_same s); [reflexivity|reflexivity|exact S]|]|].
        * pose proof (cnt_le (o_flag (tick s))). lia.
        * intros r _ K. exact K.
      + exfalso. pose proof (ca_rule C') as RU. apply orb_false_elim in X. destruct X as (X & _). apply negb_false_iff in X.
        destruct (p_rule p); try discriminate. congruence.
  Qed.
  Lemma change_basis_ends s j lv dir : st s -> (U \/ (lv < nrow /\ j < n))%nat ->
    ends U (fun r => st (fst r) /\ o_piv (fst r) = o_piv s) (change_basis m s_ s j lv dir).
  Proof.
    intros (B & K) R. unfold change_basis. destruct (_ || _) eqn:X.
    - cbn. destruct R as [R|(R1 & R2)]; [exact R|]. destruct B as [B|(B1 & B2)]; [exact B|]. exfalso.
      apply orb_prop in X. rewrite B1, B2 in X. destruct X as [X|X]; apply Nat.leb_le in X; lia.
    - destruct (s_pivot s_ _ _ _ dir) as [order|] eqn:Ep.
      + set (num := if Nat.eqb _ _ then _ else _). set (b' := moved_basis m (o_b s) j lv dir order).
        assert (B' : basis_len b').
        { destruct B as [B|(B1 & B2)]; [left; exact B|]. destruct C as [C'|C']; [left; exact C'|]. right. cbn [b' moved_basis b_basics b_nonbasics].
          rewrite replace_len. split; [|exact B2]. apply (ca_pivot C' _ _ _ _ _ B1 Ep). }
        assert (N' : (U \/ num < nrow)%nat).
        { unfold num. destruct (Nat.eqb _ _); [exact K|]. destruct (position _ order) as [i|] eqn:P; [|exact K]. apply position_lt in P.
          destruct B' as [B'|(B1' & _)]; [left; exact B'|]. right. cbn [b' moved_basis b_basics] in B1'. lia. }
        eapply ends_bind; [apply pull_ends; eassumption|]. intros t _ T. cbn. split; [|reflexivity]. split; [exact B'|]. cbn. rewrite T. exact N'.
      + eapply ends_bind; [apply pull_ends; eassumption|]. intros t _ T. cbn. split; [|reflexivity]. split; [exact B|]. cbn. rewrite T. exact K.
  Qed.
  Lemma iterate_ends s : st s -> ends U (fun v => st (verdict_state v) /\ match v with Next s' => o_piv s' = (o_piv s + 1)%Z | _ => True end) (iterate m s_ h p v_ x0 s).
  Proof.
    intro S. unfold iterate. destruct (h_time h s); [split; [exact S|exact I]|].
    eapply ends_bind; [apply search_ends; apply (st_same s); [reflexivity|reflexivity|exact S]|].
    intros (s1, k) _ (K1 & K2 & K3). cbn [fst snd pick_ok] in *.
    destruct k as [[[lv dir] [j|]]|]; [|split; [exact K1|exact I]|split; [exact K1|exact I]]. cbn in K3.
    eapply ends_bind; [apply change_basis_ends with (j := j) (lv := lv); [|exact K3]|].
    - destruct (h_deg h s1); [apply (st_same s1); [reflexivity|reflexivity|exact K1]|exact K1].
    - intros (s3, ok) _ (J1 & J2). cbn [fst snd] in *.
      eapply ends_bind with (P := fun s' => st s' /\ o_piv s' = o_piv s3).
      + unfold entering. destruct (mode_eqb _ _); [|split; [exact J1|reflexivity]]. apply extra_step_ends; [exact J1|]. destruct K3 as [K3|(K3 & _)]; auto.
      + intros s4 _ (Q1 & Q2). destruct ok; [|split; [exact Q1|exact I]].
        assert (S5 : st (pivoted m p s4)).
        { destruct Q1 as (Q1 & Q3). split; [exact Q1|]. cbn [pivoted o_k]. destruct (p_modularize p); exact Q3. }
        destruct (h_worse h _); (split; [exact S5|]); [exact I|]. cbn [pivoted o_piv]. rewrite Q2, J2. destruct (h_deg h s1); cbn [set_flag o_piv]; rewrite K2; reflexivity.
  Qed.
  Lemma loop_ends fuel lim : forall s, st s -> (lim - o_piv s <= Z.of_nat fuel)%Z -> ends U (fun v => st (verdict_state v)) (loop m s_ h p v_ x0 fuel lim s).
  Proof.
    induction fuel as [|fuel IH]; intros s S F; cbn [loop]; destruct (o_piv s <? lim)%Z eqn:E; try exact S.
    - apply Z.ltb_lt in E. cbn in F. lia.
    - eapply ends_bind; [apply iterate_ends; exact S|]. intros v _ (V1 & V2). destruct v; try exact V1. apply IH; [exact V1|]. rewrite V2. lia.
  Qed.
  Lemma optimize_ends run b0 lim row extra : basis_len b0 -> (U \/ row < nrow)%nat ->
    ends U (fun _ => True) (optimize m s_ h p v_ x0 run b0 lim row extra).
  Proof.
    intros B R. unfold optimize. eapply ends_bind; [apply pull_ends; eassumption|]. intros t _ T.
    destruct (_ <? _)%Z; [exact I|]. eapply ends_bind; [apply loop_ends|].
    - split; [exact B|]. cbn [o_k]. destruct (p_modularize p); cbn [modularize center t_num]; rewrite T; exact R.
    - cbn [o_piv]. lia.
    - intros v _ V.
      assert (K : forall s, st s -> ends U (fun _ => True)
        (if (p_maxLen p <? t_len (o_k s))%Z then Done (None, o_extra s)
         else do c <- create m p (o_b s) (o_k s);
            if mode_eqb (p_extra p) AtOptimalBasis then
              do s' <- extra_cuts m s_ h p v_ x0 (set_k s (fst c)); Done (Some (snd c), o_extra s')
            else Done (Some (snd c), o_extra s))).
      { intros s (S1 & S2). destruct (_ <? _)%Z; [exact I|]. eapply ends_bind; [apply create_ends|]. intros c _ Tc.
        destruct (mode_eqb _ _); [|exact I]. eapply ends_bind with (P := st); [|intros; exact I]. unfold extra_cuts.
        apply ends_ofold.
        - split; [exact S1|]. cbn. rewrite Tc. exact S2.
        - intros a i Ii Sa. apply in_seq in Ii. eapply ends_weak; [apply extra_step_ends; [exact Sa|right; lia]|]. intros s' _ (Q & _). exact Q. }
      destruct v; cbn [verdict_state] in V; [apply K; exact V|exact I|apply K; exact V].
  Qed.
End Safe.

(** ** generateCuts *)
Section GenSafe.
  Variable U : Prop.
  Variable ins : list rowcut -> rowcut -> list rowcut.
  Variable c : call.
  Variable t : mip.
  Variable ranges : bool.
  Variable p : lpar.
  Variable userLimit : Z.
  Variable v_ : validator.
  Variable b0 : basis.
  Variable x0 : nat -> Q.
  Hypothesis INS : ins_ok ins.
  Hypothesis CA : U \/ (careful t (c_solver c) (c_choices c) p v_ /\ m_ncols t = m_ncols (c_si c)).
  Hypothesis B0 : basis_len U t b0.
  Lemma ca_left : U \/ careful t (c_solver c) (c_choices c) p v_.
  Proof. destruct CA as [H|(H & _)]; auto. Qed.
  Lemma validate_ends f : good_form t (fst f) -> ends U (fun _ => True) (validate c p v_ x0 f).
  Proof.
    intros (_ & G). unfold validate. apply cleanCut_ends.
    - destruct CA as [H|(H & E)]; [left; exact H|right]. rewrite <- E. apply (ca_nnz _ _ _ _ _ H).
    - destruct CA as [H|(H & E)]; [left; exact H|right]. rewrite <- E. exact G.
  Qed.
  Lemma one_row_ends i row s : (row < length (m_rows t))%nat -> shapes t p (l_extra s) ->
    ends U (fun s' => shapes t p (l_extra s')) (one_row ins c t ranges p userLimit v_ b0 x0 i row s).
  Proof.
    intros R X. unfold one_row. eapply ends_bind with (P := fun g => shapes t p (snd g) /\ match fst g with Some f => good_form t (fst f) | None => True end).
    - destruct (l_lim s =? 0)%Z.
      + eapply ends_bind; [apply generateMig_ends; [exact B0|right; exact R]|]. intros (t', f) E _. cbn. split; [exact X|].
        unfold generateMig in E. apply bind_done in E. destruct E as (t0 & _ & E). eapply create_shape. exact E.
      + eapply ends_weak; [apply optimize_ends; [apply ca_left|exact B0|right; exact R]|].
        intros (f, e) E _. apply optimize_shape in E; [exact E|exact X].
    - intros (g, e) _ (G1 & G2). cbn [fst snd] in *. eapply ends_bind with (P := fun _ => True).
      + destruct g as [f|]; [|exact I]. eapply ends_bind; [apply validate_ends; exact G2|]. intros; exact I.
      + intros (k, cut) _ _. cbn [fst snd]. eapply ends_bind with (P := fun r => shapes t p (snd (fst r))).
        * destruct (_ && _); [|exact G1]. eapply ends_bind; [apply optimize_ends; [apply ca_left|exact B0|right; exact R]|].
          intros (g2, e2) E2 _. apply optimize_shape in E2; [|exact G1]. destruct E2 as (H1 & H2). cbn [fst snd].
          destruct g2 as [f|]; [|exact H1]. eapply ends_bind; [apply validate_ends; exact H2|]. intros; exact H1.
        * intros (((k2, cut2), e2), lim2) _ H. cbn [fst snd] in H. destruct (accepted k2); exact H.
  Qed.
  Lemma rows_loop_ends rows : (forall r, In r rows -> (r < length (m_rows t))%nat) -> forall i s, shapes t p (l_extra s) ->
    ends U (fun s' => shapes t p (l_extra s')) (rows_loop ins c t ranges p userLimit v_ b0 x0 i rows s).
  Proof.
    induction rows as [|r rows IH]; intros R i s X; cbn [rows_loop]; [exact X|]. destruct (_ && _); [|exact X].
    eapply ends_bind; [apply one_row_ends; [apply R; left; reflexivity|exact X]|]. intros s' _ X'. apply IH; [|exact X'].
    intros; apply R; right; assumption.
  Qed.
  Hypothesis AM : U \/ p_extra p <> AllViolatedMigs.
  Lemma separate_ends cs : ends U (fun _ => True) (separate ins c t ranges p userLimit v_ b0 x0 cs).
  Proof.
    unfold separate. eapply ends_bind with (P := fun _ => True).
    - unfold first_migs. destruct (p_extra p); try exact I. destruct AM as [H|H]; [|congruence].
      destruct (Nat.eqb _ _); [exact I|]. destruct (_ =? _)%Z; [destruct (existsb _ _)|]; cbn; auto.
    - intros u _ _. eapply ends_bind; [apply rows_loop_ends|].
      + intros r I. apply candidate_in in I. apply frac_row_inv in I. apply I.
      + intros k f [].
      + intros s _ X. apply ends_ofold; [exact I|]. intros l j _ _. unfold add_extra. destruct (extra_of (l_extra s) j) as [f|] eqn:Ex; [|exact I].
        eapply ends_bind; [apply validate_ends|intros; exact I].
        unfold extra_of in Ex. destruct (find _ (l_extra s)) as [(j', f0)|] eqn:Ef; [|discriminate]. cbn in Ex. injection Ex as <-.
        apply find_some in Ef. destruct Ef as (Ef & _). apply (X j' f0 Ef).
  Qed.
End GenSafe.

(** ** The number of cuts *)
Section Count.
  Variable ins : list rowcut -> rowcut -> list rowcut.
  Variable c : call.
  Variable t : mip.
  Variable ranges : bool.
  Variable p : lpar.
  Variable userLimit : Z.
  Variable v_ : validator.
  Variable b0 : basis.
  Variable x0 : nat -> Q.
  Hypothesis INS : ins_ok ins.
  (** new cuts beyond those counted by ncut *)
  Definition surplus (s : lst) : Z := (Z.of_nat (length (l_cs s)) - l_ncut s)%Z.
  Lemma one_row_count i row s s' : few p (l_extra s) -> one_row ins c t ranges p userLimit v_ b0 x0 i row s = Done s' ->
    few p (l_extra s') /\ (l_ncut s <= l_ncut s' <= l_ncut s + 1)%Z /\ (surplus s' <= surplus s)%Z.
  Proof.
    intros X E. unfold one_row in E. apply bind_done in E. destruct E as ((g, e) & Eg & E).
    assert (G : few p e).
    { destruct (l_lim s =? 0)%Z; [|eapply optimize_few; eassumption].
      apply bind_done in Eg. destruct Eg as (r & Er & Eg). apply Done_inj in Eg. injection Eg as <- <-. exact X. }
    apply bind_done in E. destruct E as ((k, cut) & _ & E). cbn [fst snd] in *.
    apply bind_done in E. destruct E as ((((k2, cut2), e2), lim2) & E2 & E).
    assert (G2 : few p e2).
    { destruct (_ && _); [|apply Done_inj in E2; injection E2 as <- <- <- <-; exact G].
      apply bind_done in E2. destruct E2 as ((g2, e3) & Eo & E2). apply optimize_few in Eo; [|exact G]. cbn [fst snd] in E2.
      destruct g2 as [f|]; [apply bind_done in E2; destruct E2 as (r & _ & E2)|]; apply Done_inj in E2; injection E2 as <- <- <- <-; exact Eo. }
    unfold surplus. destruct (accepted k2); apply Done_inj in E; subst s'; cbn [l_extra l_ncut l_cs]; (split; [exact G2|]); split; try lia.
    match goal with |- context [ins (l_cs s) ?rc] => destruct (INS (l_cs s) rc) as [Ei|Ei]; rewrite Ei end; rewrite ?app_length; cbn [length]; lia.
  Qed.
  Lemma rows_loop_count rows : forall i s s', few p (l_extra s) -> rows_loop ins c t ranges p userLimit v_ b0 x0 i rows s = Done s' ->
    few p (l_extra s') /\ (surplus s' <= surplus s)%Z /\ (l_ncut s' <= l_ncut s + Z.of_nat (length rows))%Z /\
    (l_ncut s' <= Z.max (l_ncut s) (p_maxCuts p))%Z /\ (l_ncut s' <= Z.max (l_ncut s) (Z.of_nat (length (m_rows t))))%Z.
  Proof.
    induction rows as [|r rows IH]; intros i s s' X E; cbn [rows_loop] in E.
    - apply Done_inj in E. subst s'. cbn [length]. split; [exact X|]. lia.
    - destruct (_ && _) eqn:B; [|apply Done_inj in E; subst s'; cbn [length]; split; [exact X|]; lia].
      apply andb_prop in B. destruct B as (B1 & B2). apply Z.ltb_lt in B1. apply Z.ltb_lt in B2.
      apply bind_done in E. destruct E as (s1 & E1 & E). destruct (one_row_count i r s s1 X E1) as (Y1 & Y2 & Y3).
      destruct (IH _ _ _ Y1 E) as (Z1 & Z2 & Z3 & Z4 & Z5). cbn [length]. split; [exact Z1|]. lia.
  Qed.
  Lemma add_extra_count e l j l' : add_extra ins c p v_ x0 e l j = Done l' ->
    (length l' <= length l + (if existsb (Nat.eqb j) (map fst e) then 1 else 0))%nat.
  Proof.
    intro E. unfold add_extra in E. destruct (extra_of e j) as [f|] eqn:Ex; [|apply Done_inj in E; subst l'; lia].
    assert (K : existsb (Nat.eqb j) (map fst e) = true).
    { apply in_existsb. unfold extra_of in Ex. destruct (find _ e) as [(j', f0)|] eqn:Ef; [|discriminate]. apply find_some in Ef.
      destruct Ef as (I & Q). apply Nat.eqb_eq in Q. cbn in Q. subst j'. apply in_map_iff. exists (j, f0). auto. }
    rewrite K. apply bind_done in E. destruct E as (r & _ & E). apply Done_inj in E. subst l'.
    destruct (accepted (fst r)); [|lia].
    match goal with |- context [ins l ?rc] => destruct (INS l rc) as [Ei|Ei]; rewrite Ei end; rewrite ?app_length; cbn [length]; lia.
  Qed.
  Lemma separate_count cs cs' : separate ins c t ranges p userLimit v_ b0 x0 cs = Done cs' ->
    (Z.of_nat (length cs') <= Z.of_nat (length cs) +
       Z.min (Z.min (Z.max 0 (p_maxCuts p)) (Z.of_nat (length (m_rows t))))
             (Z.of_nat (length (candidate_rows p (sorted_rows t p b0 x0)))) + Z.max 0 (p_extraLimit p))%Z.
  Proof.
    intro E. unfold separate in E. apply bind_done in E. destruct E as (u & _ & E). apply bind_done in E. destruct E as (s & Es & E).
    apply rows_loop_count in Es; [|split; cbn; [constructor|lia]]. destruct Es as (F & S1 & S2 & S3 & S4). unfold surplus in S1. cbn [l_cs l_ncut] in *.
    assert (G : forall js l l', ofold (add_extra ins c p v_ x0 (l_extra s)) js l = Done l' ->
      (length l' <= length l + length (filter (fun j => existsb (Nat.eqb j) (map fst (l_extra s))) js))%nat).
    { clear E. induction js as [|j js IH]; intros l l' E; cbn [ofold filter] in *; [apply Done_inj in E; subst l'; cbn; lia|].
      apply bind_done in E. destruct E as (l1 & E1 & E). apply add_extra_count in E1. apply IH in E.
      destruct (existsb (Nat.eqb j) (map fst (l_extra s))); cbn [length]; lia. }
    apply G in E. destruct F as (F1 & F2).
    assert (K : (length (filter (fun j => existsb (Nat.eqb j) (map fst (l_extra s))) (seq 0 (m_ncols t))) <= length (l_extra s))%nat).
    { rewrite <- (map_length fst (l_extra s)). apply NoDup_incl_length; [apply NoDup_filter, seq_NoDup|].
      intros j I. apply filter_In in I. destruct I as (_ & I). apply in_existsb in I. exact I. }
    lia.
  Qed.
End Count.
