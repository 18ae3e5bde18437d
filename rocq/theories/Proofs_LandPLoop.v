(** * CglLandP: the lift-and-project simplex *)

From Coq Require Import Qabs Permutation.
From Verif Require Import Base Model_LandP Proofs_LandP Proofs_LandPCut.
Local Open Scope Q_scope.

Lemma replace_len l i v : length (replace l i v) = length l.
Proof. revert i. induction l as [|a l IH]; intros [|i]; cbn; auto. Qed.
Lemma replace_nth l i v k d : (k < length l)%nat -> nth k (replace l i v) d = if Nat.eqb k i then v else nth k l d.
Proof.
  revert i k. induction l as [|a l IH]; intros [|i] [|k] L; cbn in *; try lia; auto.
  apply IH. lia.
Qed.
Lemma position_some v l : In v l -> exists i, position v l = Some i /\ nth_error l i = Some v.
Proof.
  induction l as [|a l IH]; intro I; [destruct I|]. cbn [position]. destruct (Nat.eqb_spec a v) as [->|N].
  - exists 0%nat. auto.
  - destruct I as [->|I]; [congruence|]. destruct (IH I) as (i & E & K). rewrite E. exists (S i). auto.
Qed.
Lemma position_lt v l i : position v l = Some i -> (i < length l)%nat.
Proof.
  revert i. induction l as [|a l IH]; intros i E; [discriminate|]. cbn [position] in E. destruct (Nat.eqb a v).
  - injection E as <-. cbn. lia.
  - destruct (position v l) eqn:P; [|discriminate]. cbn in E. injection E as <-. cbn. specialize (IH _ eq_refl). lia.
Qed.

Section Loop.
  Variable m : mip.
  Variable s_ : solver.
  Variable h : choices.
  Variable p : lpar.
  Variable v_ : validator.
  Variable x0 : nat -> Q.
  Notation n := (m_ncols m).
  Notation nrow := (length (m_rows m)).

  (** ** An exact simplex interface *)
  (** the leaving variable has a finite bound in the direction of the move *)
  Definition can_leave (b : basis) (lv : nat) (dir : Z) : Prop :=
    (dir = (-1)%Z /\ has_lo m (basic_at b lv) = true) \/ (dir = 1%Z /\ has_up m (basic_at b lv) = true).
  (** [good]: the bases met.  In each of them the answers are exact, and a
      successful pivot on a variable with a finite bound leads to another. *)
  Record exact (good : basis -> Prop) : Prop := {
    ex_ok : forall b, good b -> basis_ok m s_ b;
    ex_pivot : forall b jin lv dir order, good b -> (jin < length (b_nonbasics b))%nat -> (lv < nrow)%nat -> can_leave b lv dir ->
      s_pivot s_ b (nth jin (b_nonbasics b) 0%nat) (basic_at b lv) dir = Some order ->
      good (moved_basis m b jin lv dir order) /\ Permutation order (replace (b_basics b) lv (nth jin (b_nonbasics b) 0%nat))
  }.
  Definition move_ok (s : ost) (lv : nat) (dir : Z) : Prop :=
    (lv < nrow)%nat /\ lv <> t_num (o_k s) /\ can_leave (o_b s) lv dir.

  Definition best_ok (s : ost) (b : best) : Prop :=
    fst b <= - p_pivotTol p /\ match snd b with Some (i, dir, _) => move_ok s i dir | None => True end.
  Lemma look_ok s flag i b e : best_ok s b ->
    (snd (fst e) = true -> flag = true -> snd e < - p_pivotTol p -> move_ok s i (fst (fst (fst e)))) -> best_ok s (look flag i b e).
  Proof.
    intros (B1 & B2) H. destruct e as [[[dir g] ok] c]. cbn [look fst snd] in *.
    destruct (ok && flag && (c <? fst b)) eqn:E; [|split; assumption].
    apply andb_prop in E. destruct E as (E & E3). apply andb_prop in E. destruct E as (E1 & E2). qb.
    split; cbn [fst snd]; [lra|]. apply H; auto. lra.
  Qed.
  Lemma find_row_ok s lv dir g : find_row m h p s = Some (lv, dir, g) -> move_ok s lv dir.
  Proof.
    intro E. assert (G : best_ok s (fold_left (fun bst i =>
           if excluded h s i then bst
           else let v := basic_at (o_b s) i in
                fold_left (look (o_flag s i) i) (quads (has_lo m v) (has_up m v) (h_red h s i)) bst)
         (seq 0 nrow) (- p_pivotTol p, None))).
    { assert (IN : forall i, In i (seq 0 nrow) -> (i < nrow)%nat) by (intros i I; apply in_seq in I; lia).
      assert (B0 : best_ok s (- p_pivotTol p, None)) by (split; cbn; [lra|exact I]).
      revert IN B0. generalize (- p_pivotTol p, @None (nat * Z * Z)) as b0. induction (seq 0 nrow) as [|i l IH]; intros b0 IN B0; [exact B0|].
      cbn [fold_left]. apply IH; [intros; apply IN; right; assumption|].
      destruct (excluded h s i) eqn:X; [exact B0|]. unfold excluded in X. apply orb_false_elim in X. destruct X as (X & _).
      apply Nat.eqb_neq in X. specialize (IN i (or_introl eq_refl)).
      destruct (h_red h s i) as [[[ul vl] uu] vu]. cbn [quads fold_left].
      repeat (apply look_ok); [exact B0| | | |]; cbn [fst snd]; intros OK _ _; (split; [exact IN|split; [exact X|]]);
        [left|left|right|right]; split; auto. }
    unfold find_row in E. destruct G as (_ & G). cbv zeta in G. rewrite E in G. exact G.
  Qed.
  Definition quad_ok (s : ost) (i : nat) : Prop :=
    let '(ul, vl, uu, vu) := o_tab s i in
    ((ul <? - p_pivotTol p) || (vl <? - p_pivotTol p) = true -> move_ok s i (-1)) /\
    ((uu <? - p_pivotTol p) || (vu <? - p_pivotTol p) = true -> move_ok s i 1).
  Definition tabs_ok (s : ost) : Prop := forall i, (i < nrow)%nat -> o_flag s i = true -> quad_ok s i.
  Lemma rescan_ok s lv dir g : tabs_ok s -> rescan m p s = Some (lv, dir, g) -> move_ok s lv dir.
  Proof.
    intros T E. assert (G : best_ok s (fold_left (fun bst i =>
           if Nat.eqb i (t_num (o_k s)) || negb (o_flag s i) then bst
           else fold_left (look (o_flag s i) i) (quads true true (o_tab s i)) bst)
         (seq 0 nrow) (- p_pivotTol p, None))).
    { assert (IN : forall i, In i (seq 0 nrow) -> (i < nrow)%nat) by (intros i I; apply in_seq in I; lia).
      assert (B0 : best_ok s (- p_pivotTol p, None)) by (split; cbn; [lra|exact I]).
      revert IN B0. generalize (- p_pivotTol p, @None (nat * Z * Z)) as b0. induction (seq 0 nrow) as [|i l IH]; intros b0 IN B0; [exact B0|].
      cbn [fold_left]. apply IH; [intros; apply IN; right; assumption|].
      destruct (Nat.eqb i (t_num (o_k s)) || negb (o_flag s i)) eqn:X; [exact B0|]. apply orb_false_elim in X. destruct X as (X1 & X2).
      apply negb_false_iff in X2. specialize (IN i (or_introl eq_refl)). specialize (T i IN X2). unfold quad_ok in T.
      destruct (o_tab s i) as [[[ul vl] uu] vu]. destruct T as (T1 & T2). cbn [quads fold_left].
      repeat (apply look_ok); [exact B0| | | |]; cbn [fst snd]; intros _ _ C; [apply T1|apply T1|apply T2|apply T2];
        apply orb_true_iff; [left|right|left|right]; apply Qltb_lt; exact C. }
    unfold rescan in E. destruct G as (_ & G). rewrite E in G. exact G.
  Qed.
  (** a row found by the second scan has its flag set *)
  Lemma rescan_flag s lv dir g : rescan m p s = Some (lv, dir, g) -> o_flag s lv = true /\ (lv < nrow)%nat.
  Proof.
    intro E. set (P := fun b : best => match snd b with Some (i, _, _) => o_flag s i = true /\ (i < nrow)%nat | None => True end).
    assert (L : forall i, (i < nrow)%nat -> forall b e, P b -> P (look (o_flag s i) i b e)).
    { intros i Li b e Pb. destruct e as [[[dir' g'] ok] c]. cbn [look]. destruct (ok && o_flag s i && (c <? fst b)) eqn:X; [|exact Pb].
      apply andb_prop in X. destruct X as (X & _). apply andb_prop in X. destruct X as (_ & X). split; assumption. }
    assert (G : P (fold_left (fun bst i =>
           if Nat.eqb i (t_num (o_k s)) || negb (o_flag s i) then bst
           else fold_left (look (o_flag s i) i) (quads true true (o_tab s i)) bst)
         (seq 0 nrow) (- p_pivotTol p, None))).
    { assert (IN : forall i, In i (seq 0 nrow) -> (i < nrow)%nat) by (intros i I; apply in_seq in I; lia).
      assert (B0 : P (- p_pivotTol p, None)) by exact I.
      revert IN B0. generalize (- p_pivotTol p, @None (nat * Z * Z)) as b0. induction (seq 0 nrow) as [|i l IH]; intros b0 IN B0; [exact B0|].
      cbn [fold_left]. apply IH; [intros; apply IN; right; assumption|].
      destruct (_ || _); [exact B0|]. destruct (o_tab s i) as [[[ul vl] uu] vu]. cbn [quads fold_left].
      specialize (L i (IN i (or_introl eq_refl))). repeat apply L. exact B0. }
    unfold rescan in E. unfold P in G. rewrite E in G. exact G.
  Qed.
  Lemma candidates_ok s lv dir : tabs_ok s -> In (lv, dir) (candidates m p s) -> move_ok s lv dir.
  Proof.
    intros T I. unfold candidates in I. apply in_flat_map in I. destruct I as (i & Ii & I). apply in_seq in Ii.
    destruct (o_flag s i) eqn:Fl; [|destruct (o_tab s i) as [[[? ?] ?] ?]; destruct I].
    specialize (T i ltac:(lia) Fl). unfold quad_ok in T. destruct (o_tab s i) as [[[ul vl] uu] vu]. destruct T as (T1 & T2).
    apply in_app_or in I. destruct I as [I|I].
    - destruct (_ || _); [|destruct I]. destruct I as [E|[]]. injection E as <- <-. apply T1. reflexivity.
    - destruct ((uu <? _) || _); [|destruct I]. destruct I as [E|[]]. injection E as <- <-. apply T2. reflexivity.
  Qed.
  (** states with the same basis, row and extra cuts *)
  Definition same (s s' : ost) : Prop :=
    o_b s' = o_b s /\ o_k s' = o_k s /\ o_extra s' = o_extra s /\ o_piv s' = o_piv s.
  Lemma same_refl s : same s s.
  Proof. repeat split. Qed.
  Lemma same_trans a b c : same a b -> same b c -> same a c.
  Proof. intros (A1 & A2 & A3 & A4) (B1 & B2 & B3 & B4). repeat split; congruence. Qed.
  Lemma move_same s s' lv dir : same s s' -> move_ok s lv dir -> move_ok s' lv dir.
  Proof. intros (A1 & A2 & _) (M1 & M2 & M3). unfold move_ok. rewrite A1, A2. auto. Qed.
  Hypothesis tol10 : - p_pivotTol p <= 10.
  Lemma set_tables_ok s f : tabs_ok (tick (set_tables m h p s f)).
  Proof.
    intros i L Fl. unfold quad_ok. cbn [tick set_tables o_tab o_flag] in *. apply Nat.ltb_lt in L as L'. rewrite L' in *.
    unfold new_tab. unfold new_flag in Fl. destruct (excluded h s i) eqn:X; [discriminate|]. clear Fl.
    unfold excluded in X. apply orb_false_elim in X. destruct X as (X & _). apply Nat.eqb_neq in X.
    destruct (h_red h s i) as [[[ul vl] uu] vu].
    assert (C : forall ok c, cell p ok c < - p_pivotTol p -> ok = true).
    { intros ok c. unfold cell. destruct ok; [reflexivity|]. cbn [andb]. lra. }
    split; intro K; (split; [exact L|split; [exact X|]]); cbn [tick set_tables o_b]; [left|right]; (split; [reflexivity|]);
      apply orb_prop in K; destruct K as [K|K]; apply Qltb_lt in K; eapply C; exact K.
  Qed.
  Lemma tabs_flag s s' : tabs_ok s -> same s s' -> o_tab s' = o_tab s -> (forall i, o_flag s' i = true -> o_flag s i = true) -> tabs_ok s'.
  Proof.
    intros T S E Fl i L K. specialize (T i L (Fl i K)). unfold quad_ok in *. rewrite E. destruct (o_tab s i) as [[[ul vl] uu] vu].
    destruct T as (T1 & T2). split; intro C; eapply move_same; eauto.
  Qed.
  Lemma try_rows_ok fuel : forall s lv dir g c s' k, tabs_ok s -> move_ok s lv dir ->
    try_rows m h p fuel s lv dir g c = Done (s', k) -> same s s' /\
    match k with Some (lv', dir', _) => move_ok s' lv' dir' | None => True end.
  Proof.
    induction fuel as [|fuel IH]; intros s lv dir g c s' k T M E.
    - cbn [try_rows] in E. destruct c as [j| |]; [apply Done_inj in E; injection E as <- <-; split; [apply same_refl|exact M]| |];
        (destruct (o_failed s <? 5)%Z; [discriminate|apply Done_inj in E; injection E as <- <-; split; [apply same_refl|exact M]]).
    - assert (G : forall s1, same s s1 -> o_tab s1 = o_tab s -> o_flag s1 = o_flag s ->
        forall r, match rescan m p (tick (set_flag s1 lv)) with
              | Some (lv', dir', g') => try_rows m h p fuel (tick (set_flag s1 lv)) lv' dir' g' (h_col h (tick (set_flag s1 lv)) lv' dir' g')
              | None => Done (tick (set_flag s1 lv), None) end = Done r ->
        same s (fst r) /\ match snd r with Some (lv', dir', _) => move_ok (fst r) lv' dir' | None => True end).
      { intros s1 S1 Et Ef r Er. set (s2 := tick (set_flag s1 lv)) in *.
        assert (S2 : same s s2). { destruct S1 as (A1 & A2 & A3 & A4). repeat split; cbn; assumption. }
        assert (T2 : tabs_ok s2).
        { apply (tabs_flag s); auto. intros i Hi. cbn in Hi. rewrite Ef in Hi. unfold upd in Hi. destruct (Nat.eqb i lv); [discriminate|exact Hi]. }
        destruct (rescan m p s2) as [[[lv' dir'] g']|] eqn:Rs.
        - destruct r as (sr, kr). destruct (IH _ _ _ _ _ _ _ T2 (rescan_ok s2 lv' dir' g' T2 Rs) Er) as (B1 & B2).
          split; [eapply same_trans; eassumption|exact B2].
        - apply Done_inj in Er. subst r. split; [exact S2|exact I]. }
      cbn [try_rows] in E.
      destruct c as [j| |]; [apply Done_inj in E; injection E as <- <-; split; [apply same_refl|exact M]| |];
        (destruct (o_failed s <? 5)%Z; [|apply Done_inj in E; injection E as <- <-; split; [apply same_refl|exact M]]).
      + apply (G (add_failed s)) in E; [exact E|repeat split|reflexivity|reflexivity].
      + destruct (p_countRc p); [apply (G (add_failed s)) in E|apply (G s) in E]; auto; repeat split.
  Qed.
  Lemma search_ok s s' k : p_rule p <> InitialReducedCosts -> search m s_ h p s = Done (s', k) -> same s s' /\
    match k with Some (lv, dir, _) => move_ok s' lv dir | None => True end.
  Proof.
    intros RU E. unfold search in E. assert (RI : rule_eqb (p_rule p) InitialReducedCosts = false) by (destruct (p_rule p); reflexivity || congruence).
    rewrite RI in E. cbn [negb orb] in E. destruct (s_clp s_); [|discriminate].
    set (s1 := tick (set_tables m h p s false)) in *. assert (S1 : same s s1) by repeat split.
    destruct (find_row m h p s) as [[[lv dir] g]|] eqn:FR; [|apply Done_inj in E; injection E as <- <-; split; [exact S1|exact I]].
    pose proof (move_same s s1 lv dir S1 (find_row_ok s lv dir g FR)) as M.
    destruct (p_rule p) eqn:RE; [| |congruence].
    - destruct (try_rows_ok _ _ _ _ _ _ _ _ (set_tables_ok s false) M E) as (B1 & B2). split; [exact (same_trans _ _ _ S1 B1)|exact B2].
    - destruct (h_best h s1 (candidates m p s1)) as [(k0, c)|]; [|apply Done_inj in E; injection E as <- <-; split; [exact S1|exact I]].
      destruct (nth_error (candidates m p s1) k0) as [(lv', dir')|] eqn:N; [|apply Done_inj in E; injection E as <- <-; split; [exact S1|exact I]].
      apply Done_inj in E. injection E as <- <-. split; [exact S1|]. apply candidates_ok; [apply set_tables_ok|]. eapply nth_error_In. exact N.
  Qed.

  (** ** The invariant *)
  Variable good : basis -> Prop.
  Hypothesis EX : exact good.
  Hypothesis D : data_ok m.
  Definition fine (f : frow) : Prop := good_form m (fst f) /\ forall y, feasible m y -> moderate m p y -> sat f y.
  Definition extras_fine (l : list (nat * frow)) : Prop := forall c f, In (c, f) l -> fine f.
  Record inv (k0 : nat) (s : ost) : Prop := {
    iv_good : good (o_b s);
    iv_row : row_ok m (o_b s) (o_k s);
    iv_num : (t_num (o_k s) < nrow)%nat;
    iv_k : basic_at (o_b s) (t_num (o_k s)) = k0;
    iv_extra : extras_fine (o_extra s)
  }.
  Section Source.
  Variable k0 : nat.
  Hypothesis K0 : (k0 < n)%nat.
  Hypothesis KI : m_int m k0 = true.
  Lemma inv_same s s' : same s s' -> inv k0 s -> inv k0 s'.
  Proof. intros (A1 & A2 & A3 & A4) [I1 I2 I3 I4 I5]. constructor; rewrite ?A1, ?A2, ?A3; assumption. Qed.
  Lemma pull_num b r t : pull m s_ b r = Done t -> t_num t = r.
  Proof.
    unfold pull. destruct (nth_error (b_basics b) r) as [k|]; [|discriminate]. destruct (forallb _ _); [|discriminate].
    destruct (basic_value m s_ b k); [|discriminate]. intro E. apply Done_inj in E. subst t. reflexivity.
  Qed.
  Lemma change_basis_inv s jin lv dir s' ok : inv k0 s -> move_ok s lv dir ->
    change_basis m s_ s jin lv dir = Done (s', ok) -> inv k0 s' /\ o_piv s' = o_piv s.
  Proof.
    intros [I1 I2 I3 I4 I5] (M1 & M2 & M3) E. unfold change_basis in E. pose proof (ex_ok good EX _ I1) as B.
    destruct ((length (b_nonbasics (o_b s)) <=? jin)%nat || (length (b_basics (o_b s)) <=? lv)%nat) eqn:R; [discriminate|].
    apply orb_false_elim in R. destruct R as (R1 & R2). apply Nat.leb_gt in R1.
    destruct (s_pivot s_ _ _ _ dir) as [order|] eqn:Ep.
    - apply bind_done in E. destruct E as (t & Et & E). apply Done_inj in E. injection E as <- <-.
      destruct (ex_pivot good EX _ _ _ _ _ I1 R1 M1 M3 Ep) as (G' & Pm). pose proof (ex_ok good EX _ G') as B'.
      set (b' := moved_basis m (o_b s) jin lv dir order) in *. set (num := if Nat.eqb (basic_at b' (t_num (o_k s))) _ then _ else _) in *.
      assert (KE : basic_at (Bs (replace (b_basics (o_b s)) lv (nth jin (b_nonbasics (o_b s)) 0%nat)) [] (b_cstat (o_b s)) (b_rstat (o_b s)))
                            (t_num (o_k s)) = k0).
      { unfold basic_at. cbn [b_basics]. rewrite replace_nth by (rewrite (bo_len _ _ _ B); exact I3).
        destruct (Nat.eqb_spec (t_num (o_k s)) lv) as [C|_]; [congruence|exact I4]. }
      assert (LO : length order = nrow). { rewrite (Permutation_length Pm), replace_len. apply (bo_len _ _ _ B). }
      assert (NK : (num < nrow)%nat /\ basic_at b' num = k0).
      { unfold num. rewrite KE. destruct (Nat.eqb_spec (basic_at b' (t_num (o_k s))) k0) as [Q|Q]; [auto|].
        assert (IN : In k0 order).
        { apply (Permutation_in k0 (Permutation_sym Pm)). rewrite <- KE. unfold basic_at. cbn [b_basics]. apply nth_In.
          rewrite replace_len, (bo_len _ _ _ B). exact I3. }
        destruct (position_some k0 order IN) as (i & P1 & P2). rewrite P1. split.
        - apply position_lt in P1. lia.
        - unfold basic_at. cbn [b' moved_basis b_basics]. apply nth_error_nth. exact P2. }
      destruct NK as (N1 & N2). pose proof (pull_num _ _ _ Et) as TN.
      split; [|reflexivity]. constructor; cbn [set_basis o_b o_k o_extra center t_num]; rewrite ?TN; auto.
      apply (pull_row_ok m s_ b' num t B' Et); rewrite N2; assumption.
    - apply bind_done in E. destruct E as (t & Et & E). apply Done_inj in E. injection E as <- <-. pose proof (pull_num _ _ _ Et) as TN.
      split; [|reflexivity]. constructor; cbn [set_k o_b o_k o_extra center t_num]; rewrite ?TN; auto.
      apply (pull_row_ok m s_ (o_b s) (t_num (o_k s)) t B Et); rewrite I4; assumption.
  Qed.
  Hypothesis RU : p_rule p <> InitialReducedCosts.
  Hypothesis NE : p_extra p <> WhenEnteringBasis.
  Definition verdict_state (v : verdict) : ost := match v with Stop s | Fail s | Next s => s end.
  Lemma iterate_inv s v : inv k0 s -> iterate m s_ h p v_ x0 s = Done v -> inv k0 (verdict_state v).
  Proof.
    intros IV E. unfold iterate in E. destruct (h_time h s); [apply Done_inj in E; subst v; exact IV|].
    apply bind_done in E. destruct E as ((s1, k) & Es & E). assert (IT : inv k0 (tick s)) by (eapply inv_same; [|exact IV]; repeat split).
    destruct (search_ok _ _ _ RU Es) as (S1 & S2). pose proof (inv_same _ _ S1 IT) as I1.
    destruct k as [[[lv dir] [j|]]|]; [|apply Done_inj in E; subst v; exact I1|apply Done_inj in E; subst v; exact I1].
    apply bind_done in E. destruct E as ((s3, ok) & Ec & E). apply bind_done in E. destruct E as (s4 & Ee & E).
    assert (S2' : same s1 (if h_deg h s1 then set_flag s1 lv else s1)) by (destruct (h_deg h s1); repeat split).
    destruct (change_basis_inv _ _ _ _ _ _ (inv_same _ _ S2' I1) (move_same _ _ _ _ S2' S2) Ec) as (I3 & _).
    unfold entering in Ee. assert (ME : mode_eqb (p_extra p) WhenEnteringBasis = false) by (destruct (p_extra p); reflexivity || congruence).
    rewrite ME in Ee. apply Done_inj in Ee. cbn [fst] in Ee. subst s4. cbn [snd] in E. destruct ok.
    - assert (IP : inv k0 (pivoted m p s3)).
      { destruct I3 as [J1 J2 J3 J4 J5]. constructor; cbn [pivoted o_b o_k o_extra]; auto; destruct (p_modularize p); auto.
        apply modularize_ok with (s_ := s_); auto. apply (ex_ok good EX _ J1). }
      destruct (h_worse h _); apply Done_inj in E; subst v; exact IP.
    - apply Done_inj in E. subst v. exact I3.
  Qed.
  Lemma loop_inv fuel lim : forall s v, inv k0 s -> loop m s_ h p v_ x0 fuel lim s = Done v -> inv k0 (verdict_state v).
  Proof.
    induction fuel as [|fuel IH]; intros s v IV E; cbn [loop] in E; destruct (o_piv s <? lim)%Z; try discriminate;
      try (apply Done_inj in E; subst v; exact IV).
    apply bind_done in E. destruct E as (r & Er & E). pose proof (iterate_inv s r IV Er) as I1.
    destruct r; try (apply Done_inj in E; subst v; exact I1). eapply IH; eassumption.
  Qed.
  End Source.

  (** ** Extra cuts *)
  Lemma lo_up_bounds y v : good_form m v -> feasible m y -> keeps_bounds (n + nrow) (lo_bound m) (up_bound m) y v.
  Proof.
    intros (_ & G) (_ & F & _) j a I _. specialize (G j a I). unfold lo_bound, up_bound. apply Nat.ltb_lt in G as G'. rewrite G'. apply F. exact G.
  Qed.
  Lemma sub_form (c c' : frow) : sub (fst c') (fst c) -> good_form m (fst c) -> good_form m (fst c').
  Proof.
    intros S (G1 & G2). split; [exact (sub_nodup _ _ S G1)|]. intros j a I. apply (G2 j a). eapply sub_in; eassumption.
  Qed.
  Lemma extra_step_inv s i s' : good (o_b s) -> extras_fine (o_extra s) -> extra_step m s_ h p v_ x0 s i = Done s' ->
    o_b s' = o_b s /\ extras_fine (o_extra s').
  Proof.
    intros G X E. unfold extra_step in E.
    destruct (few_extra p s && match nth_error (b_basics (o_b s)) i with Some c => (c <? n)%nat | None => false end) eqn:C;
      [|apply Done_inj in E; subst s'; auto].
    apply andb_prop in C. destruct C as (_ & C). unfold extra_cut in E.
    destruct (nth_error (b_basics (o_b s)) i) as [c|] eqn:Ec; [|discriminate]. destruct (basic_nth _ _ _ Ec) as (Eb & _).
    destruct (negb (is_int m c)) eqn:NI; [cbn [orb] in E; apply Done_inj in E; subst s'; auto|]. cbn [orb] in E. apply negb_false_iff in NI.
    destruct (_ || _); [apply Done_inj in E; subst s'; auto|].
    apply bind_done in E. destruct E as ((t', f) & Eg & E). cbn [fst snd] in E. destruct (Qabs _ <? c1e10); [|discriminate].
    apply bind_done in E. destruct E as ((k, f') & Ev & E). cbn [fst snd] in E.
    destruct k; apply Done_inj in E; subst s'; cbn [set_extra set_k o_b o_extra]; (split; [reflexivity|]); try exact X.
    intros c' f'' I. apply in_app_or in I. destruct I as [I|[I|[]]]; [eapply X; exact I|]. injection I as <- <-.
    unfold generateMig in Eg. apply bind_done in Eg. destruct Eg as (t & Et & Eg).
    unfold is_int in NI. apply Nat.ltb_lt in C as C'. rewrite C in NI.
    assert (R : row_ok m (o_b s) (center t)).
    { apply (pull_row_ok m s_ (o_b s) i t (ex_ok good EX _ G) Et); rewrite Eb; assumption. }
    pose proof (create_near m s_ p (o_b s) (center t) t' f D (ex_ok good EX _ G) R Eg) as NV.
    split.
    - eapply sub_form; [|apply (proj1 NV)]. apply (cc_sub _ _ _ _ _ _ (cleanCut_accepts _ _ _ _ _ _ _ _ _ Ev)).
    - intros y F M. eapply cleaned_valid; try eassumption. apply lo_up_bounds; [apply (proj1 NV)|exact F].
  Qed.
  Lemma extra_cuts_inv s s' : good (o_b s) -> extras_fine (o_extra s) -> extra_cuts m s_ h p v_ x0 s = Done s' -> extras_fine (o_extra s').
  Proof.
    intros G X E. unfold extra_cuts in E.
    apply (ofold_inv (fun s => good (o_b s) /\ extras_fine (o_extra s))) in E; [apply E| |auto].
    intros a i a' _ (P1 & P2) Ea. destruct (extra_step_inv a i a' P1 P2 Ea) as (Q1 & Q2). rewrite Q1. auto.
  Qed.
  Lemma optimize_near run b0 lim row extra f e : good b0 -> (row < nrow)%nat -> (basic_at b0 row < n)%nat -> m_int m (basic_at b0 row) = true ->
    p_rule p <> InitialReducedCosts -> p_extra p <> WhenEnteringBasis -> extras_fine extra ->
    optimize m s_ h p v_ x0 run b0 lim row extra = Done (f, e) ->
    extras_fine e /\ match f with Some c => near_valid m p c | None => True end.
  Proof.
    intros G RL KN KI RU NE X E. unfold optimize in E. apply bind_done in E. destruct E as (t & Et & E).
    destruct (p_maxLen p <? t_len t)%Z; [apply Done_inj in E; injection E as <- <-; auto|].
    apply bind_done in E. destruct E as (v & Ev & E). pose proof (ex_ok good EX _ G) as B. pose proof (pull_num _ _ _ Et) as TN.
    assert (R1 : row_ok m b0 (center t)) by (apply (pull_row_ok m s_ b0 row t B Et); assumption).
    apply (loop_inv (basic_at b0 row) KN KI RU NE) in Ev.
    2:{ constructor; cbn [o_b o_k o_extra]; auto.
        - destruct (p_modularize p); auto. apply modularize_ok with (s_ := s_); auto.
        - destruct (p_modularize p); cbn [modularize center t_num]; rewrite TN; exact RL.
        - destruct (p_modularize p); cbn [modularize center t_num]; rewrite TN; reflexivity. }
    assert (K : forall s, inv (basic_at b0 row) s ->
      (if (p_maxLen p <? t_len (o_k s))%Z then Done (None, o_extra s)
       else do c <- create m p (o_b s) (o_k s);
            if mode_eqb (p_extra p) AtOptimalBasis then
              do s' <- extra_cuts m s_ h p v_ x0 (set_k s (fst c)); Done (Some (snd c), o_extra s')
            else Done (Some (snd c), o_extra s)) = Done (f, e) ->
      extras_fine e /\ match f with Some c => near_valid m p c | None => True end).
    { clear E. intros s [I1 I2 I3 I4 I5] E. destruct (p_maxLen p <? t_len (o_k s))%Z; [apply Done_inj in E; injection E as <- <-; auto|].
      apply bind_done in E. destruct E as ((t', c) & Ec & E). cbn [fst snd] in E.
      pose proof (create_near m s_ p _ _ _ _ D (ex_ok good EX _ I1) I2 Ec) as NV.
      destruct (mode_eqb (p_extra p) AtOptimalBasis).
      - apply bind_done in E. destruct E as (s' & Es & E). apply Done_inj in E. injection E as <- <-. split; [|exact NV].
        eapply extra_cuts_inv; [| |exact Es]; cbn [set_k o_b o_extra]; assumption.
      - apply Done_inj in E. injection E as <- <-. auto. }
    destruct v as [s|s|s]; cbn [verdict_state] in Ev; [apply (K s Ev E)| |apply (K s Ev E)].
    apply Done_inj in E. injection E as <- <-. split; [apply (iv_extra _ _ Ev)|exact I].
  Qed.
  Lemma generateMig_near b i c t : good b -> (basic_at b i < n)%nat -> m_int m (basic_at b i) = true ->
    generateMig m s_ p b i = Done (t, c) -> near_valid m p c.
  Proof.
    intros G KN KI E. unfold generateMig in E. apply bind_done in E. destruct E as (t0 & Et & E).
    apply (create_near m s_ p b (center t0) t c D (ex_ok good EX _ G)); [|exact E].
    apply (pull_row_ok m s_ b i t0 (ex_ok good EX _ G) Et); assumption.
  Qed.
End Loop.
