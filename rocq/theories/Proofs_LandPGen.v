(** * CglLandP: range rows and generateCuts *)

From Coq Require Import Qabs Permutation.
From Verif Require Import Base Model_LandP Proofs_LandP Proofs_LandPCut Proofs_LandPLoop.
Local Open Scope Q_scope.

(** ** The problem given to the generator *)
(** Data that the code may take at face value: row sides in order and below its
    infinity 1e50, integer columns with integer bounds, integer data in the rows
    whose slack is taken for an integer. *)
Record problem_ok (m : mip) : Prop := {
  po_wf : wf_mip m;
  po_rows : forall r l u, In r (m_rows m) -> r_lo r = Some l -> r_hi r = Some u -> l <= u /\ - c1e50 < l /\ u < c1e50;
  po_int : forall j, (j < m_ncols m)%nat -> m_int m j = true ->
    (forall l, m_clo m j = Some l -> integral l) /\ (forall u, m_chi m j = Some u -> integral u);
  po_slack : forall r, In r (m_rows m) -> slack_int m r = true ->
    (forall l, r_lo r = Some l -> integral l) /\ (forall u, r_hi r = Some u -> integral u) /\
    (forall j a, In (j, a) (r_form r) -> integral a)
}.
Fixpoint sumQ (l : list Q) : Q := match l with [] => 0 | q :: l' => q + sumQ l' end.
(** points at which the tolerances of the code cost nothing: the coefficients
    below 1e-20 that are dropped and, when the cuts are not strengthened, the
    elements of the tableau below 1e-10, weigh less than the 1e-7 by which the
    right-hand side is relaxed *)
Definition point_ok (m : mip) (p : lpar) (y : point) : Prop :=
  (2 # 100000000000000000000) * (sabs m y + sumQ (widths m)) +
  (if p_strengthen p || p_modularize p then 0 else c1e10 * span m y) <= 1 # 10000000.

(** ** Range rows *)
Section Ranges.
  Variable act : nat -> Q.
  Variable ncol : nat.
  (** the values of the added columns *)
  Fixpoint added (i : nat) (rows : list row) (y : point) : list Q :=
    match rows with
    | [] => []
    | r :: rows' =>
        if is_range r then
          (if keep_lower r (act i) then value (r_form r) y - oq (r_lo r) else oq (r_hi r) - value (r_form r) y)
          :: added (S i) rows' y
        else added (S i) rows' y
    end.
  Lemma added_len rows y : forall i, length (added i rows y) = length (filter is_range rows).
  Proof.
    induction rows as [|r rows IH]; intro i; cbn [added filter]; [reflexivity|]. destruct (is_range r); cbn [length]; rewrite IH; reflexivity.
  Qed.
  Lemma is_range_inv r : is_range r = true -> exists l u, r_lo r = Some l /\ r_hi r = Some u /\ l < u.
  Proof.
    unfold is_range. destruct (r_lo r) as [l|]; [|discriminate]. destruct (r_hi r) as [u|]; [|discriminate]. intro E.
    apply andb_prop in E. destruct E as (E & _). apply andb_prop in E. destruct E as (E & _). qb. exists l, u. auto.
  Qed.
  Lemma added_bounds rows y : (forall r, In r rows -> row_sat r y) -> forall i k,
    0 <= nth k (added i rows y) 0 /\ nth k (added i rows y) 0 <= nth k (map width (filter is_range rows)) 0.
  Proof.
    induction rows as [|r rows IH]; intros S i k; cbn [added filter]; [destruct k; cbn; lra|].
    specialize (IH (fun r' H => S r' (or_intror H))). destruct (S r (or_introl eq_refl)) as (S1 & S2).
    destruct (is_range r) eqn:R; [|apply IH]. destruct (is_range_inv r R) as (l & u & El & Eu & LU).
    cbn [map]. destruct k as [|k]; cbn [nth]; [|apply IH]. unfold width. rewrite El, Eu in *. cbn [oq]. cbn in S1, S2.
    destruct (keep_lower r (act i)); lra.
  Qed.
  Section Point.
    Variables (y z : point).
    Hypothesis AG : forall j, (j < ncol)%nat -> z j == y j.
    Lemma value_agree v : (forall j a, In (j, a) v -> (j < ncol)%nat) -> value v z == value v y.
    Proof. intro B. apply value_ext. intros j a I. apply AG. apply (B j a I). Qed.
    Lemma conv_sat rows : (forall r, In r rows -> wf_row ncol r) -> (forall r, In r rows -> row_sat r y) -> forall i k,
      (forall t, (t < length (added i rows y))%nat -> z (ncol + k + t)%nat == nth t (added i rows y) 0) ->
      forall r', In r' (conv_rows ncol i k act rows) -> row_sat r' z.
    Proof.
      induction rows as [|r rows IH]; intros W S i k Z r' I; cbn [conv_rows] in I; [destruct I|].
      destruct (W r (or_introl eq_refl)) as (_ & W2). pose proof (value_agree (r_form r) W2) as V.
      destruct (S r (or_introl eq_refl)) as (S1 & S2). cbn [added] in Z. destruct (is_range r) eqn:R.
      - destruct (is_range_inv r R) as (l & u & El & Eu & LU). destruct I as [<-|I].
        + pose proof (Z 0%nat ltac:(cbn; lia)) as Z0. cbn [nth] in Z0. rewrite Nat.add_0_r in Z0.
          unfold row_sat. destruct (keep_lower r (act i)); cbn [r_form r_lo r_hi]; rewrite ?El, ?Eu in *; cbn [oq] in Z0; cbn in S1, S2 |- *;
            rewrite value_app; cbn [value]; rewrite V, Z0; split; lra.
        + revert I. apply IH; [intros; apply W; right; assumption|intros; apply S; right; assumption|].
          intros t L. replace (ncol + Datatypes.S k + t)%nat with (ncol + k + Datatypes.S t)%nat by lia. rewrite Z; [reflexivity|]. cbn [length]. lia.
      - destruct I as [<-|I].
        + unfold row_sat, ge_opt_lo, le_opt_hi in *. destruct (r_lo r), (r_hi r); rewrite ?V; auto.
        + revert I. apply IH; [intros; apply W; right; assumption|intros; apply S; right; assumption|exact Z].
    Qed.
    (** the distances to the sides of a row *)
    Definition rd (x : point) (r : row) : Q :=
      od (r_lo r) (fun l => value (r_form r) x - l) + od (r_hi r) (fun u => u - value (r_form r) x).
    Fixpoint rsum (l : list row) (g : row -> Q) : Q := match l with [] => 0 | r :: l' => g r + rsum l' g end.
    Lemma conv_rsum rows : (forall r, In r rows -> wf_row ncol r) -> forall i k,
      rsum (conv_rows ncol i k act rows) (rd z) + sumQ (map width (filter is_range rows)) == rsum rows (rd y).
    Proof.
      induction rows as [|r rows IH]; intros W i k; cbn [conv_rows rsum filter]; [reflexivity|].
      destruct (W r (or_introl eq_refl)) as (_ & W2). pose proof (value_agree (r_form r) W2) as V.
      specialize (IH (fun r' H => W r' (or_intror H))). destruct (is_range r) eqn:R.
      - destruct (is_range_inv r R) as (l & u & El & Eu & LU). cbn [map sumQ rsum]. rewrite <- (IH (Datatypes.S i) (Datatypes.S k)).
        unfold width, rd at 1 3. destruct (keep_lower r (act i)); cbn [r_form r_lo r_hi]; rewrite El, Eu; cbn [od]; ring.
      - cbn [rsum]. rewrite <- (IH (Datatypes.S i) k). unfold rd at 1 3. destruct (r_lo r), (r_hi r); cbn [od]; rewrite ?V; ring.
    Qed.
  End Point.
  Lemma conv_in rows : forall i k r', In r' (conv_rows ncol i k act rows) ->
    (In r' rows /\ is_range r' = false) \/
    (exists q k' a r, r_lo r' = Some q /\ r_hi r' = Some q /\ In r rows /\ r_form r' = r_form r ++ [((ncol + k')%nat, a)] /\
       (k' < k + length (filter is_range rows))%nat).
  Proof.
    induction rows as [|r rows IH]; intros i k r' I; cbn [conv_rows] in I; [destruct I|].
    cbn [filter]. destruct (is_range r) eqn:R.
    - destruct (is_range_inv r R) as (l & u & El & Eu & LU). destruct I as [<-|I].
      + right. destruct (keep_lower r (act i)).
        * exists l, k, (-1), r. cbn [r_lo r_hi r_form length]. conjs; auto; [left; reflexivity|lia].
        * exists u, k, 1, r. cbn [r_lo r_hi r_form length]. conjs; auto; [left; reflexivity|lia].
      + destruct (IH _ _ _ I) as [(A & B)|(q & k' & a & r0 & A1 & A2 & A3 & A4 & A5)]; [left; split; [right; exact A|exact B]|].
        right. exists q, k', a, r0. conjs; auto; [right; exact A3|cbn [length]; lia].
    - destruct I as [<-|I]; [left; split; [left; reflexivity|exact R]|].
      destruct (IH _ _ _ I) as [(A & B)|(q & k' & a & r0 & A1 & A2 & A3 & A4 & A5)]; [left; split; [right; exact A|exact B]|].
      right. exists q, k', a, r0. conjs; auto. right; exact A3.
  Qed.
  Lemma conv_len rows : forall i k, length (conv_rows ncol i k act rows) = length rows.
  Proof. induction rows as [|r rows IH]; intros i k; cbn [conv_rows]; [reflexivity|]. destruct (is_range r); cbn [length]; rewrite IH; reflexivity. Qed.
End Ranges.

Lemma nodup_snoc (l : list nat) j : NoDup l -> ~ In j l -> NoDup (l ++ [j]).
Proof.
  intros N H. apply (NoDup_Add (Add_app j l [])). rewrite app_nil_r. auto.
Qed.
Lemma qsum_S k f : qsum (S k) f == f 0%nat + qsum k (fun i => f (S i)).
Proof. change (S k) with (1 + k)%nat. rewrite qsum_app. cbn [qsum Nat.add]. ring. Qed.
Lemma qsum_rsum l g d : qsum (length l) (fun i => g (nth i l d)) == rsum l g.
Proof. induction l as [|r l IH]; [reflexivity|]. cbn [length rsum]. rewrite qsum_S. cbn [nth]. rewrite IH. reflexivity. Qed.
Lemma qsum_sumQ l : qsum (length l) (fun i => nth i l 0) == sumQ l.
Proof. induction l as [|r l IH]; [reflexivity|]. cbn [length sumQ]. rewrite qsum_S. cbn [nth]. rewrite IH. reflexivity. Qed.

Definition extend (m : mip) (act : nat -> Q) (y : point) : point :=
  fun j => if (j <? m_ncols m)%nat then y j else nth (j - m_ncols m) (added act 0 (m_rows m) y) 0.
Section Converted.
  Variables (m : mip) (act : nat -> Q).
  Hypothesis P : problem_ok m.
  Notation t := (converted m act).
  Lemma extend_agree y j : (j < m_ncols m)%nat -> extend m act y j == y j.
  Proof. intro L. unfold extend. apply Nat.ltb_lt in L. rewrite L. reflexivity. Qed.
  Lemma extend_added y k : extend m act y (m_ncols m + k)%nat = nth k (added act 0 (m_rows m) y) 0.
  Proof. unfold extend. destruct (Nat.ltb_spec (m_ncols m + k) (m_ncols m)); [lia|]. f_equal. lia. Qed.
  Lemma extend_feasible y : feasible m y -> feasible t (extend m act y).
  Proof.
    intros (F1 & F2 & F3). split; [|split].
    - cbn [converted m_rows]. intros r I.
      apply (conv_sat act (m_ncols m) y (extend m act y) (extend_agree y) (m_rows m) (po_wf m P) F1 0 0); [|exact I].
      intros k _. rewrite Nat.add_0_r, extend_added. reflexivity.
    - intros j L. cbn [converted m_clo m_chi m_ncols] in *. unfold extend. destruct (Nat.ltb_spec j (m_ncols m)) as [H|H]; [apply F2; exact H|].
      cbn. apply (added_bounds act (m_rows m) y F1).
    - intros j L K. cbn [converted m_int] in K. destruct (Nat.ltb_spec j (m_ncols m)) as [H|H]; [|discriminate].
      eapply integral_eq; [symmetry; apply extend_agree; exact H|]. apply F3; assumption.
  Qed.
  Lemma converted_data : data_ok t.
  Proof.
    assert (RI : forall i, (i < length (m_rows t))%nat -> In (row_of t i) (conv_rows (m_ncols m) 0 0 act (m_rows m))).
    { intros i L. apply (row_in t i L). }
    constructor.
    - intros r I. destruct (conv_in act (m_ncols m) _ _ _ _ I) as [(A & B)|(q & k & a & r0 & A1 & A2 & A3 & A4 & A5)].
      + destruct (po_wf m P r A) as (W1 & W2). split; [exact W1|]. intros j b Ij. specialize (W2 j b Ij). cbn [converted m_ncols]. lia.
      + destruct (po_wf m P r0 A3) as (W1 & W2). unfold wf_row. rewrite A4. split.
        * rewrite map_app. cbn [map fst]. apply nodup_snoc; [exact W1|]. intro C. apply in_map_iff in C. destruct C as ((j, b) & E & C).
          cbn in E. subst j. specialize (W2 _ _ C). lia.
        * intros j b Ij. cbn [converted m_ncols]. unfold num_ranges. apply in_app_or in Ij. destruct Ij as [Ij|[Ij|[]]].
          -- specialize (W2 j b Ij). lia.
          -- injection Ij as <- _. lia.
    - intros i l u L El Eu. destruct (conv_in act (m_ncols m) _ _ _ _ (RI i L)) as [(A & B)|(q & k & a & r0 & A1 & A2 & A3 & A4 & A5)].
      + destruct (po_rows m P _ l u A El Eu) as (K1 & K2 & K3). unfold is_range in B. rewrite El, Eu in B.
        apply andb_false_iff in B. destruct B as [B|B].
        * apply andb_false_iff in B. destruct B as [B|B]; qb; lra.
        * qb. lra.
      + rewrite A1 in El. rewrite A2 in Eu. injection El as <-. injection Eu as <-. reflexivity.
    - intros j L K. cbn [converted m_int m_clo m_chi] in *. destruct (Nat.ltb_spec j (m_ncols m)) as [H|H]; [|discriminate].
      apply (po_int m P j H K).
    - intros i L K. destruct (conv_in act (m_ncols m) _ _ _ _ (RI i L)) as [(A & B)|(q & k & a & r0 & A1 & A2 & A3 & A4 & A5)].
      + apply (po_slack m P _ A). unfold slack_int in *. apply andb_prop in K. destruct K as (K & K3). rewrite K. cbn [andb].
        rewrite forallb_forall in *. intros (j, b) Ij. specialize (K3 _ Ij). cbn [converted m_int fst snd] in *.
        destruct (po_wf m P _ A) as (_ & W2). specialize (W2 _ _ Ij). apply Nat.ltb_lt in W2. rewrite W2 in K3. exact K3.
      + exfalso. unfold slack_int in K. apply andb_prop in K. destruct K as (_ & K3). rewrite forallb_forall in K3.
        assert (I : In ((m_ncols m + k)%nat, a) (r_form (row_of t i))) by (rewrite A4; apply in_or_app; right; left; reflexivity).
        specialize (K3 _ I). cbn [converted m_int fst snd] in K3. destruct (Nat.ltb_spec (m_ncols m + k) (m_ncols m)); [lia|discriminate].
  Qed.
  Lemma extend_moderate p y : feasible m y -> point_ok m p y -> moderate t p (extend m act y).
  Proof.
    intros F M. pose proof (extend_feasible y F) as (G1 & G2 & G3). destruct F as (F1 & F2 & F3). unfold point_ok in M. unfold moderate.
    assert (WL : length (widths m) = num_ranges m) by (unfold widths, num_ranges; apply map_length).
    assert (SA : sabs t (extend m act y) <= sabs m y + sumQ (widths m)).
    { unfold sabs. cbn [converted m_ncols]. rewrite qsum_app, <- qsum_sumQ, WL.
      rewrite (qsum_ext (m_ncols m) (fun j => Qabs (extend m act y j)) (fun j => Qabs (y j))).
      2:{ intros j L. rewrite (extend_agree y j L). reflexivity. }
      assert (qsum (num_ranges m) (fun i => Qabs (extend m act y (m_ncols m + i)%nat)) <= qsum (num_ranges m) (fun i => nth i (widths m) 0)); [|lra].
      apply qsum_le. intros k _. rewrite extend_added. destruct (added_bounds act (m_rows m) y F1 0 k) as (B1 & B2).
      rewrite Qabs_pos by exact B1. exact B2. }
    assert (SP : span t (extend m act y) == span m y).
    { unfold span.
      change (qsum (length (m_rows m)) (fun i => od (r_lo (row_of m i)) (fun l => value (r_form (row_of m i)) y - l) +
                od (r_hi (row_of m i)) (fun u => u - value (r_form (row_of m i)) y)))
        with (qsum (length (m_rows m)) (fun i => rd y (nth i (m_rows m) (Row [] None None)))).
      change (qsum (length (m_rows t)) (fun i => od (r_lo (row_of t i)) (fun l => value (r_form (row_of t i)) (extend m act y) - l) +
                od (r_hi (row_of t i)) (fun u => u - value (r_form (row_of t i)) (extend m act y))))
        with (qsum (length (m_rows t)) (fun i => rd (extend m act y) (nth i (m_rows t) (Row [] None None)))).
      rewrite !qsum_rsum. cbn [converted m_ncols m_rows].
      rewrite <- (conv_rsum act (m_ncols m) y (extend m act y) (extend_agree y) (m_rows m) (po_wf m P) 0 0).
      rewrite qsum_app. fold (widths m). rewrite <- (qsum_sumQ (widths m)), WL.
      rewrite (qsum_ext (m_ncols m) _ (fun j => od (m_clo m j) (fun l => y j - l) + od (m_chi m j) (fun u => u - y j))).
      2:{ intros j L. cbn [converted m_clo m_chi]. apply Nat.ltb_lt in L as L'. rewrite L'. pose proof (extend_agree y j L) as E.
          destruct (m_clo m j), (m_chi m j); cbn [od]; rewrite ?E; reflexivity. }
      rewrite (qsum_ext (num_ranges m) (fun i => _ + _) (fun i => nth i (widths m) 0)).
      2:{ intros k L. cbn [converted m_clo m_chi]. destruct (Nat.ltb_spec (m_ncols m + k) (m_ncols m)); [lia|]. cbn [od].
          replace (m_ncols m + k - m_ncols m)%nat with k by lia. ring. }
      ring. }
    destruct (p_strengthen p || p_modularize p); [|rewrite SP]; nra.
  Qed.
End Converted.
Lemma plain_data m : problem_ok m -> num_ranges m = 0%nat -> data_ok m.
Proof.
  intros P Z. constructor.
  - apply (po_wf m P).
  - intros i l u L El Eu. destruct (po_rows m P _ l u (row_in m i L) El Eu) as (K1 & K2 & K3).
    assert (R : is_range (row_of m i) = false).
    { destruct (is_range (row_of m i)) eqn:R; [|reflexivity]. exfalso.
      assert (In (row_of m i) (filter is_range (m_rows m))) by (apply filter_In; split; [apply row_in; exact L|exact R]).
      unfold num_ranges in Z. destruct (filter is_range (m_rows m)); [destruct H|discriminate]. }
    unfold is_range in R. rewrite El, Eu in R. apply andb_false_iff in R. destruct R as [R|R]; [apply andb_false_iff in R; destruct R as [R|R]|]; qb; lra.
  - apply (po_int m P).
  - intros i L. apply (po_slack m P). apply row_in. exact L.
Qed.
Lemma plain_moderate m p y : num_ranges m = 0%nat -> point_ok m p y -> moderate m p y.
Proof.
  intros Z M. unfold point_ok, moderate in *. unfold num_ranges in Z. unfold widths in M. destruct (filter is_range (m_rows m)); [|discriminate].
  cbn [map sumQ] in M. lra.
Qed.

(** ** The candidate rows *)
Lemma insert_row_perm b x i l : Permutation (insert_row b x i l) (i :: l).
Proof.
  induction l as [|k l IH]; cbn [insert_row]; [reflexivity|]. destruct (before b x k i); [|reflexivity].
  rewrite IH. apply perm_swap.
Qed.
Lemma sorted_perm t p b x : Permutation (sorted_rows t p b x) (frac_rows t p b x).
Proof.
  unfold sorted_rows. induction (frac_rows t p b x) as [|i l IH]; cbn [fold_right]; [reflexivity|].
  rewrite insert_row_perm. constructor. exact IH.
Qed.
Lemma frac_row_inv t p b x i : In i (frac_rows t p b x) ->
  (i < length (m_rows t))%nat /\ (basic_at b i < m_ncols t)%nat /\ m_int t (basic_at b i) = true /\ p_away p < infeas (x (basic_at b i)).
Proof.
  unfold frac_rows. intro I. apply filter_In in I. destruct I as (I & K). apply in_seq in I.
  destruct (nth_error (b_basics b) i) as [j|] eqn:E; [|discriminate]. destruct (basic_nth _ _ _ E) as (-> & _).
  apply andb_prop in K. destruct K as (K & K3). apply andb_prop in K. destruct K as (K1 & K2).
  apply Nat.ltb_lt in K1. apply negb_true_iff in K3. qb. conjs; auto. lia.
Qed.
Lemma firstn_in {A} k (l : list A) a : In a (firstn k l) -> In a l.
Proof. revert l. induction k as [|k IH]; intros [|b l] I; cbn in *; try contradiction. destruct I as [->|I]; auto. Qed.
Lemma candidate_in t p b x i : In i (candidate_rows p (sorted_rows t p b x)) -> In i (frac_rows t p b x).
Proof.
  intro I. apply (Permutation_in i (sorted_perm t p b x)). unfold candidate_rows in I. destruct (p_maxCand p <? 0)%Z; [exact I|].
  eapply firstn_in. exact I.
Qed.

Definition ins_ok (ins : list rowcut -> rowcut -> list rowcut) : Prop := forall cs rc, ins cs rc = cs \/ ins cs rc = cs ++ [rc].

(** ** What generateCuts inserts *)
Section Made.
  Variable ins : list rowcut -> rowcut -> list rowcut.
  Hypothesis INS : ins_ok ins.
  Variable c : call.
  Variable t : mip.
  Variable ranges : bool.
  Variable p : lpar.
  Variable userLimit : Z.
  Variable v_ : validator.
  Variable b0 : basis.
  Variable x0 : nat -> Q.
  Notation nsi := (m_ncols (c_si c)).
  Variables Pf Pe : frow -> Prop.
  Definition made (rc : rowcut) : Prop :=
    rc = empty_cut \/
    exists f f', validate c p v_ x0 f = Done (NoneAccepted, f') /\ rc = as_cut f' /\
      ((Pf f /\ (ranges = true -> forall j a, In (j, a) (fst f') -> (j < nsi)%nat)) \/ Pe f).
  Hypothesis HM : forall row r, In row (frac_rows t p b0 x0) -> generateMig t (c_solver c) p b0 row = Done r -> Pf (snd r).
  Hypothesis HO : forall run lim row extra f e, In row (frac_rows t p b0 x0) -> (forall k g, In (k, g) extra -> Pe g) ->
    optimize t (c_solver c) (c_choices c) p v_ x0 run b0 lim row extra = Done (f, e) ->
    (forall k g, In (k, g) e -> Pe g) /\ match f with Some g => Pf g | None => True end.
  Definition lst_ok (cs : list rowcut) (s : lst) : Prop :=
    (forall rc, In rc (l_cs s) -> In rc cs \/ made rc) /\ (forall k g, In (k, g) (l_extra s) -> Pe g).
  Lemma ins_made cs l rc : (forall r, In r l -> In r cs \/ made r) -> made rc -> forall r, In r (ins l rc) -> In r cs \/ made r.
  Proof.
    intros H M r I. destruct (INS l rc) as [E|E]; rewrite E in I; [auto|]. apply in_app_or in I. destruct I as [I|[<-|[]]]; auto.
  Qed.
  (** a cut under construction: built and validated, or still the default *)
  Definition cut_ok (k : code) (cut : option frow) : Prop :=
    match cut with Some f' => k = NoneAccepted -> exists f, Pf f /\ validate c p v_ x0 f = Done (NoneAccepted, f') | None => True end.
  Lemma one_row_made cs i row s s' : In row (frac_rows t p b0 x0) -> lst_ok cs s ->
    one_row ins c t ranges p userLimit v_ b0 x0 i row s = Done s' -> lst_ok cs s'.
  Proof.
    intros IR (L1 & L2) E. unfold one_row in E. apply bind_done in E. destruct E as ((g, e) & Eg & E).
    assert (G : (forall k f, In (k, f) e -> Pe f) /\ match g with Some f => Pf f | None => True end).
    { destruct (l_lim s =? 0)%Z.
      - apply bind_done in Eg. destruct Eg as (r & Er & Eg). apply Done_inj in Eg. injection Eg as <- <-. split; [exact L2|]. eapply HM; eassumption.
      - eapply HO; eassumption. }
    destruct G as (G1 & G2). apply bind_done in E. destruct E as ((k, cut) & Ek & E). cbn [fst snd] in *.
    assert (C1 : cut_ok k cut).
    { destruct g as [f|]; [|apply Done_inj in Ek; injection Ek as <- <-; exact I].
      apply bind_done in Ek. destruct Ek as ((k1, f1) & Ev & Ek). apply Done_inj in Ek. injection Ek as <- <-. cbn [fst snd]. intros ->. exists f. auto. }
    apply bind_done in E. destruct E as ((((k2, cut2), e2), lim2) & E2 & E).
    assert (C2 : cut_ok k2 cut2 /\ forall k f, In (k, f) e2 -> Pe f).
    { destruct (_ && _).
      - apply bind_done in E2. destruct E2 as ((g2, e3) & Eo & E2). destruct (HO _ _ _ _ _ _ IR G1 Eo) as (H1 & H2). cbn [fst snd] in E2.
        destruct g2 as [f|].
        + apply bind_done in E2. destruct E2 as ((k1, f1) & Ev & E2). apply Done_inj in E2. injection E2 as <- <- <- <-. cbn [fst snd].
          split; [|exact H1]. intros ->. exists f. auto.
        + apply Done_inj in E2. injection E2 as <- <- <- <-. auto.
      - apply Done_inj in E2. injection E2 as <- <- <- <-. auto. }
    destruct C2 as (C2 & C3). destruct (accepted k2) eqn:A; apply Done_inj in E; subst s'; (split; [|exact C3]); cbn [l_cs]; [|exact L1].
    apply ins_made; [exact L1|]. destruct cut2 as [f'|]; [|left; reflexivity].
    assert (K : k2 = NoneAccepted) by (destruct k2; auto; discriminate). destruct (C2 K) as (f & F1 & F2).
    destruct (ranges && existsb _ (fst f')) eqn:X; [left; reflexivity|]. right. exists f, f'. conjs; auto. left. split; [exact F1|].
    intros -> j a I. cbn [andb] in X. destruct (Nat.ltb_spec j nsi) as [LJ|LJ]; [exact LJ|]. exfalso.
    assert (existsb (fun e => (nsi <=? fst e)%nat) (fst f') = true); [|congruence].
    apply existsb_exists. exists (j, a). split; [exact I|]. apply Nat.leb_le. exact LJ.
  Qed.
  Lemma rows_loop_made cs rows : (forall r, In r rows -> In r (frac_rows t p b0 x0)) -> forall i s s', lst_ok cs s ->
    rows_loop ins c t ranges p userLimit v_ b0 x0 i rows s = Done s' -> lst_ok cs s'.
  Proof.
    induction rows as [|r rows IH]; intros IR i s s' L E; cbn [rows_loop] in E; [apply Done_inj in E; subst s'; exact L|].
    destruct (_ && _); [|apply Done_inj in E; subst s'; exact L]. apply bind_done in E. destruct E as (s1 & E1 & E).
    eapply IH; [intros; apply IR; right; assumption| |exact E]. eapply one_row_made; [apply IR; left; reflexivity|exact L|exact E1].
  Qed.
  Lemma separate_made cs cs' : separate ins c t ranges p userLimit v_ b0 x0 cs = Done cs' ->
    forall rc, In rc cs' -> In rc cs \/ made rc.
  Proof.
    intro E. unfold separate in E. apply bind_done in E. destruct E as (u & _ & E). apply bind_done in E. destruct E as (s & Es & E).
    apply (rows_loop_made cs) in Es.
    - destruct Es as (L1 & L2).
      refine (ofold_inv (fun l => forall rc, In rc l -> In rc cs \/ made rc) _ _ _ _ _ L1 E).
      intros l j l' _ H Ea. unfold add_extra in Ea. destruct (extra_of (l_extra s) j) as [f|] eqn:Ex; [|apply Done_inj in Ea; subst l'; exact H].
      apply bind_done in Ea. destruct Ea as ((k, f') & Ev & Ea). cbn [fst snd] in Ea. apply Done_inj in Ea. subst l'.
      destruct (accepted k) eqn:A; [|exact H]. apply ins_made; [exact H|]. right. exists f, f'.
      assert (K : k = NoneAccepted) by (destruct k; auto; discriminate). subst k. conjs; auto. right.
      unfold extra_of in Ex. destruct (find _ (l_extra s)) as [(j', f0)|] eqn:Ef; [|discriminate]. cbn in Ex. injection Ex as <-.
      apply find_some in Ef. destruct Ef as (Ef & _). eapply L2. exact Ef.
    - apply candidate_in.
    - split; cbn [l_cs l_extra]; [auto|intros k g []].
  Qed.
End Made.

(** ** Shapes without any hypothesis *)
Section Shape.
  Variable m : mip.
  Variable s_ : solver.
  Variable h : choices.
  Variable p : lpar.
  Variable v_ : validator.
  Variable x0 : nat -> Q.
  Definition extra_shape (f : frow) : Prop := good_form m (fst f) /\ p_extra p <> NoExtra.
  Definition shapes (l : list (nat * frow)) : Prop := forall k f, In (k, f) l -> extra_shape f.
  Lemma extra_step_shape s i s' : p_extra p <> NoExtra -> shapes (o_extra s) -> extra_step m s_ h p v_ x0 s i = Done s' -> shapes (o_extra s').
  Proof.
    intros NE X E. unfold extra_step in E. destruct (_ && _); [|apply Done_inj in E; subst s'; auto].
    unfold extra_cut in E. destruct (nth_error (b_basics (o_b s)) i) as [c|]; [|discriminate].
    destruct (_ || _); [apply Done_inj in E; subst s'; auto|].
    apply bind_done in E. destruct E as ((t', f) & Eg & E). cbn [fst snd] in E. destruct (Qabs _ <? c1e10); [|discriminate].
    apply bind_done in E. destruct E as ((k, f') & Ev & E). cbn [fst snd] in E.
    destruct k; apply Done_inj in E; subst s'; cbn [set_extra set_k o_extra]; try exact X.
    intros c' f'' I. apply in_app_or in I. destruct I as [I|[I|[]]]; [eapply X; exact I|]. injection I as <- <-.
    unfold generateMig in Eg. apply bind_done in Eg. destruct Eg as (t & Et & Eg). split; [|exact NE].
    eapply sub_form; [|eapply create_shape; exact Eg]. apply (cc_sub _ _ _ _ _ _ (cleanCut_accepts _ _ _ _ _ _ _ _ _ Ev)).
  Qed.
  Lemma try_rows_extra fuel : forall s lv dir g c r, try_rows m h p fuel s lv dir g c = Done r -> o_extra (fst r) = o_extra s.
  Proof.
    induction fuel as [|fuel IH]; intros s lv dir g c r E; cbn [try_rows] in E;
      (destruct c as [j| |]; [apply Done_inj in E; subst r; reflexivity| |];
       (destruct (o_failed s <? 5)%Z; [|apply Done_inj in E; subst r; reflexivity])); try discriminate.
    - destruct (rescan _ _ _) as [[[lv' dir'] g']|]; [apply IH in E; exact E|apply Done_inj in E; subst r; reflexivity].
    - destruct (p_countRc p); (destruct (rescan _ _ _) as [[[lv' dir'] g']|]; [apply IH in E; exact E|apply Done_inj in E; subst r; reflexivity]).
  Qed.
  Lemma try_initial_extra fuel : forall s r, try_initial m h p fuel s = Done r -> o_extra (fst r) = o_extra s.
  Proof.
    induction fuel as [|fuel IH]; intros s r E; cbn [try_initial] in E; [discriminate|].
    destruct (rescan m p s) as [[[lv dir] g]|]; [|discriminate]. destruct (h_col h _ lv dir g); [apply Done_inj in E; subst r; reflexivity| |];
      apply IH in E; exact E.
  Qed.
  Lemma search_extra s r : search m s_ h p s = Done r -> o_extra (fst r) = o_extra s.
  Proof.
    unfold search. destruct (_ || _); [|intro E; apply try_initial_extra in E; exact E]. destruct (s_clp s_); [|discriminate].
    destruct (find_row m h p s) as [[[lv dir] g]|]; [|intro E; apply Done_inj in E; subst r; reflexivity].
    destruct (p_rule p).
    - intro E. apply try_rows_extra in E. exact E.
    - destruct (h_best _ _ _) as [(k, c)|]; [|intro E; apply Done_inj in E; subst r; reflexivity].
      destruct (nth_error _ k) as [(lv', dir')|]; intro E; apply Done_inj in E; subst r; reflexivity.
    - intro E. apply try_rows_extra in E. exact E.
  Qed.
  Lemma change_basis_extra s j lv dir r : change_basis m s_ s j lv dir = Done r -> o_extra (fst r) = o_extra s.
  Proof.
    unfold change_basis. destruct (_ || _); [discriminate|]. destruct (s_pivot s_ _ _ _ dir); intro E; apply bind_done in E;
      destruct E as (t & _ & E); apply Done_inj in E; subst r; reflexivity.
  Qed.
  (** any property of the extra cuts that one of them keeps *)
  Section Keeps.
  Variable XP : list (nat * frow) -> Prop.
  Hypothesis HX : forall s i s', p_extra p <> NoExtra -> XP (o_extra s) -> extra_step m s_ h p v_ x0 s i = Done s' -> XP (o_extra s').
  Lemma iterate_keeps s v : XP (o_extra s) -> iterate m s_ h p v_ x0 s = Done v -> XP (o_extra (verdict_state v)).
  Proof.
    intros X E. unfold iterate in E. destruct (h_time h s); [apply Done_inj in E; subst v; exact X|].
    apply bind_done in E. destruct E as ((s1, k) & Es & E). apply search_extra in Es. cbn [fst tick o_extra] in Es.
    assert (X1 : XP (o_extra s1)) by (rewrite Es; exact X).
    destruct k as [[[lv dir] [j|]]|]; [|apply Done_inj in E; subst v; exact X1|apply Done_inj in E; subst v; exact X1].
    apply bind_done in E. destruct E as ((s3, ok) & Ec & E). apply bind_done in E. destruct E as (s4 & Ee & E).
    apply change_basis_extra in Ec. cbn [fst snd] in *.
    assert (X3 : XP (o_extra s3)) by (rewrite Ec; destruct (h_deg h s1); exact X1).
    assert (X4 : XP (o_extra s4)).
    { unfold entering in Ee. destruct (mode_eqb (p_extra p) WhenEnteringBasis) eqn:M; [|apply Done_inj in Ee; subst s4; exact X3].
      eapply HX; [|exact X3|exact Ee]. intro C. rewrite C in M. discriminate. }
    destruct ok; [destruct (h_worse h _)|]; apply Done_inj in E; subst v; exact X4.
  Qed.
  Lemma loop_keeps fuel lim : forall s v, XP (o_extra s) -> loop m s_ h p v_ x0 fuel lim s = Done v -> XP (o_extra (verdict_state v)).
  Proof.
    induction fuel as [|fuel IH]; intros s v X E; cbn [loop] in E; destruct (o_piv s <? lim)%Z; try discriminate;
      try (apply Done_inj in E; subst v; exact X).
    apply bind_done in E. destruct E as (r & Er & E). pose proof (iterate_keeps s r X Er) as X1.
    destruct r; try (apply Done_inj in E; subst v; exact X1). eapply IH; eassumption.
  Qed.
  Lemma optimize_keeps run b0 lim row extra f e : XP extra -> optimize m s_ h p v_ x0 run b0 lim row extra = Done (f, e) ->
    XP e /\ match f with Some g => good_form m (fst g) | None => True end.
  Proof.
    intros X E. unfold optimize in E. apply bind_done in E. destruct E as (t & Et & E).
    destruct (p_maxLen p <? t_len t)%Z; [apply Done_inj in E; injection E as <- <-; auto|].
    apply bind_done in E. destruct E as (v & Ev & E). apply loop_keeps in Ev; [|exact X].
    assert (K : forall s, XP (o_extra s) ->
      (if (p_maxLen p <? t_len (o_k s))%Z then Done (None, o_extra s)
       else do c <- create m p (o_b s) (o_k s);
            if mode_eqb (p_extra p) AtOptimalBasis then
              do s' <- extra_cuts m s_ h p v_ x0 (set_k s (fst c)); Done (Some (snd c), o_extra s')
            else Done (Some (snd c), o_extra s)) = Done (f, e) ->
      XP e /\ match f with Some g => good_form m (fst g) | None => True end).
    { clear E. intros s I5 E. destruct (p_maxLen p <? t_len (o_k s))%Z; [apply Done_inj in E; injection E as <- <-; auto|].
      apply bind_done in E. destruct E as ((t', c) & Ec & E). cbn [fst snd] in E. pose proof (create_shape m p _ _ _ _ Ec) as NV.
      destruct (mode_eqb (p_extra p) AtOptimalBasis) eqn:M.
      - apply bind_done in E. destruct E as (s' & Es & E). apply Done_inj in E. injection E as <- <-. split; [|exact NV].
        unfold extra_cuts in Es. refine (ofold_inv (fun s => XP (o_extra s)) _ _ (set_k s t') _ _ I5 Es).
        intros a i a' _ Pa Ea. eapply HX; [|exact Pa|exact Ea]. intro C. rewrite C in M. discriminate.
      - apply Done_inj in E. injection E as <- <-. auto. }
    destruct v as [s|s|s]; cbn [verdict_state] in Ev; [apply (K s Ev E)| |apply (K s Ev E)].
    apply Done_inj in E. injection E as <- <-. auto.
  Qed.
  End Keeps.
  Lemma optimize_shape run b0 lim row extra f e : shapes extra -> optimize m s_ h p v_ x0 run b0 lim row extra = Done (f, e) ->
    shapes e /\ match f with Some g => good_form m (fst g) | None => True end.
  Proof. apply optimize_keeps. intros s i s'. apply extra_step_shape. Qed.
  (** one extra cut for a column, and no more than extraCutsLimit *)
  Definition few (l : list (nat * frow)) : Prop := NoDup (map fst l) /\ (Z.of_nat (length l) <= Z.max 0 (p_extraLimit p))%Z.
  Lemma extra_step_few s i s' : few (o_extra s) -> extra_step m s_ h p v_ x0 s i = Done s' -> few (o_extra s').
  Proof.
    intros X E. unfold extra_step in E. destruct (few_extra p s) eqn:FE; cbn [andb] in E; [|apply Done_inj in E; subst s'; auto].
    destruct (match nth_error _ i with Some _ => _ | None => _ end); [|apply Done_inj in E; subst s'; auto].
    unfold extra_cut in E. destruct (nth_error (b_basics (o_b s)) i) as [c|]; [|discriminate].
    destruct (existsb (fun e => Nat.eqb (fst e) c) (o_extra s)) eqn:EK; [rewrite orb_true_r in E; apply Done_inj in E; subst s'; auto|].
    destruct (_ || _); [apply Done_inj in E; subst s'; auto|].
    apply bind_done in E. destruct E as ((t', f) & Eg & E). cbn [fst snd] in E. destruct (Qabs _ <? c1e10); [|discriminate].
    apply bind_done in E. destruct E as ((k, f') & Ev & E). cbn [fst snd] in E.
    destruct k; apply Done_inj in E; subst s'; cbn [set_extra set_k o_extra]; try exact X.
    destruct X as (X1 & X2). unfold few_extra in FE. apply Z.ltb_lt in FE. split.
    - rewrite map_app. cbn [map fst]. apply nodup_snoc; [exact X1|]. intro I. apply in_map_iff in I. destruct I as (e & Ee & I).
      assert (existsb (fun e => Nat.eqb (fst e) c) (o_extra s) = true); [|congruence]. apply existsb_exists. exists e. rewrite Ee, Nat.eqb_refl. auto.
    - rewrite app_length. cbn [length]. lia.
  Qed.
  Lemma optimize_few run b0 lim row extra f e : few extra -> optimize m s_ h p v_ x0 run b0 lim row extra = Done (f, e) -> few e.
  Proof. intros X E. apply (optimize_keeps few) in E; [apply E| |exact X]. intros s i s' _. apply extra_step_few. Qed.
End Shape.
