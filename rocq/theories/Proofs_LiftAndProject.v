(** * Lemmas on the model of CglLiftAndProject *)

From Verif Require Import Spec Base Model_LiftAndProject.
From Coq Require Import Lia Lqa Arith Qabs.
Open Scope Q_scope.

(** ** The arrays of B *)

Definition seg (b : mem) (s : nat) (v : vec) : Prop :=
  forall t e, nth_error v t = Some e -> b (s + t)%nat = Some e.
Definition negv (v : vec) : vec := map (fun p => (fst p, - snd p)) v.

Lemma read_seg b v : forall s, seg b s v -> read_col b s (List.length v) = Done v.
Proof.
  induction v as [|e v IH]; intros s H; [reflexivity|]. cbn [read_col List.length].
  pose proof (H 0%nat e eq_refl) as H0. rewrite Nat.add_0_r in H0. rewrite H0.
  rewrite IH; [reflexivity|]. intros t e' T. specialize (H (S t) e' T). rewrite <- H. f_equal. lia.
Qed.

Lemma put_same k e b : put k e b k = Some e.
Proof. unfold put. rewrite Nat.eqb_refl. reflexivity. Qed.
Lemma put_other k e b k' : k' <> k -> put k e b k' = b k'.
Proof. intros H. unfold put. destruct (Nat.eqb_spec k' k); [contradiction|reflexivity]. Qed.

Lemma fill_entries_ok full off v : forall k b, (k + List.length v <= off)%nat -> (2 * off <= full)%nat ->
  exists b', fill_entries full off v k b = Done b' /\
    seg b' k v /\ seg b' (k + off) (negv v) /\
    (forall k', (k' < k \/ off <= k' < off + k)%nat -> b' k' = b k').
Proof.
  induction v as [|[i a] v IH]; intros k b H1 H2; cbn [fill_entries List.length negv map] in *.
  - exists b. conjs; try reflexivity; intros t e T; destruct t; discriminate.
  - destruct (Nat.leb_spec full (k + off)); [lia|].
    destruct (IH (S k) (put (k + off) (i, - a) (put k (i, a) b))) as (b' & E & S1 & S2 & K); [lia|lia|].
    exists b'. conjs.
    + exact E.
    + intros [|t] e T; cbn in T.
      * apply Some_inj in T. subst e. rewrite Nat.add_0_r, K; [|lia]. rewrite put_other, put_same; [reflexivity|lia].
      * rewrite <- (S1 t e T). f_equal. lia.
    + intros [|t] e T; cbn in T.
      * apply Some_inj in T. subst e. rewrite Nat.add_0_r, K; [|lia]. rewrite put_same. reflexivity.
      * rewrite <- (S2 t e T). f_equal. lia.
    + intros k' K'. rewrite K; [|lia]. rewrite !put_other; [reflexivity|lia|lia].
Qed.

Fixpoint laid (n off : nat) (b : mem) (rows : list (vec * Q)) (k : nat) : Prop :=
  match rows with
  | [] => True
  | (v, lo) :: rows' =>
      seg b k (v ++ [(n, lo)]) /\ seg b (k + off) (negv v ++ [(S n, lo)]) /\
      laid n off b rows' (k + List.length v + 1)
  end.
Fixpoint size (rows : list (vec * Q)) : nat :=
  match rows with [] => 0%nat | (v, _) :: rows' => (List.length v + 1 + size rows')%nat end.

Lemma seg_snoc b s v e : seg b s v -> b (s + List.length v)%nat = Some e -> seg b s (v ++ [e]).
Proof.
  intros H1 H2 t e' T. destruct (Nat.lt_ge_cases t (List.length v)).
  - rewrite nth_error_app1 in T by assumption. apply H1. exact T.
  - rewrite nth_error_app2 in T by assumption. destruct (t - List.length v)%nat eqn:D.
    + cbn in T. apply Some_inj in T. subst e'. rewrite <- H2. f_equal. lia.
    + destruct n; discriminate.
Qed.
Lemma seg_frame b b' s v : (forall k, (s <= k < s + List.length v)%nat -> b' k = b k) -> seg b s v -> seg b' s v.
Proof.
  intros F H t e T. rewrite F; [apply H; exact T|].
  assert (t < List.length v)%nat by (apply nth_error_Some; congruence). lia.
Qed.
Lemma negv_len v : List.length (negv v) = List.length v.
Proof. apply map_length. Qed.

Lemma fill_ok n full off rows : forall k b, (k + size rows <= off)%nat -> (2 * off <= full)%nat ->
  exists b', fill n full off rows k b = Done b' /\ laid n off b' rows k /\
    (forall k', (k' < k \/ off <= k' < off + k)%nat -> b' k' = b k').
Proof.
  induction rows as [|[v lo] rows IH]; intros k b H1 H2; cbn [fill size laid] in *.
  - exists b. conjs; auto.
  - destruct (fill_entries_ok full off v k b) as (b1 & E1 & S1 & S2 & K1); [lia|lia|].
    rewrite E1. cbn [bind].
    destruct (Nat.leb_spec full (k + List.length v + off)); [lia|].
    destruct (IH (S (k + List.length v)) (put (k + List.length v + off) (S n, lo) (put (k + List.length v) (n, lo) b1)))
      as (b' & E & L & K); [lia|lia|].
    exists b'. conjs.
    + exact E.
    + apply seg_snoc.
      * eapply seg_frame; [|exact S1]. intros k' K'. rewrite K; [|lia]. rewrite !put_other; [reflexivity|lia|lia].
      * rewrite K; [|lia]. rewrite put_other, put_same; [reflexivity|lia].
    + apply seg_snoc.
      * eapply seg_frame; [|exact S2]. rewrite negv_len. intros k' K'. rewrite K; [|lia]. rewrite !put_other; [reflexivity|lia|lia].
      * rewrite negv_len. replace (k + off + List.length v)%nat with (k + List.length v + off)%nat by lia.
        rewrite K; [|lia]. rewrite put_same. reflexivity.
    + replace (k + List.length v + 1)%nat with (S (k + List.length v)) by lia. exact L.
    + intros k' K'. rewrite K; [|lia]. rewrite !put_other; [apply K1; lia|lia|lia].
Qed.

Definition no_gaps (gaps : list nat) : Prop := forall g, In g gaps -> g = 0%nat.
Lemma no_gaps_hd gaps : no_gaps gaps -> hd 0%nat gaps = 0%nat /\ no_gaps (tl gaps).
Proof.
  intros H. destruct gaps as [|g gaps]; cbn.
  - split; [reflexivity|exact H].
  - split; [apply H; left; reflexivity|intros g' G; apply H; right; exact G].
Qed.

Definition ucol (n : nat) (p : vec * Q) : vec := fst p ++ [(n, snd p)].
Definition vcol (n : nat) (p : vec * Q) : vec := negv (fst p) ++ [(S n, snd p)].

Lemma read_cols_ok n off b rows : forall gaps s i k, no_gaps gaps -> laid n off b rows k -> k = (s + i)%nat ->
  read_cols b 0 (map fst rows) (starts_from s (map fst rows) gaps) i = Done (map (ucol n) rows) /\
  read_cols b off (map fst rows) (starts_from s (map fst rows) gaps) i = Done (map (vcol n) rows).
Proof.
  induction rows as [|[v lo] rows IH]; intros gaps s i k G L ->; cbn [map fst starts_from read_cols]; [split; reflexivity|].
  destruct L as (L1 & L2 & L3). destruct (no_gaps_hd gaps G) as [G1 G2]. rewrite G1.
  destruct (IH (tl gaps) (s + List.length v + 0)%nat (S i) _ G2 L3) as [I1 I2]; [lia|].
  rewrite I1, I2. cbn [Nat.add].
  assert (R1 : read_col b (s + i) (S (List.length v)) = Done (v ++ [(n, lo)])).
  { replace (S (List.length v)) with (List.length (v ++ [(n, lo)])) by (rewrite app_length; cbn; lia).
    apply read_seg. exact L1. }
  assert (R2 : read_col b (off + (s + i)) (S (List.length v)) = Done (negv v ++ [(S n, lo)])).
  { replace (S (List.length v)) with (List.length (negv v ++ [(S n, lo)])) by (rewrite app_length, negv_len; cbn; lia).
    apply read_seg. rewrite Nat.add_comm. exact L2. }
  rewrite R1, R2. split; reflexivity.
Qed.

Lemma last_cons (s : nat) l : l <> [] -> last (s :: l) 0%nat = last l 0%nat.
Proof. destruct l; [contradiction|reflexivity]. Qed.
Lemma starts_ne s rows gaps : starts_from s rows gaps <> [].
Proof. destruct rows; discriminate. Qed.
Lemma full_size_ge rows : forall lows gaps s, List.length lows = List.length rows ->
  (s + size (combine rows lows) <= last (starts_from s rows gaps) 0 + List.length rows)%nat.
Proof.
  induction rows as [|v rows IH]; intros [|lo lows] gaps s H; try discriminate; [cbn; lia|].
  cbn [starts_from combine size]. rewrite last_cons by apply starts_ne.
  cbn in H. injection H as H. specialize (IH lows (tl gaps) (s + List.length v + hd 0%nat gaps)%nat H). cbn [List.length]. lia.
Qed.
Lemma combine_fst {A B} (l : list A) : forall (k : list B), List.length k = List.length l -> map fst (combine l k) = l.
Proof. induction l as [|a l IH]; intros [|b k] H; try discriminate; [reflexivity|]. cbn. f_equal. apply IH. cbn in H. lia. Qed.

(** The columns of B when the matrix has no gaps. *)
Definition bcols (n : nat) (rows : list (vec * Q)) (x : point) : list (vec * Q * bool) :=
  map (fun p => (ucol n p, value (fst p) x, false)) rows ++ map (fun p => (vcol n p, 0, false)) rows.

Lemma generate_eq solve ins inf m gaps x beta cs : no_gaps gaps ->
  generateCuts solve ins inf m gaps x beta cs =
  if (List.length (m_rows m) =? 0)%nat then Undef OutOfBounds else
  ofold (lap_step solve ins m x beta
           (bcols (m_ncols m) (map (fun r => (r_form r, row_lower inf r)) (m_rows m)) x)) (seq 0 (m_ncols m)) cs.
Proof.
  intros G. unfold generateCuts. cbv zeta.
  set (rows := map r_form (m_rows m)). set (lows := map (row_lower inf) (m_rows m)).
  assert (LL : List.length lows = List.length rows) by (unfold rows, lows; rewrite !map_length; reflexivity).
  assert (CE : combine rows lows = map (fun r => (r_form r, row_lower inf r)) (m_rows m)).
  { unfold rows, lows. clear. induction (m_rows m) as [|r l IH]; cbn; [reflexivity|]. rewrite IH. reflexivity. }
  destruct (fill_ok (m_ncols m) (2 * full_size (Packed rows gaps) + 2 * List.length rows + 3)
     (full_size (Packed rows gaps) + List.length rows) (combine rows lows) 0 (fun _ => None)) as (b & E & L & _).
  - pose proof (full_size_ge rows lows gaps 0 LL). unfold full_size, starts. cbn [p_rows p_gaps]. lia.
  - lia.
  - rewrite E. cbn [bind].
    replace (List.length rows =? 0)%nat with (List.length (m_rows m) =? 0)%nat by (unfold rows; rewrite map_length; reflexivity).
    destruct (List.length (m_rows m) =? 0)%nat; [reflexivity|].
    destruct (read_cols_ok _ _ _ _ gaps 0 0 0 G L eq_refl) as [R1 R2].
    rewrite (combine_fst rows lows LL) in R1, R2. unfold starts. cbn [p_rows p_gaps].
    rewrite R1, R2. cbn [bind]. f_equal. f_equal. unfold bcols. rewrite CE.
    rewrite !map_map. f_equal.
    unfold rows. clear. induction (m_rows m) as [|r l IH]; cbn [map combine]; [reflexivity|]. rewrite IH. reflexivity.
Qed.

(** ** Sums over columns *)

Definition sumf (f : nat -> Q) (n : nat) (y : point) : Q := value (map (fun p => (p, f p)) (seq 0 n)) y.

Lemma sum_add f g l y : value (map (fun p => (p, f p + g p)) l) y ==
  value (map (fun p => (p, f p)) l) y + value (map (fun p => (p, g p)) l) y.
Proof. induction l as [|p l IH]; cbn [map value]; [lra|]. rewrite IH. lra. Qed.
Lemma sum_scale c f l y : value (map (fun p => (p, c * f p)) l) y == c * value (map (fun p => (p, f p)) l) y.
Proof. induction l as [|p l IH]; cbn [map value]; [lra|]. rewrite IH. lra. Qed.
Lemma sum_zero l y : value (map (fun p => (p, 0)) l) y == 0.
Proof. induction l as [|p l IH]; cbn [map value]; [lra|]. rewrite IH. lra. Qed.
Lemma sum_ext f g l y : (forall p, In p l -> f p == g p) ->
  value (map (fun p => (p, f p)) l) y == value (map (fun p => (p, g p)) l) y.
Proof.
  induction l as [|p l IH]; intros H; cbn [map value]; [lra|]. rewrite IH by (intros; apply H; right; assumption).
  rewrite (H p) by (left; reflexivity). lra.
Qed.
Lemma sum_ind i y : forall l, NoDup l -> In i l ->
  value (map (fun p => (p, if Nat.eqb i p then 1 else 0)) l) y == y i.
Proof.
  induction l as [|p l IH]; intros ND H; [destruct H|]. inversion ND as [|? ? N1 N2]; subst. cbn [map value].
  destruct H as [->|H].
  - rewrite Nat.eqb_refl. rewrite (sum_ext _ (fun _ => 0)), sum_zero; [lra|].
    intros q Q. destruct (Nat.eqb_spec i q); [subst; contradiction|reflexivity].
  - destruct (Nat.eqb_spec i p); [subst; contradiction|]. rewrite IH by assumption. lra.
Qed.

Lemma entry_cons i a v p : entry ((i, a) :: v) p == a * (if Nat.eqb i p then 1 else 0) + entry v p.
Proof. unfold entry. cbn [value]. reflexivity. Qed.

Lemma sum_entry n v y : (forall i a, In (i, a) v -> (i < n)%nat) -> sumf (entry v) n y == value v y.
Proof.
  unfold sumf. induction v as [|[i a] v IH]; intros H; cbn [value].
  - rewrite (sum_ext _ (fun _ => 0)), sum_zero; [reflexivity|]. intros; reflexivity.
  - rewrite (sum_ext _ (fun p => a * (if Nat.eqb i p then 1 else 0) + entry v p)) by (intros; apply entry_cons).
    rewrite sum_add, sum_scale, sum_ind, IH; [lra| |apply seq_NoDup|].
    + intros i' a' I'. apply (H i' a'). right. exact I'.
    + apply in_seq. specialize (H i a (or_introl eq_refl)). lia.
Qed.

(** [comb] and the weighted sum of row activities. *)
Fixpoint wsum (u : list Q) (l : list Q) : Q :=
  match u, l with a :: u', b :: l' => a * b + wsum u' l' | _, _ => 0 end.

Lemma sum_comb n rows y : (forall v, In v rows -> forall i a, In (i, a) v -> (i < n)%nat) ->
  forall u, sumf (comb u rows) n y == wsum u (map (fun v => value v y) rows).
Proof.
  induction rows as [|v rows IH]; intros H [|c u]; unfold sumf in *; cbn [comb wsum map].
  1-3: apply sum_zero.
  rewrite sum_add, sum_scale, IH.
  - assert (E := sum_entry n v y (H v (or_introl eq_refl))). unfold sumf in E. rewrite E. reflexivity.
  - intros w W. apply H. right. exact W.
Qed.

Lemma wsum_le u l l' : (forall c, In c u -> 0 <= c) -> Forall2 Qle l l' -> wsum u l <= wsum u l'.
Proof.
  intros H F. revert u H. induction F as [|a b l l' L F IH]; intros [|c u] H; cbn [wsum]; try lra.
  assert (0 <= c) by (apply H; left; reflexivity).
  assert (wsum u l <= wsum u l') by (apply IH; intros; apply H; right; assumption). nra.
Qed.

(** Activity of a list of columns. *)
Fixpoint act (cols : list vec) (w : list Q) (i : nat) : Q :=
  match cols, w with
  | c :: cols', a :: w' => a * entry c i + act cols' w' i
  | _, _ => 0
  end.
Lemma act_app c1 c2 i : forall w1 w2, List.length w1 = List.length c1 ->
  act (c1 ++ c2) (w1 ++ w2) i == act c1 w1 i + act c2 w2 i.
Proof.
  induction c1 as [|c c1 IH]; intros [|a w1] w2 H; try discriminate; cbn [app act]; [lra|].
  rewrite IH by (cbn in H; lia). lra.
Qed.
Lemma entry_app v w p : entry (v ++ w) p == entry v p + entry w p.
Proof. unfold entry. apply value_app. Qed.
Lemma entry_neg v p : entry (negv v) p == - entry v p.
Proof.
  induction v as [|[i a] v IH]; [reflexivity|]. cbn [negv map fst snd]. rewrite !entry_cons. fold (negv v). rewrite IH. lra.
Qed.
Lemma entry_out v n p : (forall i a, In (i, a) v -> (i < n)%nat) -> (n <= p)%nat -> entry v p == 0.
Proof.
  induction v as [|[i a] v IH]; intros H L; [reflexivity|]. rewrite entry_cons, IH by (try assumption; intros; eapply H; right; eassumption).
  specialize (H i a (or_introl eq_refl)). destruct (Nat.eqb_spec i p); [lia|lra].
Qed.
Lemma entry_one i a p : entry [(i, a)] p == a * (if Nat.eqb i p then 1 else 0).
Proof. unfold entry. cbn [value]. lra. Qed.

Section Cols.
  Variable n : nat.
  Variable rows : list (vec * Q).
  Hypothesis IN : forall p, In p rows -> forall i a, In (i, a) (fst p) -> (i < n)%nat.

  Lemma act_u_low p : (p < n)%nat -> forall u, act (map (ucol n) rows) u p == comb u (map fst rows) p.
  Proof.
    intros P. induction rows as [|[v lo] l IH]; intros [|c u]; cbn [map act comb fst]; try reflexivity.
    rewrite IH by (intros; eapply IN; [right|]; eassumption).
    unfold ucol. cbn [fst snd]. rewrite entry_app, entry_one. destruct (Nat.eqb_spec n p); [lia|lra].
  Qed.
  Lemma act_u_n : forall u, act (map (ucol n) rows) u n == wsum u (map snd rows).
  Proof.
    induction rows as [|[v lo] l IH]; intros [|c u]; cbn [map act wsum snd]; try reflexivity.
    rewrite IH by (intros; eapply IN; [right|]; eassumption).
    unfold ucol. cbn [fst snd]. rewrite entry_app, entry_one, Nat.eqb_refl.
    rewrite (entry_out v n n); [lra| |lia]. apply (IN (v, lo)). left. reflexivity.
  Qed.
  Lemma act_u_Sn : forall u, act (map (ucol n) rows) u (S n) == 0.
  Proof.
    induction rows as [|[v lo] l IH]; intros [|c u]; cbn [map act]; try reflexivity.
    rewrite IH by (intros; eapply IN; [right|]; eassumption).
    unfold ucol. cbn [fst snd]. rewrite entry_app, entry_one.
    rewrite (entry_out v n (S n)); [|apply (IN (v, lo)); left; reflexivity|lia].
    destruct (Nat.eqb_spec n (S n)); [lia|lra].
  Qed.
  Lemma act_v_low p : (p < n)%nat -> forall u, act (map (vcol n) rows) u p == - comb u (map fst rows) p.
  Proof.
    intros P. induction rows as [|[v lo] l IH]; intros [|c u]; cbn [map act comb fst]; try reflexivity.
    rewrite IH by (intros; eapply IN; [right|]; eassumption).
    unfold vcol. cbn [fst snd]. rewrite entry_app, entry_one, entry_neg. destruct (Nat.eqb_spec (S n) p); [lia|lra].
  Qed.
  Lemma act_v_n : forall u, act (map (vcol n) rows) u n == 0.
  Proof.
    induction rows as [|[v lo] l IH]; intros [|c u]; cbn [map act]; try reflexivity.
    rewrite IH by (intros; eapply IN; [right|]; eassumption).
    unfold vcol. cbn [fst snd]. rewrite entry_app, entry_one, entry_neg.
    rewrite (entry_out v n n); [|apply (IN (v, lo)); left; reflexivity|lia].
    destruct (Nat.eqb_spec (S n) n); [lia|lra].
  Qed.
  Lemma act_v_Sn : forall u, act (map (vcol n) rows) u (S n) == wsum u (map snd rows).
  Proof.
    induction rows as [|[v lo] l IH]; intros [|c u]; cbn [map act wsum snd]; try reflexivity.
    rewrite IH by (intros; eapply IN; [right|]; eassumption).
    unfold vcol. cbn [fst snd]. rewrite entry_app, entry_one, entry_neg, Nat.eqb_refl.
    rewrite (entry_out v n (S n)); [lra|apply (IN (v, lo)); left; reflexivity|lia].
  Qed.
End Cols.
