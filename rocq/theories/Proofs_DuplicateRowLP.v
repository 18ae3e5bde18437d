(** * CglDuplicateRow: what the marks and fixings mean for the problem *)

From Verif Require Import Spec Base Model_TreeInfo Model_Clique Proofs_Clique Model_DuplicateRow Proofs_DuplicateRow.
From Coq Require Import Arith Sorted Permutation Lia Lqa Qabs Setoid.
Open Scope Q_scope.

(** ** Vocabulary of the statements (nothing here is taken from the code) *)

Definition oint (o : option Q) : Prop := match o with Some q => integral q | None => True end.

(** All numbers of the problem are integers and no row has its lower bound
    above its upper bound. *)
Record integer_data (m : mip) : Prop := {
  d_coef : forall r j a, In r (m_rows m) -> In (j, a) (r_form r) -> integral a;
  d_lo : forall r, In r (m_rows m) -> oint (r_lo r);
  d_hi : forall r, In r (m_rows m) -> oint (r_hi r);
  d_ord : forall r l h, In r (m_rows m) -> r_lo r = Some l -> r_hi r = Some h -> l <= h;
  d_clo : forall j, (j < m_ncols m)%nat -> oint (m_clo m j);
  d_chi : forall j, (j < m_ncols m)%nat -> oint (m_chi m j) }.

(** Column [j] is not fixed by its bounds. *)
Definition is_open (m : mip) (j : nat) : Prop :=
  forall l u, m_clo m j = Some l -> m_chi m j = Some u -> l < u.
(** Column [j] occurs in row [r] and is not fixed. *)
Definition opens (m : mip) (r : row) (j : nat) : Prop := (exists a, In (j, a) (r_form r)) /\ is_open m j.
(** Every open column of [r] is a 0-1 column with coefficient 1. *)
Definition unit_row (m : mip) (r : row) : Prop :=
  forall j a, In (j, a) (r_form r) -> is_open m j ->
    a == 1 /\ exists l u, m_clo m j = Some l /\ m_chi m j = Some u /\ l == 0 /\ u == 1.
Definition is_equation (r : row) : Prop := exists l h, r_lo r = Some l /\ r_hi r = Some h /\ l == h.

(** The last open column of a unit row is not an inner column of another. *)
Definition ends_apart (m : mip) : Prop :=
  forall r1 r2 c, In r1 (m_rows m) -> In r2 (m_rows m) -> unit_row m r1 -> unit_row m r2 ->
    opens m r1 c -> (forall j, opens m r1 j -> (j <= c)%nat) -> opens m r2 c ->
    forall j, opens m r2 j -> (j <= c)%nat.
(** Among unit rows with the same open columns the equations come first. *)
Definition equations_first (m : mip) : Prop :=
  forall i1 i2 r1 r2, (i1 < i2)%nat -> nth_error (m_rows m) i1 = Some r1 -> nth_error (m_rows m) i2 = Some r2 ->
    unit_row m r1 -> unit_row m r2 -> (forall j, opens m r1 j <-> opens m r2 j) ->
    is_equation r2 -> is_equation r1.

(** ** Sums over lists of columns *)
Definition ones (l : list nat) : vec := map (fun c => (c, 1)) l.

Lemma ones_app l l' x : value (ones (l ++ l')) x == value (ones l) x + value (ones l') x.
Proof. unfold ones. rewrite map_app. apply value_app. Qed.

Lemma ones_nonneg l y : (forall c, In c l -> 0 <= y c) -> 0 <= value (ones l) y.
Proof.
  induction l as [|c l IH]; intro H; cbn [ones map value]; [lra|].
  assert (0 <= y c) by (apply H; left; reflexivity).
  assert (0 <= value (ones l) y) by (apply IH; intros; apply H; right; assumption). unfold ones in *. lra.
Qed.

Lemma ones_incl l : forall l' y, NoDup l -> incl l l' -> (forall c, In c l' -> 0 <= y c) ->
  value (ones l) y <= value (ones l') y.
Proof.
  induction l as [|c l IH]; intros l' y Hn Hi Hp; [apply ones_nonneg; exact Hp|].
  inversion Hn as [|c0 l0 Hc Hl]; subst.
  destruct (in_split c l') as (p & q & E); [apply Hi; left; reflexivity|]. subst l'.
  assert (H : value (ones l) y <= value (ones (p ++ q)) y).
  { apply IH; [exact Hl| |].
    - intros d Hd. assert (In d (p ++ c :: q)) by (apply Hi; right; exact Hd).
      apply in_app_or in H as [H|[H|H]]; [apply in_or_app; left; exact H|subst; contradiction|apply in_or_app; right; exact H].
    - intros d Hd. apply Hp. apply in_app_or in Hd as [Hd|Hd]; apply in_or_app; [left; exact Hd|right; right; exact Hd]. }
  rewrite ones_app in *. cbn [ones map value] in *. unfold ones in *. lra.
Qed.

Lemma ones_perm l l' y : Permutation l l' -> value (ones l) y == value (ones l') y.
Proof. intro P. apply value_perm. unfold ones. apply Permutation_map. exact P. Qed.

Lemma map_nodup_in {A B} (f : A -> B) l : (forall a b, In a l -> In b l -> f a = f b -> a = b) -> NoDup l -> NoDup (map f l).
Proof.
  induction l as [|a l IH]; intros H Hn; [constructor|]. inversion Hn as [|a0 l0 Ha Hl]; subst. simpl. constructor.
  - intro Hi. apply in_map_iff in Hi as (b & E & Hb). apply Ha.
    rewrite <- (H b a); [exact Hb|right; exact Hb|left; reflexivity|exact E].
  - apply IH; [|exact Hl]. intros b c Hb Hc. apply H; right; assumption.
Qed.

(** ** Ranks *)
Section Rank.
  Variable m : mip.
  Notation n := (m_ncols m).

  Definition col_of (c : nat) : nat := nth c (filter (is01 m) (seq 0 n)) O.

  Lemma rank_S j : rank m (Datatypes.S j) = (rank m j + if is01 m j then 1 else 0)%nat.
  Proof.
    unfold rank. rewrite seq_S, filter_app, app_length. simpl. destruct (is01 m j); simpl; lia.
  Qed.
  Lemma rank_mono j j' : (j <= j')%nat -> (rank m j <= rank m j')%nat.
  Proof. induction 1; [lia|]. rewrite rank_S. lia. Qed.
  Lemma rank_lt j j' : is01 m j = true -> (j < j')%nat -> (rank m j < rank m j')%nat.
  Proof.
    intros H L. assert (rank m (Datatypes.S j) <= rank m j')%nat by (apply rank_mono; lia).
    rewrite rank_S, H in H0. lia.
  Qed.
  Lemma rank_inj j j' : is01 m j = true -> is01 m j' = true -> rank m j = rank m j' -> j = j'.
  Proof.
    intros H H' E. destruct (Nat.lt_trichotomy j j') as [L|[L|L]]; [|exact L|].
    - apply (rank_lt j j' H) in L. lia.
    - apply (rank_lt j' j H') in L. lia.
  Qed.
  Lemma rank_num j : (j < n)%nat -> is01 m j = true -> (rank m j < num01 m)%nat.
  Proof. intros L H. apply rank_lt; assumption. Qed.

  Lemma col_of_rank j : (j < n)%nat -> is01 m j = true -> col_of (rank m j) = j.
  Proof.
    intros L H. unfold col_of. replace n with (j + (Datatypes.S (n - j - 1)))%nat by lia.
    rewrite seq_app, filter_app, app_nth2 by (unfold rank; lia). unfold rank. rewrite Nat.sub_diag.
    simpl. rewrite H. reflexivity.
  Qed.

  Lemma col_of_ok c : (c < num01 m)%nat -> (col_of c < n)%nat /\ is01 m (col_of c) = true.
  Proof.
    intro H. unfold num01, rank in H. assert (In (col_of c) (filter (is01 m) (seq 0 n))) by (apply nth_In; exact H).
    apply filter_In in H0 as [H1 H2]. apply in_seq in H1. split; [lia|exact H2].
  Qed.

  Lemma is01_spec j : is01 m j = true <-> exists l u, m_clo m j = Some l /\ m_chi m j = Some u /\ l == 0 /\ u == 1.
  Proof.
    unfold is01. destruct (m_clo m j) as [l|]; [destruct (m_chi m j) as [u|]|].
    - rewrite Bool.andb_true_iff, !Qeqb_eq. split.
      + intros [H1 H2]. exists l, u. conjs; [reflexivity|reflexivity|exact H1|exact H2].
      + intros (l' & u' & E1 & E2 & H1 & H2). injection E1 as <-. injection E2 as <-. split; assumption.
    - split; [discriminate|]. intros (l' & u' & E1 & E2 & _). discriminate.
    - split; [discriminate|]. intros (l' & u' & E1 & _). discriminate.
  Qed.
End Rank.

(** ** One row *)
Section Row.
  Variable m : mip.
  Hypothesis Hd : integer_data m.

  Lemma fixed_at_some j l : (j < m_ncols m)%nat -> fixed_at m j = Some l ->
    integral l /\ ~ is_open m j /\ forall x, ge_opt_lo (x j) (m_clo m j) -> le_opt_hi (x j) (m_chi m j) -> x j == l.
  Proof.
    intros Hj E. unfold fixed_at in E. pose proof (d_clo _ Hd j Hj) as Hl. pose proof (d_chi _ Hd j Hj) as Hu.
    destruct (m_clo m j) as [l0|] eqn:E1; [|discriminate]. destruct (m_chi m j) as [u|] eqn:E2; [|discriminate].
    destruct (u - l0 <? 1 # 100000000) eqn:E3; [|discriminate]. injection E as ->. qb. cbn in Hl, Hu.
    assert (u <= l).
    { destruct (Qlt_le_dec l u) as [L|L]; [|exact L]. exfalso. apply (integral_lt_le1 l u Hl Hu) in L. lra. }
    conjs; [exact Hl| |].
    - intro Ho. specialize (Ho l u E1 E2). lra.
    - cbn. intros x H1 H2. lra.
  Qed.
  Lemma fixed_at_none j : (j < m_ncols m)%nat -> fixed_at m j = None -> is_open m j.
  Proof.
    intros Hj E l u E1 E2. unfold fixed_at in E. rewrite E1, E2 in E.
    destruct (u - l <? 1 # 100000000) eqn:E3; [discriminate|]. qb. lra.
  Qed.

  Definition shifted (o o' : option Q) (k : Q) : Prop :=
    match o, o' with
    | Some a, Some b => b == a - k
    | None, None => True
    | _, _ => False
    end.

  Lemma shifted_osub o o' k q : shifted (osub o q) o' k -> shifted o o' (q + k).
  Proof. destruct o, o'; cbn; auto. intro H. rewrite H. ring. Qed.

  Lemma row_scan_spec v : forall up lo w good up' lo' w',
    (forall j a, In (j, a) v -> (j < m_ncols m)%nat /\ integral a) ->
    row_scan m v up lo w good = (up', lo', w', true) ->
    good = true /\ exists cols K,
      w' = w ++ map (rank m) cols /\ integral K /\ shifted up up' K /\ shifted lo lo' K /\
      (forall j, In j cols -> In j (map fst v) /\ is01 m j = true /\ (j < m_ncols m)%nat) /\
      (forall j a, In (j, a) v -> is_open m j -> In j cols /\ a == 1 /\ is01 m j = true) /\
      (NoDup (map fst v) -> NoDup cols) /\
      (forall j, In j cols -> is_open m j) /\
      (forall x, in_bounds m x -> value v x == value (ones cols) x + K).
  Proof.
    induction v as [|[j a] v IH]; intros up lo w good up' lo' w' Hv E; cbn [row_scan] in E.
    - injection E as <- <- <- <-. split; [reflexivity|]. exists [], 0.
      conjs; [rewrite app_nil_r; reflexivity|apply integral_0| | |intros ? []|intros ? ? []|intro; constructor|intros ? []|].
      + destruct up; cbn; [ring|exact I].
      + destruct lo; cbn; [ring|exact I].
      + intros x _. cbn. ring.
    - assert (Hv' : forall j a, In (j, a) v -> (j < m_ncols m)%nat /\ integral a) by (intros; apply Hv; right; assumption).
      destruct (Hv j a (or_introl eq_refl)) as [Hj Ha].
      destruct (fixed_at m j) as [l|] eqn:Ef.
      + destruct (fixed_at_some j l Hj Ef) as (F1 & F2 & F3).
        apply IH in E; [|exact Hv']. destruct E as (Eg & cols & K & H1 & H2 & H3 & H4 & H5 & H6 & H7 & H8 & H9).
        split; [exact Eg|]. exists cols, (l * a + K). conjs.
        * exact H1.
        * apply integral_plus; [apply integral_mult; assumption|exact H2].
        * apply shifted_osub. exact H3.
        * apply shifted_osub. exact H4.
        * intros j0 Hj0. destruct (H5 j0 Hj0) as (A & B). split; [right; exact A|exact B].
        * intros j0 a0 [K0|K0] Ho; [injection K0 as <- <-; contradiction|apply H6; assumption].
        * intro Hn. inversion Hn; subst. auto.
        * exact H8.
        * intros x Hx. cbn [value]. rewrite (H9 x Hx). destruct (Hx j Hj) as [B1 B2]. rewrite (F3 x B1 B2). ring.
      + pose proof (fixed_at_none j Hj Ef) as Ho.
        destruct (is01 m j) eqn:E01; cbn [negb] in E; [|discriminate].
        destruct (Qeq_bool a 1) eqn:Ea; cbn [negb] in E.
        * apply Qeqb_eq in Ea. apply IH in E; [|exact Hv'].
          destruct E as (Eg & cols & K & H1 & H2 & H3 & H4 & H5 & H6 & H7 & H8 & H9).
          split; [exact Eg|]. exists (j :: cols), K. conjs.
          -- rewrite H1, <- app_assoc. reflexivity.
          -- exact H2.
          -- exact H3.
          -- exact H4.
          -- intros j0 [<-|Hj0]; [conjs; [left; reflexivity|exact E01|exact Hj]|].
             destruct (H5 j0 Hj0) as (A & B). split; [right; exact A|exact B].
          -- intros j0 a0 [K0|K0] Ho0; [injection K0 as <- <-; conjs; [left; reflexivity|exact Ea|exact E01]|].
             destruct (H6 j0 a0 K0 Ho0) as (A & B). split; [right; exact A|exact B].
          -- intro Hn. simpl in Hn. inversion Hn as [|c0 l0 Hc Hl]; subst. constructor; [|apply H7; exact Hl].
             intro Hin. apply Hc. apply H5. exact Hin.
          -- intros j0 [<-|Hj0]; [exact Ho|apply H8; exact Hj0].
          -- intros x Hx. cbn [value ones map]. rewrite (H9 x Hx), Ea. unfold ones. ring.
        * apply IH in E; [|exact Hv']. destruct E as (Eg & _). discriminate.
  Qed.

  (** The value of the 0-1 column with a given number. *)
  Definition yv (x : point) (c : nat) : Q := x (col_of m c).

  Lemma yv_nonneg x c : in_bounds m x -> (c < num01 m)%nat -> 0 <= yv x c.
  Proof.
    intros Hx Hc. destruct (col_of_ok m c Hc) as [L H]. apply is01_spec in H as (l & u & E1 & E2 & H1 & H2).
    destruct (Hx _ L) as [B _]. rewrite E1 in B. cbn in B. unfold yv. lra.
  Qed.

  Lemma ones_rank cols x : (forall j, In j cols -> is01 m j = true /\ (j < m_ncols m)%nat) ->
    value (ones (map (rank m) cols)) (yv x) == value (ones cols) x.
  Proof.
    induction cols as [|j cols IH]; intro H; [reflexivity|]. cbn [map ones value].
    assert (E : yv x (rank m j) = x j).
    { unfold yv. destruct (H j (or_introl eq_refl)) as [A B]. rewrite col_of_rank by assumption. reflexivity. }
    rewrite E. unfold ones in IH. rewrite IH by (intros; apply H; right; assumption). reflexivity.
  Qed.

  Lemma int_floor_eq u z : integral u -> Qfloor (u + (1 # 100000)) = z -> u == inject_Z z.
  Proof.
    intros [w Hw] E. rewrite <- E. rewrite (Qfloor_unique _ w); [exact Hw| |]; rewrite Hw; lra.
  Qed.
  Lemma int_ceil_eq u : integral u -> u == inject_Z (Qceiling (u - (1 # 100000))).
  Proof.
    intros [w Hw]. unfold Qceiling. assert (E : Qfloor (- (u - (1 # 100000))) = (- w)%Z).
    { apply Qfloor_unique; rewrite inject_Z_opp, Hw; lra. }
    rewrite E, Z.opp_involutive. exact Hw.
  Qed.

  Lemma iUpper_small u z : integral u -> u < inject_Z 1000000 -> iUpper (Some u) = Done z -> u == inject_Z z.
  Proof.
    intros Hu L E. unfold iUpper in E. destruct (inject_Z INT_MAX <? u) eqn:E1.
    - qb. exfalso. unfold INT_MAX in E1. assert (inject_Z 1000000 <= inject_Z 2147483647) by (rewrite <- Zle_Qle; lia). lra.
    - destruct (_ <? INT_MIN)%Z; [discriminate|]. apply Done_inj in E. apply int_floor_eq; assumption.
  Qed.

  (** What is known of a row taken as a clique. *)
  Record clique_row (r : row) (P : list nat) (e : bool) : Prop := {
    q_nodup : NoDup P;
    q_two : (2 <= length P)%nat;
    q_below : forall c, In c P -> (c < num01 m)%nat;
    q_unit : unit_row m r;
    q_opens : forall j, opens m r j <-> (j < m_ncols m)%nat /\ is01 m j = true /\ In (rank m j) P;
    q_eq : e = true <-> is_equation r;
    q_sat : forall x, in_bounds m x ->
      (row_sat r x <-> value (ones P) (yv x) <= 1 /\ (e = true -> 1 <= value (ones P) (yv x))) }.

  Lemma state_pos up iu n s : state_of up iu n = s -> (0 < s)%Z ->
    (2 <= n)%nat /\ exists u, up = Some u /\ u < inject_Z 1000000 /\
      ((s = 1%Z /\ iu = 1%Z) \/ (s = 2%Z /\ iu = 0%Z) \/ (s = 3%Z /\ (iu < 0)%Z)).
  Proof.
    unfold state_of. destruct (Nat.ltb_spec n 2) as [L|L]; [intros; subst; lia|]. intros E Hs. split; [exact L|].
    destruct up as [u|]; [|subst; lia]. exists u. split; [reflexivity|].
    destruct (u <? inject_Z 1000000) eqn:E1; [|subst; lia]. qb. split; [exact E1|].
    destruct (_ <? Qabs _); [subst; lia|].
    destruct (Z.eqb_spec iu 1); [left; split; congruence|].
    destruct (Z.eqb_spec iu 0); [right; left; split; congruence|].
    destruct (Z.ltb_spec iu 0); [right; right; split; [congruence|assumption]|subst; lia].
  Qed.

  Lemma row_kind_ok r k : In r (m_rows m) -> wf_row (m_ncols m) r -> row_kind m r = Done k ->
    match k with
    | ROther => True
    | RInfeasible => forall x, in_bounds m x -> ~ row_sat r x
    | RClique P e => clique_row r P e
    end.
  Proof.
    intros Hr [Hnd Hwf] E. unfold row_kind in E.
    destruct (row_scan m (r_form r) (r_hi r) (r_lo r) [] true) as [[[up lo] w] good] eqn:Es.
    apply bind_done in E as (iu & Eu & E). apply bind_done in E as (il & El & E). apply Done_inj in E.
    destruct (good && (0 <? state_of up iu (length w))%Z) eqn:Eg; [|subst; exact I].
    apply Bool.andb_true_iff in Eg as [-> Eg]. apply Z.ltb_lt in Eg.
    destruct (state_pos up iu (length w) _ eq_refl Eg) as (Hlen & u & -> & Hu & Hcase).
    apply row_scan_spec in Es; [|intros j a Hin; split; [apply (Hwf j a Hin)|apply (d_coef _ Hd r j a Hr Hin)]].
    destruct Es as (_ & cols & K & -> & HK & Hup & Hlo & Hc1 & Hc2 & Hc3 & Hc4 & Hval). simpl app in *.
    assert (Hhi : exists h, r_hi r = Some h /\ u == h - K /\ integral h).
    { pose proof (d_hi _ Hd r Hr) as Hh. destruct (r_hi r) as [h|]; [|contradiction]. exists h. conjs; [reflexivity|exact Hup|exact Hh]. }
    destruct Hhi as (h & Eh & Huh & Hih).
    assert (Hiu : integral u) by (eapply integral_eq; [symmetry; exact Huh|apply integral_minus; assumption]).
    pose proof (iUpper_small u iu Hiu Hu Eu) as Hueq.
    assert (Hcols : forall j, In j cols -> is01 m j = true /\ (j < m_ncols m)%nat) by (intros j Hj; apply Hc1; exact Hj).
    assert (Hbelow : forall c, In c (map (rank m) cols) -> (c < num01 m)%nat).
    { intros c Hc. apply in_map_iff in Hc as (j & <- & Hj). destruct (Hcols j Hj). apply rank_num; assumption. }
    assert (Hv : forall x, in_bounds m x -> value (r_form r) x == value (ones (map (rank m) cols)) (yv x) + K).
    { intros x Hx. rewrite (Hval x Hx), ones_rank by exact Hcols. reflexivity. }
    assert (Hpos : forall x, in_bounds m x -> 0 <= value (ones (map (rank m) cols)) (yv x)).
    { intros x Hx. apply ones_nonneg. intros c Hc. apply yv_nonneg; [exact Hx|apply Hbelow; exact Hc]. }
    destruct Hcase as [[Hs Hz]|[[Hs Hz]|[Hs Hz]]]; rewrite Hs in E; cbn in E; subst k.
    - rewrite Hz in Hueq. change (inject_Z 1) with 1 in Hueq.
      assert (Hlow : match lo with None => r_lo r = None | Some l => exists l0, r_lo r = Some l0 /\ l == l0 - K /\ integral l /\ l0 <= h end).
      { pose proof (d_lo _ Hd r Hr) as Hl. pose proof (d_ord _ Hd r) as Ho.
        destruct (r_lo r) as [l0|]; destruct lo as [l|]; cbn in Hlo; try contradiction; [|reflexivity].
        exists l0. conjs; [reflexivity|exact Hlo| |apply Ho; [exact Hr|reflexivity|exact Eh]].
        eapply integral_eq; [symmetry; exact Hlo|apply integral_minus; assumption]. }
      assert (He : (il =? iu)%Z = true <-> exists l, lo = Some l /\ l == 1).
      { rewrite Hz. rewrite Z.eqb_eq. unfold iLower in El. destruct lo as [l|].
        - destruct Hlow as (l0 & L1 & L2 & L3 & L4). destruct (l <? inject_Z INT_MIN) eqn:E1.
          + apply Done_inj in El. subst il. qb. split; [discriminate|]. intros (l' & E' & H'). injection E' as <-.
            exfalso. assert (inject_Z INT_MIN <= 1) by (vm_compute; discriminate). lra.
          + destruct (INT_MAX <? _)%Z; [discriminate|]. apply Done_inj in El. pose proof (int_ceil_eq l L3) as Hc.
            rewrite El in Hc. split.
            * intros ->. exists l. split; [reflexivity|exact Hc].
            * intros (l' & E' & H'). injection E' as <-. rewrite H' in Hc. change 1 with (inject_Z 1) in Hc.
              exact (eq_sym (proj1 (inject_Z_injective 1 il) Hc)).
        - apply Done_inj in El. subst il. split; [discriminate|]. intros (l' & E' & _). discriminate. }
      constructor.
      + apply map_nodup_in; [|apply Hc3; exact Hnd].
        intros a b Ha Hb. apply rank_inj; apply Hcols; assumption.
      + exact Hlen.
      + exact Hbelow.
      + intros j a Hin Ho. destruct (Hc2 j a Hin Ho) as (_ & A & B). split; [exact A|apply is01_spec; exact B].
      + intro j. split.
        * intros ((a & Hin) & Ho). destruct (Hc2 j a Hin Ho) as (A & _ & B). conjs; [apply (Hwf j a Hin)|exact B|apply in_map; exact A].
        * intros (Hj & H01 & Hin). apply in_map_iff in Hin as (j' & Ej & Hj'). destruct (Hcols j' Hj') as [A B].
          apply rank_inj in Ej; [|assumption|assumption]. subst j'. split; [|apply Hc4; exact Hj'].
          destruct (Hc1 j Hj') as (C & _). apply in_map_iff in C as ([j0 a] & <- & C). exists a. exact C.
      + rewrite He. unfold is_equation. split.
        * intros (l & -> & Hl1). destruct Hlow as (l0 & L1 & L2 & L3 & L4). exists l0, h. conjs; [exact L1|exact Eh|lra].
        * intros (l0 & h0 & E1 & E2 & E3). rewrite Eh in E2. injection E2 as <-. rewrite E1 in Hlow, Hlo.
          destruct lo as [l|]; [|discriminate]. exists l. split; [reflexivity|]. cbn in Hlo. lra.
      + intros x Hx. unfold row_sat. rewrite Eh. cbn [le_opt_hi]. specialize (Hv x Hx). specialize (Hpos x Hx).
        destruct ((il =? iu)%Z) eqn:Ee.
        * destruct (proj1 He eq_refl) as (l & -> & Hl1). destruct Hlow as (l0 & L1 & L2 & L3 & L4). rewrite L1. cbn [ge_opt_lo].
          split; [intros [A B]; split; [lra|intros _; lra]|intros [A B]; specialize (B eq_refl); split; lra].
        * destruct lo as [l|].
          -- destruct Hlow as (l0 & L1 & L2 & L3 & L4). rewrite L1. cbn [ge_opt_lo].
             assert (Hl0 : l <= 0).
             { destruct (Qlt_le_dec 0 l) as [L|L]; [|exact L]. exfalso.
               apply (integral_lt_le1 0 l integral_0 L3) in L.
               assert (false = true); [|discriminate]. apply He. exists l. split; [reflexivity|]. lra. }
             split; [intros [A B]; split; [lra|discriminate]|intros [A _]; split; lra].
          -- rewrite Hlow. cbn [ge_opt_lo]. split; [intros [A B]; split; [lra|discriminate]|intros [A _]; split; [exact I|lra]].
    - exact I.
    - intros x Hx [_ Hb]. rewrite Eh in Hb. cbn in Hb. specialize (Hv x Hx). specialize (Hpos x Hx).
      assert (inject_Z iu <= -1) by (change (-1) with (inject_Z (-1)); rewrite <- Zle_Qle; lia). lra.
  Qed.
End Row.

(** ** From rows to cliques and back *)
Lemma scan_rows_spec m rows : forall pr feas, scan_rows m rows = Done (pr, feas) ->
  length pr = length rows /\
  (forall pos p, nth_error pr pos = Some (Some p) ->
     exists r, nth_error rows pos = Some r /\ row_kind m r = Done (RClique (fst p) (snd p))) /\
  (feas = false -> exists r, In r rows /\ row_kind m r = Done RInfeasible) /\
  (feas = true -> forall pos r P e, nth_error rows pos = Some r -> row_kind m r = Done (RClique P e) ->
     nth_error pr pos = Some (Some (P, e))).
Proof.
  induction rows as [|r rows IH]; intros pr feas E; cbn [scan_rows] in E.
  - injection E as <- <-. conjs; [reflexivity|intros [|pos] p H; discriminate|discriminate|intros _ [|pos]; discriminate].
  - apply bind_done in E as (k & Ek & E). destruct k as [| |P0 e0].
    + apply bind_done in E as ([pr' f'] & E1 & E). cbn in E. injection E as <- <-.
      destruct (IH _ _ E1) as (H1 & H2 & H3 & H4). conjs.
      * simpl. congruence.
      * intros [|pos] p H; [discriminate|]. apply (H2 pos p H).
      * intro Hf. destruct (H3 Hf) as (r0 & A & B). exists r0. split; [right; exact A|exact B].
      * intros Hf [|pos] r0 P e A B; [injection A as <-; congruence|]. apply (H4 Hf pos r0 P e A B).
    + injection E as <- <-. conjs.
      * simpl. rewrite map_length. reflexivity.
      * intros pos p H. exfalso. assert (In (Some p) (None :: map (fun _ : row => None) rows)) by (eapply nth_error_In; exact H).
        destruct H0 as [H0|H0]; [discriminate|]. apply in_map_iff in H0 as (? & ? & _). discriminate.
      * intros _. exists r. split; [left; reflexivity|exact Ek].
      * discriminate.
    + apply bind_done in E as ([pr' f'] & E1 & E). cbn in E. injection E as <- <-.
      destruct (IH _ _ E1) as (H1 & H2 & H3 & H4). conjs.
      * simpl. congruence.
      * intros [|pos] p H; [injection H as <-; exists r; split; [reflexivity|exact Ek]|]. apply (H2 pos p H).
      * intro Hf. destruct (H3 Hf) as (r0 & A & B). exists r0. split; [right; exact A|exact B].
      * intros Hf [|pos] r0 P e A B; [injection A as <-; rewrite Ek in B; apply Done_inj in B; injection B as -> ->; reflexivity|].
        apply (H4 Hf pos r0 P e A B).
Qed.

Lemma number_len l : forall k, length (number_rows k l) = length l.
Proof. induction l as [|[p|] l IH]; intro k; simpl; [reflexivity|rewrite IH; reflexivity|rewrite IH; reflexivity]. Qed.

Lemma number_pos l : forall k c p, nth_error (cliques_of l) c = Some p ->
  exists pos, nth_error l pos = Some (Some p) /\ nth_error (number_rows k l) pos = Some (Some (k + c)%nat).
Proof.
  induction l as [|[p0|] l IH]; intros k c p E.
  - destruct c; discriminate.
  - destruct c as [|c].
    + injection E as <-. exists O. simpl. rewrite Nat.add_0_r. split; reflexivity.
    + destruct (IH (Datatypes.S k) c p E) as (pos & H1 & H2). exists (Datatypes.S pos). split; [exact H1|].
      simpl. rewrite H2. f_equal. f_equal. lia.
  - destruct (IH k c p E) as (pos & H1 & H2). exists (Datatypes.S pos). split; assumption.
Qed.

Lemma number_inv l : forall k pos c, nth_error (number_rows k l) pos = Some (Some c) ->
  (k <= c)%nat /\ exists p, nth_error l pos = Some (Some p) /\ nth_error (cliques_of l) (c - k) = Some p.
Proof.
  induction l as [|[p0|] l IH]; intros k pos c E.
  - destruct pos; discriminate.
  - destruct pos as [|pos].
    + injection E as <-. split; [lia|]. exists p0. rewrite Nat.sub_diag. split; reflexivity.
    + destruct (IH (Datatypes.S k) pos c E) as (H0 & p & H1 & H2). split; [lia|]. exists p. split; [exact H1|].
      replace (c - k)%nat with (Datatypes.S (c - Datatypes.S k)) by lia. exact H2.
  - destruct pos as [|pos]; [discriminate|]. destruct (IH k pos c E) as (H0 & p & H1 & H2). split; [lia|].
    exists p. split; assumption.
Qed.

Lemma number_none l : forall k pos, nth_error (number_rows k l) pos = Some None -> nth_error l pos = Some None.
Proof.
  induction l as [|[p0|] l IH]; intros k [|pos] E; try discriminate; try reflexivity; simpl in *; eapply IH; exact E.
Qed.

Lemma number_mono l : forall k p1 p2 c1 c2, nth_error (number_rows k l) p1 = Some (Some c1) ->
  nth_error (number_rows k l) p2 = Some (Some c2) -> (c1 < c2)%nat -> (p1 < p2)%nat.
Proof.
  induction l as [|[p0|] l IH]; intros k p1 p2 c1 c2 E1 E2 L.
  - destruct p1; discriminate.
  - destruct p1 as [|p1]; destruct p2 as [|p2]; simpl in E1, E2.
    + injection E1 as <-. injection E2 as <-. lia.
    + lia.
    + injection E2 as <-. apply number_inv in E1 as (H & _). lia.
    + pose proof (IH _ _ _ _ _ E1 E2 L). lia.
  - destruct p1 as [|p1]; destruct p2 as [|p2]; simpl in E1, E2; try discriminate.
    pose proof (IH _ _ _ _ _ E1 E2 L). lia.
Qed.

Lemma number_inj l : forall k p1 p2 c0, nth_error (number_rows k l) p1 = Some (Some c0) ->
  nth_error (number_rows k l) p2 = Some (Some c0) -> p1 = p2.
Proof.
  induction l as [|[p0|] l IH]; intros k p1 p2 c0 A B.
  - destruct p1; discriminate.
  - destruct p1 as [|p1]; destruct p2 as [|p2]; simpl in A, B; [reflexivity| | |].
    + injection A as <-. apply number_inv in B as (B & _). lia.
    + injection B as <-. apply number_inv in A as (A & _). lia.
    + f_equal. eapply IH; [exact A|exact B].
  - destruct p1 as [|p1]; destruct p2 as [|p2]; simpl in A, B; try discriminate.
    f_equal. eapply IH; [exact A|exact B].
Qed.

Lemma rank_nth m n : forall a, (a < rank m n)%nat -> rank m (nth a (filter (is01 m) (seq 0 n)) O) = a.
Proof.
  induction n as [|n IH]; intros a H; [unfold rank in H; simpl in H; lia|].
  rewrite seq_S, filter_app. simpl. rewrite rank_S in H.
  destruct (Nat.lt_ge_cases a (rank m n)) as [L|L].
  - rewrite app_nth1 by exact L. apply IH. exact L.
  - rewrite app_nth2 by exact L. destruct (is01 m n); [|lia].
    assert (a = rank m n) by lia. subst a. unfold rank at 2. rewrite Nat.sub_diag. reflexivity.
Qed.

Lemma rank_col_of m a : (a < num01 m)%nat -> rank m (col_of m a) = a.
Proof. apply rank_nth. Qed.

Lemma sorted_last (l : list nat) d : StronglySorted lt l -> forall a, In a l -> (a <= last l d)%nat.
Proof.
  induction 1 as [|b l S1 IH F]; intros a Ha; [contradiction|]. destruct l as [|c l]; [destruct Ha as [->|[]]; simpl; lia|].
  change (last (b :: c :: l) d) with (last (c :: l) d). destruct Ha as [->|Ha]; [|apply IH; exact Ha].
  rewrite Forall_forall in F. specialize (F c (or_introl eq_refl)). specialize (IH c (or_introl eq_refl)). lia.
Qed.

Section Gen8.
  Variable sort2 : list (Z * nat) -> list (Z * nat).
  Hypothesis Hsort : sorts sort2.
  Variable m : mip.
  Hypothesis Hd : integer_data m.
  Hypothesis Hwf : wf_mip m.
  Hypothesis Hends : ends_apart m.
  Variable pr : list (option (list nat * bool)).
  Variable feas : bool.
  Hypothesis Hscan : scan_rows m (m_rows m) = Done (pr, feas).

  Let cl := cliques_of pr.
  Let raw := map fst cl.
  Let typ := map snd cl.
  Let cls := map sort_nat raw.
  Let nums := number_rows 0 pr.

  Lemma cls_len : length cls = length cl.
  Proof. unfold cls, raw. rewrite !map_length. reflexivity. Qed.

  Lemma clique_at c : (c < length cl)%nat -> exists pos r P e,
    nth_error (m_rows m) pos = Some r /\ nth_error nums pos = Some (Some c) /\ clique_row m r P e /\
    clq cls c = sort_nat P /\ isE typ c = e.
  Proof.
    intro Hc. destruct (nth_error cl c) as [[P e]|] eqn:E; [|apply nth_error_None in E; lia].
    destruct (number_pos pr 0 c (P, e) E) as (pos & H1 & H2).
    destruct (scan_rows_spec _ _ _ _ Hscan) as (S1 & S2 & _). destruct (S2 pos (P, e) H1) as (r & R1 & R2).
    exists pos, r, P, e. conjs; [exact R1|exact H2| | |].
    - apply nth_error_In in R1. apply (row_kind_ok m Hd r (RClique P e) R1 (Hwf r R1) R2).
    - unfold clq, cls, raw. rewrite map_map. erewrite nth_error_nth; [|rewrite nth_error_map, E; reflexivity]. reflexivity.
    - unfold isE, typ. erewrite nth_error_nth; [|rewrite nth_error_map, E; reflexivity]. reflexivity.
  Qed.

  Lemma clq_in c r P e j : clique_row m r P e -> clq cls c = sort_nat P ->
    (opens m r j <-> (j < m_ncols m)%nat /\ is01 m j = true /\ In (rank m j) (clq cls c)).
  Proof.
    intros Hq E. rewrite (q_opens _ _ _ _ Hq j), E. split; intros (A & B & C); conjs; try assumption.
    - eapply Permutation_in; [apply Permutation_sym, sort_nat_perm|exact C].
    - eapply Permutation_in; [apply sort_nat_perm|exact C].
  Qed.

  Lemma hyp_sorted k : (k < length cls)%nat -> StronglySorted lt (clq cls k).
  Proof.
    intro Hk. rewrite cls_len in Hk. destruct (clique_at k Hk) as (pos & r & P & e & _ & _ & Hq & E & _). rewrite E.
    apply sorted_nodup_lt; [apply sort_nat_sorted|].
    eapply Permutation_NoDup; [apply Permutation_sym, sort_nat_perm|apply (q_nodup _ _ _ _ Hq)].
  Qed.
  Lemma hyp_below k c : In c (clq cls k) -> (c < num01 m)%nat.
  Proof.
    intro Hc. destruct (Nat.lt_ge_cases k (length cl)) as [L|L].
    - destruct (clique_at k L) as (pos & r & P & e & _ & _ & Hq & E & _). rewrite E in Hc.
      apply (q_below _ _ _ _ Hq). eapply Permutation_in; [apply sort_nat_perm|exact Hc].
    - unfold clq in Hc. rewrite nth_overflow in Hc by (rewrite cls_len; exact L). contradiction.
  Qed.
  Lemma hyp_len k : (k < length cls)%nat -> (2 <= length (clq cls k))%nat.
  Proof.
    intro Hk. rewrite cls_len in Hk. destruct (clique_at k Hk) as (pos & r & P & e & _ & _ & Hq & E & _). rewrite E.
    rewrite (Permutation_length (sort_nat_perm P)). apply (q_two _ _ _ _ Hq).
  Qed.

  Lemma hyp_overrun : no_overrun (num01 m) cls.
  Proof.
    intros i k Hi Hk Hin. rewrite cls_len in Hi, Hk.
    destruct (clique_at i Hi) as (p1 & r1 & P1 & e1 & R1 & _ & Q1 & E1 & _).
    destruct (clique_at k Hk) as (p2 & r2 & P2 & e2 & R2 & _ & Q2 & E2 & _).
    assert (Si : StronglySorted lt (clq cls i)) by (apply hyp_sorted; rewrite cls_len; exact Hi).
    assert (Sk : StronglySorted lt (clq cls k)) by (apply hyp_sorted; rewrite cls_len; exact Hk).
    assert (Ni : clq cls i <> []).
    { intro K. assert (2 <= length (clq cls i))%nat by (apply hyp_len; rewrite cls_len; exact Hi). rewrite K in H. simpl in H. lia. }
    assert (Nk : clq cls k <> []) by (intro K; rewrite K in Hin; contradiction).
    set (a := last (clq cls i) (num01 m)) in *.
    assert (Ha : In a (clq cls i)) by (apply last_in; exact Ni).
    pose proof (hyp_below i a Ha) as La. destruct (col_of_ok m a La) as [Lc Hc]. set (c := col_of m a) in *.
    assert (Ec : rank m c = a) by (apply rank_col_of; exact La).
    assert (O1 : opens m r1 c) by (apply (clq_in i r1 P1 e1 c Q1 E1); conjs; [exact Lc|exact Hc|rewrite Ec; exact Ha]).
    assert (M1 : forall j, opens m r1 j -> (j <= c)%nat).
    { intros j Hj. apply (clq_in i r1 P1 e1 j Q1 E1) in Hj as (J1 & J2 & J3).
      apply (sorted_last _ (num01 m) Si) in J3. fold a in J3. rewrite <- Ec in J3.
      destruct (Nat.lt_ge_cases c j) as [L|L]; [|exact L]. apply (rank_lt m c j Hc) in L. lia. }
    assert (O2 : opens m r2 c) by (apply (clq_in k r2 P2 e2 c Q2 E2); conjs; [exact Lc|exact Hc|rewrite Ec; exact Hin]).
    assert (M2 : forall j, opens m r2 j -> (j <= c)%nat).
    { apply (Hends r1 r2 c); try assumption; [eapply nth_error_In; exact R1|eapply nth_error_In; exact R2| |].
      - apply (q_unit _ _ _ _ Q1).
      - apply (q_unit _ _ _ _ Q2). }
    assert (Hl2 : In (last (clq cls k) (num01 m)) (clq cls k)) by (apply last_in; exact Nk).
    apply Nat.le_antisymm.
    - apply sorted_last; [exact Sk|exact Hin].
    - set (b := last (clq cls k) (num01 m)) in *. rewrite E2 in Hl2.
      assert (Hb : In b P2) by (eapply Permutation_in; [apply sort_nat_perm|exact Hl2]).
      assert (Lb : (b < num01 m)%nat) by (apply (q_below _ _ _ _ Q2); exact Hb).
      destruct (col_of_ok m b Lb) as [Lc2 Hc2]. set (c2 := col_of m b) in *.
      assert (Ec2 : rank m c2 = b) by (apply rank_col_of; exact Lb).
      assert (O3 : opens m r2 c2) by (apply (q_opens _ _ _ _ Q2); conjs; [exact Lc2|exact Hc2|rewrite Ec2; exact Hb]).
      apply M2 in O3. rewrite <- Ec, <- Ec2. apply rank_mono. exact O3.
  Qed.

  Lemma hyp_eq_first : equations_first m -> eq_first cls typ.
  Proof.
    intros He k1 k2 L Hk2 Ec Et. rewrite cls_len in Hk2.
    destruct (clique_at k1) as (p1 & r1 & P1 & e1 & R1 & N1 & Q1 & E1 & T1); [lia|].
    destruct (clique_at k2 Hk2) as (p2 & r2 & P2 & e2 & R2 & N2 & Q2 & E2 & T2).
    rewrite T1. apply (q_eq _ _ _ _ Q1). apply (He p1 p2 r1 r2); try assumption.
    - eapply number_mono; [exact N1|exact N2|exact L].
    - apply (q_unit _ _ _ _ Q1).
    - apply (q_unit _ _ _ _ Q2).
    - intro j. rewrite (clq_in k1 r1 P1 e1 j Q1 E1), (clq_in k2 r2 P2 e2 j Q2 E2), Ec. reflexivity.
    - apply (q_eq _ _ _ _ Q2). rewrite <- T2. exact Et.
  Qed.

  Lemma out_ok : exists dups used fixed, outDupsEtc sort2 (num01 m) raw typ = Done (dups, used, fixed) /\
    result cls typ dups fixed.
  Proof.
    destruct (result_ok sort2 Hsort (num01 m) cls typ hyp_sorted hyp_below hyp_len hyp_overrun) as (s & wh & u & E1 & E2 & Hr).
    eexists. exists (u_used u), (u_fixed u). split; [|exact Hr]. unfold outDupsEtc. fold cls. rewrite E1. cbn [bind].
    rewrite E2. reflexivity.
  Qed.

  Section Meaning.
    Variables (dups : nat -> Z) (used : nat -> nat) (fixed : nat -> bool).
    Hypothesis Hres : result cls typ dups fixed.

    Lemma ones_clq c P x : clq cls c = sort_nat P -> value (ones (clq cls c)) (yv m x) == value (ones P) (yv m x).
    Proof. intros ->. apply ones_perm, sort_nat_perm. Qed.

    Lemma clq_nonneg c x : in_bounds m x -> forall y, In y (clq cls c) -> 0 <= yv m x y.
    Proof. intros Hx y Hy. apply yv_nonneg; [exact Hx|]. eapply hyp_below; exact Hy. Qed.

    Lemma clq_nodup c : (c < length cl)%nat -> NoDup (clq cls c).
    Proof.
      intro Hc. destruct (clique_at c Hc) as (pos & r & P & e & _ & _ & Hq & E & _). rewrite E.
      eapply Permutation_NoDup; [apply Permutation_sym, sort_nat_perm|apply (q_nodup _ _ _ _ Hq)].
    Qed.

    (** Columns that are fixed are zero at every feasible point. *)
    Lemma fixed_zero j x : feasible m x -> (j < m_ncols m)%nat -> is01 m j = true -> fixed (rank m j) = true -> x j <= 0.
    Proof.
      intros (Hrows & Hx & _) Hj H01 Hf.
      destruct (r_fixed _ _ _ _ Hres _ Hf) as (i & k & Hi & Hk & Ek & Hinc & Hin & Hout).
      rewrite cls_len in Hi, Hk.
      destruct (clique_at i Hi) as (p1 & r1 & P1 & e1 & R1 & N1 & Q1 & E1 & T1).
      destruct (clique_at k Hk) as (p2 & r2 & P2 & e2 & R2 & N2 & Q2 & E2 & T2).
      assert (S1 : row_sat r1 x) by (apply Hrows; eapply nth_error_In; exact R1).
      assert (S2 : row_sat r2 x) by (apply Hrows; eapply nth_error_In; exact R2).
      apply (q_sat _ _ _ _ Q1 x Hx) in S1 as [S1 _]. apply (q_sat _ _ _ _ Q2 x Hx) in S2 as [_ S2].
      rewrite <- T2 in S2. specialize (S2 Ek). rewrite <- (ones_clq i P1 x E1) in S1. rewrite <- (ones_clq k P2 x E2) in S2.
      assert (H : value (ones (rank m j :: clq cls k)) (yv m x) <= value (ones (clq cls i)) (yv m x)).
      { apply ones_incl.
        - constructor; [exact Hout|apply clq_nodup; exact Hk].
        - intros y [<-|Hy]; [exact Hin|apply Hinc; exact Hy].
        - apply clq_nonneg. exact Hx. }
      cbn [ones map value] in H. unfold ones in S1, S2. unfold ones in H.
      assert (Ey : yv m x (rank m j) = x j) by (unfold yv; rewrite col_of_rank by assumption; reflexivity).
      rewrite Ey in H. lra.
    Qed.

    (** Rows marked as dropped follow from those that are kept. *)
    Lemma dropped_implied x pos r c : equations_first m -> in_bounds m x ->
      (forall pos' r' c', nth_error (m_rows m) pos' = Some r' -> nth_error nums pos' = Some (Some c') ->
         dups c' <> (-2)%Z -> row_sat r' x) ->
      nth_error (m_rows m) pos = Some r -> nth_error nums pos = Some (Some c) -> dups c = (-2)%Z -> row_sat r x.
    Proof.
      intros Hef Hx Hkept Hr Hn Hdup.
      assert (Hc : (c < length cl)%nat).
      { destruct (number_inv _ _ _ _ Hn) as (_ & p & _ & Hp). rewrite Nat.sub_0_r in Hp. apply nth_error_Some. fold cl in Hp.
        rewrite Hp. discriminate. }
      destruct (clique_at c Hc) as (p1 & r1 & P1 & e1 & R1 & N1 & Q1 & E1 & T1).
      assert (p1 = pos) by (eapply number_inj; [exact N1|exact Hn]).
      subst p1. rewrite Hr in R1. injection R1 as <-.
      destruct (r_dropped _ _ _ _ Hres c) as (i & Hi & Hni & Hinc & Heq); [rewrite cls_len; exact Hc|exact Hdup|].
      rewrite cls_len in Hi. destruct (clique_at i Hi) as (p2 & r2 & P2 & e2 & R2 & N2 & Q2 & E2 & T2).
      assert (S2 : row_sat r2 x) by (eapply Hkept; [exact R2|exact N2|exact Hni]).
      apply (q_sat _ _ _ _ Q2 x Hx) in S2 as [S2 S2e]. apply (q_sat _ _ _ _ Q1 x Hx).
      rewrite <- (ones_clq i P2 x E2) in S2, S2e. rewrite <- (ones_clq c P1 x E1). split.
      - eapply Qle_trans; [|exact S2]. apply ones_incl; [apply clq_nodup; exact Hc|exact Hinc|apply clq_nonneg; exact Hx].
      - intro He. rewrite <- T1 in He. destruct (Heq (hyp_eq_first Hef) He) as [A B]. rewrite <- B. apply S2e.
        rewrite <- T2. exact A.
    Qed.
  End Meaning.
End Gen8.

(** ** Bounds *)
Lemma lower_hi_bounds m p x : in_bounds (lower_hi m p) x <-> in_bounds m x /\ ((fst p < m_ncols m)%nat -> x (fst p) <= snd p).
Proof.
  unfold lower_hi. destruct p as [j b]. cbn [fst snd].
  set (dn := match m_chi m j with None => true | Some u => b <? u end). destruct dn eqn:Edn; unfold dn in Edn.
  - split.
    + intro H. split.
      * intros k Hk. destruct (H k Hk) as [B1 B2]. cbn in B1, B2. split; [exact B1|]. unfold updf in B2.
        destruct (Nat.eqb_spec k j) as [->|]; [|exact B2]. destruct (m_chi m j) as [u|]; [|exact I]. cbn in *. qb. lra.
      * intro Hj. destruct (H j Hj) as [_ B2]. cbn in B2. rewrite updf_eq in B2. exact B2.
    + intros [H1 H2] k Hk. cbn in Hk. destruct (H1 k Hk) as [B1 B2]. cbn. split; [exact B1|]. unfold updf.
      destruct (Nat.eqb_spec k j) as [->|]; [cbn; apply H2; exact Hk|exact B2].
  - split; [|intros [H _]; exact H]. intro H. split; [exact H|]. intro Hj. destruct (H j Hj) as [_ B2].
    destruct (m_chi m j) as [u|]; [|discriminate]. cbn in B2. qb. lra.
Qed.

Lemma lower_hi_same m p : m_ncols (lower_hi m p) = m_ncols m /\ m_rows (lower_hi m p) = m_rows m /\ m_int (lower_hi m p) = m_int m.
Proof. unfold lower_hi. destruct (match m_chi m (fst p) with None => true | Some u => snd p <? u end); conjs; reflexivity. Qed.

Lemma fold_lower_hi l : forall m x,
  (in_bounds (fold_left lower_hi l m) x <-> in_bounds m x /\ forall j b, In (j, b) l -> (j < m_ncols m)%nat -> x j <= b) /\
  m_ncols (fold_left lower_hi l m) = m_ncols m /\ m_rows (fold_left lower_hi l m) = m_rows m /\
  m_int (fold_left lower_hi l m) = m_int m.
Proof.
  induction l as [|[j b] l IH]; intros m x; cbn [fold_left].
  - conjs; try reflexivity. split; [intro H; split; [exact H|intros ? ? []]|intros [H _]; exact H].
  - destruct (IH (lower_hi m (j, b)) x) as (H1 & H2 & H3 & H4). destruct (lower_hi_same m (j, b)) as (S1 & S2 & S3).
    conjs; try congruence. rewrite H1, lower_hi_bounds, S1. cbn [fst snd]. split.
    + intros [[A B] C]. split; [exact A|]. intros j0 b0 [E|E] L; [injection E as <- <-; apply B; exact L|apply C; assumption].
    + intros [A B]. split; [split; [exact A|apply B; left; reflexivity]|]. intros j0 b0 E L. apply B; [right; exact E|exact L].
Qed.

Lemma raise_lo_bounds m p x : in_bounds (raise_lo m p) x <-> in_bounds m x /\ ((fst p < m_ncols m)%nat -> snd p <= x (fst p)).
Proof.
  unfold raise_lo. destruct p as [j b]. cbn [fst snd].
  set (dn := match m_clo m j with None => true | Some l => l <? b end). destruct dn eqn:Edn; unfold dn in Edn.
  - split.
    + intro H. split.
      * intros k Hk. destruct (H k Hk) as [B1 B2]. cbn in B1, B2. split; [|exact B2]. unfold updf in B1.
        destruct (Nat.eqb_spec k j) as [->|]; [|exact B1]. destruct (m_clo m j) as [u|]; [|exact I]. cbn in *. qb. lra.
      * intro Hj. destruct (H j Hj) as [B1 _]. cbn in B1. rewrite updf_eq in B1. exact B1.
    + intros [H1 H2] k Hk. cbn in Hk. destruct (H1 k Hk) as [B1 B2]. cbn. split; [|exact B2]. unfold updf.
      destruct (Nat.eqb_spec k j) as [->|]; [cbn; apply H2; exact Hk|exact B1].
  - split; [|intros [H _]; exact H]. intro H. split; [exact H|]. intro Hj. destruct (H j Hj) as [B1 _].
    destruct (m_clo m j) as [u|]; [|discriminate]. cbn in B1. qb. lra.
Qed.

Lemma raise_lo_same m p : m_ncols (raise_lo m p) = m_ncols m /\ m_rows (raise_lo m p) = m_rows m /\ m_int (raise_lo m p) = m_int m.
Proof. unfold raise_lo. destruct (match m_clo m (fst p) with None => true | Some u => u <? snd p end); conjs; reflexivity. Qed.

Lemma fold_raise_lo l : forall m x,
  (in_bounds (fold_left raise_lo l m) x <-> in_bounds m x /\ forall j b, In (j, b) l -> (j < m_ncols m)%nat -> b <= x j) /\
  m_ncols (fold_left raise_lo l m) = m_ncols m /\ m_rows (fold_left raise_lo l m) = m_rows m /\
  m_int (fold_left raise_lo l m) = m_int m.
Proof.
  induction l as [|[j b] l IH]; intros m x; cbn [fold_left].
  - conjs; try reflexivity. split; [intro H; split; [exact H|intros ? ? []]|intros [H _]; exact H].
  - destruct (IH (raise_lo m (j, b)) x) as (H1 & H2 & H3 & H4). destruct (raise_lo_same m (j, b)) as (S1 & S2 & S3).
    conjs; try congruence. rewrite H1, raise_lo_bounds, S1. cbn [fst snd]. split.
    + intros [[A B] C]. split; [exact A|]. intros j0 b0 [E|E] L; [injection E as <- <-; apply B; exact L|apply C; assumption].
    + intros [A B]. split; [split; [exact A|apply B; left; reflexivity]|]. intros j0 b0 E L. apply B; [right; exact E|exact L].
Qed.

(** The column cuts are carried over to the bounds. *)
Lemma fold_colcuts cols : forall m x,
  (forall c j b, In c cols -> In (j, b) (cc_lbs c) \/ In (j, b) (cc_ubs c) -> (j < m_ncols m)%nat) ->
  (in_bounds (fold_left apply_colcut cols m) x <-> in_bounds m x /\ forall c, In c cols -> colcut_sat c x) /\
  m_ncols (fold_left apply_colcut cols m) = m_ncols m /\ m_rows (fold_left apply_colcut cols m) = m_rows m /\
  m_int (fold_left apply_colcut cols m) = m_int m.
Proof.
  induction cols as [|c cols IH]; intros m x Hj; cbn [fold_left].
  - conjs; try reflexivity. split; [intro H; split; [exact H|intros ? []]|intros [H _]; exact H].
  - unfold apply_colcut at 2 4 6 8. set (m1 := fold_left raise_lo (cc_lbs c) m). set (m2 := fold_left lower_hi (cc_ubs c) m1).
    destruct (fold_raise_lo (cc_lbs c) m x) as (A1 & A2 & A3 & A4). destruct (fold_lower_hi (cc_ubs c) m1 x) as (B1 & B2 & B3 & B4).
    fold m1 in A1, A2, A3, A4. fold m2 in B1, B2, B3, B4.
    destruct (IH m2 x) as (C1 & C2 & C3 & C4).
    { intros c' j b Hc Hb. rewrite B2, A2. apply (Hj c' j b); [right; exact Hc|exact Hb]. }
    conjs; try congruence. rewrite C1, B1, A1, A2. split.
    + intros [[[D1 D2] D3] D4]. split; [exact D1|]. intros c' [<-|Hc]; [|apply D4; exact Hc]. split.
      * intros j b Hb. apply D2; [exact Hb|]. apply (Hj c j b); [left; reflexivity|left; exact Hb].
      * intros j b Hb. apply D3; [exact Hb|]. apply (Hj c j b); [left; reflexivity|right; exact Hb].
    + intros [D1 D2]. destruct (D2 c (or_introl eq_refl)) as [D3 D4]. conjs.
      * exact D1.
      * intros j b Hb _. apply D3. exact Hb.
      * intros j b Hb _. apply D4. exact Hb.
      * intros c' Hc. apply D2. right. exact Hc.
Qed.

Lemma in_combine_nth {A B} (l : list A) (l' : list B) a b :
  In (a, b) (combine l l') <-> exists pos, nth_error l pos = Some a /\ nth_error l' pos = Some b.
Proof.
  revert l'. induction l as [|c l IH]; intros l'; [simpl; split; [intros []|intros ([|pos] & H & _); discriminate]|].
  destruct l' as [|d l']; [simpl; split; [intros []|intros ([|pos] & _ & H); discriminate]|]. simpl. rewrite IH. split.
  - intros [E|(pos & H1 & H2)]; [injection E as <- <-; exists O; split; reflexivity|exists (Datatypes.S pos); split; assumption].
  - intros ([|pos] & H1 & H2); [left; simpl in *; congruence|right; exists pos; split; assumption].
Qed.

Lemma keep_rows_in d rows r : In r (keep_rows d rows) <->
  exists pos z, nth_error d pos = Some z /\ nth_error rows pos = Some r /\ dropped z = false.
Proof.
  unfold keep_rows. rewrite in_map_iff. split.
  - intros ([z r0] & <- & H). apply filter_In in H as [H1 H2]. apply in_combine_nth in H1 as (pos & A & B).
    exists pos, z. conjs; [exact A|exact B|]. apply Bool.negb_true_iff in H2. exact H2.
  - intros (pos & z & A & B & C). exists (z, r). split; [reflexivity|]. apply filter_In. split.
    + apply in_combine_nth. exists pos. split; assumption.
    + apply Bool.negb_true_iff. exact C.
Qed.

Lemma dup2_nth nums nC dups used pos : (pos < length nums)%nat ->
  nth_error (dup2 nums nC dups used) pos =
  option_map (fun o => match o with Some k => dups k | None => (-3)%Z end) (nth_error nums pos).
Proof.
  intro L. unfold dup2. rewrite nth_error_app1 by (rewrite map_length; exact L). apply nth_error_map.
Qed.
