(** * Boolean tests for concrete instances

    Nothing here transcribes /repo: these tests discharge the hypotheses of the
    property theorems in the examples that accompany them. *)

From Coq Require Import Lia.
From Verif Require Import Base.
Local Open Scope Q_scope.

Fixpoint nodupb (l : list nat) : bool :=
  match l with [] => true | a :: l' => negb (existsb (Nat.eqb a) l') && nodupb l' end.
Lemma nodupb_ok l : nodupb l = true -> NoDup l.
Proof.
  induction l as [|a l IH]; intro H; [constructor|]. cbn [nodupb] in H. apply andb_prop in H. destruct H as (H1 & H2).
  constructor; [|auto]. intro Ha. apply negb_true_iff in H1. assert (existsb (Nat.eqb a) l = true); [|congruence].
  apply existsb_exists. exists a. split; [exact Ha|apply Nat.eqb_refl].
Qed.
Definition wfb (m : mip) : bool :=
  forallb (fun r => nodupb (map fst (r_form r)) && forallb (fun e => Nat.ltb (fst e) (m_ncols m)) (r_form r)) (m_rows m).
Lemma wfb_ok m : wfb m = true -> wf_mip m.
Proof.
  intros H r Hr. apply (proj1 (forallb_forall _ _) H) in Hr. apply andb_prop in Hr. destruct Hr as (H1 & H2).
  split; [apply nodupb_ok; exact H1|]. intros j a Hj. apply (proj1 (forallb_forall _ _) H2) in Hj. apply Nat.ltb_lt in Hj. exact Hj.
Qed.
Definition leb_hi (q : Q) (o : option Q) : bool := match o with Some u => Qle_bool q u | None => true end.
Definition geb_lo (q : Q) (o : option Q) : bool := match o with Some l => Qle_bool l q | None => true end.
Lemma leb_hi_ok q o : leb_hi q o = true <-> le_opt_hi q o.
Proof. destruct o; simpl; [apply Qle_bool_iff|tauto]. Qed.
Lemma geb_lo_ok q o : geb_lo q o = true <-> ge_opt_lo q o.
Proof. destruct o; simpl; [apply Qle_bool_iff|tauto]. Qed.
Definition integralb (q : Q) : bool := Z.eqb (Z.modulo (Qnum q) (Zpos (Qden q))) 0.
Lemma integralb_ok q : integralb q = true -> integral q.
Proof.
  unfold integralb. intro H. apply Z.eqb_eq in H. apply Z.mod_divide in H; [|discriminate]. destruct H as (k & H).
  exists k. unfold Qeq. simpl. lia.
Qed.
Definition bounds_b (m : mip) (y : point) : bool :=
  forallb (fun j => geb_lo (y j) (m_clo m j) && leb_hi (y j) (m_chi m j)) (seq 0 (m_ncols m)).
Lemma bounds_b_ok m y : bounds_b m y = true -> in_bounds m y.
Proof.
  intros H j Hj. assert (Hi : In j (seq 0 (m_ncols m))) by (apply in_seq; lia).
  apply (proj1 (forallb_forall _ _) H) in Hi. apply andb_prop in Hi. destruct Hi as (H1 & H2).
  split; [apply geb_lo_ok|apply leb_hi_ok]; assumption.
Qed.
Definition row_b (y : point) (r : row) : bool := geb_lo (value (r_form r) y) (r_lo r) && leb_hi (value (r_form r) y) (r_hi r).
Definition feasible_b (m : mip) (y : point) : bool :=
  forallb (row_b y) (m_rows m) && bounds_b m y &&
  forallb (fun j => negb (m_int m j) || integralb (y j)) (seq 0 (m_ncols m)).
Lemma feasible_b_ok m y : feasible_b m y = true -> feasible m y.
Proof.
  unfold feasible_b. intro H. apply andb_prop in H. destruct H as (H & H3). apply andb_prop in H. destruct H as (H1 & H2).
  split; [|split].
  - intros r Hr. apply (proj1 (forallb_forall _ _) H1) in Hr. apply andb_prop in Hr. destruct Hr as (A & B).
    split; [apply geb_lo_ok|apply leb_hi_ok]; assumption.
  - apply bounds_b_ok. exact H2.
  - intros j Hj Ij. assert (Hi : In j (seq 0 (m_ncols m))) by (apply in_seq; lia).
    apply (proj1 (forallb_forall _ _) H3) in Hi. rewrite Ij in Hi. apply integralb_ok. exact Hi.
Qed.
Definition rowcut_b (d : rowcut) (y : point) : bool := geb_lo (value (rc_form d) y) (rc_lb d) && leb_hi (value (rc_form d) y) (rc_ub d).
Lemma rowcut_b_ok d y : rowcut_b d y = true <-> rowcut_sat d y.
Proof.
  unfold rowcut_b, rowcut_sat. rewrite andb_true_iff, geb_lo_ok, leb_hi_ok. tauto.
Qed.
Lemma rowcut_b_no d y : rowcut_b d y = false -> ~ rowcut_sat d y.
Proof. intros H S. apply rowcut_b_ok in S. congruence. Qed.
