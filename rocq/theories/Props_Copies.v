(** * Copies of generators and the memory they own: C23, C28 *)

From Verif Require Import Base Model_TreeInfo Model_Copies.
Local Open Scope Z_scope.

(** ** Specification: value semantics

    An object is just its value; a copy has the value of its source at that
    time, and an operation changes one object only.  [None]: the caller breaks
    the rules (uses a destroyed object, passes too short an array). *)
Definition live {O} (l : list (option O)) (i : nat) : option O :=
  match nth_error l i with Some (Some o) => Some o | _ => None end.

(** a knapsack cover generator is the set of rows it is restricted to *)
Definition kval := option (list Z).
Definition kspec (l : list (option kval)) (o : kop) : option (list (option kval) * option kval) :=
  match o with
  | KNew => Some (l ++ [Some None], None)
  | KCopy i => match live l i with Some v => Some (l ++ [Some v], None) | None => None end
  | KAssign i j => match live l i, live l j with Some _, Some v => Some (put l i (Some v), None) | _, _ => None end
  | KSet i num ind =>
      match live l i with
      | Some v =>
          if 0 <? num then
            if Nat.leb (Z.to_nat num) (length ind) then Some (put l i (Some (Some (firstn (Z.to_nat num) ind))), None) else None
          else match v with
               | None => Some (put l i (Some None), None)
               | Some _ => None     (* lifting a restriction this way: see C23_reset_refuted *)
               end
      | None => None
      end
  | KDestroy i => match live l i with Some _ => Some (put l i None, None) | None => None end
  | KGenerate i => match live l i with Some v => Some (l, Some v) | None => None end
  end.
Fixpoint kspecs (l : list (option kval)) (ops : list kop) : option (list (option kval) * list kval) :=
  match ops with
  | [] => Some (l, [])
  | o :: ops' =>
      match kspec l o with
      | Some (l', v) =>
          match kspecs l' ops' with
          | Some (l'', vs) => Some (l'', match v with Some x => x :: vs | None => vs end)
          | None => None
          end
      | None => None
      end
  end.

(** a cut pool *)
Definition long {A} (l : list A) (n : nat) : bool := Nat.leb n (length l).
Definition sspec (l : list (option pool)) (o : sop) : option (list (option pool) * option pool) :=
  match o with
  | SNew n => Some (l ++ [Some (Pool (1 # 100000) [] n None None None)], None)
  | SCopy i => match live l i with Some v => Some (l ++ [Some v], None) | None => None end
  | SAssign i j => match live l i, live l j with Some _, Some v => Some (put l i (Some v), None) | _, _ => None end
  | SDestroy i => match live l i with Some _ => Some (put l i None, None) | None => None end
  | SAdd i cs => match live l i with
      | Some v => Some (put l i (Some (Pool (pl_req v) (pl_cuts v ++ cs) (pl_ncols v) (pl_info v) (pl_best v) (pl_bounds v))), None)
      | None => None end
  | SViolation i q => match live l i with
      | Some v => Some (put l i (Some (Pool q (pl_cuts v) (pl_ncols v) (pl_info v) (pl_best v) (pl_bounds v))), None)
      | None => None end
  | SInfo i p => match live l i with
      | Some v => Some (put l i (Some (Pool (pl_req v) (pl_cuts v) (pl_ncols v) (Some (BInfo p)) (pl_best v) (pl_bounds v))), None)
      | None => None end
  | SSave i obj best lo up => match live l i with
      | Some v =>
          if Nat.ltb 0 (pl_ncols v) && long lo (pl_ncols v) && long up (pl_ncols v) &&
             match best with Some b => long b (pl_ncols v) | None => true end
          then Some (put l i (Some (Pool (pl_req v) (pl_cuts v) (pl_ncols v) (pl_info v)
                 (match best with Some b => Some (BArr (firstn (pl_ncols v) b ++ [obj])) | None => None end)
                 (Some (BArr (firstn (pl_ncols v) lo ++ firstn (pl_ncols v) up))))), None)
          else None
      | None => None end
  | SLook i => match live l i with Some v => Some (l, Some v) | None => None end
  end.
Fixpoint sspecs (l : list (option pool)) (ops : list sop) : option (list (option pool) * list pool) :=
  match ops with
  | [] => Some (l, [])
  | o :: ops' =>
      match sspec l o with
      | Some (l', v) =>
          match sspecs l' ops' with
          | Some (l'', vs) => Some (l'', match v with Some x => x :: vs | None => vs end)
          | None => None
          end
      | None => None
      end
  end.

(** ** Heap lemmas *)
Definition alive {C} (h : heap C) (p : nat) (c : C) : Prop := nth_error h p = Some (Some c).
Lemma alive_lt {C} (h : heap C) p c : alive h p c -> (p < length h)%nat.
Proof. intro H. apply nth_error_Some. unfold alive in H. rewrite H. discriminate. Qed.
Lemma kill_nth {C} : forall (h : heap C) p q, (p < length h)%nat ->
  nth_error (kill h p) q = if Nat.eqb q p then Some None else nth_error h q.
Proof.
  induction h as [|b h IH]; intros p q L; simpl in L; [lia|]. destruct p as [|p], q as [|q]; simpl; try reflexivity.
  apply IH. lia.
Qed.
Lemma kill_len {C} : forall (h : heap C) p, length (kill h p) = length h.
Proof. induction h as [|b h IH]; intros [|p]; simpl; [reflexivity| |reflexivity|]; auto. Qed.
Lemma del_alive {C} (h : heap C) p c : alive h p c -> del h (Some p) = Done (kill h p).
Proof. intro H. unfold del. unfold alive in H. rewrite H. reflexivity. Qed.
Lemma put_nth {O} : forall (l : list (option O)) i j o, (i < length l)%nat ->
  nth_error (put l i o) j = if Nat.eqb j i then Some o else nth_error l j.
Proof.
  induction l as [|a l IH]; intros i j o L; simpl in L; [lia|]. destruct i as [|i], j as [|j]; simpl; try reflexivity. apply IH. lia.
Qed.
Lemma put_len {O} : forall (l : list (option O)) i o, length (put l i o) = length l.
Proof. induction l as [|a l IH]; intros [|i] o; simpl; auto. Qed.
Lemma slot_live {O} (l : list (option O)) i o : live l i = Some o -> slot l i = Done o /\ (i < length l)%nat.
Proof.
  unfold live, slot. destruct (nth_error l i) as [[a|]|] eqn:E; try discriminate. intro H. apply Some_inj in H. subst.
  split; [reflexivity|]. apply nth_error_Some. congruence.
Qed.

Lemma nth_zero (x : ptr) p : x = Some p -> nth_error [x] 0 = Some (Some p).
Proof. intros ->. reflexivity. Qed.
(** who owns what: field [a] of object [i] is pointer [p] *)
Definition fields := list (option (list ptr)).
Definition own (F : fields) (i a p : nat) : Prop :=
  exists fs, nth_error F i = Some (Some fs) /\ nth_error fs a = Some (Some p).
Definition owned {C} (h : heap C) (F : fields) : Prop :=
  (forall i a j b p, own F i a p -> own F j b p -> i = j /\ a = b) /\
  (forall i a p, own F i a p -> exists c, alive h p c).
(** nothing is left behind *)
Definition tight {C} (h : heap C) (F : fields) : Prop := forall p c, alive h p c -> exists i a, own F i a p.
(** [h'] agrees with [h] outside the blocks in [fs] *)
Definition agrees {C} (h h' : heap C) (fs : list ptr) : Prop :=
  (length h <= length h')%nat /\
  forall p, (p < length h)%nat -> ~ In (Some p) fs -> nth_error h' p = nth_error h p.
(** the pointers [fs'] are old ones or new blocks, all alive and distinct *)
Definition fresh {C} (h h' : heap C) (fs fs' : list ptr) : Prop :=
  (forall a p, nth_error fs' a = Some (Some p) -> (exists c, alive h' p c) /\ (In (Some p) fs \/ (length h <= p)%nat)) /\
  (forall a b p, nth_error fs' a = Some (Some p) -> nth_error fs' b = Some (Some p) -> a = b).

Lemma own_put F i fs : (i < length F)%nat -> forall j a p, own (put F i (Some fs)) j a p ->
  (j = i /\ nth_error fs a = Some (Some p)) \/ (j <> i /\ own F j a p).
Proof.
  intros L j a p (g & H1 & H2). rewrite put_nth in H1 by exact L. destruct (Nat.eqb j i) eqn:E.
  - apply Nat.eqb_eq in E. apply Some_inj in H1. apply Some_inj in H1. subst. left. auto.
  - apply Nat.eqb_neq in E. right. split; [exact E|]. exists g. auto.
Qed.
Lemma own_put_none F i : (i < length F)%nat -> forall j a p, own (put F i None) j a p -> j <> i /\ own F j a p.
Proof.
  intros L j a p (g & H1 & H2). rewrite put_nth in H1 by exact L. destruct (Nat.eqb j i) eqn:E; [discriminate|].
  apply Nat.eqb_neq in E. split; [exact E|]. exists g. auto.
Qed.
Lemma own_app F fs : forall j a p, own (F ++ [Some fs]) j a p ->
  (j = length F /\ nth_error fs a = Some (Some p)) \/ own F j a p.
Proof.
  intros j a p (g & H1 & H2). destruct (Nat.lt_ge_cases j (length F)) as [L|L].
  - rewrite nth_error_app1 in H1 by exact L. right. exists g. auto.
  - rewrite nth_error_app2 in H1 by exact L. destruct (j - length F)%nat as [|k] eqn:E; [|destruct k; discriminate].
    apply Some_inj in H1. apply Some_inj in H1. subst. left. split; [lia|exact H2].
Qed.
Lemma in_field (fs : list ptr) p : In (Some p) fs -> exists b, nth_error fs b = Some (Some p).
Proof. intro H. apply In_nth_error in H. exact H. Qed.

(** other objects keep their blocks *)
Lemma others_kept {C} (h h' : heap C) F i fs j a p c : owned h F -> nth_error F i = Some (Some fs) -> agrees h h' fs ->
  j <> i -> own F j a p -> alive h p c -> alive h' p c.
Proof.
  intros [O1 O2] E [_ A] N Ow Al. unfold alive. rewrite A; [exact Al|exact (alive_lt _ _ _ Al)|].
  intro I. apply in_field in I as (b & Hb). destruct (O1 j a i b p Ow) as [H _]; [exists fs; auto|]. contradiction.
Qed.
Lemma owned_put {C} (h h' : heap C) F i fs fs' : owned h F -> nth_error F i = Some (Some fs) ->
  agrees h h' fs -> fresh h h' fs fs' -> owned h' (put F i (Some fs')).
Proof.
  intros Ow E A [Fr1 Fr2]. assert (L : (i < length F)%nat) by (apply nth_error_Some; congruence).
  assert (Mix : forall j a b p, j <> i -> own F j a p -> nth_error fs' b = Some (Some p) -> False).
  { intros j a b p N O1 Hb. destruct Ow as [D Al]. destruct (Fr1 b p Hb) as [_ [I|G]].
    - apply in_field in I as (k & Hk). destruct (D j a i k p O1) as [H _]; [exists fs; auto|]. contradiction.
    - destruct (Al j a p O1) as (c & Hc). apply alive_lt in Hc. lia. }
  split.
  - intros j a k b p O1 O2. apply (own_put F i fs' L) in O1. apply (own_put F i fs' L) in O2.
    destruct O1 as [[-> O1]|[N1 O1]], O2 as [[-> O2]|[N2 O2]].
    + split; [reflexivity|exact (Fr2 a b p O1 O2)].
    + exfalso. exact (Mix k b a p N2 O2 O1).
    + exfalso. exact (Mix j a b p N1 O1 O2).
    + exact (proj1 Ow j a k b p O1 O2).
  - intros j a p O1. apply (own_put F i fs' L) in O1. destruct O1 as [[-> O1]|[N1 O1]].
    + exact (proj1 (Fr1 a p O1)).
    + destruct (proj2 Ow j a p O1) as (c & Hc). exists c. exact (others_kept h h' F i fs j a p c Ow E A N1 O1 Hc).
Qed.
Lemma owned_none {C} (h h' : heap C) F i fs : owned h F -> nth_error F i = Some (Some fs) ->
  agrees h h' fs -> owned h' (put F i None).
Proof.
  intros Ow E A. assert (L : (i < length F)%nat) by (apply nth_error_Some; congruence). split.
  - intros j a k b p O1 O2. apply (own_put_none F i L) in O1. apply (own_put_none F i L) in O2.
    exact (proj1 Ow j a k b p (proj2 O1) (proj2 O2)).
  - intros j a p O1. apply (own_put_none F i L) in O1 as [N1 O1]. destruct (proj2 Ow j a p O1) as (c & Hc). exists c.
    exact (others_kept h h' F i fs j a p c Ow E A N1 O1 Hc).
Qed.
Lemma owned_app {C} (h h' : heap C) F fs' : owned h F -> agrees h h' [] -> fresh h h' [] fs' -> owned h' (F ++ [Some fs']).
Proof.
  intros Ow A [Fr1 Fr2].
  assert (Mix : forall j a b p, own F j a p -> nth_error fs' b = Some (Some p) -> False).
  { intros j a b p O1 Hb. destruct (Fr1 b p Hb) as [_ [[]|G]]. destruct (proj2 Ow j a p O1) as (c & Hc). apply alive_lt in Hc. lia. }
  split.
  - intros j a k b p O1 O2. apply own_app in O1. apply own_app in O2.
    destruct O1 as [[-> O1]|O1], O2 as [[-> O2]|O2].
    + split; [reflexivity|exact (Fr2 a b p O1 O2)].
    + exfalso. exact (Mix k b a p O2 O1).
    + exfalso. exact (Mix j a b p O1 O2).
    + exact (proj1 Ow j a k b p O1 O2).
  - intros j a p O1. apply own_app in O1. destruct O1 as [[-> O1]|O1]; [exact (proj1 (Fr1 a p O1))|].
    destruct (proj2 Ow j a p O1) as (c & Hc). exists c. unfold alive. rewrite (proj2 A); [exact Hc|exact (alive_lt _ _ _ Hc)|intros []].
Qed.

Lemma agrees_refl {C} (h : heap C) fs : agrees h h fs.
Proof. split; auto. Qed.
Lemma agrees_trans {C} (h h1 h2 : heap C) f1 f2 : agrees h h1 f1 -> agrees h1 h2 f2 -> agrees h h2 (f1 ++ f2).
Proof.
  intros [L1 A1] [L2 A2]. split; [lia|]. intros p L N. rewrite A2, A1; auto; try lia; intro I; apply N; apply in_or_app; auto.
Qed.
Lemma agrees_incl {C} (h h' : heap C) f1 f2 : agrees h h' f1 -> incl f1 f2 -> agrees h h' f2.
Proof. intros [L A] I. split; [exact L|]. intros p Lp N. apply A; [exact Lp|]. intro H. apply N. apply I. exact H. Qed.
Lemma agrees_alloc {C} (h : heap C) c fs : agrees h (h ++ [Some c]) fs.
Proof. split; [rewrite app_length; lia|]. intros p L _. apply nth_error_app1. exact L. Qed.
Lemma alloc_alive {C} (h : heap C) c : alive (h ++ [Some c]) (length h) c.
Proof. unfold alive. rewrite nth_error_app2, Nat.sub_diag by lia. reflexivity. Qed.
Lemma agrees_kill {C} (h : heap C) p : (p < length h)%nat -> agrees h (kill h p) [Some p].
Proof.
  intro L. split; [rewrite kill_len; lia|]. intros q Lq N. rewrite kill_nth by exact L. destruct (Nat.eqb q p) eqn:E; [|reflexivity].
  apply Nat.eqb_eq in E. subst. exfalso. apply N. left. reflexivity.
Qed.

(** deleting a field that is NULL or alive *)
Definition sound_ptr {C} (h : heap C) (p : ptr) (v : option C) : Prop :=
  match p, v with
  | None, None => True
  | Some q, Some c => alive h q c
  | _, _ => False
  end.
Lemma del_sound {C} (h : heap C) p v : sound_ptr h p v -> exists h', del h p = Done h' /\ agrees h h' [p] /\ length h' = length h /\
  (forall q c, alive h' q c -> alive h q c /\ Some q <> p).
Proof.
  destruct p as [p|], v as [c|]; simpl; intro S; try contradiction.
  - pose proof (alive_lt _ _ _ S) as L. exists (kill h p). split; [exact (del_alive h p c S)|]. split; [apply agrees_kill; exact L|].
    split; [apply kill_len|]. intros q d Al. unfold alive in *. rewrite kill_nth in Al by exact L.
    destruct (Nat.eqb q p) eqn:E; [discriminate|]. apply Nat.eqb_neq in E. split; [exact Al|congruence].
  - exists h. split; [reflexivity|]. split; [apply agrees_refl|]. split; [reflexivity|]. intros q c Al. split; [exact Al|discriminate].
Qed.
Lemma sound_agrees {C} (h h' : heap C) fs p v : sound_ptr h p v -> agrees h h' fs -> (p <> None -> ~ In p fs) -> sound_ptr h' p v.
Proof.
  destruct p as [p|], v as [c|]; simpl; intros S [_ A] N; try contradiction; auto.
  unfold alive. rewrite A; [exact S|exact (alive_lt _ _ _ S)|apply N; discriminate].
Qed.
Lemma read_sound {C} (h : heap C) p v : sound_ptr h p v -> read h p = Done v.
Proof.
  destruct p as [p|], v as [c|]; simpl; intro S; try contradiction; [|reflexivity].
  unfold alive in S. rewrite S. reflexivity.
Qed.
Lemma copyn_ok {A} (l : list A) n : (n <= length l)%nat -> copyn l n = Done (firstn n l).
Proof. intro H. unfold copyn. apply Nat.leb_le in H. rewrite H. reflexivity. Qed.

(** ** Knapsack covers *)
Definition kfields (l : list (option kobj)) : fields := map (fun o => match o with Some k => Some [ko_rows k] | None => None end) l.
Definition kden (h : heap (list Z)) (o : option kobj) (v : option kval) : Prop :=
  match o, v with
  | None, None => True
  | Some k, Some r =>
      sound_ptr h (ko_rows k) r /\
      match r with None => ko_num k <= 0 | Some l => 0 < ko_num k /\ length l = Z.to_nat (ko_num k) end
  | _, _ => False
  end.
Record krel (w : kworld) (l : list (option kval)) : Prop := {
  kr_den : Forall2 (kden (kw_heap w)) (kw_objs w) l;
  kr_own : owned (kw_heap w) (kfields (kw_objs w));
  kr_tight : tight (kw_heap w) (kfields (kw_objs w)) }.

Lemma forall2_nth {A B} (R : A -> B -> Prop) l l' : Forall2 R l l' -> forall i b, nth_error l' i = Some b ->
  exists a, nth_error l i = Some a /\ R a b.
Proof.
  induction 1 as [|a b l l' H H1 IH]; intros i c E; destruct i as [|i]; try discriminate; simpl in E.
  - apply Some_inj in E. subst. exists a. auto.
  - apply IH. exact E.
Qed.
Lemma forall2_len {A B} (R : A -> B -> Prop) l l' : Forall2 R l l' -> length l = length l'.
Proof. induction 1; simpl; congruence. Qed.
Lemma forall2_put {A B} (R : option A -> option B -> Prop) l l' i a b : Forall2 R l l' -> R a b -> Forall2 R (put l i a) (put l' i b).
Proof. intros H Hab. revert i. induction H as [|c d l l' H H1 IH]; intros [|i]; simpl; constructor; auto. Qed.
Lemma forall2_nth_map {A B} (R T : A -> B -> Prop) l l' : Forall2 R l l' ->
  (forall i a b, nth_error l i = Some a -> nth_error l' i = Some b -> R a b -> T a b) -> Forall2 T l l'.
Proof.
  intro H. induction H as [|a b l l' H H1 IH]; intro G; constructor.
  - exact (G 0%nat a b eq_refl eq_refl H).
  - apply IH. intros i c d E1 E2 Rcd. exact (G (S i) c d E1 E2 Rcd).
Qed.
Lemma map_put {A B} (f : option A -> option B) l i o : map f (put l i o) = put (map f l) i (f o).
Proof. revert i. induction l as [|a l IH]; intros [|i]; simpl; try reflexivity. rewrite IH. reflexivity. Qed.
Lemma map_nth_err {A B} (f : A -> B) l i a : nth_error l i = Some a -> nth_error (map f l) i = Some (f a).
Proof. intro H. rewrite nth_error_map, H. reflexivity. Qed.

Lemma klive w l i v : krel w l -> live l i = Some v ->
  exists k, slot (kw_objs w) i = Done k /\ nth_error (kw_objs w) i = Some (Some k) /\ kden (kw_heap w) (Some k) (Some v) /\ (i < length (kw_objs w))%nat.
Proof.
  intros R E. unfold live in E. destruct (nth_error l i) as [[a|]|] eqn:N; try discriminate. apply Some_inj in E. subst a.
  destruct (forall2_nth _ _ _ (kr_den w l R) i (Some v) N) as (o & H1 & H2). destruct o as [k|]; [|contradiction].
  exists k. unfold slot. rewrite H1. split; [reflexivity|]. split; [reflexivity|]. split; [exact H2|]. apply nth_error_Some. congruence.
Qed.

(** an object gets new fields *)
Lemma krel_put w l i k v h' k' v' : krel w l -> nth_error (kw_objs w) i = Some (Some k) -> kden (kw_heap w) (Some k) (Some v) ->
  agrees (kw_heap w) h' [ko_rows k] -> fresh (kw_heap w) h' [ko_rows k] [ko_rows k'] ->
  kden h' (Some k') (Some v') ->
  (forall p c, alive h' p c -> Some p = ko_rows k' \/ ((exists c', alive (kw_heap w) p c') /\ Some p <> ko_rows k)) ->
  krel (KW h' (put (kw_objs w) i (Some k'))) (put l i (Some v')).
Proof.
  intros R E D A F D' T. assert (L : (i < length (kw_objs w))%nat) by (apply nth_error_Some; congruence).
  pose proof (map_nth_err (fun o => match o with Some k => Some [ko_rows k] | None => None end) _ _ _ E) as EF.
  constructor; cbn [kw_heap kw_objs].
  - (* other objects keep their values *)
    pose proof (kr_den w l R) as Dn.
    assert (Len : length (kw_objs w) = length l) by exact (forall2_len _ _ _ Dn).
    assert (Key : Forall2 (kden h') (put (kw_objs w) i (Some k')) (put l i (Some v'))).
    { assert (Base : Forall2 (fun o v => True) (put (kw_objs w) i (Some k')) (put l i (Some v'))).
      { apply forall2_put with (R := fun _ _ => True); [|exact I]. eapply forall2_nth_map; [exact Dn|]. auto. }
      eapply forall2_nth_map; [exact Base|]. intros j o u E1 E2 _.
      rewrite put_nth in E1 by exact L. rewrite put_nth in E2 by lia. destruct (Nat.eqb j i) eqn:Ej.
      - apply Some_inj in E1. apply Some_inj in E2. subst. exact D'.
      - apply Nat.eqb_neq in Ej. destruct (forall2_nth _ _ _ Dn j u E2) as (o2 & E3 & Do). rewrite E1 in E3. apply Some_inj in E3. subst o2.
        destruct o as [ko|], u as [r|]; simpl in Do |- *; try contradiction; auto. destruct Do as [S1 S2]. split; [|exact S2].
        destruct (ko_rows ko) as [q|] eqn:Eq, r as [c|]; simpl in S1 |- *; try contradiction; auto.
        apply (others_kept (kw_heap w) h' (kfields (kw_objs w)) i [ko_rows k] j 0%nat q c); auto.
        + exact (kr_own w l R).
        + exists [ko_rows ko]. split; [exact (map_nth_err _ _ _ _ E1)|apply nth_zero; (assumption || (symmetry; assumption))]. }
    exact Key.
  - unfold kfields. rewrite map_put. eapply owned_put; [exact (kr_own w l R)|exact EF|exact A|exact F].
  - intros p c Al. destruct (T p c Al) as [Hp|[(c' & Al') Np]].
    + exists i, 0%nat. exists [ko_rows k']. split; [|apply nth_zero; (assumption || (symmetry; assumption))]. unfold kfields. rewrite map_put. rewrite put_nth by (rewrite map_length; exact L).
      rewrite Nat.eqb_refl. reflexivity.
    + destruct (kr_tight w l R p c' Al') as (j & a & fs & E1 & E2). exists j, a, fs. split; [|exact E2].
      unfold kfields. rewrite map_put, put_nth by (rewrite map_length; exact L). destruct (Nat.eqb j i) eqn:Ej; [|exact E1].
      exfalso. apply Nat.eqb_eq in Ej. subst j. unfold kfields in E1. rewrite EF in E1. apply Some_inj in E1. apply Some_inj in E1. subst fs.
      destruct a as [|a]; simpl in E2; [|destruct a; discriminate]. apply Some_inj in E2. congruence.
Qed.
Lemma krel_app w l h' k' v' : krel w l -> agrees (kw_heap w) h' [] -> fresh (kw_heap w) h' [] [ko_rows k'] ->
  kden h' (Some k') (Some v') ->
  (forall p c, alive h' p c -> Some p = ko_rows k' \/ exists c', alive (kw_heap w) p c') ->
  krel (KW h' (kw_objs w ++ [Some k'])) (l ++ [Some v']).
Proof.
  intros R A F D' T. constructor; cbn [kw_heap kw_objs].
  - apply Forall2_app; [|constructor; [exact D'|constructor]].
    eapply forall2_nth_map; [exact (kr_den w l R)|]. intros j o u E1 E2 Do.
    destruct o as [ko|], u as [r|]; simpl in Do |- *; try contradiction; auto. destruct Do as [S1 S2]. split; [|exact S2].
    eapply sound_agrees; [exact S1|exact A|intros _ []].
  - unfold kfields. rewrite map_app. simpl. eapply owned_app; [exact (kr_own w l R)|exact A|exact F].
  - intros p c Al. unfold kfields. rewrite map_app. simpl. destruct (T p c Al) as [Hp|(c' & Al')].
    + exists (length (kfields (kw_objs w))), 0%nat. exists [ko_rows k']. split; [|apply nth_zero; (assumption || (symmetry; assumption))].
      rewrite nth_error_app2 by (unfold kfields; lia). unfold kfields. rewrite Nat.sub_diag. reflexivity.
    + destruct (kr_tight w l R p c' Al') as (j & a & fs & E1 & E2). exists j, a, fs. split; [|exact E2].
      rewrite nth_error_app1; [exact E1|]. apply nth_error_Some. unfold kfields in E1. congruence.
Qed.
Lemma fresh_none {C} (h h' : heap C) fs : fresh h h' fs [None].
Proof. split; intros [|[|a]]; simpl; intros; try discriminate; destruct b as [|[|b]]; discriminate. Qed.
Lemma fresh_one {C} (h h1 : heap C) c fs : (length h <= length h1)%nat -> fresh h (h1 ++ [Some c]) fs [Some (length h1)].
Proof.
  intro L. split.
  - intros [|[|a]] p H; simpl in H; try discriminate. apply Some_inj in H. apply Some_inj in H. subst. split; [exists c; apply alloc_alive|right; exact L].
  - intros [|[|a]] [|[|b]] p H1 H2; simpl in *; try discriminate; reflexivity.
Qed.
Lemma alive_app {C} (h : heap C) c p d : alive (h ++ [Some c]) p d -> p = length h \/ alive h p d.
Proof.
  intro H. destruct (Nat.lt_ge_cases p (length h)) as [L|L].
  - right. unfold alive in *. rewrite nth_error_app1 in H by exact L. exact H.
  - left. apply alive_lt in H. rewrite app_length in H. simpl in H. lia.
Qed.

Lemma kstep_refines w l o l' v : krel w l -> kspec l o = Some (l', v) ->
  exists w', kstep w o = Done (w', v) /\ krel w' l'.
Proof.
  intros R E. destruct o as [|i|i j|i num ind|i|i]; simpl in E.
  - inversion E; subst. eexists. split; [reflexivity|]. apply krel_app; auto; [apply agrees_refl|apply fresh_none| |].
    + split; [exact I|simpl; lia].
    + intros p c Al. right. exists c. exact Al.
  - destruct (live l i) as [r|] eqn:Li; [|discriminate]. inversion E; subst. destruct (klive w l i r R Li) as (k & S1 & S2 & [D1 D2] & L).
    simpl. rewrite S1. cbn [bind]. unfold k_copy. destruct r as [rows|].
    + destruct D2 as [D2 D3]. assert (Q : 0 <? ko_num k = true) by (apply Z.ltb_lt; lia). rewrite Q.
      destruct (ko_rows k) as [p|] eqn:Ep; [|contradiction]. simpl in D1. unfold get. unfold alive in D1. rewrite D1. cbn [bind].
      rewrite copyn_ok by lia. cbn [bind alloc fst snd]. eexists. split; [reflexivity|].
      apply krel_app; auto; [apply agrees_alloc|apply fresh_one; lia| |].
      * split; [simpl; rewrite firstn_all2 by lia; apply alloc_alive|simpl; split; [exact D2|exact D3]].
      * intros q c Al. simpl. apply alive_app in Al as [-> |Al]; [left; reflexivity|right; exists c; exact Al].
    + assert (Q : 0 <? ko_num k = false) by (apply Z.ltb_ge; lia). rewrite Q. cbn [bind fst snd]. eexists. split; [reflexivity|].
      apply krel_app; auto; [apply agrees_refl|apply fresh_none| |].
      * split; [exact I|exact D2].
      * intros p c Al. right. exists c. exact Al.
  - destruct (live l i) as [r0|] eqn:Li; [|discriminate]. destruct (live l j) as [r|] eqn:Lj; [|discriminate]. inversion E; subst.
    destruct (klive w l i r0 R Li) as (t & T1 & T2 & [T3 T4] & L). destruct (klive w l j r R Lj) as (s & S1 & S2 & [D1 D2] & L2).
    simpl. rewrite T1. cbn [bind]. rewrite S1. cbn [bind]. destruct (Nat.eqb i j) eqn:Eij.
    + apply Nat.eqb_eq in Eij. subst j. rewrite Li in Lj. apply Some_inj in Lj. subst r0. eexists. split; [reflexivity|].
      assert (Pe : put l i (Some r) = l).
      { unfold live in Li. clear - Li. revert i Li. induction l as [|a l IH]; intros [|i] Li; simpl in *; try reflexivity.
        - destruct a; [congruence|discriminate].
        - rewrite IH; [reflexivity|exact Li]. }
      rewrite Pe. exact R.
    + apply Nat.eqb_neq in Eij. unfold k_assign.
      destruct (del_sound (kw_heap w) (ko_rows t) r0 T3) as (h1 & E1 & A1 & L1 & K1). rewrite E1. cbn [bind].
      assert (D1' : sound_ptr h1 (ko_rows s) r).
      { eapply sound_agrees; [exact D1|exact A1|]. intros Ns [I|[]]. destruct (ko_rows s) as [p|] eqn:Ep; [|congruence].
        destruct (proj1 (kr_own w l R) i 0%nat j 0%nat p) as [H _]; [| |contradiction].
        - exists [ko_rows t]. split; [exact (map_nth_err _ _ _ _ T2)|apply nth_zero; (assumption || (symmetry; assumption))].
        - exists [ko_rows s]. split; [exact (map_nth_err _ _ _ _ S2)|apply nth_zero; (assumption || (symmetry; assumption))]. }
      destruct r as [rows|].
      * destruct D2 as [D2 D3]. assert (Q : 0 <? ko_num s = true) by (apply Z.ltb_lt; lia). rewrite Q.
        destruct (ko_rows s) as [p|] eqn:Ep; [|contradiction]. simpl in D1'. unfold get. unfold alive in D1'. rewrite D1'. cbn [bind].
        rewrite copyn_ok by lia. cbn [bind alloc fst snd]. eexists. split; [reflexivity|].
        eapply krel_put; [exact R|exact T2|split; [exact T3|exact T4]| | | |].
        -- eapply agrees_incl; [eapply agrees_trans; [exact A1|apply (agrees_alloc h1 _ [])]|rewrite app_nil_r; apply incl_refl].
        -- apply fresh_one. lia.
        -- split; [simpl; rewrite firstn_all2 by lia; apply alloc_alive|simpl; split; [exact D2|exact D3]].
        -- intros q c Al. simpl. apply alive_app in Al as [-> |Al]; [left; reflexivity|right]. destruct (K1 q c Al). split; [exists c; assumption|assumption].
      * assert (Q : 0 <? ko_num s = false) by (apply Z.ltb_ge; lia). rewrite Q. cbn [bind fst snd]. eexists. split; [reflexivity|].
        eapply krel_put; [exact R|exact T2|split; [exact T3|exact T4]|exact A1|apply fresh_none|split; [exact I|exact D2]|].
        intros q c Al. right. destruct (K1 q c Al). split; [exists c; assumption|assumption].
  - destruct (live l i) as [r0|] eqn:Li; [|discriminate].
    destruct (klive w l i r0 R Li) as (t & T1 & T2 & [T3 T4] & L). simpl. rewrite T1. cbn [bind]. unfold k_set.
    destruct (del_sound (kw_heap w) (ko_rows t) r0 T3) as (h1 & E1 & A1 & L1 & K1).
    assert (Ed : (match ko_rows t with None => Done (kw_heap w) | p => del (kw_heap w) p end) = Done h1).
    { destruct (ko_rows t) as [p|]; [exact E1|]. simpl in E1. exact E1. }
    rewrite Ed. cbn [bind]. destruct (0 <? num) eqn:Q.
    + destruct (Nat.leb (Z.to_nat num) (length ind)) eqn:Ql; [|discriminate]. apply Nat.leb_le in Ql. inversion E; subst.
      rewrite copyn_ok by exact Ql. cbn [bind alloc fst snd]. eexists. split; [reflexivity|]. apply Z.ltb_lt in Q.
      eapply krel_put; [exact R|exact T2|split; [exact T3|exact T4]| | | |].
      * eapply agrees_incl; [eapply agrees_trans; [exact A1|apply (agrees_alloc h1 _ [])]|rewrite app_nil_r; apply incl_refl].
      * apply fresh_one. lia.
      * split; [apply alloc_alive|simpl; split; [exact Q|apply firstn_length_le; exact Ql]].
      * intros q c Al. simpl. apply alive_app in Al as [-> |Al]; [left; reflexivity|right]. destruct (K1 q c Al). split; [exists c; assumption|assumption].
    + destruct r0 as [rows|]; [discriminate|]. inversion E; subst. apply Z.ltb_ge in Q. cbn [bind fst snd]. eexists. split; [reflexivity|].
      destruct (ko_rows t) as [p|] eqn:Ep; [contradiction|]. 
      eapply (krel_put w l i t None); [exact R|exact T2|split; [rewrite Ep; exact I|exact T4]|rewrite Ep; exact A1|apply fresh_none|split; [exact I|exact Q]|].
      intros q c Al. right. destruct (K1 q c Al). split; [exists c; assumption|rewrite Ep; assumption].
  - destruct (live l i) as [r0|] eqn:Li; [|discriminate]. inversion E; subst.
    destruct (klive w l i r0 R Li) as (t & T1 & T2 & [T3 T4] & L). simpl. rewrite T1. cbn [bind]. unfold k_destroy.
    destruct (del_sound (kw_heap w) (ko_rows t) r0 T3) as (h1 & E1 & A1 & L1 & K1). rewrite E1. cbn [bind]. eexists. split; [reflexivity|].
    pose proof (kr_den w l R) as Dn. assert (Len : length (kw_objs w) = length l) by exact (forall2_len _ _ _ Dn).
    constructor; cbn [kw_heap kw_objs].
    + assert (Base : Forall2 (fun o v => True) (put (kw_objs w) i None) (put l i None)).
      { apply forall2_put with (R := fun _ _ => True); [|exact I]. eapply forall2_nth_map; [exact Dn|]. auto. }
      eapply forall2_nth_map; [exact Base|]. intros j o u X1 X2 _.
      rewrite put_nth in X1 by exact L. rewrite put_nth in X2 by lia. destruct (Nat.eqb j i) eqn:Ej.
      * apply Some_inj in X1. apply Some_inj in X2. subst. exact I.
      * apply Nat.eqb_neq in Ej. destruct (forall2_nth _ _ _ Dn j u X2) as (o2 & X3 & Do). rewrite X1 in X3. apply Some_inj in X3. subst o2.
        destruct o as [ko|], u as [r|]; simpl in Do |- *; try contradiction; auto. destruct Do as [S1 S2]. split; [|exact S2].
        destruct (ko_rows ko) as [q|] eqn:Eq, r as [c|]; simpl in S1 |- *; try contradiction; auto.
        apply (others_kept (kw_heap w) h1 (kfields (kw_objs w)) i [ko_rows t] j 0%nat q c); auto.
        -- exact (kr_own w l R).
        -- exact (map_nth_err _ _ _ _ T2).
        -- exists [ko_rows ko]. split; [exact (map_nth_err _ _ _ _ X1)|apply nth_zero; (assumption || (symmetry; assumption))].
    + unfold kfields. rewrite map_put. eapply owned_none; [exact (kr_own w l R)|exact (map_nth_err _ _ _ _ T2)|exact A1].
    + intros p c Al. destruct (K1 p c Al) as [Al' Np]. destruct (kr_tight w l R p c Al') as (j & a & fs & X1 & X2). exists j, a, fs. split; [|exact X2].
      unfold kfields. rewrite map_put, put_nth by (rewrite map_length; exact L). destruct (Nat.eqb j i) eqn:Ej; [|exact X1].
      exfalso. apply Nat.eqb_eq in Ej. subst j. unfold kfields in X1. rewrite (map_nth_err _ _ _ _ T2) in X1. apply Some_inj in X1. apply Some_inj in X1. subst fs.
      destruct a as [|a]; simpl in X2; [|destruct a; discriminate]. apply Some_inj in X2. congruence.
  - destruct (live l i) as [r0|] eqn:Li; [|discriminate]. inversion E; subst.
    destruct (klive w l' i r0 R Li) as (t & T1 & T2 & [T3 T4] & L). simpl. rewrite T1. cbn [bind]. unfold k_rows.
    destruct (ko_rows t) as [p|] eqn:Ep, r0 as [rows|]; simpl in T3; try contradiction.
    + destruct T4 as [T4 T5]. assert (Q : 0 <? ko_num t = true) by (apply Z.ltb_lt; lia). rewrite Q. unfold get. unfold alive in T3. rewrite T3. cbn [bind].
      rewrite copyn_ok by lia. cbn [bind]. rewrite firstn_all2 by lia. exists w. split; [reflexivity|exact R].
    + cbn [bind]. exists w. split; [reflexivity|exact R].
Qed.
Lemma krun_refines : forall ops w l l' vs, krel w l -> kspecs l ops = Some (l', vs) ->
  exists w', krun w ops = Done (w', vs) /\ krel w' l'.
Proof.
  induction ops as [|o ops IH]; intros w l l' vs R E; simpl in E.
  - inversion E; subst. exists w. split; [reflexivity|exact R].
  - destruct (kspec l o) as [[l1 v]|] eqn:E1; [|discriminate]. destruct (kspecs l1 ops) as [[l2 vs2]|] eqn:E2; [|discriminate].
    inversion E; subst. destruct (kstep_refines w l o l1 v R E1) as (w1 & S1 & R1). destruct (IH w1 l1 l' vs2 R1 E2) as (w2 & S2 & R2).
    exists w2. split; [|exact R2]. simpl. rewrite S1. cbn [bind fst snd]. rewrite S2. reflexivity.
Qed.
Lemma krel_empty : krel (KW [] []) [].
Proof.
  constructor; cbn; [constructor| |].
  - split; intros i a; [intros j b p (fs & H & _)|intros p (fs & H & _)]; destruct i; discriminate.
  - intros p c H. unfold alive in H. destruct p; discriminate.
Qed.

(** Every history the specification allows runs without touching dead memory,
    every generateCuts sees the rows its object is restricted to, and once all
    objects are destroyed nothing is left on the heap. *)
Theorem C23_knapsack_memory ops l vs : kspecs [] ops = Some (l, vs) ->
  exists w, krun (KW [] []) ops = Done (w, vs) /\
    ((forall i, live l i = None) -> forall p c, nth_error (kw_heap w) p <> Some (Some c)).
Proof.
  intro E. destruct (krun_refines ops _ _ _ _ krel_empty E) as (w & S & R). exists w. split; [exact S|].
  intros Dead p c Al. destruct (kr_tight w l R p c Al) as (i & a & fs & H1 & H2).
  unfold kfields in H1. rewrite nth_error_map in H1. destruct (nth_error (kw_objs w) i) as [[k|]|] eqn:Ei; try discriminate.
  specialize (Dead i). unfold live in Dead. assert (L : (i < length l)%nat).
  { rewrite <- (forall2_len _ _ _ (kr_den w l R)). apply nth_error_Some. congruence. }
  apply nth_error_Some in L. destruct (nth_error l i) as [v|] eqn:El; [|congruence].
  destruct (forall2_nth _ _ _ (kr_den w l R) i v El) as (o & Eo & D). rewrite Ei in Eo. apply Some_inj in Eo. subst o.
  destruct v as [v|]; [discriminate|contradiction].
Qed.
(** lifting the restriction with a non-positive count: the freed array is freed
    again on destruction, and until then no rows are tested at all *)
Theorem C23_reset_refuted :
  krun (KW [] []) [KNew; KSet 0 1 [7]; KSet 0 0 []; KDestroy 0] = Undef DoubleFree /\
  exists w, krun (KW [] []) [KNew; KSet 0 0 []; KGenerate 0; KNew; KSet 1 1 [7]; KSet 1 0 []; KGenerate 1] = Done (w, [None; Some []]).
Proof. split; [vm_compute; reflexivity|]. eexists. vm_compute. reflexivity. Qed.
Example C23_example : exists l w,
  kspecs [] [KNew; KSet 0 2 [4; 5; 6]; KCopy 0; KSet 0 1 [9]; KGenerate 0; KGenerate 1; KAssign 0 1; KDestroy 1; KGenerate 0; KDestroy 0]
    = Some (l, [Some [9]; Some [4; 5]; Some [4; 5]]) /\
  krun (KW [] []) [KNew; KSet 0 2 [4; 5; 6]; KCopy 0; KSet 0 1 [9]; KGenerate 0; KGenerate 1; KAssign 0 1; KDestroy 1; KGenerate 0; KDestroy 0]
    = Done (w, [Some [9]; Some [4; 5]; Some [4; 5]]).
Proof. eexists. eexists. split; vm_compute; reflexivity. Qed.
Print Assumptions C23_knapsack_memory.
Print Assumptions C23_reset_refuted.

(** ** Cut pools *)
Definition sptrs (o : sobj) : list ptr := [so_info o; so_best o; so_bounds o].
Definition sfields (l : list (option sobj)) : fields := map (fun o => match o with Some k => Some (sptrs k) | None => None end) l.
Definition arr_len (b : option blob) (n : nat) : Prop :=
  match b with None => True | Some (BArr l) => length l = n | Some (BInfo _) => False end.
Definition sden (h : heap blob) (o : option sobj) (v : option pool) : Prop :=
  match o, v with
  | None, None => True
  | Some s, Some p =>
      so_req s = pl_req p /\ so_cuts s = pl_cuts p /\ so_ncols s = pl_ncols p /\
      sound_ptr h (so_info s) (pl_info p) /\ sound_ptr h (so_best s) (pl_best p) /\ sound_ptr h (so_bounds s) (pl_bounds p) /\
      arr_len (pl_best p) (pl_ncols p + 1) /\ arr_len (pl_bounds p) (2 * pl_ncols p) /\
      (pl_ncols p = 0%nat -> pl_best p = None /\ pl_bounds p = None)
  | _, _ => False
  end.
Record srel (w : sworld) (l : list (option pool)) : Prop := {
  sr_den : Forall2 (sden (sw_heap w)) (sw_objs w) l;
  sr_own : owned (sw_heap w) (sfields (sw_objs w)) }.
Lemma slive w l i v : srel w l -> live l i = Some v ->
  exists s, slot (sw_objs w) i = Done s /\ nth_error (sw_objs w) i = Some (Some s) /\ sden (sw_heap w) (Some s) (Some v) /\ (i < length (sw_objs w))%nat.
Proof.
  intros R E. unfold live in E. destruct (nth_error l i) as [[a|]|] eqn:N; try discriminate. apply Some_inj in E. subst a.
  destruct (forall2_nth _ _ _ (sr_den w l R) i (Some v) N) as (o & H1 & H2). destruct o as [k|]; [|contradiction].
  exists k. unfold slot. rewrite H1. split; [reflexivity|]. split; [reflexivity|]. split; [exact H2|]. apply nth_error_Some. congruence.
Qed.
Lemma sden_kept h h' F i fs j o v : owned h F -> nth_error F i = Some (Some fs) -> agrees h h' fs -> j <> i ->
  nth_error F j = Some (match o with Some k => Some (sptrs k) | None => None end) -> sden h o v -> sden h' o v.
Proof.
  intros Ow E A N Ej D. destruct o as [s|], v as [p|]; simpl in D |- *; try contradiction; auto.
  destruct D as (D1 & D2 & D3 & D4 & D5 & D6 & D7). repeat (apply conj; [assumption|]).
  assert (G : forall a q v, nth_error (sptrs s) a = Some q -> sound_ptr h q v -> sound_ptr h' q v).
  { intros a q u Hq Sq. destruct q as [q|], u as [c|]; simpl in Sq |- *; try contradiction; auto.
    apply (others_kept h h' F i fs j a q c); auto. exists (sptrs s). auto. }
  split; [exact (G 0%nat _ _ eq_refl D4)|]. split; [exact (G 1%nat _ _ eq_refl D5)|]. split; [exact (G 2%nat _ _ eq_refl D6)|exact D7].
Qed.
Lemma srel_put w l i s h' s' v' : srel w l -> nth_error (sw_objs w) i = Some (Some s) ->
  agrees (sw_heap w) h' (sptrs s) -> fresh (sw_heap w) h' (sptrs s) (sptrs s') -> sden h' (Some s') (Some v') ->
  srel (SW h' (put (sw_objs w) i (Some s'))) (put l i (Some v')).
Proof.
  intros R E A F D'. assert (L : (i < length (sw_objs w))%nat) by (apply nth_error_Some; congruence).
  pose proof (map_nth_err (fun o => match o with Some k => Some (sptrs k) | None => None end) _ _ _ E) as EF.
  pose proof (sr_den w l R) as Dn. assert (Len : length (sw_objs w) = length l) by exact (forall2_len _ _ _ Dn).
  constructor; cbn [sw_heap sw_objs].
  - assert (Base : Forall2 (fun o v => True) (put (sw_objs w) i (Some s')) (put l i (Some v'))).
    { apply forall2_put with (R := fun _ _ => True); [|exact I]. eapply forall2_nth_map; [exact Dn|]. auto. }
    eapply forall2_nth_map; [exact Base|]. intros j o u E1 E2 _.
    rewrite put_nth in E1 by exact L. rewrite put_nth in E2 by lia. destruct (Nat.eqb j i) eqn:Ej.
    + apply Some_inj in E1. apply Some_inj in E2. subst. exact D'.
    + apply Nat.eqb_neq in Ej. destruct (forall2_nth _ _ _ Dn j u E2) as (o2 & E3 & Do). rewrite E1 in E3. apply Some_inj in E3. subst o2.
      eapply sden_kept; [exact (sr_own w l R)|exact EF|exact A|exact Ej|exact (map_nth_err _ _ _ _ E1)|exact Do].
  - unfold sfields. rewrite map_put. eapply owned_put; [exact (sr_own w l R)|exact EF|exact A|exact F].
Qed.
Lemma srel_none w l i s h' : srel w l -> nth_error (sw_objs w) i = Some (Some s) ->
  agrees (sw_heap w) h' (sptrs s) -> srel (SW h' (put (sw_objs w) i None)) (put l i None).
Proof.
  intros R E A. assert (L : (i < length (sw_objs w))%nat) by (apply nth_error_Some; congruence).
  pose proof (map_nth_err (fun o => match o with Some k => Some (sptrs k) | None => None end) _ _ _ E) as EF.
  pose proof (sr_den w l R) as Dn. assert (Len : length (sw_objs w) = length l) by exact (forall2_len _ _ _ Dn).
  constructor; cbn [sw_heap sw_objs].
  - assert (Base : Forall2 (fun o v => True) (put (sw_objs w) i None) (put l i None)).
    { apply forall2_put with (R := fun _ _ => True); [|exact I]. eapply forall2_nth_map; [exact Dn|]. auto. }
    eapply forall2_nth_map; [exact Base|]. intros j o u E1 E2 _.
    rewrite put_nth in E1 by exact L. rewrite put_nth in E2 by lia. destruct (Nat.eqb j i) eqn:Ej.
    + apply Some_inj in E1. apply Some_inj in E2. subst. exact I.
    + apply Nat.eqb_neq in Ej. destruct (forall2_nth _ _ _ Dn j u E2) as (o2 & E3 & Do). rewrite E1 in E3. apply Some_inj in E3. subst o2.
      eapply sden_kept; [exact (sr_own w l R)|exact EF|exact A|exact Ej|exact (map_nth_err _ _ _ _ E1)|exact Do].
  - unfold sfields. rewrite map_put. eapply owned_none; [exact (sr_own w l R)|exact EF|exact A].
Qed.
Lemma srel_app w l h' s' v' : srel w l -> agrees (sw_heap w) h' [] -> fresh (sw_heap w) h' [] (sptrs s') ->
  sden h' (Some s') (Some v') -> srel (SW h' (sw_objs w ++ [Some s'])) (l ++ [Some v']).
Proof.
  intros R A F D'. constructor; cbn [sw_heap sw_objs].
  - apply Forall2_app; [|constructor; [exact D'|constructor]].
    eapply forall2_nth_map; [exact (sr_den w l R)|]. intros j o u E1 E2 D.
    destruct o as [s|], u as [p|]; simpl in D |- *; try contradiction; auto.
    destruct D as (D1 & D2 & D3 & D4 & D5 & D6 & D7). repeat (apply conj; [assumption|]).
    split; [eapply sound_agrees; [exact D4|exact A|intros _ []]|]. split; [eapply sound_agrees; [exact D5|exact A|intros _ []]|].
    split; [eapply sound_agrees; [exact D6|exact A|intros _ []]|exact D7].
  - unfold sfields. rewrite map_app. simpl. eapply owned_app; [exact (sr_own w l R)|exact A|exact F].
Qed.

(** copying one owned block *)
Definition newptr {C} (h h' : heap C) (p : ptr) : Prop :=
  (length h <= length h')%nat /\ match p with None => True | Some q => (length h <= q < length h')%nat end.
Lemma copy_info_ok h p v : sound_ptr h p v -> exists h' p', copy_info h p = Done (h', p') /\ agrees h h' [] /\ newptr h h' p' /\ sound_ptr h' p' v.
Proof.
  destruct p as [p|], v as [c|]; simpl; intro S; try contradiction.
  - unfold alive in S. rewrite S. cbn [bind alloc]. eexists. eexists. split; [reflexivity|]. split; [apply agrees_alloc|].
    split; [split; rewrite app_length; simpl; lia|apply alloc_alive].
  - exists h, None. split; [reflexivity|]. split; [apply agrees_refl|]. split; [split; [lia|exact I]|exact I].
Qed.
Lemma copy_array_ok h p v n : sound_ptr h p v -> arr_len v n -> exists h' p', copy_array h p n = Done (h', p') /\ agrees h h' [] /\ newptr h h' p' /\ sound_ptr h' p' v.
Proof.
  destruct p as [p|], v as [c|]; simpl; intros S Ln; try contradiction.
  - unfold alive in S. rewrite S. cbn [bind]. destruct c as [i|arr]; [contradiction|]. rewrite copyn_ok by lia. cbn [bind alloc].
    rewrite firstn_all2 by lia. eexists. eexists. split; [reflexivity|]. split; [apply agrees_alloc|].
    split; [split; rewrite app_length; simpl; lia|apply alloc_alive].
  - exists h, None. split; [reflexivity|]. split; [apply agrees_refl|]. split; [split; [lia|exact I]|exact I].
Qed.
Lemma sound_later {C} (h h' : heap C) p v : sound_ptr h p v -> agrees h h' [] -> sound_ptr h' p v.
Proof. intros S A. eapply sound_agrees; [exact S|exact A|intros _ []]. Qed.
Lemma agrees_nil_trans {C} (h h1 h2 : heap C) : agrees h h1 [] -> agrees h1 h2 [] -> agrees h h2 [].
Proof. intros A B. exact (agrees_trans h h1 h2 [] [] A B). Qed.
Lemma sound_some {C} (h : heap C) p v q : sound_ptr h p v -> p = Some q -> exists c, alive h q c.
Proof. intros S ->. destruct v as [c|]; [exists c; exact S|contradiction]. Qed.

(** three new pointers made one after the other *)
Lemma fresh_three (h h0 h1 h2 h3 hf : heap blob) fs a b c va vb vc :
  (length h <= length h0)%nat -> newptr h0 h1 a -> newptr h1 h2 b -> newptr h2 h3 c ->
  sound_ptr hf a va -> sound_ptr hf b vb -> sound_ptr hf c vc -> fresh h hf fs [a; b; c].
Proof.
  intros L [L1 N1] [L2 N2] [L3 N3] S1 S2 S3. split.
  - intros k p H. destruct k as [|[|[|k]]]; simpl in H; try (destruct k; discriminate); apply Some_inj in H; subst.
    + split; [exact (sound_some hf _ va p S1 eq_refl)|right; lia].
    + split; [exact (sound_some hf _ vb p S2 eq_refl)|right; lia].
    + split; [exact (sound_some hf _ vc p S3 eq_refl)|right; lia].
  - intros k j p H1 H2. destruct k as [|[|[|k]]]; simpl in H1; try (destruct k; discriminate);
    destruct j as [|[|[|j]]]; simpl in H2; try (destruct j; discriminate); try reflexivity;
    apply Some_inj in H1; apply Some_inj in H2; subst; simpl in *; exfalso; try discriminate; try lia;
    repeat match goal with H : Some _ = Some _ |- _ => apply Some_inj in H; subst end; simpl in *; lia.
Qed.
Lemma newptr_none {C} (h : heap C) : newptr h h None.
Proof. split; [lia|exact I]. Qed.

Lemma sstep_refines w l o l' v : srel w l -> sspec l o = Some (l', v) ->
  exists w', sstep w o = Done (w', v) /\ srel w' l'.
Proof.
  intros R E. destruct o as [n|i|i j|i|i cs|i q|i p|i obj best lo up|i]; simpl in E.
  - inversion E; subst. eexists. split; [reflexivity|]. apply srel_app; auto; [apply agrees_refl| |].
    + split; intros [|[|[|a]]]; simpl; intros; try discriminate; try (destruct a; discriminate);
      match goal with H : nth_error _ ?b = _ |- _ => destruct b as [|[|[|b]]]; simpl in H; try discriminate; try (destruct b; discriminate) end.
    + simpl. repeat (apply conj; [reflexivity|]). repeat (apply conj; [exact I|]). intros _. split; reflexivity.
  - (* copy *)
    destruct (live l i) as [r|] eqn:Li; [|discriminate]. inversion E; subst. destruct (slive w l i r R Li) as (s & S1 & S2 & D & L).
    simpl. rewrite S1. cbn [bind]. destruct D as (D1 & D2 & D3 & D4 & D5 & D6 & D7 & D8 & D9). unfold s_copy.
    destruct (copy_info_ok (sw_heap w) (so_info s) (pl_info r) D4) as (h1 & p1 & C1 & A1 & N1 & Q1). rewrite C1. cbn [bind fst snd].
    destruct (Nat.eqb (so_ncols s) 0) eqn:Qn.
    + apply Nat.eqb_eq in Qn. destruct (D9 ltac:(congruence)) as [B1 B2]. cbn [bind fst snd]. eexists. split; [reflexivity|].
      apply srel_app; auto; [|].
      * apply (fresh_three _ (sw_heap w) h1 h1 h1 h1 [] p1 None None (pl_info r) None None); auto using newptr_none; exact I.
      * simpl. rewrite B1, B2. repeat (apply conj; [assumption || exact I|]). auto.
    + rewrite D3. destruct (copy_array_ok h1 (so_best s) (pl_best r) (pl_ncols r + 1) (sound_later _ _ _ _ D5 A1) D7) as (h2 & p2 & C2 & A2 & N2 & Q2).
      rewrite C2. cbn [bind fst snd].
      destruct (copy_array_ok h2 (so_bounds s) (pl_bounds r) (2 * pl_ncols r) (sound_later _ _ _ _ D6 (agrees_nil_trans _ _ _ A1 A2)) D8) as (h3 & p3 & C3 & A3 & N3 & Q3).
      rewrite C3. cbn [bind fst snd]. eexists. split; [reflexivity|].
      assert (Q1' : sound_ptr h3 p1 (pl_info r)) by (eapply sound_later; [exact Q1|eapply agrees_nil_trans; eassumption]).
      assert (Q2' : sound_ptr h3 p2 (pl_best r)) by (eapply sound_later; [exact Q2|exact A3]).
      apply srel_app; auto.
      * eapply agrees_nil_trans; [exact A1|eapply agrees_nil_trans; eassumption].
      * apply (fresh_three _ (sw_heap w) h1 h2 h3 h3 [] p1 p2 p3 (pl_info r) (pl_best r) (pl_bounds r)); auto.
      * simpl. repeat (apply conj; [assumption || reflexivity|]). exact D9.
  - (* assignment *)
    destruct (live l i) as [r0|] eqn:Li; [|discriminate]. destruct (live l j) as [r|] eqn:Lj; [|discriminate]. inversion E; subst.
    destruct (slive w l i r0 R Li) as (t & T1 & T2 & T & L). destruct (slive w l j r R Lj) as (s & S1 & S2 & D & L2).
    simpl. rewrite T1. cbn [bind]. rewrite S1. cbn [bind]. destruct (Nat.eqb i j) eqn:Eij.
    + apply Nat.eqb_eq in Eij. subst j. rewrite Li in Lj. apply Some_inj in Lj. subst r0. eexists. split; [reflexivity|].
      assert (Pe : put l i (Some r) = l).
      { unfold live in Li. clear - Li. revert i Li. induction l as [|a l IH]; intros [|i] Li; simpl in *; try reflexivity.
        - destruct a; [congruence|discriminate].
        - rewrite IH; [reflexivity|exact Li]. }
      rewrite Pe. exact R.
    + apply Nat.eqb_neq in Eij. destruct D as (D1 & D2 & D3 & D4 & D5 & D6 & D7 & D8 & D9).
      destruct T as (_ & _ & _ & T4 & T5 & T6 & _).
      pose proof (sr_own w l R) as Ow. pose proof (proj1 Ow) as Dj.
      assert (OwT : forall a q, nth_error (sptrs t) a = Some (Some q) -> own (sfields (sw_objs w)) i a q).
      { intros a q H. exists (sptrs t). split; [exact (map_nth_err _ _ _ _ T2)|exact H]. }
      assert (OwS : forall a q, nth_error (sptrs s) a = Some (Some q) -> own (sfields (sw_objs w)) j a q).
      { intros a q H. exists (sptrs s). split; [exact (map_nth_err _ _ _ _ S2)|exact H]. }
      assert (NS : forall a p, nth_error (sptrs s) a = Some p -> p <> None -> ~ In p (sptrs t)).
      { intros a p Hp Np Ip. destruct p as [p|]; [|congruence]. apply in_field in Ip as (b & Hb).
        destruct (Dj i b j a p (OwT b p Hb) (OwS a p Hp)) as [H _]. contradiction. }
      assert (NT : forall a b p, nth_error (sptrs t) a = Some p -> nth_error (sptrs t) b = Some p -> p <> None -> a = b).
      { intros a b p H1 H2 Np. destruct p as [p|]; [|congruence]. exact (proj2 (Dj i a i b p (OwT a p H1) (OwT b p H2))). }
      unfold s_assign.
      destruct (del_sound (sw_heap w) (so_info t) (pl_info r0) T4) as (h1 & E1 & A1 & L1 & _). rewrite E1. cbn [bind].
      assert (Sub1 : forall p, In p [so_info t] -> In p (sptrs t)) by (intros p [<-|[]]; left; reflexivity).
      destruct (copy_info_ok h1 (so_info s) (pl_info r)) as (h2 & p1 & C1 & A2 & N1 & Q1).
      { eapply sound_agrees; [exact D4|exact A1|]. intros Np Ip. exact (NS 0%nat _ eq_refl Np (Sub1 _ Ip)). }
      rewrite C1. cbn [bind fst snd].
      assert (A12 : agrees (sw_heap w) h2 [so_info t]) by (eapply agrees_incl; [eapply agrees_trans; [exact A1|exact A2]|rewrite app_nil_r; apply incl_refl]).
      destruct (del_sound h2 (so_best t) (pl_best r0)) as (h3 & E3 & A3 & L3 & _).
      { eapply sound_agrees; [exact T5|exact A12|]. intros Np [Ip|[]]. pose proof (NT 0%nat 1%nat (so_best t)) as H. simpl in H. rewrite Ip in H. specialize (H eq_refl eq_refl Np). discriminate. }
      rewrite E3. cbn [bind].
      assert (A13 : agrees (sw_heap w) h3 [so_info t; so_best t]) by exact (agrees_trans _ _ _ [so_info t] [so_best t] A12 A3).
      destruct (del_sound h3 (so_bounds t) (pl_bounds r0)) as (h4 & E4 & A4 & L4 & _).
      { eapply sound_agrees; [exact T6|exact A13|]. intros Np [Ip|[Ip|[]]].
        - pose proof (NT 0%nat 2%nat (so_bounds t)) as H. simpl in H. rewrite Ip in H. specialize (H eq_refl eq_refl Np). discriminate.
        - pose proof (NT 1%nat 2%nat (so_bounds t)) as H. simpl in H. rewrite Ip in H. specialize (H eq_refl eq_refl Np). discriminate. }
      rewrite E4. cbn [bind].
      assert (A14 : agrees (sw_heap w) h4 (sptrs t)) by exact (agrees_trans _ _ _ [so_info t; so_best t] [so_bounds t] A13 A4).
      assert (Lt : forall p v, sound_ptr (sw_heap w) p v -> match p with Some q => (q < length (sw_heap w))%nat | None => True end).
      { intros p u Sp. destruct p as [q|]; [|exact I]. destruct u as [c|]; [exact (alive_lt _ _ _ Sp)|contradiction]. }
      assert (Q1' : sound_ptr h4 p1 (pl_info r)).
      { eapply sound_agrees; [eapply sound_agrees; [exact Q1|exact A3|]|exact A4|].
        - intros Np [Ip|[]]. pose proof (Lt _ _ T5) as H. rewrite Ip in H. destruct p1 as [q|]; [|congruence]. destruct N1 as [_ N1]. lia.
        - intros Np [Ip|[]]. pose proof (Lt _ _ T6) as H. rewrite Ip in H. destruct p1 as [q|]; [|congruence]. destruct N1 as [_ N1]. lia. }
      assert (N1' : newptr h1 h4 p1).
      { destruct N1 as [N1a N1b]. split; [lia|]. destruct p1 as [q|]; [|exact I]. lia. }
      destruct (Nat.eqb (so_ncols s) 0) eqn:Qn.
      * apply Nat.eqb_eq in Qn. destruct (D9 ltac:(congruence)) as [B1 B2]. cbn [bind fst snd]. eexists. split; [reflexivity|].
        eapply srel_put; [exact R|exact T2|exact A14| |].
        -- apply (fresh_three _ h1 h4 h4 h4 h4 _ p1 None None (pl_info r) None None); auto using newptr_none; try exact I. lia.
        -- simpl. rewrite B1, B2. repeat (apply conj; [assumption || exact I|]). auto.
      * rewrite D3.
        destruct (copy_array_ok h4 (so_best s) (pl_best r) (pl_ncols r + 1)) as (h5 & p2 & C2 & A5 & N2 & Q2); [|exact D7|].
        { eapply sound_agrees; [exact D5|exact A14|]. intros Np Ip. exact (NS 1%nat _ eq_refl Np Ip). }
        rewrite C2. cbn [bind fst snd].
        assert (A15 : agrees (sw_heap w) h5 (sptrs t)) by (eapply agrees_incl; [eapply agrees_trans; [exact A14|exact A5]|rewrite app_nil_r; apply incl_refl]).
        destruct (copy_array_ok h5 (so_bounds s) (pl_bounds r) (2 * pl_ncols r)) as (h6 & p3 & C3 & A6 & N3 & Q3); [|exact D8|].
        { eapply sound_agrees; [exact D6|exact A15|]. intros Np Ip. exact (NS 2%nat _ eq_refl Np Ip). }
        rewrite C3. cbn [bind fst snd]. eexists. split; [reflexivity|].
        assert (Q1'' : sound_ptr h6 p1 (pl_info r)) by (eapply sound_later; [exact Q1'|eapply agrees_nil_trans; eassumption]).
        assert (Q2' : sound_ptr h6 p2 (pl_best r)) by (eapply sound_later; [exact Q2|exact A6]).
        eapply srel_put; [exact R|exact T2| | |].
        -- eapply agrees_incl; [eapply agrees_trans; [exact A15|exact A6]|rewrite app_nil_r; apply incl_refl].
        -- apply (fresh_three _ h1 h4 h5 h6 h6 _ p1 p2 p3 (pl_info r) (pl_best r) (pl_bounds r)); auto. lia.
        -- simpl. repeat (apply conj; [assumption || reflexivity|]). exact D9.
  - (* destruction *)
    destruct (live l i) as [r0|] eqn:Li; [|discriminate]. inversion E; subst.
    destruct (slive w l i r0 R Li) as (t & T1 & T2 & T & L). simpl. rewrite T1. cbn [bind]. unfold s_destroy.
    destruct T as (_ & _ & _ & T4 & T5 & T6 & _). pose proof (proj1 (sr_own w l R)) as Dj.
    assert (NT : forall a b p, nth_error (sptrs t) a = Some p -> nth_error (sptrs t) b = Some p -> p <> None -> a = b).
    { intros a b p H1 H2 Np. destruct p as [p|]; [|congruence].
      exact (proj2 (Dj i a i b p (ex_intro _ (sptrs t) (conj (map_nth_err _ _ _ _ T2) H1)) (ex_intro _ (sptrs t) (conj (map_nth_err _ _ _ _ T2) H2)))). }
    destruct (del_sound (sw_heap w) (so_info t) (pl_info r0) T4) as (h1 & E1 & A1 & L1 & _). rewrite E1. cbn [bind].
    destruct (del_sound h1 (so_best t) (pl_best r0)) as (h3 & E3 & A3 & L3 & _).
    { eapply sound_agrees; [exact T5|exact A1|]. intros Np [Ip|[]]. pose proof (NT 0%nat 1%nat (so_best t)) as H. simpl in H. rewrite Ip in H. specialize (H eq_refl eq_refl Np). discriminate. }
    rewrite E3. cbn [bind].
    assert (A13 : agrees (sw_heap w) h3 [so_info t; so_best t]) by exact (agrees_trans _ _ _ [so_info t] [so_best t] A1 A3).
    destruct (del_sound h3 (so_bounds t) (pl_bounds r0)) as (h4 & E4 & A4 & L4 & _).
    { eapply sound_agrees; [exact T6|exact A13|]. intros Np [Ip|[Ip|[]]].
      - pose proof (NT 0%nat 2%nat (so_bounds t)) as H. simpl in H. rewrite Ip in H. specialize (H eq_refl eq_refl Np). discriminate.
      - pose proof (NT 1%nat 2%nat (so_bounds t)) as H. simpl in H. rewrite Ip in H. specialize (H eq_refl eq_refl Np). discriminate. }
    rewrite E4. cbn [bind]. eexists. split; [reflexivity|]. eapply srel_none; [exact R|exact T2|].
    exact (agrees_trans _ _ _ [so_info t; so_best t] [so_bounds t] A13 A4).
  - (* adding cuts *)
    destruct (live l i) as [r|] eqn:Li; [|discriminate]. inversion E; subst. destruct (slive w l i r R Li) as (s & S1 & S2 & D & L).
    simpl. rewrite S1. cbn [bind]. eexists. split; [reflexivity|]. destruct D as (D1 & D2 & D3 & D4 & D5 & D6 & D7).
    eapply srel_put; [exact R|exact S2|apply agrees_refl| |].
    + split.
      * intros a p H. split; [|left; exact (nth_error_In _ _ H)]. apply (proj2 (sr_own w l R) i a p). exists (sptrs s). split; [exact (map_nth_err _ _ _ _ S2)|exact H].
      * intros a b p H1 H2. exact (proj2 (proj1 (sr_own w l R) i a i b p (ex_intro _ (sptrs s) (conj (map_nth_err _ _ _ _ S2) H1)) (ex_intro _ (sptrs s) (conj (map_nth_err _ _ _ _ S2) H2)))).
    + simpl. rewrite D2. repeat (apply conj; [assumption || reflexivity|]). exact D7.
  - destruct (live l i) as [r|] eqn:Li; [|discriminate]. inversion E; subst. destruct (slive w l i r R Li) as (s & S1 & S2 & D & L).
    simpl. rewrite S1. cbn [bind]. eexists. split; [reflexivity|]. destruct D as (D1 & D2 & D3 & D4 & D5 & D6 & D7).
    eapply srel_put; [exact R|exact S2|apply agrees_refl| |].
    + split.
      * intros a p H. split; [|left; exact (nth_error_In _ _ H)]. apply (proj2 (sr_own w l R) i a p). exists (sptrs s). split; [exact (map_nth_err _ _ _ _ S2)|exact H].
      * intros a b p H1 H2. exact (proj2 (proj1 (sr_own w l R) i a i b p (ex_intro _ (sptrs s) (conj (map_nth_err _ _ _ _ S2) H1)) (ex_intro _ (sptrs s) (conj (map_nth_err _ _ _ _ S2) H2)))).
    + simpl. repeat (apply conj; [assumption || reflexivity|]). exact D7.
  - (* probing information *)
    destruct (live l i) as [r|] eqn:Li; [|discriminate]. inversion E; subst. destruct (slive w l i r R Li) as (s & S1 & S2 & D & L).
    simpl. rewrite S1. cbn [bind]. eexists. split; [reflexivity|]. destruct D as (D1 & D2 & D3 & D4 & D5 & D6 & D7).
    set (h' := sw_heap w ++ [Some (BInfo p)]). assert (A : agrees (sw_heap w) h' []) by apply agrees_alloc.
    eapply srel_put; [exact R|exact S2|eapply agrees_incl; [exact A|intros x []]| |].
    + split.
      * intros a q H. destruct a as [|a].
        -- simpl in H. apply Some_inj in H. apply Some_inj in H. subst. split; [exists (BInfo p); apply alloc_alive|right; lia].
        -- assert (H' : nth_error (sptrs s) (S a) = Some (Some q)) by exact H.
           split; [|left; exact (nth_error_In _ _ H')]. destruct (proj2 (sr_own w l R) i (S a) q) as (c & Hc).
           ++ exists (sptrs s). split; [exact (map_nth_err _ _ _ _ S2)|exact H'].
           ++ exists c. unfold alive. rewrite (proj2 A); [exact Hc|exact (alive_lt _ _ _ Hc)|intros []].
      * assert (Old : forall a q, nth_error (sptrs s) (S a) = Some (Some q) -> (q < length (sw_heap w))%nat).
        { intros a q H'. destruct (proj2 (sr_own w l R) i (S a) q) as (c & Hc); [|exact (alive_lt _ _ _ Hc)].
          exists (sptrs s). split; [exact (map_nth_err _ _ _ _ S2)|exact H']. }
        intros a b q H1 H2. destruct a as [|a], b as [|b]; [reflexivity| | |].
        -- simpl in H1. apply Some_inj in H1. apply Some_inj in H1. subst q. specialize (Old b _ H2). lia.
        -- simpl in H2. apply Some_inj in H2. apply Some_inj in H2. subst q. specialize (Old a _ H1). lia.
        -- exact (proj2 (proj1 (sr_own w l R) i (S a) i (S b) q (ex_intro _ (sptrs s) (conj (map_nth_err _ _ _ _ S2) H1)) (ex_intro _ (sptrs s) (conj (map_nth_err _ _ _ _ S2) H2)))).
    + simpl. repeat (apply conj; [assumption || reflexivity|]).
      split; [apply alloc_alive|]. split; [exact (sound_later _ _ _ _ D5 A)|]. split; [exact (sound_later _ _ _ _ D6 A)|exact D7].
  - (* saveStuff *)
    destruct (live l i) as [r|] eqn:Li; [|discriminate]. destruct (slive w l i r R Li) as (t & T1 & T2 & T & L).
    match type of E with (if ?c then _ else _) = _ => destruct c eqn:Qc end; [|discriminate]. inversion E; subst. clear E.
    apply andb_true_iff in Qc as [Qc Qb]. apply andb_true_iff in Qc as [Qc Qu]. apply andb_true_iff in Qc as [Qn Ql].
    apply Nat.ltb_lt in Qn. unfold long in *. apply Nat.leb_le in Ql. apply Nat.leb_le in Qu.
    simpl. rewrite T1. cbn [bind]. unfold s_save.
    destruct T as (D1 & D2 & D3 & T4 & T5 & T6 & D7 & D8 & D9). rewrite D3.
    assert (Qz : Nat.eqb (pl_ncols r) 0 = false) by (apply Nat.eqb_neq; lia). rewrite Qz.
    pose proof (proj1 (sr_own w l R)) as Dj.
    assert (NT : forall a b p, nth_error (sptrs t) a = Some p -> nth_error (sptrs t) b = Some p -> p <> None -> a = b).
    { intros a b p H1 H2 Np. destruct p as [p|]; [|congruence].
      exact (proj2 (Dj i a i b p (ex_intro _ (sptrs t) (conj (map_nth_err _ _ _ _ T2) H1)) (ex_intro _ (sptrs t) (conj (map_nth_err _ _ _ _ T2) H2)))). }
    destruct (del_sound (sw_heap w) (so_best t) (pl_best r) T5) as (h1 & E1 & A1 & L1 & _). rewrite E1. cbn [bind].
    destruct (del_sound h1 (so_bounds t) (pl_bounds r)) as (h2 & E2 & A2 & L2 & _).
    { eapply sound_agrees; [exact T6|exact A1|]. intros Np [Ip|[]]. pose proof (NT 1%nat 2%nat (so_bounds t)) as H. simpl in H. rewrite Ip in H. specialize (H eq_refl eq_refl Np). discriminate. }
    rewrite E2. cbn [bind].
    assert (A12 : agrees (sw_heap w) h2 [so_best t; so_bounds t]) by exact (agrees_trans _ _ _ [so_best t] [so_bounds t] A1 A2).
    set (vb := match best with Some b => Some (BArr (firstn (pl_ncols r) b ++ [obj])) | None => None end).
    assert (Best : exists h3 p2, (match best with
             | Some l0 => do c <- copyn l0 (pl_ncols r); Done (alloc h2 (BArr (c ++ [obj])))
             | None => Done (h2, None) end) = Done (h3, p2) /\ agrees h2 h3 [] /\ newptr h2 h3 p2 /\ sound_ptr h3 p2 vb /\ arr_len vb (pl_ncols r + 1)).
    { unfold vb. destruct best as [b|].
      - apply Nat.leb_le in Qb. rewrite copyn_ok by exact Qb. cbn [bind alloc]. eexists. eexists. split; [reflexivity|]. split; [apply agrees_alloc|].
        split; [split; rewrite app_length; simpl; lia|]. split; [apply alloc_alive|]. simpl. rewrite app_length, firstn_length_le by exact Qb. reflexivity.
      - exists h2, None. split; [reflexivity|]. split; [apply agrees_refl|]. split; [apply newptr_none|]. split; exact I. }
    destruct Best as (h3 & p2 & C2 & A3 & N2 & Q2 & B2). rewrite C2. cbn [bind fst snd].
    rewrite (copyn_ok lo) by exact Ql. cbn [bind]. rewrite (copyn_ok up) by exact Qu. cbn [bind alloc fst snd].
    eexists. split; [reflexivity|].
    set (arr := BArr (firstn (pl_ncols r) lo ++ firstn (pl_ncols r) up)). set (h4 := h3 ++ [Some arr]).
    assert (A4 : agrees h3 h4 []) by apply agrees_alloc.
    assert (A24 : agrees (sw_heap w) h4 [so_best t; so_bounds t]).
    { eapply agrees_incl; [eapply agrees_trans; [exact A12|eapply agrees_nil_trans; [exact A3|exact A4]]|rewrite app_nil_r; apply incl_refl]. }
    assert (Q1 : sound_ptr h4 (so_info t) (pl_info r)).
    { eapply sound_agrees; [exact T4|exact A24|]. intros Np [Ip|[Ip|[]]].
      - pose proof (NT 0%nat 1%nat (so_info t)) as H. simpl in H. rewrite Ip in H. specialize (H eq_refl eq_refl Np). discriminate.
      - pose proof (NT 0%nat 2%nat (so_info t)) as H. simpl in H. rewrite Ip in H. specialize (H eq_refl eq_refl Np). discriminate. }
    assert (Q2' : sound_ptr h4 p2 vb) by exact (sound_later _ _ _ _ Q2 A4).
    assert (Q3 : sound_ptr h4 (Some (length h3)) (Some arr)) by apply alloc_alive.
    eapply srel_put; [exact R|exact T2| | |].
    + eapply agrees_incl; [exact A24|]. intros p Ip. right. exact Ip.
    + assert (L3 : (length h2 <= length h3)%nat) by apply N2.
      split.
      * intros a p H. destruct a as [|[|[|a]]]; simpl in H; try (destruct a; discriminate); apply Some_inj in H.
        -- split; [exact (sound_some _ _ _ _ Q1 H)|left; left; exact H].
        -- subst p2. split; [exact (sound_some _ _ _ _ Q2' eq_refl)|right; destruct N2; lia].
        -- apply Some_inj in H. subst p. split; [exists arr; exact Q3|right; lia].
      * assert (LI : forall q, so_info t = Some q -> (q < length (sw_heap w))%nat).
        { intros q H. destruct (sound_some _ _ _ _ T4 H) as (c & Hc). exact (alive_lt _ _ _ Hc). }
        intros a b p H1 H2. destruct a as [|[|[|a]]]; simpl in H1; try (destruct a; discriminate);
        destruct b as [|[|[|b]]]; simpl in H2; try (destruct b; discriminate); try reflexivity; exfalso;
        apply Some_inj in H1; apply Some_inj in H2; subst; simpl in N2; destruct N2 as [N2a N2b];
        repeat match goal with H : Some _ = Some _ |- _ => apply Some_inj in H; subst end;
        repeat match goal with H : so_info t = Some _ |- _ => apply LI in H end; simpl in *; lia.
    + simpl. repeat (apply conj; [assumption || reflexivity|]). split; [|intro Z; lia].
      rewrite app_length, !firstn_length_le by assumption. lia.
  - destruct (live l i) as [r|] eqn:Li; [|discriminate]. inversion E; subst. destruct (slive w l' i r R Li) as (s & S1 & S2 & D & L).
    simpl. rewrite S1. cbn [bind]. destruct D as (D1 & D2 & D3 & D4 & D5 & D6 & _). unfold s_look.
    rewrite (read_sound _ _ _ D4). cbn [bind]. rewrite (read_sound _ _ _ D5). cbn [bind]. rewrite (read_sound _ _ _ D6). cbn [bind].
    rewrite D1, D2, D3. exists w. split; [destruct r; reflexivity|exact R].
Qed.
Lemma srun_refines : forall ops w l l' vs, srel w l -> sspecs l ops = Some (l', vs) ->
  exists w', srun w ops = Done (w', vs) /\ srel w' l'.
Proof.
  induction ops as [|o ops IH]; intros w l l' vs R E; simpl in E.
  - inversion E; subst. exists w. split; [reflexivity|exact R].
  - destruct (sspec l o) as [[l1 v]|] eqn:E1; [|discriminate]. destruct (sspecs l1 ops) as [[l2 vs2]|] eqn:E2; [|discriminate].
    inversion E; subst. destruct (sstep_refines w l o l1 v R E1) as (w1 & S1 & R1). destruct (IH w1 l1 l' vs2 R1 E2) as (w2 & S2 & R2).
    exists w2. split; [|exact R2]. simpl. rewrite S1. cbn [bind fst snd]. rewrite S2. reflexivity.
Qed.

(** Every history of creating, copying, assigning, changing, reading and
    destroying cut pools behaves as if each pool were a plain value. *)
Theorem C28_pools_are_values ops l vs : sspecs [] ops = Some (l, vs) ->
  exists w, srun (SW [] []) ops = Done (w, vs).
Proof.
  intro E. assert (R0 : srel (SW [] []) []).
  { constructor; cbn; [constructor|]. split; intros i a; [intros j b p (fs & H & _)|intros p (fs & H & _)]; destruct i; discriminate. }
  destruct (srun_refines ops _ _ _ _ R0 E) as (w & S & _). exists w. exact S.
Qed.
(** the same for knapsack cover generators *)
Theorem C28_knapsack_covers_are_values ops l vs : kspecs [] ops = Some (l, vs) ->
  exists w, krun (KW [] []) ops = Done (w, vs).
Proof. intro E. destruct (C23_knapsack_memory ops l vs E) as (w & S & _). exists w. exact S. Qed.
(** a pool built for no columns aborts when asked to save a solution *)
Theorem C28_save_without_columns : srun (SW [] []) [SNew 0; SSave 0 0 None [] []] = Aborts.
Proof. vm_compute. reflexivity. Qed.
Local Open Scope Q_scope.
Example C28_example : exists l w p q,
  let ops := [SNew 2; SAdd 0 [RowCut [(0%nat, 1)] None (Some 1)]; SSave 0 5 (Some [1; 0]) [0; 0] [1; 1]; SCopy 0;
              SAdd 0 [RowCut [(1%nat, 1)] None (Some 0)]; SSave 0 4 None [0; 0] [1; 0]; SLook 0; SLook 1;
              SAssign 0 1; SDestroy 1; SLook 0] in
  sspecs [] ops = Some (l, [p; q; q]) /\ srun (SW [] []) ops = Done (w, [p; q; q]) /\
  length (pl_cuts p) = 2%nat /\ length (pl_cuts q) = 1%nat /\ pl_best p = None /\ pl_best q = Some (BArr [1; 0; 5]).
Proof. eexists. eexists. eexists. eexists. cbv zeta. conjs; vm_compute; reflexivity. Qed.
Print Assumptions C28_pools_are_values.
Print Assumptions C28_knapsack_covers_are_values.
