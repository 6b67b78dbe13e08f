(** Lemmas about the preprocessing model. *)
From Coq Require Import List Bool Arith Permutation Lia.
From Verif Require Import FloatBase MuModel NlpModel NlpSpec PackModel PackSpec PackProofs.
Import ListNotations.

Lemma counts_app {A} (P : A -> Prop) l1 l2 n1 n2 : counts P l1 n1 -> counts P l2 n2 -> counts P (l1 ++ l2) (n1 + n2).
Proof. intros H H2. induction H; simpl; auto; constructor; auto. Qed.
Lemma counts_fun {A} (P : A -> Prop) l n m : counts P l n -> counts P l m -> n = m.
Proof. intro H. revert m. induction H; intros m Hm; inversion Hm; subst; auto; tauto. Qed.
Lemma counts_filter {A} (P : A -> Prop) (p : A -> bool) : (forall a, p a = true <-> P a) ->
  forall l, counts P l (length (filter p l)).
Proof.
  intros HP l. induction l as [|a l IH]; simpl; [constructor|].
  destruct (p a) eqn:E; simpl; constructor; auto.
  - apply HP; auto.
  - intro H. apply HP in H. congruence.
Qed.

(** the bounds loop *)
Definition lowp (e : b64 * b64) := has_low (fst e).
Definition uppp (e : b64 * b64) := has_upp (snd e).
Definition fixp (tol : b64) (e : b64 * b64) := has_upp (snd e) && close_bnds tol (fst e) (snd e).

Lemma if_len {A} (b : bool) (a : A) l n : n + (if b then 1 else 0) + length l = n + length (if b then a :: l else l).
Proof. destruct b; simpl; lia. Qed.

Lemma bounds_loop tol xs : forall s, fold_left (bnds_step tol) xs s =
  Bnds (b_ixl s ++ map (fun e => ind (lowp e)) xs) (b_ixu s ++ map (fun e => ind (uppp e)) xs)
       (b_low s + length (filter lowp xs)) (b_upp s + length (filter uppp xs))
       (b_lu s + length (filter (fun e => lowp e && uppp e) xs))
       (b_fix s + length (filter (fixp tol) xs)).
Proof.
  induction xs as [|[l u] xs IH]; intro s.
  - simpl. rewrite !app_nil_r, !Nat.add_0_r. destruct s; reflexivity.
  - cbn [fold_left]. rewrite IH. cbn [bnds_step b_ixl b_ixu b_low b_upp b_lu b_fix map filter].
    rewrite <- !app_assoc. cbn [app]. unfold lowp, uppp, fixp. cbn [fst snd].
    f_equal; try apply if_len. destruct (has_low l), (has_upp u); simpl; lia.
Qed.

Lemma ineq_loop xs : forall s, fold_left ineq_step xs s =
  Bnds (b_ixl s ++ map (fun e => ind (lowp e)) xs) (b_ixu s ++ map (fun e => ind (uppp e)) xs)
       (b_low s + length (filter lowp xs)) (b_upp s + length (filter uppp xs))
       (b_lu s + length (filter (fun e => lowp e && uppp e) xs)) (b_fix s).
Proof.
  induction xs as [|[l u] xs IH]; intro s.
  - simpl. rewrite !app_nil_r, !Nat.add_0_r. destruct s; reflexivity.
  - cbn [fold_left]. rewrite IH. cbn [ineq_step b_ixl b_ixu b_low b_upp b_lu b_fix map filter].
    rewrite <- !app_assoc. cbn [app]. unfold lowp, uppp. cbn [fst snd].
    f_equal; try apply if_len. destruct (has_low l), (has_upp u); simpl; lia.
Qed.

Lemma marks_map {A} (P : A -> Prop) (p : A -> bool) xs : (forall a, p a = true <-> P a) ->
  marks_exactly P xs (map (fun e => ind (p e)) xs).
Proof.
  intro HP. split; [apply map_length|]. intros i a Hi. rewrite (map_nth_error _ _ _ Hi).
  split; intro H.
  - apply HP in H. rewrite H. reflexivity.
  - destruct (p a) eqn:E; [|reflexivity]. apply HP in E. tauto.
Qed.

Lemma lowp_ok e : lowp e = true <-> finite_low (fst e).
Proof. reflexivity. Qed.
Lemma uppp_ok e : uppp e = true <-> finite_upp (snd e).
Proof. reflexivity. Qed.
Lemma lup_ok e : lowp e && uppp e = true <-> finite_low (fst e) /\ finite_upp (snd e).
Proof. rewrite andb_true_iff. reflexivity. Qed.
Lemma fixp_ok tol e : fixp tol e = true <-> fixed_pair tol (fst e) (snd e).
Proof. unfold fixp. rewrite andb_true_iff. reflexivity. Qed.

Lemma all_ranks_spec tol ranks :
  all_ranks tol ranks = (length (filter lowp (concat ranks)), length (filter uppp (concat ranks)),
    length (filter (fun e => lowp e && uppp e) (concat ranks)), length (filter (fixp tol) (concat ranks))).
Proof.
  unfold all_ranks.
  enough (G : forall a b c d, fold_left (fun '(a, b, c, d) xs =>
     let s := process_bounds tol xs in (a + b_low s, b + b_upp s, c + b_lu s, d + b_fix s)) ranks (a, b, c, d) =
     (a + length (filter lowp (concat ranks)), b + length (filter uppp (concat ranks)),
      c + length (filter (fun e => lowp e && uppp e) (concat ranks)), d + length (filter (fixp tol) (concat ranks))))
    by (rewrite G; reflexivity).
  induction ranks as [|xs ranks IH]; intros a b c d; cbn [fold_left concat].
  - simpl. rewrite !Nat.add_0_r. reflexivity.
  - cbn zeta. rewrite IH. unfold process_bounds. rewrite bounds_loop. cbn [b_low b_upp b_lu b_fix bnds0].
    rewrite !filter_app, !app_length, !Nat.add_0_l, !Nat.add_assoc. reflexivity.
Qed.

(** splitting *)
Section Split.
Context {k : Type}.
Notation con := (b64 * b64 * k)%type.
Definition eqp (e : con) : bool := let '(l, u, _) := e in feq l u.
(** positions, counted from [i], of the constraints with tag [b] *)
Fixpoint pos (b : bool) (i : nat) (g : list con) : list nat :=
  match g with [] => [] | e :: g' => (if Bool.eqb (eqp e) b then [i] else []) ++ pos b (S i) g' end.
Definition lo (e : con) : b64 := fst (fst e).
Definition up (e : con) : b64 := snd (fst e).

Lemma count_eq_spec (g : list con) :
  count_eq g = (length (filter eqp g), length (filter (fun e => negb (eqp e)) g)).
Proof.
  unfold count_eq. enough (G : forall a b, fold_left (fun '(a, b) '((l, u, _) : con) => if feq l u then (S a, b) else (a, S b)) g (a, b)
     = (a + length (filter eqp g), b + length (filter (fun e => negb (eqp e)) g))) by (rewrite G; reflexivity).
  induction g as [|[[l u] t] g IH]; intros a b; simpl; [rewrite !Nat.add_0_r; reflexivity|].
  destruct (feq l u); rewrite IH; simpl; f_equal; lia.
Qed.

Lemma push_ok {A} cap (l : list A) a : length l < cap -> push cap l a = Some (l ++ [a]).
Proof. intro H. unfold push. apply Nat.ltb_lt in H. rewrite H. reflexivity. Qed.

Definition ne (e : con) : bool := negb (eqp e).

Lemma split_loop_spec neq nin (g : list con) : forall i s,
  length (s_rhs s) + length (filter eqp g) <= neq -> length (s_eqt s) = length (s_rhs s) ->
  length (s_eqm s) = length (s_rhs s) -> length (s_dl s) + length (filter ne g) <= nin ->
  length (s_du s) = length (s_dl s) -> length (s_int s) = length (s_dl s) -> length (s_inm s) = length (s_dl s) ->
  split_loop neq nin i g s = Some (SplitSt
    (s_rhs s ++ map lo (filter eqp g)) (s_eqt s ++ map snd (filter eqp g)) (s_eqm s ++ pos true i g)
    (s_dl s ++ map lo (filter ne g)) (s_du s ++ map up (filter ne g)) (s_int s ++ map snd (filter ne g))
    (s_inm s ++ pos false i g)).
Proof.
  induction g as [|[[l u] t] g IH]; intros i s H1 H2 H3 H4 H5 H6 H7.
  - simpl. rewrite !app_nil_r. destruct s; reflexivity.
  - cbn [split_loop pos filter]. unfold ne. cbn [eqp] in *. destruct (feq l u) eqn:E; cbn [filter eqp length negb] in *.
    + unfold ne in H4. cbn [eqp negb] in H4. cbn [filter eqp] in H1. rewrite E in H1, H4. cbn [negb length] in *.
      rewrite !push_ok by lia. rewrite IH; cbn [s_rhs s_eqt s_eqm s_dl s_du s_int s_inm]; rewrite ?app_length; cbn [length]; try lia.
      2: { unfold ne. lia. }
      unfold ne. rewrite <- !app_assoc. cbn [app Bool.eqb map lo snd fst]. reflexivity.
    + unfold ne in H4. cbn [filter eqp negb] in H1, H4. rewrite E in H1, H4. cbn [negb length] in *.
      rewrite !push_ok by lia. rewrite IH; cbn [s_rhs s_eqt s_eqm s_dl s_du s_int s_inm]; rewrite ?app_length; cbn [length]; try lia.
      2: { unfold ne. lia. }
      unfold ne. rewrite <- !app_assoc. cbn [app Bool.eqb map lo up snd fst]. reflexivity.
Qed.

Lemma pos_len b g : forall i, length (pos b i g) = length (filter (fun e => Bool.eqb (eqp e) b) g).
Proof. induction g as [|e g IH]; intro i; simpl; auto. destruct (Bool.eqb (eqp e) b); simpl; rewrite IH; auto. Qed.
Lemma filt_t (g : list con) : filter (fun e => Bool.eqb (eqp e) true) g = filter eqp g.
Proof. apply filter_ext. intro e. destruct (eqp e); reflexivity. Qed.
Lemma filt_f (g : list con) : filter (fun e => Bool.eqb (eqp e) false) g = filter ne g.
Proof. apply filter_ext. intro e. unfold ne. destruct (eqp e); reflexivity. Qed.

Lemma pos_in b g : forall i j, In j (pos b i g) <-> exists e, i <= j /\ nth_error g (j - i) = Some e /\ eqp e = b.
Proof.
  induction g as [|e g IH]; intros i j; simpl.
  - split; [tauto|]. intros (e & _ & H & _). destruct (j - i); discriminate.
  - rewrite in_app_iff, IH. split.
    + intros [H|(e' & H1 & H2 & H3)].
      * destruct (Bool.eqb (eqp e) b) eqn:E; [|contradiction]. destruct H as [<-|[]].
        exists e. rewrite Nat.sub_diag. apply eqb_prop in E. auto.
      * exists e'. split; [lia|]. replace (j - i) with (S (j - S i)) by lia. auto.
    + intros (e' & H1 & H2 & H3). destruct (Nat.eq_dec j i) as [->|N].
      * left. rewrite Nat.sub_diag in H2. injection H2 as ->. rewrite H3, eqb_reflx. left; auto.
      * right. exists e'. split; [lia|]. replace (j - i) with (S (j - S i)) in H2 by lia. auto.
Qed.

Lemma pos_incr b g : forall i, increasing (pos b i g).
Proof.
  assert (LB : forall g i j, In j (pos b i g) -> i <= j) by (intros g' i j H; apply pos_in in H as (e & H & _); auto).
  induction g as [|e g IH]; intros i j m a c H1 H2 H3; simpl in *.
  - destruct j; discriminate.
  - destruct (Bool.eqb (eqp e) b); simpl in *; [|eapply IH; eauto].
    destruct m as [|m]; [lia|]. destruct j as [|j]; simpl in *.
    + injection H2 as <-. apply nth_error_In, LB in H3. lia.
    + eapply (IH (S i) j m); eauto; lia.
Qed.

Lemma pos_compl (g : list con) : forall i, Permutation (pos true i g ++ pos false i g) (seq i (length g)).
Proof.
  induction g as [|e g IH]; intro i; simpl; auto.
  destruct (eqp e); simpl.
  - constructor. apply IH.
  - rewrite <- Permutation_middle. constructor. apply IH.
Qed.

Lemma pos_follows {B} b (f : con -> B) (g0 g : list con) : forall i,
  (forall j, nth_error g0 (i + j) = nth_error g j) ->
  follows g0 (pos b i g) f (map f (filter (fun e => Bool.eqb (eqp e) b) g)).
Proof.
  induction g as [|e g IH]; intros i HG.
  - split; auto. intros [|j] m H; discriminate.
  - assert (HT : forall j, nth_error g0 (S i + j) = nth_error g j).
    { intro j. etransitivity; [|exact (HG (S j))]. f_equal. lia. }
    destruct (IH (S i) HT) as [L N]. simpl. destruct (Bool.eqb (eqp e) b) eqn:E; simpl; [|split; auto].
    split; [simpl; lia|]. intros [|j] m H; simpl in *.
    + injection H as <-. exists e. split; auto. etransitivity; [|exact (HG 0)]. f_equal. lia.
    + apply N; auto.
Qed.

Lemma process_spec (g : list con) : process_constraints g = Some (Cons
   (length (filter eqp g)) (length (filter ne g))
   (SplitSt (map lo (filter eqp g)) (map snd (filter eqp g)) (pos true 0 g)
            (map lo (filter ne g)) (map up (filter ne g)) (map snd (filter ne g)) (pos false 0 g))
   (fold_left ineq_step (combine (map lo (filter ne g)) (map up (filter ne g))) bnds0)).
Proof.
  unfold process_constraints. rewrite count_eq_spec. fold (@ne).
  change (fun e : con => negb (eqp e)) with ne.
  rewrite split_loop_spec by (cbn; lia).
  cbn [s_rhs s_eqt s_eqm s_dl s_du s_int s_inm app].
  rewrite !map_length, !Nat.eqb_refl. reflexivity.
Qed.
End Split.
Lemma combine_map {A B C} (f : A -> B) (h : A -> C) l : combine (map f l) (map h l) = map (fun a => (f a, h a)) l.
Proof. induction l; simpl; congruence. Qed.
