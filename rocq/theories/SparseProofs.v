From Coq Require Import List Bool Arith Lia Ring Field Sorted.
From Verif Require Import RingKit PackModel PackProofs SparseModel SparseSpec.
Import ListNotations.

Section P.
Variable K : cfield.
Add Field kf : (fth K).
Notation entry := (entry K).

Lemma row_mk i j (v : K) : row ((i, j, v) : entry) = i. Proof. reflexivity. Qed.
Lemma col_mk i j (v : K) : col ((i, j, v) : entry) = j. Proof. reflexivity. Qed.
Lemma val_mk i j (v : K) : val ((i, j, v) : entry) = v. Proof. reflexivity. Qed.

(** * Accumulating writes *)
Definition hits (p : nat) (ups : list (nat * K)) : K :=
  lsum (map (fun u => if fst u =? p then snd u else f0) ups).

Lemma addat_spec (a : list K) p v : p < length a -> exists a', addat K a p v = Some a' /\
  length a' = length a /\ forall q, nth q a' f0 = nth q a f0 +! (if p =? q then v else f0).
Proof.
  intro H. unfold addat. destruct (nth_error a p) as [x|] eqn:E.
  2:{ apply nth_error_None in E. lia. }
  assert (Hu := upd_spec _ a p (x +! v) H). eexists. split; [exact Hu|].
  destruct (upd_len _ _ _ _ _ Hu) as [Hl _]. split; auto.
  intro q. assert (Hq := upd_nth _ _ _ _ _ Hu q).
  destruct (Nat.eqb_spec p q) as [->|Hn].
  - rewrite Nat.eqb_refl in Hq. rewrite (nth_error_nth _ _ _ Hq), (nth_error_nth _ _ _ E). reflexivity.
  - destruct (Nat.eqb_spec q p); [lia|]. 
    destruct (nth_error a q) as [y|] eqn:Eq.
    + rewrite (nth_error_nth _ _ _ Hq), (nth_error_nth _ _ _ Eq). ring.
    + apply nth_error_None in Eq. apply nth_error_None in Hq. rewrite !nth_overflow by auto. ring.
Qed.

Definition addp (u : nat * K) (a : list K) : option (list K) := addat K a (fst u) (snd u).
Lemma acc_spec ups : forall a, (forall u, In u ups -> fst u < length a) -> exists a',
  ofold addp ups a = Some a' /\ length a' = length a /\ forall q, nth q a' f0 = nth q a f0 +! hits q ups.
Proof.
  induction ups as [|[p v] ups IH]; intros a H; simpl.
  - exists a. split; auto. split; auto. intro q. unfold hits. simpl. ring.
  - destruct (addat_spec a p v) as [a1 [E [L N]]]; [apply (H (p, v)); left; auto|].
    unfold addp at 1. simpl. rewrite E. destruct (IH a1) as [a2 [E2 [L2 N2]]].
    + intros u Hu. rewrite L. apply H. right. auto.
    + exists a2. split; auto. split; [congruence|]. intro q. rewrite N2, N. unfold hits. simpl. ring.
Qed.

Lemma nth_map_err {A B} (f : A -> B) (l : list A) i d d' : i < length l -> nth i (map f l) d' = f (nth i l d).
Proof. revert i. induction l as [|x l IH]; intros [|i] H; simpl in *; try lia; auto. apply IH. lia. Qed.
Lemma nth_err_at (x : list K) i : i < length x -> nth_error x i = Some (at_ x i).
Proof. intro H. unfold at_. apply nth_error_nth'. auto. Qed.

(** * Matrix-vector products *)
Lemma mat_times (l : list entry) (x : nat -> K) n i : (forall e, In e l -> col e < n) ->
  sumn n (fun j => mat l i j *! x j) = lsum (map (fun e => if row e =? i then val e *! x (col e) else f0) l).
Proof.
  intro H. unfold mat. unfold sumn.
  rewrite (lsum_ext _ _ (fun j => lsum (map (fun e => (if (row e =? i) && (col e =? j) then val e else f0) *! x j) l))).
  2:{ intros j _. symmetry. apply lsum_scale_r. }
  rewrite lsum_swap. apply lsum_ext. intros e He.
  destruct (row e =? i); simpl.
  - rewrite (lsum_ext _ _ (fun j => if col e =? j then val e *! x j else f0)).
    + apply (sumn_pick _ (fun j => val e *! x j)). auto.
    + intros j _. destruct (col e =? j); ring.
  - apply lsum_zero. intros. ring.
Qed.
Lemma mat_trans (l : list entry) i j : mat (map (fun e => (col e, row e, val e)) l) i j = mat l j i.
Proof.
  unfold mat. rewrite map_map. apply lsum_ext. intros e _. simpl. unfold row, col, val. simpl.
  rewrite andb_comm. reflexivity.
Qed.
Lemma mat_times_trans (l : list entry) (x : nat -> K) m j : (forall e, In e l -> row e < m) ->
  sumn m (fun i => mat l i j *! x i) = lsum (map (fun e => if col e =? j then val e *! x (row e) else f0) l).
Proof.
  intro H. rewrite (sumn_ext _ _ _ (fun i => mat (map (fun e => (col e, row e, val e)) l) j i *! x i)).
  2:{ intros i _. rewrite mat_trans. reflexivity. }
  rewrite mat_times.
  - rewrite map_map. reflexivity.
  - intros e He. apply in_map_iff in He. destruct He as [e' [<- He]]. unfold col. simpl. apply (H e' He).
Qed.

Lemma times_vec_spec A beta (y : list K) alpha (x : list K) :
  wf A -> length x = t_n A -> length y = t_m A ->
  exists y', times_vec K A beta y alpha x = Some y' /\ length y' = t_m A /\
    forall i, i < t_m A -> at_ y' i = beta *! at_ y i +! alpha *! sumn (t_n A) (fun j => mat (t_ent A) i j *! at_ x j).
Proof.
  intros Hw Hx Hy. unfold times_vec. rewrite Hx, Hy, !Nat.eqb_refl. simpl.
  rewrite (ofold_ext _ (fun e => addp ((fun e => (row e, alpha *! at_ x (col e) *! val e)) e))).
  2:{ intros e s He. destruct (Hw e He) as [H1 H2]. apply Nat.ltb_lt in H1, H2. rewrite H1, H2. simpl.
      apply Nat.ltb_lt in H2. rewrite nth_err_at by lia. reflexivity. }
  rewrite (ofold_map (fun e => (row e, alpha *! at_ x (col e) *! val e)) addp).
  destruct (acc_spec (map (fun e => (row e, alpha *! at_ x (col e) *! val e)) (t_ent A)) (map (fun v => v *! beta) y))
    as [y' [E [L N]]].
  - intros u Hu. apply in_map_iff in Hu. destruct Hu as [e [<- He]]. simpl. rewrite map_length, Hy. apply Hw. auto.
  - exists y'. split; auto. rewrite map_length in L. split; [congruence|].
    intros i Hi. unfold at_ at 1. rewrite N. rewrite (nth_map_err _ _ _ f0) by lia.
    rewrite mat_times by (intros e He; apply Hw; auto).
    unfold hits. rewrite map_map, <- lsum_scale. fold (at_ y i).
    rewrite (lsum_ext _ _ (fun a => alpha *! (if row a =? i then val a *! at_ x (col a) else f0))).
    + ring.
    + intros e _. simpl. destruct (row e =? i); ring.
Qed.

Lemma trans_times_vec_spec A beta (y : list K) alpha (x : list K) :
  wf A -> length x = t_m A -> length y = t_n A ->
  exists y', trans_times_vec K A beta y alpha x = Some y' /\ length y' = t_n A /\
    forall j, j < t_n A -> at_ y' j = beta *! at_ y j +! alpha *! sumn (t_m A) (fun i => mat (t_ent A) i j *! at_ x i).
Proof.
  intros Hw Hx Hy. unfold trans_times_vec. rewrite Hx, Hy, !Nat.eqb_refl. simpl.
  rewrite (ofold_ext _ (fun e => addp ((fun e => (col e, alpha *! at_ x (row e) *! val e)) e))).
  2:{ intros e s He. destruct (Hw e He) as [H1 H2]. apply Nat.ltb_lt in H1, H2. rewrite H1, H2. simpl.
      apply Nat.ltb_lt in H1. rewrite nth_err_at by lia. reflexivity. }
  rewrite (ofold_map (fun e => (col e, alpha *! at_ x (row e) *! val e)) addp).
  destruct (acc_spec (map (fun e => (col e, alpha *! at_ x (row e) *! val e)) (t_ent A)) (map (fun v => v *! beta) y))
    as [y' [E [L N]]].
  - intros u Hu. apply in_map_iff in Hu. destruct Hu as [e [<- He]]. simpl. rewrite map_length, Hy. apply Hw. auto.
  - exists y'. split; auto. rewrite map_length in L. split; [congruence|].
    intros i Hi. unfold at_ at 1. rewrite N. rewrite (nth_map_err _ _ _ f0) by lia.
    rewrite mat_times_trans by (intros e He; apply Hw; auto).
    unfold hits. rewrite map_map, <- lsum_scale. fold (at_ y i).
    rewrite (lsum_ext _ _ (fun a => alpha *! (if col a =? i then val a *! at_ x (row a) else f0))).
    + ring.
    + intros e _. simpl. destruct (col e =? i); ring.
Qed.

(** symmetric storage: the expansion of the stored triangle *)
Definition both (l : list entry) : list entry :=
  flat_map (fun e => if row e =? col e then [e] else [e; (col e, row e, val e)]) l.
Lemma mat_app l1 l2 i j : mat (K:=K) (l1 ++ l2) i j = mat l1 i j +! mat l2 i j.
Proof. unfold mat. rewrite map_app, lsum_app. reflexivity. Qed.
Lemma mat_cons e l i j : mat (K:=K) (e :: l) i j = (if (row e =? i) && (col e =? j) then val e else f0) +! mat l i j.
Proof. reflexivity. Qed.
Lemma mat_both l i j : mat (both l) i j = symmat l i j.
Proof.
  unfold symmat. induction l as [|e l IH].
  - destruct (i =? j); unfold mat; simpl; [reflexivity|ring].
  - simpl. rewrite mat_app, IH. destruct (Nat.eqb_spec i j) as [->|Hij].
    + rewrite mat_cons. destruct (Nat.eqb_spec (row e) (col e)) as [He|He].
      * rewrite mat_cons. unfold mat at 1. simpl. ring.
      * rewrite !mat_cons, row_mk, col_mk, val_mk. unfold mat at 1. simpl.
        destruct (Nat.eqb_spec (row e) j); destruct (Nat.eqb_spec (col e) j); simpl; try lia; ring.
    + rewrite !(mat_cons e l). destruct (Nat.eqb_spec (row e) (col e)) as [He|He].
      * rewrite mat_cons. unfold mat at 1. simpl. rewrite He.
        destruct (Nat.eqb_spec (col e) i); destruct (Nat.eqb_spec (col e) j); simpl; try lia; ring.
      * rewrite !mat_cons, row_mk, col_mk, val_mk. unfold mat at 1. simpl.
        rewrite (andb_comm (col e =? i) (row e =? j)). ring.
Qed.
Lemma both_in e l : In e (both l) -> exists e', In e' l /\ ((row e = row e' /\ col e = col e') \/ (row e = col e' /\ col e = row e')).
Proof.
  unfold both. intro H. apply in_flat_map in H. destruct H as [e' [H1 H2]]. exists e'. split; auto.
  destruct (row e' =? col e'); simpl in H2; destruct H2 as [<-|H2]; auto; [destruct H2|].
  destruct H2 as [<-|[]]; auto.
Qed.

Lemma sym_times_vec_spec A beta (y : list K) alpha (x : list K) :
  wf A -> t_n A = t_m A -> length x = t_n A -> length y = t_m A ->
  exists y', sym_times_vec K A beta y alpha x = Some y' /\ length y' = t_m A /\
    forall i, i < t_m A -> at_ y' i = beta *! at_ y i +! alpha *! sumn (t_n A) (fun j => symmat (t_ent A) i j *! at_ x j).
Proof.
  intros Hw Hs Hx Hy. unfold sym_times_vec. rewrite Hx, Hy, Hs, !Nat.eqb_refl. simpl.
  rewrite (ofold_ext _ (fun e => ofold addp (map (fun e => (row e, alpha *! at_ x (col e) *! val e))
                                   (if row e =? col e then [e] else [e; (col e, row e, val e)])))).
  2:{ intros e s He. destruct (Hw e He) as [H1 H2]. rewrite Hs in H2. apply Nat.ltb_lt in H1, H2. rewrite H1, H2. simpl.
      apply Nat.ltb_lt in H1, H2. rewrite !nth_err_at by lia.
      destruct (row e =? col e); cbn [map ofold]; unfold addp; cbn [fst snd].
      - destruct (addat K s (row e) (alpha *! at_ x (col e) *! val e)); reflexivity.
      - destruct (addat K s (row e) (alpha *! at_ x (col e) *! val e)); auto.
        rewrite row_mk, col_mk, val_mk.
        destruct (addat K l (col e) (alpha *! at_ x (row e) *! val e)); reflexivity. }
  rewrite (ofold_flat (fun e => map (fun e => (row e, alpha *! at_ x (col e) *! val e))
                                   (if row e =? col e then [e] else [e; (col e, row e, val e)])) addp).
  replace (flat_map _ (t_ent A)) with (map (fun e => (row e, alpha *! at_ x (col e) *! val e)) (both (t_ent A))).
  2:{ unfold both. induction (t_ent A) as [|e l IH]; simpl; auto. rewrite map_app, IH. reflexivity. }
  destruct (acc_spec (map (fun e => (row e, alpha *! at_ x (col e) *! val e)) (both (t_ent A))) (map (fun v => v *! beta) y))
    as [y' [E [L N]]].
  - intros u Hu. apply in_map_iff in Hu. destruct Hu as [e [<- He]]. simpl. rewrite map_length, Hy.
    apply both_in in He. destruct He as [e' [He [[-> _]|[-> _]]]]; destruct (Hw e' He); lia.
  - exists y'. split; auto. rewrite map_length in L. split; [congruence|].
    intros i Hi. unfold at_ at 1. rewrite N. rewrite (nth_map_err _ _ _ f0) by lia.
    rewrite (sumn_ext _ _ _ (fun j => mat (both (t_ent A)) i j *! at_ x j)) by (intros; rewrite mat_both; reflexivity).
    rewrite mat_times.
    + unfold hits. rewrite map_map, <- lsum_scale. fold (at_ y i).
      rewrite (lsum_ext _ _ (fun a => alpha *! (if row a =? i then val a *! at_ x (col a) else f0))).
      * ring.
      * intros e _. simpl. destruct (row e =? i); ring.
    + intros e He. apply both_in in He. destruct He as [e' [He [[_ ->]|[_ ->]]]]; destruct (Hw e' He); lia.
Qed.

Lemma symmat_sym l i j : symmat (K:=K) l i j = symmat l j i.
Proof. unfold symmat. rewrite (Nat.eqb_sym j i). destruct (Nat.eqb_spec i j) as [->|_]; auto. ring. Qed.

Lemma adjoint A (x u y0 z0 y z : list K) :
  wf A -> length x = t_n A -> length u = t_m A -> length y0 = t_m A -> length z0 = t_n A ->
  times_vec K A f0 y0 f1 x = Some y -> trans_times_vec K A f0 z0 f1 u = Some z ->
  inner (t_m A) u y = inner (t_n A) z x.
Proof.
  intros Hw Hx Hu Hy0 Hz0 Hy Hz.
  destruct (times_vec_spec A f0 y0 f1 x Hw Hx Hy0) as [y' [E [L N]]]. rewrite E in Hy. injection Hy as <-.
  destruct (trans_times_vec_spec A f0 z0 f1 u Hw Hu Hz0) as [z' [E2 [L2 N2]]]. rewrite E2 in Hz. injection Hz as <-.
  unfold inner.
  rewrite (sumn_ext _ _ _ (fun i => sumn (t_n A) (fun j => at_ u i *! (mat (t_ent A) i j *! at_ x j)))).
  2:{ intros i Hi. rewrite N by auto. rewrite sumn_scale. ring. }
  rewrite sumn_swap. apply sumn_ext. intros j Hj. rewrite N2 by auto.
  rewrite (sumn_ext _ _ _ (fun i => at_ x j *! (mat (t_ent A) i j *! at_ u i))) by (intros; ring).
  rewrite sumn_scale. ring.
Qed.
End P.
