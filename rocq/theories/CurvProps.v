(** C78: directions accepted without inertia information. *)
From Coq Require Import List Bool Arith Lia Reals Lra.
From Verif Require Import RingKit InertiaModel KktModel KktSpec CurvModel CurvSpec CurvProofs.
Import ListNotations.
Open Scope R_scope.

(** Both curvature tests accept exactly when the curvature of the barrier Lagrangian, regularization included, is at least
    neg_curv_test_fact times the squared length. *)
Theorem C78_test_iff : forall (P : prob RF) it fact e w,
  (test_full P it fact e w = true <-> fact * (size2 RF P w : R) <= curvature RF P it e w) /\
  (test_usual P it fact e w = true <-> fact * (size2 RF P w : R) <= curvature RF P it e w).
Proof.
  intros P it fact e w. rewrite <- (curvature_of RF P it e w).
  assert (Z : forall a b c : R, 0 + a + b + c = a + b + c) by (intros; lra).
  split.
  - unfold test_full, dotp. rewrite curv_ok_iff, Z. 
    replace (sumn (nx P) (fun i => (barrier_x RF P it i *! w_x w i +! f1 *! (e_wx e i *! w_x w i)) *! w_x w i))
      with (sumn (nx P) (fun i => (w_x w i *! barrier_x RF P it i +! f1 *! (e_wx e i *! w_x w i)) *! w_x w i)).
    2: { apply sumn_ext. intros i _. f_equal. f_equal. apply Rmult_comm. }
    replace (sumn (ni P) (fun i => (barrier_d RF P it i *! w_d w i +! f1 *! (e_wd e i *! w_d w i)) *! w_d w i))
      with (sumn (ni P) (fun i => (w_d w i *! barrier_d RF P it i +! f1 *! (e_wd e i *! w_d w i)) *! w_d w i)).
    2: { apply sumn_ext. intros i _. f_equal. f_equal. apply Rmult_comm. }
    reflexivity.
  - unfold test_usual, test_compressed, dotp. rewrite curv_ok_iff, Z. reflexivity.
Qed.
Print Assumptions C78_test_iff.

Lemma search_inv test env more : forall k0 k w, search test env more k0 = Accepted k w ->
  (k0 <= k <= k0 + more)%nat /\ rd_dir (env k) = Some w /\ test (rd_reg (env k)) w = true /\
  forall j, (k0 <= j < k)%nat -> exists u, rd_dir (env j) = Some u /\ test (rd_reg (env j)) u = false.
Proof.
  induction more as [|more IH]; intros k0 k w; cbn [search]; destruct (rd_dir (env k0)) as [u|] eqn:E; try discriminate;
    destruct (test (rd_reg (env k0)) u) eqn:T; try discriminate.
  1,2: intro H; injection H as <- <-; split; [lia|]; split; [exact E|]; split; [exact T|]; intros; lia.
  intro H. destruct (IH (S k0) k w H) as (A & B & C & D). split; [lia|]. split; [exact B|]. split; [exact C|].
  intros j Hj. destruct (Nat.eq_dec j k0) as [->|Hne]; [exists u; auto|]. apply D. lia.
Qed.

(** An accepted direction is the last one computed, after at most ten refactorizations, all earlier ones failed the
    test; and if it solves the regularized Newton system of the current iterate (no dual regularization), then at a
    feasible iterate the barrier function decreases along it at least by the factor times its squared length. *)
Theorem C78_accepted_descends_partial : forall (P : prob RF) it fact env test k w,
  test = test_full P it fact \/ test = test_usual P it fact ->
  search_direction test env = Accepted k w ->
  (k <= 10)%nat /\ rd_dir (env k) = Some w /\
  (forall j, (j < k)%nat -> exists u, rd_dir (env j) = Some u /\ curvature RF P it (rd_reg (env j)) u < fact * (size2 RF P u : R)) /\
  forall v r, kkt_violation RF P v it r -> newton RF P it (rd_reg (env k)) r w -> interior RF P it ->
    slacks_fit RF P v it -> duals_fit RF P it -> feasible RF P v it ->
    (forall i, (i < neq P)%nat -> e_cc (rd_reg (env k)) i = 0) -> (forall i, (i < ni P)%nat -> e_cd (rd_reg (env k)) i = 0) ->
    slope RF P v it w <= - (fact * (size2 RF P w : R)).
Proof.
  intros P it fact env test k w HT HS.
  assert (HT' : forall e u, test e u = true <-> fact * (size2 RF P u : R) <= curvature RF P it e u).
  { intros e u. destruct HT as [->| ->]; apply C78_test_iff. }
  destruct (search_inv _ _ _ _ _ _ HS) as (A & B & C & D). split; [lia|]. split; [exact B|]. split.
  - intros j Hj. destruct (D j) as (u & U1 & U2); [lia|]. exists u. split; [exact U1|].
    apply Rnot_le_lt. intro H. apply HT' in H. rewrite H in U2. discriminate.
  - intros v r HV HN HI HSl HD HF Hc Hd. rewrite (slope_feasible RF P v it (rd_reg (env k)) r w HV HN HI HSl HD HF Hc Hd).
    apply HT' in C. change (- (curvature RF P it (rd_reg (env k)) w : R) <= - (fact * (size2 RF P w : R))). lra.
Qed.
Print Assumptions C78_accepted_descends_partial.

(** At any iterate and with any regularization: the slope is minus the curvature, corrected by the multipliers after
    the step times the constraint violation and the dual regularization. *)
Theorem C78_slope : forall (K : cfield) (P : prob K) v it e r w, kkt_violation K P v it r -> newton K P it e r w -> interior K P it ->
  slacks_fit K P v it -> duals_fit K P it ->
  slope K P v it w = fopp (curvature K P it e w) -!
    sumn (neq P) (fun k => (w_yc it k +! w_yc w k) *! (v_crhs v k -! v_c v k +! e_cc e k *! w_yc w k)) -!
    sumn (ni P) (fun k => (w_yd it k +! w_yd w k) *! (w_d it k -! v_d v k +! e_cd e k *! w_yd w k)).
Proof. exact slope_identity. Qed.
Print Assumptions C78_slope.

(** one variable x >= 0, f with Hessian -1, gradient 3; x = 1, z = 1, mu = 1; the curvature is -1+1+delta *)
Definition c0 : nat -> RF := fun _ => 0.
Definition ex_P : prob RF := Prob RF 1 0 0 (fun _ _ => -1) (fun _ _ => 0) (fun _ _ => 0) (fun _ => true) (fun _ => false) (fun _ => false) (fun _ => false).
Definition ex_it : iter RF := Iter RF (fun _ => 1) c0 c0 c0 (fun _ => 1) c0 c0 c0 (fun _ => 1) c0 c0 c0.
Definition ex_v : nlpvals RF := Vals RF (fun _ => 3) c0 c0 c0 c0 c0 c0 c0 1 c0 c0.
Definition ex_e (d : R) : deltas RF := Deltas RF (fun _ => d) c0 c0 c0.
(** the direction for regularization 2: -2/2 = -1 *)
Definition ex_w : iter RF := Iter RF (fun _ => -1) c0 c0 c0 (fun _ => -1) c0 c0 c0 (fun _ => 1) c0 c0 c0.
Definition ex_w1 : iter RF := Iter RF (fun _ => -4) c0 c0 c0 (fun _ => -4) c0 c0 c0 (fun _ => 4) c0 c0 c0.
Definition ex_env (k : nat) : round := match k with O => Round true (ex_e (1/2)) (Some ex_w1) | _ => Round true (ex_e 2) (Some ex_w) end.
Ltac ex_blocks := repeat split; intros; repeat match goal with H : (_ < _)%nat |- _ => cbn in H end; try lia; try discriminate;
  repeat match goal with i : nat |- _ => destruct i; [|lia] end; cbn; unfold c0; try lra; intuition lra.
Example C78_accepted_case :
  search_direction (test_usual ex_P ex_it 1) ex_env = Accepted 1 ex_w /\
  kkt_violation RF ex_P ex_v ex_it (resid_update RF ex_P ex_v ex_it (resid0 RF)) /\
  newton RF ex_P ex_it (ex_e 2) (resid_update RF ex_P ex_v ex_it (resid0 RF)) ex_w /\
  interior RF ex_P ex_it /\ slacks_fit RF ex_P ex_v ex_it /\ duals_fit RF ex_P ex_it /\ feasible RF ex_P ex_v ex_it /\
  slope RF ex_P ex_v ex_it ex_w = -2.
Proof.
  assert (T0 : test_usual ex_P ex_it 1 (ex_e (1/2)) ex_w1 = false).
  { apply not_true_is_false. intro H. apply C78_test_iff in H. cbn in H. unfold size2, curvature, xdiag in H. cbn in H. lra. }
  assert (T1 : test_usual ex_P ex_it 1 (ex_e 2) ex_w = true).
  { apply C78_test_iff. unfold size2, curvature, xdiag. cbn. lra. }
  split. { unfold search_direction. cbn [search ex_env rd_dir rd_reg]. rewrite T0, T1. reflexivity. }
  split; [|split; [|split; [|split; [|split; [|split]]]]].
  - ex_blocks.
  - ex_blocks.
  - ex_blocks.
  - ex_blocks.
  - ex_blocks.
  - ex_blocks.
  - unfold slope, bar_x, c0. cbn. unfold c0. lra.
Qed.

(** The mixed dense-sparse system never writes the diagonal of the inequalities that its test reads: whatever the curvature
    of a direction that moves an inequality, the content of that memory decides. *)
Theorem C78_mds_refuted : forall (P : prob RF) (it : iter RF) (fact : R) (e : deltas RF) (w : iter RF) i, (i < ni P)%nat -> w_d w i <> 0 ->
  (exists junk, test_mds P it junk fact e w = true) /\ (exists junk, test_mds P it junk fact e w = false).
Proof.
  intros P it fact e w i Hi Hw.
  set (rest := (sumn (nx P) (fun i => mv RF (nx P) (p_H P) (w_x w) i *! w_x w i) : R) +
     (sumn (nx P) (fun i => (w_x w i *! barrier_x RF P it i +! f1 *! (e_wx e i *! w_x w i)) *! w_x w i) : R) +
     (sumn (ni P) (fun i => e_wd e i *! w_d w i *! w_d w i) : R)).
  assert (HD : forall t, (sumn (ni P) (fun j => (w_d w j *! (if Nat.eqb i j then t else 0) +! f1 *! (e_wd e j *! w_d w j)) *! w_d w j) : R) =
     t * (w_d w i * w_d w i) + (sumn (ni P) (fun i => e_wd e i *! w_d w i *! w_d w i) : R)).
  { intro t. transitivity (sumn (ni P) (fun j => (if Nat.eqb i j then t *! (w_d w j *! w_d w j) else f0) +! e_wd e j *! w_d w j *! w_d w j) : R).
    - apply (sumn_ext RF). intros j _. destruct (Nat.eqb i j); cbn; ring.
    - rewrite sumn_add. rewrite (sumn_pick RF (fun j => t *! (w_d w j *! w_d w j)) (ni P) i Hi). reflexivity. }
  assert (Hsq : 0 < w_d w i * w_d w i) by (apply Rsqr_pos_lt; exact Hw).
  assert (HT : forall t, test_mds P it (fun j => if Nat.eqb i j then t else 0) fact e w = true <->
     fact * (size2 RF P w : R) <= rest + t * (w_d w i * w_d w i)).
  { intro t. unfold test_mds, test_compressed, dotp. rewrite curv_ok_iff. rewrite HD. unfold rest. split; intro; lra. }
  split.
  - exists (fun j => if Nat.eqb i j then (fact * (size2 RF P w : R) - rest) / (w_d w i * w_d w i) else 0). apply HT. 
    replace ((fact * (size2 RF P w : R) - rest) / (w_d w i * w_d w i) * (w_d w i * w_d w i)) with (fact * (size2 RF P w : R) - rest) by (field; exact Hw).
    lra.
  - exists (fun j => if Nat.eqb i j then (fact * (size2 RF P w : R) - rest - 1) / (w_d w i * w_d w i) else 0). apply not_true_is_false. intro H. apply HT in H.
    replace ((fact * (size2 RF P w : R) - rest - 1) / (w_d w i * w_d w i) * (w_d w i * w_d w i)) with (fact * (size2 RF P w : R) - rest - 1) in H by (field; exact Hw).
    lra.
Qed.
Print Assumptions C78_mds_refuted.
Definition ex_Pd : prob RF := Prob RF 1 0 1 (fun _ _ => -1) (fun _ _ => 0) (fun _ _ => 1) (fun _ => true) (fun _ => false) (fun _ => true) (fun _ => false).
Definition ex_wd : iter RF := Iter RF (fun _ => 1) (fun _ => 1) c0 c0 c0 c0 c0 c0 c0 c0 c0 c0.
Example C78_mds_case : (0 < ni ex_Pd)%nat /\ w_d ex_wd 0%nat <> 0 /\ curvature RF ex_Pd ex_it (ex_e (-1)) ex_wd < 0.
Proof.
  split; [cbn; lia|]. split; [cbn; lra|]. unfold curvature, xdiag, ddiag. cbn. unfold c0, Rdiv. lra.
Qed.

(** The answer of the refactorization is not looked at: after a failed one the solver can accept a direction along which
    the barrier function increases. *)
Theorem C78_failure_ignored_refuted : exists (P : prob RF) it v fact env k w, 0 < fact /\
  search_direction (test_usual P it fact) env = Accepted k w /\ rd_fact (env k) = false /\
  interior RF P it /\ slacks_fit RF P v it /\ duals_fit RF P it /\ feasible RF P v it /\ 0 < slope RF P v it w.
Proof.
  set (up := Iter RF (fun _ => 1) c0 c0 c0 (fun _ => 1) c0 c0 c0 (fun _ => -1) c0 c0 c0).
  set (env := fun k => match k with O => Round true (ex_e (1/2)) (Some ex_w1) | _ => Round false (ex_e 2) (Some up) end).
  exists ex_P, ex_it, ex_v, 1, env, 1%nat, up.
  assert (T0 : test_usual ex_P ex_it 1 (ex_e (1/2)) ex_w1 = false).
  { apply not_true_is_false. intro H. apply C78_test_iff in H. cbn in H. unfold size2, curvature, xdiag in H. cbn in H. lra. }
  assert (T1 : test_usual ex_P ex_it 1 (ex_e 2) up = true).
  { apply C78_test_iff. unfold size2, curvature, xdiag. cbn. lra. }
  split; [lra|]. split. { unfold search_direction. cbn [search env rd_dir rd_reg]. rewrite T0, T1. reflexivity. }
  split; [reflexivity|]. destruct C78_accepted_case as (_ & _ & _ & A & B & C & D & _). repeat (split; [assumption|]).
  unfold slope, bar_x, up, c0. cbn. unfold c0. lra.
Qed.
Print Assumptions C78_failure_ignored_refuted.

(** When ten refactorizations did not help, safe mode stays as it was, although the caller repeats the step computation
    on the assumption that it was switched on. *)
Theorem C78_limit_keeps_mode_refuted : forall test env, (forall k, exists w, rd_dir (env k) = Some w /\ test (rd_reg (env k)) w = false) ->
  search_direction test env = TooMany /\ safe_after (search_direction test env) false false = false.
Proof.
  intros test env H. assert (E : forall more k, search test env more k = TooMany).
  { induction more as [|more IH]; intro k; cbn [search]; destruct (H k) as (w & -> & ->); [reflexivity|apply IH]. }
  unfold search_direction. rewrite E. split; reflexivity.
Qed.
Print Assumptions C78_limit_keeps_mode_refuted.
Example C78_limit_case : forall k : nat, exists w, rd_dir ((fun _ : nat => Round true (ex_e (1/2)) (Some ex_w1)) k) = Some w /\
  test_usual ex_P ex_it 1 (ex_e (1/2)) w = false.
Proof.
  intro k. exists ex_w1. split; [reflexivity|]. apply not_true_is_false. intro H. apply C78_test_iff in H.
  unfold size2, curvature, xdiag in H. cbn in H. lra.
Qed.
