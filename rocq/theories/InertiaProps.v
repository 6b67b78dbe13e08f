(** C67: the inertia reported by the dense symmetric solver. *)
From Coq Require Import List Bool ZArith Reals Lia Lra Psatz.
From Verif Require Import RingKit InertiaModel InertiaSpec InertiaProofs.
Import ListNotations.
Open Scope R_scope.

(** whenever the factorization reports a number that is not negative, that number is the number of negative
    eigenvalues of the matrix (any complete orthonormal set of eigenvectors), and the matrix is nonsingular *)
Theorem C67_reported_inertia_partial : forall N A F bs W r,
  factored N A F bs W -> matrix_changed N F = Some r -> (0 <= r)%Z ->
  (forall l, eigen_system N A l -> r = Z.of_nat (negatives l)) /\ (symmetric N A -> nonsingular N A).
Proof. exact inertia_right. Qed.
Print Assumptions C67_reported_inertia_partial.

(** -1 is reported exactly when one of the pivot values is below the absolute threshold *)
Theorem C67_minus_one_iff : forall N A F bs W, factored N A F bs W ->
  (matrix_changed N F = Some (-1)%Z <-> Exists (fun p => ~ large p) (flat_map pivots bs)).
Proof.
  intros N A F bs W HF. destruct (answers N A F bs W HF) as [(E & X)|(L & r & E & P)].
  - rewrite E. tauto.
  - rewrite E. split.
    + intro H. injection H as ->. lia.
    + intro X. exfalso. apply Exists_exists in X. destruct X as (p & I & H). rewrite Forall_forall in L. apply H, L, I.
Qed.
Print Assumptions C67_minus_one_iff.

(** a singular matrix is never reported as usable *)
Theorem C67_singular_reported : forall N A F bs W x, factored N A F bs W -> symmetric N A ->
  (forall i, (i < N)%nat -> @sumn R_field N (fun j => A i j * x j) = 0) -> (exists i, (i < N)%nat /\ x i <> 0) ->
  matrix_changed N F = Some (-1)%Z.
Proof.
  intros N A F bs W x HF S Z (i & Hi & X). destruct (answers N A F bs W HF) as [(E & _)|(_ & r & E & P)]; auto.
  exfalso. apply X. apply (proj2 (inertia_right N A F bs W r HF E P) S); auto.
Qed.
Print Assumptions C67_singular_reported.

(** a failed factorization is reported as -1 *)
Theorem C67_failure_reported : forall N F, (0 < N)%nat -> trf_info F <> 0%Z -> matrix_changed N F = Some (-1)%Z.
Proof.
  intros N F P I. unfold matrix_changed. destruct (Nat.eqb_spec N 0); [lia|].
  rewrite (proj2 (Z.eqb_neq _ _) I). reflexivity.
Qed.
Print Assumptions C67_failure_reported.

(** two diagonalisations of the same matrix by congruence have the same number of negative weights, so the
    number reported does not depend on the pivot order LAPACK happened to choose *)
Theorem C67_law_of_inertia : forall N A l m, diagonalises N A l -> diagonalises N A m -> negatives l = negatives m.
Proof. exact sylvester. Qed.
Print Assumptions C67_law_of_inertia.
Theorem C67_independent_of_pivoting : forall N A F bs W r F' bs' W' r',
  factored N A F bs W -> factored N A F' bs' W' ->
  matrix_changed N F = Some r -> matrix_changed N F' = Some r' -> (0 <= r)%Z -> (0 <= r')%Z -> r = r'.
Proof.
  intros N A F bs W r F' bs' W' r' H H' E E' P P'.
  rewrite (matrix_changed_eq N A F bs W H) in E. rewrite (matrix_changed_eq N A F' bs' W' H') in E'.
  destruct (Nat.ltb_spec 0 (cnull bs)) as [L|L]; injection E as <-; [lia|].
  destruct (Nat.ltb_spec 0 (cnull bs')) as [L'|L']; injection E' as <-; [lia|].
  assert (Z : cnull bs = 0%nat) by lia. assert (Z' : cnull bs' = 0%nat) by lia.
  apply cnull_large in Z. apply cnull_large in Z'.
  destruct (factored_diagonalises N A F bs W H Z) as (m & Dm & Nm & _).
  destruct (factored_diagonalises N A F' bs' W' H' Z') as (m' & Dm' & Nm' & _).
  rewrite <- Nm, <- Nm'. f_equal. eapply sylvester; eauto.
Qed.
Print Assumptions C67_independent_of_pivoting.

(** ** a concrete case: [0 1 0; 1 0 0; 0 0 2], one 2x2 pivot and one 1x1 pivot *)
Definition exA (i j : nat) : R :=
  match i, j with 0%nat, 1%nat => 1 | 1%nat, 0%nat => 1 | 2%nat, 2%nat => 2 | _, _ => 0 end.
Definition exF : trf := Trf 0 exA (fun k => if Nat.ltb k 2 then (-2)%Z else 3%Z).
Definition exW (i j : nat) : R := if Nat.eqb i j then 1 else 0.
Definition h : R := sqrt (/ 2).
Definition exE : list wform :=
  [(1, fun i => match i with 0%nat => h | 1%nat => h | _ => 0 end);
   (-1, fun i => match i with 0%nat => h | 1%nat => - h | _ => 0 end);
   (2, fun i => match i with 2%nat => 1 | _ => 0 end)].
Lemma h_sq : h * h = / 2.
Proof. apply sqrt_sqrt. lra. Qed.
Ltac unsum := unfold quad, form, sumn; cbn [seq map lsum R_field fadd f0 fcar].
Lemma tiny_lt : tiny < 1.
Proof. unfold tiny. rewrite <- Rinv_1. apply Rinv_lt_contravar; [|apply Rlt_pow_R1; [lra|lia]]. rewrite Rmult_1_l. apply pow_lt. lra. Qed.

Example C67_case : factored 3 exA exF [P2 0 1 0; P1 2] exW /\ symmetric 3 exA /\ eigen_system 3 exA exE /\
  matrix_changed 3 exF = Some 1%Z /\ negatives exE = 1%nat.
Proof.
  assert (HF : factored 3 exA exF [P2 0 1 0; P1 2] exW).
  { unfold factored. split; [reflexivity|]. split; [reflexivity|]. split; [cbn; repeat split; lia|]. split.
    { repeat constructor. cbn. rewrite Rmult_0_l, Rabs_R0. lra. }
    split.
    - intro x. unsum. cbn. ring.
    - intros x H i Hi. specialize (H i Hi). destruct i as [|[|[|]]]; [| | |lia]; revert H; unsum; cbn; intro; lra. }
  split; [exact HF|]. split.
  { intros i j Hi Hj. destruct i as [|[|[|]]]; destruct j as [|[|[|]]]; try lia; reflexivity. }
  split.
  { unfold eigen_system. split; [reflexivity|]. pose proof h_sq. split; [|split].
    - intros w [<-|[<-|[<-|[]]]] i Hi; destruct i as [|[|[|]]]; try lia; unsum; cbn; ring.
    - intros w [<-|[<-|[<-|[]]]]; unsum; cbn; lra.
    - repeat constructor; unsum; cbn; lra. }
  assert (Ln : negatives exE = 1%nat).
  { unfold negatives, exE. cbn [filter fst].
    rewrite (proj2 (rltb_false 1 0)), (proj2 (rltb_true (-1) 0)), (proj2 (rltb_false 2 0)) by lra. reflexivity. }
  split; [|exact Ln].
  rewrite (matrix_changed_eq _ _ _ _ _ HF). pose proof tiny_lt. pose proof tiny_pos.
  assert (P : flat_map pivots [P2 0 1 0; P1 2] = [-1; 1; 2]).
  { cbn. rewrite Rabs_R1. f_equal. field. }
  unfold cnull, cneg. rewrite P. cbn [filter]. unfold isnull, isneg.
  rewrite (proj2 (rltb_true (-1) (- tiny))), (proj2 (rltb_false 1 (- tiny))), (proj2 (rltb_false 2 (- tiny))),
    (proj2 (rltb_false 1 tiny)), (proj2 (rltb_false 2 tiny)) by lra. reflexivity.
Qed.
(** a singular matrix *)
Example C67_singular_case :
  factored 1 (fun _ _ => 0) (Trf 0 (fun _ _ => 0) (fun _ => 1%Z)) [P1 0] exW /\
  symmetric 1 (fun _ _ => 0) /\ (forall i, (i < 1)%nat -> @sumn R_field 1 (fun j => 0 * 1) = 0).
Proof.
  split; [|split; [intros ? ? ? ?; reflexivity|intros; unsum; ring]].
  unfold factored. split; [reflexivity|]. split; [reflexivity|]. split; [cbn; repeat split; lia|]. split.
  { repeat constructor. }
  split.
  - intro x. unsum. cbn. ring.
  - intros x H i Hi. assert (i = 0%nat) by lia. subst i. specialize (H 0%nat Hi). revert H. unsum. cbn. intro; lra.
Qed.

(** the threshold is absolute: 1e-15 times the identity is perfectly conditioned and positive definite, yet it is
    reported as singular *)
Theorem C67_small_scale_refuted : exists A F bs W,
  factored 2 A F bs W /\ symmetric 2 A /\ nonsingular 2 A /\
  (forall l, eigen_system 2 A l -> forall w, In w l -> fst w = / 10 ^ 15) /\
  matrix_changed 2 F = Some (-1)%Z.
Proof.
  set (e := / 10 ^ 15).
  assert (He : 0 < e) by (apply Rinv_0_lt_compat, pow_lt; lra).
  assert (Het : e < tiny).
  { unfold e, tiny. apply Rinv_lt_contravar; [apply Rmult_lt_0_compat; apply pow_lt; lra|apply Rlt_pow; [lra|lia]]. }
  set (A := fun i j : nat => if Nat.eqb i j then e else 0).
  exists A, (Trf 0 A (fun k => Z.of_nat (S k))), [P1 e; P1 e], exW.
  assert (HF : factored 2 A (Trf 0 A (fun k => Z.of_nat (S k))) [P1 e; P1 e] exW).
  { unfold factored. split; [reflexivity|]. split; [reflexivity|]. split; [cbn; repeat split; lia|]. split.
    { repeat constructor. }
    split.
    - intro x. unsum. unfold A. cbn. ring.
    - intros x H i Hi. specialize (H i Hi). destruct i as [|[|]]; [| |lia]; revert H; unsum; cbn; intro; lra. }
  split; [exact HF|]. split.
  { intros i j _ _. unfold A. rewrite Nat.eqb_sym. reflexivity. }
  split.
  { intros x H i Hi. specialize (H i Hi).
    assert (E : e * x i = 0). { destruct i as [|[|]]; [| |lia]; revert H; unsum; unfold A; cbn; intro; lra. }
    apply Rmult_integral in E. destruct E; [lra|auto]. }
  split.
  { intros l (L & Ev & Nr & _) w I. specialize (Ev w I). specialize (Nr w I).
    assert (E0 := Ev 0%nat ltac:(lia)). assert (E1 := Ev 1%nat ltac:(lia)). revert E0 E1 Nr. unsum. unfold A. cbn.
    set (p := snd w 0%nat). set (q := snd w 1%nat). set (v := fst w). intros E0 E1 Nr.
    assert (Z0 : (v - e) * p = 0) by lra. assert (Z1 : (v - e) * q = 0) by lra.
    apply Rmult_integral in Z0. destruct Z0 as [Z0|Z0]; [lra|]. apply Rmult_integral in Z1.
    destruct Z1 as [Z1|Z1]; [lra|]. rewrite Z0, Z1 in Nr. lra. }
  apply (C67_minus_one_iff _ _ _ _ _ HF). cbn. left. unfold large. lra.
Qed.
Print Assumptions C67_small_scale_refuted.

(** without the Bunch-Kaufman rule the 2x2 branch miscounts: a negative definite block stored as a 2x2 pivot has
    two negative eigenvalues, the loop finds none *)
Theorem C67_pivot_rule_needed : exists MM ipiv,
  stored 0 MM ipiv [P2 (-2) 1 (-2)] /\ matrix_changed 2 (Trf 0 MM ipiv) = Some 0%Z /\
  eigen_system 2 MM [(-1, fun i => h); (-3, fun i => if Nat.eqb i 0 then h else - h)].
Proof.
  exists (fun i j => if Nat.eqb i j then -2 else 1), (fun _ => (-1)%Z).
  split; [cbn; repeat split; lia|]. split.
  - unfold matrix_changed. cbn [Nat.eqb trf_info Z.eqb negb trf_a trf_ipiv].
    pose proof (loop_blocks 2 (fun i j => if Nat.eqb i j then -2 else 1) (fun _ => (-1)%Z) [P2 (-2) 1 (-2)] 0 0 0) as L.
    cbn [bdim] in L. rewrite L; [|repeat constructor; cbn; lra|cbn; repeat split; lia|reflexivity].
    pose proof tiny_lt. pose proof tiny_pos.
    assert (P : flat_map pivots [P2 (-2) 1 (-2)] = [3; 1]).
    { cbn. rewrite Rabs_R1. f_equal. field. }
    unfold cnull, cneg. rewrite P. cbn [filter]. unfold isnull, isneg.
    rewrite (proj2 (rltb_false 3 (- tiny))), (proj2 (rltb_false 1 (- tiny))), (proj2 (rltb_false 1 tiny)),
      (proj2 (rltb_false 3 tiny)) by lra. reflexivity.
  - unfold eigen_system. split; [reflexivity|]. pose proof h_sq. split; [|split].
    + intros w [<-|[<-|[]]] i Hi; destruct i as [|[|]]; try lia; unsum; cbn; ring.
    + intros w [<-|[<-|[]]]; unsum; cbn; lra.
    + repeat constructor; unsum; cbn; lra.
Qed.
Print Assumptions C67_pivot_rule_needed.
