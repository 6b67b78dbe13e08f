(** C93: the dense solve of the quasi-Newton direction. *)
From Coq Require Import List Bool Arith ZArith Lia Ring Field QArith Qcanon.
From Verif Require Import RingKit.
From Verif Require Import SparseProps ScaleProps HessModel HessSpec HessAlgModel HessAlgSpec HessAlgProofs2 HessProps.
From Verif Require Import KktModel KktModel2 KktSpec KktProps.
From Verif Require Import RefinModel RefinSpec RefinProofs.
Import ListNotations.
Close Scope Qc_scope. Close Scope Q_scope. Open Scope nat_scope.

(** C93, in any arithmetic and with any routines: the values handed back are those the first driver wrote, the code is 0,
    and either no refinement is done or three.  Missing: that the refinements change the result
    ([C93_refinement_refuted]) and that failures are reported ([C93_failure_refuted]). *)
Theorem C93_result_partial : forall (T : Type) (B : kernels T) mem x0 N A b, N > 0 ->
  exists n, solve_refin T B mem x0 N A b = Some (0%Z, snd (k_posvx B N A b mem), n) /\
    (k_small B N (k_resid B N A b (snd (k_posvx B N A b mem))) = true -> n = 0) /\
    (k_small B N (k_resid B N A b (snd (k_posvx B N A b mem))) = false -> n = 3).
Proof.
  intros T B mem x0 N A b L. rewrite (solve_refin_ok T B mem x0 N A b L). eexists. split; [reflexivity|].
  destruct (k_small _ _ _); split; intros H; try discriminate H; reflexivity.
Qed.
Print Assumptions C93_result_partial.

Section C93.
Variable K : cfield.
(** exact arithmetic: where the driver succeeds the result solves the system, also when it is only warned about the
    condition number *)
Theorem C93_solves_partial : forall (B : kernels K) mem x0 N A b, posvx_ok K (k_posvx B) ->
  (fst (k_posvx B N A b mem) = 0 \/ fst (k_posvx B N A b mem) = Z.of_nat (N + 1))%Z ->
  exists x n, solve_refin K B mem x0 N A b = Some (0%Z, x, n) /\ solves_upper K N A b x.
Proof.
  intros B mem x0 N A b OK I. destruct N as [|N].
  - exists b, 0. split; [reflexivity|]. intros i Hi. lia.
  - destruct (C93_result_partial K B mem x0 (S N) A b (Nat.lt_0_succ N)) as (n & E & _). exists (snd (k_posvx B (S N) A b mem)), n. split; [exact E|].
    destruct (k_posvx B (S N) A b mem) as [info x] eqn:EP. exact (proj1 (OK _ _ _ _ _ _ EP) I).
Qed.
(** the quasi-Newton direction, after any history of accepted pairs: where the driver succeeds on the matrix it is given the
    direction solves the Newton system of the BFGS matrix *)
Theorem C93_direction_partial : forall junk lmax qs (P : prob K), exists m, remember K (nx P) junk lmax qs = Some m /\
  forall (B : kernels K) mem x0 solveV it sigma old Wold r w, posvx_ok K (k_posvx B) ->
  (forall b, neq P + ni P > 0 -> fst (k_posvx B (neq P + ni P) (lr_mat K solveV P it sigma m old Wold) b mem) = 0%Z) -> interior K P it ->
  p_H P = matrix_of K (bfgs K (nx P) sigma (lastn lmax qs)) -> defined K (nx P) sigma (lastn lmax qs) ->
  (forall i, i < nx P -> sigma +! xdiag K P it i <> f0) -> (forall i, i < ni P -> ddiag K P it (no_deltas K) i <> f0) ->
  exactV K (nx P) solveV sigma (dhinv K sigma (barrier_x K P it)) m old ->
  lowrank_refin K B mem x0 solveV P it sigma m old Wold r = Some w -> newton K P it (no_deltas K) r w.
Proof.
  intros junk lmax qs P. destruct (C36_lowrank K junk lmax qs P) as (m & E & M). exists m. split; [exact E|].
  intros B mem x0 solveV it sigma old Wold r w OK HI IN HH HD HN DD HV EW.
  exact (M solveV (guarded K B mem x0) it sigma old Wold r w (guarded_exact K B mem x0 OK) IN HH HD HN DD HV (lowrank_guarded K B mem x0 solveV P it sigma m old Wold r w HI EW)).
Qed.
End C93.
Print Assumptions C93_solves_partial.
Print Assumptions C93_direction_partial.

(** * exact rationals: a driver and a Cholesky solve for systems of one and two unknowns *)
Definition pos (a : F) : bool := negb (Qle_bool (this a) 0).
Definition posvx2 (N : nat) (A : nat -> nat -> F) (b g : nat -> F) : Z * (nat -> F) :=
  let det := A 0 0 *! A 1 1 -! A 0 1 *! A 0 1 in
  match N with
  | 1 => if pos (A 0 0) then (0%Z, fun _ => b 0 /! A 0 0) else (1%Z, g)
  | 2 => if pos (A 0 0) then
           if pos det then (0%Z, fun i => if i =? 0 then (b 0 *! A 1 1 -! A 0 1 *! b 1) /! det else (A 0 0 *! b 1 -! A 0 1 *! b 0) /! det) else (2%Z, g)
         else (1%Z, g)
  | _ => ((-1)%Z, g)
  end.
Lemma pos_nz a : pos a = true -> a <> f0.
Proof. intros H ->. revert H. vm_compute. discriminate. Qed.
Section Ok.
Variable K : cfield.
Add Field kok : (fth K).
Lemma one_ok (A : nat -> nat -> K) b : A 0 0 <> f0 -> solves_upper K 1 A b (fun _ => b 0 /! A 0 0).
Proof. intros H i Hi. destruct i as [|i]; [|lia]. unfold sumn. cbn [map seq lsum Nat.leb]. field. exact H. Qed.
Lemma two_ok (A : nat -> nat -> K) b : let det := A 0 0 *! A 1 1 -! A 0 1 *! A 0 1 in det <> f0 ->
  solves_upper K 2 A b (fun i => if i =? 0 then (b 0 *! A 1 1 -! A 0 1 *! b 1) /! det else (A 0 0 *! b 1 -! A 0 1 *! b 0) /! det).
Proof. intros det H i Hi. unfold det in *. destruct i as [|[|i]]; [| |lia]; unfold sumn; cbn [map seq lsum Nat.leb Nat.eqb]; field; exact H. Qed.
Lemma sub0 (a y : K) : a -! f0 *! y = a.
Proof. ring. Qed.
End Ok.
Lemma posvx2_ok : posvx_ok F posvx2.
Proof.
  intros N A b g info x E. unfold posvx2 in E. cbv zeta in E.
  destruct N as [|[|[|N]]]; try (injection E as <- <-; split; [intros [H|H]; lia|lia]).
  - destruct (pos (A 0 0)) eqn:P0; injection E as <- <-; (split; [intros [H|H]; try lia|intros H; try lia; reflexivity]).
    apply one_ok, pos_nz, P0.
  - destruct (pos (A 0 0)) eqn:P0; [destruct (pos _) eqn:P1 in E|]; injection E as <- <-; (split; [intros [H|H]; try lia|intros H; try lia; reflexivity]).
    apply (two_ok F A b), pos_nz, P1.
Qed.
(** the operations of the loop in exact arithmetic; the norm is compared with 1e-8 *)
Definition small8 (N : nat) (r : nat -> F) : bool :=
  forallb (fun i => negb (Qle_bool (1 # 100000000) (Qabs.Qabs (this (r i))))) (seq 0 N).
Definition kernelsQ (posvx : nat -> (nat -> nat -> F) -> (nat -> F) -> (nat -> F) -> Z * (nat -> F)) : kernels F :=
  Kernels F posvx (fun _ A => A) (fun N A b => snd (posvx2 N A b zz)) (residual F) (fun _ x d i => x i +! d i) small8.

(** the driver's X is off by 1e-6; a refinement with the Cholesky factors would give the solution, but what is handed back,
    with code 0, is X: the residual is still 1e-6 *)
Theorem C93_refinement_refuted : exists (B : kernels F) mem x0 A b x, fst (k_posvx B 1 A b mem) = 0%Z /\ pos (A 0 0) = true /\
  chol_ok F (k_potrf B) (k_potrs B) 1 A /\ k_resid B = residual F /\ k_small B = small8 /\
  (forall i, k_add B 1 x (k_potrs B 1 (k_potrf B 1 A) (k_resid B 1 A b x)) i = x i +! k_potrs B 1 (k_potrf B 1 A) (k_resid B 1 A b x) i) /\
  solves_upper F 1 A b (k_add B 1 x (k_potrs B 1 (k_potrf B 1 A) (k_resid B 1 A b x))) /\
  solve_refin F B mem x0 1 A b = Some (0%Z, x, 3) /\ small8 1 (residual F 1 A b x) = false /\ ~ solves_upper F 1 A b x.
Proof.
  set (x := fun _ : nat => Q2Qc (1000001 # 1000000) : F). set (A := mz [[1]]%Z). set (b := z [1]%Z).
  exists (kernelsQ (fun _ _ _ _ => (0%Z, x))), zz, zz, A, b, x. split; [reflexivity|]. split; [vm_compute; reflexivity|].
  split; [intros b'; cbn [k_potrs k_potrf kernelsQ]; unfold posvx2; replace (pos (A 0 0)) with true by (vm_compute; reflexivity); cbv zeta; cbn [snd]; apply one_ok, pos_nz; vm_compute; reflexivity|].
  split; [reflexivity|]. split; [reflexivity|]. split; [intros i; reflexivity|].
  split; [intros [|i] Hi; [|lia]; apply eqq_ok; vm_compute; reflexivity|].
  split; [rewrite solve_refin_ok by lia; cbn [k_posvx k_small k_resid kernelsQ snd]; replace (small8 1 (residual F 1 A b x)) with false by (vm_compute; reflexivity); reflexivity|].
  split; [vm_compute; reflexivity|]. intros H. specialize (H 0 ltac:(lia)). revert H. apply qneq. vm_compute. reflexivity.
Qed.
Print Assumptions C93_refinement_refuted.

(** two copies of one equality constraint, x = 0 and x = 1 linearized: the system has no solution and its matrix is singular.
    The driver reports the second minor and leaves X alone; success is returned all the same, and the multiplier steps are
    whatever the memory held *)
Definition dup : prob F := Prob F 1 2 0 (matrix_of F (bfgs F 1 (q 1) [])) (mz [[1]; [1]]%Z) (mz []) (bl []) (bl []) (bl []) (bl []).
Definition dup_r : resid F := rz (z [1]%Z) zz (z [0; 1]%Z) zz.
Theorem C93_failure_refuted : let B := kernelsQ posvx2 in let N := lr_mat F cramer dup iz (q 1) mem0 (fun _ _ => q 9) (fun _ _ => q 9) in posvx_ok F (k_posvx B) /\
  (forall b g, k_posvx B 2 N b g = (2%Z, g)) /\ (forall w, ~ newton F dup iz (no_deltas F) dup_r w) /\
  forall mem x0, exists w, lowrank_refin F B mem x0 cramer dup iz (q 1) mem0 (fun _ _ => q 9) (fun _ _ => q 9) dup_r = Some w /\
    w_yc w 0 = mem 0 /\ w_yc w 1 = mem 1.
Proof.
  cbv zeta. set (N := lr_mat F cramer dup iz (q 1) mem0 (fun _ _ => q 9) (fun _ _ => q 9)).
  assert (P : forall b g, posvx2 2 N b g = (2%Z, g)).
  { intros b g. unfold posvx2. cbv zeta. replace (pos (N 0 0)) with true by (vm_compute; reflexivity).
    replace (pos (N 0 0 *! N 1 1 -! N 0 1 *! N 0 1)) with false by (vm_compute; reflexivity). reflexivity. }
  split; [exact posvx2_ok|]. split; [exact P|]. split.
  - intros w (_ & _ & H & _). pose proof (H 0 ltac:(cbn; lia)) as H0. pose proof (H 1 ltac:(cbn; lia)) as H1. cbn [nx dup p_Jc] in H0, H1.
    change (mz [[1]; [1]]%Z 1) with (mz [[1]; [1]]%Z 0) in H1.
    assert (E : r_yc dup_r 0 = r_yc dup_r 1).
    { transitivity (sumn 1 (fun j => mz [[1]; [1]]%Z 0 j *! w_x w j)).
      - rewrite <- H0. cbn [no_deltas e_cc]. generalize (sumn (K:=F) 1 (fun j => mz [[1]; [1]]%Z 0 j *! w_x w j)) (w_yc w 0). intros a y. exact (sub0 F a y).
      - rewrite <- H1. cbn [no_deltas e_cc]. generalize (sumn (K:=F) 1 (fun j => mz [[1]; [1]]%Z 0 j *! w_x w j)) (w_yc w 1). intros a y. symmetry. exact (sub0 F a y). }
    revert E. apply qneq. vm_compute. reflexivity.
  - intros mem x0. unfold lowrank_refin, lowrank, xycyd_dir. cbv zeta. unfold lr_solve. cbv zeta. rewrite refin_solver_ok.
    change (neq dup + ni dup) with 2. cbn [Nat.eqb k_posvx kernelsQ]. fold N. rewrite P. cbn [snd]. eexists. split; [reflexivity|]. split; reflexivity.
Qed.
Print Assumptions C93_failure_refuted.

(** * concrete cases *)
Definition A2 := mz [[2; 1]; [1; 3]]%Z.
Example C93_result_partial_case : let B := kernelsQ posvx2 in
  option_map (fun p => (fst (fst p), map (fun i => this (snd (fst p) i)) [0; 1], snd p)) (solve_refin F B zz zz 2 A2 (z [5; 10]%Z)) = Some (0%Z, [1%Q; 3%Q], 0).
Proof. vm_compute. reflexivity. Qed.
Example C93_solves_partial_case : let B := kernelsQ posvx2 in posvx_ok F (k_posvx B) /\ fst (k_posvx B 2 A2 (z [5; 10]%Z) zz) = 0%Z /\
  exists x n, solve_refin F B zz zz 2 A2 (z [5; 10]%Z) = Some (0%Z, x, n) /\ this (x 0) = 1%Q /\ this (x 1) = 3%Q.
Proof. split; [exact posvx2_ok|]. split; [vm_compute; reflexivity|]. eexists _, _. split; [reflexivity|]. split; vm_compute; reflexivity. Qed.
Example C93_direction_partial_case : let old := fun _ _ => q 9 in let B := kernelsQ posvx2 in remember F 2 (q 7) 1 qs2 = Some m2 /\ posvx_ok F (k_posvx B) /\
  (forall b, neq kl + ni kl > 0 -> fst (k_posvx B (neq kl + ni kl) (lr_mat F cramer kl kit (q 1) m2 old old) b zz) = 0%Z) /\
  interior F kl kit /\ defined F 2 (q 1) (lastn 1 qs2) /\
  (forall i, i < nx kl -> q 1 +! xdiag F kl kit i <> f0) /\ (forall i, i < ni kl -> ddiag F kl kit (no_deltas F) i <> f0) /\
  exactV F 2 cramer (q 1) (dhinv F (q 1) (barrier_x F kl kit)) m2 old /\
  shows (lowrank_refin F B zz zz cramer kl kit (q 1) m2 old old (full_op F kl kit (no_deltas F) kw)) = kws.
Proof.
  split; [unfold m2; got|]. split; [exact posvx2_ok|].
  split.
  { intros b _. change (neq kl + ni kl) with 2. cbn [k_posvx kernelsQ]. unfold posvx2. cbv zeta.
    match goal with |- context [if pos ?a then _ else _] => replace (pos a) with true by (vm_compute; reflexivity) end.
    match goal with |- context [if pos ?a then _ else _] => replace (pos a) with true by (vm_compute; reflexivity) end. reflexivity. }
  split; [repeat split; intros [|[|i]] L B; try (cbn in L; lia); try discriminate B; nz|]. split; [exact def2|].
  split; [intros [|[|i]] L; try (cbn in L; lia); nz|]. split; [intros [|i] L; [nz|cbn in L; lia]|].
  split; [intros r; apply cramer_ok; nz|]. vm_compute. reflexivity.
Qed.
