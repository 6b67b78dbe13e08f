(** C32 and C53: what the Krylov solvers guarantee for arbitrary operators, preconditioners and vector kernels. *)
From Coq Require Import List Bool Arith ZArith Lia.
From Verif Require Import FloatBase KrylovModel KrylovSpec KrylovProofs.
Import ListNotations.

Section Any.
Variable V : Type.
Variables (axpy : b64 -> V -> V -> V) (scale : b64 -> V -> V) (dot : V -> V -> b64) (nrm : V -> b64) (zero : V -> V).
Variables (A : nat -> V -> V) (ML MR : option (nat -> V -> V)).
Notation pcg_solve := (pcg_solve V axpy scale dot nrm zero A ML MR).
Notation bi_solve := (bi_solve V axpy scale dot nrm zero A ML MR).

(** Success means the returned vector passes the residual test with the operator itself applied to it,
    except for a right-hand side of norm zero, which is returned as its own solution without applying the operator. *)
Theorem C32_success_partial : forall s b s' x calls,
  pcg_solve s b = (s', x, true, calls) \/ bi_solve s b = (s', x, true, calls) ->
  (feq (nrm b) (fofZ 0) = true /\ x = b /\ calls = 0) \/
  (feq (nrm b) (fofZ 0) = false /\ meets V axpy scale nrm A (k_tol V s) b x).
Proof.
  intros s b s' x calls [H|H].
  - pose proof (pcg_solve_ok V axpy scale dot nrm zero A ML MR s b) as O. rewrite H in O.
    destruct O as (O & _). destruct (O eq_refl) as (_ & _ & [(Z & X & _ & C & _)|(R & F & _ & _ & Z)]).
    + left. auto.
    + right. split; [exact Z|]. exists (k_abs V s'). auto.
  - pose proof (bi_solve_ok V axpy scale dot nrm zero A ML MR s b) as O. rewrite H in O.
    destruct O as (O & _). destruct (O eq_refl) as (_ & _ & [(Z & X & _ & C & _)|(R & F & _ & _ & Z)]).
    + left. auto.
    + right. split; [exact Z|]. exists (k_abs V s'). auto.
Qed.

(** The return value and the convergence flag agree, and tolerance and limit are not changed. *)
Theorem C32_flag : forall s b s' x ok calls,
  pcg_solve s b = (s', x, ok, calls) \/ bi_solve s b = (s', x, ok, calls) ->
  (ok = true <-> k_flag V s' = 0) /\ k_tol V s' = k_tol V s /\ k_maxit V s' = k_maxit V s.
Proof.
  intros s b s' x ok calls [H|H].
  - pose proof (pcg_solve_ok V axpy scale dot nrm zero A ML MR s b) as O. rewrite H in O.
    destruct O as (O1 & O2 & _ & O4). split; [|exact O4]. destruct ok; [destruct (O1 eq_refl); tauto|].
    destruct (O2 eq_refl) as (F & _). split; [discriminate|lia].
  - pose proof (bi_solve_ok V axpy scale dot nrm zero A ML MR s b) as O. rewrite H in O.
    destruct O as (O1 & O2 & _ & O4). split; [|exact O4]. destruct ok; [destruct (O1 eq_refl); tauto|].
    destruct (O2 eq_refl) as (F & _). split; [discriminate|lia].
Qed.

(** Work: operator calls (preconditioners included) are bounded by a multiple of the limit; a success reports at most
    the allowed number of iterations, a failure at most one more. *)
Theorem C32_work_partial : forall s b s' x ok calls,
  pcg_solve s b = (s', x, ok, calls) \/ bi_solve s b = (s', x, ok, calls) ->
  calls <= 8 * k_maxit V s + 2 /\
  (ok = true -> k_iter V s' <= 2 * k_maxit V s) /\ (ok = false -> k_iter V s' <= 2 * (k_maxit V s + 1)).
Proof.
  assert (PC : pc V ML MR <= 2) by (unfold pc, one; destruct ML, MR; lia).
  intros s b s' x ok calls [H|H].
  - pose proof (pcg_solve_ok V axpy scale dot nrm zero A ML MR s b) as O. rewrite H in O.
    destruct O as (O1 & O2 & O3 & _). split; [nia|]. split; intros E; [destruct (O1 E) as (_ & I & _)|destruct (O2 E) as (_ & I & _)]; exact I.
  - pose proof (bi_solve_ok V axpy scale dot nrm zero A ML MR s b) as O. rewrite H in O.
    destruct O as (O1 & O2 & O3 & _). split; [nia|]. split; intros E; [destruct (O1 E) as (_ & I & _)|destruct (O2 E) as (_ & I & _)]; exact I.
Qed.

(** With an operator that answers the same at every call, repeating a successful solve with the same right-hand
    side returns the same vector at once: the solution found is the initial guess of the next solve. *)
Theorem C32_resolve : forall s b s' x calls, (forall k v, A k v = A 0 v) ->
  (pcg_solve s b = (s', x, true, calls) ->
   exists s'' c, pcg_solve s' b = (s'', x, true, c) /\ k_iter V s'' = 0 /\ c <= 1) /\
  (bi_solve s b = (s', x, true, calls) ->
   exists s'' c, bi_solve s' b = (s'', x, true, c) /\ k_iter V s'' = 0 /\ c <= 1).
Proof.
  intros s b s' x calls HA. split; intros H.
  - pose proof (pcg_solve_ok V axpy scale dot nrm zero A ML MR s b) as O. rewrite H in O.
    destruct O as (O1 & _ & _ & O4 & O5). destruct (O1 eq_refl) as (_ & _ & [(Z & X & _)|(R & F & _ & X0 & Z)]).
    + unfold KrylovModel.pcg_solve. rewrite Z, X. eexists _, _. split; [reflexivity|]. split; [reflexivity|lia].
    + unfold KrylovModel.pcg_solve. rewrite Z, X0. unfold tolb. rewrite O4.
      destruct R as (k & R). rewrite HA in R. change (k_abs V s' = nrm (resid V axpy scale (A 0 x) b)) in R. rewrite <- R, F.
      eexists _, _. split; [reflexivity|]. split; [reflexivity|lia].
  - pose proof (bi_solve_ok V axpy scale dot nrm zero A ML MR s b) as O. rewrite H in O.
    destruct O as (O1 & _ & _ & O4 & O5). destruct (O1 eq_refl) as (_ & _ & [(Z & X & _)|(R & F & _ & X0 & Z)]).
    + unfold KrylovModel.bi_solve. rewrite Z, X. eexists _, _. split; [reflexivity|]. split; [reflexivity|lia].
    + unfold KrylovModel.bi_solve. rewrite Z, X0. unfold tolb. rewrite O4.
      destruct R as (k & R). rewrite HA in R. change (k_abs V s' = nrm (resid V axpy scale (A 0 x) b)) in R. rewrite <- R, F.
      eexists _, _. split; [reflexivity|]. split; [reflexivity|lia].
Qed.

(** The residual reported after a success is the one of the returned vector, and the relative one is its quotient by ||b||. *)
Theorem C53_success_partial : forall s b s' x calls, feq (nrm b) (fofZ 0) = false ->
  pcg_solve s b = (s', x, true, calls) \/ bi_solve s b = (s', x, true, calls) ->
  residual_of V axpy scale nrm A b x (k_abs V s') /\ k_rel V s' = fdiv (k_abs V s') (nrm b).
Proof.
  intros s b s' x calls NZ [H|H].
  - pose proof (pcg_solve_ok V axpy scale dot nrm zero A ML MR s b) as O. rewrite H in O.
    destruct O as (O & _). destruct (O eq_refl) as (_ & _ & [(Z & _)|(R & _ & Q & _)]); [|auto].
    exfalso. change (fofZ 0) with f_zero in NZ. rewrite Z in NZ. discriminate.
  - pose proof (bi_solve_ok V axpy scale dot nrm zero A ML MR s b) as O. rewrite H in O.
    destruct O as (O & _). destruct (O eq_refl) as (_ & _ & [(Z & _)|(R & _ & Q & _)]); [|auto].
    exfalso. change (fofZ 0) with f_zero in NZ. rewrite Z in NZ. discriminate.
Qed.
End Any.
Print Assumptions C32_success_partial.
Print Assumptions C32_flag.
Print Assumptions C32_work_partial.
Print Assumptions C32_resolve.
Print Assumptions C53_success_partial.

(** vectors of length one, and of length two *)
Definition axpy1 (a x y : b64) := fadd y (fmul a x).
Definition pcg1 A := pcg_solve b64 axpy1 fmul fmul fabs (fun _ => f_zero) (fun _ : nat => A) None None.
Definition bi1 A := bi_solve b64 axpy1 fmul fmul fabs (fun _ => f_zero) (fun _ : nat => A) None None.
Definition tol20 : b64 := fdiv (fofZ 1) (fofZ 1048576).
Definition s1 n := Solver b64 tol20 n 0 0 f_zero f_zero None.
Definition V2 := (b64 * b64)%type.
Definition axpy2 (a : b64) (x y : V2) : V2 := (axpy1 a (fst x) (fst y), axpy1 a (snd x) (snd y)).
Definition scale2 (a : b64) (x : V2) : V2 := (fmul a (fst x), fmul a (snd x)).
Definition dot2 (x y : V2) : b64 := fadd (fmul (fst x) (fst y)) (fmul (snd x) (snd y)).
(** a stand-in for the two-norm (the theorems take any function) *)
Definition nrm2 (x : V2) : b64 := fadd (fabs (fst x)) (fabs (snd x)).
(** the matrix [4 1; 1 3] *)
Definition A2 (_ : nat) (x : V2) : V2 := (fadd (fmul (fofZ 4) (fst x)) (snd x), fadd (fst x) (fmul (fofZ 3) (snd x))).
Definition s2 n := Solver V2 tol20 n 0 0 f_zero f_zero None.
Definition b2 : V2 := (fofZ 1, fofZ 2).

Definition okof {X} (r : solver X * X * bool * nat) : bool := snd (fst r).
Definition iterof {X} (r : solver X * X * bool * nat) : nat := k_iter X (fst (fst (fst r))).
(** both solvers succeed on a 2x2 system, in two iterations (one and a half at least for BiCGStab) *)
Example C32_success_case :
  let p := pcg_solve V2 axpy2 scale2 dot2 nrm2 (fun _ => (f_zero, f_zero)) A2 None None (s2 8) b2 in
  let q := bi_solve V2 axpy2 scale2 dot2 nrm2 (fun _ => (f_zero, f_zero)) A2 None None (s2 8) b2 in
  okof p = true /\ iterof p = 4 /\ okof q = true /\ (3 <= iterof q <= 4) /\ feq (nrm2 b2) (fofZ 0) = false.
Proof. vm_compute. repeat split; auto with arith. Qed.
(** with a limit of one iteration both fail *)
Example C32_flag_case :
  let p := pcg_solve V2 axpy2 scale2 dot2 nrm2 (fun _ => (f_zero, f_zero)) A2 None None (s2 1) b2 in
  let q := bi_solve V2 axpy2 scale2 dot2 nrm2 (fun _ => (f_zero, f_zero)) A2 None None (s2 1) b2 in
  okof p = false /\ okof q = false.
Proof. vm_compute. auto. Qed.
(** the hypotheses of the resolve theorem hold for that system *)
Example C32_resolve_case : forall k v, A2 k v = A2 0 v.
Proof. reflexivity. Qed.

(** Nonlinear operators: a right-hand side of norm zero is declared solved by itself although the operator does not vanish there. *)
Theorem C32_zero_rhs_refuted : exists A s b x s' calls,
  pcg1 A s b = (s', x, true, calls) /\ ~ meets b64 axpy1 fmul fabs (fun _ => A) (k_tol b64 s) b x.
Proof.
  exists (fun _ => fofZ 1), (s1 8), f_zero, f_zero, (fst (fst (fst (pcg1 (fun _ => fofZ 1) (s1 8) f_zero)))), 0.
  split; [vm_compute; reflexivity|]. intros (r & (k & R) & L). rewrite R in L. vm_compute in L. discriminate.
Qed.
Print Assumptions C32_zero_rhs_refuted.

(** The iteration count reported after a failure can exceed the limit, for both solvers, on the 2x2 system. *)
Theorem C32_iter_refuted : exists s,
  2 * k_maxit V2 s < iterof (pcg_solve V2 axpy2 scale2 dot2 nrm2 (fun _ => (f_zero, f_zero)) A2 None None s b2) /\
  2 * k_maxit V2 s < iterof (bi_solve V2 axpy2 scale2 dot2 nrm2 (fun _ => (f_zero, f_zero)) A2 None None s b2).
Proof. exists (s2 0). vm_compute. auto with arith. Qed.
Theorem C32_bicg_iter_refuted : exists s, 0 < k_maxit V2 s /\
  2 * k_maxit V2 s < iterof (bi_solve V2 axpy2 scale2 dot2 nrm2 (fun _ => (f_zero, f_zero)) A2 None None s b2).
Proof. exists (s2 1). vm_compute. auto with arith. Qed.
Print Assumptions C32_iter_refuted.
Print Assumptions C32_bicg_iter_refuted.

(** 4 - 2/(1+x*x) *)
Definition A4 (x : b64) : b64 := fsub (fofZ 4) (fdiv (fofZ 2) (fadd (fofZ 1) (fmul x x))).
(** After a failure BiCGStab can report a residual more than ten times smaller than the one of the vector it
    returns, because the right-hand side was overwritten before the last residual was computed; and conjugate
    gradients can report the residual of its recurrence. *)
Theorem C53_bicg_refuted : exists A s b s' x calls,
  bi1 A s b = (s', x, false, calls) /\ feq (k_abs b64 s') (fabs (residual b64 axpy1 fmul b (A x))) = false /\
  flt (fmul (fofZ 10) (k_abs b64 s')) (fabs (residual b64 axpy1 fmul b (A x))) = true.
Proof.
  exists A4, (s1 100), (fofZ 4).
  exists (fst (fst (fst (bi1 A4 (s1 100) (fofZ 4))))), (snd (fst (fst (bi1 A4 (s1 100) (fofZ 4))))), (snd (bi1 A4 (s1 100) (fofZ 4))).
  split; [vm_compute; reflexivity|]. vm_compute. auto.
Qed.
Definition A49 (x : b64) : b64 := if feq x (fofZ 0) then x else if feq x (fofZ 1) then fofZ 49 else fofZ 5.
Theorem C53_pcg_refuted : exists A s b s' x calls,
  pcg1 A s b = (s', x, false, calls) /\ flt (k_abs b64 s') (fabs (residual b64 axpy1 fmul b (A x))) = true.
Proof.
  pose (s := Solver b64 f_zero 1 0 0 f_zero f_zero None).
  exists A49, s, (fofZ 1).
  exists (fst (fst (fst (pcg1 A49 s (fofZ 1))))), (snd (fst (fst (pcg1 A49 s (fofZ 1))))), (snd (pcg1 A49 s (fofZ 1))).
  split; [vm_compute; reflexivity|]. vm_compute. auto.
Qed.
Print Assumptions C53_bicg_refuted.
Print Assumptions C53_pcg_refuted.
