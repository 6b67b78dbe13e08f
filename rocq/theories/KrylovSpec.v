(** What a Krylov solve promises, independently of how the iterations work. *)
From Coq Require Import Arith ZArith.
From Verif Require Import FloatBase.

Section S.
Variable V : Type.
Variables (axpy : b64 -> V -> V -> V) (scale : b64 -> V -> V) (nrm : V -> b64) (A : nat -> V -> V).
(** b - Ax as the vector kernels compute it: minus (Ax - b) *)
Definition residual (b Ax : V) : V := scale (fofZ (-1)%Z) (axpy (fofZ (-1)%Z) b Ax).
(** the operator, on some call, gave a value at x whose residual norm is r *)
Definition residual_of (b x : V) (r : b64) : Prop := exists k, r = nrm (residual b (A k x)).
(** x passes the test ||b - Ax|| <= tol * ||b|| with A applied by the operator itself *)
Definition meets (tol : b64) (b x : V) : Prop :=
  exists r, residual_of b x r /\ fle r (fmul tol (nrm b)) = true.
End S.
