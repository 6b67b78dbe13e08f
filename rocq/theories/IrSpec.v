(** What a direction with outer iterative refinement is supposed to be, from the documentation of the options. *)
From Coq Require Import List Bool Arith ZArith.
From Verif Require Import FloatBase KrylovSpec.
Import ListNotations.

Section S.
Variable V : Type.
Variables (axpy : b64 -> V -> V -> V) (scale : b64 -> V -> V) (nrm : V -> b64).
(** the smaller of two thresholds *)
Definition below_both (t a b : b64) : Prop := (t = a \/ t = b) /\ (is_nan a = false -> is_nan b = false -> fle t a = true /\ fle t b = true).
(** the residual is at most t times the norm of the right-hand side, or the right-hand side has norm zero and is the direction *)
Definition relative (A : nat -> V -> V) (t : b64) (rhs x : V) : Prop :=
  (feq (nrm rhs) (fofZ 0) = true /\ x = rhs) \/ meets V axpy scale nrm A t rhs x.
(** the residual is at most t *)
Definition absolute (A : nat -> V -> V) (t : b64) (rhs x : V) : Prop := exists k, fle (nrm (residual V axpy scale rhs (A k x))) t = true.
End S.
