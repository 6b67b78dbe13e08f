(** What is asked of the dense solve of the quasi-Newton direction: vocabulary independent of [RefinModel]'s loop. *)
From Coq Require Import List Bool Arith ZArith.
From Verif Require Import RingKit.

Section Spec.
Variable K : cfield.
Notation vec := (nat -> K).
Notation mat := (nat -> nat -> K).
(** x solves the symmetric system whose upper triangle is stored in A *)
Definition solves_upper (N : nat) (A : mat) (b x : vec) : Prop :=
  forall i, i < N -> sumn N (fun j => (if i <=? j then A i j else A j i) *! x j) = b i.
(** LAPACK's description of DPOSVX: with INFO = 0 or N+1 X is a solution (here exact); with INFO from 1 to N the
    leading minor of that order is not positive definite and X is not touched *)
Definition posvx_ok (f : nat -> mat -> vec -> vec -> Z * vec) : Prop := forall N A b g info x, f N A b g = (info, x) ->
  (info = 0%Z \/ info = Z.of_nat (N + 1) -> solves_upper N A b x) /\
  ((1 <= info <= Z.of_nat N)%Z -> x = g).
(** DPOTRF of A followed by DPOTRS solves, for every right-hand side (exactly) *)
Definition chol_ok (fac : nat -> mat -> mat) (slv : nat -> mat -> vec -> vec) (N : nat) (A : mat) : Prop :=
  forall b, solves_upper N A b (slv N (fac N A) b).
(** the residual b - A*x, all entries of A being read *)
Definition residual (N : nat) (A : mat) (b x : vec) : vec := fun i => b i -! sumn N (fun j => A i j *! x j).
End Spec.
