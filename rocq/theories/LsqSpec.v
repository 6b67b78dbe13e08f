(** Least-squares multipliers, stated on the mathematics of the problem only. *)
From Coq Require Import List Arith Reals.
From Verif Require Import RingKit SparseSpec InertiaModel.
Open Scope R_scope.

Section S.
Variables (n me mi : nat) (g : nat -> R) (Jc Jd : nat -> nat -> R) (zl zu vl vu : nat -> R).
Notation sm := (@sumn R_field).
(** gradient of the Lagrangian in the variables and in the slacks of the inequalities *)
Definition lag_x (yc yd : nat -> R) (i : nat) : R :=
  g i + sm me (fun k => Jc k i * yc k) + sm mi (fun k => Jd k i * yd k) - zl i + zu i.
Definition lag_d (yd : nat -> R) (j : nat) : R := - yd j - vl j + vu j.
(** the squared dual infeasibility *)
Definition dual_infeas (yc yd : nat -> R) : R :=
  sm n (fun i => lag_x yc yd i ^ 2) + sm mi (fun j => lag_d yd j ^ 2).
Definition least_squares (yc yd : nat -> R) : Prop := forall yc' yd', dual_infeas yc yd <= dual_infeas yc' yd'.
End S.
Definition bounded_by (m : nat) (v : nat -> R) (b : R) : Prop := forall i, (i < m)%nat -> Rabs (v i) <= b.

(** the rows of a matrix with m rows and n columns are independent *)
Definition independent (m n : nat) (J : nat -> nat -> R) : Prop :=
  forall u, (forall i, (i < n)%nat -> @sumn R_field m (fun k => J k i * u k) = 0) -> forall k, (k < m)%nat -> u k = 0.
(** a dense solver that answers on every positive definite matrix of order N (given by its upper triangle) *)
Definition solves_definite (N : nat) (S : nat -> (nat -> nat -> R) -> (nat -> R) -> option (nat -> R)) : Prop := forall M r,
  (forall y, (exists i, (i < N)%nat /\ y i <> 0) ->
     0 < @sumn R_field N (fun i => y i * @sumn R_field N (fun j => (if (i <=? j)%nat then M i j else M j i) * y j))) -> S N M r <> None.
(** the symmetric matrix of which one triangle is given is nonsingular *)
Definition regular (N : nat) (l : list (SparseModel.entry R_field)) : Prop := forall x,
  (forall i, (i < N)%nat -> @sumn R_field N (fun j => symmat l i j * x j) = 0) -> forall i, (i < N)%nat -> x i = 0.
