(** Inertia of a symmetric matrix, and what LAPACK's DSYTRF promises; independent of the model's loop. *)
From Coq Require Import List Bool ZArith Reals.
From Verif Require Import RingKit InertiaModel.
Import ListNotations.
Open Scope R_scope.

(** the linear form with coefficients [a] *)
Definition form (N : nat) (a x : nat -> R) : R := @sumn R_field N (fun i => a i * x i).
(** x'Ax *)
Definition quad (N : nat) (A : nat -> nat -> R) (x : nat -> R) : R :=
  @sumn R_field N (fun i => @sumn R_field N (fun j => A i j * x i * x j)).
Definition rsum (l : list R) : R := fold_right Rplus 0 l.
Definition symmetric (N : nat) (A : nat -> nat -> R) : Prop :=
  forall i j, (i < N)%nat -> (j < N)%nat -> A i j = A j i.
Definition nonsingular (N : nat) (A : nat -> nat -> R) : Prop :=
  forall x, (forall i, (i < N)%nat -> @sumn R_field N (fun j => A i j * x j) = 0) -> forall i, (i < N)%nat -> x i = 0.

(** a weighted form: value and coefficients *)
Notation wform := (prod R (nat -> R)).
(** A is diagonalised by congruence: x'Ax is the weighted sum of the squares of N independent linear forms *)
Definition diagonalises (N : nat) (A : nat -> nat -> R) (l : list wform) : Prop :=
  length l = N /\
  (forall x, quad N A x = rsum (map (fun w => fst w * form N (snd w) x ^ 2) l)) /\
  (forall x, (forall w, In w l -> form N (snd w) x = 0) -> forall i, (i < N)%nat -> x i = 0).
Definition negatives (l : list wform) : nat := length (filter (fun w => rltb (fst w) 0) l).

(** a complete orthonormal set of eigenvectors with their eigenvalues *)
Definition eigen_system (N : nat) (A : nat -> nat -> R) (l : list wform) : Prop :=
  length l = N /\
  (forall w, In w l -> forall i, (i < N)%nat -> @sumn R_field N (fun j => A i j * snd w j) = fst w * snd w i) /\
  (forall w, In w l -> form N (snd w) (snd w) = 1) /\
  ForallOrdPairs (fun v w => form N (snd v) (snd w) = 0) l.

(** ** the blocks of the factor D in A = W D W' *)
Inductive pblock := P1 (d : R) | P2 (a s c : R).
(** how DSYTRF stores them: MM and ipiv from position k on *)
Fixpoint stored (k : nat) (MM : nat -> nat -> R) (ipiv : nat -> Z) (bs : list pblock) : Prop :=
  match bs with
  | [] => True
  | P1 d :: r => (0 < ipiv k)%Z /\ MM k k = d /\ stored (S k) MM ipiv r
  | P2 a s c :: r => (ipiv k < 0)%Z /\ (ipiv (S k) < 0)%Z /\ MM k k = a /\ MM k (S k) = s /\ MM (S k) (S k) = c
                     /\ stored (S (S k)) MM ipiv r
  end.
Fixpoint bdim (bs : list pblock) : nat :=
  match bs with [] => 0 | P1 _ :: r => S (bdim r) | P2 _ _ _ :: r => S (S (bdim r)) end.
(** y'Dy *)
Fixpoint bquad (k : nat) (bs : list pblock) (y : nat -> R) : R :=
  match bs with
  | [] => 0
  | P1 d :: r => d * y k ^ 2 + bquad (S k) r y
  | P2 a s c :: r => (a * y k ^ 2 + 2 * s * y k * y (S k) + c * y (S k) ^ 2) + bquad (S (S k)) r y
  end.
(** the Bunch-Kaufman strategy takes a 2x2 pivot only when |a*c| < s*s (it bounds |a*c| by 0.41*s*s) *)
Definition pivot_rule (b : pblock) : Prop := match b with P1 _ => True | P2 a s c => Rabs (a * c) < s * s end.
(** the values compared with the threshold *)
Definition pivots (b : pblock) : list R :=
  match b with P1 d => [d] | P2 a s c => [(a * c - s * s) / Rabs s; Rabs s] end.
(** DSYTRF succeeded on the symmetric matrix A: A = W D W' with W nonsingular and D stored as documented *)
Definition factored (N : nat) (A : nat -> nat -> R) (F : trf) (bs : list pblock) (W : nat -> nat -> R) : Prop :=
  trf_info F = 0%Z /\ bdim bs = N /\ stored 0 (trf_a F) (trf_ipiv F) bs /\ Forall pivot_rule bs /\
  (forall x, quad N A x = bquad 0 bs (fun k => form N (fun i => W i k) x)) /\
  (forall x, (forall k, (k < N)%nat -> form N (fun i => W i k) x = 0) -> forall i, (i < N)%nat -> x i = 0).
(** a pivot value the loop does not take for zero *)
Definition large (p : R) : Prop := p < - tiny \/ tiny <= p.
