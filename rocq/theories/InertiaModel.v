(** The dense symmetric indefinite solver and the inertia it reports:
    src/LinAlg/hiopLinSolverSymDenseLapack.hpp 76-188.
    Real arithmetic (the C++ uses double; rounding is not modelled).  The LAPACK routines DSYTRF and DSYTRS
    are oracles.  Not modelled: the workspace query, timers, logging. *)
From Coq Require Import List Bool ZArith Reals.
From Verif Require Import RingKit.
Import ListNotations.
Open Scope R_scope.

(** the reals as a [cfield] (stdlib field structure); no counterpart in /repo *)
Definition R_field : cfield := CField R _ _ _ _ _ _ _ _ Rfield.
(** comparison [a < b] of doubles; no counterpart in /repo *)
Definition rltb (a b : R) : bool := if Rlt_dec a b then true else false.
(** comparison [a == b] of doubles; no counterpart in /repo *)
Definition reqb (a b : R) : bool := if Req_EM_T a b then true else false.

(** the literal 1e-14, hiopLinSolverSymDenseLapack.hpp 154, 156 *)
Definition tiny : R := / 10 ^ 14.

(** the counters and the flag of the loop: t, negEigVal, nullEigVal; hiopLinSolverSymDenseLapack.hpp 127-130
    (posEigVal is never read) *)
Record ist := Ist { i_t : R; i_neg : nat; i_null : nat }.

(** hiopLinSolverSymDenseLapack.hpp 154-161: one pivot value is classified *)
Definition classify (d : R) (s : ist) : ist :=
  if rltb d (- tiny) then Ist (i_t s) (S (i_neg s)) (i_null s)
  else if rltb d tiny then Ist (i_t s) (i_neg s) (S (i_null s))
  else s.

(** hiopLinSolverSymDenseLapack.hpp 133-162, one pass of the loop: the row-major array [MM] after the
    factorization, the pivot indices [ipiv].  None: the assertion k+1<N fails, or the division d/t has t == 0
    (not-a-number or infinity in C++). *)
Definition inertia_step (N : nat) (MM : nat -> nat -> R) (ipiv : nat -> Z) (k : nat) (s : ist) : option ist :=
  let d := MM k k in
  if (ipiv k <=? 0)%Z then
    if reqb (i_t s) 0 then
      if Nat.ltb (k + 1) N then
        let t := Rabs (MM k (k + 1)%nat) in
        if reqb t 0 then None
        else Some (classify (d / t * MM (k + 1)%nat (k + 1)%nat - t) (Ist t (i_neg s) (i_null s)))
      else None
    else Some (classify (i_t s) (Ist 0 (i_neg s) (i_null s)))
  else Some (classify d s).

(** the answer of DSYTRF: [info], the overwritten array, the pivot indices; hiopLinSolverSymDenseLapack.hpp 100-102 *)
Record trf := Trf { trf_info : Z; trf_a : nat -> nat -> R; trf_ipiv : nat -> Z }.

(** hiopLinSolverSymDenseLapack.hpp 75-168 [matrixChanged], after the factorization [F] of the N x N matrix:
    the number of negative eigenvalues, or -1 *)
Definition matrix_changed (N : nat) (F : trf) : option Z :=
  if Nat.eqb N 0 then Some 0%Z
  else if negb (Z.eqb (trf_info F) 0) then Some (-1)%Z
  else match ofold (inertia_step N (trf_a F) (trf_ipiv F)) (seq 0 N) (Ist 0 0 0) with
       | None => None
       | Some s => if Nat.ltb 0 (i_null s) then Some (-1)%Z else Some (Z.of_nat (i_neg s))
       end.
