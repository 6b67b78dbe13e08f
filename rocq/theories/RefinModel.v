(** The dense solve of the quasi-Newton direction: hiopKKTLinSysLowRank::solveWithRefin,
    src/Optimization/hiopKKTLinSys.cpp 1192-1350.  LAPACK's routines, the residual product, the vector addition and
    the comparison of the norm are parameters, so that the model covers binary64 and exact arithmetic alike.
    A vector is a function on indices, a matrix one on pairs; logging is left out. *)
From Coq Require Import List Bool Arith ZArith.
From Verif Require Import RingKit KktModel KktModel2.
Import ListNotations.

Section Refin.
Variable T : Type.
Notation vec := (nat -> T).
Notation mat := (nat -> nat -> T).

(** what the loop calls: DPOSVX (hiopKKTLinSys.cpp 1228-1237; matrix, right-hand side and the memory of X before the
    call give INFO and X after it), DPOTRF (1281) and DPOTRS (1290), [Aref->timesVec(1.0,resid,-1.0,x)] (1251),
    [x->axpy(1.,dx)] (1312) and [resid->infnorm() < 1e-8] (1255-1258) *)
Record kernels := Kernels {
  k_posvx : nat -> mat -> vec -> vec -> Z * vec;
  k_potrf : nat -> mat -> mat;
  k_potrs : nat -> mat -> vec -> vec;
  k_resid : nat -> mat -> vec -> vec -> vec;
  k_add : nat -> vec -> vec -> vec;
  k_small : nat -> vec -> bool }.
Variable B : kernels.

(** the variables of the loop: x, M and nIterRefin; hiopKKTLinSys.cpp 1242-1247 *)
Record rstate := RState { s_x : vec; s_M : mat; s_n : nat }.
(** hiopKKTLinSys.cpp 1247 MAX_ITER_REFIN *)
Definition max_refin : nat := 3.
(** hiopKKTLinSys.cpp 1249-1314: one pass of the loop; [inl]: left by break, [inr]: the next pass.  X and Aref, rhsref
    are not written by the loop. *)
Definition pass (N : nat) (X : vec) (Aref : mat) (rhsref : vec) (s : rstate) : rstate + rstate :=
  let x := X in
  let resid := k_resid B N Aref rhsref x in
  if k_small B N resid then inl (RState x (s_M s) (s_n s))
  else if max_refin <=? s_n s then inl (RState x (s_M s) (s_n s))
  else
    let M := k_potrf B N Aref in
    let dx := k_potrs B N M resid in
    inr (RState (k_add B N x dx) M (S (s_n s))).
(** hiopKKTLinSys.cpp 1248-1315: the loop, at most [fuel] passes *)
Fixpoint passes (fuel N : nat) (X : vec) (Aref : mat) (rhsref : vec) (s : rstate) : option rstate :=
  match fuel with
  | O => None
  | S f => match pass N X Aref rhsref s with inl s' => Some s' | inr s' => passes f N X Aref rhsref s' end
  end.
(** hiopKKTLinSys.cpp 1192-1350 solveWithRefin: the return value, rhs afterwards and the number of refinements; [mem] is what
    the memory of X holds when it is allocated (1218), [x0] the values of the vector x when it is allocated (1242).  M
    afterwards is not used by the caller (1169-1190). *)
Definition solve_refin (mem x0 : vec) (N : nat) (M : mat) (rhs : vec) : option (Z * vec * nat) :=
  if N =? 0 then Some (0%Z, rhs, 0)
  else
    let X := snd (k_posvx B N M rhs mem) in
    match passes (max_refin + 1) N X M rhs (RState x0 M 0) with
    | Some s => Some (0%Z, s_x s, s_n s)
    | None => None
    end.
(** hiopKKTLinSys.cpp 1169 and 1189: as the solver of solveCompressed *)
Definition refin_solver (mem x0 : vec) (N : nat) (M : mat) (rhs : vec) : option vec :=
  match solve_refin mem x0 N M rhs with
  | Some (ierr, x, _) => if Z.eqb ierr 0 then Some x else None
  | None => None
  end.
End Refin.
Arguments k_posvx {T}. Arguments k_potrf {T}. Arguments k_potrs {T}. Arguments k_resid {T}. Arguments k_add {T}. Arguments k_small {T}.

(** hiopKKTLinSys.cpp 1110-1190, 585-692: the direction of the quasi-Newton solver with this solve *)
Definition lowrank_refin (K : cfield) (B : kernels K) (mem x0 : nat -> K) solveV (P : prob K) (it : iter K) sigma m old Wold (r : resid K) : option (iter K) :=
  lowrank K solveV (refin_solver K B mem x0) P it sigma m old Wold r.
