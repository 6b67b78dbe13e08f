(** Which linear solver computes the initial equality multipliers of a sparse problem: src/Optimization/hiopDualsUpdater.cpp
    350-538 (instantiate_linear_solver), called by hiopDualsUpdater.hpp 369-375 with the option
    duals_init_linear_solver_sparse, and src/Optimization/hiopAlgFilterIPM.cpp 338-343, 401-417.  Asserts are compiled in
    as in [LinSelModel]: a failed assert is [Abort].  The object is new (lin_sys_ is null): hiopAlgFilterIPM.cpp 408-412
    allocates one for the Newton solver.  Not modelled: sizes passed to the constructors, logging. *)
From Coq Require Import List Bool Arith Reals.
From Verif Require Import LinSelModel LsqModel.
Import ListNotations.
Local Close Scope R_scope. Local Open Scope nat_scope.

(** hiopDualsUpdater.cpp 379-435, compute mode cpu *)
Definition lsq_cpu (b : build) (l : option solver) (ic : bool) : res :=
  let r := if (is_req l MA57 || is_auto l) && b_coinhsl b then Some MA57 else None in
  let r := if ((null r && is_auto l) || is_req l PARDISO) && b_pardiso b then Some PARDISO else r in
  let r := if ((null r && is_auto l) || is_req l GINKGO) && b_ginkgo b then Some GINKGO else r in
  if null r && b_strumpack b
  then if is_req l STRUMPACK || is_auto l then if ic then Abort else Cur (Some STRUMPACK) else Abort
  else Cur r.
(** one block [#ifdef; if(nullptr==lin_sys_) { assert(requested or auto); new }; #endif] of hiopDualsUpdater.cpp 497-507,
    508-518 *)
Definition last_resort (b : build) (l : option solver) (s : solver) (r : option solver) (k : option solver -> res) : res :=
  if avail b s && null r then if is_req l s || is_auto l then k (Some s) else Abort else k r.
(** hiopDualsUpdater.cpp 488-532: the solvers after ReSolve; under gpu the assert 488 fails *)
Definition lsq_after (b : build) (mode : cmode) (l : option solver) (r : option solver) : res :=
  match mode with
  | Hybrid | CAuto =>
      let r := if b_strumpack b && null r && (is_req l STRUMPACK || is_auto l) then Some STRUMPACK else r in
      last_resort b l MA57 r (fun r =>
      last_resort b l PARDISO r (fun r =>
      Cur (if null r && b_ginkgo b then Some GINKGO else r)))
  | _ => Abort
  end.
(** hiopDualsUpdater.cpp 437-533, the other compute modes; 446-450 asserts under gpu; 451-457 does not look at the solver
    requested; without ReSolve the gpu mode asserts (466-485) *)
Definition lsq_device (b : build) (mode : cmode) (l : option solver) (ic : bool) : res :=
  if b_resolve b then
    if match mode with Gpu => negb (is_req l RESOLVE || is_auto l) | _ => false end then Abort
    else if ic then Abort
    else lsq_after b mode l (if is_req l RESOLVE || is_auto l then Some RESOLVE else None)
  else match mode with Gpu => Abort | _ => lsq_after b mode l None end.
(** hiopDualsUpdater.cpp 350-538 with lin_sys_ null; [l] = the option, [None] for auto.  The returned flag is whether there
    is a solver (537) *)
Definition sel_lsq (b : build) (mode : cmode) (l : option solver) (ic : bool) : res :=
  match mode with Cpu => lsq_cpu b l ic | _ => lsq_device b mode l ic end.
(** hiopAlgFilterIPM.cpp 338-343, 401-417: the multipliers are zero, then the least-squares problem is tried.  [upd s] is
    do_lsq_update with the solver [s]; None: a failed assert *)
Definition start_duals (b : build) (mode : cmode) (l : option solver) (ic : bool)
    (upd : solver -> (nat -> R) -> (nat -> R) -> bool * (nat -> R) * (nat -> R)) (me mi : nat) (ymax : R)
  : option ((nat -> R) * (nat -> R)) :=
  let zero := fun _ : nat => 0%R in
  match sel_lsq b mode l ic with
  | Abort => None
  | Cur r =>
      let u yc yd := match r with Some s => upd s yc yd | None => (false, yc, yd) end in
      let '(_, yc, yd) := initial_duals (negb (null r)) u me mi ymax zero zero in Some (yc, yd)
  end.
