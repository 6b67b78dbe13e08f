(** What the documentation of the options says (hiopOptions.cpp 892-908, 1052-1058), independent of the functions that choose. *)
From Coq Require Import List Bool Arith ZArith QArith.
From Verif Require Import LinSelModel.
Import ListNotations.
Local Close Scope Q_scope. Local Open Scope nat_scope.

(** hiopOptions.cpp 899: the order for xycyd and xdycyd on the cpu *)
Definition cpu_order : list solver := [MA57; PARDISO; STRUMPACK; GINKGO].
(** hiopOptions.cpp 901: the order under hybrid *)
Definition hybrid_order : list solver := [RESOLVE; STRUMPACK; MA57; PARDISO].
(** hiopOptions.cpp 896: the order for the full system *)
Definition full_order : list solver := [RESOLVE; STRUMPACK; PARDISO].
(** [s] is the first solver of the order in the build (hiopOptions.cpp 897, "selected in this order") *)
Definition first_of (b : build) (order : list solver) (s : solver) : Prop :=
  exists l1 l2, order = l1 ++ s :: l2 /\ avail b s = true /\ forall t, In t l1 -> avail b t = false.
(** the choice named by linear_solver_sparse: the requested solver, or the first one under auto (hiopOptions.cpp 899-902) *)
Definition choice (b : build) (order : list solver) (req : option solver) (s : solver) : Prop :=
  match req with
  | Some t => s = t /\ In t order /\ avail b t = true
  | None => first_of b order s
  end.
(** the documentation in full: a requested solver that is not supported or not there counts as auto (hiopOptions.cpp 897-902) *)
Definition documented (b : build) (order : list solver) (req : option solver) (s : solver) : Prop :=
  match req with
  | Some t => if existsb (seqb t) order && avail b t then s = t else first_of b order s
  | None => first_of b order s
  end.
(** solvers without inertia (hiopOptions.cpp 1540) need the inertia-free acceptor *)
Definition inertia_ok (s : solver) (ic : bool) : Prop := (s = STRUMPACK \/ s = RESOLVE) -> ic = false.
