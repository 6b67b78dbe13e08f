(** What a user of duals_init_linear_solver_sparse relies on (hiopOptions.cpp 920-930), independent of the selection code. *)
From Coq Require Import List Bool.
From Verif Require Import LinSelModel LinSelSpec.
Import ListNotations.

(** the solvers that can compute initial multipliers on the cpu, best first: MA57 is chosen by auto (hiopOptions.cpp 921) *)
Definition lsq_cpu_order : list solver := [MA57; PARDISO; GINKGO; STRUMPACK].
(** with a device; the solvers named by the option (hiopOptions.cpp 925), ReSolve first *)
Definition lsq_device_order : list solver := [RESOLVE; STRUMPACK; MA57; PARDISO; GINKGO].
(** hiopOptions.cpp 922: "when GPU mode is on, STRUMPACK is chosen by 'auto' if available" *)
Definition documented_auto (b : build) (r : res) : Prop := avail b STRUMPACK = true -> r = Cur (Some STRUMPACK).
(** the user's request is met: the named solver is in the build and is the one used (hiopOptions.cpp 920-930) *)
Definition request_met (b : build) (order : list solver) (t : solver) (r : res) : Prop :=
  In t order -> avail b t = true -> r = Cur (Some t).
(** no solver named by the option or found by auto is there (hiopOptions.cpp 920-930) *)
Definition none_fits (b : build) (order : list solver) (l : option solver) : Prop := forall s, ~ choice b order l s.
