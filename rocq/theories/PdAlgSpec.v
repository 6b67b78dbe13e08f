(** Specification of the safeguards and of the end of the primal decomposition. *)
From Coq Require Import List Bool.
From Verif Require Import FloatBase.
Import ListNotations.

(** lo <= v <= hi; false for a NaN *)
Definition within (lo hi v : b64) : Prop := fle lo v = true /\ fle v hi = true.
(** iteration [k] (0-based) of a history of convergence measures is one to stop at: converged, the last
    allowed, or the last of [A] acceptable ones in a row *)
Definition stop_at (tol accp_tol : b64) (max_iter A : nat) (cs : list b64) (k : nat) : Prop :=
  (exists c, nth_error cs k = Some c /\ flt c tol = true) \/ S k = max_iter \/
  (A <= S k /\ forall j, j <= k -> k < j + A -> exists c, nth_error cs j = Some c /\ fle c accp_tol = true).
