(** What the reductions should compute, on the undistributed vector. *)
From Coq Require Import List QArith Qabs Qminmax Reals.
Import ListNotations.
Open Scope Q_scope.
Fixpoint sumQ (l : list Q) : Q := match l with [] => 0 | a :: r => a + sumQ r end.
Definition is_max_abs (x : list Q) (m : Q) : Prop :=
  0 <= m /\ (forall v, In v x -> Qabs v <= m) /\ (m == 0 \/ exists v, In v x /\ Qabs v == m).
(** [m] is the smallest entry, or [top] when no entry is below [top] *)
Definition is_min (top : Q) (x : list Q) (m : Q) : Prop :=
  m <= top /\ (forall v, In v x -> m <= v) /\ (m == top \/ exists v, In v x /\ v == m).
Fixpoint sumsq (l : list R) : R := match l with [] => R0 | a :: r => Rplus (Rmult a a) (sumsq r) end.
