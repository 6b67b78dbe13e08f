(** The barrier function, written directly: f - mu * sum of logs of the distances to the present bounds
    + mu * kd * sum of the distances of the variables bounded on one side only. *)
From Coq Require Import List Reals.
From Verif Require Import LogBarModel.
Import ListNotations.
Open Scope R_scope.

Fixpoint rsum (l : list R) : R := match l with [] => 0 | a :: r => a + rsum r end.
(** distance to a bound, used only where the bound is present *)
Definition has_l (v : bvar) : Prop := b_il v = 1.
Definition has_u (v : bvar) : Prop := b_iu v = 1.
Definition when (P : R) (x : R) : R := if Req_EM_T P 1 then x else 0.
Definition unless (P : R) (x : R) : R := if Req_EM_T P 1 then 0 else x.
(** one variable's part of the barrier function when its value is y *)
Definition bar1 (mu kd : R) (v : bvar) (y : R) : R :=
  - mu * (when (b_il v) (ln (y - b_l v)) + when (b_iu v) (ln (b_u v - y)))
  + mu * kd * (when (b_il v) (unless (b_iu v) (y - b_l v)) + when (b_iu v) (unless (b_il v) (b_u v - y))).
(** the barrier function along the step *)
Definition barrier (mu kd : R) (f : R -> R) (vs : list bvar) (t : R) : R :=
  f t + rsum (map (fun v => bar1 mu kd v (b_x v + t * b_dx v)) vs).

(** a pattern of zeros and ones, strictly inside the present bounds *)
Definition inside (v : bvar) : Prop :=
  (b_il v = 0 \/ b_il v = 1 /\ b_l v < b_x v) /\ (b_iu v = 0 \/ b_iu v = 1 /\ b_x v < b_u v).
(** the derivative of the objective along the step, by the user's gradient *)
Definition slope (vs : list bvar) : R := rsum (map (fun v => b_g v * b_dx v) vs).
