(** Slope of the barrier function and curvature of the barrier Lagrangian along a direction. *)
From Coq Require Import List Bool Arith.
From Verif Require Import RingKit KktModel KktSpec.
Open Scope nat_scope.

Section S.
Variable K : cfield.
(** gradient of  f + damping - mu (sum of the logarithms of the slacks)  in x and in d *)
Definition bar_x (P : prob K) (v : nlpvals K) (it : iter K) (i : nat) : K :=
  v_grad v i +! v_dampx v i -! (if ixl P i then v_mu v /! w_sxl it i else f0) +! (if ixu P i then v_mu v /! w_sxu it i else f0).
Definition bar_d (P : prob K) (v : nlpvals K) (it : iter K) (i : nat) : K :=
  v_dampd v i -! (if idl P i then v_mu v /! w_sdl it i else f0) +! (if idu P i then v_mu v /! w_sdu it i else f0).
(** directional derivative of the barrier function *)
Definition slope (P : prob K) (v : nlpvals K) (it w : iter K) : K :=
  sumn (nx P) (fun i => bar_x P v it i *! w_x w i) +! sumn (ni P) (fun i => bar_d P v it i *! w_d w i).
(** (dx,dd)' (H + barrier diagonals + primal regularization) (dx,dd) *)
Definition curvature (P : prob K) (it : iter K) (e : deltas K) (w : iter K) : K :=
  sumn (nx P) (fun i => w_x w i *! sumn (nx P) (fun j => p_H P i j *! w_x w j)) +!
  sumn (nx P) (fun i => (xdiag K P it i +! e_wx e i) *! (w_x w i *! w_x w i)) +!
  sumn (ni P) (fun i => ddiag K P it e i *! (w_d w i *! w_d w i)).
(** squared length of (dx,dd) *)
Definition size2 (P : prob K) (w : iter K) : K := sumn (nx P) (fun i => w_x w i *! w_x w i) +! sumn (ni P) (fun i => w_d w i *! w_d w i).
(** slacks are the distances to the bounds *)
Definition slacks_fit (P : prob K) (v : nlpvals K) (it : iter K) : Prop :=
  (forall i, i < nx P -> (ixl P i = true -> w_sxl it i +! v_xl v i = w_x it i) /\ (ixu P i = true -> w_x it i +! w_sxu it i = v_xu v i)) /\
  (forall i, i < ni P -> (idl P i = true -> w_sdl it i +! v_dl v i = w_d it i) /\ (idu P i = true -> w_d it i +! w_sdu it i = v_du v i)).
(** the constraints hold *)
Definition feasible (P : prob K) (v : nlpvals K) (it : iter K) : Prop :=
  (forall i, i < neq P -> v_c v i = v_crhs v i) /\ (forall i, i < ni P -> v_d v i = w_d it i).
(** bound multipliers of missing bounds are zero *)
Definition duals_fit (P : prob K) (it : iter K) : Prop :=
  (forall i, i < nx P -> (ixl P i = false -> w_zl it i = f0) /\ (ixu P i = false -> w_zu it i = f0)) /\
  (forall i, i < ni P -> (idl P i = false -> w_vl it i = f0) /\ (idu P i = false -> w_vu it i = f0)).
End S.
