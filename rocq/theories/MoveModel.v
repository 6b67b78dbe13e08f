(** The moving limits: src/Optimization/hiopAlgFilterIPM.cpp [ensure_moving_lims] (2814-2849), its call between
    the fraction-to-boundary rule and the line search (1254-1258, 2474-2477), and the resolution of the two
    options in src/Utils/hiopOptions.cpp 1563-1570.  Over a record of arithmetic operations (VecModel).
    Not modelled: logging; the return value is returned but unused by both callers. *)
From Coq Require Import List Bool.
From Verif Require Import VecModel ErrModel.
Import ListNotations.

Section Moving.
Variable K : arith.
Notation T := (car K).
(** 0.5, hiopAlgFilterIPM.cpp 2580 *)
Variable half : T.

(** hiopOptions.cpp 1563-1570: when both limits are active the relative one is disabled; values (rel, abs) *)
Definition resolve_limits (rel lim : T) : T * T :=
  if negb (aeq K (azero K) (amul K rel lim)) then (azero K, lim) else (rel, lim).
(** dir.get_x()->infnorm(), hiopAlgFilterIPM.cpp 2831: largest entry over the ranks' parts of the x direction *)
Definition dir_norm (dx : list (list T)) : T := over_ranks K (map (inf_norm K) dx).
(** hiopAlgFilterIPM.cpp 2814-2849 [ensure_moving_lims]: the new alpha_pr and the returned flag *)
Definition ensure_moving_lims (rel lim : T) (dx : list (list T)) (alpha : T) : T * bool :=
  if alt K (azero K) rel then (amul K rel alpha, true)
  else if alt K (azero K) lim then
    let step_nrm := amul K alpha (dir_norm dx) in
    if alt K lim step_nrm then (adiv K lim step_nrm, true) else (alpha, false)
  else (alpha, false).
(** the step of the n-th trial point of the line search: hiopAlgFilterIPM.cpp 2474-2477, then n times 2580 *)
Fixpoint halved (n : nat) (alpha : T) : T := match n with O => alpha | S n' => halved n' (amul K alpha half) end.
(** hiopAlgFilterIPM.cpp 2477, 2580: steps tried along the direction [dx] when the fraction-to-boundary step is [alpha] *)
Definition trial_step (rel lim : T) (dx : list (list T)) (alpha : T) (n : nat) : T :=
  halved n (fst (ensure_moving_lims rel lim dx alpha)).
(** hiopIterate.cpp 367-373 [takeStep_primals], the x part on one rank *)
Definition take_x (x d : list T) (alpha : T) : list T := map (fun p => aadd K (fst p) (amul K alpha (snd p))) (combine x d).
(** hiopAlgFilterIPM.cpp 3007, 3011: the step along a second-order corrected direction is the fraction-to-boundary
    step of that direction; neither limit enters (the options are arguments to show it) *)
Definition soc_step (rel lim : T) (alpha_soc : T) : T := alpha_soc.
End Moving.
