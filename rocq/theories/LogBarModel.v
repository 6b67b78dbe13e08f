(** The barrier problem used by the line search: src/Optimization/hiopLogBarProblem.hpp 82-155,
    src/Optimization/hiopIterate.cpp 274-291, 367-375, 523-588, and the vector kernels of
    src/LinAlg/hiopVectorPar.cpp 863-944 they call.  Over the reals (the C++ uses double; rounding is not
    modelled).  Arrays walked by one loop index are one list of records; the variables are a list of such
    lists, one per MPI rank; the inequalities are replicated.  Not modelled: the enlargement of tiny
    slacks (adjust_small_slacks), logging, timers. *)
From Coq Require Import List Reals.
From Verif Require Import VecModel.
Import ListNotations.
Open Scope R_scope.

(** numeric comparisons of the reals as booleans; no counterpart in /repo *)
Definition req (a b : R) : bool := if Req_EM_T a b then true else false.
(** no counterpart in /repo *)
Definition rlt (a b : R) : bool := if Rlt_dec a b then true else false.

(** one bounded variable (x or d): value, direction, gradient of the objective, bounds and their patterns;
    hiopLogBarProblem.hpp 82-117, hiopIterate.cpp 274-291 *)
Record bvar := BVar { b_x : R; b_dx : R; b_g : R; b_l : R; b_u : R; b_il : R; b_iu : R }.

(** hiopIterate.cpp 367-371 [takeStep_primals] *)
Definition step (t : R) (v : bvar) : bvar :=
  BVar (b_x v + t * b_dx v) (b_dx v) (b_g v) (b_l v) (b_u v) (b_il v) (b_iu v).

(** hiopIterate.cpp 276-278, 284-286 (selectPattern: hiopVectorPar.cpp 1063-1070) *)
Definition sl (v : bvar) : R := if req (b_il v) 0 then 0 else b_x v - b_l v.
(** hiopIterate.cpp 280-282, 288-290 *)
Definition su (v : bvar) : R := if req (b_iu v) 0 then 0 else b_u v - b_x v.

(** hiopVectorPar.cpp 864-882 [logBarrier_local]: Kahan summation over (entry, pattern) *)
Definition log_local (e : list (R * R)) : R :=
  fst (fold_left (fun sc p => if req (snd p) 1 then
                    let y := ln (fst p) - snd sc in let t := fst sc + y in (t, (t - fst sc) - y)
                  else sc) e (0, 0)).
(** hiopVectorPar.cpp 907-925 [linearDampingTerm_local] over (entry, (left, right)) *)
Definition damp_local (mu kd : R) (e : list (R * (R * R))) : R :=
  fold_left (fun t p => if andb (req (fst (snd p)) 1) (req (snd (snd p)) 0) then t + fst p else t) e 0 * mu * kd.

(** MPI_SUM, hiopIterate.cpp 528-531, 557-561 *)
Definition sum_ranks (l : list R) : R := fold_left Rplus l 0.

(** hiopIterate.cpp 523-537 [evalLogBarrier] *)
Definition eval_log (ranks : list (list bvar)) (D : list bvar) : R :=
  sum_ranks (map (fun r => log_local (map (fun v => (sl v, b_il v)) r) + log_local (map (fun v => (su v, b_iu v)) r)) ranks)
  + log_local (map (fun v => (sl v, b_il v)) D) + log_local (map (fun v => (su v, b_iu v)) D).
(** hiopIterate.cpp 552-566 [linearDampingTerm] *)
Definition damp_term (mu kd : R) (ranks : list (list bvar)) (D : list bvar) : R :=
  sum_ranks (map (fun r => damp_local mu kd (map (fun v => (sl v, (b_il v, b_iu v))) r)
                         + damp_local mu kd (map (fun v => (su v, (b_iu v, b_il v))) r)) ranks)
  + damp_local mu kd (map (fun v => (sl v, (b_il v, b_iu v))) D)
  + damp_local mu kd (map (fun v => (su v, (b_iu v, b_il v))) D).

(** f_logbar, hiopLogBarProblem.hpp 93-95, 113 *)
Definition f_logbar (mu kd f : R) (ranks : list (list bvar)) (D : list bvar) : R :=
  let a := f + (- mu * eval_log ranks D) in
  if rlt 0 kd then a + damp_term mu kd ranks D else a.
(** f_logbar_trial, hiopLogBarProblem.hpp 128-129 *)
Definition f_logbar_trial (mu kd f : R) (ranks : list (list bvar)) (D : list bvar) : R :=
  let a := f - mu * eval_log ranks D in
  if rlt 0 kd then a + damp_term mu kd ranks D else a.

(** hiopVectorPar.cpp 893-905 [addLogBarrierGrad], one entry *)
Definition add_log_grad (alpha s ix g : R) : R := if req ix 1 then g + alpha / s else g.
(** hiopVectorPar.cpp 927-944 [addLinearDampingTerm] with alpha = 1, one entry; hiopIterate.cpp 568-588 *)
Definition add_damp (ct il ir g : R) : R := 1 * g + (il - ir) * ct.
(** one entry of _grad_x_logbar (starting from the gradient) or _grad_d_logbar (starting from 0, b_g = 0):
    hiopLogBarProblem.hpp 90-91, 100-101, 110-111; hiopIterate.cpp 539-550 *)
Definition grad1 (mu kd : R) (v : bvar) : R :=
  let g := add_log_grad mu (su v) (b_iu v) (add_log_grad (- mu) (sl v) (b_il v) (b_g v)) in
  if rlt 0 kd then add_damp (kd * mu * 1) (b_il v) (b_iu v) g else g.
(** dotProductWith, hiopVectorPar.cpp 500-518 (local part) *)
Definition dot_local (mu kd : R) (r : list bvar) : R := fold_left (fun s v => s + b_dx v * grad1 mu kd v) r 0.
(** hiopLogBarProblem.hpp 148-156 [directionalDerivative] *)
Definition dir_deriv (mu kd : R) (ranks : list (list bvar)) (D : list bvar) : R :=
  sum_ranks (map (dot_local mu kd) ranks) + dot_local mu kd D.

(** the operations of the kernels over the reals (see VecModel); hiopVectorPar.cpp 480-1310 *)
Definition Rar : arith :=
  Arith R 0 1 0 0 Rplus Rminus Rmult Rdiv Ropp Rabs Rmin Rmax rlt (fun a b => if Rle_dec a b then true else false) req.
