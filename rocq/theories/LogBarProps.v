(** C65: the barrier function and its derivative. *)
From Coq Require Import List Reals Lra.
From Verif Require Import VecModel ErrModel LogBarModel LogBarSpec LogBarProofs.
Import ListNotations.
Open Scope R_scope.

(** the value compared by the line search at a trial point is the barrier function there, for every step length,
    distribution over ranks and pattern of bounds; the value at the current point is the same function at 0 *)
Theorem C65_trial_value : forall mu kd f ranks D t, 0 <= kd ->
  (forall v, In v (concat ranks ++ D) -> (b_il v = 0 \/ b_il v = 1) /\ (b_iu v = 0 \/ b_iu v = 1)) ->
  f_logbar_trial mu kd (f t) (map (map (step t)) ranks) (map (step t) D) = barrier mu kd f (concat ranks ++ D) t /\
  f_logbar mu kd (f 0) ranks D = barrier mu kd f (concat ranks ++ D) 0.
Proof.
  intros mu kd f ranks D t Pk B. split; [apply along_spec; assumption|].
  rewrite f_logbar_spec by assumption. unfold barrier. f_equal. apply rsum_ext. intros v _. f_equal. ring.
Qed.
Print Assumptions C65_trial_value.

(** the directional derivative used by the switching and Armijo conditions is the derivative of that function
    along the step, whenever the user's gradient is the derivative of the objective along the step *)
Theorem C65_directional_derivative : forall mu kd f ranks D, 0 <= kd -> (forall v, In v (concat ranks ++ D) -> inside v) ->
  derivable_pt_lim f 0 (slope (concat ranks ++ D)) ->
  derivable_pt_lim (fun t => f_logbar_trial mu kd (f t) (map (map (step t)) ranks) (map (step t) D)) 0 (dir_deriv mu kd ranks D).
Proof.
  intros mu kd f ranks D Pk H Hf.
  apply (d_ext (barrier mu kd f (concat ranks ++ D))); [|apply dir_deriv_is; assumption].
  intro t. symmetry. apply along_spec; [exact Pk|]. intros v Hv. apply inside_bit. auto.
Qed.
Print Assumptions C65_directional_derivative.

(** hence a negative directional derivative gives an Armijo decrease for every small enough step, for every
    fraction eta < 1: backtracking on the barrier function terminates *)
Theorem C65_armijo_reachable : forall mu kd f ranks D eta, 0 <= kd -> (forall v, In v (concat ranks ++ D) -> inside v) ->
  derivable_pt_lim f 0 (slope (concat ranks ++ D)) -> eta < 1 -> dir_deriv mu kd ranks D < 0 ->
  exists abar, 0 < abar /\ forall a, 0 < a < abar ->
    f_logbar_trial mu kd (f a) (map (map (step a)) ranks) (map (step a) D) <= f_logbar mu kd (f 0) ranks D + eta * a * dir_deriv mu kd ranks D.
Proof.
  intros mu kd f ranks D eta Pk H Hf He Hd.
  assert (B : forall v, In v (concat ranks ++ D) -> patbit v) by (intros v Hv; apply inside_bit; auto).
  assert (L := dir_deriv_is mu kd f ranks D Pk H Hf). set (g := dir_deriv mu kd ranks D) in *.
  assert (Pe : 0 < (eta - 1) * g) by nra.
  destruct (L _ Pe) as [del Hdel]. exists (pos del). split; [apply cond_pos|].
  intros a [Pa La]. rewrite along_spec by assumption. rewrite (proj2 (C65_trial_value mu kd f ranks D 0 Pk B)).
  assert (Na : a <> 0) by lra. specialize (Hdel a Na). rewrite Rabs_right in Hdel by lra. specialize (Hdel La).
  rewrite Rplus_0_l in Hdel. apply Rabs_def2 in Hdel. destruct Hdel as [Hdel _].
  set (A := barrier mu kd f (concat ranks ++ D) a) in *. set (Z := barrier mu kd f (concat ranks ++ D) 0) in *.
  assert (Q : (A - Z) / a < eta * g) by lra.
  apply (Rmult_lt_compat_r a) in Q; [|exact Pa]. unfold Rdiv in Q. rewrite Rmult_assoc, Rinv_l, Rmult_1_r in Q by exact Na. lra.
Qed.
Print Assumptions C65_armijo_reachable.

(** the right-hand side of the Newton step: with multipliers mu/slack the barrier residuals are the derivatives of the
    barrier problem's Lagrangian (negated in x) *)
Theorem C65_residual_is_barrier_stationarity : forall mu kd v (x : xvar Rar) w (d : dvar Rar) D E, 0 < kd -> inside v -> inside w ->
  x_g Rar x = b_g v -> x_il Rar x = b_il v -> x_iu Rar x = b_iu v ->
  x_zl Rar x = when (b_il v) (mu / (b_x v - b_l v)) -> x_zu Rar x = when (b_iu v) (mu / (b_u v - b_x v)) ->
  b_g w = 0 -> d_il Rar d = b_il w -> d_iu Rar d = b_iu w ->
  d_vl Rar d = when (b_il w) (mu / (b_x w - b_l w)) -> d_vu Rar d = when (b_iu w) (mu / (b_u w - b_x w)) ->
  rx_bar Rar D E (kd * mu * 1) x = - (grad1 mu kd v + rdot (x_jc Rar x) (map (e_y Rar) E) + rdot (x_jd Rar x) (map (d_y Rar) D)) /\
  rd_bar Rar (kd * mu * 1) d = d_y Rar d - grad1 mu kd w.
Proof. intros. split; [apply residual_x; assumption|apply residual_d; assumption]. Qed.
Print Assumptions C65_residual_is_barrier_stationarity.

(** case: f(x) = x^2 at x = (2, 3) along (1, -1); x1 >= 1, x2 <= 4, one inequality slack in [0, 5] at 1 moving by 2;
    two ranks, mu = 2, kd = 3 *)
Definition ex_1 : bvar := BVar 2 1 4 1 0 1 0.
Definition ex_2 : bvar := BVar 3 (-1) 6 0 4 0 1.
Definition ex_d : bvar := BVar 1 2 0 0 5 1 1.
Definition ex_f (t : R) : R := (2 + t) * (2 + t) + (3 - t) * (3 - t).
Lemma ex_inside : forall v, In v (concat [[ex_1]; [ex_2]] ++ [ex_d]) -> inside v.
Proof. intros v [<-|[<-|[<-|[]]]]; unfold inside; cbn; split; (right; lra) || (left; lra). Qed.
Lemma ex_diff : derivable_pt_lim ex_f 0 (slope (concat [[ex_1]; [ex_2]] ++ [ex_d])).
Proof.
  apply (d_val _ _ ((1 * (2 + 0 * 1) + (2 + 0 * 1) * 1) + (-1 * (3 + 0 * -1) + (3 + 0 * -1) * -1))).
  { unfold slope. cbn. lra. }
  apply (d_ext (fun t => (2 + t * 1) * (2 + t * 1) + (3 + t * -1) * (3 + t * -1))); [intro t; unfold ex_f; ring|].
  apply (derivable_pt_lim_plus (fun t => (2 + t * 1) * (2 + t * 1)) (fun t => (3 + t * -1) * (3 + t * -1))).
  - apply (derivable_pt_lim_mult (fun t => 2 + t * 1) (fun t => 2 + t * 1)); apply d_lin.
  - apply (derivable_pt_lim_mult (fun t => 3 + t * -1) (fun t => 3 + t * -1)); apply d_lin.
Qed.
Example C65_case : dir_deriv 2 3 [[ex_1]; [ex_2]] [ex_d] = 3 /\
  derivable_pt_lim (fun t => f_logbar_trial 2 3 (ex_f t) (map (map (step t)) [[ex_1]; [ex_2]]) (map (step t) [ex_d])) 0 3.
Proof.
  assert (V : dir_deriv 2 3 [[ex_1]; [ex_2]] [ex_d] = 3).
  { rewrite dir_deriv_spec; [|lra|exact ex_inside]. unfold slope, dbar1, when, unless. cbn.
    repeat match goal with |- context [Req_EM_T ?a ?b] => destruct (Req_EM_T a b); try lra end. }
  split; [exact V|]. eapply d_val; [exact V|]. apply C65_directional_derivative; [lra|exact ex_inside|exact ex_diff].
Qed.
(** the opposite direction is one of descent *)
Definition op (v : bvar) : bvar := BVar (b_x v) (- b_dx v) (b_g v) (b_l v) (b_u v) (b_il v) (b_iu v).
Example C65_armijo_case : dir_deriv 2 3 [[op ex_1]; [op ex_2]] [op ex_d] < 0 /\
  exists abar, 0 < abar /\ forall a, 0 < a < abar ->
    f_logbar_trial 2 3 (ex_f (- a)) (map (map (step a)) [[op ex_1]; [op ex_2]]) (map (step a) [op ex_d])
    <= f_logbar 2 3 (ex_f (- 0)) [[op ex_1]; [op ex_2]] [op ex_d] + / 2 * a * dir_deriv 2 3 [[op ex_1]; [op ex_2]] [op ex_d].
Proof.
  assert (I : forall v, In v (concat [[op ex_1]; [op ex_2]] ++ [op ex_d]) -> inside v).
  { intros v [<-|[<-|[<-|[]]]]; unfold inside; cbn; split; (right; lra) || (left; lra). }
  assert (V : dir_deriv 2 3 [[op ex_1]; [op ex_2]] [op ex_d] < 0).
  { rewrite dir_deriv_spec; [|lra|exact I]. unfold slope, dbar1, when, unless. cbn.
    repeat match goal with |- context [Req_EM_T ?a ?b] => destruct (Req_EM_T a b); try lra end. }
  split; [exact V|]. apply (C65_armijo_reachable 2 3 (fun t => ex_f (- t))); [lra|exact I| |lra|exact V].
  apply (d_val _ _ ((-1 * (2 + 0 * -1) + (2 + 0 * -1) * -1) + (1 * (3 + 0 * 1) + (3 + 0 * 1) * 1))).
  { unfold slope. cbn. lra. }
  apply (d_ext (fun t => (2 + t * -1) * (2 + t * -1) + (3 + t * 1) * (3 + t * 1))); [intro t; unfold ex_f; ring|].
  apply (derivable_pt_lim_plus (fun t => (2 + t * -1) * (2 + t * -1)) (fun t => (3 + t * 1) * (3 + t * 1))).
  - apply (derivable_pt_lim_mult (fun t => 2 + t * -1) (fun t => 2 + t * -1)); apply d_lin.
  - apply (derivable_pt_lim_mult (fun t => 3 + t * 1) (fun t => 3 + t * 1)); apply d_lin.
Qed.
Example C65_residual_case :
  rx_bar Rar [] [] (3 * 2 * 1) (XVar Rar 4 [] [] 1 0 1 0 2 0) = - 8 /\ grad1 2 3 ex_1 = 8.
Proof.
  assert (G : grad1 2 3 ex_1 = 8).
  { unfold grad1, add_log_grad, add_damp, sl, su, rlt, ex_1. cbn. destruct (Rlt_dec 0 3); [|lra]. rq; lra. }
  split; [|exact G]. rewrite (residual_x 2 3 ex_1); cbn; try reflexivity; try lra.
  - apply ex_inside. left. reflexivity.
  - unfold when. cbn. destruct (Req_EM_T 1 1); lra.
  - unfold when. cbn. destruct (Req_EM_T 0 1); lra.
Qed.
