(** C84: limits on how far a step moves the variables. *)
From Coq Require Import Reals List Bool ZArith QArith Qabs Lqa.
From Verif Require Import FloatBase FloatFacts FloatBridge MuProofs VecModel VecSpec ErrModel MoveModel MoveSpec MoveProofs.
Import ListNotations.
Open Scope Q_scope.

(** With neither limit the line search starts from the fraction-to-boundary step. *)
Theorem C84_off : forall dx alpha, trial_step Qar Qhalf 0 0 dx alpha 0 = alpha.
Proof. intros. unfold trial_step. rewrite ensure_off by apply Qle_refl. reflexivity. Qed.
Print Assumptions C84_off.

(** With both limits given, the relative one is disabled; with one of them given nothing changes. *)
Theorem C84_both : forall rel lim : Q,
  (0 < rel -> 0 < lim -> resolve_limits Qar rel lim = (0, lim)) /\
  (rel == 0 \/ lim == 0 -> resolve_limits Qar rel lim = (rel, lim)).
Proof.
  intros rel lim. unfold resolve_limits. change (aeq Qar) with Qeq_bool. change (azero Qar) with 0. change (amul Qar rel lim) with (rel * lim). split.
  - intros A B. destruct (Qeq_bool 0 (rel * lim)) eqn:E; [|reflexivity]. apply Qeq_bool_iff in E. nra.
  - intro H. assert (E : 0 == rel * lim) by (destruct H as [H|H]; rewrite H; ring). apply Qeq_bool_iff in E. rewrite E. reflexivity.
Qed.
Print Assumptions C84_both.

(** The relative limit: the first trial step is the limit times the fraction-to-boundary step, every later
    one is shorter, and every trial keeps the fraction to the boundary that the unlimited step keeps. *)
Theorem C84_relative : forall rel lim dx alpha, 0 < rel -> rel <= 1 -> 0 <= alpha ->
  trial_step Qar Qhalf rel lim dx alpha 0 == rel * alpha /\
  (forall n, 0 <= trial_step Qar Qhalf rel lim dx alpha n <= rel * alpha) /\
  (forall n tau s ds ix, 0 <= tau -> interior s ix -> keeps_fraction tau alpha s ds ix ->
     keeps_fraction tau (trial_step Qar Qhalf rel lim dx alpha n) s ds ix).
Proof.
  intros rel lim dx alpha P1 P2 Pa. unfold trial_step. rewrite ensure_rel by exact P1.
  assert (Pr : 0 <= rel * alpha) by nra. split; [reflexivity|]. split; [intro n; apply halved_le; exact Pr|].
  intros n tau s ds ix Pt I Hk. destruct (halved_le n (rel * alpha) Pr) as [A B]. apply keeps_mono with alpha; auto. nra.
Qed.
Print Assumptions C84_relative.

(** the same in binary64: the limited step is not longer *)
Theorem C84_relative_binary64 : forall rel lim dx alpha, fin rel -> fin alpha ->
  flt f_zero rel = true -> fle rel f_one = true -> fle f_zero alpha = true ->
  fle (fst (ensure_moving_lims Far rel lim dx alpha)) alpha = true /\
  fle f_zero (fst (ensure_moving_lims Far rel lim dx alpha)) = true.
Proof.
  intros rel lim dx alpha Fr Fa P1 P2 Pa. unfold ensure_moving_lims. change (alt Far (azero Far) rel) with (flt f_zero rel). rewrite P1.
  change (fst (amul Far rel alpha, true)) with (fmul rel alpha).
  assert (F0 : fin f_zero) by (split; reflexivity).
  assert (Z : val f_zero = 0%R) by reflexivity.
  apply (fin_lt _ _ F0 Fr) in P1. apply (fin_le _ _ Fr one_fin) in P2. apply (fin_le _ _ F0 Fa) in Pa. rewrite Z in P1, Pa. rewrite one_val in P2.
  destruct (fmul_shrink rel alpha Fr Fa (conj P1 P2) Pa) as (F & A & B).
  split; [apply (fin_le _ _ F Fa); exact B|apply (fin_le _ _ F0 F); rewrite Z; exact A].
Qed.
Print Assumptions C84_relative_binary64.

(** The absolute limit, exactly when it works: for every limit, point, direction and fraction-to-boundary
    step, the first trial point respects the limit if and only if the step already did or it is at least 1. *)
Theorem C84_absolute_iff : forall lim xs ds alpha, 0 < lim -> 0 < alpha -> fits_all xs ds ->
  (Forall2 (fun x d => moved_at_most lim x (take_x Qar x d (trial_step Qar Qhalf 0 lim ds alpha 0))) xs ds <->
   Forall2 (fun x d => moved_at_most lim x (take_x Qar x d alpha)) xs ds \/ 1 <= alpha).
Proof.
  intros lim xs ds alpha PL Pa F. pose proof (dir_norm_nonneg ds) as Pn.
  rewrite (all_moved_iff xs ds alpha lim F) by lra. unfold trial_step. cbn [halved].
  destruct (Qlt_le_dec lim (alpha * dir_norm Qar ds)) as [H|H].
  - rewrite ensure_red by (auto; lra). cbn [fst].
    assert (Pp : 0 < dir_norm Qar ds) by (destruct (Qlt_le_dec 0 (dir_norm Qar ds)); [assumption|exfalso; nra]).
    assert (Ps : 0 < alpha * dir_norm Qar ds) by lra.
    rewrite (all_moved_iff xs ds _ lim F); [|apply Qle_shift_div_l; lra|lra].
    rewrite reduced_norm by assumption. split.
    + intro G. right. assert (M : lim <= lim * alpha). { apply (Qmult_le_r _ _ alpha Pa) in G. rewrite (Qmult_comm (lim / alpha)), Qmult_div_r in G by lra. exact G. } nra.
    + intros [G|G]; [lra|]. apply Qle_shift_div_r; [exact Pa|]. nra.
  - rewrite ensure_sat by (auto; lra). cbn [fst]. rewrite (all_moved_iff xs ds alpha lim F) by lra. split; auto.
Qed.
Print Assumptions C84_absolute_iff.

(** In these cases it holds for every trial of the line search, and the step is not lengthened. *)
Theorem C84_absolute_partial : forall lim xs ds alpha n, 0 < lim -> 0 < alpha -> fits_all xs ds ->
  Forall2 (fun x d => moved_at_most lim x (take_x Qar x d alpha)) xs ds \/ alpha == 1 ->
  Forall2 (fun x d => moved_at_most lim x (take_x Qar x d (trial_step Qar Qhalf 0 lim ds alpha n))) xs ds /\
  trial_step Qar Qhalf 0 lim ds alpha n <= alpha.
Proof.
  intros lim xs ds alpha n PL Pa F H. pose proof (dir_norm_nonneg ds) as Pn.
  rewrite (all_moved_iff xs ds alpha lim F) in H by lra.
  assert (G : let a := fst (ensure_moving_lims Qar 0 lim ds alpha) in 0 <= a /\ a <= alpha /\ a * dir_norm Qar ds <= lim).
  { destruct (Qlt_le_dec lim (alpha * dir_norm Qar ds)) as [L|L].
    - destruct H as [H|H]; [lra|]. rewrite ensure_red by (auto; lra). cbv zeta. cbn [fst].
      assert (Pp : 0 < dir_norm Qar ds) by (destruct (Qlt_le_dec 0 (dir_norm Qar ds)); [assumption|exfalso; nra]).
      assert (Ps : 0 < alpha * dir_norm Qar ds) by lra.
      split; [apply Qle_shift_div_l; lra|]. split.
      + apply Qle_shift_div_r; [exact Ps|]. rewrite H in *. lra.
      + rewrite reduced_norm by assumption. rewrite H. unfold Qdiv. change (/ 1) with 1. lra.
    - rewrite ensure_sat by (auto; lra). cbv zeta. cbn [fst]. lra. }
  cbv zeta in G. destruct G as (G1 & G2 & G3). unfold trial_step. destruct (halved_le n _ G1) as [A B].
  split; [|lra]. apply all_moved_iff; [exact F|exact A|lra|]. nra.
Qed.
Print Assumptions C84_absolute_partial.

(** Otherwise it fails: whenever the fraction-to-boundary step is below 1 and moves too far, the step taken
    instead still moves some variable by more than the limit - by exactly limit/alpha - and it is even longer
    than the fraction-to-boundary step if that step, squared, times the norm of the direction is below the limit. *)
Theorem C84_absolute_refuted : forall lim xs ds alpha, 0 < lim -> 0 < alpha -> alpha < 1 -> fits_all xs ds ->
  lim < alpha * dir_norm Qar ds ->
  ~ Forall2 (fun x d => moved_at_most lim x (take_x Qar x d (trial_step Qar Qhalf 0 lim ds alpha 0))) xs ds /\
  (forall L, 0 <= L -> (Forall2 (fun x d => moved_at_most L x (take_x Qar x d (trial_step Qar Qhalf 0 lim ds alpha 0))) xs ds <-> lim / alpha <= L)) /\
  (alpha * (alpha * dir_norm Qar ds) < lim -> alpha < trial_step Qar Qhalf 0 lim ds alpha 0).
Proof.
  intros lim xs ds alpha PL Pa L1 F H. pose proof (dir_norm_nonneg ds) as Pn.
  assert (Pp : 0 < dir_norm Qar ds) by (destruct (Qlt_le_dec 0 (dir_norm Qar ds)); [assumption|exfalso; nra]).
  assert (Ps : 0 < alpha * dir_norm Qar ds) by lra.
  split; [|split].
  - rewrite (C84_absolute_iff lim xs ds alpha PL Pa F). rewrite (all_moved_iff xs ds alpha lim F) by lra. lra.
  - intros L PLL. unfold trial_step. cbn [halved]. rewrite ensure_red by (auto; lra). cbn [fst].
    rewrite (all_moved_iff xs ds _ L F); [|apply Qle_shift_div_l; lra|exact PLL]. rewrite reduced_norm by assumption. reflexivity.
  - intro G. unfold trial_step. cbn [halved]. rewrite ensure_red by (auto; lra). cbn [fst]. apply Qlt_shift_div_l; [exact Ps|exact G].
Qed.
Print Assumptions C84_absolute_refuted.

(** So a limited step can leave the bounds that the fraction-to-boundary rule protects: x = 1 with lower bound 0,
    direction -2, tau = 199/200: the rule gives 199/400, the limit 3/5 turns it into 120/199, and x becomes -41/199. *)
Theorem C84_bound_crossed_refuted : exists alpha, ftb_w_pattern Qar [1] [-(2)] (199 # 200) [1] = Some alpha /\
  let a := trial_step Qar Qhalf 0 (3 # 5) [[-(2)]] alpha 0 in
  alpha < a /\ exists x, take_x Qar [1] [-(2)] a = [x] /\ x < 0 /\ ~ moved_at_most (3 # 5) [1] [x].
Proof.
  eexists. split; [reflexivity|]. split; [reflexivity|]. eexists. split; [reflexivity|]. split; [reflexivity|].
  intro H. specialize (H 0%nat 1 _ eq_refl eq_refl). revert H. apply Qlt_not_le. reflexivity.
Qed.
Print Assumptions C84_bound_crossed_refuted.

(** Second-order corrected steps are not limited: for every value of the options there is a corrected direction
    whose fraction-to-boundary step is 1 and that moves x by more than the limit. *)
Theorem C84_soc_refuted : forall rel lim, 0 <= lim -> exists x d, 
  ftb_w_pattern Qar [x] [d] (199 # 200) [1] = Some 1 /\ interior [x] [1] /\
  ~ moved_at_most lim [x] (take_x Qar [x] [d] (soc_step Qar rel lim 1)).
Proof.
  intros rel lim P. exists 1, (lim + 1). split; [|split].
  - unfold ftb_w_pattern. cbn [zip3 zip fold_left ftb_step]. cbn [ale Qar azero].
    rewrite (proj2 (Qle_bool_iff 0 (lim + 1))) by lra. reflexivity.
  - intros [|[|i]] xi pi H1 H2 _; try discriminate. injection H1 as <-. reflexivity.
  - intro H. specialize (H 0%nat 1 _ eq_refl eq_refl). cbn [aadd amul Qar fst snd soc_step] in H.
    assert (E : 1 + 1 * (lim + 1) - 1 == lim + 1) by ring. rewrite E, Qabs_pos in H by lra. lra.
Qed.
Print Assumptions C84_soc_refuted.

(** two ranks, limit 1, direction with norm 3: the full step is cut to a third, half a step is lengthened to two thirds *)
Example C84_absolute_case : fits_all [[0; 5]; [1]] [[3; 1]; [-(2)]] /\
  trial_step Qar Qhalf 0 1 [[3; 1]; [-(2)]] 1 0 == 1 # 3 /\ trial_step Qar Qhalf 0 1 [[3; 1]; [-(2)]] (1 # 2) 0 == 2 # 3 /\
  1 < (1 # 2) * dir_norm Qar [[3; 1]; [-(2)]].
Proof. split; [repeat constructor|]. split; [reflexivity|]. split; reflexivity. Qed.
Example C84_relative_case : trial_step Qar Qhalf (1 # 4) 0 [[3; 1]; [-(2)]] (1 # 2) 2 == 1 # 32 /\
  resolve_limits Qar (1 # 4) 1 = (0, 1) /\ resolve_limits Qar (1 # 4) 0 = (1 # 4, 0).
Proof. split; [reflexivity|]. split; reflexivity. Qed.
(** binary64: relative limit 1/2 of the step 1; the absolute limit 1 turns the step 1/2 along 3 into 2/3 *)
Definition mv_half : b64 := S754_finite false 4503599627370496 (-53).
Example C84_binary64_case : fin mv_half /\ fin f_one /\
  fst (ensure_moving_lims Far mv_half f_zero [[fofZ 3]] f_one) = mv_half /\
  flt mv_half (fst (ensure_moving_lims Far f_zero f_one [[fofZ 3]] mv_half)) = true.
Proof. split; [split; reflexivity|]. split; [exact one_fin|]. split; vm_compute; reflexivity. Qed.
Print Assumptions C84_binary64_case.
