(** Theorems about the elastic mode: C79. *)
From Coq Require Import List Bool ZArith String Reals.
From Coq Require Import SpecFloat.
From Verif Require Import FloatBase FloatBridge MuModel MuSpec MuProofs MuProps XformModel XformSpec RelaxProofs OptModel OptSpec OptProps
  ElasModel ElasSpec ElasProofs.
Import ListNotations.

(** default options, elastic_mode = [m], strategy [s]: initial 1e-2, final 1e-12, tolerance 1e-8, mu0 = 1 *)
Definition dflt (m : el_mode) (s : el_strategy) : elastic :=
  Elastic m s (fdiv f_one (fofZ 100)) (fdiv f_one (fofZ 1000000000000)) (fdiv f_one (fofZ 100000000)) f_one.

(** C79, the factor: within the two options, never growing while mu decreases, and equal to the final one once mu is
    at the tolerance (strategy mu_projected) or at the final factor (mu_scaled). *)
Theorem C79_factor_partial : forall E mu mu',
  elastic_sensible E -> mu_ok mu = true -> mu_ok mu' = true -> fle mu' mu = true ->
  fle (el_fin E) (relax_factor E mu) = true /\ fle (relax_factor E mu) (el_init E) = true /\
  fle (relax_factor E mu') (relax_factor E mu) = true /\
  (fle mu match el_strat E with MuProjected => el_tol E | MuScaled => el_fin E end = true -> relax_factor E mu = el_fin E).
Proof.
  intros E mu mu' H M M' L. destruct (factor_range E mu H M) as [A B]. split; [exact A|]. split; [exact B|].
  split; [apply factor_mono; auto|]. intros X. destruct (el_strat E) eqn:S.
  - apply factor_final_projected; auto.
  - apply factor_final_scaled; auto.
Qed.
Print Assumptions C79_factor_partial.
Example C79_factor_case : elastic_sensible (dflt CorrectIt MuProjected) /\ mu_ok f_one = true /\ mu_ok k02 = true /\
  relax_factor (dflt CorrectIt MuProjected) f_one = fdiv f_one (fofZ 100) /\
  flt (relax_factor (dflt CorrectIt MuProjected) k02) (fdiv (fofZ 21) (fofZ 10000)) = true /\
  flt (fdiv (fofZ 19) (fofZ 10000)) (relax_factor (dflt CorrectIt MuProjected) k02) = true /\
  relax_factor (dflt CorrectIt MuScaled) (fdiv f_one (fofZ 10000)) = fmul f_0995 (fdiv f_one (fofZ 10000)).
Proof. repeat split; vm_compute; reflexivity. Qed.

(** C79, the bounds: along every run in the modes tighten_bound and correct_it, whatever the iterates at the updates,
    the working bounds only shrink, starting inside the user's bounds relaxed by the initial factor; they always
    contain the user's bounds relaxed by the final factor (and the user's bounds), and are exactly these once mu is at
    the tolerance.  Infinite bounds included. *)
Theorem C79_bounds_partial : forall fpow P E eps sf user its l,
  (forall a b, valid_binary 53 1024 (fpow a b) = true) -> mu_options_ok P = true -> mp_eps_tol P = el_tol E ->
  elastic_sensible E -> el_how E <> CorrectItAdjustBound -> user_ok user ->
  elastic_run fpow P E eps sf (Some user) (el_mu0 E) its = Some l ->
  shrinking (relax_all (el_init E) user) (map snd l) /\
  (forall m b, In (m, b) l -> inside (relax_all (el_fin E) user) b /\ inside user b /\
     (el_strat E = MuProjected -> fle m (el_tol E) = true -> b = relax_all (el_fin E) user)).
Proof.
  intros fpow P E eps sf user its l Hp HP ET HE HM HU R. pose proof HE as (RG & FI & LT). pose proof (ranges_facts E RG) as RF. destruct RF.
  assert (M0 : mu_ok (el_mu0 E) = true).
  { unfold elastic_ranges in RG. rewrite !andb_true_iff in RG. destruct RG as [_ R0]. unfold MuSpec.in_range in R0.
    rewrite !andb_true_iff in R0. destruct R0 as [[V L1] L2]. unfold mu_ok. rewrite !andb_true_iff. split; [|exact L2]. split; [exact V|].
    change (flt f_zero (el_mu0 E) = true). apply fin_lt; [litfin|exact e_fm|]. apply e_m. }
  assert (G0 : fge (el_mu0 E) (mu_floor P) = true).
  { eapply above_tol_floor; eauto. rewrite ET. apply fin_lt; auto. }
  destruct (run_shrinks fpow P E eps sf Hp HP HE HM user HU its (el_mu0 E) (el_init E) l M0 G0 e_fi) as [S I]; auto.
  - destruct e_i as [? ?]. eapply Rle_trans; [exact H0|]. Lra.lra.
  - intros m Om _. apply fin_le; [apply factor_pos; auto|exact e_fi|]. apply factor_range; auto.
  - split; [exact S|]. intros m b X. destruct (I m b X) as (X1 & X2 & X3 & _ & _ & X6). split; [exact X1|]. split; [exact X2|].
    intros ST L. rewrite X6. f_equal. apply factor_final_projected; auto.
Qed.
Print Assumptions C79_bounds_partial.

Definition xuser : wbounds := WBounds [(fofZ 1, fofZ 5); (S754_infinity true, fofZ 0)] [(fofZ (-1), S754_infinity false)].
Definition no_it : wquants := WQuants [] [].
Example C79_bounds_case : user_ok xuser /\
  exists l, elastic_run idpow (xmu k02) (dflt TightenBound MuProjected) f_zero f_zero (Some xuser) f_one (repeat no_it 15) = Some l /\
    List.length l = 13%nat /\ snd (last l (f_one, xuser)) = relax_all (fdiv f_one (fofZ 1000000000000)) xuser /\
    mp_eps_tol (xmu k02) = el_tol (dflt TightenBound MuProjected).
Proof.
  split.
  - split; repeat constructor; try reflexivity; try discriminate.
  - eexists. split; [vm_compute; reflexivity|]. repeat split; vm_compute; reflexivity.
Qed.

(** without gradient scaling the bounds at the start are the user's relaxed by the initial factor *)
Theorem C79_start_partial : forall E brp scal user, elastic_sensible E -> user_ok user -> fgt brp f_zero = true ->
  List.length scal = List.length (b_d user) -> Forall (eq f_one) scal -> start_bounds E brp scal user = relax_all (el_init E) user.
Proof.
  intros E brp scal user (RG & _) U G L A. apply start_unscaled; auto. destruct (ranges_facts E RG). apply e_fi.
Qed.
Print Assumptions C79_start_partial.
Example C79_start_case : start_bounds (dflt TightenBound MuProjected) (fdiv f_one (fofZ 100000000)) [f_one] xuser
  = relax_all (fdiv f_one (fofZ 100)) xuser /\ fgt (fdiv f_one (fofZ 100000000)) f_zero = true.
Proof. split; vm_compute; reflexivity. Qed.

(** C79 refuted with gradient scaling (the default): the scaling multiplies the inequality bounds but not the copies
    the bounds are reset from, so after the first update of mu the bounds of a scaled inequality are those of the
    unscaled one.  Default options, an inequality  body <= 1  whose gradient of size 1000 is scaled by 0.1: the value
    10 is outside the bounds at the start and inside after the update. *)
Theorem C79_scaled_refuted : exists user scal v mu' tau' b,
  user_ok user /\ List.length scal = 1%nat /\ (forall s, In s scal -> flt f_zero s = true /\ fle s f_one = true) /\
  b_d user = [(S754_infinity true, f_one)] /\ feq v (fofZ 10) = true /\
  elastic_update idpow (xmu k02) (dflt TightenBound MuProjected) f_zero f_zero
    (make_relaxer (fdiv f_one (fofZ 100000000)) user) f_one no_it = ElNew mu' tau' b /\
  ~ passes (hd f_one scal) v (hd (f_one, f_one) (b_d (start_bounds (dflt TightenBound MuProjected) (fdiv f_one (fofZ 100000000)) scal user))) /\
  passes (hd f_one scal) v (hd (f_one, f_one) (b_d b)).
Proof.
  exists (WBounds [] [(S754_infinity true, f_one)]), [fdiv f_one (fofZ 10)], (fofZ 10). do 3 eexists.
  split. { split; repeat constructor; try reflexivity; try discriminate. }
  split; [reflexivity|]. split. { intros s [<-|[]]. split; vm_compute; reflexivity. }
  split; [reflexivity|]. split; [vm_compute; reflexivity|]. split; [vm_compute; reflexivity|].
  split.
  - intros [_ H]. vm_compute in H. discriminate.
  - split; vm_compute; reflexivity.
Qed.
Print Assumptions C79_scaled_refuted.

(** C79 refuted in the mode correct_it_adjust_bound: a variable near its relaxed lower bound leaves the tightened
    interval; its slack is lifted and the bound is moved below even the initially relaxed one.  [eps], [sf] are the
    constants of hiopIterate.cpp:427-428. *)
Theorem C79_adjust_refuted : exists user it mu' tau' b,
  user_ok user /\
  elastic_update idpow (xmu k02) (dflt CorrectItAdjustBound MuProjected)
    (S754_finite false 4503599627370496 (-104)) (S754_finite false 4503599627370496 (-91)) (Some user) f_one it = ElNew mu' tau' b /\
  ~ inside b (relax_all (el_init (dflt CorrectItAdjustBound MuProjected)) user) /\
  flt (fst (hd (f_one, f_one) (b_x (relax_all (el_init (dflt CorrectItAdjustBound MuProjected)) user)))) (u_x (hd (Quant f_one f_one f_one f_one f_one) (q_x it))) = true.
Proof.
  exists (WBounds [(fofZ 1, S754_infinity false)] []),
    (WQuants [Quant (fadd (relax_low (fdiv f_one (fofZ 100)) (fofZ 1)) (f_2pow (-50))) f_one f_zero f_one f_zero] []).
  do 3 eexists. split. { split; repeat constructor; try reflexivity; try discriminate. }
  split; [vm_compute; reflexivity|]. split.
  - intros [H _]. inversion H as [|? ? ? ? [H1 _]]. vm_compute in H1. discriminate.
  - vm_compute. reflexivity.
Qed.
Print Assumptions C79_adjust_refuted.

(** C79 refuted when option bound_relax_perturb is 0 (allowed): there is no relaxer and every change of mu in elastic
    mode goes through a null pointer. *)
Theorem C79_no_relaxer_refuted : forall fpow P E eps sf user mu it m t,
  mu_update fpow P mu = Some (m, t) ->
  elastic_update fpow P E eps sf (make_relaxer f_zero user) mu it = ElNull /\ start_bounds E f_zero [] (WBounds (b_x user) []) = WBounds (b_x user) [].
Proof.
  intros. unfold elastic_update. rewrite H. split; reflexivity.
Qed.
Print Assumptions C79_no_relaxer_refuted.
Example C79_no_relaxer_case : mu_update idpow (xmu k02) f_one <> None.
Proof. vm_compute. discriminate. Qed.

(** C79 refuted when mu0 is below the tolerance (both allowed): the factor stays at the initial one although mu is
    below the tolerance *)
Theorem C79_small_mu0_refuted : exists E mu, elastic_ranges E = true /\ fle (el_fin E) (el_init E) = true /\ mu_ok mu = true /\
  fle mu (el_tol E) = true /\ fle mu (el_mu0 E) = true /\ relax_factor E mu = el_init E /\ flt (el_fin E) (el_init E) = true.
Proof.
  exists (Elastic TightenBound MuProjected (fdiv f_one (fofZ 100)) (fdiv f_one (fofZ 1000000000000)) (fdiv f_one (fofZ 100000000))
    (fdiv f_one (fofZ 1000000000))), (fdiv f_one (fofZ 5000000000)). repeat split; vm_compute; reflexivity.
Qed.
Print Assumptions C79_small_mu0_refuted.
(** and when mu0 equals the tolerance and the two factors are equal, the factor and every bound become NaN *)
Theorem C79_nan_refuted : exists E mu, elastic_ranges E = true /\ fle (el_fin E) (el_init E) = true /\ mu_ok mu = true /\
  fle mu (el_mu0 E) = true /\ fle (el_tol E) (el_mu0 E) = true /\ relax_factor E mu = S754_nan /\
  forall b, bounds_relax1 (relax_factor E mu) b = (S754_nan, S754_nan).
Proof.
  exists (Elastic TightenBound MuProjected (fdiv f_one (fofZ 100)) (fdiv f_one (fofZ 100)) (fdiv f_one (fofZ 100000000))
    (fdiv f_one (fofZ 100000000))), (fdiv f_one (fofZ 1000000000)).
  repeat (split; [vm_compute; reflexivity|]). intros [l u].
  replace (relax_factor _ _) with S754_nan by (vm_compute; reflexivity).
  unfold bounds_relax1, relax_low, relax_upp. cbn [fst snd].
  assert (A : forall x, scale1 (fopp S754_nan) x = S754_nan) by reflexivity.
  assert (B : forall x, scale1 S754_nan x = S754_nan) by reflexivity.
  rewrite A, B. reflexivity.
Qed.
Print Assumptions C79_nan_refuted.

(** C79 refuted, the documentation of the two options: a final factor above the initial one is accepted and kept (the
    documented return to the defaults does not happen), and the bounds are then relaxed by the final factor, i.e. they
    grow with the first change of mu. *)
Theorem C79_documented_defaults_refuted : exists t fi ff,
  life (ensure_nlp cfg0) (nlp_options cfg0) ex_num ex_int []
    [SetNum "elastic_mode_bound_relax_initial" fi false; SetNum "elastic_mode_bound_relax_final" ff false] t /\
  flt fi ff = true /\ get_num "elastic_mode_bound_relax_initial" t = Some fi /\ get_num "elastic_mode_bound_relax_final" t = Some ff /\
  forall m s mu, mu_ok mu = true -> let E := Elastic m s fi ff (fdiv f_one (fofZ 100000000)) f_one in
    relax_factor E mu = ff.
Proof.
  set (fi := fdiv f_one (fofZ 10000)). set (ff := fdiv f_one (fofZ 100)).
  set (ops := [SetNum "elastic_mode_bound_relax_initial" fi false; SetNum "elastic_mode_bound_relax_final" ff false]).
  set (t0 := construct (ensure_nlp cfg0) ex_num ex_int (nlp_options cfg0) []).
  exists (get_t (run (ensure_nlp cfg0) ops (get_t t0))), fi, ff.
  split. { exists (get_t t0). split; vm_compute; reflexivity. }
  split; [vm_compute; reflexivity|]. split; [vm_compute; reflexivity|]. split; [vm_compute; reflexivity|].
  intros m s mu M E.
  assert (R : fin (raw_factor E mu)).
  { destruct s; [apply raw_projected|apply raw_scaled]; auto; vm_compute; reflexivity. }
  assert (Fi : fin (el_init E)) by litfin. assert (Ff : fin (el_fin E)) by litfin.
  destruct (clamp_val E (raw_factor E mu) R Fi Ff) as [F V].
  change (relax_factor E mu) with (clamp E (raw_factor E mu)). change ff with (el_fin E).
  assert (LT : (FloatBridge.val (el_init E) < FloatBridge.val (el_fin E))%R) by (apply fin_lt; [exact Fi|exact Ff|vm_compute; reflexivity]).
  assert (P0 : (0 < FloatBridge.val (el_fin E))%R).
  { change 0%R with (FloatBridge.val f_zero). apply fin_lt; [litfin|exact Ff|vm_compute; reflexivity]. }
  apply fin_eq_val; auto. rewrite V. apply Rmax_right. eapply Rle_trans; [apply Rmin_r|]. apply Rlt_le. exact LT.
Qed.
Print Assumptions C79_documented_defaults_refuted.
