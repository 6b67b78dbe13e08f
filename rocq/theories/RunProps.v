(** C03, C04, C06, C07, C41-C43: line search and main loops of the two solvers. *)
From Coq Require Import List Bool ZArith.
From Verif Require Import FloatBase FilterModel FilterSpec LineSearchModel RunModel LineSearchSpec
     LineSearchProofs RunExamples RunProofs3.
Import ListNotations.

(** C03: the acceptance test gives a positive status exactly when the trial is not in the filter and
    the decrease demanded by the switching condition is present. *)
Theorem C03_accept_iff :
  forall fpow P F th ph g tht pht alpha,
  (exists st rej c, accept fpow P F th ph g tht pht alpha None = (st, rej, c) /\ (0 < st)%Z) <->
  filter_contains F tht pht = false /\
  (if fge th (theta_min P) then Progress P th ph tht pht
   else (Switching fpow P alpha g th /\ Armijo P alpha g ph pht) \/
        (~ Switching fpow P alpha g th /\ Progress P th ph tht pht)).
Proof. exact accept_iff. Qed.
Print Assumptions C03_accept_iff.

Example C03_accept_case :
  accept xpow xls [(fofZ 9, fofZ 9)] (fofZ 1) (fofZ 3) (fofZ 1) (f_frac 1 2) (fofZ 4) f_one None
  = (1%Z, false, None) /\
  accept xpow xls [(f_frac 1 2, fofZ 4)] (fofZ 1) (fofZ 3) (fofZ 1) (f_frac 1 2) (fofZ 4) f_one None
  = (0%Z, true, None) /\
  fst (fst (accept xpow xls [] f_zero (fofZ 3) (fofZ (-1)) f_zero (fofZ 2) (fofZ 2) None)) = 3%Z /\
  fst (fst (accept xpow xls [] f_zero (fofZ 3) (fofZ 1) f_zero (fofZ 2) f_one None)) = 2%Z.
Proof. repeat split; vm_compute; reflexivity. Qed.

(** C03: in every run of either solver, a point accepted by the line search satisfies the decrease
    its status code announces, and no pair recorded by then (since the last filter reset) is at
    least as good in both components. *)
Theorem C03_accepted_point_justified :
  forall fpow P ls_fuel solver fuel W o tr pre st pt w soc post,
    any_run fpow P ls_fuel solver fuel W = (o, tr) ->
    tr = pre ++ EvAccept st pt w soc :: post ->
    Justified fpow (rp_ls P) w st pt /\
    (forall e, on_record (ops_of (theta_max P) pre) e -> ~ no_better (fst pt) (snd pt) e).
Proof. exact run_accepts. Qed.
Print Assumptions C03_accepted_point_justified.

Example C03_accepted_case :
  exists pre post, snd (any_run xpow (xrun xls 10) 100 (Some Stable) 20 goodW) =
    pre ++ EvAccept 1 (f_frac 1 8, fofZ 2) (pw_ls (iw_pass1 (goodW 2))) false :: post /\
    ops_of (fofZ 10000) pre <> [].
Proof.
  remember (snd (any_run xpow (xrun xls 10) 100 (Some Stable) 20 goodW)) as tr eqn:E.
  vm_compute in E. subst tr.
  match goal with |- exists pre post, ?l = _ /\ _ => exists (firstn 11 l), (skipn 12 l) end.
  split; [vm_compute; reflexivity|vm_compute; discriminate].
Qed.

(** C03 (no cycling), part: a point accepted without second-order correction is put on record at
    once, unless the step was an Armijo step.  Missing: points accepted by second-order correction,
    for which the statement is false, see the next theorem. *)
Theorem C03_accepted_point_recorded_partial :
  forall fpow P ls_fuel solver fuel W o tr pre st pt w post,
    any_run fpow P ls_fuel solver fuel W = (o, tr) ->
    tr = pre ++ EvAccept st pt w false :: post ->
    (exists post', post = EvRecord pt :: post') \/
    (exists k, Switching fpow (rp_ls P) (halved (w_alpha0 w) k) (w_gdir w) (w_theta w) /\
               Armijo (rp_ls P) (halved (w_alpha0 w) k) (w_gdir w) (w_phi w) (snd pt)).
Proof. exact run_records. Qed.
Print Assumptions C03_accepted_point_recorded_partial.

Example C03_recorded_case :
  exists w post, snd (any_run xpow (xrun xls 10) 100 None 20 goodW) =
    [EvCheck e_big] ++ EvAccept 1 (f_frac 1 2, fofZ 1) w false ::
    EvRecord (f_frac 1 2, fofZ 1) :: post.
Proof.
  remember (snd (any_run xpow (xrun xls 10) 100 None 20 goodW)) as tr eqn:E.
  vm_compute in E. subst tr. do 2 eexists. vm_compute. reflexivity.
Qed.

(** C03 refuted part: after a second-order-correction acceptance the filter records a pair with the
    violation of the rejected trial, so the accepted pair itself can be accepted again (cycling). *)
Theorem C03_soc_point_not_recorded_refuted :
  exists P W pre q mid st1 w1 st2 w2 post,
    snd (any_run xpow P 100 (Some Stable) 20 W) =
      pre ++ EvAccept st1 pA w1 true :: EvRecord q :: mid ++ EvAccept st2 pA w2 false :: post /\
    snd q = snd pA /\ fst q <> fst pA /\
    ~ In EvReset mid.
Proof.
  exists (xrun xls 10), cycleW.
  remember (snd (any_run xpow (xrun xls 10) 100 (Some Stable) 20 cycleW)) as tr eqn:E.
  vm_compute in E. subst tr.
  match goal with |- exists pre q mid st1 w1 st2 w2 post, ?l = _ /\ _ =>
    exists (firstn 1 l), (fofZ 2, fofZ 10), (firstn 6 (skipn 3 l)), 1%Z,
           (pw_ls (iw_pass1 (cycleW 0))), 1%Z, (pw_ls (iw_pass1 (cycleW 2))), (skipn 10 l) end.
  split; [vm_compute; reflexivity|]. split; [reflexivity|]. split; [vm_compute; discriminate|].
  vm_compute. intuition discriminate.
Qed.
Print Assumptions C03_soc_point_not_recorded_refuted.

(** C03: every completed iteration is backed by a line-search acceptance or a successful restoration
    (or an untested step, in "forcequick" mode only), provided the direction computations never run
    out of refactorizations. *)
Theorem C03_every_step_tested_partial :
  forall fpow P ls_fuel solver fuel W o tr,
    (forall k, no_refactorization_limit (W k)) ->
    any_run fpow P ls_fuel solver fuel W = (o, tr) ->
    steps_tested (match solver with Some Forcequick => true | _ => false end) false tr.
Proof. exact run_tested. Qed.
Print Assumptions C03_every_step_tested_partial.

Example C03_tested_case : (forall k, no_refactorization_limit (goodW k)) /\
  steps (snd (any_run xpow (xrun xls 10) 100 (Some Speculative) 20 goodW)) = 3%nat.
Proof.
  split; [|vm_compute; reflexivity].
  intros [|[|[|k]]]; split; discriminate.
Qed.

(** C03 refuted part: with the refactorization limit hit twice in one iteration of the speculative
    mode, a step is taken with no test at all (leftover restoration flag), or the uninitialised
    trial infeasibility is read. *)
Theorem C03_every_step_tested_refuted :
  (exists P W, fst (any_run xpow P 100 (Some Speculative) 20 W) = RDone Solve_Success /\
     ~ steps_tested false false (snd (any_run xpow P 100 (Some Speculative) 20 W))) /\
  (exists P W, fst (any_run xpow P 100 (Some Speculative) 20 W) = RStale).
Proof.
  split.
  - exists (xrun xls 10), staleW. split; [vm_compute; reflexivity|].
    remember (snd (any_run xpow (xrun xls 10) 100 (Some Speculative) 20 staleW)) as tr eqn:E.
    vm_compute in E. subst tr. cbn. intuition discriminate.
  - exists (xrun xls 10), stale0W. vm_compute. reflexivity.
Qed.
Print Assumptions C03_every_step_tested_refuted.

(** C04: with a positive minimal step and an initial step length in [0,1], the backtracking loop
    ends within 1076 passes for every evaluation oracle. *)
Theorem C04_backtracking_ends_partial :
  forall fpow P F W,
    fgt (min_step P) f_zero = true -> unit_step (w_alpha0 W) ->
    line_search fpow P 1076 F W <> LSFuel.
Proof. exact ls_terminates_unit. Qed.
Print Assumptions C04_backtracking_ends_partial.

Example C04_case : fgt (min_step xls) f_zero = true /\ unit_step (w_alpha0 xW_reject) /\
  line_search xpow xls 1076 [] xW_reject = LSSmall (fofZ 2).
Proof. split; [reflexivity|]. split; [repeat split|]. vm_compute. reflexivity. Qed.

(** C04: the number of passes is governed by the step sequence: as soon as the j-th halving of the
    initial step is below the minimal step, j+1 passes suffice, and more do not change the result. *)
Theorem C04_backtracking_bound :
  forall fpow P F W j fuel,
    (1 <= j)%nat -> (j < fuel)%nat -> flt (halved (w_alpha0 W) j) (min_step P) = true ->
    line_search fpow P fuel F W <> LSFuel /\
    line_search fpow P fuel F W = line_search fpow P (S j) F W.
Proof. exact ls_bound. Qed.
Print Assumptions C04_backtracking_bound.

Example C04_bound_case : flt (halved (w_alpha0 xW_reject) 54) (min_step xls) = true /\
  flt (halved (w_alpha0 xW_reject) 53) (min_step xls) = false.
Proof. split; vm_compute; reflexivity. Qed.

(** C04 refuted part: with the permitted option value min_step_size = 0, or with a NaN step length,
    the loop never ends. *)
Theorem C04_backtracking_ends_refuted :
  (exists P W, min_step P = f_zero /\ unit_step (w_alpha0 W) /\
     forall fuel, line_search xpow P fuel [] W = LSFuel) /\
  (exists P W, fgt (min_step P) f_zero = true /\ w_alpha0 W = S754_nan /\
     forall fuel, line_search xpow P fuel [] W = LSFuel).
Proof. exact ls_never_ends. Qed.
Print Assumptions C04_backtracking_ends_refuted.

(** C06: what each successful status says about the last tested iterate (the trace ends with that
    test, so no step is taken after it); hypothesis: error measures are not negative numbers. *)
Theorem C06_status_truthful :
  forall fpow P ls_fuel solver fuel W o tr,
    (forall k e, iw_errs (W k) = Some e -> flt (e_optim e) f_zero = false) ->
    any_run fpow P ls_fuel solver fuel W = (o, tr) ->
    match o with
    | RDone Solve_Success => exists pre e, tr = pre ++ [EvCheck e] /\ AtTolerance P e
    | RDone Solve_Success_RelTol =>
        exists e1 l pre e, e1 :: l = checks tr /\ tr = pre ++ [EvCheck e] /\ AtRelTolerance P e1 e
    | RDone Solve_Acceptable_Level =>
        (exists pre e, tr = pre ++ [EvCheck e]) /\
        exists pre suf, checks tr = pre ++ suf /\
          Forall (fun e => fle (e_nlp e) (eps_accep P) = true) suf /\
          (accep_n P <= Z.of_nat (length suf))%Z
    | RDone NlpSolve_Pending => solver = None
    | _ => True
    end.
Proof. exact run_verdict. Qed.
Print Assumptions C06_status_truthful.

Example C06_case :
  (forall k e, iw_errs (goodW k) = Some e -> flt (e_optim e) f_zero = false) /\
  fst (any_run xpow (xrun xls 10) 100 (Some Stable) 20 goodW) = RDone Solve_Success /\
  fst (any_run xpow (xrun xls 10) 100 (Some Stable) 20 (slowW e_mid)) = RDone Solve_Acceptable_Level /\
  fst (any_run xpow (xrun xls 10) 100 None 20 (slowW e_big)) = RDone Max_Iter_Exceeded.
Proof.
  split; [|split; [vm_compute; reflexivity|split; vm_compute; reflexivity]].
  intros [|[|[|k]]] e H; inversion H; reflexivity.
Qed.

(** C06: conversely, an iterate at tolerance that is tested ends the run with Solve_Success. *)
Theorem C06_stops_at_tolerance :
  forall fpow P ls_fuel solver fuel W o tr e,
    any_run fpow P ls_fuel solver fuel W = (o, tr) ->
    In e (checks tr) -> AtTolerance P e -> o = RDone Solve_Success.
Proof. exact run_stops_at_tol. Qed.
Print Assumptions C06_stops_at_tolerance.

Example C06_stops_case :
  In e_small (checks (snd (any_run xpow (xrun xls 10) 100 None 20 goodW))) /\
  AtTolerance (xrun xls 10) e_small.
Proof. split; [|repeat split]. vm_compute. auto 10. Qed.

(** C07: at most max_iter iterations. *)
Theorem C07_iteration_limit :
  forall fpow P ls_fuel solver fuel W o tr,
    any_run fpow P ls_fuel solver fuel W = (o, tr) ->
    (Z.of_nat (steps tr) <= Z.max 0 (max_it P))%Z.
Proof. exact run_le_maxiter. Qed.
Print Assumptions C07_iteration_limit.

(** C07/C06: Max_Iter_Exceeded is returned only after exactly max_iter completed iterations. *)
Theorem C07_max_iter_status_exact :
  forall fpow P ls_fuel solver fuel W tr,
    (0 <= max_it P)%Z ->
    any_run fpow P ls_fuel solver fuel W = (RDone Max_Iter_Exceeded, tr) ->
    Z.of_nat (steps tr) = max_it P.
Proof. exact run_eq_maxiter. Qed.
Print Assumptions C07_max_iter_status_exact.

(** C07: every run ends: max_iter+1 passes through the main loop and 1076 through each line search
    are enough, for every problem. *)
Theorem C07_run_ends :
  forall fpow P solver fuel W o tr,
    fgt (min_step (rp_ls P)) f_zero = true ->
    (forall k pw, pw = iw_pass1 (W k) \/ pw = iw_pass2 (W k) -> unit_step (w_alpha0 (pw_ls pw))) ->
    (Z.of_nat fuel > Z.max 0 (max_it P))%Z ->
    any_run fpow P 1076 solver fuel W = (o, tr) -> o <> RFuel.
Proof. exact run_halts. Qed.
Print Assumptions C07_run_ends.

Example C07_case :
  fst (any_run xpow (xrun xls 4) 1076 (Some Stable) 5 (slowW e_big)) = RDone Max_Iter_Exceeded /\
  steps (snd (any_run xpow (xrun xls 4) 1076 (Some Stable) 5 (slowW e_big))) = 4%nat /\
  fgt (min_step xls) f_zero = true /\
  (forall k pw, pw = iw_pass1 (slowW e_big k) \/ pw = iw_pass2 (slowW e_big k) ->
     unit_step (w_alpha0 (pw_ls pw))).
Proof.
  split; [vm_compute; reflexivity|]. split; [vm_compute; reflexivity|]. split; [reflexivity|].
  intros k pw [-> | ->]; repeat split.
Qed.

(** C41: the Newton solver never returns the internal "pending" status. *)
Theorem C41_newton_never_pending_partial :
  forall fpow P ls_fuel m fuel W tr,
    any_run fpow P ls_fuel (Some m) fuel W <> (RDone NlpSolve_Pending, tr).
Proof. exact newton_not_pending. Qed.
Print Assumptions C41_newton_never_pending_partial.

Example C41_case :
  fst (any_run xpow (xrun xls 4) 1076 (Some Stable) 5 frW) = RDone Max_Iter_Exceeded.
Proof. vm_compute. reflexivity. Qed.

(** C41 refuted part: the quasi-Newton solver stops after a successful restoration and returns the
    "pending" status. *)
Theorem C41_quasi_newton_pending_refuted :
  exists P W tr, any_run xpow P 1076 None 5 W = (RDone NlpSolve_Pending, tr) /\ In (EvFR true) tr.
Proof.
  exists (xrun xls 4), frW. eexists. split; [vm_compute; reflexivity|]. simpl. auto.
Qed.
Print Assumptions C41_quasi_newton_pending_refuted.

(** C42 refuted: with accept_every_trial_step on, no trial step is ever taken from the line search,
    in any run; *)
Theorem C42_accept_every_trial_step_refuted :
  forall fpow P ls_fuel solver fuel W o tr,
    disable_ls (rp_ls P) = true -> any_run fpow P ls_fuel solver fuel W = (o, tr) ->
    forall st pt w sc, ~ In (EvAccept st pt w sc) tr.
Proof. exact run_disabled. Qed.
Print Assumptions C42_accept_every_trial_step_refuted.

(** and a problem whose trial point is feasible and better is reported infeasible. *)
Example C42_case :
  disable_ls (rp_ls (xrun xls_disabled 4)) = true /\
  w_trial (pw_ls (iw_pass1 (disabledW 0))) 0 = Some (f_zero, f_zero) /\
  any_run xpow (xrun xls_disabled 4) 1076 (Some Stable) 5 disabledW =
    (RDone Infeasible_Problem, [EvCheck e_big; EvFR false]).
Proof. split; [reflexivity|]. split; [reflexivity|]. vm_compute. reflexivity. Qed.

(** C43 refuted: a user callback that fails during the soft restoration is not reported; the run goes
    on and ends with Solve_Success. *)
Theorem C43_user_error_reported_refuted :
  exists P W tr, (forall k, fr_soft (pw_fr (iw_pass1 (W 0%nat))) k = SoftErr) /\
    any_run xpow P 1076 (Some Stable) 5 W = (RDone Solve_Success, tr) /\ In (EvFR true) tr.
Proof.
  exists (xrun xls 4), swallowW. eexists. split; [reflexivity|]. split; [vm_compute; reflexivity|].
  simpl. auto.
Qed.
Print Assumptions C43_user_error_reported_refuted.

(** C43: the soft restoration also claims success when the filter rejected all its trials. *)
Theorem C43_soft_restoration_rejected_yet_success_refuted :
  exists F W, (forall k, exists e th ph, fr_soft W k = SoftPt e th ph /\ filter_contains F th ph = true) /\
    soft_fr F W = (true, false).
Proof.
  exists [(fofZ 1, fofZ 1)], soft_all_rejectedW.
  split; [|vm_compute; reflexivity]. intros k. do 3 eexists. split; [reflexivity|vm_compute; reflexivity].
Qed.
Print Assumptions C43_soft_restoration_rejected_yet_success_refuted.
