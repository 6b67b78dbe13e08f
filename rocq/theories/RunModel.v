(** Model of the control flow of the two solver main loops:
    /repo/src/Optimization/hiopAlgFilterIPM.cpp
    - [hiopAlgFilterIPMQuasiNewton::run]  lines 1069-1519
    - [hiopAlgFilterIPMNewton::run]       lines 2195-2781
    - [checkTermination]                  lines 813-846
    - [apply_feasibility_restoration], [solve_feasibility_restoration],
      [solve_soft_feasibility_restoration] lines 3041-3333
    - [compute_search_direction(_inertia_free)] lines 3335-3431 (outcome only).
    All vectors, callbacks and linear algebra are replaced by an [iter_world] per pass through the
    main loop.  Logging, timers, checkpointing and [outputIteration] are left out. *)
From Coq Require Import List Bool ZArith.
From Verif Require Import FloatBase FilterModel LineSearchModel.
Import ListNotations.

(** /repo/src/Interface/hiopInterface.hpp:65-108, the values the loops can assign *)
Inductive status : Type :=
| Solve_Success | Solve_Success_RelTol | Solve_Acceptable_Level | Infeasible_Problem
| Max_Iter_Exceeded | User_Stopped | Steplength_Too_Small | Err_Step_Computation
| Error_In_User_Function | Error_In_FR | NlpSolve_Pending.

(** equality test on [hiopSolveStatus]; used at hiopAlgFilterIPM.cpp:2284, 2703 *)
Definition is_pending (s : status) : bool :=
  match s with NlpSolve_Pending => true | _ => false end.

(** error measures computed by [evalNlpAndLogErrors], hiopAlgFilterIPM.cpp:2216-2227 *)
Record errs : Type := mk_errs {
  e_nlp : b64; e_optim : b64; e_feas : b64; e_complem : b64; e_cons : b64 }.

(** hiopAlgFilterIPM.cpp:220-281 *)
Record run_params : Type := mk_run_params {
  rp_ls : ls_params;
  eps_tol : b64; dual_tol : b64; cons_tol : b64; comp_tol : b64;
  eps_rtol : b64; eps_accep : b64; accep_n : Z; max_it : Z;
  theta_max : b64; force_resto : bool; within_fr : bool }.

(** 1e-6 as binary64; hiopAlgFilterIPM.cpp:831 *)
Definition f_1em6 : b64 := S754_finite false 4722366482869645 (-72).

(** std::max / std::min; hiopAlgFilterIPM.cpp:831 *)
Definition std_max (a b : b64) : b64 := if flt a b then b else a.
(** std::min, hiopAlgFilterIPM.cpp 831 *)
Definition std_min (a b : b64) : b64 := if flt b a then b else a.

(** reference errors [_err_nlp_optim0, _err_nlp_feas0, _err_nlp_complem0];
    hiopAlgFilterIPM.cpp:1071, 2252-2254 *)
Definition errs0 : Type := (b64 * b64 * b64)%type.

(** hiopAlgFilterIPM.cpp:2252-2254 *)
Definition upd_errs0 (e0 : errs0) (e : errs) : errs0 :=
  let '(o, f, c) := e0 in
  if flt o f_zero then (e_optim e, e_feas e, e_complem e) else e0.

(** hiopAlgFilterIPM.cpp:813-846; result: [Some status] if it returned true, and the new
    [n_accep_iters_] *)
Definition check_termination (P : run_params) (e : errs) (e0 : errs0) (iter naccep : Z)
  : option status * Z :=
  if fle (e_nlp e) (eps_tol P) && fle (e_optim e) (dual_tol P) &&
     fle (e_cons e) (cons_tol P) && fle (e_complem e) (comp_tol P)
  then (Some Solve_Success, naccep)
  else if (max_it P <=? iter)%Z then (Some Max_Iter_Exceeded, naccep)
  else
    let '(o0, f0, c0) := e0 in
    if fgt (eps_rtol P) f_zero &&
       (fle (e_optim e) (fmul (eps_rtol P) o0) && fle (e_feas e) (fmul (eps_rtol P) f0) &&
        fle (e_complem e) (fmul (std_max (eps_rtol P) f_1em6) (std_min f_one c0)))
    then (Some Solve_Success_RelTol, naccep)
    else
      let n' := if fle (e_nlp e) (eps_accep P) then (naccep + 1)%Z else 0%Z in
      if (accep_n P <=? n')%Z then (Some Solve_Acceptable_Level, n') else (None, n').

(** one trial of the soft restoration: callback failure, or the error and the pair tested at
    hiopAlgFilterIPM.cpp:3276-3330 *)
Inductive soft_trial : Type :=
| SoftErr
| SoftPt (kkt_err : b64) (theta phi : b64).

(** environment of [apply_feasibility_restoration]; hiopAlgFilterIPM.cpp 3041-3333 *)
Record fr_world : Type := mk_fr_world {
  fr_kkt_err : b64;               (* kkt_err_curr, line 3258 *)
  fr_soft : nat -> soft_trial;
  fr_sub : status;                (* status of the restoration subproblem's solver, line 3148 *)
  fr_eval_ok : bool;              (* evalNlp_noHess in reset_var_from_fr_sol, line 3171 *)
  fr_force_ok : bool }.           (* user_force_update, line 3103 *)

(** 0.999 as binary64; hiopAlgFilterIPM.cpp:3238 *)
Definition f_0999 : b64 := S754_finite false 8998192055486251 (-53).

(** result of the soft restoration: return value and whether it set Error_In_User_Function;
    hiopAlgFilterIPM.cpp:3266-3332.  [left] = max_soft_fr_iter - num_soft_fr.  The value returned
    when the loop is exhausted is the last assignment to [bret] (line 3304, asserted true). *)
Fixpoint soft_loop (F : filter_st) (W : fr_world) (left k : nat) : bool * bool :=
  match left with
  | O => (true, false)
  | S left' =>
      match fr_soft W k with
      | SoftErr => (true, true)
      | SoftPt ke th ph =>
          if fgt ke (fmul f_0999 (fr_kkt_err W)) then (false, false)
          else if filter_contains F th ph then soft_loop F W left' (S k)
          else (true, false)
      end
  end.

(** hiopAlgFilterIPM.cpp:3235-3333 with max_soft_fr_iter = 10 *)
Definition soft_fr (F : filter_st) (W : fr_world) : bool * bool := soft_loop F W 10 0.

(** hiopAlgFilterIPM.cpp:3126-3166 (status mapping of lines 3156-3165) *)
Definition robust_fr (sub : status) : bool * option status :=
  match sub with
  | User_Stopped => (true, None)
  | Solve_Success | Solve_Acceptable_Level => (false, Some Infeasible_Problem)
  | _ => (false, Some Error_In_FR)
  end.

(** hiopAlgFilterIPM.cpp:3041-3124.  [None] = assert(false) at line 3173; otherwise the returned
    bool and the value assigned to [solver_status_], if any. *)
Definition apply_fr (within : bool) (F : filter_st) (W : fr_world) : option (bool * option status) :=
  if negb within then
    let '(ok, err) := soft_fr F W in
    if ok then Some (true, if err then Some Error_In_User_Function else None)
    else
      let '(ok', s) := robust_fr (fr_sub W) in
      if ok' then if fr_eval_ok W then Some (true, None) else None
      else Some (false, s)
  else
    if fr_force_ok W then if fr_eval_ok W then Some (true, None) else None
    else Some (false, Some Error_In_FR).

(** hiopAlgFilterIPM.cpp:2356-2377: linsol_mode *)
Inductive linsol_mode : Type := Stable | Speculative | Forcequick.

(** outcome of compute_search_direction(_inertia_free), hiopAlgFilterIPM.cpp:3335-3431 *)
Inductive dir_out : Type := DirOk | DirSolveFail | DirRefactFail.

(** environment of one pass of the linear-solve loop, hiopAlgFilterIPM.cpp:2380-2701 *)
Record pass_world : Type := mk_pass_world {
  pw_kkt : bool; pw_dir : dir_out; pw_ls : ls_world; pw_fr : fr_world }.

(** environment of one pass through the main loop; hiopAlgFilterIPM.cpp 2215-2720 *)
Record iter_world : Type := mk_iter_world {
  iw_errs : option errs;          (* None: evalNlpAndLogErrors returned false *)
  iw_cb : bool;                   (* user_callback_iterate *)
  iw_nmu : nat;                   (* number of barrier updates in the loop 2289-2328 *)
  iw_mu_err : bool;               (* evalNlpAndLogErrors failed inside that loop (line 2307) *)
  iw_fast : bool;                 (* switch_to_fast_KKT switched safe mode off *)
  iw_pass1 : pass_world; iw_pass2 : pass_world;
  iw_deriv : bool }.              (* evalNlp_derivOnly *)

(** observable events, in chronological order; hiopAlgFilterIPM.cpp 1069-1519, 2195-2781 *)
Inductive event : Type :=
| EvCheck (e : errs)                                    (* termination test on these errors *)
| EvReset                                               (* filter.reinitialize(theta_max) *)
| EvAccept (st : Z) (pt : point) (W : ls_world) (soc : bool)   (* accepted by the line search *)
| EvRecord (pt : point)                                 (* filter.add *)
| EvFR (ok : bool)                                       (* feasibility restoration attempted *)
| EvUntested                                            (* step taken although lsStatus = 0 *)
| EvStep.                                               (* iter_num_++ *)


(** how a run ends, hiopAlgFilterIPM.cpp 1069-1519, 2195-2781*)
Inductive run_out : Type :=
| RDone (s : status)
| RAssert                  (* a C++ assert fails *)
| RStale                   (* infeas_nrm_trial read uninitialised *)
| RFuel.                   (* not a C++ outcome: still running *)

(** hiopAlgFilterIPM.cpp: local and member variables live across loop passes; hiopAlgFilterIPM.cpp 1069-1088, 2195-2212 *)
Record run_st : Type := mk_run_st {
  r_iter : Z; r_F : filter_st; r_naccep : Z; r_safe : bool; r_e0 : errs0; r_use_fr : bool }.

Section Run.
  Variable fpow : b64 -> b64 -> b64.
  Variable P : run_params.
  Variable ls_fuel : nat.        (* unrolling bound of the backtracking loop, see LineSearchModel *)

  (** hiopAlgFilterIPM.cpp:2289-2328: effect of the barrier-update loop on the filter; the loop
      itself is modelled in MuModel *)
  Fixpoint mu_resets (n : nat) (F : filter_st) : filter_st :=
    match n with O => F | S n' => mu_resets n' (filter_reinitialize (theta_max P) F) end.

  (** result of the search-direction and line-search part of one pass; hiopAlgFilterIPM.cpp 2378-2650 *)
  Inductive pass_out : Type :=
  | PReturn (o : run_out)
  | PContinue (s : status) (F : filter_st) (safe : bool) (tv : option b64) (use_fr : bool)
  | PBreak (s : status) (F : filter_st) (safe : bool) (tv : option b64) (use_fr : bool).

  (** variable [theta_trial] = [infeas_nrm_trial] after the loop; hiopAlgFilterIPM.cpp 2501-2586 *)
  Definition ls_tv (o : ls_out) : b64 :=
    match o with
    | LSAccept _ _ tv _ _ _ _ => tv | LSSmall tv => tv | LSDisabled tv => tv | _ => S754_nan
    end.

  (** one pass of the linear-solve loop, Newton solver: hiopAlgFilterIPM.cpp:2380-2701.
      [s] = solver_status_ on entry, [tv] = infeas_nrm_trial on entry. *)
  Definition newton_pass (fq : bool) (pw : pass_world) (iter : Z) (s : status) (F : filter_st)
             (safe : bool) (tv : option b64) (use_fr : bool) : pass_out * list event :=
    if negb (pw_kkt pw) then
      if safe || fq then (PReturn (RDone Err_Step_Computation), [])
      else (PContinue s F true tv use_fr, [])
    else
      match pw_dir pw with
      | DirSolveFail =>
          if safe || fq then (PReturn (RDone Err_Step_Computation), [])
          else (PContinue s F true tv use_fr, [])
      | DirRefactFail =>
          if safe || fq then (PReturn (RDone Err_Step_Computation), [])
          else (PContinue s F safe tv use_fr, [])
      | DirOk =>
          let o := line_search fpow (rp_ls P) ls_fuel F (pw_ls pw) in
          match o with
          | LSFuel => (PReturn RFuel, [])
          | LSAssert => (PReturn RAssert, [])
          | LSEvalError => (PReturn (RDone Error_In_User_Function), [])
          | _ =>
              let tv' := Some (ls_tv o) in
              let s' := match o with LSSmall _ => if safe then Steplength_Too_Small else s | _ => s end in
              if force_resto P && negb (within_fr P) && (iter =? 1)%Z then
                match apply_fr (within_fr P) F (pw_fr pw) with
                | None => (PReturn RAssert, [EvFR false])
                | Some (true, _) => (PBreak NlpSolve_Pending F safe tv' true, [EvFR true])
                | Some (false, s2) =>
                    (PContinue (match s2 with Some x => x | None => s' end) F safe tv' false, [EvFR false])
                end
              else
                match o with
                | LSAccept st pt _ _ _ _ sc =>
                    let '(F', r) := filter_augment fpow (rp_ls P) F (pw_ls pw) o in
                    (PBreak s' F' safe tv' false,
                     EvAccept st pt (pw_ls pw) sc ::
                     match r with Some q => [EvRecord q] | None => [] end)
                | _ =>
                    if safe then
                      match apply_fr (within_fr P) F (pw_fr pw) with
                      | None => (PReturn RAssert, [EvFR false])
                      | Some (true, _) => (PBreak NlpSolve_Pending F safe tv' true, [EvFR true])
                      | Some (false, s2) =>
                          (PBreak (match s2 with Some x => x | None => s' end) F safe tv' false,
                           [EvFR false])
                      end
                    else if fq then (PBreak s' F safe tv' false, [EvUntested])
                    else (PContinue s' F true tv' false, [])
                end
          end
      end.

  (** hiopAlgFilterIPM.cpp:2703-2757: after the linear-solve loop *)
  Definition after_step (iw : iter_world) (s : status) (F : filter_st) (safe : bool)
             (tv : option b64) (use_fr : bool) (iter naccep : Z) (e0 : errs0)
    : (run_st + run_out) * list event :=
    if negb (is_pending s) then (inr (RDone s), [])
    else
      let st' := mk_run_st (iter + 1) F naccep safe e0 use_fr in
      if use_fr then (inl st', [EvStep])
      else
        match tv with
        | None => (inr RStale, [])
        | Some t =>
            if fge t f_zero then
              if iw_deriv iw then (inl st', [EvStep]) else (inr (RDone Error_In_User_Function), [EvStep])
            else (inr RAssert, [])
        end.

  (** lines common to both solvers at the head of the loop: hiopAlgFilterIPM.cpp:2216-2328
      (= 1092-1204).  Either the run ends or the state for the step computation is produced. *)
  Definition head (iw : iter_world) (st : run_st)
    : (filter_st * Z * errs0 + run_out) * list event :=
    match iw_errs iw with
    | None => (inr (RDone Error_In_User_Function), [])
    | Some e =>
        let e0 := upd_errs0 (r_e0 st) e in
        if negb (iw_cb iw) then (inr (RDone User_Stopped), [])
        else
          match check_termination P e e0 (r_iter st) (r_naccep st) with
          | (Some s, _) => (inr (RDone s), [EvCheck e])
          | (None, n') =>
              match iw_nmu iw with
              | O => (inl (r_F st, n', e0), [EvCheck e])
              | S k =>
                  if iw_mu_err iw then
                    (inr (RDone Error_In_User_Function), EvCheck e :: repeat EvReset k)
                  else
                    (inl (mu_resets (S k) (r_F st), n', e0), EvCheck e :: repeat EvReset (S k))
              end
          end
    end.

  (** hiopAlgFilterIPM.cpp:2348-2377 *)
  Definition safe_at_start (m : linsol_mode) (iw : iter_world) (safe : bool) : bool :=
    match m with
    | Forcequick => false
    | Speculative => if iw_fast iw then false else safe
    | Stable => true
    end.

  (** linsol_forcequick, hiopAlgFilterIPM.cpp 2348-2377 *)
  Definition is_fq (m : linsol_mode) : bool := match m with Forcequick => true | _ => false end.

  (** one pass through the Newton main loop: hiopAlgFilterIPM.cpp:2214-2761 *)
  Definition newton_iter (m : linsol_mode) (iw : iter_world) (st : run_st)
    : (run_st + run_out) * list event :=
    match head iw st with
    | (inr o, ev) => (inr o, ev)
    | (inl (F, n', e0), ev) =>
        let safe := safe_at_start m iw (r_safe st) in
        let fin s F safe tv ufr ev' :=
          let '(r, ev2) := after_step iw s F safe tv ufr (r_iter st) n' e0 in
          (r, ev' ++ ev2) in
        match newton_pass (is_fq m) (iw_pass1 iw) (r_iter st) NlpSolve_Pending F safe None
                          (r_use_fr st) with
        | (PReturn o, ev1) => (inr o, ev ++ ev1)
        | (PBreak s F1 safe1 tv ufr, ev1) => fin s F1 safe1 tv ufr (ev ++ ev1)
        | (PContinue s F1 safe1 tv ufr, ev1) =>
            match newton_pass (is_fq m) (iw_pass2 iw) (r_iter st) s F1 safe1 tv ufr with
            | (PReturn o, ev2) => (inr o, ev ++ ev1 ++ ev2)
            | (PBreak s F2 safe2 tv ufr, ev2) => fin s F2 safe2 tv ufr (ev ++ ev1 ++ ev2)
            | (PContinue s F2 safe2 tv ufr, ev2) => fin s F2 safe2 tv ufr (ev ++ ev1 ++ ev2)
            end
        end
    end.

  (** one pass through the quasi-Newton main loop: hiopAlgFilterIPM.cpp:1090-1499.  Safe mode is
      always on (line 1085); a failed line search leaves the main loop (line 1431). *)
  Definition qn_iter (iw : iter_world) (st : run_st) : (run_st + run_out) * list event :=
    match head iw st with
    | (inr o, ev) => (inr o, ev)
    | (inl (F, n', e0), ev) =>
        let pw := iw_pass1 iw in
        if negb (pw_kkt pw) then (inr (RDone Err_Step_Computation), ev)
        else
          match pw_dir pw with
          | DirSolveFail | DirRefactFail => (inr (RDone Err_Step_Computation), ev)
          | DirOk =>
              let o := line_search fpow (rp_ls P) ls_fuel F (pw_ls pw) in
              match o with
              | LSFuel => (inr RFuel, ev)
              | LSAssert => (inr RAssert, ev)
              | LSEvalError => (inr (RDone Error_In_User_Function), ev)
              | _ =>
                  let s' := match o with LSSmall _ => Steplength_Too_Small | _ => NlpSolve_Pending end in
                  if force_resto P && negb (within_fr P) && (r_iter st =? 1)%Z then
                    match apply_fr (within_fr P) F (pw_fr pw) with
                    | None => (inr RAssert, ev ++ [EvFR false])
                    | Some (true, _) =>
                        let '(r, ev2) := after_step iw NlpSolve_Pending F true (Some (ls_tv o)) true
                                                    (r_iter st) n' e0 in
                        (r, ev ++ EvFR true :: ev2)
                    | Some (false, s2) =>
                        let '(r, ev2) := after_step iw (match s2 with Some x => x | None => s' end)
                                                    F true (Some (ls_tv o)) false (r_iter st) n' e0 in
                        (r, ev ++ EvFR false :: ev2)
                    end
                  else
                    match o with
                    | LSAccept a pt _ _ _ _ sc =>
                        let '(F', r0) := filter_augment fpow (rp_ls P) F (pw_ls pw) o in
                        let '(r, ev2) := after_step iw s' F' true (Some (ls_tv o)) false
                                                    (r_iter st) n' e0 in
                        (r, ev ++ (EvAccept a pt (pw_ls pw) sc ::
                                   match r0 with Some q => [EvRecord q] | None => [] end) ++ ev2)
                    | _ =>
                        match apply_fr (within_fr P) F (pw_fr pw) with
                        | None => (inr RAssert, ev ++ [EvFR false])
                        | Some (true, _) => (inr (RDone NlpSolve_Pending), ev ++ [EvFR true])
                        | Some (false, s2) =>
                            (inr (RDone (match s2 with Some x => x | None => s' end)), ev ++ [EvFR false])
                        end
                    end
              end
          end
    end.

  (** iteration of the main loop; [W] gives the environment of the k-th pass; hiopAlgFilterIPM.cpp 1089-1500, 2213-2760 *)
  Fixpoint run_loop (body : iter_world -> run_st -> (run_st + run_out) * list event)
           (fuel : nat) (W : nat -> iter_world) (k : nat) (st : run_st)
    : run_out * list event :=
    match fuel with
    | O => (RFuel, [])
    | S fuel' =>
        match body (W k) st with
        | (inr o, ev) => (o, ev)
        | (inl st', ev) =>
            let '(o, ev2) := run_loop body fuel' W (S k) st' in (o, ev ++ ev2)
        end
    end.

  (** state at the loop entry: hiopAlgFilterIPM.cpp:283-288, 1069-1088, 2195-2212.  -1 as initial
      reference errors; the filter is empty (clear in resetSolverStatus). *)
  Definition run_init (safe : bool) : run_st :=
    mk_run_st 0 filter_new 0 safe (fofZ (-1), fofZ (-1), fofZ (-1)) false.

  (** hiopAlgFilterIPM.cpp 2195-2781, from the state at the loop entry *)
  Definition run_newton (m : linsol_mode) (fuel : nat) (W : nat -> iter_world)
    : run_out * list event :=
    run_loop (newton_iter m) fuel W 0 (run_init (match m with Stable => true | _ => false end)).

  (** hiopAlgFilterIPM.cpp 1069-1519, from the state at the loop entry *)
  Definition run_qn (fuel : nat) (W : nat -> iter_world) : run_out * list event :=
    run_loop qn_iter fuel W 0 (run_init true).
End Run.
