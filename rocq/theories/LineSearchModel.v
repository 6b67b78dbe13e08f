(** Model of the line search of the filter interior-point solver:
    /repo/src/Optimization/hiopAlgFilterIPM.cpp
    - [accept_line_search_conditions]   lines 2852-2946
    - [apply_second_order_correction]   lines 2949-3039
    - the backtracking loop             lines 1283-1367 (quasi-Newton) and 2501-2586 (Newton)
    - the post-line-search filter logic lines 1391-1418 and 2614-2648.
    Vectors, the NLP callbacks and the linear solves are not modelled: a [ls_world] supplies, for
    every trial, the numbers those computations produce.  libm's [pow] is the parameter [fpow]. *)
From Coq Require Import List Bool ZArith.
From Verif Require Import FloatBase FilterModel.
Import ListNotations.

(** hiopAlgFilterIPM.cpp:220-281 ([reload_options]) and 1283, 2956-2957: constants and options used
    by the line search. *)
Record ls_params : Type := mk_ls_params {
  theta_min : b64; gamma_theta : b64; gamma_phi : b64; s_theta : b64; s_phi : b64;
  delta_sw : b64; eta_phi : b64; min_step : b64; max_soc : nat; kappa_soc : b64;
  disable_ls : bool }.

(** infeasibility and barrier value of one evaluated point; [theta_trial] and
    [logbar->f_logbar_trial], hiopAlgFilterIPM.cpp:2532-2537 *)
Definition point : Type := (b64 * b64)%type.

(** What the environment supplies to one line search (hiopAlgFilterIPM.cpp:2474-2586).
    Simplification: evaluations are numbered, not tied to an iterate. *)
Record ls_world : Type := mk_ls_world {
  w_theta : b64;                       (* resid->get_theta() at the current point, line 2479 *)
  w_phi : b64;                         (* logbar->f_logbar *)
  w_alpha0 : b64;                      (* step after fractionToTheBdry/ensure_moving_lims *)
  w_trial : nat -> option point;       (* k-th evaluation in the loop; None = callback failed *)
  w_gdir : b64;                        (* directionalDerivative of dir *)
  w_soc : nat -> option point;         (* j-th second-order-correction trial *)
  w_soc_alpha : nat -> b64;            (* alpha_primal_soc of the j-th correction *)
  w_gsoc : nat -> b64 }.               (* directionalDerivative of the j-th corrected direction *)

Section LineSearch.
  Variable fpow : b64 -> b64 -> b64.   (* std::pow *)
  Variable P : ls_params.

  (** hiopAlgFilterIPM.cpp:2866-2867 and 2924-2925 *)
  Definition suff_dec (th ph tht pht : b64) : bool :=
    fle tht (fmul (fsub f_one (gamma_theta P)) th) || fle pht (fsub ph (fmul (gamma_phi P) th)).

  (** hiopAlgFilterIPM.cpp:2896 (and 2623) *)
  Definition switching (alpha g th : b64) : bool :=
    flt g f_zero &&
    fgt (fmul alpha (fpow (fopp g) (s_phi P))) (fmul (delta_sw P) (fpow th (s_theta P))).

  (** hiopAlgFilterIPM.cpp:2898 (and 2625) *)
  Definition armijo (alpha g ph pht : b64) : bool :=
    fle pht (fadd ph (fmul (fmul (eta_phi P) alpha) g)).

  (** the cached [grad_phi_dx]: [None] = not computed; hiopAlgFilterIPM.cpp:2889-2892 *)
  Definition get_g (gdir : b64) (c : option b64) : b64 :=
    match c with Some g => g | None => gdir end.

  (** hiopAlgFilterIPM.cpp:2852-2946.  Result: status (0,1,2,3), [trial_is_rejected_by_filter],
      cache of the directional derivative. *)
  Definition accept (F : filter_st) (th ph : b64) (gdir : b64) (tht pht alpha : b64)
             (c : option b64) : Z * bool * option b64 :=
    if fge th (theta_min P) then
      if suff_dec th ph tht pht then
        if filter_contains F tht pht then (0%Z, true, c) else (1%Z, false, c)
      else (0%Z, false, c)
    else
      let g := get_g gdir c in
      if switching alpha g th then
        if armijo alpha g ph pht then
          if filter_contains F tht pht then (0%Z, true, Some g) else (3%Z, false, Some g)
        else (0%Z, false, Some g)
      else
        if suff_dec th ph tht pht then
          if filter_contains F tht pht then (0%Z, true, Some g) else (2%Z, false, Some g)
        else (0%Z, false, Some g).

  (** Result of the second-order correction: hiopAlgFilterIPM.cpp:2949-3039.
      [SocErr] is the early [return Error_In_User_Function] at line 3018. *)
  Inductive soc_out : Type :=
  | SocNone                                                    (* status 0 *)
  | SocErr
  | SocOk (status : Z) (pt : point) (j : nat) (alpha : b64) (c : option b64).

  (** the loop at hiopAlgFilterIPM.cpp:2988-3036; [left] = max_soc_iter - num_soc, [j] = num_soc.
      The acceptance test uses the caller's [_alpha_primal] and the caller's direction (line 3026
      and 2890). *)
  Fixpoint soc_loop (F : filter_st) (W : ls_world) (alpha : b64) (left j : nat)
           (tht_last tht : b64) (c : option b64) : soc_out :=
    match left with
    | O => SocNone
    | S left' =>
        if Nat.eqb j 0 || fle tht (fmul (kappa_soc P) tht_last) then
          match w_soc W j with
          | None => SocErr
          | Some (t, p) =>
              let '(st, _, c') := accept F (w_theta W) (w_phi W) (w_gdir W) t p alpha c in
              if (0 <? st)%Z then SocOk st (t, p) j (w_soc_alpha W j) c'
              else soc_loop F W alpha left' (S j) tht t c'
          end
        else SocNone
    end.

  (** hiopAlgFilterIPM.cpp:2949-3039 with the initial values of lines 2972-2978 *)
  Definition soc (F : filter_st) (W : ls_world) (alpha tht0 : b64) : soc_out :=
    soc_loop F W alpha (max_soc P) 0 f_zero tht0 None.

  (** Outcome of the backtracking loop; hiopAlgFilterIPM.cpp 1283-1367, 2501-2586 *)
  Inductive ls_out : Type :=
  | LSAccept (status : Z)            (* 1, 2 or 3 *)
             (pt : point)            (* the accepted point *)
             (theta_var : b64)       (* the variable [theta_trial] after the loop *)
             (alpha : b64) (g_dir : b64) (c : option b64) (used_soc : bool)
  | LSSmall (theta_var : b64)        (* step below min_step_size, line 2506 *)
  | LSDisabled (theta_var : b64)     (* accept_every_trial_step, line 2545: lsStatus stays 0 *)
  | LSEvalError                      (* function evaluation failed, line 2525 *)
  | LSAssert                         (* assert(lsStatus == 0) at line 2581 *)
  | LSFuel.                          (* not a C++ outcome: loop still running *)

  (** 0.5 as binary64; hiopAlgFilterIPM.cpp:2582 *)
  Definition f_half : b64 := S754_finite false 4503599627370496 (-53).

  (** hiopAlgFilterIPM.cpp:2501-2586 (identical: 1283-1367, apart from the value of
      [solver_status_] recorded on a small step).  [ini] = iniStep, [k] = lsNum, [tv] = last value
      of [theta_trial]. *)
  Fixpoint ls_loop (fuel : nat) (F : filter_st) (W : ls_world) (ini : bool) (k : nat)
           (alpha tv : b64) (c : option b64) : ls_out :=
    match fuel with
    | O => LSFuel
    | S fuel' =>
        if negb ini && flt alpha (min_step P) then LSSmall tv
        else
          match w_trial W k with
          | None => LSEvalError
          | Some (tht, pht) =>
              if disable_ls P then LSDisabled tht
              else
                let '(st, _, c') := accept F (w_theta W) (w_phi W) (w_gdir W) tht pht alpha c in
                if (0 <? st)%Z then LSAccept st (tht, pht) tht alpha (w_gdir W) c' false
                else if ini && fle (w_theta W) tht then
                  match soc F W alpha tht with
                  | SocErr => LSAssert
                  | SocOk st' pt j a cs => LSAccept st' pt tht a (w_gsoc W j) cs true
                  | SocNone => ls_loop fuel' F W false (S k) (fmul alpha f_half) tht c'
                  end
                else ls_loop fuel' F W false (S k) (fmul alpha f_half) tht c'
          end
    end.

  (** hiopAlgFilterIPM.cpp:2493-2501: entry of the line search.  -1 as the initial
      [infeas_nrm_trial]. *)
  Definition line_search (fuel : nat) (F : filter_st) (W : ls_world) : ls_out :=
    ls_loop fuel F W true 0 (w_alpha0 W) (fofZ (-1)) None.

  (** hiopAlgFilterIPM.cpp:2614-2648: which pair, if any, is added to the filter after acceptance *)
  Definition filter_augment (F : filter_st) (W : ls_world) (o : ls_out) : filter_st * option point :=
    match o with
    | LSAccept st (_, pht) tv alpha gdir c _ =>
        if (st =? 1)%Z then
          let g := get_g gdir c in
          if switching alpha g (w_theta W) then
            if armijo alpha g (w_phi W) pht then (F, None)
            else (filter_add tv pht F, Some (tv, pht))
          else (filter_add tv pht F, Some (tv, pht))
        else if (st =? 2)%Z then (filter_add tv pht F, Some (tv, pht))
        else (F, None)
    | _ => (F, None)
    end.
End LineSearch.
