(** Model of the barrier-parameter update: /repo/src/Optimization/hiopAlgFilterIPM.cpp
    [update_log_barrier_params] lines 556-625 and the loop that calls it, lines 2289-2328
    (identical: 1168-1204).  Binary64 arithmetic; libm's [pow] is the parameter [fpow].
    Not modelled here: the bound tightening of the elastic mode (lines 574-622, ElasModel.v), which
    does not touch mu or tau; logging; the recomputation of residuals, whose only effect here is the next value
    of [_err_log]. *)
From Coq Require Import List Bool ZArith.
From Verif Require Import FloatBase.
Import ListNotations.

(** options and members read by the update; hiopAlgFilterIPM.cpp:223-232, 563 *)
Record mu_params : Type := mk_mu_params {
  mp_kappa_mu : b64; mp_theta_mu : b64; mp_tau_min : b64; mp_eps_tol : b64; mp_comp_tol : b64;
  mp_obj_scale : b64; mp_kappa_eps : b64 }.

(** C99 fmax/fmin: a NaN argument is ignored; hiopAlgFilterIPM.cpp:564-565, 570 *)
Definition fmax (a b : b64) : b64 :=
  if is_nan a then b else if is_nan b then a else if flt a b then b else a.
(** C99 fmin, hiopAlgFilterIPM.cpp 564-565, 570 *)
Definition fmin (a b : b64) : b64 :=
  if is_nan a then b else if is_nan b then a else if flt b a then b else a.

(** 1e-16; hiopAlgFilterIPM.cpp:566 *)
Definition f_em16 : b64 := S754_finite false 8112963841460668 (-106).

Section Mu.
  Variable fpow : b64 -> b64 -> b64.
  Variable P : mu_params.

  (** hiopAlgFilterIPM.cpp:563, 565: [fmin(eps_tol, comp_tol/obj_scale)/(10.+1.)] *)
  Definition mu_floor : b64 :=
    fdiv (fmin (mp_eps_tol P) (fdiv (mp_comp_tol P) (mp_obj_scale P))) (fadd (fofZ 10) f_one).

  (** hiopAlgFilterIPM.cpp:564-565 *)
  Definition mu_candidate (mu : b64) : b64 :=
    fmax (fmax f_zero (fmin (fmul (mp_kappa_mu P) mu) (fpow mu (mp_theta_mu P)))) mu_floor.

  (** hiopAlgFilterIPM.cpp:570 and 265 *)
  Definition tau_of (mu : b64) : b64 := fmax (mp_tau_min P) (fsub f_one mu).

  (** hiopAlgFilterIPM.cpp:556-625; [None] = returned false *)
  Definition mu_update (mu : b64) : option (b64 * b64) :=
    let new_mu := mu_candidate mu in
    if flt (fabs (fsub new_mu mu)) f_em16 then None
    else Some (new_mu, tau_of new_mu).

  (** outcome of the loop: final mu and tau and number of updates; the flag says that the error
      evaluation failed (line 2307); [None] = not a C++ outcome, still running *)
  Record mu_res : Type := mk_mu_res { mr_mu : b64; mr_tau : b64; mr_n : nat; mr_err : bool }.

  (** hiopAlgFilterIPM.cpp:2289-2328.  [err k] is [_err_log] after the k-th update of this loop,
      [None] if its evaluation failed; [elastic] = elastic_mode_on. *)
  Fixpoint mu_loop (fuel : nat) (elastic : bool) (err : nat -> option b64) (k : nat)
           (cur_err mu tau : b64) : option mu_res :=
    match fuel with
    | O => None
    | S fuel' =>
        if fle cur_err (fmul (mp_kappa_eps P) mu) then
          match mu_update mu with
          | None => Some (mk_mu_res mu tau k false)
          | Some (mu', tau') =>
              match err k with
              | None => Some (mk_mu_res mu' tau' (S k) true)
              | Some e =>
                  if elastic then Some (mk_mu_res mu' tau' (S k) false)
                  else mu_loop fuel' elastic err (S k) e mu' tau'
              end
          end
        else Some (mk_mu_res mu tau k false)
    end.
End Mu.
