(** Specification vocabulary for the line search, in terms of numbers the user can log
    (infeasibility theta, barrier value phi, step length, directional derivative). *)
From Coq Require Import List Bool ZArith.
From Verif Require Import FloatBase FilterModel FilterSpec LineSearchModel RunModel.
Import ListNotations.

Section Spec.
  Variable fpow : b64 -> b64 -> b64.
  Variable P : ls_params.

  (** "sufficient progress": theta_trial <= (1-gamma_theta) theta  or
      phi_trial <= phi - gamma_phi theta *)
  Definition Progress (th ph tht pht : b64) : Prop :=
    fle tht (fmul (fsub f_one (gamma_theta P)) th) = true \/
    fle pht (fsub ph (fmul (gamma_phi P) th)) = true.

  (** "switching condition": g < 0 and alpha (-g)^s_phi > delta theta^s_theta *)
  Definition Switching (alpha g th : b64) : Prop :=
    flt g f_zero = true /\
    flt (fmul (delta_sw P) (fpow th (s_theta P))) (fmul alpha (fpow (fopp g) (s_phi P))) = true.

  (** "Armijo": phi_trial <= phi + eta alpha g *)
  Definition Armijo (alpha g ph pht : b64) : Prop :=
    fle pht (fadd ph (fmul (fmul (eta_phi P) alpha) g)) = true.

  (** the k-th step length of the backtracking sequence *)
  Definition halved (a0 : b64) (k : nat) : b64 := Nat.iter k (fun a => fmul a f_half) a0.

  (** the documented meaning of the line-search codes 1, 2, 3 *)
  Definition Justified (W : ls_world) (st : Z) (pt : b64 * b64) : Prop :=
    exists k,
      let alpha := halved (w_alpha0 W) k in
      let far := fge (w_theta W) (theta_min P) in
      let prog := Progress (w_theta W) (w_phi W) (fst pt) (snd pt) in
      let sw := Switching alpha (w_gdir W) (w_theta W) in
      (st = 1%Z /\ far = true /\ prog) \/
      (st = 2%Z /\ far = false /\ ~ sw /\ prog) \/
      (st = 3%Z /\ far = false /\ sw /\ Armijo alpha (w_gdir W) (w_phi W) (snd pt)).
End Spec.

(** the history of filter calls visible in a trace *)
Fixpoint ops_of (theta_max : b64) (tr : list event) : list filter_op :=
  match tr with
  | [] => []
  | EvReset :: r => FReinit theta_max :: ops_of theta_max r
  | EvRecord (t, p) :: r => FAdd t p :: ops_of theta_max r
  | _ :: r => ops_of theta_max r
  end.

(** error measures tested so far, oldest first *)
Fixpoint checks (tr : list event) : list errs :=
  match tr with
  | [] => []
  | EvCheck e :: r => e :: checks r
  | _ :: r => checks r
  end.

(** number of completed iterations in a trace *)
Fixpoint steps (tr : list event) : nat :=
  match tr with
  | [] => 0
  | EvStep :: r => S (steps r)
  | _ :: r => steps r
  end.

(** the tolerances documented for a successful solve *)
Definition AtTolerance (P : run_params) (e : errs) : Prop :=
  fle (e_nlp e) (eps_tol P) = true /\ fle (e_optim e) (dual_tol P) = true /\
  fle (e_cons e) (cons_tol P) = true /\ fle (e_complem e) (comp_tol P) = true.

(** the relative tolerances, relative to the errors [e0] at the starting point *)
Definition AtRelTolerance (P : run_params) (e0 e : errs) : Prop :=
  fgt (eps_rtol P) f_zero = true /\
  fle (e_optim e) (fmul (eps_rtol P) (e_optim e0)) = true /\
  fle (e_feas e) (fmul (eps_rtol P) (e_feas e0)) = true /\
  fle (e_complem e) (fmul (std_max (eps_rtol P) f_1em6) (std_min f_one (e_complem e0))) = true.

(** [steps_tested fq j tr]: every completed iteration in [tr] is preceded, since the previous
    completed one, by a line-search acceptance or a successful feasibility restoration; an untested
    step is tolerated only when [fq] (the "forcequick" linear-solver mode) is on.  [j] says whether
    such a justification was already seen before [tr]. *)
Fixpoint steps_tested (fq j : bool) (tr : list event) : Prop :=
  match tr with
  | [] => True
  | EvStep :: r => j = true /\ steps_tested fq false r
  | EvAccept _ _ _ _ :: r => steps_tested fq true r
  | EvFR true :: r => steps_tested fq true r
  | EvUntested :: r => fq = true /\ steps_tested fq true r
  | _ :: r => steps_tested fq j r
  end.

(** a run of either solver: [None] = quasi-Newton, [Some m] = Newton in linear-solver mode [m] *)
Definition any_run (fpow : b64 -> b64 -> b64) (P : run_params) (ls_fuel : nat)
  (solver : option linsol_mode) (fuel : nat) (W : nat -> iter_world) : run_out * list event :=
  match solver with
  | Some m => run_newton fpow P ls_fuel m fuel W
  | None => run_qn fpow P ls_fuel fuel W
  end.

(** the direction computations of one pass never give up for lack of refactorizations *)
Definition no_refactorization_limit (iw : iter_world) : Prop :=
  pw_dir (iw_pass1 iw) <> DirRefactFail /\ pw_dir (iw_pass2 iw) <> DirRefactFail.

(** a binary64 step length in [0,1] *)
Definition unit_step (a : b64) : Prop :=
  SpecFloat.valid_binary 53 1024 a = true /\ fge a f_zero = true /\ fle a f_one = true.
