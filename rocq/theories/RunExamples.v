(** Concrete parameters and environments used by the examples and refutations in LineSearchProps and
    RunProps.  Test data only; it models nothing in /repo. *)
From Coq Require Import List Bool ZArith.
From Verif Require Import FloatBase FilterModel LineSearchModel RunModel LineSearchSpec.
Import ListNotations.

Definition xpow (a b : b64) : b64 := f_one.
Definition f_frac (n d : Z) : b64 := fdiv (fofZ n) (fofZ d).
Definition f_1em16 : b64 := S754_finite false 8112963841460668 (-106).

Definition xls : ls_params :=
  mk_ls_params (f_frac 1 10000) (f_frac 1 100000) (f_frac 1 100000000) (f_frac 11 10) (f_frac 23 10)
               f_one (f_frac 1 10000) f_1em16 4 (f_frac 99 100) false.
Definition xls_min0 : ls_params :=
  mk_ls_params (f_frac 1 10000) (f_frac 1 100000) (f_frac 1 100000000) (f_frac 11 10) (f_frac 23 10)
               f_one (f_frac 1 10000) f_zero 4 (f_frac 99 100) false.
Definition xls_nosoc : ls_params :=
  mk_ls_params (f_frac 1 10000) (f_frac 1 100000) (f_frac 1 100000000) (f_frac 11 10) (f_frac 23 10)
               f_one (f_frac 1 10000) f_1em16 0 (f_frac 99 100) false.
Definition xls_disabled : ls_params :=
  mk_ls_params (f_frac 1 10000) (f_frac 1 100000) (f_frac 1 100000000) (f_frac 11 10) (f_frac 23 10)
               f_one (f_frac 1 10000) f_1em16 4 (f_frac 99 100) true.

Definition xrun (L : ls_params) (maxit : Z) : run_params :=
  mk_run_params L (f_frac 1 1000) f_one f_one f_one f_zero (f_frac 1 100) 3 maxit
                (fofZ 10000) false false.

Definition e_big : errs := mk_errs (fofZ 5) (fofZ 5) (fofZ 5) (fofZ 5) (fofZ 5).
Definition e_mid : errs := mk_errs (f_frac 1 200) (fofZ 5) (fofZ 5) (fofZ 5) (fofZ 5).
Definition e_small : errs := mk_errs f_zero f_zero f_zero f_zero f_zero.

(** a line search from (th, ph) whose k-th trial is [tr k] and whose first correction is [sc] *)
Definition xW (th ph : b64) (tr : nat -> option point) (sc : option point) : ls_world :=
  mk_ls_world th ph f_one tr (fofZ 1) (fun j => match j with O => sc | _ => None end)
              (fun _ => f_one) (fun _ => fofZ 1).

Definition xfr (soft : soft_trial) (sub : status) : fr_world :=
  mk_fr_world f_one (fun _ => soft) sub true true.

Definition xpass (w : ls_world) : pass_world :=
  mk_pass_world true DirOk w (xfr (SoftPt (fofZ 5) f_zero f_zero) Error_In_FR).
Definition xpass_fr (w : ls_world) (f : fr_world) : pass_world := mk_pass_world true DirOk w f.

Definition xiter (e : errs) (p : pass_world) : iter_world :=
  mk_iter_world (Some e) true 0 false false p p true.
Definition xiter_mu (e : errs) (p : pass_world) : iter_world :=
  mk_iter_world (Some e) true 2 false false p p true.

(** rejected by the acceptance test at every step length: theta 1 -> 2, phi 0 -> 1 *)
Definition xW_reject : ls_world := xW (fofZ 1) f_zero (fun _ => Some (fofZ 2, fofZ 1)) (Some (fofZ 2, fofZ 1)).
(** the same with a NaN first step length *)
Definition xW_nan : ls_world :=
  mk_ls_world (fofZ 1) f_zero S754_nan (fun _ => Some (fofZ 2, fofZ 1)) (fofZ 1) (fun _ => None)
              (fun _ => f_one) (fun _ => fofZ 1).
(** accepted after two rejections *)
Definition xW_third : ls_world :=
  xW (fofZ 1) f_zero (fun k => match k with O => Some (f_frac 99999999 100000000, fofZ 1)
                                      | 1 => Some (f_frac 999999 1000000, fofZ 1)
                                      | _ => Some (f_frac 1 2, fofZ 1) end) None.

(** cycling through a point accepted by second-order correction *)
Definition pA : point := (f_frac 1 2, fofZ 10).
Definition pB : point := (f_frac 19 10, fofZ 9).
Definition cycleW (k : nat) : iter_world :=
  match k with
  | 0 => xiter e_big (xpass (xW (fofZ 1) (fofZ 3) (fun _ => Some (fofZ 2, fofZ 5)) (Some pA)))
  | 1 => xiter e_big (xpass (xW (fst pA) (snd pA) (fun _ => Some pB) None))
  | 2 => xiter e_big (xpass (xW (fst pB) (snd pB) (fun _ => Some pA) None))
  | _ => xiter e_small (xpass xW_reject)
  end.

(** a normal run: two accepted steps with a barrier update in between, then convergence *)
Definition goodW (k : nat) : iter_world :=
  match k with
  | 0 => xiter e_big (xpass xW_third)
  | 1 => xiter_mu e_mid (xpass (xW (f_frac 1 2) (fofZ 1) (fun _ => Some (f_frac 1 4, fofZ 2)) None))
  | 2 => xiter e_mid (xpass (xW (f_frac 1 4) (fofZ 2) (fun _ => Some (f_frac 1 8, fofZ 2)) None))
  | _ => xiter e_small (xpass xW_reject)
  end.
(** never converges; acceptable errors throughout *)
Definition slowW (e : errs) (k : nat) : iter_world :=
  xiter e (xpass (xW (f_frac 1 (2 ^ Z.of_nat k)) (fofZ 3)
                     (fun _ => Some (f_frac 1 (2 ^ (Z.of_nat k + 1)), fofZ 3)) None)).

(** quasi-Newton run whose first line search fails and whose restoration succeeds *)
Definition frW (k : nat) : iter_world :=
  xiter e_big (xpass_fr xW_reject (xfr (SoftPt f_zero f_zero f_zero) User_Stopped)).
(** line search fails; soft restoration hits a failing user callback; next point is optimal *)
Definition swallowW (k : nat) : iter_world :=
  match k with
  | 0 => xiter e_big (xpass_fr xW_reject (xfr SoftErr Error_In_FR))
  | _ => xiter e_small (xpass xW_reject)
  end.
(** all evaluations succeed and the trial point is perfect *)
Definition disabledW (k : nat) : iter_world :=
  xiter e_big (xpass_fr (xW (fofZ 1) (fofZ 3) (fun _ => Some (f_zero, f_zero)) None)
                        (xfr (SoftPt (fofZ 5) f_zero f_zero) Solve_Success)).
(** restoration in iteration 0, then both direction computations run out of refactorizations *)
Definition staleW (k : nat) : iter_world :=
  match k with
  | 0 => mk_iter_world (Some e_big) true 0 false false
           (xpass_fr xW_reject (xfr (SoftPt f_zero f_zero f_zero) User_Stopped))
           (xpass_fr xW_reject (xfr (SoftPt f_zero f_zero f_zero) User_Stopped)) true
  | 1 => mk_iter_world (Some e_big) true 0 false true
           (mk_pass_world true DirRefactFail xW_reject (xfr SoftErr Error_In_FR))
           (mk_pass_world true DirRefactFail xW_reject (xfr SoftErr Error_In_FR)) true
  | _ => xiter e_small (xpass xW_reject)
  end.

Definition stale0W (k : nat) : iter_world :=
  match k with
  | 0 => mk_iter_world (Some e_big) true 0 false true
           (mk_pass_world true DirRefactFail xW_reject (xfr SoftErr Error_In_FR))
           (mk_pass_world true DirRefactFail xW_reject (xfr SoftErr Error_In_FR)) true
  | _ => xiter e_small (xpass xW_reject)
  end.

Definition soft_all_rejectedW : fr_world :=
  mk_fr_world f_one (fun _ => SoftPt f_zero (fofZ 7) (fofZ 7)) Error_In_FR true true.
