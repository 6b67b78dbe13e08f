(** Model of the elastic mode: the bound relaxation that
    /repo/src/Optimization/hiopAlgFilterIPM.cpp [update_log_barrier_params] (556-625) recomputes
    whenever mu changes, on top of the barrier update of MuModel.v, the relaxation of one pair of
    bounds of XformModel.v and the slack kernels of VecModel.v.  Binary64; one rank.
    Not modelled: logging, the adjustment of the duals (614-616, which does not touch bounds or mu)
    and the unused infeasibility of line 621. *)
From Coq Require Import List Bool ZArith.
From Verif Require Import FloatBase MuModel VecModel XformModel.
Import ListNotations.

(** option elastic_mode other than 'none'; hiopOptions.cpp:1157-1166 *)
Inductive el_mode := TightenBound | CorrectIt | CorrectItAdjustBound.
(** option elastic_bound_strategy; hiopOptions.cpp:1168-1174 *)
Inductive el_strategy := MuProjected | MuScaled.
(** the options read in elastic mode; hiopAlgFilterIPM.cpp:573-581, 597, 611; [el_tol] is eps_tol and
    [el_mu0] the member mu0 *)
Record elastic : Type := Elastic { el_how : el_mode; el_strat : el_strategy;
  el_init : b64; el_fin : b64; el_tol : b64; el_mu0 : b64 }.

(** hiopAlgFilterIPM.cpp:579 *)
Definition f_0995 : b64 := fdiv (fofZ 995) (fofZ 1000).

(** hiopAlgFilterIPM.cpp:573-584 *)
Definition raw_factor (E : elastic) (mu_new : b64) : b64 :=
  match el_strat E with
  | MuScaled => fmul f_0995 mu_new
  | MuProjected =>
      fadd (fmul (fdiv (fsub mu_new (el_tol E)) (fsub (el_mu0 E) (el_tol E)))
                 (fsub (el_init E) (el_fin E))) (el_fin E)
  end.
(** hiopAlgFilterIPM.cpp:586-592 *)
Definition relax_factor (E : elastic) (mu_new : b64) : b64 :=
  let r := raw_factor E mu_new in
  let r := if fgt r (el_init E) then el_init E else r in
  if flt r (el_fin E) then el_fin E else r.

(** what the iterate holds about one bounded quantity (a variable or an inequality body): its value, its two bound
    multipliers and the two bound indicators; hiopIterate.cpp:414-506 *)
Record quant : Type := Quant { u_x : b64; u_zl : b64; u_zu : b64; u_il : b64; u_iu : b64 }.

(** hiopIterate.cpp:293-313 [compute_safe_slacks] for one block (x or d): determineSlacks 274-291 followed by
    adjust_small_slacks 414-480; lower slacks, upper slacks, number of adjusted ones.  [sf] is pow(eps,0.75) *)
Definition safe_slacks (eps sf mu : b64) (bs : list ((b64 * b64) * quant)) : list b64 * list b64 * nat :=
  let lo := adjust_small_all Far eps sf mu
    [map (fun e => @Slk Far (lower_slack1 Far (u_x (snd e)) (fst (fst e)) (u_il (snd e))) (fst (fst e)) (u_zl (snd e)) (u_il (snd e))) bs] in
  let up := adjust_small_all Far eps sf mu
    [map (fun e => @Slk Far (upper_slack1 Far (u_x (snd e)) (snd (fst e)) (u_iu (snd e))) (snd (fst e)) (u_zu (snd e)) (u_iu (snd e))) bs] in
  (concat (fst lo), concat (fst up), (snd lo + snd up)%nat).

(** hiopNlpFormulation.cpp:1403-1416 [adjust_bounds] for one block *)
Fixpoint adjusted (bs : list ((b64 * b64) * quant)) (lo up : list b64) : list (b64 * b64) :=
  match bs, lo, up with
  | (b, u) :: bs', l :: lo', h :: up' =>
      (adjust_lower1 Far (fst b) (u_x u) l (u_il u), adjust_upper1 Far (snd b) (u_x u) h (u_iu u)) :: adjusted bs' lo' up'
  | _, _, _ => []
  end.

(** the working bounds of one problem: variables and inequality bodies; hiopNlpFormulation.hpp:337-344 *)
Record wbounds : Type := WBounds { b_x : list (b64 * b64); b_d : list (b64 * b64) }.
(** the iterate; hiopIterate.hpp:146-161 *)
Record wquants : Type := WQuants { q_x : list quant; q_d : list quant }.

(** hiopNlpTransforms.cpp:391-417 [relax_from_ori] (and, on the original bounds, [relax] 366-389) *)
Definition relax_all (p : b64) (ori : wbounds) : wbounds :=
  WBounds (map (bounds_relax1 p) (b_x ori)) (map (bounds_relax1 p) (b_d ori)).

(** the bounds after lines 594-618; hiopAlgFilterIPM.cpp:594-618.  Blocks and iterate have the same sizes. *)
Definition elastic_bounds (eps sf : b64) (E : elastic) (mu_new : b64) (ori : wbounds) (it : wquants) : wbounds :=
  let w := relax_all (relax_factor E mu_new) ori in
  match el_how E with
  | CorrectItAdjustBound =>
      let bx := combine (b_x w) (q_x it) in
      let bd := combine (b_d w) (q_d it) in
      let '(xl, xu, nx) := safe_slacks eps sf mu_new bx in
      let '(dl, du, nd) := safe_slacks eps sf mu_new bd in
      if Nat.ltb 0 (nx + nd) then WBounds (adjusted bx xl xu) (adjusted bd dl du) else w
  | TightenBound | CorrectIt => w
  end.

(** outcome of one call in elastic mode: hiopAlgFilterIPM.cpp:556-625; the last constructor is the call through
    the null pointer [relax_bounds_] in reset_bounds, hiopNlpFormulation.cpp:1418-1421 *)
Inductive el_outcome := ElSame | ElNew (mu tau : b64) (b : wbounds) | ElNull.

Section Elastic.
  Variable fpow : b64 -> b64 -> b64.
  Variable P : mu_params.
  Variable E : elastic.
  Variables eps sf : b64.

  (** hiopAlgFilterIPM.cpp:556-625 with elastic_mode_on; [ori] is what the bounds relaxer holds, if there is one *)
  Definition elastic_update (ori : option wbounds) (mu : b64) (it : wquants) : el_outcome :=
    match mu_update fpow P mu with
    | None => ElSame
    | Some (mu', tau') =>
        match ori with
        | None => ElNull
        | Some o => ElNew mu' tau' (elastic_bounds eps sf E mu' o it)
        end
    end.

  (** hiopNlpFormulation.cpp:395-407: the relaxer exists only when option bound_relax_perturb is positive *)
  Definition make_relaxer (bound_relax_perturb : b64) (user : wbounds) : option wbounds :=
    if fgt bound_relax_perturb f_zero then Some user else None.
  (** hiopNlpFormulation.cpp:700-702 [apply_scaling] (called at hiopAlgFilterIPM.cpp:351, after the relaxation):
      the inequality bounds, but not the relaxer's copies, are multiplied by the scaling factors, one per
      inequality (1 without scaling); hiopNlpTransforms.hpp:430-435 *)
  Definition scale_ineq (scal : list b64) (b : wbounds) : wbounds :=
    WBounds (b_x b) (map (fun e => (fmul (fst (fst e)) (snd e), fmul (snd (fst e)) (snd e))) (combine (b_d b) scal)).

  (** the bounds the solver starts with in elastic mode; hiopNlpFormulation.cpp:398-407, 700-702 *)
  Definition start_bounds (bound_relax_perturb : b64) (scal : list b64) (user : wbounds) : wbounds :=
    scale_ineq scal
      match make_relaxer bound_relax_perturb user with
      | Some o => relax_all (el_init E) o
      | None => user
      end.

  (** the bounds after each successful update along a run whose iterates at the updates are [its], from [mu];
      hiopAlgFilterIPM.cpp:2289-2328 over the whole run (one update per iteration at most, 2323); [None] when the
      null pointer is used *)
  Fixpoint elastic_run (ori : option wbounds) (mu : b64) (its : list wquants) : option (list (b64 * wbounds)) :=
    match its with
    | [] => Some []
    | it :: rest =>
        match elastic_update ori mu it with
        | ElSame => elastic_run ori mu rest
        | ElNull => None
        | ElNew mu' _ b =>
            match elastic_run ori mu' rest with
            | Some l => Some ((mu', b) :: l)
            | None => None
            end
        end
    end.
End Elastic.
