(** The optimality errors: the norms computed by src/Optimization/hiopResidual.cpp [update] (153-370)
    and [compute_nlp_infeasib_onenorm] (102-150), and their combination by
    src/Optimization/hiopAlgFilterIPM.cpp [evalNlpAndLogErrors] (636-708).
    Over a record of arithmetic operations (VecModel): exact rationals or binary64.  Arrays walked
    by one loop index are one list of records; the variables are a list of such lists, one per MPI
    rank; constraints are replicated on every rank.  Not modelled: logging, timers, and the bound
    residuals rxl, rxu, rdl, rdu, which enter no norm. *)
From Coq Require Import List Bool Arith QArith ZArith.
From Verif Require Import FloatBase MuModel VecModel RunModel.
Import ListNotations.

Section Errors.
Variable K : arith.
Notation T := (car K).
(** conversion of a count to double (hiopAlgFilterIPM.cpp 679-680) *)
Variable ofn : nat -> T.
(** 1e+8 (hiopAlgFilterIPM.cpp 682-683) *)
Variable cap : T.

(** one variable of a rank: gradient, its column of Jac_c and of Jac_d, bound patterns, slacks and
    multipliers of its bounds (hiopResidual.cpp 176-180, 284-312) *)
Record xvar := XVar { x_g : T; x_jc : list T; x_jd : list T; x_il : T; x_iu : T;
                      x_sl : T; x_su : T; x_zl : T; x_zu : T }.
(** one inequality: the slack variable d of the iterate, the value of the constraint, its bounds and
    patterns, the slacks, and the multipliers yd, vl, vu (hiopResidual.cpp 191-231, 314-347) *)
Record dvar := DVar { d_it : T; d_val : T; d_l : T; d_u : T; d_il : T; d_iu : T;
                      d_sl : T; d_su : T; d_y : T; d_vl : T; d_vu : T }.
(** one equality: value, right-hand side, multiplier (hiopResidual.cpp 202-207) *)
Record evar := EVar { e_c : T; e_rhs : T; e_y : T }.

(** hiopVectorPar.cpp 523-537 [infnorm_local] *)
Definition inf_norm (v : list T) : T :=
  match v with
  | [] => azero K
  | a :: r => fold_left (fun n x => let aux := aabs K x in if alt K n aux then aux else n) r (aabs K a)
  end.
(** hiopVectorPar.cpp 555-562 [onenorm_local] *)
Definition one_norm (v : list T) : T := fold_left (fun s x => aadd K s (aabs K x)) v (azero K).
(** hiopVectorPar.cpp 821-838 [min_w_pattern] on pairs (entry, pattern) *)
Definition min_pat (v : list (T * T)) : T :=
  fold_left (fun r e => if aeq K (snd e) (aone K) then (if alt K r (fst e) then r else fst e) else r) v (amaxv K).
(** hiopVectorPar.cpp 1063-1070 [selectPattern], one entry *)
Definition sel (ix v : T) : T := if aeq K ix (azero K) then azero K else v.
(** number of entries of a pattern that are 1 (n_low_local() and the like, hiopNlpFormulation.hpp 240-251) *)
Definition ones (ix : list T) : nat := length (filter (fun i => aeq K i (aone K)) ix).
(** one entry of a matrix transpose times vector added to the vector: hiopResidual.cpp 177-178 *)
Definition add_col (acc : T) (col y : list T) : T :=
  fold_left (fun a p => aadd K a (amul K (fst p) (snd p))) (combine col y) acc.

Variable D : list dvar.
Variable E : list evar.

(** the entry of rx before the damping terms, hiopResidual.cpp 176-180 *)
Definition rx1 (x : xvar) : T :=
  aadd K (asub K (add_col (add_col (x_g x) (x_jc x) (map e_y E)) (x_jd x) (map d_y D)) (x_zl x)) (x_zu x).
(** the entry of rd before the damping terms, hiopResidual.cpp 191-193 *)
Definition rd1 (d : dvar) : T := asub K (aadd K (d_y d) (d_vl d)) (d_vu d).
(** hiopIterate.cpp 568-588, hiopVectorPar.cpp 927-944: the damping terms added with factor [ct] to one entry *)
Definition damp (ct il iu v : T) : T := aadd K (amul K (aone K) v) (amul K (asub K il iu) ct).
(** the entry of rx after the damping terms and negation, hiopResidual.cpp 185-186; kappa_d > 0 *)
Definition rx_bar (ct : T) (x : xvar) : T := aopp K (damp ct (x_il x) (x_iu x) (rx1 x)).
(** the entry of rd after the damping terms, hiopResidual.cpp 198; kappa_d > 0 *)
Definition rd_bar (ct : T) (d : dvar) : T := damp (aopp K ct) (d_il d) (d_iu d) (rd1 d).
(** hiopResidual.cpp 202-203 *)
Definition ryc1 (e : evar) : T := asub K (e_rhs e) (e_c e).
(** hiopResidual.cpp 226-227 *)
Definition ryd1 (d : dvar) : T := asub K (d_it d) (d_val d).

(** hiopResidual.cpp 215-217 and 221-223: the violation of one kind of bound *)
Definition viol (m : T) : T := if alt K m (azero K) then aopp K m else azero K.
(** nrmInf_cons_violation, hiopResidual.cpp 204-223 *)
Definition cons_viol : T :=
  afmax K (afmax K (afmax K (azero K) (inf_norm (map ryc1 E)))
             (viol (min_pat (map (fun d => (asub K (d_val d) (d_l d), d_il d)) D))))
          (viol (min_pat (map (fun d => (asub K (d_u d) (d_val d), d_iu d)) D))).
(** nrmInf_nlp_feasib, hiopResidual.cpp 205, 229 *)
Definition nlp_feas : T := afmax K (afmax K (azero K) (inf_norm (map ryc1 E))) (inf_norm (map ryd1 D)).
(** nrmOne_nlp_feasib, hiopResidual.cpp 206, 230; also the value returned at 102-150 *)
Definition theta : T := aadd K (aadd K (azero K) (one_norm (map ryc1 E))) (one_norm (map ryd1 D)).

(** MPI_MAX over the ranks, hiopResidual.cpp 351-363; the reduction order is the rank order *)
Definition over_ranks (l : list T) : T :=
  match l with [] => azero K | a :: r => fold_left (afmax K) r a end.

(** nrmInf_nlp_optim on one rank, hiopResidual.cpp 182, 195 *)
Definition optim_rank (r : list xvar) : T :=
  afmax K (afmax K (azero K) (inf_norm (map rx1 r))) (inf_norm (map rd1 D)).
(** nrmInf_bar_optim on one rank, hiopResidual.cpp 187, 199 *)
Definition optim_bar_rank (ct : T) (r : list xvar) : T :=
  afmax K (afmax K (azero K) (inf_norm (map (rx_bar ct) r))) (inf_norm (map (rd_bar ct) D)).

(** one complementarity block: slacks, multipliers, pattern; hiopResidual.cpp 284-296 (all four are alike;
    [sh] = None is the NLP error, where mu is not added) *)
Definition comp_block (s z ix : list T) (sh : option T) (acc : T) : T :=
  if Nat.ltb 0 (ones ix) then
    let prod := map (fun p => asub K (azero K) (amul K (fst (fst p)) (snd (fst p)))) (combine (combine s z) ix) in
    let masked := if Nat.ltb (ones ix) (length ix) then map (fun p => sel (fst p) (snd p)) (combine ix prod) else prod in
    let shifted := match sh with
                   | None => masked
                   | Some mu => map (fun p => if aeq K (fst p) (aone K) then aadd K (snd p) mu else snd p) (combine ix masked)
                   end in
    afmax K acc (inf_norm shifted)
  else acc.
(** nrmInf_nlp_complem ([sh] = None) and nrmInf_bar_complem ([sh] = mu) on one rank, hiopResidual.cpp 284-347 *)
Definition complem_rank (sh : option T) (r : list xvar) : T :=
  comp_block (map d_su D) (map d_vu D) (map d_iu D) sh
 (comp_block (map d_sl D) (map d_vl D) (map d_il D) sh
 (comp_block (map x_su r) (map x_zu r) (map x_iu r) sh
 (comp_block (map x_sl r) (map x_zl r) (map x_il r) sh (azero K)))).

(** the errors after the reduction over the ranks, hiopResidual.cpp 351-363 *)
Definition nlp_optim (ranks : list (list xvar)) : T := over_ranks (map optim_rank ranks).
(** hiopResidual.cpp 351-363 *)
Definition nlp_complem (ranks : list (list xvar)) : T := over_ranks (map (complem_rank None) ranks).
(** hiopResidual.cpp 351-363 *)
Definition bar_optim (ct : T) (ranks : list (list xvar)) : T := over_ranks (map (optim_bar_rank ct) ranks).
(** hiopResidual.cpp 351-363 *)
Definition bar_complem (mu : T) (ranks : list (list xvar)) : T := over_ranks (map (complem_rank (Some mu)) ranks).

(** hiopIterate.cpp 239-257 [normOneOfDuals]: bound multipliers, then constraint multipliers *)
Definition dual_bound (ranks : list (list xvar)) : T :=
  aadd K (fold_left (aadd K) (map (fun r => aadd K (one_norm (map x_zl r)) (one_norm (map x_zu r))) ranks) (azero K))
         (aadd K (one_norm (map d_vl D)) (one_norm (map d_vu D))).
(** hiopIterate.cpp 256 *)
Definition dual_eq : T := aadd K (one_norm (map e_y E)) (one_norm (map d_y D)).
(** n_complem(), hiopNlpFormulation.hpp 244 *)
Definition n_complem (ranks : list (list xvar)) : nat :=
  ones (map d_il D) + ones (map d_iu D) +
  list_sum (map (fun r => ones (map x_il r)) ranks) + list_sum (map (fun r => ones (map x_iu r)) ranks).
(** the scaling factor sd, hiopAlgFilterIPM.cpp 679, 682 *)
Definition s_d (smax : T) (ranks : list (list xvar)) : T :=
  afmin K (adiv K (afmax K smax (adiv K (aadd K (dual_bound ranks) dual_eq)
                                  (ofn (n_complem ranks + (length E + length D))))) smax) cap.
(** the scaling factor sc, hiopAlgFilterIPM.cpp 680, 683 *)
Definition s_c (smax : T) (ranks : list (list xvar)) : T :=
  afmin K (if Nat.eqb (n_complem ranks) 0 then azero K
           else adiv K (afmax K smax (adiv K (dual_bound ranks) (ofn (n_complem ranks)))) smax) cap.
(** nlpoverall, hiopAlgFilterIPM.cpp 689 *)
Definition nlp_overall (smax : T) (ranks : list (list xvar)) : T :=
  afmax K (adiv K (nlp_optim ranks) (s_d smax ranks))
          (afmax K cons_viol (adiv K (nlp_complem ranks) (s_c smax ranks))).
(** logoverall, hiopAlgFilterIPM.cpp 705 *)
Definition log_overall (smax ct mu : T) (ranks : list (list xvar)) : T :=
  afmax K (adiv K (bar_optim ct ranks) (s_d smax ranks))
          (afmax K cons_viol (adiv K (bar_complem mu ranks) (s_c smax ranks))).
End Errors.

(** the exact reading: counts as rationals and 1e+8 (hiopAlgFilterIPM.cpp 679-683) *)
Definition Q_ofn (n : nat) : Q := inject_Z (Z.of_nat n).
(** 1e+8, hiopAlgFilterIPM.cpp 682-683 *)
Definition Q_cap : Q := 100000000 # 1.
(** the binary64 reading: counts (exact below 2^53), hiopAlgFilterIPM.cpp 679-683 *)
Definition f_ofn (n : nat) : b64 := fofZ (Z.of_nat n).
(** 1e+8, hiopAlgFilterIPM.cpp 682-683 *)
Definition f_cap : b64 := fofZ 100000000.

(** hiopAlgFilterIPM.cpp 2216-2227: the errors handed to checkTermination, binary64, one rank *)
Definition errs_of (smax : b64) (D : list (dvar Far)) (E : list (evar Far)) (r : list (xvar Far)) : errs :=
  mk_errs (nlp_overall Far f_ofn f_cap D E smax [r]) (nlp_optim Far D E [r]) (nlp_feas Far D E)
          (nlp_complem Far D [r]) (cons_viol Far D E).
