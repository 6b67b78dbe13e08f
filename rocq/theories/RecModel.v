(** The recourse-approximation evaluator handed to the master problem of the primal decomposition, and the
    outer loop of the serial solver that feeds it.
    /repo/src/Interface/hiopInterfacePrimalDecomp.{hpp,cpp} and
    /repo/src/Optimization/hiopAlgPrimalDecomp.cpp 196-560, 1804-1991 (the other two loops, 790-1262 and
    1264-1800, make the same calls on rank 0; only the way the recourse terms are summed differs).
    [double] is modelled by the reals: rounding, NaN and overflow are not in these files (the
    safeguards of the coefficient in binary64 are in PdAlgModel.v).  A failed assertion, a vector size
    mismatch or an out-of-range index is [None]. *)
From Coq Require Import List Bool Arith Reals.
From Verif Require Import RingKit InertiaModel.
Import ListNotations.
Open Scope R_scope.

(** ** Vector kernels, hiopVectorPar.cpp *)

(** copy_from_indexes 194-220: w[i] = x[index[i]]; the raw-pointer version reads without a check, an
    index outside the array is None *)
Fixpoint gather (x : list R) (idx : list nat) : option (list R) :=
  match idx with
  | [] => Some []
  | i :: r => match nth_error x i, gather x r with Some v, Some l => Some (v :: l) | _, _ => None end
  end.
(** axpy 664-670: this += alpha*x, sizes equal (the BLAS call takes this' size) *)
Fixpoint axpy (a : R) (x y : list R) : option (list R) :=
  match x, y with
  | [], [] => Some []
  | u :: x, v :: y => match axpy a x y with Some l => Some (v + a * u :: l) | None => None end
  | _, _ => None
  end.
(** componentMult 564-571: this[i] *= x[i] *)
Fixpoint cmult (x y : list R) : option (list R) :=
  match x, y with
  | [], [] => Some []
  | u :: x, v :: y => match cmult x y with Some l => Some (v * u :: l) | None => None end
  | _, _ => None
  end.
(** dotProductWith, hiopVectorPar.cpp 521-532 *)
Fixpoint dotp (x y : list R) : option R :=
  match x, y with
  | [], [] => Some 0
  | u :: x, v :: y => match dotp x y with Some s => Some (u * v + s) | None => None end
  | _, _ => None
  end.
(** one write  y[i] += u  of the indexed axpy, hiopVectorPar.cpp 681-687 *)
Fixpoint bump (i : nat) (u : R) (y : list R) : option (list R) :=
  match y, i with
  | [], _ => None
  | v :: y, O => Some (v + u :: y)
  | v :: y, S i => match bump i u y with Some l => Some (v :: l) | None => None end
  end.
(** axpy(alpha, x, i) 673-689: this[i[k]] += alpha*x[k] for every k, in order *)
Fixpoint axpy_at (a : R) (x : list R) (idx : list nat) (y : list R) : option (list R) :=
  match x, idx with
  | [], [] => Some y
  | u :: x, i :: idx => match bump i (a * u) y with Some y => axpy_at a x idx y | None => None end
  | _, _ => None
  end.
(** twonorm, hiopVectorPar.cpp 486-500 *)
Definition norm2 (x : list R) : R := match dotp x x with Some s => sqrt s | None => 0 end.

(** ** RecourseApproxEvaluator *)

(** hiopInterfacePrimalDecomp.hpp 167-184: xc_idx_, rval_, rgrad_, rhess_, x0_, and the size of
    vec_work_basecase_ once it has been allocated (vec_work_coupling_ is only scratch) *)
Record evr := Evr { e_idx : list nat; e_val : R; e_g : list R; e_h : list R; e_x0 : list R; e_work : option nat }.

(** eval_f, hiopInterfacePrimalDecomp.cpp 118-134 *)
Definition eval_f (e : evr) (x : list R) (obj : R) : option R :=
  let obj := obj + e_val e in
  match gather x (e_idx e) with
  | Some v => match axpy (-1) (e_x0 e) v with
      | Some v => match dotp v (e_g e) with
          | Some d => let obj := obj + d in
              match cmult v v with
              | Some v => match dotp v (e_h e) with Some d => Some (obj + / 2 * d) | None => None end
              | None => None
              end
          | None => None
          end
      | None => None
      end
  | None => None
  end.
(** the vector  Hess*(x-x0) + grad  of eval_grad, hiopInterfacePrimalDecomp.cpp 142-152 *)
Definition grad_c (e : evr) (x : list R) : option (list R) :=
  match gather x (e_idx e) with
  | Some v => match axpy (-1) (e_x0 e) v with
      | Some v => match cmult (e_h e) v with Some v => axpy 1 (e_g e) v | None => None end
      | None => None
      end
  | None => None
  end.
(** eval_grad, hiopInterfacePrimalDecomp.cpp 137-166: the buffer is allocated by the first call and keeps
    that size; copyFrom/copyTo move as many entries as the buffer has *)
Definition eval_grad (e : evr) (n : nat) (x grad : list R) : option (list R * evr) :=
  match grad_c e x with
  | Some v =>
      let w := match e_work e with Some w => w | None => n end in
      let e := Evr (e_idx e) (e_val e) (e_g e) (e_h e) (e_x0 e) (Some w) in
      if Nat.leb w (length grad) then
        match axpy_at 1 v (e_idx e) (firstn w grad) with
        | Some b => Some (b ++ skipn w grad, e)
        | None => None
        end
      else None
  | None => None
  end.
(** eval_hess, hiopInterfacePrimalDecomp.cpp 174-181 *)
Definition eval_hess (e : evr) (hess : list R) : option (list R) := axpy 1 (e_h e) hess.

(** set_rval, set_rgrad, set_rhess, set_x0, hiopInterfacePrimalDecomp.cpp 191-225: nc entries copied *)
Definition set_rval (v : R) (e : evr) : evr := Evr (e_idx e) v (e_g e) (e_h e) (e_x0 e) (e_work e).
(** hiopInterfacePrimalDecomp.cpp 196-204 *)
Definition set_rgrad (g : list R) (e : evr) : evr := Evr (e_idx e) (e_val e) g (e_h e) (e_x0 e) (e_work e).
(** hiopInterfacePrimalDecomp.cpp 208-215 *)
Definition set_rhess (h : list R) (e : evr) : evr := Evr (e_idx e) (e_val e) (e_g e) h (e_x0 e) (e_work e).
(** hiopInterfacePrimalDecomp.cpp 217-224 *)
Definition set_x0 (x : list R) (e : evr) : evr := Evr (e_idx e) (e_val e) (e_g e) (e_h e) x (e_work e).
(** the constructor used by the solver, hiopInterfacePrimalDecomp.cpp 40-55: the vectors are not initialised
    (zeros here; they are set before the evaluator is handed out) *)
Definition evr_new (idx : list nat) : evr :=
  Evr idx 0 (repeat 0 (length idx)) (repeat 0 (length idx)) (repeat 0 (length idx)) None.

(** ** HessianApprox over the reals, hiopAlgPrimalDecomp.cpp 256-530 *)
Record hst := Hst { h_fk : R; h_fkm1 : R; h_lin : R; h_s : list R; h_y : list R; h_x : list R; h_g : list R;
                    h_alpha : R; h_ratio : R }.
(** initialize, hiopAlgPrimalDecomp.cpp 278-304 (skm1 and ykm1 keep what they had) *)
Definition initialize (f : R) (x g : list R) (h : hst) : hst :=
  Hst f (h_fkm1 h) (h_lin h) (h_s h) (h_y h) x g (h_alpha h) (h_ratio h).
(** update_hess_coeff, hiopAlgPrimalDecomp.cpp 306-328 *)
Definition update_hess_coeff (x g : list R) (f : R) (h : hst) : option hst :=
  match axpy (-1) (h_x h) x with
  | Some s => match axpy (-1) (h_g h) g with
      | Some y => match dotp (h_g h) s with
          | Some lin => Some (Hst f (h_fk h) lin s y x g (h_alpha h) (h_ratio h))
          | None => None
          end
      | None => None
      end
  | None => None
  end.
(** the value of the approximation at the new point: hiopAlgPrimalDecomp.cpp 360-362, 526-527 *)
Definition predicted (h : hst) : R := h_fkm1 h + h_lin h + / 2 * h_alpha h * norm2 (h_s h) * norm2 (h_s h).
(** compute_base, hiopAlgPrimalDecomp.cpp 523-529 *)
Definition compute_base (v : R) (h : hst) : R := v - predicted h.
(** check_convergence_fcn, hiopAlgPrimalDecomp.cpp 509-521 *)
Definition convergence_fcn (base basem1 : R) (h : hst) : R :=
  Rabs (h_lin h + / 2 * h_alpha h * norm2 (h_s h) * norm2 (h_s h) + (base - basem1)).
(** check_convergence_grad, hiopAlgPrimalDecomp.cpp 478-506: |-alpha s + y| / |g|; None where it divides by 0 *)
Definition convergence_grad (g : list R) (h : hst) : option R :=
  match axpy 1 (h_y h) (map (fun u => - h_alpha h * u) (h_s h)) with
  | Some t => if Req_EM_T (norm2 g) 0 then None else Some (norm2 t / norm2 g)
  | None => None
  end.
(** std::max, used at hiopAlgPrimalDecomp.cpp 432, 460 *)
Definition rmax (a b : R) : R := if rltb a b then b else a.
(** std::min, used at hiopAlgPrimalDecomp.cpp 432-433, 460-461, 1937 *)
Definition rmin (a b : R) : R := if rltb b a then b else a.
(** limits: alpha_min, alpha_max, ratio_min, ratio_max; hiopAlgPrimalDecomp.cpp 196-228 *)
Record lims := Lims { l_amin : R; l_amax : R; l_rmin : R; l_rmax : R }.
(** update_ratio_tr (two arguments), hiopAlgPrimalDecomp.cpp 414-435 *)
Definition ratio_tr (l : lims) (rho r : R) : R :=
  let r := if rltb rho (/ 4) then r / (3 / 4) else if rltb (3 / 4) rho then r * (3 / 4) else r in
  rmin (l_rmax l) (rmax (l_rmin l) r).
(** update_ratio (two arguments), hiopAlgPrimalDecomp.cpp 357-387; None where it divides by 0 *)
Definition update_ratio (l : lims) (base basem1 : R) (h : hst) : option R :=
  let den := h_fkm1 h + basem1 - predicted h - base in
  if Req_EM_T den 0 then None
  else Some (ratio_tr l ((basem1 + h_fkm1 h - h_fk h - base) / den) (h_ratio h)).
(** get_alpha_f, hiopAlgPrimalDecomp.cpp 452-466; None where it divides by 0 *)
Definition alpha_f (l : lims) (ratio : R) (g : list R) (h : hst) : option R :=
  if Req_EM_T (h_fk h) 0 then None
  else Some (rmin (l_amax l) (rmax (l_amin l) (norm2 g * norm2 g / 2 / h_fk h * ratio))).
(** how the next coefficient and ratio are chosen: update_ratio (after the first iteration) and
    get_alpha_f, hiopAlgPrimalDecomp.cpp 1908-1938; the first argument is (base_val, base_valm1) *)
Definition rule_t := option (R * R) -> hst -> list R -> option (R * R).
(** hiopAlgPrimalDecomp.cpp 1908-1938 *)
Definition code_rule (l : lims) : rule_t := fun bs h g =>
  match (match bs with None => Some (h_ratio h) | Some (b, bm1) => update_ratio l b bm1 h end) with
  | Some r => match alpha_f l r g h with Some a => Some (a, r) | None => None end
  | None => None
  end.
(** assignment of alpha_ and ratio_, hiopAlgPrimalDecomp.cpp 458-461, 432-433 *)
Definition set_alpha (ar : R * R) (h : hst) : hst :=
  Hst (h_fk h) (h_fkm1 h) (h_lin h) (h_s h) (h_y h) (h_x h) (h_g h) (fst ar) (snd ar).

(** ** The outer loop of run_single *)
Section Loop.
(** number of variables and of recourse terms, the coupling indices (nc_ is their number) *)
Variables (n nS : nat) (idx : list nat).
(** the user's problem: the base-case objective, value and gradient of each recourse term with the
    flag returned, and the master solver: iteration (0 is the solve without the approximation) and
    approximation in use to the point returned.  hiopInterfacePrimalDecomp.hpp 74-104 *)
Variables (basef : list R -> R) (rf : nat -> list R -> bool * R) (rg : nat -> list R -> bool * list R).
Variable sol : option evr -> list R.
(** the rule for the coefficient; the code's is [code_rule] *)
Variable rule : rule_t.

(** the coupled part of the iterate, hiopAlgPrimalDecomp.cpp 1869-1875 *)
Definition coupled (x : list R) : option (list R) :=
  if Nat.ltb (length idx) n then gather x idx
  else if Nat.eqb (length idx) n then (if Nat.eqb (length x) n then Some x else None) else None.
(** the sum over the recourse terms, hiopAlgPrimalDecomp.cpp 1876-1896; the flags are not looked at *)
Definition terms (x0 : list R) : option (R * list R) :=
  ofold (fun i s => match axpy 1 (snd (rg i x0)) (snd s) with
                    | Some g => Some (fst s + snd (rf i x0), g) | None => None end)
        (seq 0 nS) (0, repeat 0 (length idx)).

(** x_, master_prob_->get_objective(), base_val, the Hessian approximation, the evaluator;
    hiopAlgPrimalDecomp.cpp 1806-1838 *)
Record pst := Pst { p_x : list R; p_obj : R; p_base : R; p_h : hst; p_e : evr }.
(** what one iteration prints and hands out: base_val, recourse_val, the convergence measures (after the
    first iteration) and the evaluator set; hiopAlgPrimalDecomp.cpp 1919-1957 *)
Record out := Out { o_base : R; o_rec : R; o_conv : option (R * R); o_e : evr }.

(** the point and the objective after a master solve: get_objective is the objective of the problem
    solved, base case plus what the evaluator adds; hiopAlgPrimalDecomp.cpp 1966, 1919 *)
Definition master (e : evr) : option (list R * R) :=
  let x := sol (Some e) in match eval_f e x (basef x) with Some f => Some (x, f) | None => None end.

(** iteration 0 up to the loop body, hiopAlgPrimalDecomp.cpp 1846-1855 *)
Definition start (h : hst) : pst := let x := sol None in Pst x (basef x) (basef x) h (evr_new idx).

(** one iteration, hiopAlgPrimalDecomp.cpp 1858-1972 *)
Definition pass (first : bool) (s : pst) : option (pst * out) :=
  match coupled (p_x s) with
  | None => None
  | Some x0 =>
    match terms x0 with
    | None => None
    | Some (rsum, gsum) =>
      let rval := rsum / INR nS in
      let g := map (fun u => 1 / INR nS * u) gsum in
      match
        (if first then
           let h := initialize rval x0 g (p_h s) in
           match rule None h g with Some ar => Some (set_alpha ar h, p_base s, None) | None => None end
         else
           match update_hess_coeff x0 g rval (p_h s) with
           | None => None
           | Some h =>
               let basem1 := p_base s in
               let base := compute_base (p_obj s) h in
               match rule (Some (base, basem1)) h g with
               | None => None
               | Some ar =>
                   let h := set_alpha ar h in
                   match convergence_grad g h with
                   | Some cg => Some (h, base, Some (convergence_fcn base basem1 h, cg))
                   | None => None
                   end
               end
           end)
      with
      | None => None
      | Some (h, base, cv) =>
          let e := set_x0 x0 (set_rhess (repeat (h_alpha h) (length idx)) (set_rgrad g (set_rval rval (p_e s)))) in
          match master e with
          | Some (x, f) => Some (Pst x f base h e, Out base rval cv e)
          | None => None
          end
      end
    end
  end.
(** [k] iterations; each is recorded with the point it started from; hiopAlgPrimalDecomp.cpp 1842-1984 *)
Fixpoint passes (first : bool) (k : nat) (s : pst) : option (list (list R * out)) :=
  match k with
  | O => Some []
  | S k => match pass first s with
      | Some (s', o) => match passes false k s' with Some l => Some ((p_x s, o) :: l) | None => None end
      | None => None
      end
  end.
(** the run: [k] iterations from a fresh approximation; hiopAlgPrimalDecomp.cpp 1804-1991 *)
Definition run (h : hst) (k : nat) : option (list (list R * out)) := passes true k (start h).
End Loop.
