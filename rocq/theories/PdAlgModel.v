(** The recourse approximation and the outer loop of the primal decomposition:
    src/Optimization/hiopAlgPrimalDecomp.cpp (HessianApprox, lines 196-560; constructor of the
    algorithm 561-665; stopping_criteria 704-724; run_single 1804-1991; end of an iteration of run
    1224-1262). *)
From Coq Require Import List Bool ZArith.
From Verif Require Import FloatBase.
Import ListNotations.

(** std::max(a,b) = (a<b) ? b : a and std::min(a,b) = (b<a) ? b : a, as called at
    hiopAlgPrimalDecomp.cpp 385-386, 433-434, 446-447, 462-463, 471-472, 1177 *)
Definition stdmax (a b : b64) : b64 := if flt a b then b else a.
(** std::min as called at hiopAlgPrimalDecomp.cpp 386, 434, 447, 463, 472 *)
Definition stdmin (a b : b64) : b64 := if flt b a then b else a.
(** literals of hiopAlgPrimalDecomp.cpp 334, 364, 371, 379, 418, 422 and of hiopAlgPrimalDecomp.hpp
    365-371, correctly rounded *)
Definition f_half : b64 := S754_finite false 4503599627370496 (-53).
(** 0.25, hiopAlgPrimalDecomp.cpp 364-379 *)
Definition f_quarter : b64 := S754_finite false 4503599627370496 (-54).
(** 0.75, hiopAlgPrimalDecomp.cpp 364-379 *)
Definition f_34 : b64 := S754_finite false 6755399441055744 (-53).
(** 1.333, hiopAlgPrimalDecomp.cpp 372-376 *)
Definition f_1333 : b64 := S754_finite false 6003298303284871 (-52).
(** 0.1, hiopAlgPrimalDecomp.cpp 372-376 *)
Definition f_01 : b64 := S754_finite false 7205759403792794 (-56).
(** 2.0, hiopAlgPrimalDecomp.cpp 459 *)
Definition f_two : b64 := fofZ 2.
(** 5.0, hiopAlgPrimalDecomp.hpp 369 *)
Definition f_five : b64 := fofZ 5.
(** 1e6, hiopAlgPrimalDecomp.hpp 365, 371 *)
Definition f_1e6 : b64 := fofZ 1000000.
(** 1e-5, hiopAlgPrimalDecomp.hpp 370 *)
Definition f_em5 : b64 := S754_finite false 5902958103587057 (-69).
(** -1.0, hiopAlgPrimalDecomp.cpp 334-379 *)
Definition f_m1 : b64 := fofZ (-1).

(** members of HessianApprox, hiopAlgPrimalDecomp.hpp 363-381 (n_ is the length of the vectors) *)
Record ha := Ha { h_alpha : b64; h_ratio : b64; h_tr : b64; h_rmin : b64; h_rmax : b64; h_amin : b64; h_amax : b64;
                  h_fk : b64; h_fkm1 : b64; h_lin : b64; h_xkm1 : list b64; h_gkm1 : list b64; h_skm1 : list b64; h_ykm1 : list b64 }.

Section Ha.
(** dotProductWith and twonorm of hiopVector: any function of the entries (the order of the
    summation is the library's) *)
Variables (dot : list b64 -> list b64 -> b64) (nrm : list b64 -> b64).

(** hiopAlgPrimalDecomp.cpp 206-239 with the initialisers of the header; the vectors are
    uninitialised there, the value given here is never read before [initialize] *)
Definition ha_new (n : nat) (ratio : b64) : ha :=
  Ha f_1e6 ratio f_one f_half f_five f_em5 f_1e6 f_1e20 f_1e20 f_1e20
     (repeat S754_nan n) (repeat S754_nan n) (repeat S754_nan n) (repeat S754_nan n).
(** hiopAlgPrimalDecomp.cpp 278-304 (the vectors are not null) *)
Definition initialize (f : b64) (x g : list b64) (h : ha) : ha :=
  Ha (h_alpha h) (h_ratio h) (h_tr h) (h_rmin h) (h_rmax h) (h_amin h) (h_amax h) f (h_fkm1 h) (h_lin h) x g (h_skm1 h) (h_ykm1 h).
(** copyFrom followed by axpy(-1.0, b): hiopAlgPrimalDecomp.cpp 316-317, 319-320 *)
Definition vsub (a b : list b64) : list b64 := map (fun p => fadd (fst p) (fmul f_m1 (snd p))) (combine a b).
(** hiopAlgPrimalDecomp.cpp 306-328; None: assert at 315 or 322 *)
Definition update_hess_coeff (x g : list b64) (f : b64) (h : ha) : option ha :=
  if Nat.eqb (length x) (length (h_skm1 h)) && Nat.eqb (length x) (length (h_xkm1 h)) then
    let s := vsub x (h_xkm1 h) in
    Some (Ha (h_alpha h) (h_ratio h) (h_tr h) (h_rmin h) (h_rmax h) (h_amin h) (h_amax h) f (h_fk h) (dot (h_gkm1 h) s)
             x g s (vsub g (h_gkm1 h)))
  else None.
(** set_alpha_ratio / alpha: a change of alpha_ only; hiopAlgPrimalDecomp.cpp 445-447, 459-463, 470-472 *)
Definition set_alpha (a : b64) (h : ha) : ha :=
  Ha a (h_ratio h) (h_tr h) (h_rmin h) (h_rmax h) (h_amin h) (h_amax h) (h_fk h) (h_fkm1 h) (h_lin h) (h_xkm1 h) (h_gkm1 h) (h_skm1 h) (h_ykm1 h).
(** a change of ratio_ only; hiopAlgPrimalDecomp.cpp 385-386, 433-434 *)
Definition set_ratio (r : b64) (h : ha) : ha :=
  Ha (h_alpha h) r (h_tr h) (h_rmin h) (h_rmax h) (h_amin h) (h_amax h) (h_fk h) (h_fkm1 h) (h_lin h) (h_xkm1 h) (h_gkm1 h) (h_skm1 h) (h_ykm1 h).
(** hiopAlgPrimalDecomp.cpp 392-394, 332-334, 526-527: fkm1+fkm1_lin + 0.5*alpha*|s|*|s| *)
Definition predicted (h : ha) : b64 :=
  fadd (fadd (h_fkm1 h) (h_lin h)) (fmul (fmul (fmul f_half (h_alpha h)) (nrm (h_skm1 h))) (nrm (h_skm1 h))).
(** hiopAlgPrimalDecomp.cpp 385-386, 433-434 *)
Definition clamp_ratio (h : ha) (r : b64) : b64 := stdmin (h_rmax h) (stdmax (h_rmin h) r).
(** hiopAlgPrimalDecomp.cpp 414-435 (1/4. and 1/8. are exact) *)
Definition ratio_tr2 (rho : b64) (h : ha) : ha :=
  let r := h_ratio h in
  let r := if flt rho f_quarter then fdiv r f_34 else if fgt rho f_34 then fmul r f_34 else r in
  set_ratio (clamp_ratio h r) h.
(** hiopAlgPrimalDecomp.cpp 389-411 *)
Definition update_ratio (base basem1 : b64) (h : ha) : ha :=
  let rk := predicted h in
  ratio_tr2 (fdiv (fsub (fsub (fadd basem1 (h_fkm1 h)) (h_fk h)) base) (fsub (fsub (fadd (h_fkm1 h) basem1) rk) base)) h.
(** hiopAlgPrimalDecomp.cpp 357-387 *)
Definition ratio_tr5 (rho rkm1 rk ag : b64) (h : ha) : ha :=
  let d := fsub rkm1 rk in
  let r := h_ratio h in
  let r := if fgt rho f_zero && flt rho f_quarter && fgt d f_zero then fdiv r f_34
           else if flt rho f_zero && flt d f_zero then fdiv r f_34
           else if fgt rho f_34 && flt rho f_1333 && fgt d f_zero && fgt ag f_01 then fmul r f_34
           else if fgt rho f_1333 && flt d f_zero then fdiv r f_34
           else r in
  set_ratio (clamp_ratio h r) h.
(** hiopAlgPrimalDecomp.cpp 330-355 *)
Definition update_ratio0 (h : ha) : ha :=
  let rk := predicted h in
  let rho := fdiv (fsub (h_fkm1 h) (h_fk h)) (fsub (h_fkm1 h) rk) in
  let qua := fmul (h_alpha h) (fadd f_zero (dot (h_skm1 h) (h_skm1 h))) in
  ratio_tr5 rho (h_fkm1 h) (h_fk h) (fdiv qua (fabs (fadd f_zero (h_lin h)))) h.
(** hiopAlgPrimalDecomp.cpp 446-447, 462-463, 471-472 *)
Definition clamp_alpha (h : ha) (a : b64) : b64 := stdmin (h_amax h) (stdmax (h_amin h) a).
(** hiopAlgPrimalDecomp.cpp 437-450 *)
Definition get_alpha_BB (h : ha) : ha * b64 :=
  let a := clamp_alpha h (fdiv (dot (h_skm1 h) (h_ykm1 h)) (dot (h_skm1 h) (h_skm1 h))) in (set_alpha a h, a).
(** hiopAlgPrimalDecomp.cpp 452-466 *)
Definition get_alpha_f (g : list b64) (h : ha) : ha * b64 :=
  let a := fmul (fdiv (fdiv (fmul (nrm g) (nrm g)) f_two) (h_fk h)) (h_ratio h) in
  let a := clamp_alpha h a in (set_alpha a h, a).
(** hiopAlgPrimalDecomp.cpp 468-475 *)
Definition get_alpha_tr (h : ha) : ha * b64 :=
  let a := clamp_alpha h (fmul (h_alpha h) (h_tr h)) in (set_alpha a h, a).
(** hiopAlgPrimalDecomp.cpp 523-529 *)
Definition compute_base (v : b64) (h : ha) : b64 := fsub v (predicted h).
(** hiopAlgPrimalDecomp.cpp 508-521 *)
Definition convergence_fcn (base basem1 : b64) (h : ha) : b64 :=
  fabs (fadd (fadd (h_lin h) (fmul (fmul (fmul f_half (h_alpha h)) (nrm (h_skm1 h))) (nrm (h_skm1 h)))) (fsub base basem1)).
(** hiopAlgPrimalDecomp.cpp 477-506 *)
Definition convergence_grad (g : list b64) (h : ha) : b64 :=
  let t := map (fun v => fmul v (fopp (h_alpha h))) (h_skm1 h) in
  let t := map (fun p => fadd (fst p) (fmul f_one (snd p))) (combine t (h_ykm1 h)) in
  fdiv (nrm t) (nrm g).
(** hiopAlgPrimalDecomp.cpp 549-559; called before the first iteration at 839-840, 1324-1325, 1827-1828 *)
Definition set_bounds (amin amax : b64) (h : ha) : ha :=
  Ha (h_alpha h) (h_ratio h) (h_tr h) (h_rmin h) (h_rmax h) amin amax (h_fk h) (h_fkm1 h) (h_lin h) (h_xkm1 h) (h_gkm1 h) (h_skm1 h) (h_ykm1 h).
(** hiopAlgPrimalDecomp.cpp 537-547 *)
Definition set_ratio_bounds (rmin rmax : b64) (h : ha) : ha :=
  Ha (h_alpha h) (h_ratio h) (h_tr h) rmin rmax (h_amin h) (h_amax h) (h_fk h) (h_fkm1 h) (h_lin h) (h_xkm1 h) (h_gkm1 h) (h_skm1 h) (h_ykm1 h).

(** the operations of the class, in any order; the second component is what the getter returns; hiopAlgPrimalDecomp.cpp 196-560 *)
Inductive hop := OInit (f : b64) (x g : list b64) | OUpdate (x g : list b64) (f : b64) | ORatio0 | ORatio (base basem1 : b64)
  | OBB | OF (g : list b64) | OTr.
(** one call; hiopAlgPrimalDecomp.cpp 196-560 *)
Definition hdo (o : hop) (h : ha) : option (ha * option b64) :=
  match o with
  | OInit f x g => Some (initialize f x g h, None)
  | OUpdate x g f => match update_hess_coeff x g f h with Some h => Some (h, None) | None => None end
  | ORatio0 => Some (update_ratio0 h, None)
  | ORatio b c => Some (update_ratio b c h, None)
  | OBB => let (h, a) := get_alpha_BB h in Some (h, Some a)
  | OF g => let (h, a) := get_alpha_f g h in Some (h, Some a)
  | OTr => let (h, a) := get_alpha_tr h in Some (h, Some a)
  end.
(** a sequence of calls with everything that was returned and the state after each call; hiopAlgPrimalDecomp.cpp 196-560 *)
Fixpoint hrun (os : list hop) (h : ha) : option (ha * list (ha * option b64)) :=
  match os with
  | [] => Some (h, [])
  | o :: os => match hdo o h with
      | Some (h1, r) => match hrun os h1 with Some (h2, l) => Some (h2, (h1, r) :: l) | None => None end
      | None => None
      end
  end.

(** one pass through the outer loop of run_single, as seen by the approximation: rval, grad_r, x0 and
    the master's objective; hiopAlgPrimalDecomp.cpp 1908-1938 (1151-1180 and 1674-1703 are the same).
    State: the approximation, base_val, base_valm1 (unused otherwise), convg. *)
Definition pass (it : nat) (rval obj : b64) (x0 g : list b64) (s : ha * b64 * b64) : option (ha * b64 * b64 * b64) :=
  let '(h, base, convg) := s in
  match it with
  | O => let h := initialize rval x0 g h in let (h, a) := get_alpha_f g h in Some (h, base, convg, a)
  | S _ =>
      match update_hess_coeff x0 g rval h with
      | Some h =>
          let basem1 := base in
          let base := compute_base obj h in
          let h := update_ratio base basem1 h in
          let (h, a) := get_alpha_f g h in
          let cg := convergence_grad g h in
          let cf := convergence_fcn base basem1 h in
          Some (h, base, stdmin cf cg, a)
      | None => None
      end
  end.
(** the successive passes; what is recorded is the approximation and the curvature handed to the master; hiopAlgPrimalDecomp.cpp 1804-1991 *)
Fixpoint passes (it : nat) (l : list (b64 * b64 * list b64 * list b64)) (s : ha * b64 * b64) : option (list (ha * b64)) :=
  match l with
  | [] => Some []
  | (rval, obj, x0, g) :: l =>
      match pass it rval obj x0 g s with
      | Some (h, base, convg, a) => match passes (S it) l (h, base, convg) with Some r => Some ((h, a) :: r) | None => None end
      | None => None
      end
  end.
End Ha.

(** hiopAlgPrimalDecomp.cpp 704-724; tol_, max_iter_, accp_count_ *)
Definition stopping (tol : b64) (max_iter accp_count_ : nat) (it : nat) (convg : b64) (accp_count : nat) : bool :=
  if flt convg tol then true
  else if Nat.eqb (S it) max_iter then true
  else if Nat.eqb accp_count accp_count_ then true
  else false.
(** the end of an iteration and the loop, hiopAlgPrimalDecomp.cpp 1844-1845, 1974-1983 (1224-1247):
    [cs] is the convergence measure of the successive iterations; the result is the number of
    iterations made, or None when [cs] is too short *)
Fixpoint outer (tol accp_tol : b64) (max_iter accp_count_ : nat) (it accp_count : nat) (cs : list b64) : option nat :=
  if Nat.leb max_iter it then Some it else
  match cs with
  | [] => None
  | c :: cs =>
      let accp_count := if fle c accp_tol then S accp_count else 0 in
      if stopping tol max_iter accp_count_ it c accp_count then Some (S it)
      else outer tol accp_tol max_iter accp_count_ (S it) accp_count cs
  end.
(** what the solver reports: run_single 1990 (Solve_Success always); run 1257-1261: the status of the
    last solve of the master problem on rank 0, Solve_Success on the others *)
Inductive verdict := Solve_Success | Last_master_status.
(** hiopAlgPrimalDecomp.cpp 1990, 1257-1261 *)
Definition reported (distributed master_rank : bool) : verdict :=
  if distributed && master_rank then Last_master_status else Solve_Success.
(** the constructor's check, hiopAlgPrimalDecomp.cpp 597-603 and 651-654: None when it fails *)
Definition ctor_bounds (amin amax : b64) : option (b64 * b64) := if fgt amax amin then Some (amin, amax) else None.
(** hiopAlgPrimalDecomp.cpp 765-769 *)
Definition set_initial_ratio (a : b64) : option b64 := if fge a f_zero && flt a (fofZ 10) then Some a else None.
