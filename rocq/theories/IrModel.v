(** The search direction with outer iterative refinement: hiopKKTLinSys::compute_directions_w_IR
    (src/Optimization/hiopKKTLinSys.cpp 911-961), its preconditioner, and the directions the soft restoration asks for
    (src/Optimization/hiopAlgFilterIPM.cpp 3235-3333).  Vectors with the parts of a direction, their kernels and the
    linear systems are arbitrary; scalars are binary64.  BiCGStab is [bi_solve] of [KrylovModel].  Timers, statistics and
    the text of messages are left out. *)
From Coq Require Import List Bool Arith ZArith.
From Verif Require Import FloatBase KrylovModel.
Import ListNotations.

Section Ir.
Variable V : Type.
Variables (axpy : b64 -> V -> V -> V) (scale : b64 -> V -> V) (dot : V -> V -> b64) (nrm : V -> b64) (zero : V -> V).

(** what one call works with: the full KKT operator (hiopKKTLinSys.cpp 1619-1735; it may depend on the call number),
    computeDirections of the class at hand with its return value (hiopKKTLinSys.hpp 88), mu_, the residual, and which iterate object is to
    receive the direction *)
Record call := Call { c_A : nat -> V -> V; c_C : V -> V * bool; c_mu : b64; c_rhs : V; c_dir : nat }.
(** options ir_outer_maxit, ir_outer_tol_factor, ir_outer_tol_min; hiopOptions.cpp 806-825 *)
Record iropts := IrOpts { o_maxit : Z; o_fac : b64; o_min : b64 }.
(** the values of the iterate objects, and the object whose vectors b_ of the BiCGStab solver consists of (None before
    its first solve); hiopKrylovSolver.cpp 391-397, hiopVectorCompoundPD.cpp 99-152 (pointers are stored, not copies) *)
Record irst := IrSt { h_val : nat -> V; h_b : option nat }.
(** assignment to the vectors of one object; hiopVectorCompoundPD.cpp 226-240 *)
Definition put (h : nat -> V) (o : nat) (v : V) : nat -> V := fun i => if i =? o then v else h i.
(** hiopKKTLinSys.cpp 1900-1909 hiopPrecondKKTOpr::times_vec; the return value is not used by BiCGStab (hiopKrylovSolver.cpp 503-510, 583-590) *)
Definition prec_op (c : call) (_ : nat) (v : V) : V := fst (c_C c v).
(** std::min(mu_*ir_outer_tol_factor, ir_outer_tol_min); hiopKKTLinSys.cpp 942 *)
Definition ir_tol (o : iropts) (c : call) : b64 :=
  let a := fmul (c_mu c) (o_fac o) in if flt (o_min o) a then o_min o else a.
(** the solver as set up at hiopKKTLinSys.cpp 943-945: x0_ is null at the first solve and set to zero by the solver, later
    set to zero by set_x0 (hiopKrylovSolver.cpp 105-110, 426-429) *)
Definition ir_solver (o : iropts) (c : call) : solver V := Solver V (ir_tol o c) (Z.to_nat (o_maxit o)) 0 1 f_zero f_zero None.
(** hiopKKTLinSys.cpp 911-961 with hiopKrylovSolver.cpp 389-397: the return value, the state afterwards, and the solver's
    return value (None when it is not used; a warning is printed when it is false, 951) *)
Definition ir_call (o : iropts) (c : call) (s : irst) : bool * irst * option bool :=
  if (o_maxit o <=? 0)%Z then
    let (v, ok) := c_C c (c_rhs c) in (ok, IrSt (put (h_val s) (c_dir c) v) (h_b s), None)
  else
    let b := match h_b s with Some b => b | None => c_dir c end in
    let '(_, x, ok, _) := bi_solve V axpy scale dot nrm zero (c_A c) (Some (prec_op c)) None (ir_solver o c) (c_rhs c) in
    (true, IrSt (put (h_val s) b x) (Some b), Some ok).
(** successive calls on one linear system object: return value and content of the requested object after each; hiopAlgFilterIPM.cpp 3343, 3387 *)
Fixpoint ir_calls (o : iropts) (l : list call) (s : irst) : list (bool * V * option bool) :=
  match l with
  | [] => []
  | c :: l => let '(ok, s, w) := ir_call o c s in (ok, h_val s (c_dir c), w) :: ir_calls o l s
  end.
(** hiopAlgFilterIPM.cpp 3256-3308: the directions used by the successive trials of the soft restoration, [dir] and [soft]
    being the objects dir and soc_dir; the first is a copy of dir (3269), for the others [l] lists what is asked for (3282) *)
Fixpoint soft_more (o : iropts) (soft : nat) (l : list call) (s : irst) : list V * irst :=
  match l with
  | [] => ([], s)
  | c :: l => let '(_, s, _) := ir_call o (Call (c_A c) (c_C c) (c_mu c) (c_rhs c) soft) s in
              let (r, s') := soft_more o soft l s in (h_val s soft :: r, s')
  end.
(** hiopAlgFilterIPM.cpp 3256-3308, from the start *)
Definition soft_dirs (o : iropts) (dir soft : nat) (l : list call) (s : irst) : list V * irst :=
  let s := IrSt (put (h_val s) soft (h_val s dir)) (h_b s) in
  let (r, s') := soft_more o soft l s in (h_val s soft :: r, s').
End Ir.
Arguments c_A {V}. Arguments c_C {V}. Arguments c_mu {V}. Arguments c_rhs {V}. Arguments c_dir {V}. Arguments h_val {V}. Arguments h_b {V}.
