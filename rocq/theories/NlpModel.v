(** The preprocessing of the user's bounds and constraints by [hiopNlpFormulation]
    (src/Optimization/hiopNlpFormulation.cpp 433-669) and by [hiopNlpSparseIneq] (2133-2287), in
    binary64.  Host memory space, so the host/device copies are identities.  The HIOP_DEEPCHECKS
    assertions (lower <= upper) and the log messages are not modelled; counters are [nat] (the C++
    [int]s are bounded by the array sizes). *)
From Coq Require Import List Bool Arith ZArith.
From Verif Require Import FloatBase MuModel.
Import ListNotations.

(** hiopNlpFormulation.cpp 469, 628: a lower bound counts when it is above -1e20 *)
Definition has_low (l : b64) : bool := fgt l f_m1e20.
(** hiopNlpFormulation.cpp 472, 479, 631, 639: an upper bound counts when it is below 1e20 *)
Definition has_upp (u : b64) : bool := flt u f_1e20.
(** hiopNlpFormulation.cpp 470, 476, 480, 483: the pattern entry 1. or 0. *)
Definition ind (b : bool) : b64 := if b then f_one else f_zero.

(** hiopNlpFormulation.cpp 492: [fabs(xl-xu) <= fixedVarTol*fmax(1.,fabs(xu))];
    also hiopNlpTransforms.cpp 163 and (with the difference reversed) 319 *)
Definition close_bnds (tol xl xu : b64) : bool :=
  fle (fabs (fsub xl xu)) (fmul tol (fmax f_one (fabs xu))).

(** hiopNlpFormulation.cpp 433-442: what one pass over the bounds leaves behind *)
Record bnds := Bnds { b_ixl : list b64; b_ixu : list b64;
                      b_low : nat; b_upp : nat; b_lu : nat; b_fix : nat }.

(** hiopNlpFormulation.cpp 439-442 *)
Definition bnds0 : bnds := Bnds [] [] 0 0 0 0.

(** hiopNlpFormulation.cpp 468-514: one turn of the loop over the local variables; the arrays are
    written at the loop index, which is modelled by appending *)
Definition bnds_step (tol : b64) (s : bnds) (e : b64 * b64) : bnds :=
  let (l, u) := e in
  Bnds (b_ixl s ++ [ind (has_low l)]) (b_ixu s ++ [ind (has_upp u)])
       (b_low s + if has_low l then 1 else 0)
       (b_upp s + if has_upp u then 1 else 0)
       (b_lu s + if has_low l then (if has_upp u then 1 else 0) else 0)
       (b_fix s + if has_upp u && close_bnds tol l u then 1 else 0).

(** hiopNlpFormulation.cpp 433-522 [process_bounds] on one rank *)
Definition process_bounds (tol : b64) (xs : list (b64 * b64)) : bnds := fold_left (bnds_step tol) xs bnds0.

(** hiopNlpFormulation.cpp 262-266, 381-393: the sums over the ranks (MPI_Allreduce, MPI_SUM) *)
Definition all_ranks (tol : b64) (ranks : list (list (b64 * b64))) : nat * nat * nat * nat :=
  fold_left (fun '(a, b, c, d) xs =>
               let s := process_bounds tol xs in (a + b_low s, b + b_upp s, c + b_lu s, d + b_fix s))
            ranks (0, 0, 0, 0).

(** hiopNlpFormulation.cpp 592-607: writing the next entry of an array allocated with [cap] entries *)
Definition push {A} (cap : nat) (l : list A) (a : A) : option (list A) :=
  if length l <? cap then Some (l ++ [a]) else None.

(** hiopNlpFormulation.cpp 574-588: the arrays filled by the splitting loop.  [k] is the type of
    the user's constraint tags (NonlinearityType) *)
Record split_st (k : Type) := SplitSt {
  s_rhs : list b64; s_eqt : list k; s_eqm : list nat;
  s_dl : list b64; s_du : list b64; s_int : list k; s_inm : list nat }.
Arguments SplitSt {k}. Arguments s_rhs {k}. Arguments s_eqt {k}. Arguments s_eqm {k}.
Arguments s_dl {k}. Arguments s_du {k}. Arguments s_int {k}. Arguments s_inm {k}.

(** hiopNlpFormulation.cpp 592-608: the splitting loop from constraint [i] on; [neq], [nin] are
    the allocated sizes.  [it_eq], [it_ineq] are the lengths reached so far *)
Fixpoint split_loop {k} (neq nin i : nat) (g : list (b64 * b64 * k)) (s : split_st k) : option (split_st k) :=
  match g with
  | [] => Some s
  | (l, u, t) :: g' =>
      if feq l u then
        match push neq (s_eqt s) t, push neq (s_rhs s) l, push neq (s_eqm s) i with
        | Some a, Some b, Some c => split_loop neq nin (S i) g'
            (SplitSt b a c (s_dl s) (s_du s) (s_int s) (s_inm s))
        | _, _, _ => None
        end
      else
        match push nin (s_int s) t, push nin (s_dl s) l, push nin (s_du s) u, push nin (s_inm s) i with
        | Some a, Some b, Some c, Some d => split_loop neq nin (S i) g'
            (SplitSt (s_rhs s) (s_eqt s) (s_eqm s) b c a d)
        | _, _, _, _ => None
        end
  end.

(** hiopNlpFormulation.cpp 563-571: the counting pass *)
Definition count_eq {k} (g : list (b64 * b64 * k)) : nat * nat :=
  fold_left (fun '(a, b) '(l, u, _) => if feq l u then (S a, b) else (a, S b)) g (0, 0).

(** hiopNlpFormulation.cpp 617-645: the indicator loop over the inequalities (same shape as 468-484) *)
Definition ineq_step (s : bnds) (e : b64 * b64) : bnds :=
  let (l, u) := e in
  Bnds (b_ixl s ++ [ind (has_low l)]) (b_ixu s ++ [ind (has_upp u)])
       (b_low s + if has_low l then 1 else 0)
       (b_upp s + if has_upp u then 1 else 0)
       (b_lu s + if has_low l then (if has_upp u then 1 else 0) else 0) (b_fix s).

(** hiopNlpFormulation.cpp 524-669: everything [process_constraints] stores *)
Record cons (k : Type) := Cons { c_neq : nat; c_nin : nat; c_sp : split_st k; c_ind : bnds }.
Arguments Cons {k}. Arguments c_neq {k}. Arguments c_nin {k}. Arguments c_sp {k}. Arguments c_ind {k}.

(** hiopNlpFormulation.cpp 524-669 [process_constraints]; [None] is an out-of-bounds write or one
    of the assertions 609-610 *)
Definition process_constraints {k} (g : list (b64 * b64 * k)) : option (cons k) :=
  let (neq, nin) := count_eq g in
  match split_loop neq nin 0 g (SplitSt [] [] [] [] [] [] []) with
  | Some s =>
      if (length (s_rhs s) =? neq) && (length (s_dl s) =? nin) then
        Some (Cons neq nin s (fold_left ineq_step (combine (s_dl s) (s_du s)) bnds0))
      else None
  | None => None
  end.

(** std::max(a,b) is [a<b ? b : a]; hiopNlpFormulation.cpp 2200 *)
Definition std_max (a b : b64) : b64 := if flt a b then b else a.

(** hiopNlpFormulation.cpp 2195-2213: one turn of the loop of the inequality-only formulation *)
Definition ineq_only1 {k} (rf : b64) (e : b64 * b64 * k) : b64 * b64 :=
  let '(l, u, _) := e in
  if feq l u then
    let r := fmul rf (std_max (fabs l) f_one) in (fsub l r, fadd u r)
  else (l, u).

(** hiopNlpFormulation.cpp 2133-2287 [hiopNlpSparseIneq::process_constraints]: no equalities, the
    inequality map is the identity, equalities become two-sided; 2194, 2204: the number of them *)
Definition process_constraints_ineq {k} (rf : b64) (g : list (b64 * b64 * k)) : cons k * nat :=
  let lu := map (ineq_only1 rf) g in
  (Cons 0 (length g)
     (SplitSt [] [] [] (map fst lu) (map snd lu) (map snd g) (seq 0 (length g)))
     (fold_left ineq_step lu bnds0),
   length (filter (fun '(l, u, _) => feq l u) g)).
