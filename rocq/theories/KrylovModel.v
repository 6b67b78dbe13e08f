(** The preconditioned conjugate gradient and BiCGStab solvers: src/LinAlg/hiopKrylovSolver.cpp.
    Scalars are binary64; vectors and their kernels are arbitrary (type [V]); the operators are
    arbitrary functions of the vector and of the number of operator calls made so far, so an operator
    may be nonlinear, inconsistent from call to call, or wrong.  iter_ counts half iterations here
    (k_iter = 2*iter_). *)
From Coq Require Import List Bool Arith ZArith.
From Verif Require Import FloatBase.

Section Kry.
Variable V : Type.
(** axpy a x y = y + a*x, scale a y = a*y, dotProductWith, twonorm, setToZero of a vector of that shape *)
Variables (axpy : b64 -> V -> V -> V) (scale : b64 -> V -> V) (dot : V -> V -> b64) (nrm : V -> b64) (zero : V -> V).
(** A_opr_, and ML_opr_, MR_opr_ (None for a null pointer) *)
Variables (A : nat -> V -> V) (ML MR : option (nat -> V -> V)).

(** the members of hiopKrylovSolver, hiopKrylovSolver.hpp 125-152 (messages left out) *)
Record solver := Solver { k_tol : b64; k_maxit : nat; k_iter : nat; k_flag : nat; k_abs : b64; k_rel : b64; k_x0 : option V }.
(** literals of hiopKrylovSolver.cpp 188-189, 206 (machine epsilon), 234, 483 *)
Definition c_m1 : b64 := fofZ (-1).
(** 1., hiopKrylovSolver.cpp 188-189 *)
Definition c_one : b64 := fofZ 1.
(** machine epsilon, hiopKrylovSolver.cpp 206 *)
Definition c_eps : b64 := S754_finite false 4503599627370496 (-104).
(** 1e40, hiopKrylovSolver.cpp 234, 483 *)
Definition c_1e40 : b64 := fmul f_1e20 f_1e20.
(** hiopKrylovSolver.cpp 187-189, 286-288, 330-332 (and 443-445, 548-550, 627-629, 674-676) *)
Definition resid (Ax b : V) : V := scale c_m1 (axpy c_m1 b Ax).
(** times_vec of an operator that may be absent, hiopKrylovSolver.cpp 219-228, 503-510, 583-590 *)
Definition app_op (M : option (nat -> V -> V)) (k : nat) (v : V) : nat * V :=
  match M with Some f => (S k, f k v) | None => (k, v) end.
(** hiopKrylovSolver.cpp 182, 438 *)
Definition tolb (s : solver) (n2b : b64) : b64 := fmul (k_tol s) n2b.
(** 208-210, 469-471 *)
Definition maxmsteps := 100.
(** hiopKrylovSolver.cpp 208-210, 469-471 *)
Definition maxstagsteps := 3.

(** locals of the main loop of PCG, hiopKrylovSolver.cpp 178-216: xk_, res_, pk_, rho, stagsteps,
    moresteps, normrmin, xmin_, imin, abs_resid_, and the number of operator calls *)
Record pcg := Pcg { p_x : V; p_res : V; p_pk : V; p_rho : b64; p_stag : nat; p_more : nat; p_nmin : b64; p_xmin : V; p_imin : nat; p_abs : b64; p_calls : nat }.
(** how the loop ended: flag_, iter_ (as last set), the state, the index ii; hiopKrylovSolver.cpp 217-320 *)
Record ended := End_ { e_flag : nat; e_iter : nat; e_st : pcg; e_ii : nat }.

(** one iteration, hiopKrylovSolver.cpp 217-319: inl when the loop is left by a break, inr when it goes on *)
Definition pcg_iter (b : V) (tb : b64) (ii : nat) (s : pcg) : ended + pcg :=
  let (k, y) := app_op ML (p_calls s) (p_res s) in
  let (k, z) := app_op MR k y in
  let rho1 := p_rho s in
  let rho := dot (p_res s) z in
  let st pk k := Pcg (p_x s) (p_res s) pk rho (p_stag s) (p_more s) (p_nmin s) (p_xmin s) (p_imin s) (p_abs s) k in
  let brk f pk k := inl (End_ f (2 * (ii + 1)) (st pk k) ii) in
  if feq rho f_zero || fgt (fabs rho) f_1e20 then brk 4 (p_pk s) k else
  let beta := fdiv rho rho1 in
  if negb (Nat.eqb ii 0) && (feq beta f_zero || fgt (fabs beta) f_1e20) then brk 4 (p_pk s) k else
  let pk := if Nat.eqb ii 0 then z else axpy c_one z (scale beta (p_pk s)) in
  let q := A k pk in
  let k := S k in
  let pq := dot pk q in
  if fle pq f_zero || fgt (fabs pq) f_1e20 then brk 4 pk k else
  let alpha := fdiv rho pq in
  if fgt (fabs alpha) f_1e20 then brk 4 pk k else
  let stag := if flt (fmul (nrm pk) (fabs alpha)) (fmul c_eps (nrm (p_x s))) then S (p_stag s) else 0 in
  let x := axpy alpha pk (p_x s) in
  let res := axpy (fopp alpha) q (p_res s) in
  let normr := nrm res in
  let check := fle normr tb || Nat.leb maxstagsteps stag || negb (Nat.eqb (p_more s) 0) in
  let res' := if check then resid (A k x) b else res in
  let k' := if check then S k else k in
  let ab := if check then nrm res' else normr in
  if check && fle ab tb then
    inl (End_ 0 (2 * (ii + 1)) (Pcg x res' pk rho stag (p_more s) (p_nmin s) (p_xmin s) (p_imin s) ab k') ii)
  else
  let stag' := if check && Nat.leb maxstagsteps stag && Nat.eqb (p_more s) 0 then 0 else stag in
  let more := if check then S (p_more s) else p_more s in
  if check && Nat.leb maxmsteps more then
    inl (End_ 3 (2 * (ii + 1)) (Pcg x res' pk rho stag' more (p_nmin s) (p_xmin s) (p_imin s) ab k') ii)
  else
  let better := flt ab (p_nmin s) in
  let s' := Pcg x res' pk rho stag' more (if better then ab else p_nmin s) (if better then x else p_xmin s) (if better then ii else p_imin s) ab k' in
  if Nat.leb maxstagsteps stag' then inl (End_ 3 (2 * (ii + 1)) s' ii) else inr s'.
(** the loop; without a break flag_ and iter_ stay as they were (1 and the old value); hiopKrylovSolver.cpp 217-320 *)
Fixpoint pcg_loop (b : V) (tb : b64) (old_iter : nat) (fuel ii : nat) (s : pcg) : ended :=
  match fuel with
  | O => End_ 1 old_iter s ii
  | S fuel => match pcg_iter b tb ii s with inl e => e | inr s => pcg_loop b tb old_iter fuel (S ii) s end
  end.
(** hiopPCGSolver::solve, hiopKrylovSolver.cpp 150-354.  Result: the solver, what the argument holds
    afterwards, the return value, the number of operator calls. *)
Definition pcg_solve (s : solver) (b : V) : solver * V * bool * nat :=
  let n2b := nrm b in
  if feq n2b f_zero then (Solver (k_tol s) (k_maxit s) 0 0 (k_abs s) (k_rel s) (k_x0 s), b, true, 0) else
  let x := match k_x0 s with Some x => x | None => zero b end in
  let tb := tolb s n2b in
  let res := resid (A 0 x) b in
  let normr := nrm res in
  if fle normr tb then (Solver (k_tol s) (k_maxit s) 0 0 normr (fdiv normr n2b) (Some x), x, true, 1) else
  let e := pcg_loop b tb (k_iter s) (k_maxit s) 0 (Pcg x res b c_one 0 0 normr x 0 normr 1) in
  let st := e_st e in
  if Nat.eqb (e_flag e) 0 then
    (Solver (k_tol s) (k_maxit s) (e_iter e) 0 (p_abs st) (fdiv (p_abs st) n2b) (Some (p_x st)), p_x st, true, p_calls st)
  else
    let r := resid (A (p_calls st) (p_xmin st)) b in
    let nc := nrm r in
    if fle nc (p_abs st) then
      (Solver (k_tol s) (k_maxit s) (2 * (p_imin st + 1)) (e_flag e) nc (fdiv nc n2b) (Some (p_x st)), p_xmin st, false, S (p_calls st))
    else
      (Solver (k_tol s) (k_maxit s) (2 * (e_ii e + 1)) (e_flag e) (p_abs st) (fdiv (p_abs st) n2b) (Some (p_x st)), p_x st, false, S (p_calls st)).

(** locals of the main loop of BiCGStab, hiopKrylovSolver.cpp 434-476: xk_, res_, pk_, v_, rho, omega,
    alpha, stagsteps, moresteps, normrmin, xmin_, 2*imin, abs_resid_, calls, and the argument b, which
    lines 564 and 643 overwrite *)
Record bst := Bst { b_x : V; b_res : V; b_pk : V; b_v : V; b_rho : b64; b_om : b64; b_al : b64; b_stag : nat; b_more : nat;
                    b_nmin : b64; b_xmin : V; b_imin : nat; b_abs : b64; b_calls : nat; b_b : V }.
(** how the loop ended; hiopKrylovSolver.cpp 477-664 *)
Record bended := BEnd { be_flag : nat; be_iter : nat; be_st : bst; be_ii : nat }.
(** the check at hiopKrylovSolver.cpp 545-570 and 624-649: [r] is sk_ or res_, [stag] after its update.
    Result: r, abs_resid_, stagsteps, moresteps, calls, and the flag if the loop is left (with b overwritten for 3) *)
Definition bcheck (b x : V) (tb : b64) (r : V) (stag more k : nat) : V * b64 * nat * nat * nat * option nat :=
  let normr := nrm r in
  if fle normr tb || Nat.leb maxstagsteps stag || negb (Nat.eqb more 0) then
    let r := resid (A k x) b in
    let ab := nrm r in
    if fle ab tb then (r, ab, stag, more, S k, Some 0)
    else
      let stag := if Nat.leb maxstagsteps stag && Nat.eqb more 0 then 0 else stag in
      if Nat.leb maxmsteps (S more) then (r, ab, stag, S more, S k, Some 3) else (r, ab, stag, S more, S k, None)
  else (r, normr, stag, more, k, None).
(** one iteration, hiopKrylovSolver.cpp 477-662; rt is rt_ *)
Definition bi_iter (rt : V) (tb : b64) (ii : nat) (s : bst) : bended + bst :=
  let rho1 := b_rho s in
  let rho := dot rt (b_res s) in
  let half := 2 * (ii + 1) - 1 in
  let full := 2 * (ii + 1) in
  let b := b_b s in
  let st pk v al k := Bst (b_x s) (b_res s) pk v rho (b_om s) al (b_stag s) (b_more s) (b_nmin s) (b_xmin s) (b_imin s) (b_abs s) k b in
  if feq rho f_zero || fgt (fabs rho) c_1e40 then inl (BEnd 4 half (st (b_pk s) (b_v s) (b_al s) (b_calls s)) ii) else
  let beta := fmul (fdiv rho rho1) (fdiv (b_al s) (b_om s)) in
  if negb (Nat.eqb ii 0) && (feq beta f_zero || fgt (fabs beta) c_1e40) then inl (BEnd 4 half (st (b_pk s) (b_v s) (b_al s) (b_calls s)) ii) else
  let pk := if Nat.eqb ii 0 then b_res s else axpy c_one (b_res s) (scale beta (axpy (fopp (b_om s)) (b_v s) (b_pk s))) in
  let (k, ph) := app_op ML (b_calls s) pk in
  let (k, ph) := app_op MR k ph in
  let v := A k ph in
  let k := S k in
  let rtv := dot rt v in
  if feq rtv f_zero || fgt (fabs rtv) c_1e40 then inl (BEnd 4 half (st pk v (b_al s) k) ii) else
  let al := fdiv rho rtv in
  if fgt (fabs al) f_1e20 then inl (BEnd 4 half (st pk v al k) ii) else
  let stag := if flt (fmul (nrm ph) (fabs al)) (fmul c_eps (nrm (b_x s))) then S (b_stag s) else 0 in
  let x := axpy al ph (b_x s) in
  let sk := axpy (fopp al) v (b_res s) in
  let '(sk, ab, stag, more, k, out) := bcheck b x tb sk stag (b_more s) k in
  let st1 om nmin xmin imin stag k := Bst x (b_res s) pk v rho om al stag more nmin xmin imin ab k b in
  match out with
  | Some O => inl (BEnd 0 half (st1 (b_om s) (b_nmin s) (b_xmin s) (b_imin s) stag k) ii)
  | Some f => inl (BEnd f half (Bst x (b_res s) pk v rho (b_om s) al stag more (b_nmin s) (b_xmin s) (b_imin s) ab k x) ii)
  | None =>
    if Nat.leb maxstagsteps stag then inl (BEnd 3 half (st1 (b_om s) (b_nmin s) (b_xmin s) (b_imin s) stag k) ii) else
    let better := flt ab (b_nmin s) in
    let nmin := if better then ab else b_nmin s in
    let xmin := if better then x else b_xmin s in
    let imin := if better then half else b_imin s in
    let (k, ph) := app_op ML k sk in
    let (k, ph) := app_op MR k ph in
    let t := A k ph in
    let k := S k in
    let tt := dot t t in
    if feq tt f_zero || fgt (fabs tt) f_1e20 then inl (BEnd 4 full (st1 (b_om s) nmin xmin imin stag k) ii) else
    let om := fdiv (dot t sk) tt in
    if fgt (fabs om) f_1e20 then inl (BEnd 4 full (st1 om nmin xmin imin stag k) ii) else
    let stag := if flt (fmul (nrm ph) (fabs om)) (fmul c_eps (nrm x)) then S stag else 0 in
    let x := axpy om ph x in
    let res := axpy (fopp om) t sk in
    let '(res, ab, stag, more, k, out) := bcheck b x tb res stag more k in
    match out with
    | Some O => inl (BEnd 0 full (Bst x res pk v rho om al stag more nmin xmin imin ab k b) ii)
    | Some f => inl (BEnd f full (Bst x res pk v rho om al stag more nmin xmin imin ab k x) ii)
    | None =>
      let better := flt ab nmin in
      let s' := Bst x res pk v rho om al stag more (if better then ab else nmin) (if better then x else xmin) (if better then full else imin) ab k b in
      if Nat.leb maxstagsteps stag then inl (BEnd 3 half s' ii) else inr s'
    end
  end.
(** the loop; hiopKrylovSolver.cpp 477-664 *)
Fixpoint bi_loop (rt : V) (tb : b64) (old_iter : nat) (fuel ii : nat) (s : bst) : bended :=
  match fuel with
  | O => BEnd 1 old_iter s ii
  | S fuel => match bi_iter rt tb ii s with inl e => e | inr s => bi_loop rt tb old_iter fuel (S ii) s end
  end.
(** hiopBiCGStabSolver::solve, hiopKrylovSolver.cpp 399-699 *)
Definition bi_solve (s : solver) (b : V) : solver * V * bool * nat :=
  let n2b := nrm b in
  if feq n2b f_zero then (Solver (k_tol s) (k_maxit s) 0 0 f_zero f_zero (k_x0 s), b, true, 0) else
  let x := match k_x0 s with Some x => x | None => zero b end in
  let tb := tolb s n2b in
  let res := resid (A 0 x) b in
  let normr := nrm res in
  if fle normr tb then (Solver (k_tol s) (k_maxit s) 0 0 normr (fdiv normr n2b) (Some x), x, true, 1) else
  let e := bi_loop res tb (k_iter s) (k_maxit s) 0 (Bst x res b b c_one c_one c_one 0 0 normr x 0 normr 1 b) in
  let st := be_st e in
  if Nat.eqb (be_flag e) 0 then
    (Solver (k_tol s) (k_maxit s) (be_iter e) 0 (b_abs st) (fdiv (b_abs st) n2b) (Some (b_x st)), b_x st, true, b_calls st)
  else
    let r := resid (A (b_calls st) (b_xmin st)) (b_b st) in
    let nc := nrm r in
    if fle nc (b_abs st) then
      (Solver (k_tol s) (k_maxit s) (b_imin st + 2) (be_flag e) nc (fdiv nc n2b) (Some (b_x st)), b_xmin st, false, S (b_calls st))
    else
      (Solver (k_tol s) (k_maxit s) (2 * (be_ii e + 1)) (be_flag e) (b_abs st) (fdiv (b_abs st) n2b) (Some (b_x st)), b_x st, false, S (b_calls st)).
End Kry.
