(** Which KKT class and which linear solver the Newton solver uses: src/Optimization/hiopAlgFilterIPM.cpp 1848-2067,
    2333-2701 (linsol_mode), the determineAndCreateLinsys functions of the sparse and mixed dense-sparse KKT classes, and
    the consistency rules of src/Utils/hiopOptions.cpp for the options involved.  Asserts are compiled in (the default
    build type of CMakeLists.txt 433-436 does not define NDEBUG): a failed assert, a null linear solver and return
    nullptr are [Abort].  Dense problems are not modelled (their solver does not depend on these options). *)
From Coq Require Import List Bool Arith ZArith QArith.
Import ListNotations.
Local Close Scope Q_scope. Local Open Scope nat_scope.

(** the linear solvers; src/Optimization/hiopKKTLinSysSparse.cpp 285-378, 611-783, 840-855, hiopKKTLinSysSparseCondensed.cpp
    478, 495, hiopKKTLinSysMDS.cpp 436-480 *)
Inductive solver := MA57 | PARDISO | STRUMPACK | GINKGO | RESOLVE | CUCHOL | LAPACK | BUKA | NOPIV.
(** the strings compared by the == of std::string, e.g. hiopKKTLinSysSparse.cpp 285 *)
Definition seqb (a b : solver) : bool :=
  match a, b with
  | MA57, MA57 | PARDISO, PARDISO | STRUMPACK, STRUMPACK | GINKGO, GINKGO | RESOLVE, RESOLVE | CUCHOL, CUCHOL
  | LAPACK, LAPACK | BUKA, BUKA | NOPIV, NOPIV => true
  | _, _ => false
  end.
(** the build: HIOP_USE_COINHSL, _PARDISO, _STRUMPACK, _GINKGO, _RESOLVE, _CUDA, _MAGMA, _GPU, _RAJA; the #ifdefs of
    hiopKKTLinSysSparse.cpp 286-378, hiopOptions.cpp 1414, 1473, 1509 *)
Record build := Build { b_coinhsl : bool; b_pardiso : bool; b_strumpack : bool; b_ginkgo : bool; b_resolve : bool;
  b_cuda : bool; b_magma : bool; b_gpu : bool; b_raja : bool }.
(** whether the constructor call of a solver is compiled in (hiopKKTLinSysSparse.cpp 286, 294, 302, 319, 337; hiopKKTLinSysSparseCondensed.cpp 491;
    hiopKKTLinSysMDS.cpp 441) *)
Definition avail (b : build) (s : solver) : bool :=
  match s with
  | MA57 => b_coinhsl b | PARDISO => b_pardiso b | STRUMPACK => b_strumpack b | GINKGO => b_ginkgo b
  | RESOLVE => b_resolve b | CUCHOL => b_cuda b | LAPACK => true | BUKA | NOPIV => b_magma b
  end.
(** option compute_mode (hiopOptions.cpp 1231-1236) *)
Inductive cmode := CAuto | Cpu | Hybrid | Gpu.
(** option KKTLinsys (hiopOptions.cpp 880-889) *)
Inductive kktopt := KAuto | KXY | KXDY | KFull | KCondensed | KNormal.
(** the options: KKTLinsys, linear_solver_sparse ([None] = auto; hiopOptions.cpp 911-917), compute_mode, and whether
    fact_acceptor is inertia_correction (1062-1067) *)
Record opts := Opts { o_kkt : kktopt; o_lin : option solver; o_mode : cmode; o_ic : bool }.

(** hiopOptions.cpp 1388-1424, 1473-1481, 1509-1527, 1540-1561 [ensure_consistence], the rules for these options in
    their order; the test 1415 reads linear_solver_sparse as it was before the rules *)
Definition consistent (b : build) (o : opts) : opts :=
  let is s := match o_lin o with Some t => seqb s t | None => false end in
  let auto := match o_lin o with None => true | _ => false end in
  let lin1 := match o_kkt o with
              | KFull => if is RESOLVE || is PARDISO || is STRUMPACK || auto then o_lin o else None
              | KCondensed => if is CUCHOL || auto then o_lin o else None
              | _ => o_lin o
              end in
  let lin2 := if negb (b_cuda b) && (is RESOLVE || is CUCHOL) then None else lin1 in
  let mode1 := match o_mode o with Gpu => if b_raja b then Gpu else Hybrid | m => m end in
  let mode2 := if b_gpu b then mode1 else Cpu in
  let ic := match o_kkt o, lin2 with
            | KFull, _ => false
            | _, Some STRUMPACK | _, Some RESOLVE => false
            | _, _ => o_ic o
            end in
  Opts (o_kkt o) lin2 mode2 ic.

(** * the choice of a solver by a KKT class *)
(** the pointer linSys_ while the function runs: null or a solver; or a failed assert (hiopKKTLinSysSparse.cpp 271-391) *)
Inductive res := Cur (s : option solver) | Abort.
(** the solvers whose object is created and then refused with inertia correction (hiopKKTLinSysSparse.cpp 306-313,
    340-347, 355-362) *)
Definition needs_free (s : solver) : bool := match s with STRUMPACK | RESOLVE => true | _ => false end.
(** one block [if(guard) { #ifdef .. new ..; check; #endif }], e.g. hiopKKTLinSysSparse.cpp 300-315; [t] is the solver
    that is created *)
Definition attempt (b : build) (ic : bool) (guard : bool) (s t : solver) (r : option solver) (k : option solver -> res) : res :=
  if guard && avail b s then if needs_free s && ic then Abort else k (Some t) else k r.
(** linear_solver == s (hiopKKTLinSysSparse.cpp 285) *)
Definition is_req (l : option solver) (s : solver) : bool := match l with Some t => seqb s t | None => false end.
(** linear_solver == "auto" (hiopKKTLinSysSparse.cpp 285) *)
Definition is_auto (l : option solver) : bool := match l with None => true | _ => false end.
(** nullptr == linSys_ (hiopKKTLinSysSparse.cpp 292) *)
Definition null (r : option solver) : bool := match r with None => true | _ => false end.
(** the final assert (hiopKKTLinSysSparse.cpp 389, 786) *)
Definition done (r : option solver) : res := match r with Some s => Cur (Some s) | None => Abort end.

(** hiopKKTLinSysSparse.cpp 268-392, XYcYd, with linSys_ null *)
Definition sel_xy (b : build) (mode : cmode) (l : option solver) (ic safe : bool) : res :=
  let g s r := (null r && is_auto l) || is_req l s in
  if safe then Abort
  else match mode with
  | Cpu =>
      attempt b ic (is_req l MA57 || is_auto l) MA57 MA57 None (fun r =>
      attempt b ic (g PARDISO r) PARDISO PARDISO r (fun r =>
      attempt b ic (g STRUMPACK r) STRUMPACK STRUMPACK r (fun r =>
      attempt b ic (g GINKGO r) GINKGO GINKGO r done)))
  | Gpu => Abort
  | _ =>
      attempt b ic (is_auto l || is_req l RESOLVE) RESOLVE RESOLVE None (fun r =>
      attempt b ic (g STRUMPACK r) STRUMPACK STRUMPACK r (fun r =>
      attempt b ic (g MA57 r) MA57 MA57 r (fun r =>
      attempt b ic (g PARDISO r) PARDISO PARDISO r done)))
  end.
(** hiopKKTLinSysSparse.cpp 601-788, XDYcYd, with linSys_ null; under hybrid and auto 725-732 returns nullptr; the object
    made for pardiso is an MA57 object (746) *)
Definition sel_xdy (b : build) (mode : cmode) (l : option solver) (ic safe : bool) : res :=
  let g s r := (null r && is_auto l) || is_req l s in
  if safe then match mode with Gpu => Abort | _ => if b_coinhsl b then Cur (Some MA57) else Abort end
  else match mode with
  | Cpu =>
      attempt b ic (is_req l MA57 || is_auto l) MA57 MA57 None (fun r =>
      attempt b ic (g PARDISO r) PARDISO PARDISO r (fun r =>
      attempt b ic (g STRUMPACK r) STRUMPACK STRUMPACK r (fun r =>
      attempt b ic (g GINKGO r) GINKGO GINKGO r done)))
  | Gpu => attempt b ic (is_req l RESOLVE || is_auto l) RESOLVE RESOLVE None done
  | _ =>
      attempt b ic (is_req l RESOLVE || is_auto l) RESOLVE RESOLVE None (fun r =>
      attempt b ic (null r && (is_req l STRUMPACK || is_auto l)) STRUMPACK STRUMPACK r (fun r =>
      if is_auto l then Abort else
      attempt b ic (null r && is_req l MA57) MA57 MA57 r (fun r =>
      attempt b ic (null r && is_req l PARDISO) PARDISO MA57 r done)))
  end.
(** hiopKKTLinSysSparse.cpp 816-865, full system, with linSys_ null; linear_solver_sparse is not read *)
Definition sel_full (b : build) (mode : cmode) (ic safe : bool) : res :=
  if safe then Abort else if ic then Abort
  else match mode with
  | Gpu | CAuto => Abort
  | _ => if b_pardiso b then Cur (Some PARDISO) else if b_strumpack b then Cur (Some STRUMPACK) else Abort
  end.
(** hiopKKTLinSysSparseCondensed.cpp 455-507 and hiopKKTLinSysSparseNormalEqn.cpp 374-425, with linSys_ null *)
Definition sel_spd (b : build) (mode : cmode) (l : option solver) : res :=
  match mode with
  | Cpu => if is_req l MA57 || is_auto l then if b_coinhsl b then Cur (Some MA57) else Abort else Abort
  | _ => if is_req l CUCHOL || is_auto l then if b_cuda b then Cur (Some CUCHOL) else Abort else Abort
  end.
(** hiopKKTLinSysMDS.cpp 405-482: the solver is chosen anew in each call when MAGMA is there *)
Definition sel_mds (b : build) (mode : cmode) (safe : bool) : res :=
  Cur (Some (if b_magma b then match mode with Cpu => LAPACK | _ => if safe then BUKA else NOPIV end else LAPACK)).

(** * the KKT classes *)
(** hiopAlgFilterIPM.cpp 1866-1895 *)
Inductive cls := XY | XDY | Full | Condensed | Normal | Mds.
(** the NLP formulation: sparse or mixed dense-sparse (hiopAlgFilterIPM.cpp 1851-1856) *)
Inductive prob := Sparse | MdsProb.
(** hiopAlgFilterIPM.cpp 1848-1901 [decideAndCreateLinearSystem]; [m] = number of constraints *)
Definition decide (p : prob) (k : kktopt) (m : nat) : cls :=
  match p with
  | MdsProb => Mds
  | Sparse => match k with
              | KFull => Full | KXDY => XDY | KCondensed => Condensed
              | KNormal => if 0 <? m then Normal else XY
              | _ => XY
              end
  end.
(** determineAndCreateLinsys of the class (hiopKKTLinSysSparse.cpp 271, 604, 819; hiopKKTLinSysSparseCondensed.cpp 457;
    hiopKKTLinSysMDS.cpp 405): the sparse classes keep the solver they have *)
Definition create (b : build) (o : opts) (c : cls) (safe ic : bool) (cur : option solver) : res :=
  match c with
  | Mds => sel_mds b (o_mode o) safe
  | _ => match cur with
         | Some s => Cur (Some s)
         | None => match c with
                   | XY => sel_xy b (o_mode o) (o_lin o) ic safe
                   | XDY => sel_xdy b (o_mode o) (o_lin o) ic safe
                   | Full => sel_full b (o_mode o) ic safe
                   | _ => sel_spd b (o_mode o) (o_lin o)
                   end
         end
  end.

(** * the option linsol_mode over a run *)
(** hiopOptions.cpp 1052-1058 *)
Inductive lmode := Stable | Speculative | Forcequick.
(** the local variables of hiopAlgFilterIPM.cpp 2125, 2209-2210, the KKT object (class, solver, mu_ of hiopKKTLinSys.hpp
    183), whether fact_acceptor_ tests the inertia, and theta_mu and kappa_mu; mu is a rational *)
Record st := St { s_cls : cls; s_sol : option solver; s_mu : Q; s_ic : bool; s_safe : bool; s_last : Z; s_max : Z;
  s_theta : Q; s_kappa : Q }.
(** hiopAlgFilterIPM.cpp 2125, 2161, 2184-2191, 2209-2210 *)
Definition start (p : prob) (o : opts) (m : nat) (l : lmode) (mu0 theta kappa : Q) : st :=
  St (decide p (o_kkt o) m) None mu0 (o_ic o) (match l with Stable => true | _ => false end) 100000 10 theta kappa.
(** hiopAlgFilterIPM.cpp 1903-1981 [switch_to_safer_KKT]; a new object has mu_ = mu0 (hiopKKTLinSys.cpp 78); the branch
    #if 0 (1951-1974) is not compiled.  The assert 1919 holds (the class is made only under this option) *)
Definition safer (mu0 : Q) (iter : Z) (s : st) : st :=
  if s_safe s then
    match s_cls s with
    | Condensed => St XDY None mu0 true (s_safe s) iter (s_max s) (6 # 5) (2 # 5)
    | _ => s
    end
  else s.
(** iter_num - last > max_iters and mu > 1e-6 (hiopAlgFilterIPM.cpp 2007-2009, 2048-2050); the double 1e-6 is taken as
    the decimal number *)
Definition long_safe (iter : Z) (mu : Q) (s : st) : bool :=
  s_safe s && (s_max s <? iter - s_last s)%Z && negb (Qle_bool mu (1 # 1000000)).
(** hiopAlgFilterIPM.cpp 1983-2067 [switch_to_fast_KKT].  The branch for condensed (2005-2040) does not test the kind of
    problem: a mixed dense-sparse problem with KKTLinsys = condensed gets a condensed object too (what that object then does
    is not modelled: it is treated like one of a sparse problem).  int overflow of the doubled limit is not modelled, see C92_returns *)
Definition fast (p : prob) (o : opts) (mu0 : Q) (iter : Z) (mu : Q) (s : st) : st :=
  let to_condensed := match s_cls s, o_kkt o with Condensed, _ => false | _, KCondensed => true | _, _ => false end in
  if to_condensed && long_safe iter mu s then
    St Condensed None mu0 (o_ic o) false 100000 (2 * s_max s) (21 # 20) (4 # 5)
  else match p with
       | MdsProb =>
           if long_safe iter mu s then
             St (s_cls s) (s_sol s) (s_mu s) (s_ic s) false 100000 (2 * s_max s) (s_theta s) (s_kappa s)
           else s
       | Sparse => s
       end.

(** how one pass of the linear solve loop goes (hiopAlgFilterIPM.cpp 2380-2701, 3335-3431): accepted step, failed factorization or
    solve, no acceptable step length, too many refactorizations of the inertia-free test *)
Inductive pass := POk | PFail | PSmall | PRefact.
(** what happens then: leave the loop, repeat with the given safe mode, end the run with Err_Step_Computation
    (hiopAlgFilterIPM.cpp 2400-2459, 2650-2696) *)
Inductive next := Leave | Again (safe : bool) | End.
(** hiopAlgFilterIPM.cpp 2400-2459, 2642-2696, 3343-3364, 3387-3423: a failed solve turns safe mode on, too many
    refactorizations (3418-3423) do not.  In safe mode a small step leads to feasibility restoration and out of the loop; that
    the run may end after a failed restoration (2703) is not modelled: such a run is one with fewer iterations *)
Definition after_pass (fq safe : bool) (p : pass) : next :=
  match p with
  | POk => Leave
  | PFail => if safe || fq then End else Again true
  | PSmall => if safe then Leave else if fq then Leave else Again true
  | PRefact => if safe || fq then End else Again safe
  end.
(** a factorization: iteration, class, safe mode, solver, the mu of the KKT object (it sets the tolerance of the
    iterative refinement, hiopKKTLinSys.cpp 942) and the barrier parameter (hiopAlgFilterIPM.cpp 2395-2400) *)
Record event := Ev { e_iter : Z; e_cls : cls; e_safe : bool; e_sol : solver; e_kmu : Q; e_mu : Q; e_ic : bool }.
(** the state with another safe mode and solver (hiopAlgFilterIPM.cpp 2349, 2375, 2419, 2683; linSys_ as set in hiopKKTLinSysSparse.cpp 288) *)
Definition with_safe (s : st) (safe : bool) (sol : option solver) : st :=
  St (s_cls s) sol (s_mu s) (s_ic s) safe (s_last s) (s_max s) (s_theta s) (s_kappa s).
(** the loop hiopAlgFilterIPM.cpp 2380-2701, at most two passes; [None]: the run ends *)
Fixpoint passes (b : build) (o : opts) (mu0 : Q) (fq : bool) (iter : Z) (mu : Q) (ps : list pass) (s : st) : list event * option st :=
  match ps with
  | [] => ([], Some s)
  | p :: ps' =>
      let s1 := safer mu0 iter s in
      match create b o (s_cls s1) (s_safe s1) (s_ic s1) (s_sol s1) with
      | Cur (Some v) =>
          let e := Ev iter (s_cls s1) (s_safe s1) v (s_mu s1) mu (s_ic s1) in
          match after_pass fq (s_safe s1) p with
          | Leave => ([e], Some (with_safe s1 (s_safe s1) (Some v)))
          | End => ([e], None)
          | Again safe => let (l, r) := passes b o mu0 fq iter mu ps' (with_safe s1 safe (Some v)) in (e :: l, r)
          end
      | _ => ([], None)
      end
  end.
(** one iteration: hiopAlgFilterIPM.cpp 2333, 2347-2378, 2380-2701 *)
Definition iteration (b : build) (p : prob) (o : opts) (l : lmode) (mu0 : Q) (iter : Z) (mu : Q) (p1 p2 : pass) (s : st) : list event * option st :=
  let s0 := St (s_cls s) (s_sol s) mu (s_ic s) (s_safe s) (s_last s) (s_max s) (s_theta s) (s_kappa s) in
  let s1 := match l with
            | Forcequick => with_safe s0 false (s_sol s0)
            | Speculative => fast p o mu0 iter mu s0
            | Stable => with_safe s0 true (s_sol s0)
            end in
  passes b o mu0 (match l with Forcequick => true | _ => false end) iter mu [p1; p2] s1.
(** iterations [iter], [iter]+1, ... (hiopAlgFilterIPM.cpp 2214-2761); one element per iteration: barrier parameter and how
    the two passes go *)
Fixpoint run (b : build) (p : prob) (o : opts) (l : lmode) (mu0 : Q) (iter : Z) (w : list (Q * pass * pass)) (s : st) : list event * option st :=
  match w with
  | [] => ([], Some s)
  | (mu, p1, p2) :: w' =>
      match iteration b p o l mu0 iter mu p1 p2 s with
      | (es, Some s') => let (l', r) := run b p o l mu0 (iter + 1) w' s' in (es ++ l', r)
      | (es, None) => (es, None)
      end
  end.
