(** The inertia-free curvature test and the loop around it.  src/Optimization/hiopKKTLinSys.cpp (test_direction),
    src/Optimization/hiopAlgFilterIPM.cpp (compute_search_direction_inertia_free).  Real arithmetic, one MPI rank; vectors
    as in KktModel.  Timers, logging and counters are left out. *)
From Coq Require Import List Bool Arith Reals.
From Verif Require Import RingKit InertiaModel KktModel.
Import ListNotations.
Open Scope nat_scope.

Notation RF := R_field.
Notation vec := (nat -> RF).
(** hiopVectorPar.cpp 480-499 dotProductWith, n entries *)
Definition dotp (n : nat) (a b : vec) : R := sumn n (fun i => a i *! b i).
(** hiopVectorPar.cpp 463-478 twonorm *)
Definition twonorm (n : nat) (a : vec) : R := sqrt (dotp n a a).
(** hiopKKTLinSys.cpp 483-506 (= 2127-2163): the comparison, from the curvature dWd and the direction *)
Definition curv_ok (P : prob RF) (fact dWd : R) (w : iter RF) : bool :=
  let a := twonorm (nx P) (w_x w) in let b := twonorm (ni P) (w_d w) in
  negb (rltb dWd ((a * a + b * b) * fact)%R).
(** hiopKKTLinSys.cpp 455-507 hiopKKTLinSysCompressed::test_direction; Dx and Dd are the members Dx_ and Dd_, [e] the
    regularization the calculator holds now *)
Definition test_compressed (P : prob RF) (Dx Dd : vec) (fact : R) (e : deltas RF) (w : iter RF) : bool :=
  let s1 := dotp (nx P) (mv RF (nx P) (p_H P) (w_x w)) (w_x w) in
  let s2 := dotp (nx P) (fun i => w_x w i *! Dx i +! f1 *! (e_wx e i *! w_x w i)) (w_x w) in
  let s3 := dotp (ni P) (fun i => w_d w i *! Dd i +! f1 *! (e_wd e i *! w_d w i)) (w_d w) in
  curv_ok P fact (0 + s1 + s2 + s3)%R w.
(** hiopKKTLinSys.cpp 2104-2165 hiopKKTLinSysFull::test_direction: the barrier diagonals are computed on the spot *)
Definition test_full (P : prob RF) (it : iter RF) (fact : R) (e : deltas RF) (w : iter RF) : bool :=
  let s1 := dotp (nx P) (mv RF (nx P) (p_H P) (w_x w)) (w_x w) in
  let s2 := dotp (nx P) (fun i => barrier_x RF P it i *! w_x w i +! f1 *! (e_wx e i *! w_x w i)) (w_x w) in
  let s3 := dotp (ni P) (fun i => barrier_d RF P it i *! w_d w i +! f1 *! (e_wd e i *! w_d w i)) (w_d w) in
  curv_ok P fact (0 + s1 + s2 + s3)%R w.
(** what the KKT objects hold in Dx_ and Dd_ when the test runs: those of hiopKKTLinSys.cpp 562-571, 794-803, 1072-1087 and
    1963-1972 (XYcYd, XDYcYd, low-rank, normal equations, and the condensed system on top) ... *)
Definition test_usual (P : prob RF) (it : iter RF) : R -> deltas RF -> iter RF -> bool :=
  test_compressed P (barrier_x RF P it) (barrier_d RF P it).
(** ... and hiopKKTLinSysMDS.cpp 154-158, which writes Dx_ but not Dd_ (allocated in hiopKKTLinSys.hpp 261): [junk] *)
Definition test_mds (P : prob RF) (it : iter RF) (junk : vec) : R -> deltas RF -> iter RF -> bool :=
  test_compressed P (barrier_x RF P it) junk.

(** what the KKT object does in the k-th round of the loop: the answer of the factorization before it (of
    factorize_inertia_free, for k>0), the regularization then held by the calculator, the direction of
    compute_directions_w_IR; hiopAlgFilterIPM.cpp 3385-3427 *)
Record round := Round { rd_fact : bool; rd_reg : deltas RF; rd_dir : option (iter RF) }.
(** how the loop ends: accepted, a solve failed, too many refactorizations; hiopAlgFilterIPM.cpp 3386-3431 *)
Inductive found := Accepted (k : nat) (w : iter RF) | SolveFailed (k : nat) | TooMany.
(** hiopAlgFilterIPM.cpp 3374-3431 compute_search_direction_inertia_free: [more] refactorizations are allowed, [k] were
    made; the answer of factorize_inertia_free (3424) is not looked at *)
Fixpoint search (test : deltas RF -> iter RF -> bool) (env : nat -> round) (more k : nat) : found :=
  match rd_dir (env k) with
  | None => SolveFailed k
  | Some w =>
      if test (rd_reg (env k)) w then Accepted k w
      else match more with O => TooMany | S more => search test env more (S k) end
  end.
(** hiopAlgFilterIPM.cpp 3379-3380: max_refactorization = 10 *)
Definition search_direction (test : deltas RF -> iter RF -> bool) (env : nat -> round) : found := search test env 10 0.
(** hiopAlgFilterIPM.cpp 3388-3408, 3418-3423: safe mode afterwards; it is switched on after a failed solve, not after too many
    refactorizations *)
Definition safe_after (f : found) (safe forcequick : bool) : bool :=
  match f with SolveFailed _ => if safe then true else if forcequick then false else true | _ => safe end.
