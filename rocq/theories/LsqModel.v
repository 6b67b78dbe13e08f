(** Least-squares multipliers: src/Optimization/hiopDualsUpdater.cpp 109-150, 231-332, 542-648,
    src/Optimization/hiopDualsUpdater.hpp 137-182, and their use in src/Optimization/hiopAlgFilterIPM.cpp 1456-1475.
    Exact arithmetic, one MPI rank.  The factorizations are oracles (a solver answers None when either the
    factorization or the triangular solves report an error).  Not modelled here: the choice of the linear
    solver (instantiate_linear_solver; see [LsqSelModel]), HIOP_DEEPCHECKS, timers, logging. *)
From Coq Require Import List Bool Arith Reals.
From Verif Require Import RingKit KktModel KktModel2 SparseModel InertiaModel.
Import ListNotations.
Close Scope R_scope.

Section Lsq.
Variable K : cfield.
Notation vec := (nat -> K).
Notation mat := (nat -> nat -> K).

(** hiopMatrixDenseRowMajor.cpp 646-702 [timesMatTrans] with beta=0, alpha=1: A*B' over n columns; for MDS matrices
    the sum of the products of the two column blocks (hiopMatrixMDS.hpp 94-100) *)
Definition times_trans (n : nat) (A B : mat) : mat := fun i j => sumn n (fun k => A i k *! B j k).
(** hiopMatrixDenseRowMajor.cpp 715-720 [addDiagonal(value)] *)
Definition add_const_diag (m : nat) (v : K) (M : mat) : mat := fun i j =>
  if (i =? j) && (i <? m) then M i j +! v else M i j.
(** hiopMatrixDenseRowMajor.cpp 200-221 [copyBlockFromMatrix] of an m x n source *)
Definition copy_block (i0 j0 m n : nat) (src M : mat) : mat := fun i j =>
  if (i0 <=? i) && (i <? i0 + m) && (j0 <=? j) && (j <? j0 + n) then src (i - i0) (j - j0) else M i j.

(** what the update reads: sizes, gradient, Jacobians, the signed duals of the iterate; hiopDualsUpdater.cpp 231-290 *)
Record lsq_in := LsqIn { l_n : nat; l_me : nat; l_mi : nat; l_g : vec; l_Jc : mat; l_Jd : mat;
  l_zl : vec; l_zu : vec; l_vl : vec; l_vu : vec }.

(** hiopDualsUpdater.cpp 242-252: the system matrix; [M0] is what the matrix object held before (after the first
    factorization it holds the factors) *)
Definition lsq_mat (I : lsq_in) (M0 : mat) : mat :=
  let M := copy_block 0 0 (l_me I) (l_me I) (times_trans (l_n I) (l_Jc I) (l_Jc I)) M0 in
  let M := copy_block 0 (l_me I) (l_me I) (l_mi I) (times_trans (l_n I) (l_Jc I) (l_Jd I)) M in
  copy_block (l_me I) (l_me I) (l_mi I) (l_mi I)
    (add_const_diag (l_mi I) f1 (times_trans (l_n I) (l_Jd I) (l_Jd I))) M.
(** hiopDualsUpdater.cpp 276-290: the right-hand side *)
Definition lsq_rhs (I : lsq_in) : vec :=
  let vecx := fun i => l_g I i -! l_zl I i +! l_zu I i in
  let vecd := fun i => l_vl I i -! l_vu I i in
  let rhsc := fun i => fopp f1 *! mv K (l_n I) (l_Jc I) vecx i in
  let rhsd := fun i => fopp f1 *! mv K (l_n I) (l_Jd I) vecx i -! vecd i in
  KktModel.put K (l_me I) rhsc rhsd.
(** hiopDualsUpdater.cpp 231-332 [hiopDualsLsqUpdateLinsysRedDense::do_lsq_update]: the returned flag and the
    multipliers of the iterate ([yc], [yd] before).  A system of size 0 is not solved (factorize_mat and
    solve_with_factors answer true, 692-694, 718-720); the oracle is then asked for the empty vector *)
Definition dense_lsq (S : dsolver K) (I : lsq_in) (M0 : mat) (yc yd : vec) : bool * vec * vec :=
  match S (l_me I + l_mi I) (lsq_mat I M0) (lsq_rhs I) with
  | Some y => (true, cut K 0 y, cut K (l_me I) y)
  | None => (false, yc, yd)
  end.

(** sparse Jacobians as triplets; hiopDualsUpdater.cpp 542-552 *)
Record lsq_sp := LsqSp { q_g : vec; q_Jc : trip K; q_Jd : trip K; q_zl : vec; q_zu : vec; q_vl : vec; q_vu : vec }.
(** hiopDualsUpdater.cpp 573-605: the augmented matrix, one triangle; [Msys] is the solver's matrix.  The triplet
    kernels are those of the model of hiopMatrixSparseTriplet.cpp *)
Definition lsq_aug_mat (Q : lsq_sp) (Msys : trip K) : option (trip K) :=
  let nx := t_n (q_Jc Q) in let nd := t_m (q_Jd Q) in let q := t_m (q_Jc Q) in
  let zc := length (t_ent (q_Jc Q)) in let zd := length (t_ent (q_Jd Q)) in
  obind (copy_diag_block K (zero_vals K Msys) f1 0 0 0 (nx + nd)) (fun M =>
  obind (copy_rows_block_from K M (q_Jc Q) 0 q (nx + nd) (nx + nd)) (fun M =>
  obind (copy_rows_block_from K M (q_Jd Q) 0 nd (nx + nd + q) (nx + nd + zc)) (fun M =>
  obind (copy_diag_block K M (fopp f1) (nx + nd + q) nx (nx + nd + zc + zd) nd) (fun M =>
  set_sub_diag_to K M 0 (nx + nd + q + nd) f0 (nx + nd + zc + zd + nd))))).
(** hiopDualsUpdater.cpp 617-635: the right-hand side; rhsc_ and rhsd_ keep the zeros of the constructor (96-97) *)
Definition lsq_aug_rhs (Q : lsq_sp) : vec :=
  let nx := t_n (q_Jc Q) in let nd := t_m (q_Jd Q) in
  KktModel.put K nx (fun i => fopp (q_g Q i) +! q_zl Q i -! q_zu Q i)
    (KktModel.put K nd (fun i => q_vl Q i -! q_vu Q i) (fun _ => f0)).
(** hiopDualsUpdater.cpp 542-666 [hiopDualsLsqUpdateLinsysAugSparse::do_lsq_update]; [fact] is matrixChanged (the
    number of negative eigenvalues, negative on failure).  None: an access out of bounds or a failed assertion *)
Definition sparse_lsq (fact : nat -> list (entry K) -> bool) (S : ssolver K) (Q : lsq_sp) (Msys : trip K) (yc yd : vec) : option (bool * vec * vec) :=
  let nx := t_n (q_Jc Q) in let nd := t_m (q_Jd Q) in let q := t_m (q_Jc Q) in let N := nx + nd + q + nd in
  obind (lsq_aug_mat Q Msys) (fun M =>
  if fact N (t_ent M) then
    match S N (t_ent M) (lsq_aug_rhs Q) with
    | None => Some (true, (fun _ => f0), (fun _ => f0))
    | Some s => Some (true, cut K (nx + nd) s, cut K (nx + nd + q) s)
    end
  else Some (false, yc, yd)).
End Lsq.
Arguments l_n {_}. Arguments l_me {_}. Arguments l_mi {_}. Arguments l_g {_}. Arguments l_Jc {_}. Arguments l_Jd {_}.
Arguments l_zl {_}. Arguments l_zu {_}. Arguments l_vl {_}. Arguments l_vu {_}.
Arguments q_g {_}. Arguments q_Jc {_}. Arguments q_Jd {_}. Arguments q_zl {_}. Arguments q_zu {_}. Arguments q_vl {_}. Arguments q_vu {_}.

Open Scope R_scope.
(** hiopVectorPar.cpp 501-522 [infnorm] *)
Definition rinfnorm (n : nat) (v : nat -> R) : R := fold_left (fun a i => Rmax a (Rabs (v i))) (seq 0 n) 0.
(** hiopDualsUpdater.hpp 153-183 [compute_initial_duals_eq]: [init] is init_for_ini_duals_comp, [upd] do_lsq_update *)
Definition initial_duals (init : bool) (upd : (nat -> R) -> (nat -> R) -> bool * (nat -> R) * (nat -> R))
    (me mi : nat) (ymax : R) (yc yd : nat -> R) : bool * (nat -> R) * (nat -> R) :=
  if init then
    let '(ok, yc', yd') := upd yc yd in
    let nc := rinfnorm me yc' in let nd := rinfnorm mi yd' in
    let nrm := if rltb nd nc then nc else nd in
    if rltb ymax nrm || negb ok then (ok, (fun _ => 0), (fun _ => 0)) else (ok, yc', yd')
  else (false, yc, yd).

(** hiopDualsUpdater.cpp 109-150 [hiopDualsLsqUpdate::go], after the step and the safeguard of the signed duals:
    [yc], [yd] are those of the step *)
Definition lsq_go (upd : (nat -> R) -> (nat -> R) -> bool * (nat -> R) * (nat -> R)) (tol infeas : R) (yc yd : nat -> R)
  : bool * (nat -> R) * (nat -> R) :=
  if rltb tol infeas then (true, yc, yd) else upd yc yd.

(** the gradient and Jacobians the algorithm holds (_grad_f, _Jac_c, _Jac_d); hiopAlgFilterIPM.hpp 292-294 *)
Record derivs := Derivs { dv_g : nat -> R; dv_Jc : nat -> nat -> R; dv_Jd : nat -> nat -> R }.
(** hiopAlgFilterIPM.cpp 1456-1475 (also 2716-2735): end of an iteration with the least-squares updater.  [dv] are the
    derivatives held, of the old point; [at_trial] the user's derivatives at the accepted point; the other arguments
    are the duals of the accepted iterate.  Result: the multipliers and the derivatives held afterwards.  The flag of
    the updater is only asserted. *)
Definition end_of_iteration (S : dsolver R_field) (n me mi : nat) (dv at_trial : derivs) (tol infeas : R) (M0 : nat -> nat -> R)
    (zl zu vl vu yc yd : nat -> R) : (nat -> R) * (nat -> R) * derivs :=
  let I := LsqIn R_field n me mi (dv_g dv) (dv_Jc dv) (dv_Jd dv) zl zu vl vu in
  let '(_, yc', yd') := lsq_go (dense_lsq R_field S I M0) tol infeas yc yd in
  (yc', yd', at_trial).
