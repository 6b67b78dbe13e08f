(** The KKT systems: reduction of the full primal-dual Newton system to the systems handed to the linear
    solvers, their assembly, and the recovery of the full direction.  src/Optimization/hiopKKTLinSys.cpp,
    hiopKKTLinSysDense.hpp, hiopKKTLinSysMDS.cpp, hiopKKTLinSysSparse.cpp, hiopResidual.cpp.
    Exact arithmetic (any field), one MPI rank.  A vector is a function on indices, of which those below the
    size of the vector matter; vector kernels act index by index.  The scratch use of parts of the direction is
    not modelled (the parts concerned are overwritten later), nor timers, logging and HIOP_DEEPCHECKS. *)
From Coq Require Import List Bool Arith.
From Verif Require Import RingKit.
Import ListNotations.

Section Kkt.
Variable K : cfield.
Notation vec := (nat -> K).
Notation mat := (nat -> nat -> K).

(** the primal-dual blocks of an iterate or direction, src/Optimization/hiopIterate.hpp (members x,d,sxl,..,vu), and the order of hiopVectorCompoundPD.cpp 100-155 *)
Record iter := Iter {
  w_x : vec; w_d : vec; w_yc : vec; w_yd : vec; w_sxl : vec; w_sxu : vec; w_sdl : vec; w_sdu : vec;
  w_zl : vec; w_zu : vec; w_vl : vec; w_vu : vec }.
(** the blocks of the residual, src/Optimization/hiopResidual.hpp (members rx,..,rsvu); hiopResidual.hpp 160-169 *)
Record resid := Resid {
  r_x : vec; r_d : vec; r_yc : vec; r_yd : vec; r_xl : vec; r_xu : vec; r_dl : vec; r_du : vec;
  r_szl : vec; r_szu : vec; r_svl : vec; r_svu : vec }.
(** sizes, matrices and bound patterns the linear systems are built from (hiopKKTLinSys.hpp members Hess_, Jac_c_, Jac_d_; hiopNlpFormulation.hpp get_ixl .. get_idu); hiopKKTLinSys.hpp 177-178, hiopNlpFormulation.hpp 222-227 *)
Record prob := Prob {
  nx : nat; neq : nat; ni : nat; p_H : mat; p_Jc : mat; p_Jd : mat;
  ixl : nat -> bool; ixu : nat -> bool; idl : nat -> bool; idu : nat -> bool }.
(** the regularization vectors delta_wx_, delta_wd_, delta_cc_, delta_cd_ (hiopKKTLinSys.hpp); hiopKKTLinSys.hpp 198-201 *)
Record deltas := Deltas { e_wx : vec; e_wd : vec; e_cc : vec; e_cd : vec }.

(** number of finite bounds (nlp_->n_low(), n_upp(), m_ineq_low(), m_ineq_upp(), hiopNlpFormulation.hpp); hiopNlpFormulation.hpp 240-243 *)
Definition count (n : nat) (p : nat -> bool) : nat := length (filter p (seq 0 n)).
(** hiopVectorPar.cpp 1063-1074 selectPattern *)
Definition select (p : nat -> bool) (v : vec) : vec := fun i => if p i then v i else f0.
(** hiopVectorPar.cpp 580-593 componentDiv_w_selectPattern *)
Definition div_pat (x s : vec) (p : nat -> bool) : vec := fun i => if p i then x i /! s i else f0.
(** hiopVectorPar.cpp 767-790 axdzpy_w_pattern with alpha=a: this += a*x/z on the pattern *)
Definition axdz (a : K) (y x z : vec) (p : nat -> bool) : vec := fun i => if p i then y i +! a *! x i /! z i else y i.
(** hiopMatrix::timesVec(0,.,1,x); hiopMatrixDenseRowMajor.cpp 437-495, hiopMatrixSparseTriplet.cpp 55-90 *)
Definition mv (n : nat) (A : mat) (x : vec) : vec := fun i => sumn n (fun j => A i j *! x j).
(** hiopMatrix::transTimesVec(0,.,1,y); hiopMatrixDenseRowMajor.cpp 510-535, hiopMatrixSparseTriplet.cpp 92-126 *)
Definition tmv (m : nat) (A : mat) (y : vec) : vec := fun j => sumn m (fun i => A i j *! y i).

(** hiopKKTLinSys.cpp 218-305 compute_directions_for_full_space: the slack and bound-dual parts from x, d *)
Definition full_space (P : prob) (it : iter) (r : resid) (dx dd dyc dyd : vec) : iter :=
  let low := 0 <? count (nx P) (ixl P) in let upp := 0 <? count (nx P) (ixu P) in
  let dlow := 0 <? count (ni P) (idl P) in let dupp := 0 <? count (ni P) (idu P) in
  let sxl := if low then select (ixl P) (fun i => r_xl r i +! dx i) else fun _ => f0 in
  let zl := if low then div_pat (fun i => r_szl r i -! w_zl it i *! sxl i) (w_sxl it) (ixl P) else fun _ => f0 in
  let sxu := if upp then select (ixu P) (fun i => r_xu r i -! dx i) else fun _ => f0 in
  let zu := if upp then div_pat (select (ixu P) (fun i => r_szu r i -! w_zu it i *! sxu i)) (w_sxu it) (ixu P) else fun _ => f0 in
  let sdl := if dlow then select (idl P) (fun i => r_dl r i +! dd i) else fun _ => f0 in
  let vl := if dlow then div_pat (select (idl P) (fun i => r_svl r i -! w_vl it i *! sdl i)) (w_sdl it) (idl P) else fun _ => f0 in
  let sdu := if dupp then select (idu P) (fun i => r_du r i -! dd i) else fun _ => f0 in
  let vu := if dupp then div_pat (select (idu P) (fun i => r_svu r i -! w_vu it i *! sdu i)) (w_sdu it) (idu P) else fun _ => f0 in
  Iter dx dd dyc dyd sxl sxu sdl sdu zl zu vl vu.

(** hiopKKTLinSys.cpp 562-565 (also 794-797, 1963-1966, hiopKKTLinSysMDS.cpp 139-142): Dx_ *)
Definition barrier_x (P : prob) (it : iter) : vec :=
  axdz f1 (axdz f1 (fun _ => f0) (w_zl it) (w_sxl it) (ixl P)) (w_zu it) (w_sxu it) (ixu P).
(** hiopKKTLinSys.cpp 569-571 (also 801-803, 1970-1972): Dd_ *)
Definition barrier_d (P : prob) (it : iter) : vec :=
  axdz f1 (axdz f1 (fun _ => f0) (w_vl it) (w_sdl it) (idl P)) (w_vu it) (w_sdu it) (idu P).
(** hiopKKTLinSys.cpp 602-619 (same code 832-847, 2001-2016): rx_tilde *)
Definition rx_tilde (P : prob) (it : iter) (r : resid) : vec :=
  let t0 := r_x r in
  let t1 := if 0 <? count (nx P) (ixl P) then axdz f1 t0 (fun i => r_szl r i -! w_zl it i *! r_xl r i) (w_sxl it) (ixl P) else t0 in
  if 0 <? count (nx P) (ixu P) then axdz (fopp f1) t1 (fun i => r_szu r i -! w_zu it i *! r_xu r i) (w_sxu it) (ixu P) else t1.
(** hiopKKTLinSys.cpp 622-643 ryd2 (same code 850-866, 2019-2035 for rd_tilde) *)
Definition rd_tilde (P : prob) (it : iter) (r : resid) : vec :=
  let t0 := r_d r in
  let t1 := if 0 <? count (ni P) (idl P) then axdz f1 t0 (fun i => r_svl r i -! w_vl it i *! r_dl r i) (w_sdl it) (idl P) else t0 in
  if 0 <? count (ni P) (idu P) then axdz (fopp f1) t1 (fun i => r_svu r i -! w_vu it i *! r_du r i) (w_sdu it) (idu P) else t1.

(** hiopKKTLinSys.cpp 585-692 hiopKKTLinSysCompressedXYcYd::computeDirections; Ddi is Dd_inv_ as the last build left it; solve is solveCompressed *)
Definition xycyd_dir (P : prob) (it : iter) (r : resid) (Ddi : vec) (solve : vec -> vec -> vec -> option (vec * vec * vec)) : option iter :=
  let ryd2 := rd_tilde P it r in
  let ryd := fun i => r_yd r i +! ryd2 i *! Ddi i in
  match solve (rx_tilde P it r) (r_yc r) ryd with
  | Some (dx, dyc, dyd) => Some (full_space P it r dx (fun i => (ryd2 i +! dyd i) *! Ddi i) dyc dyd)
  | None => None
  end.
(** hiopKKTLinSys.cpp 818-908 hiopKKTLinSysCompressedXDYcYd::computeDirections *)
Definition xdycyd_dir (P : prob) (it : iter) (r : resid) (solve : vec -> vec -> vec -> vec -> option (vec * vec * vec * vec)) : option iter :=
  match solve (rx_tilde P it r) (rd_tilde P it r) (r_yc r) (r_yd r) with
  | Some (dx, dd, dyc, dyd) => Some (full_space P it r dx dd dyc dyd)
  | None => None
  end.

(** hiopVectorPar.cpp copyToStarting / startingAtCopyToStartingAt of consecutive blocks into one right-hand side; hiopVectorPar.cpp 294-313 *)
Definition put (n : nat) (a b : vec) : vec := fun i => if i <? n then a i else b (i - n).
(** the same, unpacking a block that starts at s; hiopVectorPar.cpp 284-292 *)
Definition cut (s : nat) (v : vec) : vec := fun i => v (s + i).

(* ---------- dense system matrix: only the entries on and above the diagonal are written and read ---------- *)
(** the symmetric matrix a dense solver sees (LAPACK dsytrf with uplo='L' on the row-major array, hiopLinSolverSymDenseLapack.hpp: upper triangle of the row-major array); hiopLinSolverSymDenseLapack.hpp 84-102, 182-184 *)
Definition symu (M : mat) : mat := fun i j => if i <=? j then M i j else M j i.
(** hiopMatrixDenseRowMajor.cpp 811-829 addUpperTriangleToSymDenseMatrixUpperTriangle (n x n source) *)
Definition add_upper (s n : nat) (a : K) (A M : mat) : mat := fun i j =>
  if (s <=? i) && (i <? s + n) && (i <=? j) && (j <? s + n) then M i j +! a *! A (i - s) (j - s) else M i j.
(** hiopMatrixDenseRowMajor.cpp 779-798 transAddToSymDenseMatrixUpperTriangle (m x n source) *)
Definition add_trans (rs cs m n : nat) (a : K) (A M : mat) : mat := fun i j =>
  if (rs <=? i) && (i <? rs + n) && (cs <=? j) && (j <? cs + m) then M i j +! a *! A (j - cs) (i - rs) else M i j.
(** hiopMatrixDenseRowMajor.cpp 719-730 addSubDiagonal(alpha,start,d), also 735-753 with a part of d *)
Definition add_diag (s n : nat) (a : K) (d : vec) (M : mat) : mat := fun i j =>
  if (i =? j) && (s <=? i) && (i <? s + n) then M i j +! a *! d (i - s) else M i j.
(** hiopMatrixDenseRowMajor.cpp setToZero; hiopMatrixDenseRowMajor.cpp 370 *)
Definition zero_mat : mat := fun _ _ => f0.
(** a factorized symmetric dense solve of size N (hiopLinSolverSymDense*::solve), a parameter of the model; hiopLinSolver.hpp 97 *)
Definition dsolver := nat -> mat -> vec -> option vec.

(** hiopKKTLinSysDense.hpp 142-148 (MDS: hiopKKTLinSysMDS.cpp 280-286): Dd_inv_ *)
Definition dd_inv (P : prob) (it : iter) (e : deltas) : vec := fun i =>
  f1 /! axdz f1 (axdz f1 (e_wd e) (w_vl it) (w_sdl it) (idl P)) (w_vu it) (w_sdu it) (idu P) i.
(** hiopKKTLinSysDense.hpp 85-169 hiopKKTLinSysDenseXYcYd::build_kkt_matrix *)
Definition dense_xycyd_mat (P : prob) (it : iter) (e : deltas) : mat :=
  let M := add_upper 0 (nx P) f1 (p_H P) zero_mat in
  let M := add_trans 0 (nx P) (neq P) (nx P) f1 (p_Jc P) M in
  let M := add_trans 0 (nx P + neq P) (ni P) (nx P) f1 (p_Jd P) M in
  let M := add_diag 0 (nx P) f1 (barrier_x P it) M in
  let M := add_diag 0 (nx P) f1 (e_wx e) M in
  let M := add_diag (nx P + neq P) (ni P) (fopp f1) (dd_inv P it e) M in
  add_diag (nx P) (ni P) (fopp f1) (e_cd e) M.
(** hiopKKTLinSysDense.hpp 171-207 hiopKKTLinSysDenseXYcYd::solveCompressed *)
Definition dense_xycyd_solve (S : dsolver) (P : prob) (M : mat) (rx ryc ryd : vec) : option (vec * vec * vec) :=
  match S (nx P + neq P + ni P) M (put (nx P) rx (put (neq P) ryc ryd)) with
  | Some s => Some (cut 0 s, cut (nx P) s, cut (nx P + neq P) s)
  | None => None
  end.
(** hiopKKTLinSysDense.hpp 85-207 with hiopKKTLinSys.cpp 543-692: one update and one direction of hiopKKTLinSysDenseXYcYd *)
Definition dense_xycyd (S : dsolver) (P : prob) (it : iter) (e : deltas) (r : resid) : option iter :=
  xycyd_dir P it r (dd_inv P it e) (dense_xycyd_solve S P (dense_xycyd_mat P it e)).
(** hiopKKTLinSysDense.hpp 249-329 hiopKKTLinSysDenseXDYcYd::build_kkt_matrix; the -I block 300-310 is the transposed one written at (nx, nx+nineq+neq) *)
Definition dense_xdycyd_mat (P : prob) (it : iter) (e : deltas) : mat :=
  let M := add_upper 0 (nx P) f1 (p_H P) zero_mat in
  let M := add_trans 0 (nx P + ni P) (neq P) (nx P) f1 (p_Jc P) M in
  let M := add_trans 0 (nx P + ni P + neq P) (ni P) (nx P) f1 (p_Jd P) M in
  let M := add_diag 0 (nx P) f1 (barrier_x P it) M in
  let M := add_diag 0 (nx P) f1 (e_wx e) M in
  let M := add_diag (nx P) (ni P) f1 (barrier_d P it) M in
  let M := add_diag (nx P) (ni P) f1 (e_wd e) M in
  let M := add_trans (nx P) (nx P + ni P + neq P) (ni P) (ni P) (fopp f1) (fun i j => if i =? j then f1 else f0) M in
  add_diag (nx P + ni P) (ni P) (fopp f1) (e_cd e) M.
(** hiopKKTLinSysDense.hpp 331-370 hiopKKTLinSysDenseXDYcYd::solveCompressed *)
Definition dense_xdycyd_solve (S : dsolver) (P : prob) (M : mat) (rx rd ryc ryd : vec) : option (vec * vec * vec * vec) :=
  match S (nx P + ni P + neq P + ni P) M (put (nx P) rx (put (ni P) rd (put (neq P) ryc ryd))) with
  | Some s => Some (cut 0 s, cut (nx P) s, cut (nx P + ni P) s, cut (nx P + ni P + neq P) s)
  | None => None
  end.
(** hiopKKTLinSysDense.hpp 249-370 with hiopKKTLinSys.cpp 775-908: one update and one direction of hiopKKTLinSysDenseXDYcYd *)
Definition dense_xdycyd (S : dsolver) (P : prob) (it : iter) (e : deltas) (r : resid) : option iter :=
  xdycyd_dir P it r (dense_xdycyd_solve S P (dense_xdycyd_mat P it e)).

(* ---------- mixed dense-sparse ---------- *)
(** hiopMatrixSparseTriplet.cpp addMDinvMtransToDiagBlockOfSymDeMatUTri: M += a*A*D^{-1}*A^T on the upper triangle of a diagonal block; the entry-wise effect is the theorem C26_MDinvMt *)
Definition add_mdm (s m ns : nat) (a : K) (A : mat) (D : vec) (M : mat) : mat :=
  add_upper s m a (fun i j => sumn ns (fun k => A i k /! D k *! A j k)) M.
(** hiopMatrixSparseTriplet.cpp addMDinvNtransToSymDeMatUTri: M += a*A*D^{-1}*B^T on a block above the diagonal; the entry-wise effect is the theorem C26_MDinvNt *)
Definition add_mdn (rs cs m1 m2 ns : nat) (a : K) (A B : mat) (D : vec) (M : mat) : mat :=
  add_trans rs cs m2 m1 a (fun j i => sumn ns (fun k => A i k /! D k *! B j k)) M.
(** mixed problems: nxs sparse variables first, the Hessian of which is diagonal (hiopMatrixMDS.hpp, hiopKKTLinSysMDS.cpp 236-239) *)
Record mds := Mds { d_ns : nat; d_nd : nat; d_neq : nat; d_ni : nat; d_Hs : vec; d_Hd : mat; d_Jcs : mat; d_Jcd : mat; d_Jds : mat; d_Jdd : mat;
  d_ixl : nat -> bool; d_ixu : nat -> bool; d_idl : nat -> bool; d_idu : nat -> bool }.
(** the matrices as the other classes see them: hiopMatrixMDS.hpp timesVec and transTimesVec act on [sparse; dense] parts; hiopMatrixMDS.hpp 68-81 *)
Definition glue (ns : nat) (A B : mat) : mat := fun i j => if j <? ns then A i j else B i (j - ns).
(** the problem a mixed dense-sparse problem stands for: hiopMatrixMDS.hpp (hiopMatrixSymBlockDiagMDS, hiopMatrixMDS); hiopMatrixMDS.hpp 68-81, 310-323 *)
Definition mds_prob (D : mds) : prob :=
  Prob (d_ns D + d_nd D) (d_neq D) (d_ni D)
    (fun i j => if i <? d_ns D then (if i =? j then d_Hs D i else f0) else if j <? d_ns D then f0 else d_Hd D (i - d_ns D) (j - d_ns D))
    (glue (d_ns D) (d_Jcs D) (d_Jcd D)) (glue (d_ns D) (d_Jds D) (d_Jdd D)) (d_ixl D) (d_ixu D) (d_idl D) (d_idu D).
(** hiopKKTLinSysMDS.cpp 222-239: Hxs_ *)
Definition mds_hxs (D : mds) (it : iter) (e : deltas) : vec := fun i => barrier_x (mds_prob D) it i +! e_wx e i +! d_Hs D i.
(** hiopKKTLinSysMDS.cpp 172-305 hiopKKTLinSysCompressedMDSXYcYd::build_kkt_matrix *)
Definition mds_mat (D : mds) (it : iter) (e : deltas) : mat :=
  let ns := d_ns D in let nd := d_nd D in let neq := d_neq D in let ni := d_ni D in let P := mds_prob D in
  let Hxs := mds_hxs D it e in
  let M := add_upper 0 nd f1 (d_Hd D) zero_mat in
  let M := add_trans 0 nd neq nd f1 (d_Jcd D) M in
  let M := add_trans 0 (nd + neq) ni nd f1 (d_Jdd D) M in
  let M := add_diag 0 nd f1 (cut ns (barrier_x P it)) M in
  let M := add_diag 0 nd f1 (cut ns (e_wx e)) M in
  let M := add_mdm nd neq ns (fopp f1) (d_Jcs D) Hxs M in
  let M := add_diag nd neq (fopp f1) (e_cc e) M in
  let M := add_mdm (nd + neq) ni ns (fopp f1) (d_Jds D) Hxs M in
  let M := add_mdn nd (nd + neq) neq ni ns (fopp f1) (d_Jcs D) (d_Jds D) Hxs M in
  let M := add_diag (nd + neq) ni (fopp f1) (dd_inv P it e) M in
  add_diag (nd + neq) ni (fopp f1) (e_cd e) M.
(** hiopKKTLinSysMDS.cpp 307-397 hiopKKTLinSysCompressedMDSXYcYd::solveCompressed *)
Definition mds_solve (S : dsolver) (D : mds) (it : iter) (e : deltas) (M : mat) (rx ryc ryd : vec) : option (vec * vec * vec) :=
  let ns := d_ns D in let nd := d_nd D in
  let Hxs := mds_hxs D it e in
  let rxs := fun i => rx i /! Hxs i in
  let ryc := fun i => ryc i -! mv ns (d_Jcs D) rxs i in
  let ryd := fun i => ryd i -! mv ns (d_Jds D) rxs i in
  match S (nd + d_neq D + d_ni D) M (put nd (cut ns rx) (put (d_neq D) ryc ryd)) with
  | Some s =>
    let dyc := cut nd s in let dyd := cut (nd + d_neq D) s in
    let dxs := fun i => (rx i -! tmv (d_neq D) (d_Jcs D) dyc i -! tmv (d_ni D) (d_Jds D) dyd i) /! Hxs i in
    Some (put ns dxs s, dyc, dyd)
  | None => None
  end.
(** hiopKKTLinSysMDS.cpp 113-397 with hiopKKTLinSys.cpp 585-692: one update and one direction of hiopKKTLinSysCompressedMDSXYcYd *)
Definition mds_xycyd (S : dsolver) (D : mds) (it : iter) (e : deltas) (r : resid) : option iter :=
  xycyd_dir (mds_prob D) it r (dd_inv (mds_prob D) it e) (mds_solve S D it e (mds_mat D it e)).

(* ---------- the operator and the residual ---------- *)
(** hiopKKTLinSys.cpp 1619-1735 hiopMatVecKKTFullOpr::times_vec *)
Definition full_op (P : prob) (it : iter) (e : deltas) (w : iter) : resid :=
  Resid
    (fun i => mv (nx P) (p_H P) (w_x w) i +! e_wx e i *! w_x w i +! tmv (neq P) (p_Jc P) (w_yc w) i +! tmv (ni P) (p_Jd P) (w_yd w) i -! w_zl w i +! w_zu w i)
    (fun i => f0 -! w_yd w i -! w_vl w i +! w_vu w i +! e_wd e i *! w_d w i)
    (fun i => mv (nx P) (p_Jc P) (w_x w) i -! e_cc e i *! w_yc w i)
    (fun i => mv (nx P) (p_Jd P) (w_x w) i -! w_d w i -! e_cd e i *! w_yd w i)
    (select (ixl P) (fun i => w_sxl w i -! w_x w i)) (select (ixu P) (fun i => w_sxu w i +! w_x w i))
    (select (idl P) (fun i => w_sdl w i -! w_d w i)) (select (idu P) (fun i => w_sdu w i +! w_d w i))
    (fun i => w_sxl it i *! w_zl w i +! w_zl it i *! w_sxl w i) (fun i => w_sxu it i *! w_zu w i +! w_zu it i *! w_sxu w i)
    (fun i => w_sdl it i *! w_vl w i +! w_vl it i *! w_sdl w i) (fun i => w_sdu it i *! w_vu w i +! w_vu it i *! w_sdu w i).
(** hiopKKTLinSys.cpp 1754-1885 hiopMatVecKKTFullOpr::trans_times_vec *)
Definition full_op_trans (P : prob) (it : iter) (e : deltas) (w : iter) : resid :=
  Resid
    (fun i => mv (nx P) (p_H P) (w_x w) i +! e_wx e i *! w_x w i +! tmv (neq P) (p_Jc P) (w_yc w) i +! tmv (ni P) (p_Jd P) (w_yd w) i -! w_zl w i +! w_zu w i)
    (fun i => f0 -! w_yd w i -! w_vl w i +! w_vu w i +! e_wd e i *! w_d w i)
    (fun i => mv (nx P) (p_Jc P) (w_x w) i -! e_cc e i *! w_yc w i)
    (fun i => mv (nx P) (p_Jd P) (w_x w) i -! w_d w i -! e_cd e i *! w_yd w i)
    (select (ixl P) (fun i => f0 -! w_x w i +! w_sxl it i *! w_sxl w i)) (select (ixu P) (fun i => w_x w i +! w_sxu it i *! w_sxu w i))
    (select (idl P) (fun i => f0 -! w_d w i +! w_sdl it i *! w_sdl w i)) (select (idu P) (fun i => w_d w i +! w_sdu it i *! w_sdu w i))
    (fun i => w_zl w i +! w_zl it i *! w_sxl w i) (fun i => w_zu w i +! w_zu it i *! w_sxu w i)
    (fun i => w_vl w i +! w_vl it i *! w_sdl w i) (fun i => w_vu w i +! w_vu it i *! w_sdu w i).

(** what hiopResidual::update reads besides the iterate: gradient, constraint bodies, right-hand side, bounds, mu; hiopResidual.cpp 102-303 *)
Record nlpvals := Vals { v_grad : vec; v_c : vec; v_d : vec; v_crhs : vec; v_xl : vec; v_xu : vec; v_dl : vec; v_du : vec; v_mu : K;
  v_dampx : vec; (** what addNonLogBarTermsToGrad_x adds, hiopLogBarProblem.hpp *) v_dampd : vec (** the same in d *) }.
(** hiopResidual.cpp 56-83 constructor: every block is set to zero; ryd (70) is not, but every update overwrites it *)
Definition resid0 : resid := let z := fun _ => f0 in Resid z z z z z z z z z z z z.
(** hiopResidual.cpp 154-351 hiopResidual::update, the vectors; [old] holds the vectors before (blocks without bounds are left alone; the constructor 56-83 zeroes them) *)
Definition resid_update (P : prob) (v : nlpvals) (it : iter) (old : resid) : resid :=
  let nxl := count (nx P) (ixl P) in let nxu := count (nx P) (ixu P) in
  let ndl := count (ni P) (idl P) in let ndu := count (ni P) (idu P) in
  let sel (c n : nat) (p : nat -> bool) (w : vec) := if c <? n then select p w else w in
  let mu1 (p : nat -> bool) (w : vec) := fun i => if p i then w i +! v_mu v else w i in
  Resid
    (fun i => fopp (v_grad v i +! tmv (neq P) (p_Jc P) (w_yc it) i +! tmv (ni P) (p_Jd P) (w_yd it) i -! w_zl it i +! w_zu it i +! v_dampx v i))
    (fun i => w_yd it i +! w_vl it i -! w_vu it i -! v_dampd v i)
    (fun i => v_crhs v i -! v_c v i)
    (fun i => w_d it i -! v_d v i)
    (if 0 <? nxl then sel nxl (nx P) (ixl P) (fun i => w_x it i -! w_sxl it i -! v_xl v i) else r_xl old)
    (if 0 <? nxu then sel nxu (nx P) (ixu P) (fun i => v_xu v i -! w_x it i -! w_sxu it i) else r_xu old)
    (if 0 <? ndl then select (idl P) (fun i => w_d it i -! w_sdl it i -! v_dl v i) else r_dl old)
    (if 0 <? ndu then select (idu P) (fun i => v_du v i -! w_sdu it i -! w_d it i) else r_du old)
    (if 0 <? nxl then mu1 (ixl P) (sel nxl (nx P) (ixl P) (fun i => f0 -! w_sxl it i *! w_zl it i)) else r_szl old)
    (if 0 <? nxu then mu1 (ixu P) (sel nxu (nx P) (ixu P) (fun i => f0 -! w_sxu it i *! w_zu it i)) else r_szu old)
    (if 0 <? ndl then mu1 (idl P) (sel ndl (ni P) (idl P) (fun i => f0 -! w_sdl it i *! w_vl it i)) else r_svl old)
    (if 0 <? ndu then mu1 (idu P) (sel ndu (ni P) (idu P) (fun i => f0 -! w_sdu it i *! w_vu it i)) else r_svu old).
End Kkt.
Arguments w_x {_}. Arguments w_d {_}. Arguments w_yc {_}. Arguments w_yd {_}. Arguments w_sxl {_}. Arguments w_sxu {_}.
Arguments w_sdl {_}. Arguments w_sdu {_}. Arguments w_zl {_}. Arguments w_zu {_}. Arguments w_vl {_}. Arguments w_vu {_}.
Arguments r_x {_}. Arguments r_d {_}. Arguments r_yc {_}. Arguments r_yd {_}. Arguments r_xl {_}. Arguments r_xu {_}.
Arguments r_dl {_}. Arguments r_du {_}. Arguments r_szl {_}. Arguments r_szu {_}. Arguments r_svl {_}. Arguments r_svu {_}.
Arguments nx {_}. Arguments neq {_}. Arguments ni {_}. Arguments p_H {_}. Arguments p_Jc {_}. Arguments p_Jd {_}.
Arguments ixl {_}. Arguments ixu {_}. Arguments idl {_}. Arguments idu {_}.
Arguments e_wx {_}. Arguments e_wd {_}. Arguments e_cc {_}. Arguments e_cd {_}.
Arguments v_grad {_}. Arguments v_c {_}. Arguments v_d {_}. Arguments v_crhs {_}. Arguments v_xl {_}. Arguments v_xu {_}.
Arguments v_dl {_}. Arguments v_du {_}. Arguments v_mu {_}. Arguments v_dampx {_}. Arguments v_dampd {_}.
Arguments d_ns {_}. Arguments d_nd {_}. Arguments d_neq {_}. Arguments d_ni {_}. Arguments d_Hs {_}. Arguments d_Hd {_}.
Arguments d_Jcs {_}. Arguments d_Jcd {_}. Arguments d_Jds {_}. Arguments d_Jdd {_}.
Arguments d_ixl {_}. Arguments d_ixu {_}. Arguments d_idl {_}. Arguments d_idu {_}.
