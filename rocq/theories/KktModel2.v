(** The KKT systems, continued: the quasi-Newton reduced system, the normal equations and the sparse triplet
    systems.  src/Optimization/hiopKKTLinSys.cpp, hiopKKTLinSysSparseNormalEqn.cpp, hiopKKTLinSysSparse.cpp.
    Exact arithmetic (any field), one MPI rank, host memory. *)
From Coq Require Import List Bool Arith.
From Verif Require Import RingKit KktModel.
From Verif Require Import PackModel HessModel HessAlgModel SparseModel SparseSpec.
Import ListNotations.

Section Kkt2.
Variable K : cfield.
Notation vec := (nat -> K).
Notation mat := (nat -> nat -> K).

(* ---------- quasi-Newton ---------- *)
(** hiopKKTLinSys.cpp 1127-1129: J = [Jc; Jd] *)
Definition lr_jac (P : prob K) : nat -> vec := fun i => if i <? neq P then p_Jc P i else p_Jd P (i - neq P).
(** no regularization is used with the quasi-Newton system (hiopKKTLinSys.cpp 1057-1100) *)
Definition no_deltas : deltas K := Deltas K (fun _ => f0) (fun _ => f0) (fun _ => f0) (fun _ => f0).
(** hiopKKTLinSys.cpp 1131-1136: N = J*(H+Dx)^{-1}*J^T, plus Dd^{-1} on its second diagonal block; [Wold] is what N held *)
Definition lr_mat (solveV : nat -> mat -> vec -> vec) (P : prob K) (it : iter K) (sigma : K) (m : mem vec K) (old : mat) (Wold : mat) : mat :=
  add_diag K (neq P) (ni P) f1 (dd_inv K P it no_deltas)
    (sym_times_inv K (nx P) solveV sigma (dhinv K sigma (barrier_x K P it)) m old f0 Wold f1 (lr_jac P)).
(** hiopKKTLinSys.cpp 1110-1190 hiopKKTLinSysLowRank::solveCompressed; [S] is solveWithRefin *)
Definition lr_solve (solveV : nat -> mat -> vec -> vec) (S : dsolver K) (P : prob K) (it : iter K) (sigma : K) (m : mem vec K) (old : mat) (Wold : mat)
    (rx ryc ryd : vec) : option (vec * vec * vec) :=
  let Dh := dhinv K sigma (barrier_x K P it) in
  let mm := neq P + ni P in
  let dx0 := hsolve K (nx P) solveV sigma Dh m old rx in
  let rhs := fun i => fopp f1 *! KktModel.put K (neq P) ryc ryd i +! mv K (nx P) (lr_jac P) dx0 i in
  match S mm (lr_mat solveV P it sigma m old Wold) rhs with
  | Some s =>
    let dx := hsolve K (nx P) solveV sigma Dh m old (fun j => rx j -! tmv K mm (lr_jac P) s j) in
    Some (dx, cut K 0 s, cut K (neq P) s)
  | None => None
  end.
(** hiopKKTLinSys.cpp 1057-1190 and 585-692: one update and one direction of hiopKKTLinSysLowRank *)
Definition lowrank (solveV : nat -> mat -> vec -> vec) (S : dsolver K) (P : prob K) (it : iter K) (sigma : K) (m : mem vec K) (old : mat) (Wold : mat) (r : resid K) : option (iter K) :=
  xycyd_dir K P it r (dd_inv K P it no_deltas) (lr_solve solveV S P it sigma m old Wold).

(* ---------- normal equations ---------- *)
(** hiopKKTLinSysSparseNormalEqn.cpp 275-297: [Jc 0; Jd -I] *)
Definition ne_jac (P : prob K) : mat := fun i j =>
  if i <? neq P then (if j <? nx P then p_Jc P i j else f0)
  else (if j <? nx P then p_Jd P (i - neq P) j else if j - nx P =? i - neq P then fopp f1 else f0).
(** what hiopKKTLinSysSparseNormalEqn keeps between builds: JacD_ and Hess_diag_ of the first build, JDiagJt_, M_normaleqn_, Hx_, Hd_ (hiopKKTLinSysSparseNormalEqn.hpp); hiopKKTLinSysSparseNormalEqn.hpp 112-158 *)
Record nstate := NState { n_first : option (mat * vec); n_jdj : mat; n_mat : mat; n_hx : vec; n_hd : vec }.
(** hiopKKTLinSysSparseNormalEqn.cpp 118-370 build_kkt_matrix; [dual] is get_curr_delta_type()==DualUpdate.  The
    CSR objects are the subject of C46 and C47; here their matrices. *)
Definition ne_build (P : prob K) (it : iter K) (e : deltas K) (dual : bool) (st : nstate) : nstate :=
  let first := match n_first st with Some f => f | None => (ne_jac P, fun i => p_H P i i) end in
  let J := fst first in let Hdiag := snd first in
  let Hx := fun i => barrier_x K P it i +! e_wx e i +! Hdiag i in
  let Hd := fun i => barrier_d K P it i +! e_wd e i in
  let inv := fun k => f1 /! KktModel.put K (nx P) Hx Hd k in
  let W := if dual then n_jdj st else fun i j => sumn (nx P + ni P) (fun k => J i k *! (inv k *! J j k)) in
  NState (Some first) W (fun i j => W i j +! (if i =? j then KktModel.put K (neq P) (e_cc e) (e_cd e) i else f0)) Hx Hd.
(** hiopKKTLinSys.cpp 1987-2101 hiopKKTLinSysNormalEquation::computeDirections with hiopKKTLinSysSparseNormalEqn.cpp 427-486 solveCompressed *)
Definition ne_dir (S : dsolver K) (P : prob K) (it : iter K) (r : resid K) (st : nstate) : option (iter K) :=
  let rx := rx_tilde K P it r in let rd := rd_tilde K P it r in
  let xw := fun i => rx i /! n_hx st i in
  let ryc := fun i => fopp f1 *! r_yc r i +! mv K (nx P) (p_Jc P) xw i in
  let dw := fun i => rd i /! n_hd st i in
  let ryd := fun i => fopp f1 *! r_yd r i +! mv K (nx P) (p_Jd P) xw i -! dw i in
  match S (neq P + ni P) (n_mat st) (KktModel.put K (neq P) ryc ryd) with
  | Some s =>
    let dyc := cut K 0 s in let dyd := cut K (neq P) s in
    let dx := fun i => (rx i -! tmv K (neq P) (p_Jc P) dyc i -! tmv K (ni P) (p_Jd P) dyd i) /! n_hx st i in
    let dd := fun i => (rd i +! dyd i) /! n_hd st i in
    Some (full_space K P it r dx dd dyc dyd)
  | None => None
  end.
(** successive builds: every update and every refactorization calls build_kkt_matrix (hiopKKTLinSys.cpp factorize); hiopKKTLinSys.cpp 316-374, 1941 *)
Definition ne_builds (bs : list (prob K * iter K * deltas K * bool)) (st : nstate) : nstate :=
  fold_left (fun s b => match b with (P, it, e, dual) => ne_build P it e dual s end) bs st.
(** hiopPDPerturbation.cpp 515-548 hiopPDPerturbationDualFirstScalar::compute_perturb_wrong_inertia: what get_curr_delta_type()
    answers after it; the last call, set_delta_curr_vec(DualUpdate) in 542, also follows a change of the primal regularization (530-539) *)
Definition df_reports_dual : bool := true.
(** a new object: nothing built; [junk] stands for uninitialized values (hiopKKTLinSysSparseNormalEqn.cpp 69-96) *)
Definition ne_new (junk : mat) (jv : vec) : nstate := NState None junk junk jv jv.

(* ---------- sparse triplet systems ---------- *)
(** sparse problems: triplet Hessian (one triangle) and Jacobians, patterns as vectors (hiopKKTLinSysSparse.cpp 98-105) *)
Record sprob := SProb { s_H : trip K; s_Jc : trip K; s_Jd : trip K; s_ixl : list bool; s_ixu : list bool; s_idl : list bool; s_idu : list bool }.
(** the problem a sparse problem stands for; products with the matrices are the theorems C24 *)
Definition sp_prob (Q : sprob) : prob K :=
  Prob K (t_n (s_H Q)) (t_m (s_Jc Q)) (t_m (s_Jd Q)) (symmat (t_ent (s_H Q))) (SparseSpec.mat (t_ent (s_Jc Q))) (SparseSpec.mat (t_ent (s_Jd Q)))
    (fun i => nth i (s_ixl Q) false) (fun i => nth i (s_ixu Q) false) (fun i => nth i (s_idl Q) false) (fun i => nth i (s_idu Q) false).
(** the array behind a vector (hiopVectorPar.hpp data_); hiopVectorPar.hpp 331 *)
Definition lv (n : nat) (v : vec) : list K := map v (seq 0 n).
(** hiopMatrixSparseTriplet.cpp setToZero: the values; indices stay; hiopMatrixSparseTriplet.cpp 43-53 *)
Definition zero_vals (M : trip K) : trip K := Trip (t_m M) (t_n M) (map (fun en => (fst en, f0)) (t_ent M)).
(** sequencing of calls that may run out of bounds or fail an assert; the sequence of calls is hiopKKTLinSysSparse.cpp 91-420, 421-866 *)
Definition obind {A B} (o : option A) (f : A -> option B) : option B := match o with Some a => f a | None => None end.

(** hiopKKTLinSysSparse.cpp 166-175: Dd_inv_, from the values it had before *)
Definition sp_ddi (P : prob K) (it : iter K) (e : deltas K) (old : vec) : vec := fun i =>
  f1 /! axdz K f1 (axdz K f1 (fun i => old i +! e_wd e i) (w_vl it) (w_sdl it) (idl P)) (w_vu it) (w_sdu it) (idu P) i +! e_cd e i.
(** hiopKKTLinSysSparse.cpp 91-203 hiopKKTLinSysCompressedSparseXYcYd::build_kkt_matrix; [Msys] is the linear solver's
    matrix, of nnz entries (107-110) *)
Definition sp_xycyd_mat (Q : sprob) (it : iter K) (e : deltas K) (Ddi : vec) (Msys : trip K) : option (trip K) :=
  let P := sp_prob Q in let n := nx P in let q := neq P in let m := ni P in
  let z1 := length (t_ent (s_H Q)) in let z2 := z1 + length (t_ent (s_Jc Q)) in let z3 := z2 + length (t_ent (s_Jd Q)) in
  obind (copy_rows_block_from K (zero_vals Msys) (s_H Q) 0 n 0 0) (fun M =>
  obind (copy_rows_block_from K M (s_Jc Q) 0 q n z1) (fun M =>
  obind (copy_rows_block_from K M (s_Jd Q) 0 m (n + q) z2) (fun M =>
  obind (copy_sub_diag_from K M 0 n (lv n (fun i => barrier_x K P it i +! e_wx e i)) z3 f1) (fun M =>
  obind (copy_sub_diag_from K M n q (lv q (e_cc e)) (z3 + n) (fopp f1)) (fun M =>
  copy_sub_diag_from K M (n + q) m (lv m Ddi) (z3 + n + q) (fopp f1)))))).
(** a factorized sparse symmetric solve (hiopLinSolverSymSparse::solve), a parameter; it is given the triplets of one triangle; hiopLinSolver.hpp 97 *)
Definition ssolver := nat -> list (entry K) -> vec -> option vec.
(** hiopKKTLinSysSparse.cpp 205-270 solveCompressed *)
Definition sp_xycyd_solve (S : ssolver) (P : prob K) (M : trip K) (rx ryc ryd : vec) : option (vec * vec * vec) :=
  match S (nx P + neq P + ni P) (t_ent M) (KktModel.put K (nx P) rx (KktModel.put K (neq P) ryc ryd)) with
  | Some s => Some (cut K 0 s, cut K (nx P) s, cut K (nx P + neq P) s)
  | None => None
  end.
(** one build and one direction of hiopKKTLinSysCompressedSparseXYcYd; [old] is Dd_inv_ before (hiopKKTLinSysSparse.cpp 91-270, hiopKKTLinSys.cpp 585-692) *)
Definition sp_xycyd (S : ssolver) (Q : sprob) (it : iter K) (e : deltas K) (old : vec) (Msys : trip K) (r : resid K) : option (iter K) :=
  let P := sp_prob Q in let Ddi := sp_ddi P it e old in
  obind (sp_xycyd_mat Q it e Ddi Msys) (fun M => xycyd_dir K P it r Ddi (sp_xycyd_solve S P M)).
(** hiopKKTLinSysSparse.cpp 419-519 hiopKKTLinSysCompressedSparseXDYcYd::build_kkt_matrix *)
Definition sp_xdycyd_mat (Q : sprob) (it : iter K) (e : deltas K) (Msys : trip K) : option (trip K) :=
  let P := sp_prob Q in let n := nx P in let q := neq P in let m := ni P in
  let z1 := length (t_ent (s_H Q)) in let z2 := z1 + length (t_ent (s_Jc Q)) in let z3 := z2 + length (t_ent (s_Jd Q)) in
  obind (copy_rows_block_from K (zero_vals Msys) (s_H Q) 0 n 0 0) (fun M =>
  obind (copy_rows_block_from K M (s_Jc Q) 0 q (n + m) z1) (fun M =>
  obind (copy_rows_block_from K M (s_Jd Q) 0 m (n + m + q) z2) (fun M =>
  obind (copy_diag_block K M (fopp f1) (n + m + q) n z3 m) (fun M =>
  obind (copy_sub_diag_from K M 0 n (lv n (fun i => barrier_x K P it i +! e_wx e i)) (z3 + m) f1) (fun M =>
  obind (copy_sub_diag_from K M n m (lv m (fun i => barrier_d K P it i +! e_wd e i)) (z3 + m + n) f1) (fun M =>
  obind (copy_sub_diag_from K M (n + m) q (lv q (e_cc e)) (z3 + m + n + m) (fopp f1)) (fun M =>
  copy_sub_diag_from K M (n + m + q) m (lv m (e_cd e)) (z3 + m + n + m + q) (fopp f1)))))))).
(** hiopKKTLinSysSparse.cpp 521-598 solveCompressed *)
Definition sp_xdycyd_solve (S : ssolver) (P : prob K) (M : trip K) (rx rd ryc ryd : vec) : option (vec * vec * vec * vec) :=
  match S (nx P + ni P + neq P + ni P) (t_ent M) (KktModel.put K (nx P) rx (KktModel.put K (ni P) rd (KktModel.put K (neq P) ryc ryd))) with
  | Some s => Some (cut K 0 s, cut K (nx P) s, cut K (nx P + ni P) s, cut K (nx P + ni P + neq P) s)
  | None => None
  end.
(** one build and one direction of hiopKKTLinSysCompressedSparseXDYcYd (hiopKKTLinSysSparse.cpp 419-598, hiopKKTLinSys.cpp 818-908) *)
Definition sp_xdycyd (S : ssolver) (Q : sprob) (it : iter K) (e : deltas K) (Msys : trip K) (r : resid K) : option (iter K) :=
  let P := sp_prob Q in
  obind (sp_xdycyd_mat Q it e Msys) (fun M => xdycyd_dir K P it r (sp_xdycyd_solve S P M)).

(** the number of bounds a pattern marks (nlp_->n_low(), n_upp(), m_ineq_low(), m_ineq_upp()); hiopNlpFormulation.hpp 240-243 *)
Definition marks (ix : list bool) : nat := length (selected ix).
(** hiopVectorPar.cpp 315-330 copyToStartingAt_w_pattern: the block written; the effect on the arrays is C35 *)
Definition compress (ix : list bool) (v : vec) : vec := fun k => v (nth k (selected ix) 0).
(** hiopVectorPar.cpp 428-455 startingAtCopyToStartingAt_w_pattern: positions that are not marked keep their value *)
Definition expand (ix : list bool) (s : vec) (old : vec) : vec := fun i => if nth i ix false then s (count i (fun j => nth j ix false)) else old i.
(** hiopKKTLinSysSparse.cpp 865-1060 hiopKKTLinSysSparseFull::build_kkt_matrix; Hx, Hd are Hx_ and Hd_ after the axpy 1020-1036 *)
Definition sp_full_mat (Q : sprob) (it : iter K) (e : deltas K) (Hx Hd : vec) (Msys : trip K) : option (trip K) :=
  let P := sp_prob Q in let n := nx P in let q := neq P in let m := ni P in
  let ndl := marks (s_idl Q) in let ndu := marks (s_idu Q) in let nxl := marks (s_ixl Q) in let nxu := marks (s_ixu Q) in
  let n2 := n + q + m in let n3 := n2 + m in let n4 := n3 + ndl + ndu + nxl + nxu in
  let zh := length (t_ent (s_H Q)) in let zc := length (t_ent (s_Jc Q)) in let zd := length (t_ent (s_Jd Q)) in
  let k0 := num_offdiag K (s_H Q) in
  let k1 := k0 + zh in let k2 := k1 + zc in let k3 := k2 + zd in let k4 := k3 + nxl in let k5 := k4 + nxu in
  let k6 := k5 + zc in let k7 := k6 + zd in let k8 := k7 + m in let k9 := k8 + m in let k10 := k9 + ndl in
  let k11 := k10 + ndu in let k12 := k11 + ndl in let k13 := k12 + ndl in let k14 := k13 + ndu in let k15 := k14 + ndu in
  let k16 := k15 + nxl in let k17 := k16 + nxl in let k18 := k17 + nxu in let k19 := k18 + nxu in
  let k20 := k19 + ndl in let k21 := k20 + ndl in let k22 := k21 + ndu in let k23 := k22 + ndu in
  let k24 := k23 + nxl in let k25 := k24 + nxl in let k26 := k25 + nxu in let k27 := k26 + nxu in
  let k28 := k27 + n in let k29 := k28 + m in let k30 := k29 + q in
  obind (copy_submatrix K false (zero_vals Msys) (s_H Q) 0 0 0 true) (fun M =>
  obind (copy_submatrix K true M (s_H Q) 0 0 k0 false) (fun M =>
  obind (copy_submatrix K true M (s_Jc Q) 0 n k1 false) (fun M =>
  obind (copy_submatrix K true M (s_Jd Q) 0 (n + q) k2 false) (fun M =>
  obind (set_const_diag_colpattern K M (fopp f1) 0 (n3 + ndl + ndu) k3 nxl (s_ixl Q)) (fun M =>
  obind (set_const_diag_colpattern K M f1 0 (n3 + ndl + ndu + nxl) k4 nxu (s_ixu Q)) (fun M =>
  obind (copy_submatrix K false M (s_Jc Q) n 0 k5 false) (fun M =>
  obind (copy_submatrix K false M (s_Jd Q) (n + q) 0 k6 false) (fun M =>
  obind (copy_diag_block K M (fopp f1) (n + q) n2 k7 m) (fun M =>
  obind (copy_diag_block K M (fopp f1) n2 (n + q) k8 m) (fun M =>
  obind (set_const_diag_colpattern K M (fopp f1) n2 n3 k9 ndl (s_idl Q)) (fun M =>
  obind (set_const_diag_colpattern K M f1 n2 (n3 + ndl) k10 ndu (s_idu Q)) (fun M =>
  obind (set_const_diag_rowpattern K M (fopp f1) n3 n2 k11 ndl (s_idl Q)) (fun M =>
  obind (copy_diag_block K M f1 n3 n4 k12 ndl) (fun M =>
  obind (set_const_diag_rowpattern K M f1 (n3 + ndl) n2 k13 ndu (s_idu Q)) (fun M =>
  obind (copy_diag_block K M f1 (n3 + ndl) (n4 + ndl) k14 ndu) (fun M =>
  obind (set_const_diag_rowpattern K M (fopp f1) (n3 + ndl + ndu) 0 k15 nxl (s_ixl Q)) (fun M =>
  obind (copy_diag_block K M f1 (n3 + ndl + ndu) (n4 + ndl + ndu) k16 nxl) (fun M =>
  obind (set_const_diag_rowpattern K M f1 (n3 + ndl + ndu + nxl) 0 k17 nxu (s_ixu Q)) (fun M =>
  obind (copy_diag_block K M f1 (n3 + ndl + ndu + nxl) (n4 + ndl + ndu + nxl) k18 nxu) (fun M =>
  obind (copy_diag_w_pattern K M (lv m (w_sdl it)) n4 n3 k19 ndl (s_idl Q)) (fun M =>
  obind (copy_diag_w_pattern K M (lv m (w_vl it)) n4 n4 k20 ndl (s_idl Q)) (fun M =>
  obind (copy_diag_w_pattern K M (lv m (w_sdu it)) (n4 + ndl) (n3 + ndl) k21 ndu (s_idu Q)) (fun M =>
  obind (copy_diag_w_pattern K M (lv m (w_vu it)) (n4 + ndl) (n4 + ndl) k22 ndu (s_idu Q)) (fun M =>
  obind (copy_diag_w_pattern K M (lv n (w_sxl it)) (n4 + ndl + ndu) (n3 + ndl + ndu) k23 nxl (s_ixl Q)) (fun M =>
  obind (copy_diag_w_pattern K M (lv n (w_zl it)) (n4 + ndl + ndu) (n4 + ndl + ndu) k24 nxl (s_ixl Q)) (fun M =>
  obind (copy_diag_w_pattern K M (lv n (w_sxu it)) (n4 + ndl + ndu + nxl) (n3 + ndl + ndu + nxl) k25 nxu (s_ixu Q)) (fun M =>
  obind (copy_diag_w_pattern K M (lv n (w_zu it)) (n4 + ndl + ndu + nxl) (n4 + ndl + ndu + nxl) k26 nxu (s_ixu Q)) (fun M =>
  obind (copy_sub_diag_from K M 0 n (lv n Hx) k27 f1) (fun M =>
  obind (copy_sub_diag_from K M n2 m (lv m Hd) k28 f1) (fun M =>
  obind (copy_sub_diag_from K M n q (lv q (e_cc e)) k29 (fopp f1)) (fun M =>
  obind (copy_sub_diag_from K M (n + q) m (lv m (e_cd e)) k30 (fopp f1)) (fun M =>
  if k30 + m =? length (t_ent Msys) then Some M else None)))))))))))))))))))))))))))))))).
(** hiopKKTLinSysSparse.cpp 1066-1178 hiopKKTLinSysSparseFull::solve, and 1547-1567 of hiopKKTLinSys.cpp; [old] is the direction object before *)
Definition sp_full_solve (S : ssolver) (Q : sprob) (M : trip K) (r : resid K) (old : iter K) : option (iter K) :=
  let P := sp_prob Q in let n := nx P in let q := neq P in let m := ni P in
  let ndl := marks (s_idl Q) in let ndu := marks (s_idu Q) in let nxl := marks (s_ixl Q) in let nxu := marks (s_ixu Q) in
  let n3 := n + q + m + m in let n4 := n3 + ndl + ndu + nxl + nxu in
  let put := KktModel.put K in
  match S (n4 + ndl + ndu + nxl + nxu) (t_ent M)
    (put n (r_x r) (put q (r_yc r) (put m (r_yd r) (put m (r_d r)
      (put ndl (compress (s_idl Q) (r_dl r)) (put ndu (compress (s_idu Q) (r_du r))
      (put nxl (compress (s_ixl Q) (r_xl r)) (put nxu (compress (s_ixu Q) (r_xu r))
      (put ndl (compress (s_idl Q) (r_svl r)) (put ndu (compress (s_idu Q) (r_svu r))
      (put nxl (compress (s_ixl Q) (r_szl r)) (compress (s_ixu Q) (r_szu r))))))))))))) with
  | Some s => Some (Iter K (cut K 0 s) (cut K (n + q + m) s) (cut K n s) (cut K (n + q) s)
      (expand (s_ixl Q) (cut K (n4 + ndl + ndu) s) (w_sxl old)) (expand (s_ixu Q) (cut K (n4 + ndl + ndu + nxl) s) (w_sxu old))
      (expand (s_idl Q) (cut K n4 s) (w_sdl old)) (expand (s_idu Q) (cut K (n4 + ndl) s) (w_sdu old))
      (expand (s_ixl Q) (cut K (n3 + ndl + ndu) s) (w_zl old)) (expand (s_ixu Q) (cut K (n3 + ndl + ndu + nxl) s) (w_zu old))
      (expand (s_idl Q) (cut K n3 s) (w_vl old)) (expand (s_idu Q) (cut K (n3 + ndl) s) (w_vu old)))
  | None => None
  end.
(** one build and one direction of hiopKKTLinSysSparseFull; hx0, hd0 are Hx_ and Hd_ before the build (1025, 1034: axpy into them) *)
Definition sp_full (S : ssolver) (Q : sprob) (it : iter K) (e : deltas K) (hx0 hd0 : vec) (Msys : trip K) (r : resid K) (old : iter K) : option (iter K) :=
  obind (sp_full_mat Q it e (fun i => hx0 i +! e_wx e i) (fun i => hd0 i +! e_wd e i) Msys) (fun M => sp_full_solve S Q M r old).
End Kkt2.
Arguments n_first {_}. Arguments n_jdj {_}. Arguments n_mat {_}. Arguments n_hx {_}. Arguments n_hd {_}.
Arguments s_H {_}. Arguments s_Jc {_}. Arguments s_Jd {_}. Arguments s_ixl {_}. Arguments s_ixu {_}. Arguments s_idl {_}. Arguments s_idu {_}.
