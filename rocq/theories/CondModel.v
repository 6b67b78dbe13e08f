(** Model of /repo/src/Optimization/hiopKKTLinSysSparseCondensed.cpp (CPU compute mode): assembly of the
    condensed matrix from triplet Hessian and Jacobian through CSR matrices, and the direct solve.
    Doubles are elements of a field; [None] is a failed assert or an access outside an array. *)
From Coq Require Import List Bool Arith.
From Verif Require Import RingKit PackModel SparseModel CsrModel.
Import ListNotations.

(** sequencing of calls that may fail (all functions below); the sequence of calls is hiopKKTLinSysSparseCondensed.cpp 104-343 *)
Definition obind {A B} (a : option A) (f : A -> option B) : option B := match a with Some x => f x | None => None end.
Notation "'do' x <- a ; b" := (obind a (fun x => b)) (at level 200, x name, a at level 100, b at level 200).

Section Cond.
Variable K : cfield.

(** inputs of one call of build_kkt_matrix: HessSp_, Jac_dSp_ (111-131), Dx_, Dd_ and the current
    perturbations delta_wx, delta_wd (105-111) *)
Record kin := Kin { i_h : trip K; i_j : trip K; i_dx : list K; i_dd : list K; i_wx : list K; i_wd : list K }.
(** members JacD_, JacDt_, JtDiagJ_, Hess_upper_csr_, Hess_lower_csr_, Diag_Dx_deltawx_,
    Hess_upper_plus_diag_, Hess_csr_, M_condensed_ and Hd_ (71-84) after a successful call *)
Record cst := Cst { s_jd : csr K; s_jt : csr K; s_jtj : csr K; s_up : csr K; s_lo : csr K; s_dg : csr K;
                    s_ud : csr K; s_hs : csr K; s_m : csr K; s_hd : list K }.
(** [copyFrom] then [axpy(1., y)] (176-177, 214); sizes are asserted by the vector class
    (hiopVectorPar.cpp copyFrom, axpy) *)
Definition vaxpy (a : K) (x y : list K) : option (list K) :=
  if length x =? length y then Some (map (fun p => snd p +! a *! fst p) (combine x y)) else None.
(** [componentMult] (hiopVectorPar.cpp); hiopVectorPar.cpp 564-571 *)
Definition vmul (x y : list K) : option (list K) :=
  if length x =? length y then Some (map (fun p => fst p *! snd p) (combine x y)) else None.
(** alloc, symbolic and numeric sum (277-280, 284-287, 290-292) *)
Definition add_new (J : junk K) (X Y : csr K) : option (csr K) :=
  do M <- add_matrix_alloc K J X Y; do M1 <- add_matrix_symbolic K X M Y; add_matrix_numeric K X M1 f1 Y f1.

(** hiopKKTLinSysSparseCondensed.cpp 103-341.  [st] is [None] on the first call, when every matrix
    pointer and linSys_ are null (determine_and_create_linsys, 453-507, is called at the end of every
    call and never clears linSys_); [J k] is the content of the k-th allocation.  The pointer
    allocations, the copies to the internal memory space (184-211, plain copies in CPU mode), timers
    and the output options are not modelled; the assert on Jac_c (134) concerns an input not passed
    here. *)
Definition cond_build (J : nat -> junk K) (st : option cst) (x : kin) : option cst :=
  if (t_m (i_j x) =? length (i_dd x)) && (t_n (i_h x) =? length (i_dx x)) then
  do hd <- vaxpy f1 (i_wd x) (i_dd x);
  do dxw <- vaxpy f1 (i_wx x) (i_dx x);
  do jj <- match st with
           | None => do a <- form_from_symbolic K (J 0) (null_csr K) (i_j x);
                     do b <- transpose_symbolic_csr K (J 1) (null_csr K) a; Some (a, b)
           | Some s => Some (s_jd s, s_jt s)
           end;
  do jd <- form_from_numeric K (fst jj) (i_j x);
  do jt <- transpose_numeric_csr K (snd jj) jd;
  do p0 <- match st with
           | None => do a <- times_mat_alloc K (J 2) jt jd; times_mat_symbolic K jt a jd
           | Some s => Some (s_jtj s)
           end;
  do jds <- scale_rows K jd hd;
  do p <- times_mat_numeric K jt f0 p0 f1 jds;
  match st with
  | None =>
      do u0 <- form_from_symbolic K (J 3) (null_csr K) (i_h x);
      do u <- form_from_numeric K u0 (i_h x);
      do l0 <- transpose_symbolic_csr K (J 4) (null_csr K) u;
      do l <- transpose_numeric_csr K l0 u;
      do uz <- set_diagonal K u f0;
      if c_nnz l =? c_nnz uz then
      do d0 <- diag_symbolic K (J 5) (null_csr K) (length dxw);
      do d <- diag_numeric K d0 dxw;
      do ud <- add_new (J 6) uz d;
      do hs <- add_new (J 7) l ud;
      do m <- add_new (J 8) hs p;
      Some (Cst jds jt p uz l d ud hs m hd)
      else None
  | Some s =>
      do u <- form_from_numeric K (s_up s) (i_h x);
      do l <- transpose_numeric_csr K (s_lo s) u;
      do uz <- set_diagonal K u f0;
      do d <- diag_numeric K (s_dg s) dxw;
      do ud <- add_matrix_numeric K uz (s_ud s) f1 d f1;
      do hs <- add_matrix_numeric K l (s_hs s) f1 ud f1;
      do m <- add_matrix_numeric K hs (s_m s) f1 p f1;
      Some (Cst jds jt p uz l d ud hs m hd)
  end
  else None.

(** consecutive calls on one object, starting from null pointers; hiopKKTLinSys.cpp 316-374 [factorize] calls build_kkt_matrix once per regularization *)
Definition cond_builds (J : nat -> nat -> junk K) (xs : list kin) : option (option cst) :=
  ofold (fun p st => do s <- cond_build (J (fst p)) st (snd p); Some (Some s)) (combine (seq 0 (length xs)) xs) None.

(** hiopKKTLinSysSparseCondensed.cpp 345-396 [solve_compressed_direct]; [solver] stands for
    linSys_->solve on M_condensed_ ([None] = returned false) *)
Definition cond_solve (solver : csr K -> list K -> option (list K)) (s : cst) (Jd : trip K)
    (rx rd ryd : list K) : option (list K * list K * list K) :=
  do a <- vmul ryd (s_hd s);
  do b <- vaxpy f1 rd a;
  do rhs <- trans_times_vec K Jd f1 rx f1 b;
  do dx <- solver (s_m s) rhs;
  do dd <- times_vec K Jd (fopp f1) ryd f1 dx;
  do c <- vmul dd (s_hd s);
  do dyd <- vaxpy (fopp f1) rd c;
  Some (dx, dd, dyd).
End Cond.
Arguments Kin {_}. Arguments i_h {_}. Arguments i_j {_}. Arguments i_dx {_}. Arguments i_dd {_}. Arguments i_wx {_}. Arguments i_wd {_}.
Arguments Cst {_}. Arguments s_jd {_}. Arguments s_jt {_}. Arguments s_jtj {_}. Arguments s_up {_}. Arguments s_lo {_}.
Arguments s_dg {_}. Arguments s_ud {_}. Arguments s_hs {_}. Arguments s_m {_}. Arguments s_hd {_}.
