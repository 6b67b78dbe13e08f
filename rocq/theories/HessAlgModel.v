(** The limited-memory quasi-Newton matrix, the part that solves and multiplies with it:
    src/Optimization/hiopHessianLowRank.cpp.  Exact arithmetic (any field), one MPI rank.  A primal
    vector of the (fixed) dimension n is a function on indices; St_ and Yt_ are lists of rows, L_ and D_
    the arrays kept by [HessModel.store].  Loops that accumulate from 0 are written [sumn]. *)
From Coq Require Import List Bool Arith.
From Verif Require Import RingKit.
From Verif Require Import PackModel HessModel.
Import ListNotations.

Section Alg.
Variable K : cfield.
Variable n : nat.
Notation vec := (nat -> K).

(** dotProductWith, and a row of Yt_ times a vector; hiopVectorPar.cpp 480-497 *)
Definition vdot (a b : vec) : K := sumn n (fun p => a p *! b p).
(** row i of a matrix; hiopMatrixDenseRowMajor.hpp 245 (M_[i]) *)
Definition row (M : list vec) (i : nat) : vec := nth i M (fun _ => f0).
(** hiopHessianLowRank.cpp 221-234 updateLogBarrierDiagonal: DhInv *)
Definition dhinv (sigma : K) (Dx : vec) : vec := fun p => f1 /! (sigma +! Dx p).
(** hiopHessianLowRank.cpp 1079-1116, 1119-1154: entry (i,j) of X*d*Z^T, as the inner loop accumulates it *)
Definition xdz (d : vec) (a b : vec) : K := sumn n (fun p => a p *! d p *! b p).

(** hiopHessianLowRank.cpp 400-485 updateInternalBFGSRepresentation (no MPI): the 2l x 2l array V_ before it is
    factorized; [old] is what the block that is never written holds *)
Definition vmat (sigma : K) (Dh : vec) (m : mem vec K) (old : nat -> nat -> K) (i j : nat) : K :=
  let l := length (m_S m) in
  let B0Dh := fun p => sigma *! Dh p in
  let theDiag := fun p => sigma *! (B0Dh p -! f1) in
  if i <? l then
    if j <? l then xdz theDiag (row (m_S m) i) (row (m_S m) j)
    else xdz B0Dh (row (m_S m) i) (row (m_Y m) (j - l)) -! nth (i * l + (j - l)) (m_L m) f0
  else
    if j <? l then old i j
    else xdz Dh (row (m_Y m) (i - l)) (row (m_Y m) (j - l)) +! (if i =? j then nth (i - l) (m_D m) f0 else f0).
(** the symmetric matrix LAPACK sees (hiopHessianLowRank.cpp 646 uplo='L': only entries on and above the diagonal of the row-major array are read) *)
Definition upper (M : nat -> nat -> K) (i j : nat) : K := if i <=? j then M i j else M j i.

(** solveWithV, hiopHessianLowRank.cpp 677-727: the factorized solve, a parameter *)
Variable solveV : nat -> (nat -> nat -> K) -> vec -> vec.

(** right-hand side of the solve with V, hiopHessianLowRank.cpp 508-520: [S^T*B0*DhInv*res; Y^T*DhInv*res] *)
Definition vrhs (sigma : K) (Dh : vec) (m : mem vec K) (res : vec) : vec :=
  let x := fun p => res p *! Dh p in
  let B0x := fun p => sigma *! x p in
  let l := length (m_S m) in
  fun i => if i <? l then vdot (row (m_S m) i) B0x else vdot (row (m_Y m) (i - l)) x.
(** hiopHessianLowRank.cpp 495-540 solve *)
Definition hsolve (sigma : K) (Dh : vec) (m : mem vec K) (old : nat -> nat -> K) (res : vec) : vec :=
  let l := length (m_S m) in
  let z := if l =? 0 then vrhs sigma Dh m res else solveV (2 * l) (upper (vmat sigma Dh m old)) (vrhs sigma Dh m res) in
  let result := fun p => (sigma *! sumn l (fun i => row (m_S m) i p *! z i) +! sumn l (fun i => row (m_Y m) i p *! z (l + i))) *! Dh p in
  fun p => res p *! Dh p -! result p.
(** hiopHessianLowRank.cpp 549-630 symMatTimesInverseTimesMatTrans: entry (i,j) of the k x k result.  The first
    product writes both triangles from the upper one. *)
Definition sym_times_inv (sigma : K) (Dh : vec) (m : mem vec K) (old : nat -> nat -> K) (beta : K) (W : nat -> nat -> K) (alpha : K) (X : nat -> vec) (i j : nat) : K :=
  let l := length (m_S m) in
  let W1 := if i <=? j then beta *! W i j +! alpha *! xdz Dh (X i) (X j) else beta *! W j i +! alpha *! xdz Dh (X j) (X i) in
  let S1 := fun a b => xdz (fun p => sigma *! Dh p) (X a) (row (m_S m) b) in
  let Y1 := fun a b => xdz Dh (X a) (row (m_Y m) b) in
  let rhs := fun a b => if b <? l then S1 a b else Y1 a (b - l) in
  let S2Y2 := fun a => if l =? 0 then rhs a else solveV (2 * l) (upper (vmat sigma Dh m old)) (rhs a) in
  W1 +! (f0 -! alpha) *! sumn l (fun b => S1 i b *! S2Y2 j b) +! (f0 -! alpha) *! sumn l (fun b => Y1 i b *! S2Y2 j (l + b)).

(** the memory after the pairs qs were accepted one after the other, hiopHessianLowRank.cpp 307-329 (exact products);
    [junk] is what a freshly allocated L holds before it is written *)
Definition remember (junk : K) (lmax : nat) (qs : list (vec * vec)) : option (mem vec K) :=
  ofold (fun q m => store vec K f0 junk vdot lmax (fst q) (snd q) (vdot (fst q) (snd q)) m) qs mem0.

(** sqrt, [s^T*y < epsilon] and epsilon, for hiopHessianLowRank.cpp 974-1059 *)
Variables (sq : K -> K) (small : K -> bool) (eps : K).
(** hiopHessianLowRank.cpp 1001-1036: the vectors a_k and b_k, built one after the other (here the list of the pairs (a_k,b_k) so far) *)
Definition ab_next (sigma : K) (done : list (vec * vec)) (s y : vec) : vec * vec :=
  let sTy := vdot y s in
  let sTy := if small sTy then eps else sTy in
  let b := fun p => f1 /! sq sTy *! y p in
  let a0 := fun p => sigma *! s p in
  let a1 := fold_left (fun (a : vec) (q : vec * vec) => fun p => a p +! vdot (snd q) s *! snd q p +! (f0 -! vdot (fst q) s) *! fst q p) done a0 in
  let a := fun p => f1 /! sq (vdot a1 s) *! a1 p in
  (a, b).
(** hiopHessianLowRank.cpp 1001-1036: the loop over the stored pairs *)
Definition ab_all (sigma : K) (ps : list (vec * vec)) : list (vec * vec) :=
  fold_left (fun done q => done ++ [ab_next sigma done (fst q) (snd q)]) ps [].
(** hiopHessianLowRank.cpp 974-1059 timesVecCmn with addLogTerm: y = beta*y + alpha*(B+Dx)*x *)
Definition times_vec (sigma : K) (Dx : vec) (m : mem vec K) (beta : K) (y : vec) (alpha : K) (x : vec) : vec :=
  let abs := ab_all sigma (combine (m_S m) (m_Y m)) in
  let y0 := fun p => beta *! y p +! alpha *! x p *! Dx p +! alpha *! sigma *! x p in
  fold_left (fun (w : vec) (q : vec * vec) => fun p => w p +! alpha *! vdot (snd q) x *! snd q p +! (f0 -! alpha *! vdot (fst q) x) *! fst q p) abs y0.
End Alg.
