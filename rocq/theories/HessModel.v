(** The limited-memory quasi-Newton matrix, the part that keeps the secant pairs:
    src/Optimization/hiopHessianLowRank.cpp 262-388, 779-868 and the row operations of
    src/LinAlg/hiopMatrixDenseRowMajor.cpp it uses.  L_ is kept as the flat row-major array it is.
    One MPI rank. *)
From Coq Require Import List Bool Arith ZArith.
From Verif Require Import RingKit.
From Verif Require Import FloatBase MuModel PackModel.
Import ListNotations.

(** a loop of array writes [a[dst p] = val p], the values being read from the array as it stands; the loops of hiopHessianLowRank.cpp 779-868 *)
Definition writes {T P : Type} (val : P -> list T -> option T) (dst : P -> nat) (ps : list P) (a : list T) : option (list T) :=
  ofold (fun p b => match val p b with Some v => upd b (dst p) v | None => None end) ps a.
(** the index pairs of the nested loop [for(i=a; i<a+n; i++) for(j=0; j<w(i); j++)]; hiopHessianLowRank.cpp 779-868 *)
Definition pairs_upto (a n : nat) (w : nat -> nat) : list (nat * nat) :=
  flat_map (fun i => map (fun j => (i, j)) (seq 0 (w i))) (seq a n).

Section Mem.
Variables (V T : Type).
(** 0.0, what a fresh array holds, and the product of a row of Yt_ with a vector (Yt_->timesVec) *)
Variables (zero junk : T) (ydot : V -> V -> T).

(** hiopHessianLowRank.cpp 779-806 growL; L has l rows and columns *)
Definition growL (l : nat) (L YTs : list T) : option (list T) :=
  let n := S l in
  let newL := repeat junk (n * n) in
  (* copyBlockFromMatrix(0,0,L) *)
  match writes (fun p _ => nth_error L (fst p * l + snd p)) (fun p => fst p * n + snd p) (pairs_upto 0 l (fun _ => l)) newL with
  | None => None
  | Some a =>
    match writes (fun j _ => nth_error YTs j) (fun j => l * n + j) (seq 0 l) a with
    | None => None
    | Some a => writes (fun (_ : nat) _ => Some zero) (fun i => i * n + l) (seq 0 n) a
    end
  end.
(** hiopHessianLowRank.cpp 808-821 growD *)
Definition growD (D : list T) (sTy : T) : list T := D ++ [sTy].
(** hiopHessianLowRank.cpp 826-859 updateL *)
Definition updateL (l : nat) (L YTs : list T) : option (list T) :=
  match writes (fun p a => nth_error a ((fst p + 1) * l + snd p + 1)) (fun p => fst p * l + snd p) (pairs_upto 1 (l - 2) (fun i => i)) L with
  | None => None
  | Some a =>
    match writes (fun j _ => nth_error YTs (j + 1)) (fun j => (l - 1) * l + j) (seq 0 (l - 1)) a with
    | None => None
    | Some a => upd a ((l - 1) * l + (l - 1)) zero
    end
  end.
(** hiopHessianLowRank.cpp 860-867 updateD *)
Definition updateD (D : list T) (sTy : T) : option (list T) :=
  let l := length D in
  match writes (fun i a => nth_error a (i + 1)) (fun i => i) (seq 0 (l - 1)) D with
  | None => None
  | Some a => upd a (l - 1) sTy
  end.
(** hiopMatrixDenseRowMajor.cpp 129-137 appendRow; the array has room for cap rows *)
Definition appendRow (cap : nat) (M : list V) (r : V) : option (list V) :=
  if length M <? cap then Some (M ++ [r]) else None.
(** hiopMatrixDenseRowMajor.cpp 238-277 shiftRows(-1) *)
Definition shiftRows1 (M : list V) : option (list V) :=
  if length M <=? 1 then Some M
  else writes (fun i a => nth_error a (i + 1)) (fun i => i) (seq 0 (length M - 1)) M.
(** hiopMatrixDenseRowMajor.cpp 279-284 replaceRow *)
Definition replaceRow (M : list V) (i : nat) (r : V) : option (list V) := upd M i r.

(** St_, Yt_, L_, D_, hiopHessianLowRank.hpp 121-146; l_curr is the number of rows *)
Record mem := Mem { m_S : list V; m_Y : list V; m_L : list T; m_D : list T }.
(** hiopHessianLowRank.cpp 78-86: nothing stored *)
Definition mem0 : mem := Mem [] [] [] [].
(** hiopHessianLowRank.cpp 307-329: a pair is taken into the memory *)
Definition store (lmax : nat) (s y : V) (sTy : T) (m : mem) : option mem :=
  if lmax =? 0 then Some m else
  let l := length (m_S m) in
  let YTs := map (fun r => ydot r s) (m_Y m) in
  if negb (length YTs =? l) then None else
  if l <? lmax then
    match appendRow lmax (m_S m) s, appendRow lmax (m_Y m) y, growL l (m_L m) YTs with
    | Some S', Some Y', Some L' => if length (m_D m) =? l then Some (Mem S' Y' L' (growD (m_D m) sTy)) else None
    | _, _, _ => None
    end
  else
    match shiftRows1 (m_S m), shiftRows1 (m_Y m) with
    | Some S1, Some Y1 =>
      match replaceRow S1 (lmax - 1) s, replaceRow Y1 (lmax - 1) y, updateL l (m_L m) YTs, updateD (m_D m) sTy with
      | Some S', Some Y', Some L', Some D' => Some (Mem S' Y' L' D')
      | _, _, _, _ => None
      end
    | _, _ => None
    end.
End Mem.
Arguments m_S {_ _}. Arguments m_Y {_ _}. Arguments m_L {_ _}. Arguments m_D {_ _}. Arguments Mem {_ _}.
Arguments mem0 {_ _}.

(** literals: 100*epsilon (275), sqrt(epsilon) (301), 1e-8 and 1e8 (137-138), 0.5 (352) *)
Definition h_100eps : b64 := S754_finite false 7036874417766400 (-98).
(** sqrt(epsilon), hiopHessianLowRank.cpp 305 *)
Definition h_sqrteps : b64 := S754_finite false 4503599627370496 (-78).
(** 1e-8, hiopHessianLowRank.cpp 137 *)
Definition h_min : b64 := S754_finite false 6044629098073146 (-79).
(** 1e8, hiopHessianLowRank.cpp 138 *)
Definition h_max : b64 := S754_finite false 6710886400000000 (-26).
(** 0.5, hiopHessianLowRank.cpp 348 *)
Definition h_half : b64 := S754_finite false 4503599627370496 (-53).
(** -1., hiopHessianLowRank.cpp 262-296 *)
Definition h_m1 : b64 := fofZ (-1).

(** the sigma_update_strategy option, hiopHessianLowRank.cpp 122-135: sty, sty_inv, snrm_ynrm, sty_srnm_ynrm, sigma0 *)
Inductive strategy := Sty | StyInv | SnrmYnrm | StySnrmYnrm | Constant.

Section Upd.
Variables (V W J : Type).
(** kernels on primal vectors, and y + alpha*J^T*w (transTimesVec with beta = 1) *)
Variables (axpy : b64 -> V -> V -> V) (infnorm nrm : V -> b64) (dot ydot : V -> V -> b64) (jt : J -> V -> b64 -> W -> V).
Variables (junk sigma0 : b64) (strat : strategy) (lmax : nat).

(** what one call of update receives: x, the gradient, the Jacobians and the multipliers yc, yd of the iterate; hiopHessianLowRank.cpp 262-296 *)
Record obs := Obs { o_x : V; o_g : V; o_Jc : J; o_Jd : J; o_yc : W; o_yd : W }.
(** the object: the previous arguments (None for l_curr = -1), the memory, sigma; hiopHessianLowRank.hpp 129-167 *)
Record hess := Hess { h_prev : option obs; h_mem : mem V b64; h_sigma : b64 }.
(** hiopHessianLowRank.cpp 78-150 *)
Definition hess0 : hess := Hess None mem0 sigma0.

(** hiopHessianLowRank.cpp 336-358: the new sigma before and after the safeguard *)
Definition sigma_raw (sTy sn yn : b64) : b64 :=
  match strat with
  | Sty => fdiv sTy (fmul sn sn)
  | StyInv => fdiv (fmul yn yn) sTy
  | SnrmYnrm => SFsqrt 53 1024 (fdiv (fdiv (fmul sn sn) yn) yn)
  | StySnrmYnrm => fmul h_half (fadd (fdiv sTy (fmul sn sn)) (fdiv (fmul yn yn) sTy))
  | Constant => sigma0
  end.
(** hiopHessianLowRank.cpp 336-358: after the safeguard *)
Definition sigma_new (sTy sn yn : b64) : b64 := fmax (fmin h_max (sigma_raw sTy sn yn)) h_min.

(** hiopHessianLowRank.cpp 262-388 update *)
Definition update (o : obs) (h : hess) : option hess :=
  match h_prev h with
  | None => Some (Hess (Some o) (h_mem h) (h_sigma h))
  | Some p =>
    let s := axpy h_m1 (o_x p) (o_x o) in
    if fge (infnorm s) h_100eps then
      let y := axpy h_m1 (o_g p) (o_g o) in
      let y := jt (o_Jc o) y f_one (o_yc o) in
      let y := jt (o_Jc p) y h_m1 (o_yc o) in
      let y := jt (o_Jd o) y f_one (o_yd o) in
      let y := jt (o_Jd p) y h_m1 (o_yd o) in
      let sTy := dot s y in
      let sn := nrm s in
      let yn := nrm y in
      if fgt sTy (fmul (fmul sn yn) h_sqrteps) then
        match store V b64 f_zero junk ydot lmax s y sTy (h_mem h) with
        | Some m => Some (Hess (Some o) m (sigma_new sTy sn yn))
        | None => None
        end
      else Some (Hess (Some o) (h_mem h) (h_sigma h))
    else Some (Hess (Some o) (h_mem h) (h_sigma h))
  end.
(** a run: one call of update per iteration (hiopAlgFilterIPM.cpp 1085-1095, 1392-1400) *)
Definition hrun (os : list obs) : option hess := ofold update os hess0.
End Upd.
