(** Model of the vector kernels of /repo/src/LinAlg/hiopVectorPar.cpp and of the routines of
    /repo/src/Optimization/hiopIterate.cpp built directly on them.

    The kernels are written once over a record of arithmetic operations, instantiated with exact
    rationals ([Qar]) and with IEEE binary64 ([Far]).  A local array is a list; arrays walked in
    parallel by one loop index are zipped, and arrays of different length give [None] (the code
    either asserts equality of the lengths or reads out of bounds).  HIOP_DEEPCHECKS assertions
    are not modelled (they are off in release builds). *)
From Coq Require Import List Bool QArith Qabs Qminmax ZArith.
From Verif Require Import FloatBase MuModel.
Import ListNotations.

(** the operations of C++ [double] used by the kernels; no counterpart line in /repo; used by hiopVectorPar.cpp 480-1310 *)
Record arith := Arith {
  car :> Type;
  azero : car; aone : car;
  asmall : car;                       (* numeric_limits<double>::min()*100, hiopVectorPar.cpp 980 *)
  amaxv : car;                        (* numeric_limits<double>::max() *)
  aadd : car -> car -> car; asub : car -> car -> car;
  amul : car -> car -> car; adiv : car -> car -> car; aopp : car -> car;
  aabs : car -> car; afmin : car -> car -> car; afmax : car -> car -> car;
  alt : car -> car -> bool; ale : car -> car -> bool; aeq : car -> car -> bool }.

(** exact rationals: [double] without rounding, overflow and NaN; the comparisons of hiopVectorPar.cpp 900-1110 *)
Definition Qltb (x y : Q) : bool := negb (Qle_bool y x).
(** numeric_limits<double>::min()*100, hiopVectorPar.cpp 980 *)
Definition Q_small : Q := 100 # (2 ^ 1022)%positive.
(** numeric_limits<double>::max(), hiopVectorPar.cpp 802-815 *)
Definition Q_maxv : Q := inject_Z ((2 ^ 53 - 1) * 2 ^ 971).
(** the exact reading of the kernels of hiopVectorPar.cpp 480-1310 *)
Definition Qar : arith :=
  Arith Q 0%Q 1%Q Q_small Q_maxv Qplus Qminus Qmult Qdiv Qopp Qabs Qmin Qmax Qltb Qle_bool Qeq_bool.

(** IEEE binary64; 100*DBL_MIN = 25 * 2^-1020 exactly *)
Definition f_small_double : b64 := binary_normalize 53 1024 25 (-1020) false.
(** numeric_limits<double>::max(), hiopVectorPar.cpp 802-815 *)
Definition f_dbl_max : b64 := S754_finite false (2 ^ 53 - 1) 971.
(** the binary64 reading of the kernels of hiopVectorPar.cpp 480-1310 *)
Definition Far : arith :=
  Arith b64 f_zero f_one f_small_double f_dbl_max fadd fsub fmul fdiv fopp fabs fmin fmax flt fle feq.

(** arrays walked by one loop index; e.g. hiopVectorPar.cpp 664-671 *)
Fixpoint zip {A B : Type} (a : list A) (b : list B) : option (list (A * B)) :=
  match a, b with
  | [], [] => Some []
  | x :: a', y :: b' => match zip a' b' with Some l => Some ((x, y) :: l) | None => None end
  | _, _ => None
  end.
(** three arrays walked by one loop index; e.g. hiopVectorPar.cpp 692-705 *)
Definition zip3 {A B C : Type} (a : list A) (b : list B) (c : list C) : option (list (A * B * C)) :=
  match zip a b with Some l => zip l c | None => None end.

Section Kernels.
Variable K : arith.
Local Notation T := (car K).
(** a local array, hiopVectorPar.hpp 331 *)
Definition vec := list T.

(** hiopVectorPar.cpp 1037-1059, body of the loop of [fractionToTheBdry_w_pattern_local]:
    state is [alpha] *)
Definition ftb_step (tau : T) (alpha : T) (e : T * T * T) : T :=
  let '(x, d, p) := e in
  if ale K (azero K) d then alpha
  else if aeq K p (azero K) then alpha
  else let aux := adiv K (amul K (aopp K tau) x) d in
       if alt K aux alpha then aux else alpha.

(** hiopVectorPar.cpp 1037-1059 [fractionToTheBdry_w_pattern_local] *)
Definition ftb_w_pattern (x d : vec) (tau : T) (ix : vec) : option T :=
  match zip3 x d ix with
  | Some l => Some (fold_left (ftb_step tau) l (aone K))
  | None => None
  end.

(** hiopVectorPar.cpp 1117-1148 [adjustDuals_plh], one element: (z, x, ix) gives the new z *)
Definition adj_dual1 (mu kappa : T) (e : T * T * T) : T :=
  let '(z, x, ix) := e in
  if aeq K ix (aone K) then
    let a0 := adiv K mu x in
    let b := adiv K a0 kappa in
    let a := amul K a0 kappa in
    if alt K z b then b
    else if ale K a b then b
    else if alt K a z then a else z
  else z.
(** hiopVectorPar.cpp 1117-1148 [adjustDuals_plh] *)
Definition adjust_duals (z x ix : vec) (mu kappa : T) : option vec :=
  match zip3 z x ix with Some l => Some (map (adj_dual1 mu kappa) l) | None => None end.

(** hiopVectorPar.cpp 966-1012 [projectIntoBounds_local], one element; [None] = the early
    [return false] *)
Definition project1 (k1 k2 : T) (x xl ixl xu ixu : T) : option T :=
  if negb (aeq K ixl (azero K)) && negb (aeq K ixu (azero K)) then
    if alt K xu xl then None
    else
      let aux := asub K (amul K k2 (asub K xu xl)) (asmall K) in
      let lo := aadd K xl (afmin K (amul K k1 (afmax K (aone K) (aabs K xl))) aux) in
      if alt K x lo then Some lo
      else
        let hi := asub K xu (afmin K (amul K k1 (afmax K (aone K) (aabs K xu))) aux) in
        if alt K hi x then Some hi else Some x
  else if negb (aeq K ixl (azero K)) then
    Some (afmax K x (asub K (aadd K xl (amul K k1 (afmax K (aone K) (aabs K xl)))) (asmall K)))
  else if negb (aeq K ixu (azero K)) then
    Some (afmin K x (asub K (asub K xu (amul K k1 (afmax K (aone K) (aabs K xu)))) (asmall K)))
  else Some x.
(** one variable's data: value, lower bound, its indicator, upper bound, its indicator; hiopNlpFormulation.hpp 337 *)
Record bvar := Bvar { b_x : T; b_xl : T; b_ixl : T; b_xu : T; b_ixu : T }.
(** hiopVectorPar.cpp 982-1011, the loop of [projectIntoBounds_local]: returns the array and the
    returned flag; elements after an inconsistent one keep their value *)
Fixpoint project_loop (k1 k2 : T) (l : list bvar) : vec * bool :=
  match l with
  | [] => ([], true)
  | v :: r =>
      match project1 k1 k2 (b_x v) (b_xl v) (b_ixl v) (b_xu v) (b_ixu v) with
      | None => (map b_x l, false)
      | Some x' => let '(xs, ok) := project_loop k1 k2 r in (x' :: xs, ok)
      end
  end.

(** hiopVectorPar.cpp [axpy] (DAXPY): this += alpha*x; hiopVectorPar.cpp 664-671 *)
Definition axpy (y : vec) (alpha : T) (x : vec) : option vec :=
  match zip y x with
  | Some l => Some (map (fun e => aadd K (fst e) (amul K alpha (snd e))) l)
  | None => None
  end.

(** hiopIterate.cpp 414-480 [adjust_small_slacks], what the sequence of whole-vector kernels does
    to one element once the guard [slack_min < small_val] holds.  Each [let] is one kernel call of
    that function, in its order (component_min 612, component_sgn 652, component_max 632,
    setToConstant_w_patternSelect 139, componentDiv_w_selectPattern 578, axpy, componentMult).
    [sf] is [pow(eps,0.75)].  Returns the new slack and whether the element was counted. *)
Definition slack1 (small sf mu : T) (s bound z sel : T) : T * bool :=
  let a1 := if aeq K sel (aone K) then aadd K s (aopp K small) else s in
  let a1 := if alt K (azero K) a1 then azero K else a1 in
  let counted := alt K a1 (azero K) in
  let a1 := if alt K (azero K) a1 then aone K
            else if alt K a1 (azero K) then aopp K (aone K) else azero K in
  let a1 := amul K (aopp K (aone K)) a1 in
  let s := if alt K s (azero K) then azero K else s in
  let a2 := if aeq K sel (aone K) then mu else azero K in
  let a2 := if aeq K sel (azero K) then azero K else adiv K a2 z in
  let a3 := if aeq K sel (aone K) then small else azero K in
  let a2 := if alt K a2 a3 then a3 else a2 in
  let a2 := aadd K a2 (amul K (aopp K (aone K)) s) in
  let a1 := amul K a1 a2 in
  let a1 := aadd K a1 (amul K (aone K) s) in
  let a2 := if aeq K sel (aone K) then aone K else azero K in
  let a3 := aabs K bound in
  let a2 := if alt K a2 a3 then a3 else a2 in
  let a2 := amul K sf a2 in
  let a2 := aadd K a2 (amul K (aone K) s) in
  ((if alt K a2 a1 then a2 else a1), counted).

(** one slack's data; hiopIterate.cpp 414-506 *)
Record slk := Slk { k_s : T; k_b : T; k_z : T; k_sel : T }.

(** hiopVectorPar.cpp 818-835 [min_w_pattern], local part *)
Definition min_w_pattern (l : list slk) : T :=
  fold_left (fun r v => if aeq K (k_sel v) (aone K)
                        then (if alt K r (k_s v) then r else k_s v) else r) l (amaxv K).

(** hiopIterate.cpp 414-480 [adjust_small_slacks]; the slack array after the call and the
    returned count. [eps] = numeric_limits<double>::epsilon(). [gmin] is the all-reduced minimum
    (hiopVectorPar.cpp 829-833): every rank sees the same one. *)
Definition adjust_small (eps sf mu gmin : T) (l : list slk) : list T * nat :=
  let small := amul K eps (afmin K (aone K) mu) in
  if alt K gmin small then
    (map (fun v => fst (slack1 small sf mu (k_s v) (k_b v) (k_z v) (k_sel v))) l,
     length (filter (fun v => snd (slack1 small sf mu (k_s v) (k_b v) (k_z v) (k_sel v))) l))
  else (map k_s l, 0%nat).

(** hiopNlpFormulation.cpp 1403-1416 [adjust_bounds], one lower (upper) bound:
    copy_from_w_pattern followed by axpy_w_pattern(-1 / +1) *)
Definition adjust_lower1 (b x s sel : T) : T :=
  let b := if aeq K sel (aone K) then x else b in
  if aeq K sel (aone K) then aadd K b (amul K (aopp K (aone K)) s) else b.
(** hiopNlpFormulation.cpp 1403-1416 [adjust_bounds], one upper bound *)
Definition adjust_upper1 (b x s sel : T) : T :=
  let b := if aeq K sel (aone K) then x else b in
  if aeq K sel (aone K) then aadd K b (amul K (aone K) s) else b.

(** hiopIterate.cpp 274-291 [determineSlacks], one lower (upper) slack *)
Definition lower_slack1 (x b sel : T) : T :=
  let s := aadd K x (amul K (aopp K (aone K)) b) in
  if aeq K sel (azero K) then azero K else s.
(** hiopIterate.cpp 274-291 [determineSlacks], one upper slack *)
Definition upper_slack1 (x b sel : T) : T :=
  let s := aadd K b (amul K (aopp K (aone K)) x) in
  if aeq K sel (azero K) then azero K else s.
End Kernels.

Arguments Bvar {K}. Arguments b_x {K}. Arguments b_xl {K}. Arguments b_ixl {K}.
Arguments b_xu {K}. Arguments b_ixu {K}.
Arguments Slk {K}. Arguments k_s {K}. Arguments k_b {K}. Arguments k_z {K}. Arguments k_sel {K}.

Section Iterate.
Variable K : arith.
Local Notation T := (car K).

(** the eight sign-constrained vectors of an iterate or of a search direction that one rank
    holds (hiopIterate.hpp: sxl sxu sdl sdu zl zu vl vu); hiopIterate.hpp 184-201 *)
Record cone := Cone { c_sxl : list T; c_sxu : list T; c_sdl : list T; c_sdu : list T;
                      c_zl : list T; c_zu : list T; c_vl : list T; c_vu : list T }.
(** the bound indicators ixl ixu idl idu (hiopNlpFormulation); hiopNlpFormulation.hpp 337, 343 *)
Record pats := Pats { p_xl : list T; p_xu : list T; p_dl : list T; p_du : list T }.

(** hiopIterate.cpp 328-355, the part of [fractionToTheBdry] before the MPI reduction.
    [ten] is the literal 10.0 *)
Definition ftb_local_pair (ten : T) (it dir : cone) (p : pats) (tau : T) : option (T * T) :=
  match ftb_w_pattern K (c_sxl it) (c_sxl dir) tau (p_xl p),
        ftb_w_pattern K (c_sxu it) (c_sxu dir) tau (p_xu p),
        ftb_w_pattern K (c_sdl it) (c_sdl dir) tau (p_dl p),
        ftb_w_pattern K (c_sdu it) (c_sdu dir) tau (p_du p),
        ftb_w_pattern K (c_zl it) (c_zl dir) tau (p_xl p),
        ftb_w_pattern K (c_zu it) (c_zu dir) tau (p_xu p),
        ftb_w_pattern K (c_vl it) (c_vl dir) tau (p_dl p),
        ftb_w_pattern K (c_vu it) (c_vu dir) tau (p_du p) with
  | Some a1, Some a2, Some a3, Some a4, Some b1, Some b2, Some b3, Some b4 =>
      Some (afmin K (afmin K (afmin K (afmin K ten a1) a2) a3) a4,
            afmin K (afmin K (afmin K (afmin K ten b1) b2) b3) b4)
  | _, _, _, _, _, _, _, _ => None
  end.

(** MPI_Allreduce(MPI_MIN) of one value per rank; the reduction order is taken to be the rank
    order (MPI leaves it open; for exact minima it does not matter); hiopVectorPar.cpp 814, 835 *)
Definition mpi_min (x : T) (xs : list T) : T := fold_left (afmin K) xs x.

(** sequence a list of optional values; the per-rank results of hiopIterate.cpp 328-364 *)
Fixpoint all_some {A} (l : list (option A)) : option (list A) :=
  match l with
  | [] => Some []
  | Some a :: r => match all_some r with Some r' => Some (a :: r') | None => None end
  | None :: _ => None
  end.

(** hiopIterate.cpp 328-364 [fractionToTheBdry] on a communicator: one (iterate, direction,
    patterns) triple per rank; result = the pair every rank gets.  A communicator has at least one
    rank. *)
Definition ftb_all (ten tau : T) (ranks : list (cone * cone * pats)) : option (T * T) :=
  match all_some (map (fun r => ftb_local_pair ten (fst (fst r)) (snd (fst r)) (snd r) tau) ranks) with
  | Some ((a, b) :: rest) => Some (mpi_min a (map fst rest), mpi_min b (map snd rest))
  | _ => None
  end.
End Iterate.
Arguments Cone {K}. Arguments c_sxl {K}. Arguments c_sxu {K}. Arguments c_sdl {K}.
Arguments c_sdu {K}. Arguments c_zl {K}. Arguments c_zu {K}. Arguments c_vl {K}. Arguments c_vu {K}.
Arguments Pats {K}. Arguments p_xl {K}. Arguments p_xu {K}. Arguments p_dl {K}. Arguments p_du {K}.

(** hiopIterate.cpp 414-480 [adjust_small_slacks] on a communicator: the guard uses the minimum
    over all ranks (hiopVectorPar.cpp 829-833), the returned count is summed over the ranks
    (numOfElemsLessThan, hiopVectorPar.cpp 1226-1243) *)
Definition adjust_small_all (K : arith) (eps sf mu : car K) (ranks : list (list (slk K)))
  : list (list (car K)) * nat :=
  match map (min_w_pattern K) ranks with
  | [] => ([], 0%nat)
  | g :: gs =>
      let r := map (adjust_small K eps sf mu (mpi_min K g gs)) ranks in
      (map fst r, fold_right Nat.add 0%nat (map snd r))
  end.
