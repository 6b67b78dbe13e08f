(** Model of /repo/src/LinAlg/hiopLinSolverSymSparseMA57.cpp and .hpp: the wrapper around the MA57
    routines for triplet matrices and for CSR matrices.  The Fortran routines are not modelled: what
    MA57BD answers is an oracle and what it is given is the result of the model.  Matrix values are
    elements of a field; the workspace sizes are computed with binary64 as in the code.  A failed
    assert and an access outside an array give [None]. *)
From Coq Require Import List Bool Arith ZArith.
From Verif Require Import RingKit PackModel SparseModel CsrModel FloatBase.
Import ListNotations.

(** * The matrix handed to MA57 *)
Section Handed.
Variable K : cfield.

(** hiopLinSolverSymSparseMA57.hpp 294-300 and 317-321: the loop over one CSR row, keeping the entries
    with [r>=j_colidx[itnz]] *)
Definition low_row (r : nat) (l : list (nat * K)) : list (nat * K) := filter (fun p => fst p <=? r) l.
(** the two nested loops, hiopLinSolverSymSparseMA57.hpp 293-301 and 316-322: 1-based row, 1-based column, value *)
Fixpoint low_rows (r : nat) (rows : list (list (nat * K))) : list (entry K) :=
  match rows with
  | [] => []
  | l :: t => map (fun p => (S r, S (fst p), snd p)) (low_row r l) ++ low_rows (S r) t
  end.
(** hiopLinSolverSymSparseMA57.hpp 244-250: the same loops counting the entries *)
Fixpoint low_count (r : nat) (rows : list (list (nat * K))) : nat :=
  match rows with [] => 0 | l :: t => length (low_row r l) + low_count (S r) t end.

(** the members that matter for what MA57 is given: n_, nnz_, irowM_/jcolM_ ([None] = nullptr, that is,
    before the first factorization) and values_ (hiopLinSolverSymSparseMA57.hpp 175-182 and 334) *)
Record wrap := Wrap { w_n : nat; w_nnz : nat; w_idx : option (list (nat * nat)); w_val : list K }.

(** hiopLinSolverSymSparseMA57.hpp 233-252, constructor of the CSR class.  The content of the new array
    values_ is never read before it is written: it is left empty *)
Definition new_csr_wrap (A : csr K) : option wrap :=
  match crows A with Some rows => Some (Wrap (c_m A) (low_count 0 rows) None []) | None => None end.
(** hiopLinSolverSymSparseMA57.cpp 7-13, constructor of the triplet class *)
Definition new_trip_wrap (n nnz : nat) : wrap := Wrap n nnz None [].

(** asserts of hiopLinSolverSymSparseMA57.cpp 80-82, 109-111 and 188-190 *)
Definition checks (w : wrap) (m n nnz : nat) : bool :=
  (w_n w =? n) && (n =? m) && (w_nnz w <=? nnz) && (0 <? w_n w).

(** what one MA57BD or MA57DD call is given: combine irowM_, jcolM_ and the values, nnz_ of each
    (hiopLinSolverSymSparseMA57.cpp 97, 127 and 223-241) *)
Definition handed (idx : list (nat * nat)) (vals : list K) : list (entry K) := combine idx vals.

(** hiopLinSolverSymSparseMA57.cpp 107-127 [matrixChanged] up to the MA57BD call for the CSR class: the
    indices are filled at the first call only (115-117, 84-89), the values at every call (123-124;
    hiopLinSolverSymSparseMA57.hpp 268-324 with the asserts 302 and 323) *)
Definition fact_csr (w : wrap) (A : csr K) : option (wrap * list (entry K)) :=
  if checks w (c_m A) (c_n A) (c_nnz A) then
    match crows A with
    | Some rows =>
        let l := low_rows 0 rows in
        if length l =? w_nnz w then
          let idx := match w_idx w with None => map fst l | Some i => i end in
          Some (Wrap (w_n w) (w_nnz w) (Some idx) (map snd l), handed idx (map snd l))
        else None
    | None => None
    end
  else None.
(** hiopLinSolverSymSparseMA57.cpp 186-241 [solve] up to the MA57DD call for the CSR class: the values are
    those of values_ (hiopLinSolverSymSparseMA57.hpp 327-330).  Before the first factorization the index
    pointers are null *)
Definition solve_csr (w : wrap) (A : csr K) : option (list (entry K)) :=
  if checks w (c_m A) (c_n A) (c_nnz A) then
    match w_idx w with Some idx => Some (handed idx (w_val w)) | None => None end
  else None.

(** [matrixChanged] up to the MA57BD call for the triplet class, hiopLinSolverSymSparseMA57.cpp 107-127 with
    hiopLinSolverSymSparseMA57.hpp 146-167: 1-based indices at the first call, values from the matrix itself.
    MA57 reads nnz_ of them *)
Definition fact_trip (w : wrap) (A : trip K) : option (wrap * list (entry K)) :=
  if checks w (t_m A) (t_n A) (length (t_ent A)) then
    match w_idx w with
    | None =>
        if w_nnz w =? length (t_ent A) then
          let idx := map (fun e => (S (row e), S (col e))) (t_ent A) in
          Some (Wrap (w_n w) (w_nnz w) (Some idx) [], handed idx (map (@val K) (t_ent A)))
        else None
    | Some idx => Some (w, handed idx (firstn (w_nnz w) (map (@val K) (t_ent A))))
    end
  else None.
(** [solve] up to the MA57DD call for the triplet class: the values are those of the matrix at that time
    (hiopLinSolverSymSparseMA57.cpp 186-241, hiopLinSolverSymSparseMA57.hpp 156-159) *)
Definition solve_trip (w : wrap) (A : trip K) : option (list (entry K)) :=
  if checks w (t_m A) (t_n A) (length (t_ent A)) then
    match w_idx w with Some idx => Some (handed idx (firstn (w_nnz w) (map (@val K) (t_ent A)))) | None => None end
  else None.

(** calls on the solver and on its matrix: the matrix is changed by its owner, then matrixChanged or
    solve are called (hiopKKTLinSysSparseCondensed.cpp 324-345 and hiopLinSolverSymSparseMA57.cpp 107, 186) *)
Inductive op (M : Type) := Update (A : M) | Factor | Solve.
(** what was given to MA57: to MA57BD (hiopLinSolverSymSparseMA57.cpp 127) or to MA57DD (223-241) *)
Inductive event := Fact (l : list (entry K)) | Sol (l : list (entry K)).
(** a sequence of calls (hiopLinSolverSymSparseMA57.cpp 107-252); [fact] and [sol] are those of the class *)
Fixpoint runs {M} (fact : wrap -> M -> option (wrap * list (entry K))) (sol : wrap -> M -> option (list (entry K)))
  (w : wrap) (A : M) (ops : list (op M)) : option (list event) :=
  match ops with
  | [] => Some []
  | Update _ B :: t => runs fact sol w B t
  | Factor _ :: t => match fact w A with Some (w', l) => option_map (cons (Fact l)) (runs fact sol w' A t) | None => None end
  | Solve _ :: t => match sol w A with Some l => option_map (cons (Sol l)) (runs fact sol w A t) | None => None end
  end.
End Handed.
Arguments Update {_}. Arguments Factor {_}. Arguments Solve {_}.
Arguments Fact {_}. Arguments Sol {_}. Arguments runs {_ _}.
Arguments Wrap {_}. Arguments w_n {_}. Arguments w_nnz {_}. Arguments w_idx {_}. Arguments w_val {_}.
Arguments low_row {_}. Arguments low_rows {_}. Arguments low_count {_}. Arguments new_csr_wrap {_}. Arguments new_trip_wrap {_}.
Arguments fact_csr {_}. Arguments solve_csr {_}. Arguments fact_trip {_}. Arguments solve_trip {_}. Arguments handed {_}. Arguments checks {_}.

(** * The factorization loop *)
Local Open Scope Z_scope.
(** the entries of info_ read after MA57BD: info_[0], info_[16], info_[17], info_[23]
    (hiopLinSolverSymSparseMA57.cpp 129, 136, 149 and 178) *)
Record info := Info { i_code : Z; i_real : Z; i_int : Z; i_neg : Z }.
(** 1.05 (hiopLinSolverSymSparseMA57.cpp 45-46): the quotient 105/100 rounded to nearest is the literal *)
Definition f_105 : b64 := fdiv (fofZ 105) (fofZ 100).
(** the C++ conversion [(int) x]: truncation, undefined outside the range of int
    (hiopLinSolverSymSparseMA57.cpp 99, 102, 136 and 149) *)
Definition to_int (x : b64) : option Z :=
  match x with
  | S754_zero _ => Some 0
  | S754_finite s m e =>
      let a := if 0 <=? e then Z.pos m * 2 ^ e else Z.pos m / 2 ^ (- e) in
      let z := if s then - a else a in
      if (-2147483648 <=? z) && (z <=? 2147483647) then Some z else None
  | _ => None
  end.
(** the new size [(int)(info_[16]*rpessimism_)], hiopLinSolverSymSparseMA57.cpp 99, 102, 136 and 149 *)
Definition grow (k : Z) : option Z := to_int (fmul (fofZ k) f_105).

(** how [matrixChanged] ends: return value with the number of MA57BD calls and the final workspace sizes
    (hiopLinSolverSymSparseMA57.cpp 174-183), a failed assert (167), undefined behaviour or a negative array
    size (136-137, 149-150), or not within the given number of MA57BD calls *)
Inductive outcome := Return (calls : nat) (lr li : Z) (neg : Z) | Abort | Undefined | Running.
(** the loop hiopLinSolverSymSparseMA57.cpp 126-169 and the result 174-183.  [bd c lr li] is what the
    c-th MA57BD call answers with workspaces of sizes lfact_ = [lr] and lifact_ = [li]; [dbg] is true when
    asserts are compiled in; MA57ED, which copies the partial factors, is not modelled *)
Fixpoint loop (dbg : bool) (bd : nat -> Z -> Z -> info) (fuel : nat) (c : nat) (lr li : Z) : outcome :=
  match fuel with
  | O => Running
  | S f =>
      let a := bd c lr li in
      if i_code a =? 0 then Return (S c) lr li (i_neg a)
      else if i_code a =? -3 then
        match grow (i_real a) with Some l => if l <? 0 then Undefined else loop dbg bd f (S c) l li | None => Undefined end
      else if i_code a =? -4 then
        match grow (i_int a) with Some l => if l <? 0 then Undefined else loop dbg bd f (S c) lr l | None => Undefined end
      else if i_code a =? 4 then Return (S c) lr li (-1)
      else if dbg then Abort
      else if 0 <=? i_code a then Return (S c) lr li (i_neg a)
      else loop dbg bd f (S c) lr li
  end.
(** the first factorization: sizes from the forecasts info_[8] and info_[9] of MA57AD
    (hiopLinSolverSymSparseMA57.cpp 97-103) and then the loop *)
Definition first_fact (dbg : bool) (fr fi : Z) (bd : nat -> Z -> Z -> info) (fuel : nat) : outcome :=
  match grow fr, grow fi with
  | Some lr, Some li => if (lr <? 0) || (li <? 0) then Undefined else loop dbg bd fuel 0 lr li
  | _, _ => Undefined
  end.
