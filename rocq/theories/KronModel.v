(** Complex sparse matrices in triplet form, their slices, and the Kron reduction
    of an admittance matrix.

    Code modelled:
    - /repo/src/LinAlg/hiopMatrixSparseTripletStorage.hpp 52-126;
    - /repo/src/LinAlg/hiopMatrixComplexSparseTriplet.cpp 95-463 (transTimesMat
      and the three slices);
    - /repo/src/LinAlg/hiopMatrixComplexDense.cpp 118-166, 254-278;
    - /repo/src/LinAlg/hiopLinSolverUMFPACKZ.cpp 53-254;
    - /repo/src/Utils/hiopKronReduction.cpp.

    [std::complex<double>] is an arbitrary field (no rounding).  Matrix indices
    are natural numbers.  A dense matrix is a function of row and column with its
    dimensions kept aside.  A failed assert or an access outside an array is
    [None]. *)
From Coq Require Import List Bool Arith Lia.
From Verif Require Import RingKit.
Import ListNotations.
Open Scope nat_scope.

Section Kron.
Variable K : cfield.

(** One stored element: irow, jcol, values (hiopMatrixSparseTripletStorage.hpp
    137-141). *)
Definition ent := (nat * nat * K)%type.

(** A sparse matrix: nrows, ncols and the elements in storage order
    (hiopMatrixSparseTripletStorage.hpp 137-141). *)
Record smat := SM { sm_m : nat; sm_n : nat; sm_e : list ent }.

(** The comparison of sort_indexes (hiopMatrixSparseTripletStorage.hpp 56-60). *)
Definition before (a b : ent) : bool :=
  let '(i1, j1, _) := a in let '(i2, j2, _) := b in
  if i1 <? i2 then true else if i2 <? i1 then false else j1 <? j2.

(** sort_indexes (hiopMatrixSparseTripletStorage.hpp 52-92) by insertion; the code
    calls std::sort, whose result differs only in the order of elements with the
    same position, and the theorem on assembling covers every such order. *)
Fixpoint insert_ent (a : ent) (l : list ent) : list ent :=
  match l with
  | [] => [a]
  | b :: r => if before b a then b :: insert_ent a r else a :: l
  end.
(** sort_indexes (hiopMatrixSparseTripletStorage.hpp 52-92), the whole list *)
Definition sort_indexes (l : list ent) : list ent := fold_right insert_ent [] l.

(** sum_up_duplicates (hiopMatrixSparseTripletStorage.hpp 94-125).  [ci], [cj] and
    [acc] are currI, currJ and values[itleft]; the list is what is right of
    itright.  The code writes its result into the same arrays, only at positions
    left of itright, so reading ahead is not disturbed. *)
Fixpoint sum_from (ci cj : nat) (acc : K) (l : list ent) : list ent :=
  match l with
  | [] => [(ci, cj, acc)]
  | (i, j, v) :: r =>
      if (i =? ci) && (j =? cj) then sum_from ci cj (acc +! v) r
      else (ci, cj, acc) :: sum_from i j v r
  end.
(** sum_up_duplicates (hiopMatrixSparseTripletStorage.hpp 94-125), from the first entry *)
Definition sum_up_duplicates (l : list ent) : list ent :=
  match l with
  | [] => []
  | (i, j, v) :: r => sum_from i j v r
  end.

(** [while(src_itnz<src_nnz && src_i[src_itnz]<row) src_itnz++]
    (hiopMatrixComplexSparseTriplet.cpp 160, 205 and the same loops of the other
    slices); the position is kept as the remaining list. *)
Fixpoint skip_rows (row : nat) (l : list ent) : list ent :=
  match l with
  | [] => []
  | (i, j, v) :: r => if i <? row then skip_rows row r else l
  end.

(** [while(src_itnz<src_nnz && src_i==row && src_j<col) src_itnz++]
    (hiopMatrixComplexSparseTriplet.cpp 172, 211). *)
Fixpoint skip_cols (row col : nat) (l : list ent) : list ent :=
  match l with
  | [] => []
  | (i, j, v) :: r => if (i =? row) && (j <? col) then skip_cols row col r else l
  end.

(** The loop over the columns wanted in one row (hiopMatrixComplexSparseTriplet.cpp
    208-227): [cs] lists the destination index and the column; columns passed over
    by [continue] (262, 341) are not in the list.  Result: the elements found,
    with their destination index, and the remaining source. *)
Fixpoint scan_cols (row : nat) (cs : list (nat * nat)) (l : list ent)
  : list (nat * K) * list ent :=
  match cs with
  | [] => ([], l)
  | (kj, col) :: r =>
      let l1 := skip_cols row col l in
      match l1 with
      | (i, j, v) :: t =>
          if (i =? row) && (j =? col) then
            let '(out, l2) := scan_cols row r t in ((kj, v) :: out, l2)
          else scan_cols row r l1
      | [] => scan_cols row r l1
      end
  end.

(** The loop over the rows wanted (hiopMatrixComplexSparseTriplet.cpp 202-228);
    [colsof ki row] lists the columns the inner loop visits for that row. *)
Fixpoint scan_rows (rs : list (nat * nat)) (colsof : nat -> nat -> list (nat * nat))
         (l : list ent) : list ent :=
  match rs with
  | [] => []
  | (ki, row) :: r =>
      let '(out, l2) := scan_cols row (colsof ki row) (skip_rows row l) in
      map (fun p => (ki, fst p, snd p)) out ++ scan_rows r colsof l2
  end.

(** Destination index and source index (hiopMatrixComplexSparseTriplet.cpp 202-209:
    [ki], [row_idxs[ki]]). *)
Definition labelled (l : list nat) : list (nat * nat) := combine (seq 0 (length l)) l.

(** The asserts on an index list (hiopMatrixComplexSparseTriplet.cpp 152-158,
    164-171): below the bound and increasing. *)
Fixpoint increasing (l : list nat) : bool :=
  match l with
  | a :: ((b :: _) as r) => (a <? b) && increasing r
  | _ => true
  end.
(** both asserts (hiopMatrixComplexSparseTriplet.cpp 152-158, 164-171) *)
Definition idx_ok (bound : nat) (l : list nat) : bool :=
  forallb (fun a => a <? bound) l && increasing l.

(** new_slice (hiopMatrixComplexSparseTriplet.cpp 140-229).  The counting pass
    (148-182) runs the same loops as the filling pass, so its count is the length
    of the result and the assert of 227 compares equal numbers.  The column
    asserts sit inside the loop over rows. *)
Definition new_slice (A : smat) (rows cols : list nat) : option smat :=
  if idx_ok (sm_m A) rows && ((length rows =? 0) || idx_ok (sm_n A) cols) then
    Some (SM (length rows) (length cols)
             (sort_indexes (scan_rows (labelled rows) (fun _ _ => labelled cols) (sm_e A))))
  else None.

(** new_sliceFromSymToSym (hiopMatrixComplexSparseTriplet.cpp 392-463): the inner
    loop starts at [ki]. *)
Definition new_slice_sym_sym (A : smat) (idxs : list nat) : option smat :=
  if idx_ok (sm_m A) idxs && ((length idxs =? 0) || forallb (fun a => a <? sm_n A) idxs) then
    Some (SM (length idxs) (length idxs)
             (scan_rows (labelled idxs) (fun ki _ => skipn ki (labelled idxs)) (sm_e A)))
  else None.

(** The passes of new_sliceFromSym over the upper triangle: counting
    (hiopMatrixComplexSparseTriplet.cpp 242-281, columns from 0) and filling
    (326-357, columns from [ki]); in both a column left of the row is skipped. *)
Definition sym_pass1_count (l : list ent) (rows cols : list nat) : nat :=
  length (scan_rows (labelled rows)
            (fun _ row => filter (fun p => row <=? snd p) (labelled cols)) l).
(** the filling pass (hiopMatrixComplexSparseTriplet.cpp 326-357) *)
Definition sym_pass1 (l : list ent) (rows cols : list nat) : list ent :=
  scan_rows (labelled rows)
    (fun ki row => filter (fun p => row <=? snd p) (skipn ki (labelled cols))) l.

(** The passes over the lower triangle (hiopMatrixComplexSparseTriplet.cpp 284-316
    and 359-386): the roles of rows and columns are exchanged and diagonal
    positions skipped. *)
Definition sym_pass2 (l : list ent) (rows cols : list nat) : list ent :=
  map (fun e => let '(kj, ki, v) := e in (ki, kj, v))
    (scan_rows (labelled cols)
       (fun _ row => filter (fun p => row <? snd p) (labelled rows)) l).

(** new_sliceFromSym (hiopMatrixComplexSparseTriplet.cpp 233-389): storage for the
    number of elements counted; the elements found come first, the rest of the
    storage is not written ([None] here) and takes part in the final sorting,
    which is modelled only when there is no such rest. *)
Definition new_slice_sym (A : smat) (rows cols : list nat) : option (nat * nat * list (option ent)) :=
  if idx_ok (sm_m A) rows &&
     ((length rows =? 0) || idx_ok (sm_n A) cols) &&
     forallb (fun a => a <? sm_m A) cols &&
     ((length cols =? 0) || forallb (fun a => a <? sm_n A) rows) then
    let n := sym_pass1_count (sm_e A) rows cols + length (sym_pass2 (sm_e A) rows cols) in
    let es := sym_pass1 (sm_e A) rows cols ++ sym_pass2 (sm_e A) rows cols in
    if length es <=? n then
      if length es =? n then Some (length rows, length cols, map Some (sort_indexes es))
      else Some (length rows, length cols, map Some es ++ repeat None (n - length es))
    else None
  else None.

(** hiopMatrixComplexSparseTriplet::timesVec (hiopMatrixComplexSparseTriplet.cpp
    63-89) with beta 0: the result starts at zero and gathers the elements. *)
Definition stimes_vec (A : smat) (alpha : K) (x : nat -> K) : option (nat -> K) :=
  ofold (fun (e : ent) (y : nat -> K) =>
           let '(i, j, v) := e in
           if (i <? sm_m A) && (j <? sm_n A)
           then Some (fun k => if k =? i then y k +! alpha *! x j *! v else y k)
           else None)
        (sm_e A) (fun _ => f0).

(** A dense matrix: dimensions and entries (hiopMatrixComplexDense.hpp).  hiopMatrixComplexDense.hpp 240-242. *)
Record dmat := DM { dm_m : nat; dm_n : nat; dm_f : nat -> nat -> K }.

(** One row update of transTimesMat (hiopMatrixComplexSparseTriplet.cpp 131-136):
    [W[jcol][j] += aux * X[irow][j]] for all columns [j]. *)
Definition ttm_step (alpha : K) (X : dmat) (e : ent) (W : dmat) : option dmat :=
  let '(i, j, v) := e in
  if (i <? dm_m X) && (j <? dm_m W) then
    Some (DM (dm_m W) (dm_n W)
             (fun r c => if (r =? j) && (c <? dm_n X)
                         then dm_f W r c +! alpha *! v *! dm_f X i c else dm_f W r c))
  else None.

(** transTimesMat with beta 0 (hiopMatrixComplexSparseTriplet.cpp 91-137). *)
Definition trans_times_mat (A : smat) (W : dmat) (alpha : K) (X : dmat) : option dmat :=
  if (sm_m A =? dm_m X) && (sm_n A =? dm_m W) && (dm_n W =? dm_n X) then
    ofold (ttm_step alpha X) (sm_e A) (DM (dm_m W) (dm_n W) (fun _ _ => f0))
  else None.

(** addSparseMatrix (hiopMatrixComplexDense.cpp 254-278), alpha not zero. *)
Definition add_sparse (W : dmat) (alpha : K) (X : smat) : option dmat :=
  if (dm_m W =? dm_n W) && (sm_m X =? sm_n X) && (dm_m W =? sm_m X) then
    ofold (fun (e : ent) (W : dmat) =>
             let '(i, j, v) := e in
             if (i <? dm_m W) && (j <? dm_n W) then
               Some (DM (dm_m W) (dm_n W)
                        (fun r c => if (r =? i) && (c =? j) then dm_f W r c +! alpha *! v
                                    else dm_f W r c))
             else None)
          (sm_e X) W
  else None.

(** negate (hiopMatrixComplexDense.cpp 121-125). *)
Definition negate (X : dmat) : dmat := DM (dm_m X) (dm_n X) (fun r c => fopp (dm_f X r c)).

(** The search for element (row, col) in row order (hiopLinSolverUMFPACKZ.cpp
    207-231): skip earlier rows, skip earlier columns of this row, take the
    element or zero.  Result: the remaining list and the right-hand side entry. *)
Definition find_from (row col : nat) (l : list ent) : list ent * K :=
  let l1 := skip_cols row col (skip_rows row l) in
  match l1 with
  | (i, j, v) :: _ => if (i =? row) && (j =? col) then (l1, v) else (l1, f0)
  | [] => (l1, f0)
  end.

(** The loop over rows for one column (hiopLinSolverUMFPACKZ.cpp 200-232), rows
    [row .. row+n-1]; each row starts where the previous row stopped
    (idxsB_col[row] = idxsB_col[row-1]). *)
Fixpoint gather (n row col : nat) (l : list ent) : list K :=
  match n with
  | O => []
  | S n' => let '(l1, v) := find_from row col l in v :: gather n' (S row) col l1
  end.

(** One column: row 0 starts where row 0 of the previous column stopped
    (idxsB_col[0] is the only index that survives, hiopLinSolverUMFPACKZ.cpp
    194-203). *)
Definition gather_col (n col : nat) (l0 : list ent) : list K * list ent :=
  match n with
  | O => ([], l0)
  | S n' => let '(l1, v) := find_from 0 col l0 in (v :: gather n' 1 col l1, l1)
  end.

(** The solver of one system with the factorized matrix: umfpack_zi_solve
    (hiopLinSolverUMFPACKZ.cpp 236-240), [None] for a negative status. *)
Definition lsolver := list ent -> list K -> option (list K).

(** hiopLinSolverUMFPACKZ::solve(B, X) (hiopLinSolverUMFPACKZ.cpp 172-254): columns
    [col .. col+k-1] of [X] are overwritten; on a failure the columns already
    solved stay and false is returned. *)
Fixpoint solve_cols (sol : lsolver) (Ybb : smat) (k col : nat) (l0 : list ent) (X : dmat)
  : dmat * bool :=
  match k with
  | O => (X, true)
  | S k' =>
      let '(rhs, l1) := gather_col (sm_n Ybb) col l0 in
      match sol (sm_e Ybb) rhs with
      | None => (X, false)
      | Some s =>
          solve_cols sol Ybb k' (S col) l1
            (DM (dm_m X) (dm_n X)
                (fun r c => if (c =? col) && (r <? sm_n Ybb) then nth r s f0 else dm_f X r c))
      end
  end.

(** The asserts and the early returns of the same function
    (hiopLinSolverUMFPACKZ.cpp 174-181). *)
Definition solve_mat (sol : lsolver) (Ybb B : smat) (X : dmat) : option (dmat * bool) :=
  if (dm_n X =? sm_n B) && (sm_n Ybb =? sm_m B) && (sm_n Ybb =? dm_m X) then
    if sm_n Ybb =? 0 then Some (X, true)
    else if dm_n X =? 0 then Some (X, true)
    else Some (solve_cols sol Ybb (dm_n X) 0 (sm_e B) X)
  else None.

(** The reduction object: the matrix map_nonaux_to_aux_ once computed
    (hiopKronReduction.hpp, private members; linsolver_ is NULL between calls).  hiopKronReduction.hpp 101-102. *)
Definition kron := option dmat.

(** hiopKronReduction::go (hiopKronReduction.cpp 19-92).  [fact] is the outcome of
    matrixChanged (hiopLinSolverUMFPACKZ.cpp 53-137), true for nret>=0.  [W] is the
    caller's Ybus_red.  The result of the solve (line 69) is not looked at.
    Result: the object, Ybus_red, and the boolean returned. *)
Definition go (fact : list ent -> bool) (sol : lsolver) (k : kron)
           (nonaux aux : list nat) (Y : smat) (W : dmat) : option (kron * dmat * bool) :=
  match new_slice Y nonaux nonaux, new_slice Y aux aux, new_slice Y aux nonaux with
  | Some Yaa, Some Ybb, Some Yba =>
      if fact (sm_e Ybb) then
        match k with
        | Some _ => None                          (* assert, line 67 *)
        | None =>
            match solve_mat sol Ybb Yba (DM (sm_m Yba) (sm_n Yba) (fun _ _ => f0)) with
            | None => None
            | Some (X, _) =>
                let M := negate X in
                match trans_times_mat Yba W f1 M with
                | None => None
                | Some W1 =>
                    match add_sparse W1 f1 Yaa with
                    | None => None
                    | Some W2 => Some (Some M, W2, true)
                    end
                end
            end
        end
      else Some (k, W, false)
  | _, _, _ => None
  end.

(** hiopMatrixComplexDense::timesVec with beta 0 and alpha 1
    (hiopMatrixComplexDense.cpp 127-166) on the output array [y]: ZGEMV with both
    dimensions positive; without columns ZSCAL scales the first [NN] = 0 entries,
    i.e. none (160-161); without rows nothing. *)
Definition dtimes_vec (M : dmat) (x : nat -> K) (y : nat -> K) : nat -> K :=
  if negb (dm_m M =? 0) && negb (dm_n M =? 0) then
    fun r => if r <? dm_m M then sumn (dm_n M) (fun c => dm_f M r c *! x c) else y r
  else y.

(** apply_nonaux_to_aux (hiopKronReduction.cpp 95-126); [nx], [ny] are the sizes of
    the two vectors. *)
Definition apply_nonaux_to_aux (k : kron) (nx : nat) (x : nat -> K) (ny : nat) (y : nat -> K)
  : option (nat -> K) :=
  match k with
  | None => None
  | Some M => if (nx =? dm_n M) && (ny =? dm_m M) then Some (dtimes_vec M x y) else None
  end.
End Kron.

Arguments SM {K}. Arguments sm_m {K}. Arguments sm_n {K}. Arguments sm_e {K}.
Arguments before {K}. Arguments insert_ent {K}. Arguments sort_indexes {K}.
Arguments sum_from {K}. Arguments sum_up_duplicates {K}.
Arguments skip_rows {K}. Arguments skip_cols {K}. Arguments scan_cols {K}. Arguments scan_rows {K}.
Arguments new_slice {K}. Arguments new_slice_sym_sym {K}. Arguments new_slice_sym {K}.
Arguments sym_pass1_count {K}. Arguments sym_pass1 {K}. Arguments sym_pass2 {K}.
Arguments stimes_vec {K}. Arguments DM {K}. Arguments dm_m {K}. Arguments dm_n {K}. Arguments dm_f {K}.
Arguments ttm_step {K}. Arguments trans_times_mat {K}. Arguments add_sparse {K}. Arguments negate {K}.
Arguments find_from {K}. Arguments gather {K}. Arguments gather_col {K}.
Arguments solve_cols {K}. Arguments solve_mat {K}. Arguments go {K}. Arguments dtimes_vec {K}.
Arguments apply_nonaux_to_aux {K}.
