(** Model of the triplet to CSR conversion used by the PARDISO and STRUMPACK interfaces:
    hiopMatrixSparseTriplet.cpp 1185-1321 and the value refreshes of hiopLinSolverSparsePARDISO.cpp
    455-461 and hiopLinSolverSparseSTRUMPACK.cpp 392-398.  Doubles are elements of a field; [None] is
    a failed assert or an access outside an array. *)
From Coq Require Import List Bool Arith.
From Verif Require Import RingKit PackModel SparseModel CsrModel CondModel.
Import ListNotations.

Section Conv.
Variable K : cfield.
(** one slot of the parallel arrays csr_jCol, csr_kVal, index_convert_CSR2Triplet (1240-1251) *)
Definition slot := (nat * K * nat)%type.
(** csr_jCol[p] (1242) *)
Definition s_col (t : slot) : nat := fst (fst t).
(** csr_kVal[p] (1241) *)
Definition s_val (t : slot) : K := snd (fst t).
(** index_convert_CSR2Triplet[p] (1250) *)
Definition s_idx (t : slot) : nat := snd t.

(** the counting loop 1213-1226: number of slots per row (csr_kRowPtr[1..n] before summation),
    diag_defined ([None] = -1) and extra_diag_nnz_map_temp (keyed by the row; only looked up) *)
Definition count_step (ke : nat * entry K) (st : list nat * list (option nat) * list (option nat)) :
    option (list nat * list (option nat) * list (option nat)) :=
  let '(w, dd, ex) := st in
  let '(k, e) := ke in
  if negb (row e =? col e) then
    do x <- nth_error w (row e); do w' <- upd w (row e) (S x); Some (w', dd, ex)
  else match nth_error dd (row e) with
       | Some None => do dd' <- upd dd (row e) (Some k); do x <- nth_error w (row e); do w' <- upd w (row e) (S x); Some (w', dd', ex)
       | Some (Some _) => do ex' <- upd ex (row e) (Some k); Some (w, dd, ex')
       | None => None
       end.

(** the write of one slot 1268-1280 (1283-1288): [rs r] is nnz_each_row_tmp[r] + csr_kRowPtr[r] *)
Definition write_slot (r : nat) (s : slot) (st : list slot * list nat) : option (nat * (list slot * list nat)) :=
  do p <- nth_error (snd st) r; do a <- upd (fst st) p s; do rs <- upd (snd st) r (S p); Some (p, (a, rs)).
(** the filling loop 1261-1290; [ex] is extra_diag_nnz_map_temp, [tmp] is
    index_convert_extra_Diag2CSR_temp *)
Definition fill_step (vals : list K) (ex : list (option nat)) (ke : nat * entry K)
    (st : (list slot * list nat) * list (option nat) * list (option nat)) :
    option ((list slot * list nat) * list (option nat) * list (option nat)) :=
  let '(ar, dd, tmp) := st in
  let '(k, e) := ke in
  if row e =? col e then
    match nth_error dd (row e) with
    | Some None =>
        do dd' <- upd dd (row e) (Some k);
        do x <- nth_error ex (row e);
        match x with
        | Some k2 => do v2 <- nth_error vals k2;
                     do q <- write_slot (row e) (col e, val e +! v2, k) ar;
                     do tmp' <- upd tmp (row e) (Some (fst q)); Some (snd q, dd', tmp')
        | None => do q <- write_slot (row e) (col e, val e, k) ar; Some (snd q, dd', tmp)
        end
    | Some (Some _) => Some st
    | None => None
    end
  else do q <- write_slot (row e) (col e, val e, k) ar; Some (snd q, dd, tmp).

(** std::find (1309) *)
Fixpoint find_pos (x : nat) (l : list nat) (p : nat) : option nat :=
  match l with [] => None | a :: r => if a =? x then Some p else find_pos x r (S p) end.

(** the result: csr_nnz, the arrays and extra_diag_nnz_map (CSR position, triplet position; keys are
    distinct, so the iteration order of the unordered_map does not matter); outputs of hiopMatrixSparseTriplet.cpp 1185-1321 *)
Record conv := Conv { v_nnz : nat; v_ptr : list nat; v_arr : list slot; v_ext : list (nat * nat) }.

(** one pass of the loop 1293-1316: [srt] is std::sort on the index vector (unstable, so any function
    returning a sorting permutation of the keys); the slices of the rows partition the arrays and are
    permuted in place, [reorder] is hiopCppStdUtils.hpp 79-93.  jCol is sorted by a separate call
    (1303), which gives the columns in the order of the sorting permutation *)
Definition sort_row (srt : list nat -> list nat) (ptr : list nat) (arr : list slot) (ex tmp : list (option nat)) (i : nat)
    : option (list slot * list (nat * nat)) :=
  do a <- nth_error ptr i; do b <- nth_error ptr (S i);
  if (a <=? b) && (b <=? length arr) then
    let sl := firstn (b - a) (skipn a arr) in
    let ind := srt (map s_col sl) in
    do sl' <- omap (fun t => nth_error sl t) ind;
    do t <- nth_error tmp i;
    match t with
    | Some old =>
        do inrow <- nth_error ind (old - a);
        do p <- find_pos inrow ind 0;
        do x <- nth_error ex i;
        match x with Some k2 => Some (sl', [(p + a, k2)]) | None => None end
    | None => Some (sl', [])
    end
  else None.

(** hiopMatrixSparseTriplet.cpp 1185-1319 [convert_to_csr_arrays] on a square matrix with n columns *)
Definition convert (srt : list nat -> list nat) (junk_slot : slot) (A : trip K) : option conv :=
  let n := t_n A in
  let l := combine (seq 0 (length (t_ent A))) (t_ent A) in
  do st <- ofold count_step l (repeat 0 n, repeat None n, repeat None n);
  let '(w, _, ex) := st in
  let ptr := psum 0 w in
  let nnz := last ptr 0 in
  if nnz + length (filter (fun o => match o with Some _ => true | None => false end) ex) =? length (t_ent A) then
    do st2 <- ofold (fill_step (map val (t_ent A)) ex) l ((repeat junk_slot nnz, removelast ptr), repeat None n, repeat None n);
    let '((arr, _), _, tmp) := st2 in
    do rows <- omap (sort_row srt ptr arr ex tmp) (seq 0 n);
    Some (Conv nnz ptr (concat (map fst rows)) (concat (map snd rows)))
  else None.

(** hiopLinSolverSparsePARDISO.cpp 455-461 (hiopLinSolverSparseSTRUMPACK.cpp 392-398): values taken
    again through the index maps; [vals] are the new triplet values *)
Definition refresh (c : conv) (vals : list K) : option (list K) :=
  do v <- omap (fun s => nth_error vals (s_idx s)) (v_arr c);
  ofold (fun p v => do x <- nth_error vals (snd p); do y <- nth_error v (fst p); upd v (fst p) (y +! x)) (v_ext c) v.

(** the arrays handed to the linear solver, as a CSR object (hiopLinSolverSparsePARDISO.cpp 428-431) *)
Definition conv_csr (n : nat) (c : conv) (vals : list K) : csr K :=
  Csr n n (v_nnz c) (v_ptr c) (map s_col (v_arr c)) vals None.

(** hiopMatrixSparseTriplet.cpp 1323-1336 [sort]: [srt2] is std::sort with the row-then-column order *)
Definition sort_trip (srt2 : list (nat * nat) -> list nat) (A : trip K) : option (trip K) :=
  do l <- omap (fun t => nth_error (t_ent A) t) (srt2 (map fst (t_ent A)));
  Some (Trip (t_m A) (t_n A) l).
End Conv.
Arguments s_col {_}. Arguments s_val {_}. Arguments s_idx {_}.
Arguments Conv {_}. Arguments v_nnz {_}. Arguments v_ptr {_}. Arguments v_arr {_}. Arguments v_ext {_}.
