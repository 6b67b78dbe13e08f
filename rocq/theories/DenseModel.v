(** Dense row-major matrices distributed by columns: src/LinAlg/hiopMatrixDenseRowMajor.cpp.
    A matrix is the contiguous buffer [M_\[0\]] with the sizes of hiopMatrixDenseRowMajor.hpp; [double] is an
    arbitrary field (no rounding).  [None] = a read or write outside a buffer, a pointer [M_\[i\]] outside the
    pointer array, a failed assert, or arguments that BLAS rejects.  The asserts under HIOP_DEEPCHECKS are not
    compiled in and are not part of the model.  BLAS routines are modelled from their reference definition with
    column-major storage, unit increments. *)
From Coq Require Import List Bool Arith Lia Reals.
From Verif Require Import RingKit.
Import ListNotations.
Open Scope nat_scope.

Section Dense.
Variable K : cfield.
(** the test [beta != 1.] of hiopMatrixDenseRowMajor.cpp 475, 659 *)
Variable is_one : K -> bool.

(** hiopMatrixDenseRowMajor.hpp: m_local_, n_local_, max_rows_, the buffer M_[0]; hiopMatrixDenseRowMajor.cpp 86-97 *)
Record dmat := DMat { dm : nat; dn : nat; dmax : nat; dbuf : list K }.

(** the list [f 0, .., f (n-1)] (the array written by the routines cited below) *)
Definition tab (n : nat) (f : nat -> K) : list K := map f (seq 0 n).

(** hiopMatrixDenseRowMajor.cpp 63-100: the constructor, [mx] = m_max_alloc (or m when it is -1), [n] = the number of
    local columns col_part[P+1]-col_part[P]; the values are set to zero *)
Definition d_new (m n mx : nat) : option dmat :=
  if m <=? mx then Some (DMat m n mx (repeat f0 (mx * n))) else None.

(** hiopMatrixDenseRowMajor.cpp 90-93: the address M_[i] as an offset into the buffer; the pointer array has
    max_rows_ entries (one if max_rows_ is 0) *)
Definition rowp (M : dmat) (i : nat) : option nat :=
  if i <? Nat.max 1 (dmax M) then Some (i * dn M) else None.

(** memcpy(d + doff, s + soff, len*sizeof(double)), e.g. hiopMatrixDenseRowMajor.cpp 135 *)
Definition cpy (d : list K) (doff : nat) (s : list K) (soff len : nat) : option (list K) :=
  if (doff + len <=? length d) && (soff + len <=? length s) then
    Some (firstn doff d ++ firstn len (skipn soff s) ++ skipn (doff + len) d)
  else None.

(** b[p] = f(b[p]), e.g. hiopMatrixDenseRowMajor.cpp 713 *)
Definition upd (b : list K) (p : nat) (f : K -> K) : option (list K) :=
  match nth_error b p with
  | Some v => Some (firstn p b ++ f v :: skipn (S p) b)
  | None => None
  end.

(** the matrix with another buffer (all methods below that write [M_]) *)
Definition setbuf (M : dmat) (b : list K) : dmat := DMat (dm M) (dn M) (dmax M) b.
(** a statement that may fail followed by the rest (control flow of the methods below) *)
Definition bind {A B} (o : option A) (f : A -> option B) : option B :=
  match o with Some a => f a | None => None end.

(** ** BLAS (reference semantics; called at hiopMatrixDenseRowMajor.cpp 471, 477, 519, 525, 601, 640, 661, 673, 775, 881) *)
(** an array of [len] holds a column-major matrix with [r] rows, [c] columns, leading dimension [ld] *)
Definition fits (r c ld len : nat) : bool := (r =? 0) || (c =? 0) || ((c - 1) * ld + r <=? len).
(** entry (i,j) of a column-major array *)
Definition cm (a : list K) (ld i j : nat) : K := nth (i + j * ld) a f0.
(** DGEMV(trans, m, n, alpha, a, lda, x, 1, beta, y, 1), called at hiopMatrixDenseRowMajor.cpp 471, 519 *)
Definition dgemv (trans : bool) (m n : nat) (alpha : K) (a : list K) (lda : nat) (x : list K) (beta : K) (y : list K)
  : option (list K) :=
  let lenx := if trans then m else n in
  let leny := if trans then n else m in
  if (Nat.max 1 m <=? lda) && fits m n lda (length a) && (lenx <=? length x) && (leny <=? length y) then
    if (m =? 0) || (n =? 0) then Some y
    else Some (tab (length y) (fun i => if i <? leny then
           beta *! nth i y f0 +! alpha *! sumn lenx (fun l => (if trans then cm a lda l i else cm a lda i l) *! nth l x f0)
         else nth i y f0))
  else None.
(** DGEMM(transA, transB, m, n, k, alpha, a, lda, b, ldb, beta, c, ldc), called at hiopMatrixDenseRowMajor.cpp 601,
    640, 673 *)
Definition dgemm (ta tb : bool) (m n k : nat) (alpha : K) (a : list K) (lda : nat) (b : list K) (ldb : nat) (beta : K)
  (c : list K) (ldc : nat) : option (list K) :=
  let ra := if ta then k else m in let ca := if ta then m else k in
  let rb := if tb then n else k in let cb := if tb then k else n in
  if (Nat.max 1 ra <=? lda) && (Nat.max 1 rb <=? ldb) && (Nat.max 1 m <=? ldc) &&
     fits ra ca lda (length a) && fits rb cb ldb (length b) && fits m n ldc (length c) then
    Some (tab (length c) (fun p => let i := p mod ldc in let j := p / ldc in
      if (i <? m) && (j <? n) then
        beta *! nth p c f0 +! alpha *! sumn k (fun l => (if ta then cm a lda l i else cm a lda i l) *!
                                                       (if tb then cm b ldb j l else cm b ldb l j))
      else nth p c f0))
  else None.
(** DSCAL(n, alpha, x + off, 1), called at hiopMatrixDenseRowMajor.cpp 477, 525, 661, 881 *)
Definition dscal (n : nat) (alpha : K) (x : list K) (off : nat) : option (list K) :=
  if off + n <=? length x then
    Some (tab (length x) (fun p => if (off <=? p) && (p <? off + n) then alpha *! nth p x f0 else nth p x f0))
  else None.
(** DAXPY(n, alpha, x, 1, y, 1), called at hiopMatrixDenseRowMajor.cpp 775 *)
Definition daxpy (n : nat) (alpha : K) (x y : list K) : option (list K) :=
  if (n <=? length x) && (n <=? length y) then
    Some (tab (length y) (fun p => if p <? n then alpha *! nth p x f0 +! nth p y f0 else nth p y f0))
  else None.

(** ** products *)
(** MPI_Allreduce with MPI_SUM over the ranks, entries 0..n-1 (hiopMatrixDenseRowMajor.cpp 487, 699) *)
Definition reduce (n : nat) (ys : list (list K)) : list K := tab n (fun i => lsum (map (fun y => nth i y f0) ys)).
(** all ranks perform the local part (failure of one rank = failure); hiopMatrixDenseRowMajor.cpp 487, 699 *)
Fixpoint every {A B} (f : A -> option B) (l : list A) : option (list B) :=
  match l with
  | [] => Some []
  | a :: r => bind (f a) (fun b => bind (every f r) (fun bs => Some (b :: bs)))
  end.

(** hiopMatrixDenseRowMajor.cpp 458-483: the part of timesVec before the reduction; [rank0]: myrank_ = 0 *)
Definition times_vec_local (rank0 : bool) (beta : K) (y : list K) (alpha : K) (M : dmat) (x : list K) : option (list K) :=
  let beta := if rank0 then beta else f0 in
  if negb (dm M =? 0) && negb (dn M =? 0) then
    dgemv true (dn M) (dm M) alpha (dbuf M) (dn M) x beta y
  else if negb (dm M =? 0) then
    (if is_one beta then Some y else dscal (dm M) beta y 0)
  else Some y.

(** hiopMatrixDenseRowMajor.cpp 484-489: the reduction and the copy back; one rank's part *)
Definition vec_back (m : nat) (g y : list K) : option (list K) := cpy y 0 g 0 m.

(** one rank of a product with a vector: its columns, its part of x, its copy of y (hiopMatrixDenseRowMajor.cpp 431-435) *)
Record vrank := VRank { v_M : dmat; v_x : list K; v_y : list K }.

(** hiopMatrixDenseRowMajor.cpp 458-491: timesVec on all ranks with HIOP_USE_MPI; the values of y afterwards on each
    rank.  (The first rank of the list is rank 0.)  With no row the ranks return before the reduction (480-481). *)
Definition times_vec (beta alpha : K) (rs : list vrank) : option (list (list K)) :=
  match rs with
  | [] => Some []
  | r0 :: rest =>
      let m := dm (v_M r0) in
      bind (times_vec_local true beta (v_y r0) alpha (v_M r0) (v_x r0)) (fun y0 =>
      bind (every (fun r => times_vec_local false beta (v_y r) alpha (v_M r) (v_x r)) rest) (fun ys =>
      if m =? 0 then Some (y0 :: ys)
      else let g := reduce m (y0 :: ys) in every (vec_back m g) (y0 :: ys)))
  end.

(** hiopMatrixDenseRowMajor.cpp 458-483 without HIOP_USE_MPI: one process, myrank_ is 0 (84) *)
Definition times_vec_serial (beta : K) (y : list K) (alpha : K) (M : dmat) (x : list K) : option (list K) :=
  times_vec_local true beta y alpha M x.

(** hiopMatrixDenseRowMajor.cpp 510-528: transTimesVec, no communication *)
Definition trans_times_vec (beta : K) (y : list K) (alpha : K) (M : dmat) (x : list K) : option (list K) :=
  if negb (dm M =? 0) && negb (dn M =? 0) then
    dgemv false (dn M) (dm M) alpha (dbuf M) (dn M) x beta y
  else if negb (dn M =? 0) then dscal (dn M) beta y 0
  else Some y.

(** hiopMatrixDenseRowMajor.cpp 578-611: timesMat_local, for local (not distributed) matrices *)
Definition times_mat_local (beta : K) (W : dmat) (alpha : K) (M X : dmat) : option dmat :=
  bind (dgemm false false (dn X) (dm M) (dm X) alpha (dbuf X) (dn X) (dbuf M) (dn M) beta (dbuf W) (dn X))
       (fun b => Some (setbuf W b)).

(** hiopMatrixDenseRowMajor.cpp 537-573: timesMat for local matrices; [mpi]: HIOP_USE_MPI *)
Definition times_mat (mpi : bool) (beta : K) (W : dmat) (alpha : K) (M X : dmat) : option dmat :=
  if mpi then
    if (dm W =? dm M) && (dm X =? dn M) && (dn W =? dn X) then
      if (dm W =? 0) || (dm X =? 0) || (dn W =? 0) then Some W
      else times_mat_local beta W alpha M X
    else None
  else times_mat_local beta W alpha M X.

(** hiopMatrixDenseRowMajor.cpp 616-641: transTimesMat; M local, X and W possibly distributed (their local columns) *)
Definition trans_times_mat (beta : K) (W : dmat) (alpha : K) (M X : dmat) : option dmat :=
  if (dm W =? dn M) && (dm X =? dm M) then
    if dm W =? 0 then Some W
    else bind (dgemm false true (dn X) (dn M) (dm X) alpha (dbuf X) (dn X) (dbuf M) (dn M) beta (dbuf W) (dn W))
              (fun b => Some (setbuf W b))
  else None.

(** hiopMatrixDenseRowMajor.cpp 646-674: timesMatTrans_local *)
Definition times_mat_trans_local (beta : K) (W : dmat) (alpha : K) (M X : dmat) : option dmat :=
  if dm W =? 0 then Some W else if dn W =? 0 then Some W
  else if dn M =? 0 then
    (if is_one beta then Some W else bind (dscal (dm W * dn W) beta (dbuf W) 0) (fun b => Some (setbuf W b)))
  else bind (dgemm true false (dm X) (dm M) (dn M) alpha (dbuf X) (dn M) (dbuf M) (dn M) beta (dbuf W) (dn W))
            (fun b => Some (setbuf W b)).

(** one rank of timesMatTrans: its columns of M and X, its copy of W (hiopMatrixDenseRowMajor.cpp 676-702) *)
Record mrank := MRank { r_M : dmat; r_X : dmat; r_W : dmat }.

(** hiopMatrixDenseRowMajor.cpp 697-700: the reduced values written back to W on one rank *)
Definition mat_back (n2 : nat) (g : list K) (W : dmat) : option dmat :=
  bind (cpy (dbuf W) 0 g 0 n2) (fun b => Some (setbuf W b)).

(** hiopMatrixDenseRowMajor.cpp 676-702: timesMatTrans on all ranks with HIOP_USE_MPI *)
Definition times_mat_trans (beta alpha : K) (rs : list mrank) : option (list dmat) :=
  match rs with
  | [] => Some []
  | r0 :: rest =>
      if (dm (r_W r0) =? 0) || (dn (r_W r0) =? 0) then Some (map r_W rs)
      else
      bind (times_mat_trans_local beta (r_W r0) alpha (r_M r0) (r_X r0)) (fun w0 =>
      bind (every (fun r => times_mat_trans_local f0 (r_W r) alpha (r_M r) (r_X r)) rest) (fun ws =>
      let n2 := dm (r_W r0) * dn (r_W r0) in
      let g := reduce n2 (map dbuf (w0 :: ws)) in
      every (mat_back n2 g) (w0 :: ws)))
  end.

(** ** moving rows and blocks *)
(** hiopMatrixDenseRowMajor.cpp 129-137: appendRow *)
Definition append_row (M : dmat) (row : list K) : option dmat :=
  bind (rowp M (dm M)) (fun p => bind (cpy (dbuf M) p row 0 (dn M)) (fun b =>
  Some (DMat (S (dm M)) (dn M) (dmax M) b))).

(** hiopMatrixDenseRowMajor.cpp 139-149: copyFrom(mat); a source without a buffer (max_rows_ = 0) makes this matrix
    drop its own buffer *)
Definition copy_from (M S : dmat) : option dmat :=
  if (dn M =? dn S) && (dm M =? dm S) then
    if dmax S =? 0 then Some (setbuf M [])
    else bind (cpy (dbuf M) 0 (dbuf S) 0 (dm M * dn M)) (fun b => Some (setbuf M b))
  else None.

(** hiopMatrixDenseRowMajor.cpp 169-180: copyRowsFrom(src, num_rows, row_dest) *)
Definition copy_rows (M S : dmat) (num dest : nat) : option dmat :=
  if 0 <? num then
    bind (rowp M dest) (fun p => bind (cpy (dbuf M) p (dbuf S) 0 (dn M * num)) (fun b => Some (setbuf M b)))
  else Some M.

(** hiopMatrixDenseRowMajor.cpp 182-197: copyRowsFrom(src, rows_idxs, n_rows) *)
Definition copy_rows_idx (M S : dmat) (idx : list nat) (n_rows : nat) : option dmat :=
  if (dn M =? dn S) && (n_rows <=? dm S) && (n_rows =? dm M) then
    bind (ofold (fun i b => bind (rowp M i) (fun p => bind (nth_error idx i) (fun k => bind (rowp S k) (fun q =>
                 cpy b p (dbuf S) q (dn M))))) (seq 0 n_rows) (dbuf M))
         (fun b => Some (setbuf M b))
  else None.

(** hiopMatrixDenseRowMajor.cpp 200-220: copyBlockFromMatrix(i_start, j_start, src), local matrices *)
Definition copy_block_from (M : dmat) (is js : nat) (S : dmat) : option dmat :=
  if (is + dm S <=? dm M) && (js + dn S <=? dn M) then
    if dn S =? 0 then Some M else if dm S =? 0 then Some M
    else bind (ofold (fun ii b => bind (rowp M (ii + is)) (fun p => bind (rowp S ii) (fun q =>
                      cpy b (p + js) (dbuf S) q (dn S)))) (seq 0 (dm S)) (dbuf M))
              (fun b => Some (setbuf M b))
  else None.

(** hiopMatrixDenseRowMajor.cpp 222-236: copyFromMatrixBlock(src, i_block, j_block), local matrices *)
Definition copy_from_block (M S : dmat) (ib jb : nat) : option dmat :=
  if (dm M + ib <=? dm S) && (dn M + jb <=? dn S) then
    if dn M =? dn S then
      bind (rowp S ib) (fun q => bind (cpy (dbuf M) 0 (dbuf S) q (dn M * dm M)) (fun b => Some (setbuf M b)))
    else
      bind (ofold (fun i b => bind (rowp M i) (fun p => bind (rowp S (i + ib)) (fun q =>
                   cpy b p (dbuf S) (q + jb) (dn M)))) (seq 0 (dm M)) (dbuf M))
           (fun b => Some (setbuf M b))
  else None.

(** hiopMatrixDenseRowMajor.cpp 238-278: shiftRows; [up]: shift is negative, [s] = |shift| *)
Definition shift_rows (M : dmat) (up : bool) (s : nat) : option dmat :=
  if s =? 0 then Some M else if s =? dm M then Some M else if dm M <=? 1 then Some M
  else if s <? dm M then
    let mv d q b := bind (rowp M d) (fun pd => bind (rowp M q) (fun pq => cpy b pd b pq (dn M))) in
    bind (ofold (fun d b => if up then mv d (d + s) b else mv d (d - s) b)
                (if up then seq 0 (dm M - s) else rev (seq s (dm M - s))) (dbuf M))
         (fun b => Some (setbuf M b))
  else None.

(** hiopMatrixDenseRowMajor.cpp 279-284: replaceRow *)
Definition replace_row (M : dmat) (row : nat) (v : list K) : option dmat :=
  if row <? dm M then
    bind (rowp M row) (fun p => bind (cpy (dbuf M) p v 0 (if dn M <=? length v then dn M else length v)) (fun b =>
    Some (setbuf M b)))
  else None.

(** hiopMatrixDenseRowMajor.cpp 286-292: getRow *)
Definition get_row (M : dmat) (row : nat) (v : list K) : option (list K) :=
  if (row <? dm M) && (dn M =? length v) then bind (rowp M row) (fun p => cpy v 0 (dbuf M) p (dn M)) else None.

(** hiopMatrixDenseRowMajor.cpp 374-389: setToConstant *)
Definition set_const (M : dmat) (c : K) : option dmat :=
  if dmax M =? 0 then (if dm M =? 0 then Some M else None)
  else
    bind (ofold (fun j b => upd b j (fun _ => c)) (seq 0 (dn M)) (dbuf M)) (fun b0 =>
    bind (ofold (fun i b => bind (rowp M i) (fun p => cpy b p b 0 (dn M))) (seq 1 (dm M - 1)) b0) (fun b =>
    Some (setbuf M b))).

(** ** diagonals, sums and triangles *)
(** M_[i][i] += v, hiopMatrixDenseRowMajor.cpp 713 *)
Definition bump (M : dmat) (i j : nat) (v : K) (b : list K) : option (list K) :=
  bind (rowp M i) (fun p => upd b (p + j) (fun o => o +! v)).

(** hiopMatrixDenseRowMajor.cpp 703-714: addDiagonal(alpha, d) *)
Definition add_diag (M : dmat) (alpha : K) (d : list K) : option dmat :=
  bind (ofold (fun i b => bind (nth_error d i) (fun v => bump M i i (alpha *! v) b)) (seq 0 (dn M)) (dbuf M))
       (fun b => Some (setbuf M b)).
(** hiopMatrixDenseRowMajor.cpp 715-718: addDiagonal(value) *)
Definition add_diag_const (M : dmat) (v : K) : option dmat :=
  bind (ofold (fun i b => bump M i i v b) (seq 0 (dn M)) (dbuf M)) (fun b => Some (setbuf M b)).
(** hiopMatrixDenseRowMajor.cpp 719-730: addSubDiagonal(alpha, start, d) *)
Definition add_subdiag (M : dmat) (alpha : K) (start : nat) (d : list K) : option dmat :=
  bind (ofold (fun i b => bind (nth_error d (i - start)) (fun v => bump M i i (alpha *! v) b))
              (seq start (length d)) (dbuf M)) (fun b => Some (setbuf M b)).
(** hiopMatrixDenseRowMajor.cpp 732-753: addSubDiagonal(start_on_dest_diag, alpha, d, start_on_src_vec, num_elems), local
    square matrices; [num] = None stands for a negative num_elems (the default) *)
Definition add_subdiag_from (M : dmat) (start : nat) (alpha : K) (d : list K) (src : nat) (num : option nat) : option dmat :=
  let num := match num with Some k => k | None => length d - src end in
  if (num <=? length d) && (dn M =? dm M) && (start <? dm M) then
    bind (ofold (fun i b => bind (nth_error d (src + i)) (fun v => bump M (i + start) (i + start) (alpha *! v) b))
                (seq 0 (Nat.min num (dm M - start))) (dbuf M)) (fun b => Some (setbuf M b))
  else None.
(** hiopMatrixDenseRowMajor.cpp 755-764: addSubDiagonal(start_on_dest_diag, num_elems, c) *)
Definition add_subdiag_const (M : dmat) (start num : nat) (c : K) : option dmat :=
  if (start + num <=? dn M) && (dn M =? dm M) then
    bind (ofold (fun i b => bump M (i + start) (i + start) c b) (seq 0 num) (dbuf M)) (fun b => Some (setbuf M b))
  else None.
(** hiopMatrixDenseRowMajor.cpp 766-776: addMatrix *)
Definition add_matrix (M : dmat) (alpha : K) (X : dmat) : option dmat :=
  bind (daxpy (dm M * dn M) alpha (dbuf X) (dbuf M)) (fun b => Some (setbuf M b)).

(** hiopMatrixDenseRowMajor.cpp 778-796: transAddToSymDenseMatrixUpperTriangle, local matrices *)
Definition trans_add_upper (M : dmat) (rs cs : nat) (alpha : K) (W : dmat) : option dmat :=
  if (dn M + rs <=? dm W) && (dm M + cs <=? dn W) && (dn W =? dm W) then
    bind (ofold (fun ir b => ofold (fun jc b =>
            if jc + rs <=? ir + cs then
              bind (rowp M ir) (fun p => bind (nth_error (dbuf M) (p + jc)) (fun v =>
              upd b ((jc + rs) * dn W + (ir + cs)) (fun o => o +! alpha *! v)))
            else None) (seq 0 (dn M)) b) (seq 0 (dm M)) (dbuf W))
         (fun b => Some (setbuf W b))
  else None.

(** hiopMatrixDenseRowMajor.cpp 809-829: addUpperTriangleToSymDenseMatrixUpperTriangle, local matrices *)
Definition add_upper (M : dmat) (ds : nat) (alpha : K) (W : dmat) : option dmat :=
  if (dn W =? dm W) && (dn M =? dm M) && (ds + dn M <=? dn W) then
    bind (ofold (fun i b => ofold (fun j b =>
            bind (rowp M i) (fun p => bind (nth_error (dbuf M) (p + j)) (fun v =>
            upd b ((i + ds) * dn W + (j + ds)) (fun o => o +! alpha *! v))))
            (seq i (dm M - i)) b) (seq 0 (dn M)) (dbuf W))
         (fun b => Some (setbuf W b))
  else None.

(** hiopMatrixDenseRowMajor.cpp 865-883: scale_row *)
Definition scale_row (M : dmat) (v : list K) (inv : bool) : option dmat :=
  if dm M =? length v then
    bind (ofold (fun i b => bind (nth_error v i) (fun s =>
                  dscal (dn M) (if inv then f1 /! s else s) b (i * dn M))) (seq 0 (dm M)) (dbuf M))
         (fun b => Some (setbuf M b))
  else None.

(** hiopMatrixDenseRowMajor.cpp 912-932: symmetrize, local square matrices *)
Definition symmetrize (M : dmat) : option dmat :=
  if dm M =? dn M then
    bind (ofold (fun i b => ofold (fun j b =>
            bind (rowp M i) (fun p => bind (rowp M j) (fun q => bind (nth_error b (p + j)) (fun v =>
            upd b (q + i) (fun _ => v))))) (seq (S i) (dn M - S i)) b) (seq 0 (dn M)) (dbuf M))
         (fun b => Some (setbuf M b))
  else None.

(** ** the matrices of the restoration problem *)
(** hiopMatrixDenseRowMajor.cpp 294-299: set_Hess_FR *)
Definition set_hess_fr (M H : dmat) (d : list K) : option dmat := bind (copy_from M H) (fun M => add_diag M f1 d).

(** hiopMatrixDenseRowMajor.cpp 320-337: one row block of the last rank: rows r0.. of M from the rows of J, the entry -1
    in column c1+i and 1 in column c2+i *)
Definition fr_rows (J : dmat) (r0 c1 c2 : nat) (M : dmat) (b : list K) : option (list K) :=
  ofold (fun i b => bind (rowp M (i + r0)) (fun p => bind (rowp J i) (fun q =>
           bind (cpy b p (dbuf J) q (dn J)) (fun b =>
           bind (upd b (p + (c1 + i)) (fun _ => fopp f1)) (fun b => upd b (p + (c2 + i)) (fun _ => f1))))))
        (seq 0 (dm J)) b.

(** hiopMatrixDenseRowMajor.cpp 301-339: set_Jac_FR; [last]: not (myrank_ < comm_size_ - 1) *)
Definition set_jac_fr (M Jc Jd : dmat) (last : bool) : option dmat :=
  if (dn Jc =? dn Jd) && (dm Jc + dm Jd =? dm M) then
    bind (set_const M f0) (fun M =>
    if last then
      let nb := dn Jc in
      if nb + 2 * dm Jc + 2 * dm Jd =? dn M then
        bind (fr_rows Jc 0 nb (nb + dm Jc) M (dbuf M)) (fun b =>
        bind (fr_rows Jd (dm Jc) (nb + 2 * dm Jc) (nb + 2 * dm Jc + dm Jd) M b) (fun b => Some (setbuf M b)))
      else None
    else
      bind (copy_rows M Jc (dm Jc) 0) (fun M => copy_rows M Jd (dm Jd) (dm Jc)))
  else None.

(** hiopMatrixDenseRowMajor.cpp 72-76, 313: which branch of [set_jac_fr] a rank takes: [size] = comm_size_ of the
    matrix object; the copy constructor (111-127) leaves it unwritten, so for a clone it is any number *)
Definition fr_last (myrank size : nat) : bool := negb (S myrank <? size).
End Dense.
Arguments DMat {_}. Arguments dm {_}. Arguments dn {_}. Arguments dmax {_}. Arguments dbuf {_}.
Arguments VRank {_}. Arguments v_M {_}. Arguments v_x {_}. Arguments v_y {_}.
Arguments MRank {_}. Arguments r_M {_}. Arguments r_X {_}. Arguments r_W {_}.

(** ** largest entries (real numbers) *)
(** DLANGE('M', r, c, a + off, r): the largest absolute value of r*c contiguous entries, 0 if there are none; called at
    hiopMatrixDenseRowMajor.cpp 835, 855 *)
Definition dlange (cnt : nat) (a : list R) (off : nat) : option R :=
  if off + cnt <=? length a then Some (fold_left (fun v x => Rmax v (Rabs x)) (firstn cnt (skipn off a)) 0%R) else None.
(** one rank of a real matrix: rows, local columns, buffer (hiopMatrixDenseRowMajor.hpp) *)
Record rmat := RMat { rm : nat; rn : nat; rbuf : list R }.
(** MPI_Allreduce with MPI_MAX of the values of the ranks (hiopMatrixDenseRowMajor.cpp 838, 858) *)
Definition allmax (l : list R) : option R :=
  match l with [] => None | a :: r => Some (fold_left Rmax r a) end.
(** hiopMatrixDenseRowMajor.cpp 832-842: max_abs_value over all ranks *)
Definition max_abs_value (rs : list rmat) : option R :=
  bind (every (fun M => dlange (rn M * rm M) (rbuf M) 0) rs) allmax.
(** hiopMatrixDenseRowMajor.cpp 844-863: entry [irow] of row_max_abs_value over all ranks *)
Definition row_max_abs_value (rs : list rmat) (irow : nat) : option R :=
  bind (every (fun M => dlange (rn M) (rbuf M) (irow * rn M)) rs) allmax.
