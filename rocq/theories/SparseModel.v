(** Model of /repo/src/LinAlg/hiopMatrixSparseTriplet.cpp (CPU triplet matrices).
    The three parallel arrays iRow_, jCol_, values_ of length nnz_ are one list of entries.
    Doubles are elements of a field.  Failed asserts and accesses outside an array give [None].
    A dense matrix (hiopMatrixDenseRowMajor) is its dimensions and its row-major array. *)
From Coq Require Import List Bool Arith.
From Verif Require Import RingKit PackModel.
Import ListNotations.

(** the comparison [pattern[i]!=0.0] is applied to patterns given as booleans *)
Section Sparse.
Variable K : cfield.

(** one stored entry iRow_[k], jCol_[k], values_[k] (hiopMatrixSparseTriplet.hpp 330-332) *)
Definition entry := (nat * nat * K)%type.
(** iRow_[k] (hiopMatrixSparseTriplet.hpp 330) *)
Definition row (e : entry) : nat := fst (fst e).
(** jCol_[k] (hiopMatrixSparseTriplet.hpp 331) *)
Definition col (e : entry) : nat := snd (fst e).
(** values_[k] (hiopMatrixSparseTriplet.hpp 332) *)
Definition val (e : entry) : K := snd e.

(** hiopMatrixSparse.hpp members nrows_, ncols_ with the triplet arrays (hiopMatrixSparseTriplet.hpp); hiopMatrixSparse.hpp 384-386, hiopMatrixSparseTriplet.hpp 330-332 *)
Record trip := Trip { t_m : nat; t_n : nat; t_ent : list entry }.
(** hiopMatrixDense.hpp, hiopMatrixDenseRowMajor.hpp: dimensions and row-major storage; hiopMatrixDenseRowMajor.hpp 245 *)
Record dense := Dense { d_m : nat; d_n : nat; d_arr : list K }.

(** [a[p] += v]; e.g. hiopMatrixSparseTriplet.cpp 73-90 *)
Definition addat (a : list K) (p : nat) (v : K) : option (list K) :=
  match nth_error a p with Some x => upd a p (x +! v) | None => None end.

(** hiopMatrixSparseTriplet.cpp 73-90 [timesVec] on raw arrays, sizes checked at 60-61 *)
Definition times_vec (A : trip) (beta : K) (y : list K) (alpha : K) (x : list K) : option (list K) :=
  if (length x =? t_n A) && (length y =? t_m A) then
    ofold (fun e y' =>
      if (row e <? t_m A) && (col e <? t_n A) then
        match nth_error x (col e) with Some xj => addat y' (row e) (alpha *! xj *! val e) | None => None end
      else None) (t_ent A) (map (fun v => v *! beta) y)
  else None.

(** hiopMatrixSparseTriplet.cpp 92-127 [transTimesVec] *)
Definition trans_times_vec (A : trip) (beta : K) (y : list K) (alpha : K) (x : list K) : option (list K) :=
  if (length x =? t_m A) && (length y =? t_n A) then
    ofold (fun e y' =>
      if (row e <? t_m A) && (col e <? t_n A) then
        match nth_error x (row e) with Some xi => addat y' (col e) (alpha *! xi *! val e) | None => None end
      else None) (t_ent A) (map (fun v => v *! beta) y)
  else None.

(** hiopMatrixSparseTriplet.cpp 924-958 [hiopMatrixSymSparseTriplet::timesVec] *)
Definition sym_times_vec (A : trip) (beta : K) (y : list K) (alpha : K) (x : list K) : option (list K) :=
  if (t_n A =? t_m A) && (length x =? t_n A) && (length y =? t_m A) then
    ofold (fun e y' =>
      if (row e <? t_m A) && (col e <? t_n A) then
        match nth_error x (col e), nth_error x (row e) with
        | Some xj, Some xi =>
            match addat y' (row e) (alpha *! xj *! val e) with
            | Some y2 => if row e =? col e then Some y2 else addat y2 (col e) (alpha *! xi *! val e)
            | None => None
            end
        | _, _ => None
        end
      else None) (t_ent A) (map (fun v => v *! beta) y)
  else None.

(** * Row starts: hiopMatrixSparseTriplet.cpp 528-560 [allocAndBuildRowStarts] *)
(** the inner [while] 541-552: how many leading entries of the rest are in row [i] *)
Fixpoint lead (i : nat) (l : list entry) : nat :=
  match l with
  | e :: r => if row e =? i then S (lead i r) else 0
  | [] => 0
  end.
(** the outer loop 537-554, [it] = it_triplet = idx_start_[i-1]; returns idx_start_[1..nrows] and
    the final it_triplet *)
Fixpoint starts_loop (n i it : nat) (l : list entry) : list nat * nat :=
  match n with
  | O => ([], it)
  | S n' =>
      let k := lead i l in
      let '(r, fin) := starts_loop n' (S i) (it + k) (skipn k l) in
      (it + k :: r, fin)
  end.
(** hiopMatrixSparseTriplet.cpp 527-560: the row starts, idx_start_[0] included *)
Definition row_starts (A : trip) : option (list nat) :=
  if t_m A =? 0 then Some [0]
  else let '(r, fin) := starts_loop (t_m A) 0 0 (t_ent A) in
       if fin =? length (t_ent A) then Some (0 :: r) else None.

(** the two-pointer loop of timesMatTrans 176-194, addMDinvMtrans 423-435 and addMDinvNtrans
    495-512: [ki] runs to [ei] over [A], [kj] to [ej] over [B]; matching columns contribute
    [f (col) va vb].  [fuel] bounds the number of passes. *)
Fixpoint merge_dot (f : nat -> K -> K -> option K) (A B : list entry) (fuel ki ei kj ej : nat) (acc : K)
  : option K :=
  if (ki <? ei) && (kj <? ej) then
    match fuel with
    | O => None
    | S fuel' =>
        match nth_error A ki, nth_error B kj with
        | Some a, Some b =>
            if col a =? col b then
              match f (col a) (val a) (val b) with
              | Some v => merge_dot f A B fuel' (S ki) ei (S kj) ej (acc +! v)
              | None => None
              end
            else if col a <? col b then merge_dot f A B fuel' (S ki) ei kj ej acc
            else merge_dot f A B fuel' ki ei (S kj) ej acc
        | _, _ => None
        end
    end
  else Some acc.

(** row-by-row dot product of row [i] of [A] and row [j] of [B]
    (hiopMatrixSparseTriplet.cpp 170-196, 418-437, 478-510) *)
Definition row_dot (f : nat -> K -> K -> option K) (A B : trip) (sa sb : list nat) (i j : nat) : option K :=
  match nth_error sa i, nth_error sa (S i), nth_error sb j, nth_error sb (S j) with
  | Some ki, Some ei, Some kj, Some ej =>
      merge_dot f (t_ent A) (t_ent B) ((ei - ki) + (ej - kj)) ki ei kj ej f0
  | _, _, _, _ => None
  end.

(** hiopMatrixSparseTriplet.cpp 144-199 [timesMatTrans]: W becomes beta W plus alpha M1 M2^T *)
Definition times_mat_trans (A : trip) (beta : K) (W : dense) (alpha : K) (B : trip) : option dense :=
  if (t_n B =? t_n A) && (t_m A =? d_m W) && (t_m B =? d_n W) then
    match row_starts A, row_starts B with
    | Some sa, Some sb =>
        match ofold (fun i => ofold (fun j w =>
                match row_dot (fun _ va vb => Some (va *! vb)) A B sa sb i j with
                | Some acc =>
                    match nth_error w (i * d_n W + j) with
                    | Some x => upd w (i * d_n W + j) (beta *! x +! alpha *! acc)
                    | None => None
                    end
                | None => None
                end) (seq 0 (t_m B))) (seq 0 (t_m A)) (d_arr W) with
        | Some w => Some (Dense (d_m W) (d_n W) w)
        | None => None
        end
    | _, _ => None
    end
  else None.

(** hiopMatrixSparseTriplet.cpp 390-441 [addMDinvMtransToDiagBlockOfSymDeMatUTri]; the stride of the
    destination is W.m() (400) *)
Definition diag_dot (A : trip) (D : list K) (sa : list nat) (i : nat) : option K :=
  match nth_error sa i, nth_error sa (S i) with
  | Some ki, Some ei =>
      ofold (fun k acc =>
        match nth_error (t_ent A) k with
        | Some a => match nth_error D (col a) with
                    | Some d => Some (acc +! val a /! d *! val a)
                    | None => None
                    end
        | None => None
        end) (seq ki (ei - ki)) f0
  | _, _ => None
  end.
(** the product accumulated at 430 and 492 of hiopMatrixSparseTriplet.cpp *)
Definition dinv (D : list K) (c : nat) (va vb : K) : option K :=
  match nth_error D c with Some d => Some (va /! d *! vb) | None => None end.
(** hiopMatrixSparseTriplet.cpp 390-441, the loops over i and j *)
Definition add_MDinvMt (A : trip) (st : nat) (alpha : K) (D : list K) (W : dense) : option dense :=
  if (st + t_m A <=? d_m W) && (st + t_m A <=? d_n W) && (length D =? t_n A) then
    match row_starts A with
    | Some sa =>
        match ofold (fun i w =>
                match diag_dot A D sa i with
                | Some acc =>
                    match addat w ((i + st) * d_m W + (i + st)) (alpha *! acc) with
                    | Some w1 =>
                        ofold (fun j w' =>
                          match row_dot (dinv D) A A sa sa i j with
                          | Some acc => addat w' ((i + st) * d_m W + (j + st)) (alpha *! acc)
                          | None => None
                          end) (seq (S i) (t_m A - S i)) w1
                    | None => None
                    end
                | None => None
                end) (seq 0 (t_m A)) (d_arr W) with
        | Some w => Some (Dense (d_m W) (d_n W) w)
        | None => None
        end
    | None => None
    end
  else None.

(** hiopMatrixSparseTriplet.cpp 447-525 [addMDinvNtransToSymDeMatUTri]; assert 518: upper triangle *)
Definition add_MDinvNt (A : trip) (rs cs : nat) (alpha : K) (D : list K) (B : trip) (W : dense) : option dense :=
  if (t_n B =? t_n A) && (length D =? t_n A) && (rs + t_m A <=? d_m W) && (cs + t_m B <=? d_n W) then
    match row_starts A, row_starts B with
    | Some sa, Some sb =>
        match ofold (fun i => ofold (fun j w =>
                match row_dot (dinv D) A B sa sb i j with
                | Some acc => if i + rs <=? j + cs
                              then addat w ((i + rs) * d_m W + (j + cs)) (alpha *! acc) else None
                | None => None
                end) (seq 0 (t_m B))) (seq 0 (t_m A)) (d_arr W) with
        | Some w => Some (Dense (d_m W) (d_n W) w)
        | None => None
        end
    | _, _ => None
    end
  else None.

(** hiopMatrixSparseTriplet.cpp 257-277 [transAddToSymDenseMatrixUpperTriangle] *)
Definition trans_add_to_sym (A : trip) (rs cs : nat) (alpha : K) (W : dense) : option dense :=
  if (rs + t_n A <=? d_m W) && (cs + t_m A <=? d_n W) && (d_n W =? d_m W) then
    match ofold (fun e w =>
            let i := (col e + rs) in let j := (row e + cs) in
            if (i <? d_m W) && (j <? d_n W) && (i <=? j)
            then addat w (i * d_m W + j) (alpha *! val e) else None) (t_ent A) (d_arr W) with
    | Some w => Some (Dense (d_m W) (d_n W) w)
    | None => None
    end
  else None.

(** hiopMatrixSparseTriplet.cpp 979-998 [addUpperTriangleToSymDenseMatrixUpperTriangle] *)
Definition add_upper_to_sym (A : trip) (st : nat) (alpha : K) (W : dense) : option dense :=
  if (st + t_m A <=? d_m W) && (st + t_n A <=? d_n W) && (d_n W =? d_m W) then
    match ofold (fun e w =>
            let i := (row e + st) in let j := (col e + st) in
            if (row e <=? col e) && (i <? d_m W) && (j <? d_n W) && (i <=? j)
            then addat w (i * d_m W + j) (alpha *! val e) else None) (t_ent A) (d_arr W) with
    | Some w => Some (Dense (d_m W) (d_n W) w)
    | None => None
    end
  else None.

(** hiopMatrixSparseTriplet.cpp 363-375 [copy_to(hiopMatrixDense&)] *)
Definition copy_to_dense (A : trip) (W : dense) : option dense :=
  if (d_m W =? t_m A) && (d_n W =? t_n A) then
    match ofold (fun e w => addat w (row e * d_n W + col e) (val e)) (t_ent A)
                (map (fun _ => f0) (d_arr W)) with
    | Some w => Some (Dense (d_m W) (d_n W) w)
    | None => None
    end
  else None.

(** hiopMatrixSparseTriplet.cpp 303-319 [scale_row] *)
Fixpoint scale_ents (l : list entry) (s : list K) (inv : bool) : option (list entry) :=
  match l with
  | [] => Some []
  | e :: r =>
      match nth_error s (row e), scale_ents r s inv with
      | Some x, Some r' => Some ((row e, col e, val e *! (if inv then f1 /! x else x)) :: r')
      | _, _ => None
      end
  end.
(** hiopMatrixSparseTriplet.cpp 303-319 [scale_row], the whole matrix *)
Definition scale_row (A : trip) (s : list K) (inv : bool) : option trip :=
  if length s =? t_m A then
    match scale_ents (t_ent A) s inv with Some l => Some (Trip (t_m A) (t_n A) l) | None => None end
  else None.

(** * Block assembly *)
(** a write [iRow_[k]=r; jCol_[k]=c; values_[k]=v] as at hiopMatrixSparseTriplet.cpp
    591-593, 652-654, 831-833, 1060-1062 *)
Definition put (l : list entry) (k : nat) (e : entry) : option (list entry) := upd l k e.

(** consecutive writes [k, k+1, ...] of a list of entries (loops of hiopMatrixSparseTriplet.cpp
    831-910 and 1056-1166) *)
Fixpoint put_all (l : list entry) (k : nat) (es : list entry) : option (list entry) :=
  match es with
  | [] => Some l
  | e :: r => match put l k e with Some l' => put_all l' (S k) r | None => None end
  end.

(** hiopMatrixSparseTriplet.cpp 562-605 [copyRowsFrom] and 619-669 [copyRowsBlockFrom]: for each
    (source row, destination row) in order: skip source entries in smaller rows, then copy the
    entries of the row.  Returns the destination, the next destination slot and what is left of the
    source.  *)
Fixpoint skip_rows (i : nat) (src : list entry) : list entry :=
  match src with
  | e :: r => if row e <? i then skip_rows i r else src
  | [] => []
  end.
(** hiopMatrixSparseTriplet.cpp 562-605: the copying of one row *)
Fixpoint copy_row (dst : list entry) (k rs rd : nat) (src : list entry)
  : option (list entry * nat * list entry) :=
  match src with
  | e :: r =>
      if row e =? rs then
        match put dst k (rd, col e, val e) with
        | Some dst' => copy_row dst' (S k) rs rd r
        | None => None
        end
      else Some (dst, k, src)
  | [] => Some (dst, k, [])
  end.
(** hiopMatrixSparseTriplet.cpp 562-605: the loop over the rows *)
Fixpoint copy_rows_loop (dst : list entry) (k : nat) (rows : list (nat * nat)) (src : list entry)
  : option (list entry * nat) :=
  match rows with
  | [] => Some (dst, k)
  | (rs, rd) :: r =>
      match copy_row dst k rs rd (skip_rows rs src) with
      | Some (dst', k', src') => copy_rows_loop dst' k' r src'
      | None => None
      end
  end.
(** hiopMatrixSparseTriplet.cpp 562-605; [idxs] = rows_idxs, n_rows its length *)
Definition copy_rows_from (this src : trip) (idxs : list nat) : option trip :=
  if (t_m this =? length idxs) && (length (t_ent this) <=? length (t_ent src)) && (t_n this =? t_n src)
     && (length idxs <=? t_m src) then
    match copy_rows_loop (t_ent this) 0 (combine idxs (seq 0 (length idxs))) (t_ent src) with
    | Some (l, k) => if k =? length (t_ent this) then Some (Trip (t_m this) (t_n this) l) else None
    | None => None
    end
  else None.
(** hiopMatrixSparseTriplet.cpp 619-669 *)
Definition copy_rows_block_from (this src : trip) (rows_src n_rows rows_dest nnz_st : nat) : option trip :=
  if (length (t_ent src) <=? length (t_ent this)) && (t_n src <=? t_n this) && (n_rows + rows_src <=? t_m src)
     && (n_rows + rows_dest <=? t_m this) then
    match copy_rows_loop (t_ent this) nnz_st (combine (seq rows_src n_rows) (seq rows_dest n_rows)) (t_ent src) with
    | Some (l, _) => Some (Trip (t_m this) (t_n this) l)
    | None => None
    end
  else None.

(** hiopMatrixSparseTriplet.cpp 671-687 [copyDiagMatrixToSubblock] *)
Definition copy_diag_block (this : trip) (v : K) (dr dc nnz_st n : nat) : option trip :=
  if (n + nnz_st <=? length (t_ent this)) && (n <=? t_n this) && (n + dr <=? t_m this) && (n + dc <=? t_n this) then
    match ofold (fun k l => put l (nnz_st + k) (dr + k, dc + k, v)) (seq 0 n) (t_ent this) with
    | Some l => Some (Trip (t_m this) (t_n this) l)
    | None => None
    end
  else None.

(** the pattern loops: hiopMatrixSparseTriplet.cpp 704-719 (copyDiagMatrixToSubblock_w_pattern),
    1128-1136 (colpattern), 1158-1166 (rowpattern).  [mk i nf x] is the entry written for position
    [i], the [nf]-th selected one, with source value [x]. *)
Fixpoint pattern_loop (mk : nat -> nat -> K -> entry) (dst : list entry) (k i nf : nat)
    (x : list K) (ix : list bool) : option (list entry * nat) :=
  match x, ix with
  | a :: x', b :: ix' =>
      if b then match put dst k (mk i nf a) with
                | Some dst' => pattern_loop mk dst' (S k) (S i) (S nf) x' ix'
                | None => None
                end
      else pattern_loop mk dst k (S i) nf x' ix'
  | _, [] => Some (dst, nf)
  | [], _ :: _ => None
  end.
(** hiopMatrixSparseTriplet.cpp 689-719 *)
Definition copy_diag_w_pattern (this : trip) (dx : list K) (dr dc nnz_st n : nat) (ix : list bool) : option trip :=
  if (n + nnz_st <=? length (t_ent this)) && (n <=? t_n this) && (n + dr <=? t_m this) && (n + dc <=? t_n this) then
    match pattern_loop (fun i nf a => (dr + nf, dc + nf, a)) (t_ent this) nnz_st 0 0 dx ix with
    | Some (l, nf) => if n =? nf then Some (Trip (t_m this) (t_n this) l) else None
    | None => None
    end
  else None.
(** hiopMatrixSparseTriplet.cpp 1110-1138 *)
Definition set_const_diag_colpattern (this : trip) (c : K) (dr dc nnz_st n : nat) (ix : list bool) : option trip :=
  if (length ix + dr <=? t_m this) && (n + dc <=? t_n this) && (nnz_st + n <=? length (t_ent this)) then
    match pattern_loop (fun i nf _ => (dr + i, dc + nf, c)) (t_ent this) nnz_st 0 0 (map (fun _ => c) ix) ix with
    | Some (l, nf) => if n =? nf then Some (Trip (t_m this) (t_n this) l) else None
    | None => None
    end
  else None.
(** hiopMatrixSparseTriplet.cpp 1140-1168 *)
Definition set_const_diag_rowpattern (this : trip) (c : K) (dr dc nnz_st n : nat) (ix : list bool) : option trip :=
  if (n + dr <=? t_m this) && (length ix + dc <=? t_n this) && (nnz_st + n <=? length (t_ent this)) then
    match pattern_loop (fun i nf _ => (dr + nf, dc + i, c)) (t_ent this) nnz_st 0 0 (map (fun _ => c) ix) ix with
    | Some (l, nf) => if n =? nf then Some (Trip (t_m this) (t_n this) l) else None
    | None => None
    end
  else None.

(** hiopMatrixSparseTriplet.cpp 216-232 [copySubDiagonalFrom] *)
Definition copy_sub_diag_from (this : trip) (st n : nat) (d : list K) (nnz_st : nat) (scal : K) : option trip :=
  if (n <=? length d) && (st + n <=? t_m this) then
    match ofold (fun k l => match nth_error d k with
                            | Some v => put l (k + nnz_st) (k + st, k + st, scal *! v)
                            | None => None
                            end) (seq 0 n) (t_ent this) with
    | Some l => Some (Trip (t_m this) (t_n this) l)
    | None => None
    end
  else None.
(** hiopMatrixSparseTriplet.cpp 235-248 [setSubDiagonalTo] *)
Definition set_sub_diag_to (this : trip) (st n : nat) (c : K) (nnz_st : nat) : option trip :=
  if st + n <=? t_m this then
    match ofold (fun k l => put l (k + nnz_st) (k + st, k + st, c)) (seq 0 n) (t_ent this) with
    | Some l => Some (Trip (t_m this) (t_n this) l)
    | None => None
    end
  else None.

(** hiopMatrixSparseTriplet.cpp 1042-1074 [copySubmatrixFrom] and 1076-1108 [copySubmatrixFromTrans]
    ([tr] = transposed) *)
Fixpoint copy_sub_loop (tr od : bool) (dr dc : nat) (dst : list entry) (k : nat) (src : list entry)
  : option (list entry * nat) :=
  match src with
  | [] => Some (dst, k)
  | e :: r =>
      if od && (row e =? col e) then copy_sub_loop tr od dr dc dst k r
      else match put dst k (if tr then (dr + col e, dc + row e, val e) else (dr + row e, dc + col e, val e)) with
           | Some dst' => copy_sub_loop tr od dr dc dst' (S k) r
           | None => None
           end
  end.
(** hiopMatrixSparseTriplet.cpp 1042-1108, with the asserts *)
Definition copy_submatrix (tr : bool) (this src : trip) (dr dc nnz_st : nat) (od : bool) : option trip :=
  let m := if tr then t_n src else t_m src in
  let n := if tr then t_m src else t_n src in
  if (length (t_ent src) <=? length (t_ent this)) && (n + dc <=? t_n this) && (m + dr <=? t_m this)
     && (nnz_st <=? length (t_ent this)) then
    match copy_sub_loop tr od dr dc (t_ent this) nnz_st (t_ent src) with
    | Some (l, k) => if k <=? length (t_ent this) then Some (Trip (t_m this) (t_n this) l) else None
    | None => None
    end
  else None.

(** hiopMatrixSparseTriplet.cpp 1171-1181 [numberOfOffDiagNonzeros] (first call; the value is cached) *)
Definition num_offdiag (A : trip) : nat :=
  length (t_ent A) - length (filter (fun e => row e =? col e) (t_ent A)).

(** hiopMatrixSparseTriplet.cpp 1338-1353 [is_diagonal] *)
Definition is_diagonal (A : trip) : bool :=
  (t_m A =? t_n A) && forallb (fun e => row e =? col e) (t_ent A).

(** hiopMatrixSparseTriplet.cpp 1355-1369 [extract_diagonal]: the last stored entry wins *)
Definition extract_diagonal (A : trip) (len : nat) : option (list K) :=
  if (len =? t_m A) && (len =? t_n A) then
    ofold (fun e d => if row e =? col e then upd d (row e) (val e) else Some d) (t_ent A) (repeat f0 len)
  else None.

(** hiopMatrixSparseTriplet.cpp 1018-1040 [startingAtAddSubDiagonalToStartingAt]; note 1034-1036:
    the destination index is vec_start + row *)
Definition add_sub_diag_to (A : trip) (ds : nat) (alpha : K) (v : list K) (vs : nat) (num : option nat) : option (list K) :=
  let n := match num with Some n => n | None => length v end in
  if (n <=? length v) && (ds + n <=? t_m A) then
    ofold (fun e v' =>
      if (row e =? col e) && (ds <=? row e) && (row e <? ds + n) then
        if row e + vs <? length v then addat v' (vs + row e) (alpha *! val e) else None
      else Some v') (t_ent A) v
  else None.

(** * Feasibility-restoration extensions *)
(** hiopMatrixSparseTriplet.cpp 787-918 [set_Jac_FR].  Both passes (pattern 823-872, values 875-917)
    walk the rows of J_c then J_d through the row starts; the values written are those of the two
    passes together (the copies iJacS, jJacS, MJacS receive the same data). *)
Definition fr_row (J : trip) (s : list nat) (i rd cp cn : nat) : option (list entry) :=
  match nth_error s i, nth_error s (S i) with
  | Some k, Some e =>
      Some (map (fun en => (rd, col en, val en)) (firstn (e - k) (skipn k (t_ent J)))
            ++ [(rd, cp, fopp f1); (rd, cn, f1)])
  | _, _ => None
  end.
(** hiopMatrixSparseTriplet.cpp 787-918 [set_Jac_FR], with the asserts *)
Definition jac_FR (n_ent m_this n_this : nat) (Jc Jd : trip) : option trip :=
  let mc := t_m Jc in let md := t_m Jd in let n := t_n Jc in
  if (t_n Jc =? t_n Jd) && (n_ent =? (length (t_ent Jc) + 2 * mc) + (length (t_ent Jd) + 2 * md)) then
    match row_starts Jc, row_starts Jd with
    | Some sc, Some sd =>
        match ofold (fun i l => match fr_row Jc sc i i (n + i) (n + mc + i) with
                                | Some r => Some (l ++ r) | None => None end) (seq 0 mc) [] with
        | Some l1 =>
            match ofold (fun i l => match fr_row Jd sd i (i + mc) (n + 2 * mc + i) (n + 2 * mc + md + i) with
                                    | Some r => Some (l ++ r) | None => None end) (seq 0 md) l1 with
            | Some l2 => if length l2 =? n_ent then Some (Trip m_this n_this l2) else None
            | None => None
            end
        | None => None
        end
    | _, _ => None
    end
  else None.

(** hiopMatrixSparseTriplet.cpp 1371-1490 [set_Hess_FR]: row [i] of the result starts with the
    diagonal entry [add_diag[i]] (plus the stored diagonal when it is the first entry of the row),
    followed by the remaining stored entries of the row.  [n_ent] = nnz_ of [this]. *)
Definition hess_row (H : trip) (s : list nat) (d : list K) (i : nat) : option (list entry) :=
  match nth_error s i, nth_error s (S i), nth_error d i with
  | Some k, Some e, Some a =>
      let rest := firstn (e - k) (skipn k (t_ent H)) in
      match rest with
      | en :: r => if row en =? col en
                   then Some ((i, i, a +! val en) :: map (fun x => (i, col x, val x)) r)
                   else Some ((i, i, a) :: map (fun x => (i, col x, val x)) rest)
      | [] => Some [(i, i, a)]
      end
  | _, _, _ => None
  end.
(** hiopMatrixSparseTriplet.cpp 1371-1490 [set_Hess_FR], with the asserts *)
Definition hess_FR (this : trip) (H : trip) (d : list K) : option trip :=
  if length (t_ent this) =? 0 then Some this
  else if (t_n H =? t_m H) && (length (t_ent this) =? length d + num_offdiag H)
       && ((t_m H =? 0) || (t_m H =? length d)) then
    match row_starts H with
    | Some s =>
        let ol := if 0 <? t_m H
                  then ofold (fun i l => match hess_row H s d i with Some r => Some (l ++ r) | None => None end)
                             (seq 0 (t_m H)) []
                  else Some (map (fun p => (fst p, fst p, snd p)) (combine (seq 0 (length d)) d)) in
        match ol with
        | Some l => if length l =? length (t_ent this) then Some (Trip (t_m this) (t_n this) l) else None
        | None => None
        end
    | None => None
    end
  else None.
End Sparse.
Arguments Trip {_}. Arguments t_m {_}. Arguments t_n {_}. Arguments t_ent {_}.
Arguments Dense {_}. Arguments d_m {_}. Arguments d_n {_}. Arguments d_arr {_}.
Arguments row {_}. Arguments col {_}. Arguments val {_}.
