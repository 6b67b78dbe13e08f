(** Model of /repo/src/LinAlg/hiopMatrixSparseCSRSeq.cpp (CPU matrices in compressed row format).
    Doubles are elements of a field.  A failed assert, a null-pointer access and an access outside an
    array give [None].  The content of freshly allocated arrays is unspecified: it is taken from a
    [junk] argument over which the theorems quantify. *)
From Coq Require Import List Bool Arith.
From Verif Require Import RingKit PackModel SparseModel.
Import ListNotations.

Section Csr.
Variable K : cfield.

(** hiopMatrixSparseCSRSeq.hpp members nrows_, ncols_, nnz_, irowptr_, jcolind_, values_,
    row_starts_ ([None] = nullptr).  A null irowptr_ is the empty list (an allocated one has
    nrows_+1 entries); hiopMatrixSparse.hpp 384-386, hiopMatrixSparseCSRSeq.hpp 590-605 *)
Record csr := Csr { c_m : nat; c_n : nat; c_nnz : nat; c_ptr : list nat; c_col : list nat;
                    c_val : list K; c_rs : option (list nat) }.
(** unspecified content of new memory (hiopMatrixSparseCSRSeq.cpp 116-118: [new] without
    initialisation) *)
Record junk := Junk { j_ix : nat -> nat; j_v : nat -> K }.
(** hiopMatrixSparseCSRSeq.cpp 110-124 [alloc] *)
Definition alloc (J : junk) (m n nnz : nat) : csr :=
  Csr m n nnz (map (j_ix J) (seq 0 (S m))) (map (j_ix J) (seq 0 nnz)) (map (j_v J) (seq 0 nnz)) None.
(** hiopMatrixSparseCSRSeq.cpp 94-102, default constructor *)
Definition null_csr : csr := Csr 0 0 0 [] [] [] None.
(** hiopMatrixSparseCSRSeq.cpp 78-92, constructor with sizes *)
Definition new_csr (J : junk) (m n nnz : nat) : option csr :=
  if (m =? 0) || (n =? 0) then if nnz =? 0 then Some (Csr m n 0 [] [] [] None) else None
  else Some (alloc J m n nnz).

(** one row read through the pointers: the loop [for(pt=irowptr[i]; pt<irowptr[i+1]; pt++)] reading
    jcolind[pt] and values[pt] (e.g. hiopMatrixSparseCSRSeq.cpp 763-778) *)
Definition crow (A : csr) (i : nat) : option (list (nat * K)) :=
  match nth_error (c_ptr A) i, nth_error (c_ptr A) (S i) with
  | Some a, Some b =>
      if a <? b then
        if (b <=? length (c_col A)) && (b <=? length (c_val A))
        then Some (combine (firstn (b - a) (skipn a (c_col A))) (firstn (b - a) (skipn a (c_val A))))
        else None
      else Some []
  | _, _ => None
  end.
(** all rows in order, [for(i=0; i<nrows; i++)] around the previous loop; the row loops of hiopMatrixSparseCSRSeq.cpp, e.g. 949-954 and 1185-1196 *)
Fixpoint crows_from (A : csr) (n i : nat) : option (list (list (nat * K))) :=
  match n with
  | O => Some []
  | S n' => match crow A i, crows_from A n' (S i) with Some r, Some l => Some (r :: l) | _, _ => None end
  end.
(** all rows of the matrix: the same loops (hiopMatrixSparseCSRSeq.cpp 949-954, 1185-1196) *)
Definition crows (A : csr) : option (list (list (nat * K))) := crows_from A (c_m A) 0.

(** * Triplet to CSR: hiopMatrixSparseCSRSeq.cpp 813-865 [form_from_symbolic] *)
(** the debug check 842-848 *)
Fixpoint sorted_check (l : list (entry K)) : bool :=
  match l with
  | a :: (b :: _) as r => (row a <=? row b) && (negb (row a =? row b) || (col a <? col b)) && sorted_check r
  | _ => true
  end.
(** counting loops [w[r]++] (853; 909-912; 1040-1043); the vector has [n] zeros before *)
Definition counts (n : nat) (rs : list nat) : option (list nat) :=
  ofold (fun r w => match nth_error w r with Some x => upd w r (S x) | None => None end) rs (repeat 0 n).
(** cumulative sums into irowptr (858-861; 915-919; 1046-1050) *)
Fixpoint psum (s : nat) (w : list nat) : list nat :=
  match w with [] => [s] | c :: r => s :: psum (s + c) r end.
(** reuse or reallocation 815-823 (877-887, 1010-1018 with the dimensions exchanged) *)
Definition sized (J : junk) (this : csr) (m n nnz : nat) : csr :=
  if (m =? c_m this) && (n =? c_n this) && (nnz =? c_nnz this) then this else alloc J m n nnz.
(** each jcolind_[it] is written once (855), so the new array is the list of column indices *)
Definition form_from_symbolic (J : junk) (this : csr) (M : trip K) : option csr :=
  let nnz := length (t_ent M) in
  let t := sized J this (t_m M) (t_n M) nnz in
  if nnz =? 0 then Some t
  else if sorted_check (t_ent M) && forallb (fun e => (row e <? t_m M) && (col e <? t_n M)) (t_ent M)
          && (length (c_ptr t) =? S (t_m M)) && (length (c_col t) =? nnz) then
    match counts (t_m M) (map row (t_ent M)) with
    | Some w =>
        if last (psum 0 w) 0 =? nnz
        then Some (Csr (t_m M) (t_n M) nnz (psum 0 w) (map col (t_ent M)) (c_val t) (c_rs t)) else None
    | None => None
    end
  else None.
(** hiopMatrixSparseCSRSeq.cpp 867-875 [form_from_numeric] *)
Definition form_from_numeric (this : csr) (M : trip K) : option csr :=
  if negb (length (c_ptr this) =? 0) && (c_m this =? t_m M) && (c_n this =? t_n M)
     && (c_nnz this =? length (t_ent M)) && (length (c_val this) =? c_nnz this) then
    Some (Csr (c_m this) (c_n this) (c_nnz this) (c_ptr this) (c_col this) (map val (t_ent M)) (c_rs this))
  else None.

(** * Transposition *)
(** the scatter loops 924-941 (columns, triplet), 981-997 (values, triplet), 1055-1073 (columns,
    CSR), 1119-1138 (values, CSR): items are (row of the result, payload) in loop order *)
Fixpoint scatter {A} (nnz : nat) (ptr rs : list nat) (arr : list A) (items : list (nat * A))
  : option (list A * list nat) :=
  match items with
  | [] => Some (arr, rs)
  | (r, v) :: t =>
      match nth_error rs r, nth_error ptr (S r) with
      | Some k, Some e =>
          if (k <? nnz) && (S k <=? e) then
            match upd arr k v, upd rs r (S k) with
            | Some arr', Some rs' => scatter nnz ptr rs' arr' t
            | _, _ => None
            end
          else None
      | _, _ => None
      end
  end.
(** the roll-back of row_starts_ 944-947 (999-1002, 1076-1079, 1141-1144); nrows_ = 0 would write
    outside the array *)
Definition rollback (rs : list nat) : option (list nat) :=
  match rs with [] => None | _ => Some (0 :: removelast rs) end.
(** the debug check 949-954 (and 973-979, 1081-1086, 1105-1111): consecutive columns increase *)
Fixpoint incr (l : list nat) : bool :=
  match l with a :: (b :: _) as r => (a <? b) && incr r | _ => true end.
(** the same check on every row (hiopMatrixSparseCSRSeq.cpp 949-954) *)
Definition rows_check (A : csr) : bool :=
  match crows A with Some rows => forallb (fun r => incr (map fst r)) rows | None => false end.
(** common part of the symbolic transpositions: [ks] = (row of the result, column of the result); hiopMatrixSparseCSRSeq.cpp 877-962, 1007-1095 *)
Definition transpose_symbolic (J : junk) (this : csr) (m n : nat) (ks : list (nat * nat)) : option csr :=
  let nnz := length ks in
  let t := sized J this m n nnz in
  if nnz =? 0 then Some t
  else match c_rs t with
  | Some _ => None
  | None =>
      if (length (c_ptr t) =? S m) && forallb (fun k => snd k <? n) ks then
        match counts m (map fst ks) with
        | Some w =>
            let ptr := psum 0 w in
            if last ptr 0 =? nnz then
              match scatter nnz ptr (removelast ptr) (c_col t) ks with
              | Some (cols, rs) =>
                  match rollback rs with
                  | Some rs' => let A := Csr m n nnz ptr cols (c_val t) (Some rs') in
                                if rows_check A then Some A else None
                  | None => None
                  end
              | None => None
              end
            else None
        | None => None
        end
      else None
  end.
(** hiopMatrixSparseCSRSeq.cpp 877-962 [form_transpose_from_symbolic(triplet)] *)
Definition transpose_symbolic_trip (J : junk) (this : csr) (M : trip K) : option csr :=
  transpose_symbolic J this (t_n M) (t_m M) (map (fun e => (col e, row e)) (t_ent M)).
(** hiopMatrixSparseCSRSeq.cpp 1007-1095 [form_transpose_from_symbolic(CSR)]; the matrix M is read
    through its row pointers unless it has no nonzeros (1022-1024) *)
Definition transpose_symbolic_csr (J : junk) (this M : csr) : option csr :=
  if c_nnz M =? 0 then Some (sized J this (c_n M) (c_m M) 0)
  else match crows M with
  | Some rows =>
      if length (concat rows) =? c_nnz M then
        transpose_symbolic J this (c_n M) (c_m M)
          (concat (map (fun p => map (fun e => (fst e, fst p)) (snd p)) (combine (seq 0 (c_m M)) rows)))
      else None
  | None => None
  end.
(** common part of the numeric transpositions; hiopMatrixSparseCSRSeq.cpp 964-1005, 1097-1130 *)
Definition transpose_numeric (this : csr) (m n : nat) (vs : list (nat * K)) : option csr :=
  match c_rs this with
  | Some rs =>
      if negb (length (c_ptr this) =? 0) && (c_m this =? m) && (c_n this =? n) && (c_nnz this =? length vs)
         && rows_check this then
        match scatter (c_nnz this) (c_ptr this) rs (c_val this) vs with
        | Some (vals, rs') =>
            match rollback rs' with
            | Some rs2 => Some (Csr (c_m this) (c_n this) (c_nnz this) (c_ptr this) (c_col this) vals (Some rs2))
            | None => None
            end
        | None => None
        end
      else None
  | None => None
  end.
(** hiopMatrixSparseCSRSeq.cpp 964-1005 *)
Definition transpose_numeric_trip (this : csr) (M : trip K) : option csr :=
  transpose_numeric this (t_n M) (t_m M) (map (fun e => (col e, val e)) (t_ent M)).
(** hiopMatrixSparseCSRSeq.cpp 1097-1145 *)
Definition transpose_numeric_csr (this M : csr) : option csr :=
  match crows M with
  | Some rows => if length (concat rows) =? c_nnz M then transpose_numeric this (c_n M) (c_m M) (concat rows) else None
  | None => None
  end.

(** * Diagonal matrices and scaling *)
(** hiopMatrixSparseCSRSeq.cpp 1148-1170 [form_diag_from_symbolic]; [m] = D.get_size() *)
Definition diag_symbolic (J : junk) (this : csr) (m : nat) : option csr :=
  let t := sized J this m m m in
  if (length (c_ptr t) =? S m) && (length (c_col t) =? m)
  then Some (Csr m m m (seq 0 (S m)) (seq 0 m) (c_val t) (c_rs t)) else None.
(** hiopMatrixSparseCSRSeq.cpp 1178-1182 [form_diag_from_numeric] *)
Definition diag_numeric (this : csr) (D : list K) : option csr :=
  let m := length D in
  if (m =? c_n this) && (m =? c_m this) && (m =? c_nnz this) && (length (c_val this) =? m)
  then Some (Csr (c_m this) (c_n this) (c_nnz this) (c_ptr this) (c_col this) D (c_rs this)) else None.
(** in-place update of the values of one row, [s] is carried along; the inner loops of hiopMatrixSparseCSRSeq.cpp 1185-1209 *)
Definition upd_row {S} (f : nat -> K -> S -> option (K * S)) (cols : list nat) (a b : nat)
    (st : list K * S) : option (list K * S) :=
  ofold (fun p st => let '(vals, s) := st in
    match nth_error cols p, nth_error vals p with
    | Some j, Some v => match f j v s with
                        | Some (v', s') => match upd vals p v' with Some vals' => Some (vals', s') | None => None end
                        | None => None
                        end
    | _, _ => None
    end) (seq a (b - a)) st.
(** a matrix with other content of values_ (hiopMatrixSparseCSRSeq.hpp 590-605) *)
Definition with_vals (A : csr) (v : list K) : csr :=
  Csr (c_m A) (c_n A) (c_nnz A) (c_ptr A) (c_col A) v (c_rs A).
(** hiopMatrixSparseCSRSeq.cpp 1185-1196 [scale_cols] and 1199-1209 [scale_rows] *)
Definition scale_loop (f : nat -> nat -> K -> option K) (A : csr) : option csr :=
  match ofold (fun i st =>
          match nth_error (c_ptr A) i, nth_error (c_ptr A) (S i) with
          | Some a, Some b => upd_row (fun j v s => match f i j v with Some v' => Some (v', s) | None => None end)
                                      (c_col A) a b st
          | _, _ => None
          end) (seq 0 (c_m A)) (c_val A, tt) with
  | Some (v, _) => Some (with_vals A v)
  | None => None
  end.
(** hiopMatrixSparseCSRSeq.cpp 1185-1196 [scale_cols] *)
Definition scale_cols (A : csr) (D : list K) : option csr :=
  if c_n A =? length D then
    scale_loop (fun i j v => match nth_error D j with Some d => Some (v *! d) | None => None end) A
  else None.
(** hiopMatrixSparseCSRSeq.cpp 1199-1209 [scale_rows] *)
Definition scale_rows (A : csr) (D : list K) : option csr :=
  if c_m A =? length D then
    scale_loop (fun i j v => match nth_error D i with Some d => Some (v *! d) | None => None end) A
  else None.
(** the loops with [break] over the first stored (i,i): set_diagonal 1454-1465, addDiagonal 232-262;
    a row without stored diagonal is left alone *)
Fixpoint find_diag (cols : list nat) (i p n : nat) : option (option nat) :=
  match n with
  | O => Some None
  | S n' => match nth_error cols p with
            | Some j => if j =? i then Some (Some p) else find_diag cols i (S p) n'
            | None => None
            end
  end.
(** the loop over the rows around it (hiopMatrixSparseCSRSeq.cpp 1454-1465, 232-262) *)
Definition diag_loop (f : nat -> K -> option K) (A : csr) : option csr :=
  if length (c_ptr A) =? 0 then None else
  match ofold (fun i vals =>
          match nth_error (c_ptr A) i, nth_error (c_ptr A) (S i) with
          | Some a, Some b =>
              match find_diag (c_col A) i a (b - a) with
              | Some (Some p) =>
                  match nth_error vals p with
                  | Some v => match f i v with Some v' => upd vals p v' | None => None end
                  | None => None
                  end
              | Some None => Some vals
              | None => None
              end
          | _, _ => None
          end) (seq 0 (c_m A)) (c_val A) with
  | Some v => Some (with_vals A v)
  | None => None
  end.
(** hiopMatrixSparseCSRSeq.cpp 1454-1465 [set_diagonal] *)
Definition set_diagonal (A : csr) (c : K) : option csr := diag_loop (fun _ _ => Some c) A.
(** hiopMatrixSparseCSRSeq.cpp 232-262 [addDiagonal], a constant *)
Definition add_diagonal_const (A : csr) (c : K) : option csr := diag_loop (fun _ v => Some (v +! c)) A.
(** hiopMatrixSparseCSRSeq.cpp 232-262 [addDiagonal], a vector *)
Definition add_diagonal (A : csr) (alpha : K) (D : list K) : option csr :=
  if (length D =? c_m A) && (length D =? c_n A) then
    diag_loop (fun i v => match nth_error D i with Some d => Some (v +! alpha *! d) | None => None end) A
  else None.

(** * Products *)
(** hiopMatrixSparseCSRSeq.cpp 590-634 [times_mat_alloc]: count with flags *)
Definition flag_add (n : nat) (st : list bool * nat) (j : nat) : option (list bool * nat) :=
  if j <? n then
    match nth_error (fst st) j with
    | Some false => match upd (fst st) j true with Some fl => Some (fl, S (snd st)) | None => None end
    | Some true => Some st
    | None => None
    end
  else None.
(** hiopMatrixSparseCSRSeq.cpp 590-634 [times_mat_alloc], the loop over the rows of X *)
Definition times_mat_alloc (J : junk) (X Y : csr) : option csr :=
  if c_m Y =? c_n X then
    match ofold (fun i cnt =>
            match crow X i with
            | Some xr =>
                match ofold (fun e st =>
                        if fst e <? c_n X then
                          match crow Y (fst e) with
                          | Some yr => ofold (fun e' st => flag_add (c_n Y) st (fst e')) yr st
                          | None => None
                          end
                        else None) xr (repeat false (c_n Y), cnt) with
                | Some st => Some (snd st)
                | None => None
                end
            | None => None
            end) (seq 0 (c_m X)) 0 with
    | Some nnz => new_csr J (c_m X) (c_n Y) nnz
    | None => None
    end
  else None.
(** std::set insertion; hiopMatrixSparseCSRSeq.cpp 651-725 *)
Fixpoint ins (j : nat) (l : list nat) : list nat :=
  match l with
  | [] => [j]
  | a :: r => if j <? a then j :: l else if j =? a then l else a :: ins j r
  end.
(** hiopMatrixSparseCSRSeq.cpp 651-725 [times_mat_symbolic]: the ordered columns of each row are
    appended to jcolindM, which must have room (718) *)
Definition sym_row (X Y : csr) (i : nat) : option (list nat) :=
  match crow X i with
  | Some xr =>
      ofold (fun e s =>
        if fst e <? c_n X then
          match crow Y (fst e) with
          | Some yr => ofold (fun e' s => if fst e' <? c_n Y then Some (ins (fst e') s) else None) yr s
          | None => None
          end
        else None) xr []
  | None => None
  end.
(** a loop over the rows whose body may fail (hiopMatrixSparseCSRSeq.cpp 651-725, 1231-1256) *)
Fixpoint omap {A B} (f : A -> option B) (l : list A) : option (list B) :=
  match l with
  | [] => Some []
  | x :: r => match f x, omap f r with Some y, Some r' => Some (y :: r') | _, _ => None end
  end.
(** hiopMatrixSparseCSRSeq.cpp 651-725 [times_mat_symbolic], the loop over the rows *)
Definition times_mat_symbolic (X M Y : csr) : option csr :=
  if (c_m M =? c_m X) && (c_n M =? c_n Y) && (c_m Y =? c_n X) && (length (c_ptr M) =? S (c_m M)) then
    match omap (sym_row X Y) (seq 0 (c_m X)) with
    | Some rows =>
        let out := concat rows in
        if length out <=? c_nnz M
        then Some (Csr (c_m M) (c_n M) (c_nnz M) (psum 0 (map (@length nat) rows))
                       (out ++ skipn (length out) (c_col M)) (c_val M) (c_rs M))
        else None
    | None => None
    end
  else None.
(** hiopMatrixSparseCSRSeq.cpp 728-811 [times_mat_numeric].  The three cases for beta (747-760) all
    multiply the values by beta (memory set to zero for beta = 0).  [W] is the dense work row. *)
Definition num_scatter (X Y : csr) (i : nat) (W : list K) : option (list K) :=
  match crow X i with
  | Some xr =>
      ofold (fun e W =>
        if fst e <? c_n X then
          match crow Y (fst e) with
          | Some yr => ofold (fun e' W => if fst e' <? c_n Y then addat K W (fst e') (snd e' *! snd e) else None) yr W
          | None => None
          end
        else None) xr W
  | None => None
  end.
(** hiopMatrixSparseCSRSeq.cpp 728-811 [times_mat_numeric], the loop over the rows *)
Definition times_mat_numeric (X : csr) (beta : K) (M : csr) (alpha : K) (Y : csr) : option csr :=
  if (c_m M =? c_m X) && (c_n M =? c_n Y) && (c_m Y =? c_n X) then
    match ofold (fun i st =>
            match num_scatter X Y i (snd st) with
            | Some W =>
                match nth_error (c_ptr M) i, nth_error (c_ptr M) (S i) with
                | Some a, Some b =>
                    if incr (firstn (b - a) (skipn a (c_col M))) then
                      upd_row (fun j v W => match nth_error W j with
                                            | Some w => match upd W j f0 with Some W' => Some (v +! alpha *! w, W') | None => None end
                                            | None => None
                                            end) (c_col M) a b (fst st, W)
                    else None
                | _, _ => None
                end
            | None => None
            end) (seq 0 (c_m X)) (map (fun v => v *! beta) (c_val M), repeat f0 (c_n Y)) with
    | Some (v, _) => Some (with_vals M v)
    | None => None
    end
  else None.

(** * Sums *)
(** merging loops of add_matrix_alloc (1231-1256), add_matrix_symbolic (1302-1338) and
    add_matrix_numeric (1386-1443), one row *)
Fixpoint merge_count (xs : list nat) : list nat -> nat :=
  fix go (ys : list nat) : nat :=
    match xs, ys with
    | jx :: xs', jy :: ys' =>
        S (if jx <? jy then merge_count xs' ys else if jx =? jy then merge_count xs' ys' else go ys')
    | _, _ => length xs + length ys
    end.
(** the columns of the merged row (hiopMatrixSparseCSRSeq.cpp 1231-1256, 1302-1338) *)
Fixpoint merge_cols (xs : list nat) : list nat -> list nat :=
  fix go (ys : list nat) : list nat :=
    match xs, ys with
    | jx :: xs', jy :: ys' =>
        if jx <? jy then jx :: merge_cols xs' ys
        else if jx =? jy then jx :: merge_cols xs' ys' else jy :: go ys'
    | _, _ => xs ++ ys
    end.
(** the values of the merged row (hiopMatrixSparseCSRSeq.cpp 1386-1443) *)
Fixpoint merge_vals (alpha beta : K) (xs : list (nat * K)) : list (nat * K) -> list K :=
  fix go (ys : list (nat * K)) : list K :=
    match xs, ys with
    | (jx, x) :: xs', (jy, y) :: ys' =>
        if jx <? jy then (f0 +! alpha *! x) :: merge_vals alpha beta xs' ys
        else if jx =? jy then (f0 +! (alpha *! x +! beta *! y)) :: merge_vals alpha beta xs' ys'
        else (f0 +! beta *! y) :: go ys'
    | _, _ => map (fun p => f0 +! alpha *! snd p) xs ++ map (fun p => f0 +! beta *! snd p) ys
    end.
(** both rows [i], with the asserts jX<ncols_, jY<ncols_; hiopMatrixSparseCSRSeq.cpp 1231-1256, 1302-1338, 1386-1443 *)
Definition two_rows (X Y : csr) : option (list (list (nat * K) * list (nat * K))) :=
  if (c_m X =? c_m Y) && (c_n X =? c_n Y) then
    omap (fun i => match crow X i, crow Y i with
                   | Some xr, Some yr =>
                       if forallb (fun e => fst e <? c_n X) (xr ++ yr) then Some (xr, yr) else None
                   | _, _ => None
                   end) (seq 0 (c_m X))
  else None.
(** hiopMatrixSparseCSRSeq.cpp 1212-1263 *)
Definition add_matrix_alloc (J : junk) (X Y : csr) : option csr :=
  match two_rows X Y with
  | Some l => new_csr J (c_m X) (c_n X)
                (fold_right Nat.add 0 (map (fun p => merge_count (map fst (fst p)) (map fst (snd p))) l))
  | None => None
  end.
(** hiopMatrixSparseCSRSeq.cpp 1270-1343; M's row pointers must be allocated, the number of written
    columns must be nnz (1341) *)
Definition add_matrix_symbolic (X M Y : csr) : option csr :=
  match two_rows X Y with
  | Some l =>
      let rows := map (fun p => merge_cols (map fst (fst p)) (map fst (snd p))) l in
      if (length (concat rows) =? c_nnz M) && (length (c_ptr M) =? S (c_m X)) && (length (c_col M) =? c_nnz M)
      then Some (Csr (c_m M) (c_n M) (c_nnz M) (psum 0 (map (@length nat) rows)) (concat rows) (c_val M) (c_rs M))
      else None
  | None => None
  end.
(** hiopMatrixSparseCSRSeq.cpp 1348-1452; values are cleared first (1373-1376) and each one is
    written once in order; final assert 1451 *)
Definition add_matrix_numeric (X M : csr) (alpha : K) (Y : csr) (beta : K) : option csr :=
  match two_rows X Y with
  | Some l =>
      let vals := concat (map (fun p => merge_vals alpha beta (fst p) (snd p)) l) in
      if (length vals =? c_nnz M) && (length (c_val M) =? c_nnz M) then Some (with_vals M vals) else None
  | None => None
  end.

(** hiopMatrixSparseCSRSeq.cpp 1467-1491 [check_csr_is_ordered] *)
Definition check_csr_is_ordered (A : csr) : option bool :=
  match crows A with Some rows => Some (forallb (fun r => incr (map fst r)) rows) | None => None end.
End Csr.
Arguments Csr {_}. Arguments c_m {_}. Arguments c_n {_}. Arguments c_nnz {_}. Arguments c_ptr {_}.
Arguments c_col {_}. Arguments c_val {_}. Arguments c_rs {_}. Arguments crow {_}. Arguments crows {_}.
Arguments crows_from {_}.
Arguments with_vals {_}.
