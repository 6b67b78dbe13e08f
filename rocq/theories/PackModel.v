(** Model of the copy kernels of /repo/src/LinAlg/hiopVectorPar.cpp on one rank.  The kernels only
    move values, so the element type is arbitrary.  A pattern entry is [true] when the C++ pattern
    array holds 1.0.  Failed asserts and accesses outside an array give [None].  Indices are
    natural numbers (callers pass offsets and sizes, never negative). *)
From Coq Require Import List Bool Arith.
Import ListNotations.

Section Pack.
Variable A : Type.

(** a write [arr[i] = v]; as in hiopVectorPar.cpp 194-460 *)
Fixpoint upd (l : list A) (i : nat) (v : A) : option (list A) :=
  match l, i with
  | [], _ => None
  | _ :: r, O => Some (v :: r)
  | x :: r, S j => match upd r j v with Some r' => Some (x :: r') | None => None end
  end.

(** hiopVectorPar.cpp 179-191 [copy_from_w_pattern] *)
Fixpoint copy_from_w_pattern (dst v : list A) (sel : list bool) : option (list A) :=
  match dst, v, sel with
  | [], _, [] => Some []
  | d :: dst', x :: v', s :: sel' =>
      match copy_from_w_pattern dst' v' sel' with
      | Some r => Some ((if s then x else d) :: r)
      | None => None
      end
  | _, _, _ => None
  end.

(** hiopVectorPar.cpp 194-208 [copy_from_indexes]: the new content of [this]; the number of indices
    must be the size of [this] (197) *)
Fixpoint gather (v : list A) (idx : list nat) : option (list A) :=
  match idx with
  | [] => Some []
  | i :: r => match nth_error v i, gather v r with Some x, Some l => Some (x :: l) | _, _ => None end
  end.
(** hiopVectorPar.cpp 194-208 [copy_from_indexes], the whole array *)
Definition copy_from_indexes (this v : list A) (idx : list nat) : option (list A) :=
  if length idx =? length this then gather v idx else None.

(** a block copy of [n] entries, [dst[ds..ds+n) = src[ss..ss+n)] (ExecSpace::copy, used at
    hiopVectorPar.cpp 222-236, 252-296, 402-434); [None] when either range leaves its array *)
Definition block_copy (dst src : list A) (ds ss n : nat) : option (list A) :=
  if (ds + n <=? length dst) && (ss + n <=? length src)
  then Some (firstn ds dst ++ firstn n (skipn ss src) ++ skipn (ds + n) dst)
  else None.

(** hiopVectorPar.cpp 228-236 [copyFromStarting(start,v)] *)
Definition copy_from_starting (this v : list A) (start : nat) : option (list A) :=
  if start + length v <=? length this then block_copy this v start 0 (length v) else None.
(** hiopVectorPar.cpp 285-294 [copyToStarting(start, v)]: fills [v] from [this[start..]] *)
Definition copy_to_starting (this v : list A) (start : nat) : option (list A) :=
  if start + length v <=? length this then block_copy v this 0 start (length v) else None.
(** hiopVectorPar.cpp 257-283 [startingAtCopyFromStartingAt] *)
Definition starting_copy_from (this : list A) (ds : nat) (v : list A) (ss : nat) : option (list A) :=
  if ((ds <? length this) || (length this =? 0)) &&
     ((ss <? length v) || (length v =? 0) || (length v =? ss)) then
    let nd := length this - ds in let ns := length v - ss in
    if (nd =? 0) || (ns =? 0) then Some this
    else if nd <=? ns then block_copy this v ds ss nd else None
  else None.
(** hiopVectorPar.cpp 402-426 [startingAtCopyToStartingAt]; [num] is [None] for a negative count *)
Definition starting_copy_to (this : list A) (ss : nat) (dest : list A) (ds : nat) (num : option nat)
  : option (list A) :=
  if (ss <=? length this) && (ds <=? length dest) then
    match num with
    | None => block_copy dest this ds ss (min (length this - ss) (length dest - ds))
    | Some n =>
        if ((ss =? length this) || (ds =? length dest)) && negb (n =? 0) then None
        else if (n + ss <=? length this) && (n + ds <=? length dest)
        then block_copy dest this ds ss (min (min n (length this - ss)) (length dest - ds))
        else None
    end
  else None.

(** hiopVectorPar.cpp 320-330 [copyToStartingAt_w_pattern]: [k] is [start_index+find_nnz] *)
Fixpoint pack_loop (this : list A) (sel : list bool) (v : list A) (k : nat) : option (list A) :=
  match this, sel with
  | [], [] => Some v
  | x :: this', s :: sel' =>
      if s then match upd v k x with Some v' => pack_loop this' sel' v' (S k) | None => None end
      else pack_loop this' sel' v k
  | _, _ => None
  end.
(** hiopVectorPar.cpp 320-330 [copyToStartingAt_w_pattern], from [start] *)
Definition copy_to_w_pattern (this : list A) (v : list A) (start : nat) (sel : list bool) :=
  pack_loop this sel v start.

(** hiopVectorPar.cpp 436-455 [startingAtCopyToStartingAt_w_pattern], the loop from [start_idx_dest]
    on: [num] entries left to copy, [src] = what remains of the source *)
Fixpoint unpack_loop (dest : list A) (ix : list bool) (src : list A) (num : nat) : option (list A) :=
  match dest with
  | [] => Some []
  | d :: dest' =>
      match num with
      | O => Some dest
      | S n =>
          match ix with
          | [] => None
          | true :: ix' =>
              match src with
              | [] => None
              | x :: src' => match unpack_loop dest' ix' src' n with
                             | Some r => Some (x :: r) | None => None end
              end
          | false :: ix' => match unpack_loop dest' ix' src num with
                            | Some r => Some (d :: r) | None => None end
          end
      end
  end.
(** hiopVectorPar.cpp 436-455 [startingAtCopyToStartingAt_w_pattern] *)
Definition starting_copy_to_w_pattern (this : list A) (ss : nat) (dest : list A) (ds : nat)
    (ix : list bool) (num : option nat) : option (list A) :=
  if (ss <=? length this) && (ds <=? length dest) then
    let go n := match unpack_loop (skipn ds dest) (skipn ds ix) (skipn ss this) n with
                | Some r => Some (firstn ds dest ++ r) | None => None end in
    match num with
    | None => go (min (length this - ss) (length dest - ds))
    | Some n => if (n + ss <=? length this) && (n + ds <=? length dest)
                then go (min (min n (length this - ss)) (length dest - ds)) else None
    end
  else None.

(** hiopVectorPar.cpp 356-362, 363-365: [arr[map[i]] = c[i]] for all i *)
Fixpoint scatter (arr : list A) (m : list nat) (c : list A) : option (list A) :=
  match m, c with
  | [], [] => Some arr
  | i :: m', x :: c' => match upd arr i x with Some a => scatter a m' c' | None => None end
  | _, _ => None
  end.
(** hiopVectorPar.cpp 343-359 [copy_from_two_vec_w_pattern] *)
Definition merge (this c : list A) (cm : list nat) (d : list A) (dm : list nat) : option (list A) :=
  if (length c =? length cm) && (length d =? length dm) && (length c + length d =? length this) then
    match scatter this cm c with Some a => scatter a dm d | None => None end
  else None.
(** hiopVectorPar.cpp 372-387 [copy_to_two_vec_w_pattern]; [c], [d] only contribute their sizes *)
Definition split (this c : list A) (cm : list nat) (d : list A) (dm : list nat)
  : option (list A * list A) :=
  if (length c =? length cm) && (length d =? length dm) && (length c + length d =? length this) then
    match gather this cm, gather this dm with
    | Some c', Some d' => Some (c', d')
    | _, _ => None
    end
  else None.

(** hiopVectorPar.cpp 238-255 [copy_from_starting_at] for a vector that is not distributed
    ([glob_il_ = 0], [glob_iu_ = n_local_ = n_]); [v] is the source array *)
Definition copy_from_starting_at (this v : list A) (start nv : nat) : option (list A) :=
  let n := length this in
  if 0 <? n then
    if nv =? n then block_copy this v 0 start nv
    else if start <=? n then
      let ls := if start =? 0 then 0 else start in
      let le := if n <=? start + nv then n else start in
      block_copy this v 0 ls (le - ls)
    else Some this
  else Some this.
End Pack.
Arguments copy_from_starting_at {A}.
Arguments upd {A}. Arguments gather {A}. Arguments scatter {A}. Arguments merge {A}. Arguments split {A}.
Arguments block_copy {A}. Arguments pack_loop {A}. Arguments unpack_loop {A}.
Arguments copy_to_w_pattern {A}. Arguments starting_copy_to_w_pattern {A}.
Arguments starting_copy_to {A}. Arguments starting_copy_from {A}. Arguments copy_from_w_pattern {A}.
Arguments copy_from_indexes {A}. Arguments copy_from_starting {A}. Arguments copy_to_starting {A}.
