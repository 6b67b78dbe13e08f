(** Specification vocabulary for the CSR properties: the rows a CSR object stores and the matrix
    they denote. *)
From Coq Require Import List Bool Arith Sorted.
From Verif Require Import RingKit SparseModel SparseSpec CsrModel.
Import ListNotations.

Section Spec.
Variable K : cfield.
(** [A] stores exactly these rows: lists of (column, value) *)
Definition stores (A : csr K) (rows : list (list (nat * K))) : Prop :=
  length rows = c_m A /\ c_nnz A = length (concat rows) /\
  length (c_ptr A) = S (c_m A) /\
  (forall i r, nth_error rows i = Some r ->
     nth_error (c_ptr A) i = Some (length (concat (firstn i rows))) /\
     nth_error (c_ptr A) (S i) = Some (length (concat (firstn i rows)) + length r)) /\
  nth_error (c_ptr A) (c_m A) = Some (c_nnz A) /\
  c_col A = map fst (concat rows) /\ c_val A = map snd (concat rows) /\
  Forall (Forall (fun p => fst p < c_n A)) rows.
(** columns strictly increase in every row *)
Definition ordered (rows : list (list (nat * K))) : Prop :=
  Forall (StronglySorted (fun a b => fst a < fst b)) rows.
(** the denoted matrix *)
Definition cmat (rows : list (list (nat * K))) (i j : nat) : K :=
  lsum (map (fun p => if fst p =? j then snd p else f0) (nth i rows [])).
(** pattern *)
Definition pattern (rows : list (list (nat * K))) : list (list nat) := map (map fst) rows.
(** arrays allocated with the sizes of the object (any content) *)
Definition allocated (A : csr K) : Prop :=
  length (c_ptr A) = S (c_m A) /\ length (c_col A) = c_nnz A /\ length (c_val A) = c_nnz A.
(** same positions, possibly different values *)
Definition same_positions (l1 l2 : list (entry K)) : Prop :=
  map (fun e => (row e, col e)) l1 = map (fun e => (row e, col e)) l2.
(** position (i,j) is stored *)
Definition stored (rows : list (list (nat * K))) (i j : nat) : Prop := In j (map fst (nth i rows [])).
End Spec.
Arguments stores {_}. Arguments ordered {_}. Arguments cmat {_}. Arguments pattern {_}.
Arguments same_positions {_}. Arguments stored {_}.
