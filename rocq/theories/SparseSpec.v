(** Specification vocabulary for the triplet matrix properties: which matrix a list of triplets
    denotes, sortedness, and dense matrices as functions. *)
From Coq Require Import List Bool Arith Sorted.
From Verif Require Import RingKit SparseModel.
Import ListNotations.

Section Spec.
Variable K : cfield.

(** the matrix denoted by a list of triplets: duplicates are summed, missing entries are zero *)
Definition mat (l : list (entry K)) (i j : nat) : K :=
  lsum (map (fun e => if (row e =? i) && (col e =? j) then val e else f0) l).
(** the symmetric matrix of which the list stores one triangle *)
Definition symmat (l : list (entry K)) (i j : nat) : K :=
  if i =? j then mat l i i else mat l i j +! mat l j i.
(** all stored indices are inside the matrix *)
Definition wf (A : trip K) : Prop := forall e, In e (t_ent A) -> row e < t_m A /\ col e < t_n A.
(** vector component *)
Definition at_ (x : list K) (i : nat) : K := nth i x f0.
(** rows nondecreasing *)
Definition row_sorted (l : list (entry K)) : Prop := StronglySorted (fun a b => row a <= row b) l.
(** strictly increasing (row, column): no duplicates *)
Definition sorted (l : list (entry K)) : Prop :=
  StronglySorted (fun a b => row a < row b \/ row a = row b /\ col a < col b) l.
(** dense matrix as a function *)
Definition dmat (W : dense K) (i j : nat) : K := nth (i * d_n W + j) (d_arr W) f0.
Definition dwf (W : dense K) : Prop := length (d_arr W) = d_m W * d_n W.
Definition inner (n : nat) (x y : list K) : K := sumn n (fun i => at_ x i *! at_ y i).
(** the entries of one row, renamed to row [rd] *)
Definition row_as (src : list (entry K)) (rs rd : nat) : list (entry K) :=
  map (fun e => (rd, col e, val e)) (filter (fun e => row e =? rs) src).
(** the slots [st..] of [old] replaced by [blk] *)
Definition slots (old : list (entry K)) (st : nat) (blk : list (entry K)) : list (entry K) :=
  firstn st old ++ blk ++ skipn (st + length blk) old.
(** positions selected by a pattern *)
Definition selected (ix : list bool) : list nat := filter (fun i => nth i ix false) (seq 0 (length ix)).
End Spec.
Arguments mat {_}. Arguments symmat {_}. Arguments wf {_}. Arguments at_ {_}. Arguments sorted {_}.
Arguments row_sorted {_}. Arguments dmat {_}. Arguments dwf {_}. Arguments inner {_}.
Arguments row_as {_}. Arguments slots {_}.
