(** Specification vocabulary for the triplet to CSR conversion. *)
From Coq Require Import List Bool Arith Sorted Permutation.
From Verif Require Import RingKit SparseModel SparseSpec CsrModel CsrSpec.
Import ListNotations.

(** what std::sort guarantees: a permutation of the index vector along which the keys do not decrease *)
Definition sorts (srt : list nat -> list nat) : Prop :=
  forall keys, Permutation (srt keys) (seq 0 (length keys)) /\
               StronglySorted le (map (fun t => nth t keys 0) (srt keys)).
(** lexicographic order on positions *)
Definition plt (a b : nat * nat) : Prop := fst a < fst b \/ fst a = fst b /\ snd a < snd b.
Definition ple (a b : nat * nat) : Prop := a = b \/ plt a b.
Definition sorts2 (srt : list (nat * nat) -> list nat) : Prop :=
  forall keys, Permutation (srt keys) (seq 0 (length keys)) /\
               StronglySorted ple (map (fun t => nth t keys (0, 0)) (srt keys)).
(** position (i,i) is stored at most twice *)
Definition one_extra {K : cfield} (A : trip K) : Prop :=
  forall i, length (filter (fun e => (row e =? i) && (col e =? i)) (t_ent A)) <= 2.
(** rows have non-decreasing column indices *)
Definition weakly_ordered {K : cfield} (rows : list (list (nat * K))) : Prop := Forall (fun r => StronglySorted le (map fst r)) rows.
(** the columns of the entries of row i, in storage order, the second diagonal entry left out *)
Fixpoint row_cols {K : cfield} (i : nat) (seen : bool) (l : list (entry K)) : list nat :=
  match l with
  | [] => []
  | e :: t => if row e =? i then
                if col e =? i then if seen then row_cols i true t else i :: row_cols i true t
                else col e :: row_cols i seen t
              else row_cols i seen t
  end.
(** every row with a second diagonal entry stores its other entries in column order *)
Definition diag_in_place {K : cfield} (A : trip K) : Prop :=
  forall i, length (filter (fun e => (row e =? i) && (col e =? i)) (t_ent A)) <= 1 \/ StronglySorted lt (row_cols i false (t_ent A)).
(** the new values put on the old positions *)
Definition with_values {K : cfield} (A : trip K) (vals : list K) : trip K :=
  Trip (t_m A) (t_n A) (map (fun p => (fst (fst p), snd p)) (combine (t_ent A) vals)).
