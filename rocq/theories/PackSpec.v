(** What the copy kernels should do. *)
From Coq Require Import List Bool Arith Permutation.
Import ListNotations.
(** the entries of [x] at the positions marked by the pattern, in order *)
Fixpoint picked {A} (x : list A) (p : list bool) : list A :=
  match x, p with
  | a :: x', b :: p' => if b then a :: picked x' p' else picked x' p'
  | _, _ => []
  end.
(** number of marked positions *)
Fixpoint marks (p : list bool) : nat := match p with [] => 0 | b :: p' => (if b then 1 else 0) + marks p' end.
(** the two index maps together number every position exactly once *)
Definition complementary (cm dm : list nat) (n : nat) : Prop := Permutation (cm ++ dm) (seq 0 n).
