(** What is claimed about assembling, slicing and Kron-reducing a complex sparse matrix, stated on
    the matrix that a list of stored elements stands for. *)
From Coq Require Import List Arith Sorted.
From Verif Require Import RingKit.
Import ListNotations.
Open Scope nat_scope.

Section S.
Variable K : cfield.
Notation elem := (nat * nat * K)%type.

(** the matrix meant by a list of (row, column, value): equal positions are added up *)
Definition dense (l : list elem) (i j : nat) : K :=
  lsum (map (fun e : elem => let '(a, b, v) := e in if Nat.eqb a i then if Nat.eqb b j then v else f0 else f0) l).

(** row-major order of positions, strict and not *)
Definition pos_lt (a b : elem) : Prop :=
  fst (fst a) < fst (fst b) \/ (fst (fst a) = fst (fst b) /\ snd (fst a) < snd (fst b)).
Definition pos_le (a b : elem) : Prop := pos_lt a b \/ fst a = fst b.
Definition row_major (l : list elem) : Prop := StronglySorted pos_lt l.
Definition weakly_row_major (l : list elem) : Prop := StronglySorted pos_le l.

(** all positions inside an m x n matrix *)
Definition inside (m n : nat) (l : list elem) : Prop := Forall (fun e : elem => fst (fst e) < m /\ snd (fst e) < n) l.

(** an increasing list of indices below a bound *)
Definition index_list (bound : nat) (l : list nat) : Prop := StronglySorted lt l /\ Forall (fun a => a < bound) l.

(** a linear solver that solves every system with the n x n matrix it is given *)
Definition solves (n : nat) (sol : list elem -> list K -> option (list K)) (l : list elem) : Prop :=
  forall b, length b = n -> exists s, sol l b = Some s /\ length s = n /\
    forall i, i < n -> sumn n (fun j => dense l i j *! nth j s f0) = nth i b f0.

(** current injected at bus i under the voltages v *)
Definition current (n : nat) (Y : nat -> nat -> K) (v : nat -> K) (i : nat) : K := sumn n (fun j => Y i j *! v j).
End S.
Arguments dense {_}. Arguments pos_lt {_}. Arguments pos_le {_}. Arguments row_major {_}.
Arguments weakly_row_major {_}. Arguments inside {_}. Arguments solves {_}. Arguments current {_}.

Section S2.
Variable K : cfield.
(** the block of a matrix at the given rows and columns *)
Definition block (Y : nat -> nat -> K) (rows cols : list nat) (i j : nat) : K := Y (nth i rows 0) (nth j cols 0).
(** a symmetric matrix from its stored upper triangle *)
Definition from_upper (U : nat -> nat -> K) (i j : nat) : K := if i <=? j then U i j else U j i.
(** factorization and solver work on every stored form of the n x n matrix M *)
Definition can_solve (fact : list (nat * nat * K) -> bool) (sol : list (nat * nat * K) -> list K -> option (list K))
           (n : nat) (M : nat -> nat -> K) : Prop :=
  forall e, inside n n e -> (forall i j, i < n -> j < n -> dense e i j = M i j) -> fact e = true /\ solves n sol e.
(** N is a left inverse of the n x n matrix M *)
Definition left_inverse (n : nat) (N M : nat -> nat -> K) : Prop :=
  forall i j, i < n -> j < n -> sumn n (fun k => N i k *! M k j) = if i =? j then f1 else f0.
End S2.
Arguments block {_}. Arguments from_upper {_}. Arguments can_solve {_}. Arguments left_inverse {_}.
