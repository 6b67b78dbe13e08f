(** The textbook BFGS matrix, and exactness of a linear solve. *)
From Coq Require Import List Bool Arith.
From Verif Require Import RingKit.
Import ListNotations.

Section S.
Variable K : cfield.
Variable n : nat.
Notation vec := (nat -> K).
(** the scalar product in dimension n *)
Definition inner (a b : vec) : K := sumn n (fun p => a p *! b p).
(** B+ = B - (B s)(B s)^T / (s^T B s) + y y^T / (s^T y), as an operator *)
Definition bfgs_update (B : vec -> vec) (q : vec * vec) : vec -> vec := fun x p =>
  B x p -! inner (B (fst q)) x /! inner (fst q) (B (fst q)) *! B (fst q) p +! inner (snd q) x /! inner (fst q) (snd q) *! snd q p.
(** the BFGS matrix built from sigma*I with the pairs ps, oldest first *)
Definition bfgs (sigma : K) (ps : list (vec * vec)) : vec -> vec :=
  fold_left bfgs_update ps (fun x p => sigma *! x p).
(** every denominator of the construction is nonzero *)
Definition defined (sigma : K) (ps : list (vec * vec)) : Prop :=
  forall a q b, ps = a ++ q :: b -> inner (fst q) (bfgs sigma a (fst q)) <> f0 /\ inner (fst q) (snd q) <> f0.
(** z solves the N x N system M z = r *)
Definition solves (N : nat) (M : nat -> nat -> K) (r z : vec) : Prop :=
  forall i, i < N -> sumn N (fun j => M i j *! z j) = r i.
End S.
