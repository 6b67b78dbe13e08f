(** Specification side: the quadratic a user is told about, directional derivatives, averages. *)
From Coq Require Import List Arith Reals.
Import ListNotations.
Open Scope R_scope.

Fixpoint rsum (k : nat) (f : nat -> R) : R := match k with O => 0 | S k => rsum k f + f k end.
Definition ent (l : list R) (i : nat) : R := nth i l 0.
(** the position in [x] of the [j]-th coupled variable *)
Definition pos (idx : list nat) (j : nat) : nat := nth j idx 0%nat.
(** value + gradient.(xc - x0) + 1/2 (xc - x0) Diag (xc - x0) *)
Definition quad (idx : list nat) (c : R) (g h x0 : list R) (x : list R) : R :=
  c + rsum (length idx) (fun j => ent g j * (ent x (pos idx j) - ent x0 j))
    + / 2 * rsum (length idx) (fun j => ent h j * ((ent x (pos idx j) - ent x0 j) * (ent x (pos idx j) - ent x0 j))).
(** the point [x + t d] *)
Fixpoint along (t : R) (d x : list R) : list R :=
  match d, x with u :: d, v :: x => (v + t * u) :: along t d x | _, _ => [] end.
Definition inner (a b : list R) : R := rsum (length a) (fun i => ent a i * ent b i).
(** (1/S) sum of the recourse terms *)
Definition average (nS : nat) (f : nat -> R) : R := rsum nS f / INR nS.
(** the coupled entries of the full vector *)
Definition pick (idx : list nat) (x : list R) : list R := map (fun i => ent x i) idx.
Definition in_range (idx : list nat) (n : nat) : Prop := forall i, In i idx -> (i < n)%nat.
Definition sq (l : list R) : R := rsum (length l) (fun i => ent l i * ent l i).
(** [c j] added at the position of the [j]-th coupled variable: the entry [k] of the full-size vector *)
Definition spread (idx : list nat) (c : nat -> R) (k : nat) : R :=
  rsum (length idx) (fun j => if Nat.eqb k (pos idx j) then c j else 0).
