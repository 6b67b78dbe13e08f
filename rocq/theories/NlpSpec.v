(** What preprocessing should deliver, in terms of the user's data. *)
From Coq Require Import List Bool Arith.
From Verif Require Import FloatBase MuModel.
Import ListNotations.
(** the interface's convention: a lower bound is absent when it is at or below -1e20, an upper
    bound when it is at or above 1e20 (src/Interface/hiopInterface.hpp, get_vars_info) *)
Definition finite_low (l : b64) : Prop := flt f_m1e20 l = true.
Definition finite_upp (u : b64) : Prop := flt u f_1e20 = true.
(** documented meaning of fixed (option fixed_var_tolerance): distance at most tol*max(1,|xu|) *)
Definition fixed_pair (tol l u : b64) : Prop :=
  flt u f_1e20 = true /\ fle (fabs (fsub l u)) (fmul tol (fmax f_one (fabs u))) = true.
(** [n] is the number of elements of [xs] with property [P] *)
Inductive counts {A} (P : A -> Prop) : list A -> nat -> Prop :=
| counts_nil : counts P [] 0
| counts_yes : forall a l n, P a -> counts P l n -> counts P (a :: l) (S n)
| counts_no : forall a l n, ~ P a -> counts P l n -> counts P (a :: l) n.
(** the pattern vector [ix] marks exactly the entries with property [P] *)
Definition marks_exactly {A} (P : A -> Prop) (xs : list A) (ix : list b64) : Prop :=
  length ix = length xs /\
  forall i a, nth_error xs i = Some a ->
    (P a -> nth_error ix i = Some f_one) /\ (~ P a -> nth_error ix i = Some f_zero).
(** strictly increasing index list *)
Definition increasing (m : list nat) : Prop :=
  forall j k a b, j < k -> nth_error m j = Some a -> nth_error m k = Some b -> a < b.
(** constraint [i] of the user has two coinciding bounds *)
Definition is_equality {k} (g : list (b64 * b64 * k)) (i : nat) : Prop :=
  exists l u t, nth_error g i = Some (l, u, t) /\ feq l u = true.
(** [out] holds at position [j] the [f]-part of the constraint that the map names there *)
Definition follows {k B} (g : list (b64 * b64 * k)) (m : list nat) (f : b64 * b64 * k -> B) (out : list B) : Prop :=
  length out = length m /\
  forall j i, nth_error m j = Some i -> exists e, nth_error g i = Some e /\ nth_error out j = Some (f e).
