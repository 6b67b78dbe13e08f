(** What a starting point should be made of. *)
From Coq Require Import List Bool Arith.
From Verif Require Import PackSpec XformProofs StartModel.
Import ListNotations.

Section S.
Context {A : Type}.
(** sizes of the arrays: [mask] marks the variables the solver keeps; the constraint index maps are complementary *)
Definition shaped (P : prob A) (mask : list bool) (lam0 : list (option A)) (it : point A) : Prop :=
  match p_map P with None => mask = repeat true (length mask) | Some m => m = ranks 0 mask end /\
  length (p_fixed P) = length mask /\ complementary (p_eqm P) (p_inm P) (length lam0) /\
  length (i_x it) = marks mask /\ length (i_zl it) = marks mask /\ length (i_zu it) = marks mask /\
  length (i_yc it) = length (p_eqm P) /\ length (i_yd it) = length (p_inm P) /\
  length (i_d it) = length (p_inm P) /\ length (i_vl it) = length (p_inm P) /\ length (i_vu it) = length (p_inm P).
(** the documented behaviour of the user's methods for n variables, m constraints, mi of them inequalities: what is
    declared is written completely, what is not declared is not touched, a method that declines declares nothing *)
Definition honours (n m mi : nat) (U : ufull A) : Prop :=
  length (f_x U) = (if f_ret U then n else 0) /\ (f_duals U = true -> f_ret U = true) /\ (f_slacks U = true -> f_ret U = true) /\
  length (f_zl U) = (if f_duals U then n else 0) /\ length (f_zu U) = (if f_duals U then n else 0) /\
  length (f_lam U) = (if f_duals U then m else 0) /\ length (f_d U) = (if f_slacks U then mi else 0).
Definition honours_prim (n : nat) (V : uprim A) : Prop := length (p_x V) = if p_ret V then n else 0.
Definition honours_warm (n m mi : nat) (W : uwarm A) : Prop :=
  length (w_x W) = (if w_ret W then n else 0) /\ length (w_zl W) = (if w_ret W then n else 0) /\ length (w_zu W) = (if w_ret W then n else 0) /\
  length (w_lam W) = (if w_ret W then m else 0) /\ length (w_d W) = (if w_ret W then mi else 0) /\
  length (w_vl W) = (if w_ret W then mi else 0) /\ length (w_vu W) = if w_ret W then mi else 0.
(** the point the user supplied, without the removed variables, or all zeros *)
Definition supplied (zero : A) (mask : list bool) (U : ufull A) (V : uprim A) : list A :=
  if f_ret U then picked (f_x U) mask else if p_ret V then picked (p_x V) mask else repeat zero (marks mask).
(** the entries of [v] at the positions listed *)
Definition entries_at (v : list A) (idx : list nat) (w : list A) : Prop :=
  length w = length idx /\ forall k i, nth_error idx k = Some i -> nth_error w k = nth_error v i.
(** the user's functions can be evaluated *)
Definition evaluates (E : steps A) (x0 x yc yd : list A) : Prop := e_ok E x0 = true /\ e_ok E x = true /\ e_hess E x yc yd = true.
End S.
