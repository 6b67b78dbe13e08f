(** C08 in binary64: what the step lengths promise with rounding, overflow and NaN. *)
From Coq Require Import List Bool ZArith Reals.
From Verif Require Import FloatBase FloatBridge VecModel RegSpec.
Import ListNotations.

(** vector, direction and bound indicator *)
Definition ftriple : Type := list b64 * list b64 * list b64.
(** value, direction and indicator standing at one index of one of the vectors *)
Definition entry_of (L : list ftriple) (x d p : b64) : Prop :=
  exists xs ds ps i, In (xs, ds, ps) L /\ nth_error xs i = Some x /\ nth_error ds i = Some d /\ nth_error ps i = Some p.

(** the slacks of one rank *)
Definition slack_vectors (r : cone Far * cone Far * pats Far) : list ftriple :=
  let '(it, dir, p) := r in
  [(c_sxl it, c_sxl dir, p_xl p); (c_sxu it, c_sxu dir, p_xu p); (c_sdl it, c_sdl dir, p_dl p); (c_sdu it, c_sdu dir, p_du p)].
(** the bound multipliers of one rank *)
Definition multiplier_vectors (r : cone Far * cone Far * pats Far) : list ftriple :=
  let '(it, dir, p) := r in
  [(c_zl it, c_zl dir, p_xl p); (c_zu it, c_zu dir, p_xu p); (c_vl it, c_vl dir, p_dl p); (c_vu it, c_vu dir, p_du p)].

(** every stored number is a binary64 value, and the sign constrained one is nonnegative or NaN *)
Definition stored_ok (L : list ftriple) : Prop := forall x d p, entry_of L x d p ->
  vb x = true /\ vb d = true /\ (is_nan x = true \/ nonneg x).

(** the rounded step -(tau x)/d at which an entry has used up the fraction tau of its distance *)
Definition entry_step (tau x d : b64) : b64 := fdiv (fmul (fopp tau) x) d.

(** the step r is in [0,1], at most the rounded step of every bounded entry that moves towards its
    bound, and is 1 or one of these *)
Definition best_step (tau : b64) (L : list ftriple) (r : b64) : Prop :=
  fle f_zero r = true /\ fle r f_one = true /\
  (forall x d p, entry_of L x d p -> feq p f_zero = false -> fle f_zero d = false -> is_nan (entry_step tau x d) = false ->
     fle r (entry_step tau x d) = true) /\
  (r = f_one \/ exists x d p, entry_of L x d p /\ feq p f_zero = false /\ fle f_zero d = false /\ r = entry_step tau x d).

(** 2^-1022, the smallest normal number *)
Definition f_min : b64 := S754_finite false 4503599627370496 (-1074).
(** neither the product nor the quotient underflows *)
Definition no_underflow (tau x d : b64) : Prop := flt f_min (fmul tau x) = true /\ flt f_min (entry_step tau x d) = true.
(** the exact point x + r d is strictly positive *)
Definition strictly_inside (x d r : b64) : Prop := (0 < val x + val r * val d)%R.
