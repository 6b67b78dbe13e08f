(** What the measure of infeasibility should say about the constraints: c(x) = rhs for the equalities and
    d = d(x) for the slack variables d of the inequalities. *)
From Coq Require Import List Bool QArith Qabs.
From Verif Require Import FloatBase FloatBridge VecModel ErrModel ErrSpec.
Import ListNotations.
Open Scope Q_scope.

(** the constraints hold exactly *)
Definition holds (D : list (dvar Qar)) (E : list (evar Qar)) : Prop :=
  (forall e, In e E -> e_c _ e == e_rhs _ e) /\ (forall d, In d D -> d_val _ d == d_it _ d).
(** every single constraint is violated by at most [t] *)
Definition within (t : Q) (D : list (dvar Qar)) (E : list (evar Qar)) : Prop :=
  (forall e, In e E -> Qabs (e_c _ e - e_rhs _ e) <= t) /\ (forall d, In d D -> Qabs (d_val _ d - d_it _ d) <= t).
(** the total violation *)
Definition total (D : list (dvar Qar)) (E : list (evar Qar)) : Q :=
  sum_abs (map (fun e => e_c Qar e - e_rhs Qar e) E) + sum_abs (map (fun d => d_val Qar d - d_it Qar d) D).

(** the values compared are doubles *)
Definition doubles (D : list (dvar Far)) (E : list (evar Far)) : Prop :=
  (forall e, In e E -> vb (e_c _ e) = true /\ vb (e_rhs _ e) = true) /\
  (forall d, In d D -> vb (d_val _ d) = true /\ vb (d_it _ d) = true).
(** finite doubles with the same value (the two zeros are equal) *)
Definition same (x y : b64) : Prop := finite x = true /\ finite y = true /\ feq x y = true.
(** a difference of two doubles is NaN: one is NaN, or both are the same infinity *)
Definition undef (x y : b64) : Prop :=
  x = S754_nan \/ y = S754_nan \/ exists s, x = S754_infinity s /\ y = S754_infinity s.
Definition undef_somewhere (D : list (dvar Far)) (E : list (evar Far)) : Prop :=
  (exists e, In e E /\ undef (e_rhs _ e) (e_c _ e)) \/ (exists d, In d D /\ undef (d_it _ d) (d_val _ d)).
