(** Specification vocabulary for the elastic mode: option ranges and nested bounds. *)
From Coq Require Import List Bool ZArith.
From Verif Require Import FloatBase MuModel MuSpec XformModel XformSpec RelaxProofs ElasModel.
Import ListNotations.

(** the registered ranges of elastic_mode_bound_relax_initial, elastic_mode_bound_relax_final, tolerance and mu0
    (/repo/src/Utils/hiopOptions.cpp:1176-1192, 578, 566) *)
Definition elastic_ranges (E : elastic) : bool :=
  in_range (fdiv f_one (fofZ 100000000)) (el_init E) (fdiv f_one (fofZ 10)) &&
  in_range f_em16 (el_fin E) (fdiv f_one (fofZ 10)) &&
  in_range (fdiv f_one (fofZ 100000000000000)) (el_tol E) (fdiv f_one (fofZ 10)) &&
  in_range f_em16 (el_mu0 E) (fofZ 1000).
(** the settings that make sense: the final factor is not above the initial one and the first barrier parameter is
    above the tolerance *)
Definition elastic_sensible (E : elastic) : Prop :=
  elastic_ranges E = true /\ fle (el_fin E) (el_init E) = true /\ flt (el_tol E) (el_mu0 E) = true.

(** bound by bound containment of two sets of working bounds with the same shape *)
Definition inside (small big : wbounds) : Prop :=
  Forall2 contains (b_x big) (b_x small) /\ Forall2 contains (b_d big) (b_d small).
(** bounds a user may supply: no NaN, no lower bound +inf, no upper bound -inf *)
Definition user_ok (b : wbounds) : Prop := Forall sane (b_x b) /\ Forall sane (b_d b).

(** each element of the list lies inside the one before it, the first inside [b] *)
Fixpoint shrinking (b : wbounds) (l : list wbounds) : Prop :=
  match l with
  | [] => True
  | c :: l' => inside c b /\ shrinking c l'
  end.

(** an inequality whose body has the (unscaled) value [v] passes the working bounds [b] of the scaled problem *)
Definition passes (scal v : b64) (b : b64 * b64) : Prop :=
  fle (fst b) (fmul scal v) = true /\ fle (fmul scal v) (snd b) = true.
