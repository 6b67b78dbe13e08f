(** Specification vocabulary for the barrier update. *)
From Coq Require Import List Bool ZArith.
From Verif Require Import FloatBase MuModel.
Import ListNotations.

(** 2^e as binary64 *)
Definition f_2pow (e : Z) : b64 := S754_finite false 4503599627370496 (e - 52).

Definition in_range (lo x hi : b64) : bool :=
  SpecFloat.valid_binary 53 1024 x && fle lo x && fle x hi.

(** option ranges as registered in /repo/src/Utils/hiopOptions.cpp:566-610 (nearest binary64 of the
    literals), and an objective scale between 2^-400 and 2^400 *)
Definition mu_options_ok (P : mu_params) : bool :=
  in_range (fdiv f_one (fofZ 100000000)) (mp_kappa_mu P) (fdiv (fofZ 999) (fofZ 1000)) &&
  in_range (fdiv (fofZ 9) (fofZ 10)) (mp_tau_min P) (fdiv (fofZ 99999) (fofZ 100000)) &&
  in_range (fdiv f_one (fofZ 100000000000000)) (mp_eps_tol P) (fdiv f_one (fofZ 10)) &&
  in_range f_em16 (mp_comp_tol P) (fofZ 10000000000) &&
  in_range (f_2pow (-400)) (mp_obj_scale P) (f_2pow 400).

(** a barrier parameter as an option or an update may give it: a positive finite double *)
Definition mu_ok (mu : b64) : bool :=
  SpecFloat.valid_binary 53 1024 mu && fgt mu f_zero && fle mu (fofZ 1000).

(** a sequence of updates from [mu], each of which reported "changed" *)
Inductive mu_steps (fpow : b64 -> b64 -> b64) (P : mu_params) : b64 -> list (b64 * b64) -> Prop :=
| ms_nil : forall mu, mu_steps fpow P mu []
| ms_cons : forall mu m t l, mu_update fpow P mu = Some (m, t) -> mu_steps fpow P m l ->
    mu_steps fpow P mu ((m, t) :: l).
