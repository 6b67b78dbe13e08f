(** Specification vocabulary for the regularisation calculators (properties C11, C12, C49). *)
From Coq Require Import List Bool ZArith.
From Verif Require Import FloatBase FloatBridge MuModel RegModel.
Import ListNotations.

(** a valid binary64 value that is +0, positive or +infinity (in particular not NaN) *)
Definition nonneg (x : b64) : Prop :=
  vb x = true /\ match x with S754_zero s | S754_infinity s | S754_finite s _ _ => s = false | S754_nan => False end.
(** positive and finite *)
Definition posfin (x : b64) : Prop := vb x = true /\ match x with S754_finite false _ _ => True | _ => False end.

(** the parameter values the option registry admits (hiopOptions.cpp:1080-1123), as far as needed *)
Definition params_ok (P : reg_params) : Prop :=
  nonneg (rp_wmin P) /\ posfin (rp_wmax P) /\ nonneg (rp_w0 P) /\ posfin (rp_kminus P) /\
  posfin (rp_kplus P) /\ posfin (rp_kplusbar P) /\ posfin (rp_cbar P).
(** libm's pow on positive arguments: no NaN, no negative value *)
Definition pow_ok (fpow : b64 -> b64 -> b64) (P : reg_params) : Prop := forall m, posfin m -> nonneg (fpow m (rp_kc P)).

(** calls a client can make *)
Inductive op : Type := OInitialize | OMu (m : b64) | OInitial | OWrong | OSing.

Section Reach.
  Variables (fpow : b64 -> b64 -> b64) (P : reg_params) (nx md mc : nat) (fill : nat -> nat -> b64 -> list b64) (dbg : bool)
            (v : variant).
  Definition call (o : op) (s : reg) : option (bool * reg) :=
    match o with
    | OInitialize => Some (true, initialize nx md mc s)
    | OMu m => Some (true, set_mu s m)
    | OInitial => initial_deltas fpow P nx md mc fill dbg v s
    | OWrong => wrong_inertia fpow P nx md mc fill dbg v s
    | OSing => singularity fpow P nx md mc fill dbg v s
    end.

  (** states after histories of calls from [allowed]; the flag: every request since (and including)
      the last [compute_initial_deltas] returned true; the list: the barrier parameters given so far *)
  Inductive reach (allowed : op -> Prop) : reg -> bool -> list b64 -> Prop :=
  | reach_new : reach allowed (initialize nx md mc reg_new) false [mu reg_new]
  | reach_step : forall s ok mus o b s', reach allowed s ok mus -> allowed o ->
      (forall m, o = OMu m -> posfin m) ->
      call o s = Some (b, s') ->
      reach allowed s' (match o with OInitialize => false | OMu _ => ok | OInitial => b | _ => ok && b end)
                       (match o with OMu m => m :: mus | _ => mus end).
End Reach.

(** the vectors were filled from the scalars *)
Definition filled (nx md mc : nat) (fill : nat -> nat -> b64 -> list b64) (s : reg) : Prop :=
  (exists k, vwx s = fill k nx (wx s)) /\ (exists k, vwd s = fill k md (wd s)) /\
  (exists k, vcc s = fill k mc (cc s)) /\ (exists k, vcd s = fill k md (cd s)).

(** the answer of the linear solver means that the factorisation may be used *)
Definition usable (a : acceptor) (req ans : Z) : bool :=
  match a with
  | InertiaCheck => if (0 <? req)%Z then (ans =? req)%Z else (ans =? 0)%Z
  | InertiaFree => (0 <=? ans)%Z
  end.

(** default option values: 1e-20, 1e20, 1e-4, 1/3, 100, 8, 1e-8, 0.25 *)
Definition default_params : reg_params :=
  RP f_em20 f_1e20 (S754_finite false 7378697629483821 (-66)) (S754_finite false 6004799503160661 (-54))
     (fofZ 100) (fofZ 8) (S754_finite false 6044629098073146 (-79)) (S754_finite false 4503599627370496 (-54)).
