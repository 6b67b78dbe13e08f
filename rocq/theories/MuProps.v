(** C05: barrier parameter and fraction-to-the-boundary parameter, in binary64 arithmetic, for an
    arbitrary (valid double) result of libm's pow. *)
From Coq Require Import List Bool ZArith.
From Verif Require Import FloatBase MuModel MuSpec MuProofs.
Import ListNotations.

Definition xmu (k : b64) : mu_params :=
  mk_mu_params k f_one (fdiv (fofZ 99) (fofZ 100)) (fdiv f_one (fofZ 100000000))
               (fdiv f_one (fofZ 10000)) f_one (fofZ 10).
Definition k02 : b64 := fdiv f_one (fofZ 5).
Definition idpow (a b : b64) : b64 := f_one.

(** C05: one update: positive, at least the floor given by the tolerances, not above max(mu, floor),
    strictly smaller than mu unless mu was below the floor; tau between tau_min and 1, and below 1 if
    the new mu is at least 2^-53. *)
Theorem C05_update_ranges :
  forall fpow P mu m t,
    (forall a b, valid_binary 53 1024 (fpow a b) = true) ->
    mu_options_ok P = true -> mu_ok mu = true -> mu_update fpow P mu = Some (m, t) ->
    fgt m f_zero = true /\ fge m (mu_floor P) = true /\ fle m (fmax mu (mu_floor P)) = true /\
    (fge mu (mu_floor P) = true -> flt m mu = true) /\
    fle (mp_tau_min P) t = true /\ fle t f_one = true /\
    (fge m (f_2pow (-53)) = true -> flt t f_one = true).
Proof. exact mu_update_ranges. Qed.
Print Assumptions C05_update_ranges.

Example C05_update_case :
  mu_options_ok (xmu k02) = true /\ mu_ok f_one = true /\
  mu_update idpow (xmu k02) f_one = Some (k02, fdiv (fofZ 99) (fofZ 100)).
Proof. repeat split; vm_compute; reflexivity. Qed.

(** C05, whole history: after any number of updates.  Missing for the full claim (tau < 1 always):
    the floor may be below 2^-53, see the refutation. *)
Theorem C05_history_ranges_partial :
  forall fpow P mu l m t,
    (forall a b, valid_binary 53 1024 (fpow a b) = true) ->
    mu_options_ok P = true -> mu_ok mu = true -> mu_steps fpow P mu l -> In (m, t) l ->
    mu_ok m = true /\ fge m (mu_floor P) = true /\ fle m (fmax mu (mu_floor P)) = true /\
    fle (mp_tau_min P) t = true /\ fle t f_one = true /\
    (fge (mu_floor P) (f_2pow (-53)) = true -> flt t f_one = true).
Proof. exact mu_history_ranges. Qed.
Print Assumptions C05_history_ranges_partial.

Example C05_history_case : exists l, mu_steps idpow (xmu k02) f_one l /\ length l = 3%nat /\
  fge (mu_floor (xmu k02)) (f_2pow (-53)) = true.
Proof.
  eexists. split.
  - eapply ms_cons; [vm_compute; reflexivity|]. eapply ms_cons; [vm_compute; reflexivity|].
    eapply ms_cons; [vm_compute; reflexivity|]. apply ms_nil.
  - split; vm_compute; reflexivity.
Qed.

(** C05: the update loop ends, for every sequence of barrier errors (or evaluation failures). *)
Theorem C05_loop_ends :
  forall fpow P mu,
    (forall a b, valid_binary 53 1024 (fpow a b) = true) ->
    mu_options_ok P = true -> mu_ok mu = true ->
    exists n, forall fuel elastic err k e tau, (n < fuel)%nat ->
      mu_loop fpow P fuel elastic err k e mu tau <> None.
Proof. exact mu_loop_ends. Qed.
Print Assumptions C05_loop_ends.

Example C05_loop_case :
  match mu_loop idpow (xmu k02) 20 false (fun _ => Some f_zero) 0 f_zero f_one k02 with
  | Some r => mr_n r = 13%nat /\ mr_mu r = mu_floor (xmu k02) | None => False end.
Proof. vm_compute. split; reflexivity. Qed.

(** C05: the loop's result is the end of a history of updates (so the range theorem applies). *)
Theorem C05_loop_is_history :
  forall fpow P fuel elastic err k e mu tau r,
    mu_loop fpow P fuel elastic err k e mu tau = Some r ->
    exists l, mu_steps fpow P mu l /\ mr_n r = (k + length l)%nat /\
      (mr_mu r, mr_tau r) = last l (mu, tau).
Proof. exact mu_loop_result. Qed.
Print Assumptions C05_loop_is_history.

(** C05 refuted part: with comp_tol = 1e-16 (allowed), tau becomes exactly 1, i.e. the
    fraction-to-the-boundary rule no longer keeps a distance; *)
Theorem C05_tau_below_one_refuted :
  exists fpow P mu m, (forall a b, valid_binary 53 1024 (fpow a b) = true) /\
    mu_options_ok P = true /\ mu_ok mu = true /\ mu_update fpow P mu = Some (m, f_one).
Proof.
  exists idpow, (mk_mu_params (fdiv f_one (fofZ 100000000)) f_one (fdiv (fofZ 99) (fofZ 100))
    (fdiv f_one (fofZ 100000000)) f_em16 f_one (fofZ 10)), (fdiv f_one (fofZ 1000000000)).
  eexists. split; [reflexivity|]. split; [vm_compute; reflexivity|].
  split; [vm_compute; reflexivity|]. vm_compute. reflexivity.
Qed.
Print Assumptions C05_tau_below_one_refuted.

(** and with mu0 below the floor the "reduction" increases mu. *)
Theorem C05_mu_decreases_refuted :
  exists fpow P mu m t, (forall a b, valid_binary 53 1024 (fpow a b) = true) /\
    mu_options_ok P = true /\ mu_ok mu = true /\ mu_update fpow P mu = Some (m, t) /\ fgt m mu = true.
Proof.
  exists idpow, (xmu k02), f_em16. do 2 eexists. split; [reflexivity|].
  split; [vm_compute; reflexivity|]. split; [vm_compute; reflexivity|].
  split; vm_compute; reflexivity.
Qed.
Print Assumptions C05_mu_decreases_refuted.
