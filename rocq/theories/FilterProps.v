(** C01, C02: the globalization filter. *)
From Coq Require Import List Bool ZArith.
From Verif Require Import FloatBase FilterModel FilterSpec FilterProofs.
Import ListNotations.

(** C01: the filter rejects a trial exactly when a pair on record is no worse in both components. *)
Theorem C01_filter_rejects_iff_dominated :
  forall (h : list filter_op) (theta phi : b64),
    filter_contains (filter_run h) theta phi = true <->
    exists e, on_record h e /\ no_better theta phi e.
Proof. exact filter_rejects_iff. Qed.
Print Assumptions C01_filter_rejects_iff_dominated.

Example C01_case :
  on_record [FAdd f_1e20 f_zero; FReinit (fofZ 10); FAdd (fofZ 3) (fofZ 5)] (fofZ 3, fofZ 5) /\
  filter_contains (filter_run [FAdd f_1e20 f_zero; FReinit (fofZ 10); FAdd (fofZ 3) (fofZ 5)])
                  (fofZ 4) (fofZ 5) = true /\
  filter_contains (filter_run [FAdd f_1e20 f_zero; FReinit (fofZ 10); FAdd (fofZ 3) (fofZ 5)])
                  (fofZ 2) (fofZ 50) = false.
Proof.
  split; [|split; vm_compute; reflexivity].
  exists [FAdd f_1e20 f_zero; FReinit (fofZ 10)], (FAdd (fofZ 3) (fofZ 5)), [].
  split; [reflexivity|]. split; [reflexivity|]. intros ? [].
Qed.

(** C01: a rejection stays in force, for the same and for all worse pairs, until a reset. *)
Theorem C01_filter_rejection_permanent :
  forall (h h' : list filter_op) (theta phi theta' phi' : b64),
    filter_contains (filter_run h) theta phi = true ->
    (forall o, In o h' -> ~ is_reset o) ->
    fge theta' theta = true -> fge phi' phi = true ->
    filter_contains (filter_run (h ++ h')) theta' phi' = true.
Proof. exact filter_rejection_permanent. Qed.
Print Assumptions C01_filter_rejection_permanent.

Example C01_permanent_case :
  filter_contains (filter_run [FAdd (fofZ 3) (fofZ 5)]) (fofZ 3) (fofZ 6) = true /\
  (forall o, In o [FAdd (fofZ 1) (fofZ 9)] -> ~ is_reset o) /\
  fge (fofZ 4) (fofZ 3) = true /\ fge (fofZ 6) (fofZ 6) = true.
Proof.
  split; [vm_compute; reflexivity|]. split; [|split; vm_compute; reflexivity].
  intros o [<-|[]]. simpl. tauto.
Qed.

(** C01: recording a pair enlarges the rejected region by exactly the quadrant behind the pair. *)
Theorem C01_filter_add_enlarges_exactly :
  forall (h : list filter_op) (theta phi a b : b64),
    filter_contains (filter_run (h ++ [FAdd a b])) theta phi = true <->
    filter_contains (filter_run h) theta phi = true \/
    (fge theta a = true /\ fge phi b = true).
Proof. exact filter_add_exact. Qed.
Print Assumptions C01_filter_add_enlarges_exactly.

Example C01_add_case :
  filter_contains (filter_run ([FAdd (fofZ 3) (fofZ 5)] ++ [FAdd (fofZ 1) (fofZ 7)])) (fofZ 2) (fofZ 8) = true /\
  filter_contains (filter_run [FAdd (fofZ 3) (fofZ 5)]) (fofZ 2) (fofZ 8) = false.
Proof. split; vm_compute; reflexivity. Qed.

(** C02: after (re)initialisation with a cap, too infeasible trials are rejected until a reset,
    unless the barrier value is below -1e20 (or NaN). *)
Theorem C02_filter_cap :
  forall (h h' : list filter_op) (tmax theta phi : b64),
    (forall o, In o h' -> ~ is_reset o) ->
    fge theta tmax = true -> fge phi f_m1e20 = true ->
    filter_contains (filter_run (h ++ FReinit tmax :: h')) theta phi = true.
Proof. exact filter_cap. Qed.
Print Assumptions C02_filter_cap.

Example C02_case :
  (forall o, In o [FAdd (fofZ 1) (fofZ 9)] -> ~ is_reset o) /\
  fge f_1e20 (fofZ 10000) = true /\ fge (fofZ (-7)) f_m1e20 = true.
Proof.
  split; [|split; vm_compute; reflexivity]. intros o [<-|[]]. simpl. tauto.
Qed.

(** C02: a trial with a NaN component is never rejected by the filter, whatever is on record. *)
Theorem C02_filter_never_rejects_nan :
  forall (h : list filter_op) (theta phi : b64),
    is_nan theta = true \/ is_nan phi = true ->
    filter_contains (filter_run h) theta phi = false.
Proof. exact filter_nan_accepted. Qed.
Print Assumptions C02_filter_never_rejects_nan.

Example C02_nan_case : is_nan S754_nan = true /\
  filter_contains (filter_run [FReinit (fofZ 10)]) (fofZ 11) (fofZ 0) = true.
Proof. split; vm_compute; reflexivity. Qed.
