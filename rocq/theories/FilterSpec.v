(** Specification vocabulary for the filter, phrased on histories of calls only (it does not look
    at the model's state). *)
From Coq Require Import List Bool.
From Verif Require Import FloatBase FilterModel.
Import ListNotations.

(** the pair a call puts on record, if any *)
Definition records (o : filter_op) : option (b64 * b64) :=
  match o with
  | FInit t | FReinit t => Some (t, f_m1e20)
  | FAdd t p => Some (t, p)
  | FClear => None
  end.

(** calls that erase everything recorded before *)
Definition is_reset (o : filter_op) : Prop :=
  match o with FAdd _ _ => False | _ => True end.

(** [on_record h e]: some call in the chronological history [h] recorded [e] and no later call
    reset the filter. *)
Definition on_record (h : list filter_op) (e : b64 * b64) : Prop :=
  exists before o after,
    h = before ++ o :: after /\ records o = Some e /\ (forall o', In o' after -> ~ is_reset o').

(** (theta, phi) is no better than [e] in both components; false as soon as a NaN is involved *)
Definition no_better (theta phi : b64) (e : b64 * b64) : Prop :=
  fge theta (fst e) = true /\ fge phi (snd e) = true.
