(** Model of the filter object: /repo/src/Optimization/hiopFilter.hpp lines 58-87 and
    /repo/src/Optimization/hiopFilter.cpp lines 56-68. *)
From Coq Require Import List Bool.
From Verif Require Import FloatBase.
Import ListNotations.

(** hiopFilter.hpp:79-85 [struct FilterEntry { double theta, phi; }] *)
Definition entry : Type := (b64 * b64)%type.

(** hiopFilter.hpp:86 [std::list<FilterEntry> entries], front of the C++ list = head. *)
Definition filter_st : Type := list entry.

(** hiopFilter.hpp:61 constructor: empty list *)
Definition filter_new : filter_st := [].

(** hiopFilter.hpp:64 [initialize]: clear, then push (theta_max, -1e20) *)
Definition filter_initialize (theta_max : b64) (_ : filter_st) : filter_st :=
  [(theta_max, f_m1e20)].

(** hiopFilter.hpp:64 [reinitialize] just calls [initialize] *)
Definition filter_reinitialize (theta_max : b64) (f : filter_st) : filter_st :=
  filter_initialize theta_max f.

(** hiopFilter.hpp:66 [clear] *)
Definition filter_clear (_ : filter_st) : filter_st := [].

(** hiopFilter.hpp:69-72 [add] pushes at the front *)
Definition filter_add (theta phi : b64) (f : filter_st) : filter_st := (theta, phi) :: f.

(** hiopFilter.cpp:56-68 [contains]: scan from the front, stop at the first entry with
    [theta>=it->theta && phi>=it->phi] *)
Fixpoint filter_contains (f : filter_st) (theta phi : b64) : bool :=
  match f with
  | [] => false
  | (t, p) :: rest =>
      if fge theta t && fge phi p then true else filter_contains rest theta phi
  end.

(** The public mutating operations of the class, for histories. hiopFilter.hpp 58-87. *)
Inductive filter_op : Type :=
| FInit (theta_max : b64)
| FReinit (theta_max : b64)
| FClear
| FAdd (theta phi : b64).

(** dispatch of one call; hiopFilter.hpp:63-72 *)
Definition filter_step (f : filter_st) (o : filter_op) : filter_st :=
  match o with
  | FInit t => filter_initialize t f
  | FReinit t => filter_reinitialize t f
  | FClear => filter_clear f
  | FAdd t p => filter_add t p f
  end.

(** state after a chronological list of calls on a freshly constructed filter
    (hiopFilter.hpp:61-72) *)
Definition filter_run (ops : list filter_op) : filter_st := fold_left filter_step ops filter_new.
