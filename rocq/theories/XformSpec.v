(** What removal and relaxation should do. *)
From Coq Require Import List Bool Arith ZArith.
From Verif Require Import FloatBase MuModel NlpSpec PackSpec XformModel.
Import ListNotations.
(** [mask] marks the variables that are not fixed *)
Definition keeps (tol : b64) (xs : list (b64 * b64)) (mask : list bool) : Prop :=
  length mask = length xs /\
  forall i l u, nth_error xs i = Some (l, u) -> (nth_error mask i = Some false <-> fixed_pair tol l u).
(** [p] is the user's point for the solver's point [x]: free components in order, fixed ones at the
    fixed value *)
Definition full_point (mask : list bool) (xl x p : list b64) : Prop :=
  length p = length mask /\ picked p mask = x /\ picked p (map negb mask) = picked xl (map negb mask).
(** row [i] of a row-major matrix with [n] columns *)
Definition row_of {A} (n : nat) (M : list A) (i : nat) : list A := firstn n (skipn (i * n) M).
(** what the solver must receive for a request *)
Definition good_answer (uf : list b64 -> b64) (ugrad : list b64 -> list b64) (ujac : nat -> list b64 -> list b64)
    (ustart : list b64) (mask : list bool) (xl : list b64) (q : request) (a : answer) : Prop :=
  match q, a with
  | EvalObj x _, ObjAt p f => full_point mask xl x p /\ f = uf p
  | EvalGrad x _ _, GradAt p g => full_point mask xl x p /\ g = picked (ugrad p) mask
  | EvalJac x _ m _, JacAt p J => full_point mask xl x p /\ length J = m * marks mask /\
      forall i, i < m -> row_of (marks mask) J i = picked (row_of (length mask) (ujac m p) i) mask
  | Start _, StartAt x => x = picked ustart mask
  | _, _ => False
  end.
(** the solver's side of the contract: buffers of the reduced size, and [new_x = false] only when
    the point is the one of the previous evaluation *)
Fixpoint well_flagged (n : nat) (prev : option (list b64)) (qs : list request) : Prop :=
  match qs with
  | [] => True
  | q :: qs' =>
      match q with
      | EvalObj x nw => length x = n /\ (nw = false -> prev = Some x) /\ well_flagged n (Some x) qs'
      | EvalGrad x nw g => length x = n /\ length g = n /\ (nw = false -> prev = Some x) /\ well_flagged n (Some x) qs'
      | EvalJac x nw m J => length x = n /\ length J = m * n /\ (nw = false -> prev = Some x) /\ well_flagged n (Some x) qs'
      | Start x => length x = n /\ well_flagged n None qs'
      end
  end.
(** number of unfixed variables in a list of bound pairs *)
Definition free_in (tol : b64) (xs : list (b64 * b64)) (n : nat) : Prop :=
  counts (fun e => ~ fixed_pair tol (fst e) (snd e)) xs n.
(** interval containment: [[l',u']] contains [[l,u]] *)
Definition contains (big small : b64 * b64) : Prop :=
  fle (fst big) (fst small) = true /\ fle (snd small) (snd big) = true.
Definition contains_strictly (big small : b64 * b64) : Prop :=
  flt (fst big) (fst small) = true /\ flt (snd small) (snd big) = true.
