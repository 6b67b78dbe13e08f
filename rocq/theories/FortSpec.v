(** What a user of the Fortran (or C) interface relies on, stated without the
    model's helper functions.  Only the records of the calls are shared. *)
From Coq Require Import ZArith List Bool.
From Verif Require Import FortModel.
Import ListNotations.
Open Scope Z_scope.

Section Spec.
  Context {V U : Type}.

  (** The user's side of the contract, pattern requests: asked for the pattern
      (task 0) with index arrays of the announced size, the routine fills them
      with its 1-based row and column numbers and leaves the two counters
      alone. *)
  Definition gives_pattern (r : routine V U) (rows cols : list Z) : Prop :=
    forall u p a li lj,
      a_task a = 0 -> a_i a = Some li -> a_j a = Some lj ->
      length li = length rows -> length lj = length cols ->
      a_nnz a = Z.of_nat (length rows) ->
      a_task (snd (r u p a)) = 0 /\ a_nnz (snd (r u p a)) = a_nnz a /\
      a_i (snd (r u p a)) = Some rows /\ a_j (snd (r u p a)) = Some cols.

  (** The user's side, value requests: asked for values (task 1) with a value
      array of the announced size, the routine fills it and leaves the task
      alone. *)
  Definition gives_values (r : routine V U) (val : point V -> list V) : Prop :=
    forall u p a lv,
      a_task a = 1 -> a_v a = Some lv -> length lv = length (val p) ->
      a_nnz a = Z.of_nat (length lv) ->
      a_task (snd (r u p a)) = 1 /\ a_v (snd (r u p a)) = Some (val p).

  (** A routine for a matrix with the given 1-based pattern and values. *)
  Definition matrix_routine (r : routine V U) (rows cols : list Z) (val : point V -> list V) : Prop :=
    gives_pattern r rows cols /\ gives_values r val /\
    length cols = length rows /\ forall p, length (val p) = length rows.

  (** Storage of the announced size; its contents do not matter. *)
  Definition sized (k : nat) (t : trip V) : Prop :=
    length (t_i t) = k /\ length (t_j t) = k /\ length (t_v t) = k.

  (** 0-based version of a 1-based list: entry by entry one less. *)
  Definition zero_based (ones zeros : list Z) : Prop :=
    length zeros = length ones /\
    forall k, (k < length ones)%nat -> nth k zeros 0 + 1 = nth k ones 0.

  (** The points of the Jacobian and of the Hessian evaluations, in order. *)
  Fixpoint jac_points (es : list (event V)) : list (point V) :=
    match es with
    | [] => []
    | EvJac x _ :: r => PT x None [] 0 :: jac_points r
    | _ :: r => jac_points r
    end.
  Fixpoint hess_points (es : list (event V)) : list (point V) :=
    match es with
    | [] => []
    | EvHess x _ ob lam nl :: r => PT x (Some ob) lam (if nl then 1 else 0) :: hess_points r
    | _ :: r => hess_points r
    end.

  (** No further solve is started. *)
  Definition one_solve (es : list (event V)) : Prop := forall H, ~ In (EvSolve H) es.

  (** A pattern call: index arrays present, no value array, task 0.  A value
      call: the opposite, task 1. *)
  Definition pattern_call : seen := Seen true true false 0.
  Definition value_call : seen := Seen false false true 1.

  (** The matrix the solver holds is the user's: 0-based pattern and the values
      at the last of the points. *)
  Definition holds (t : trip V) (rows cols : list Z) (val : point V -> list V) (ps : list (point V)) : Prop :=
    forall q, zero_based rows (t_i t) /\ zero_based cols (t_j t) /\ t_v t = val (last ps q).

  (** A user routine that recomputes only when it is told that the point is new
      and otherwise returns what it computed last; [g] is the function it
      computes and its memory is the last value. *)
  Definition caching {R} (g : list V -> R) : callback V R R :=
    fun u x newx => if newx =? 0 then (u, u, 0) else (g x, g x, 0).

  (** The flag is honest: it is true at the first point and whenever the point
      differs from the one before. *)
  Fixpoint honest (prev : option (list V)) (xs : list (list V * bool)) : Prop :=
    match xs with
    | [] => True
    | (x, nx) :: r => (nx = false -> prev = Some x) /\ honest (Some x) r
    end.
End Spec.
