(** What the memory of the quasi-Newton matrix is supposed to hold. *)
From Coq Require Import List Bool Arith ZArith.
From Verif Require Import FloatBase HessModel.
Import ListNotations.

(** the last k elements *)
Definition lastn {X : Type} (k : nat) (l : list X) : list X := skipn (length l - k) l.

(** [mem_of ps m]: the memory m holds exactly the pairs ps = (s_0,y_0), (s_1,y_1), ..., oldest first; the flat array
    L is the strictly lower triangle of (s_i . y_j), zero elsewhere, and D the diagonal *)
Definition mem_of {V T : Type} (zero : T) (ydot sdot : V -> V -> T) (ps : list (V * V)) (m : mem V T) : Prop :=
  m_S m = map fst ps /\ m_Y m = map snd ps /\
  m_D m = map (fun p => sdot (fst p) (snd p)) ps /\
  length (m_L m) = length ps * length ps /\
  (forall i j s t, nth_error ps i = Some s -> nth_error ps j = Some t ->
     nth_error (m_L m) (i * length ps + j) = Some (if j <? i then ydot (snd t) (fst s) else zero)).

(** not negative: what a norm returns (NaN included) *)
Definition not_neg (x : b64) : Prop := flt x f_zero = false.

Section S.
Variables (V W J : Type).
Variables (axpy : b64 -> V -> V -> V) (infnorm nrm : V -> b64) (dot : V -> V -> b64) (jt : J -> V -> b64 -> W -> V).
(** the step and the change of the gradient of the Lagrangian between two calls, at the later multipliers *)
Definition pair_of (p o : obs V W J) : V * V :=
  (axpy (fofZ (-1)) (o_x V W J p) (o_x V W J o),
   jt (o_Jd V W J p) (jt (o_Jd V W J o) (jt (o_Jc V W J p) (jt (o_Jc V W J o)
     (axpy (fofZ (-1)) (o_g V W J p) (o_g V W J o)) (fofZ 1) (o_yc V W J o)) (fofZ (-1)) (o_yc V W J o))
     (fofZ 1) (o_yd V W J o)) (fofZ (-1)) (o_yd V W J o)).
(** a pair is usable: the step is not negligible and the curvature is not too small *)
Definition usable (q : V * V) : bool :=
  fle h_100eps (infnorm (fst q)) && flt (fmul (fmul (nrm (fst q)) (nrm (snd q))) h_sqrteps) (dot (fst q) (snd q)).
(** the usable pairs of a history, in order *)
Fixpoint usable_pairs (os : list (obs V W J)) : list (V * V) :=
  match os with
  | p :: ((o :: _) as r) => (if usable (pair_of p o) then [pair_of p o] else []) ++ usable_pairs r
  | _ => []
  end.
End S.
