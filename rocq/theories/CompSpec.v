(** What a compound vector should be: the vector obtained by writing its parts one after the other. *)
From Coq Require Import List Bool QArith Qabs ZArith Reals.
From Verif Require Import VecModel RedModel CompModel.
Import ListNotations.

(** the part counter counts the parts *)
Definition whole {A} (c : comp A) : Prop := c_parts c = length (c_vecs c).
(** the entries of the compound vector, in order *)
Definition entries {T} (c : comp (list T)) : list T := concat (c_vecs c).
(** same for a vector whose parts are distributed over ranks *)
Definition all_entries {T} (c : comp (list (list T))) : list T := concat (concat (c_vecs c)).
(** two compound vectors with the same counters and, part by part, the same lengths *)
Definition like {T} (c d : comp (list T)) : Prop :=
  c_parts c = c_parts d /\ c_size c = c_size d /\
  map (@length T) (c_vecs c) = map (@length T) (c_vecs d).
(** number of vector arguments of a method *)
Definition arity {K} (op : vop K) : nat :=
  match op with
  | SetConstPat _ _ | CopyFrom _ | Mult _ | Div _ | MinV _ | MaxV _ | Axpy _ _ | AddCPat _ _ | Select _ => 1
  | CopyPat _ | DivPat _ | AxpyPat _ _ | Axzpy _ _ | Axdzpy _ _ | LogGrad _ _ | Damp _ _ _ | AdjDuals _ _ _ => 2
  | AxdzpyPat _ _ => 3
  | _ => 0
  end.
(** [addLogBarrierGrad] *)
Definition is_log_grad {K} (op : vop K) : bool := match op with LogGrad _ _ => true | _ => false end.
(** a compound vector made by adding parts one at a time to an empty one *)
Definition added {A} (sz : A -> nat) (parts : list A) : comp A := fold_left (add_vector sz) parts c_new.
