(** What an iteration of the distributed primal decomposition should guarantee, in terms of the
    messages and of the evaluations only. *)
From Coq Require Import List Bool Arith Permutation.
From Verif Require Import PdModel.
Import ListNotations.

(** every index 0..S-1 exactly once (specification only, no code) *)
Definition each_once (S_ : nat) (l : list nat) : Prop := Permutation l (seq 0 S_).
(** all evaluations made by the workers *)
Definition evaluated (s : st) : list nat := flat_map w_log (s_ws s).
(** all indices sent by the master, in the order of sending *)
Definition sent_idx (s : st) : list nat := map snd (s_sent s).
(** the master is past its loop *)
Definition left_loop (s : st) : Prop :=
  match s_ph s with Stopping _ | Draining _ | Finished => True | _ => False end.
(** the worker got the end signal, no message to or from it is pending, no receive is posted for it *)
Definition at_rest (w : wk) : Prop := w_st w = Ended /\ w_in w = [] /\ w_out w = [] /\ w_req w = false.
(** the steps of an execution that are not an unsuccessful poll of the master *)
Definition poll (l : label) (s s' : st) : Prop :=
  match l, s_ph s, s_ph s' with
  | M _, Scanning _, Scanning _ => s_acc s' = s_acc s
  | _, _, _ => False
  end.
(** executions with the number of steps that are not unsuccessful polls *)
Inductive runs (S_ W : nat) : st -> nat -> st -> Prop :=
| runs_nil s : runs S_ W s 0 s
| runs_poll l s s' n s'' : step S_ W l s = Some s' -> poll l s s' -> runs S_ W s' n s'' -> runs S_ W s n s''
| runs_work l s s' n s'' : step S_ W l s = Some s' -> ~ poll l s s' -> runs S_ W s' n s'' -> runs S_ W s (S n) s''.
