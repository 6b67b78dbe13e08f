(** The primal point handed back to the user: hiopNlpFormulation.hpp 258-264 [user_x] (called by
    getSolution, hiopAlgFilterIPM.cpp 772-785) and the point given to the solution callback
    (hiopNlpFormulation.cpp 1139-1161). *)
From Coq Require Import List Bool Arith.
From Verif Require Import FloatBase PackModel XformModel.
Import ListNotations.

(** hiopNlpFormulation.hpp 258-264: [memcpy(user_x, x, n_post_local*sizeof(double))]; [R] is the
    fixed-variable remover when there is one, [n] the number of variables of the solver (the
    n_post_local of the last transformation in the chain, hiopNlpTransforms.hpp 598-612);
    [arr] is the user's array *)
Definition user_x (R : option remover) (n : nat) (x arr : list b64) : option (list b64) :=
  match R with
  | None => block_copy arr x 0 0 n
  | Some R => match apply_inv_to_x R x true with
              | Some (_, p) => block_copy arr p 0 0 n
              | None => None
              end
  end.
(** hiopNlpFormulation.cpp 1152-1161: the count and the array the solution callback is given: the
    solver's own vector *)
Definition callback_x (n : nat) (x : list b64) : nat * list b64 := (n, x).
