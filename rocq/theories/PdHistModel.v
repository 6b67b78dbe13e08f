(** The outer loop of the primal decomposition with what each iteration computes about convergence, in binary64:
    src/Optimization/hiopAlgPrimalDecomp.cpp.  Uses the approximation object of [PdAlgModel]. *)
From Coq Require Import List Bool Arith.
From Verif Require Import FloatBase PdAlgModel.
Import ListNotations.

Section Hist.
Variables (dot : list b64 -> list b64 -> b64) (nrm : list b64 -> b64).
(** the successive iterations, with the coefficient handed to the master, base_val and convg of each;
    hiopAlgPrimalDecomp.cpp 1844-1983, here without the stopping test (which is [outer]) *)
Fixpoint traced (it : nat) (l : list (b64 * b64 * list b64 * list b64)) (s : ha * b64 * b64) : option (list (b64 * b64 * b64)) :=
  match l with
  | [] => Some []
  | (rval, obj, x0, g) :: l =>
      match pass dot nrm it rval obj x0 g s with
      | Some (h, base, convg, a) => match traced (S it) l (h, base, convg) with Some r => Some ((a, base, convg) :: r) | None => None end
      | None => None
      end
  end.
(** run_single from its initial values (hiopAlgPrimalDecomp.cpp 1826-1857: base_val is the objective of the base case alone, convg
    1e20): the number of iterations and
    their traces; None when the input has too few iterations or an assert fails *)
Definition run_hist (n : nat) (ratio amin amax tol accp_tol base0 : b64) (max_iter accp_count : nat) (l : list (b64 * b64 * list b64 * list b64)) : option (nat * list (b64 * b64 * b64)) :=
  match traced 0 l (set_bounds amin amax (ha_new n ratio), base0, f_1e20) with
  | Some tr => match outer tol accp_tol max_iter accp_count 0 0 (map snd tr) with Some k => Some (k, firstn k tr) | None => None end
  | None => None
  end.
End Hist.
