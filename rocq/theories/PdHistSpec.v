(** The convergence measures of the primal decomposition in terms of two consecutive iterations; binary64. *)
From Coq Require Import List Bool Arith ZArith.
From Verif Require Import FloatBase.
Import ListNotations.

(** one iteration: recourse value, objective the master reported before it, coupling variables and recourse gradient *)
Definition iteration : Type := (b64 * b64 * list b64 * list b64)%type.
Definition rec_val (p : iteration) := let '(f, _, _, _) := p in f.
Definition mas_obj (p : iteration) := let '(_, o, _, _) := p in o.
Definition point (p : iteration) := let '(_, _, x, _) := p in x.
Definition grad (p : iteration) := let '(_, _, _, g) := p in g.
Definition half : b64 := fdiv (fofZ 1%Z) (fofZ 2%Z).
(** entrywise b - a, as b + (-1)*a *)
Definition minus (b a : list b64) : list b64 := map (fun p => fadd (fst p) (fmul (fofZ (-1)%Z) (snd p))) (combine b a).
Section M.
Variables (dot : list b64 -> list b64 -> b64) (nrm : list b64 -> b64).
(** half the coefficient a times the squared length of the step from p to q *)
Definition curv (a : b64) (p q : iteration) : b64 :=
  let s := minus (point q) (point p) in fmul (fmul (fmul half a) (nrm s)) (nrm s).
(** slope at p along the step from p to q *)
Definition slope (p q : iteration) : b64 := dot (grad p) (minus (point q) (point p)).
(** what the approximation made at p with coefficient a predicts at q *)
Definition prediction (a : b64) (p q : iteration) : b64 := fadd (fadd (rec_val p) (slope p q)) (curv a p q).
(** the two measures at q, with coefficient a and base values b0 (at p) and b1 (at q) *)
Definition fcn_measure (a b0 b1 : b64) (p q : iteration) : b64 := fabs (fadd (fadd (slope p q) (curv a p q)) (fsub b1 b0)).
Definition grad_measure (a : b64) (p q : iteration) : b64 :=
  fdiv (nrm (map (fun e => fadd (fmul (fst e) (fopp a)) (fmul (fofZ 1%Z) (snd e))) (combine (minus (point q) (point p)) (minus (grad q) (grad p))))) (nrm (grad q)).
End M.
(** the smaller of two values; the first one if the second is NaN *)
Definition lesser (a b : b64) : b64 := if flt b a then b else a.
