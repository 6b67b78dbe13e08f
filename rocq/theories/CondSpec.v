(** Specification vocabulary for the condensed KKT system. *)
From Coq Require Import List Bool Arith.
From Verif Require Import RingKit SparseModel SparseSpec CsrModel CsrSpec CondModel.
Import ListNotations.

Section Spec.
Variable K : cfield.
(** admissible inputs for problem size n (variables) and m (inequalities): sorted triplets within
    bounds with at least one stored entry each, vectors of matching sizes *)
Definition inputs_ok (n m : nat) (x : kin K) : Prop :=
  t_m (i_h x) = n /\ t_n (i_h x) = n /\ t_m (i_j x) = m /\ t_n (i_j x) = n /\
  wf (i_h x) /\ wf (i_j x) /\ sorted (t_ent (i_h x)) /\ sorted (t_ent (i_j x)) /\
  t_ent (i_h x) <> [] /\ t_ent (i_j x) <> [] /\
  length (i_dx x) = n /\ length (i_wx x) = n /\ length (i_dd x) = m /\ length (i_wd x) = m.
(** entry (i,j) of H + Dx + delta_wx + Jd^T (Dd + delta_wd) Jd *)
Definition condensed (m : nat) (x : kin K) (i j : nat) : K :=
  symmat (t_ent (i_h x)) i j +! (if i =? j then at_ (i_dx x) i +! at_ (i_wx x) i else f0) +!
  sumn m (fun k => mat (t_ent (i_j x)) k i *! (at_ (i_dd x) k +! at_ (i_wd x) k) *! mat (t_ent (i_j x)) k j).
(** component i of A*v for a square matrix given by entries *)
Definition mv (n : nat) (A : nat -> nat -> K) (v : list K) (i : nat) : K := sumn n (fun j => A i j *! at_ v j).
End Spec.
Arguments inputs_ok {_}. Arguments condensed {_}. Arguments mv {_}.

(** a linear solver that, when it succeeds, returns a solution of the system whose matrix the CSR
    object stores *)
Definition exact_solver {K : cfield} (solver : csr K -> list K -> option (list K)) : Prop :=
  forall M rows rhs dx, stores M rows -> solver M rhs = Some dx ->
    length dx = c_m M /\ forall i, i < c_m M -> mv (c_m M) (cmat rows) dx i = at_ rhs i.
