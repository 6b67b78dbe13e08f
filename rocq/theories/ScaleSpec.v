(** Vocabulary for the scaling properties. *)
From Coq Require Import List Bool Arith QArith Qcanon.
From Verif Require Import RingKit PackModel PackSpec SparseModel SparseSpec ScaleModel FactorModel.
Import ListNotations.
Close Scope Qc_scope. Close Scope Q_scope. Open Scope nat_scope.

Section Spec.
Variable K : cfield.
(** usable factors: none is zero, and one per constraint *)
Definition usable (n : nat) (s : scaling K) : Prop :=
  s_obj s <> f0 /\ (forall a, In a (s_c s) -> a <> f0) /\ (forall a, In a (s_d s) -> a <> f0) /\
  (forall a, In a (s_cd s) -> a <> f0) /\ length (s_cd s) = n.
(** the states a solver object can be in: no scaling at first; every start of a solve may add one
    scaling; asking for the dual solution changes only the work vectors *)
Inductive built (eqm inm : list nat) : nlp K -> list (scaling K) -> Prop :=
| b_start ch te ti : (forall t, In t ch -> t = TOther) -> built eqm inm (Nlp ch None eqm inm te ti) []
| b_add P ss s rhs dl du P' r l u :
    built eqm inm P ss -> usable (length eqm + length inm) s ->
    length rhs = length eqm -> length dl = length inm -> length du = length inm ->
    add_scaling P s rhs dl du = Some (P', r, l, u) -> built eqm inm P' (ss ++ [s])
| b_get P ss y zl zu lam P' :
    built eqm inm P ss -> get_dual_solutions P y = Some (zl, zu, lam, P') -> built eqm inm P' ss.
(** the factors of s_cd are those of s_c and s_d, constraint by constraint *)
Definition matching (eqm inm : list nat) (s : scaling K) : Prop :=
  (forall k i, nth_error eqm k = Some i -> nth_error (s_cd s) i = nth_error (s_c s) k) /\
  (forall k i, nth_error inm k = Some i -> nth_error (s_cd s) i = nth_error (s_d s) k).

(** the user's constraint callbacks for a constraint body [b]: implemented by index set or at once *)
Definition two_user (b : list K) : ucons K := UCons (gather b) None.
Definition one_user (b : list K) : ucons K := UCons (fun _ => None) (Some b).

(** entry (i,j) of a list of rows *)
Definition rowat (M : list (list K)) (i j : nat) : K := at_ (nth i M []) j.
(** stationarity, component [j]: gradient plus Jacobian transpose times multipliers, minus lower plus
    upper bound multipliers *)
Definition resid (m : nat) (g : list K) (J : nat -> nat -> K) (lam zl zu : list K) (j : nat) : K :=
  at_ g j +! sumn m (fun i => J i j *! at_ lam i) -! at_ zl j +! at_ zu j.
(** one entry of a linear combination "objective factor times f plus multipliers times constraints"
    of the user's functions; [hf], [hb] may be values, derivatives or second derivatives *)
Definition combo (sigma : K) (lam : list K) (hf : K) (hb : list K) : K :=
  sigma *! hf +! sumn (length hb) (fun i => at_ lam i *! at_ hb i).
End Spec.
Arguments usable {_}. Arguments built {_}. Arguments matching {_}. Arguments two_user {_}.
Arguments one_user {_}. Arguments rowat {_}. Arguments resid {_}. Arguments combo {_}.
Definition qle (a b : Qc) : Prop := Qle (this a) (this b).
