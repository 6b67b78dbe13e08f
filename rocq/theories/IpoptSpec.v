(** What a correct adapter delivers: the user's constraint values, and triplets that stand for the
    user's Jacobian and Hessian. *)
From Coq Require Import List Bool Arith.
From Verif Require Import RingKit FloatBase IpoptModel.
Import ListNotations.

Section S.
Variable K : cfield.
Variable X : Type.
(** the matrix a list of triplets stands for: entries with the same position are added *)
Fixpoint entry (p : list (nat * nat)) (v : list K) (i j : nat) : K :=
  match p, v with
  | (a, b) :: p, x :: v => (if (a =? i) && (b =? j) then x else f0) +! entry p v i j
  | _, _ => f0
  end.
(** the symmetric matrix given by one triangle *)
Definition sym_entry (p : list (nat * nat)) (v : list K) (i j : nat) : K :=
  if i =? j then entry p v i j else entry p v i j +! entry p v j i.

(** the user's problem in mathematical terms *)
Variable c : X -> nat -> K.
Variable J : X -> nat -> nat -> K.
Variable U : user K X.
Let n := u_ns K X U + u_nd K X U.

Definition sizes_ok : Prop := length (u_bnd K X U) = u_m K X U.
Definition is_eq (i : nat) : Prop := exists l u, nth_error (u_bnd K X U) i = Some (l, u) /\ feq l u = true.
Definition is_in (i : nat) : Prop := exists l u, nth_error (u_bnd K X U) i = Some (l, u) /\ feq l u = false.
(** pattern and values for the constraints [idx]: row k of the pattern is constraint idx[k] *)
Definition rows_of (idx : list nat) (nnz : nat) (p : list (nat * nat)) (vals : X -> option (list K * list K)) : Prop :=
  length p = nnz /\ (forall a b, In (a, b) p -> a < length idx /\ b < u_ns K X U) /\
  forall x, exists v, vals x = Some (v, flat_map (fun i => map (J x i) (seq (u_ns K X U) (u_nd K X U))) idx) /\
    length v = nnz /\ forall k i j, nth_error idx k = Some i -> j < u_ns K X U -> entry p v k j = J x i j.
(** users that answer separately for equalities and inequalities: [e], [d] list them in increasing order *)
Definition two_calls (e d : list nat) : Prop :=
  (forall idx x, u_c2 K X U idx x = Some (map (c x) idx)) /\
  (exists p, u_p2 K X U e = Some p /\ rows_of e (u_nnze K X U) p (u_v2 K X U e)) /\
  (exists p, u_p2 K X U d = Some p /\ rows_of d (u_nnzi K X U) p (u_v2 K X U d)).
(** users that answer for all constraints at once and decline the separate calls *)
Definition one_call : Prop :=
  (forall idx x, u_c2 K X U idx x = None) /\ (forall x, u_c1 K X U x = Some (map (c x) (seq 0 (u_m K X U)))) /\
  (forall idx, u_p2 K X U idx = None) /\ (forall idx x, u_v2 K X U idx x = None) /\
  (exists p, u_p1 K X U = Some p /\ rows_of (seq 0 (u_m K X U)) (u_nnze K X U + u_nnzi K X U) p (u_v1 K X U)).
(** pattern [P] and values [V] stand for the whole Jacobian at [x] *)
Definition is_jacobian (x : X) (P : list (nat * nat)) (V : list K) : Prop :=
  length V = length P /\ (forall a b, In (a, b) P -> a < u_m K X U /\ b < n) /\
  forall i j, i < u_m K X U -> j < n -> entry P V i j = J x i j.

(** second derivatives *)
Variable H : X -> K -> list K -> nat -> nat -> K.
Definition hessian_user : Prop :=
  (forall x f l i j, H x f l i j = H x f l j i) /\
  (forall x f l i j, i < u_ns K X U -> u_ns K X U <= j -> H x f l i j = f0) /\
  exists p, u_hp K X U = Some p /\ length p = u_nnzh K X U /\ (forall a b, In (a, b) p -> a < u_ns K X U /\ b < u_ns K X U) /\
  forall x f l, exists v d, u_hv K X U x f l = Some (v, d) /\ length v = u_nnzh K X U /\ length d = u_nd K X U * u_nd K X U /\
    (forall i j, i < u_ns K X U -> j < u_ns K X U -> sym_entry p v i j = H x f l i j) /\
    (forall i j, i <= j -> j < u_nd K X U -> nth_error d (i * u_nd K X U + j) = Some (H x f l (u_ns K X U + i) (u_ns K X U + j))).
End S.
