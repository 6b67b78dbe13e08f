(** What the restoration problem should be, said without the model's buffers and offsets. *)
From Coq Require Import List Arith Reals.
Import ListNotations.
From Verif Require Import FRModel.
Open Scope R_scope.

(** A point of the restoration problem: the original variables and the positive and negative
    parts of the violation of the equalities and of the inequalities. *)
Record point := Pt { px : list R; ppe : list R; pne : list R; ppi : list R; pni : list R }.

(** The point has the sizes of the problem. *)
Definition fits (b : base) (p : point) : Prop :=
  length (px p) = n_x (b_kind b) /\
  length (ppe p) = b_meq b /\ length (pne p) = b_meq b /\
  length (ppi p) = b_mineq b /\ length (pni p) = b_mineq b.

(** The vector that stands for a point: x, then the four parts; in the mixed class the dense
    variables come last. *)
Definition encode (b : base) (p : point) : list R :=
  match b_kind b with
  | Front _ => px p ++ ppe p ++ pne p ++ ppi p ++ pni p
  | Mds a _ => firstn a (px p) ++ ppe p ++ pne p ++ ppi p ++ pni p ++ skipn a (px p)
  end.

(** The i-th entry of a vector is v. *)
Definition at_ (l : list R) (i : nat) (v : R) : Prop := nth_error l i = Some v.

(** Sum of the f i for i below n. *)
Fixpoint total (n : nat) (f : nat -> R) : R :=
  match n with O => 0 | S m => total m f + f m end.

(** The weight min(1, 1/|r|) of the distance term, by its defining property. *)
Definition weight (r w : R) : Prop :=
  (Rabs r <= 1 -> w = 1) /\ (1 < Rabs r -> w * Rabs r = 1).

(** The data of the calling solver have the sizes of the original problem. *)
Definition caller_fits (b : base) (k : caller) : Prop :=
  length (k_x k) = n_x (b_kind b) /\ length (k_zl k) = n_x (b_kind b) /\
  length (k_zu k) = n_x (b_kind b) /\ length (k_s k) = b_mineq b /\
  length (k_vl k) = b_mineq b /\ length (k_vu k) = b_mineq b /\
  length (k_c k) = b_meq b /\ length (k_d k) = b_mineq b.

(** The original problem's functions return vectors of the right size, and its bounds have it. *)
Definition base_fits (b : base) : Prop :=
  (forall x, length x = n_x (b_kind b) -> length (b_c b x) = b_meq b /\ length (b_d b x) = b_mineq b) /\
  length (b_xl b) = n_x (b_kind b) /\ length (b_xu b) = n_x (b_kind b) /\
  length (b_crhs b) = b_meq b /\ length (b_dl b) = b_mineq b /\ length (b_du b) = b_mineq b.

(** The calling solver has stored c and d of its own current point. *)
Definition stored_is_current (b : base) (k : caller) : Prop :=
  k_c k = b_c b (k_x k) /\ k_d k = b_d b (k_x k).

(** Every entry of a list lies within e of the matching entry of another of the same length. *)
Definition within (e : R) (x y : list R) : Prop :=
  length x = length y /\ forall i a c, at_ x i a -> at_ y i c -> Rabs (a - c) <= e.

(** The violation of the original constraints at x with slacks s is at most e in every entry. *)
Definition enough (b : base) (e : R) (x s : list R) : Prop :=
  within e (b_c b x) (b_crhs b) /\ within e (b_d b x) s.

(** The sum of these violations. *)
Definition violation (b : base) (x s : list R) : R :=
  total (b_meq b) (fun i => Rabs (nth i (b_c b x) 0 - nth i (b_crhs b) 0)) +
  total (b_mineq b) (fun i => Rabs (nth i (b_d b x) 0 - nth i s 0)).

(** The caller's filter lets the point pass when its original objective is f. *)
Definition passes (b : base) (j : judge) (x s : list R) (f : R) : Prop :=
  j_filter j (violation b x s) (j_logbar j x s f) = false.

(** The iterates have the sizes of the problem. *)
Definition iterates_fit (b : base) (l : list iterate) : Prop :=
  forall i, In i l -> length (i_y i) = n_fr (b_kind b) (b_meq b) (b_mineq b) /\ length (i_s i) = b_mineq b.
