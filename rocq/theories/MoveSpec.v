(** What the moving limits should guarantee. *)
From Coq Require Import List QArith Qabs.
Import ListNotations.
Open Scope Q_scope.

(** no entry differs by more than [L] *)
Definition moved_at_most (L : Q) (x x' : list Q) : Prop :=
  forall i a b, nth_error x i = Some a -> nth_error x' i = Some b -> Qabs (b - a) <= L.
(** the direction has as many entries as the point *)
Definition fits (x d : list Q) : Prop := length x = length d.
(** the points and directions of the ranks, entry by entry *)
Definition fits_all (xs ds : list (list Q)) : Prop := Forall2 fits xs ds.
