(** Vocabulary for the claims about vector kernels; independent of the kernels themselves. *)
From Coq Require Import List QArith Qabs Qminmax.
Import ListNotations.
Open Scope Q_scope.

(** every entry selected by the pattern is strictly positive *)
Definition interior (x ix : list Q) : Prop :=
  forall i xi pi, nth_error x i = Some xi -> nth_error ix i = Some pi -> ~ pi == 0 -> 0 < xi.

(** moving [x] by [a*d] keeps at least the fraction [1-tau] of every selected entry *)
Definition keeps_fraction (tau a : Q) (x d ix : list Q) : Prop :=
  forall i xi di pi, nth_error x i = Some xi -> nth_error d i = Some di -> nth_error ix i = Some pi ->
    ~ pi == 0 -> (1 - tau) * xi <= xi + a * di.

(** [a] is the largest number in (0,1] with property [P] *)
Definition largest_in_unit (P : Q -> Prop) (a : Q) : Prop :=
  (0 < a /\ a <= 1 /\ P a) /\ forall a', 0 < a' -> a' <= 1 -> P a' -> a' <= a.

(** entry-wise relation between two arrays of the same length *)
Definition rel2 {A B} (R : A -> B -> Prop) (a : list A) (b : list B) : Prop := Forall2 R a b.

(** a bound indicator is 0 or 1 *)
Definition indicator (p : Q) : Prop := p == 0 \/ p == 1.

(** one variable with its bounds: (value, (lower bound, indicator), (upper bound, indicator)) *)
Definition bounded_var : Type := Q * (Q * Q) * (Q * Q).
Definition has_lower (v : bounded_var) : Prop := let '(_, (_, i), _) := v in ~ i == 0.
Definition has_upper (v : bounded_var) : Prop := let '(_, _, (_, i)) := v in ~ i == 0.
Definition start (v : bounded_var) : Q := let '(x, _, _) := v in x.
Definition lower (v : bounded_var) : Q := let '(_, (b, _), _) := v in b.
Definition upper (v : bounded_var) : Q := let '(_, _, (b, _)) := v in b.

Definition strictly_inside (v : bounded_var) (y : Q) : Prop :=
  (has_lower v -> lower v < y) /\ (has_upper v -> y < upper v).
(** [x] is at distance at least [k1 * max(1,|bound|)] (+[sm]) from each of its bounds *)
Definition well_inside (k1 sm : Q) (v : bounded_var) : Prop :=
  (has_lower v -> lower v + k1 * Qmax 1 (Qabs (lower v)) <= start v) /\
  (has_upper v -> start v <= upper v - k1 * Qmax 1 (Qabs (upper v)) - sm).
Definition inconsistent (v : bounded_var) : Prop :=
  has_lower v /\ has_upper v /\ upper v < lower v.

(** ** slack adjustment *)
(** one slack: its value, the bound it belongs to, the multiplier, the indicator *)
Definition slack_data : Type := Q * Q * Q * Q.
Definition slack_wf (v : slack_data) : Prop :=
  let '(s, b, z, sel) := v in
  indicator sel /\ (sel == 0 -> s == 0) /\ (sel == 1 -> 0 <= s /\ 0 < z).
Definition small_slack (thr : Q) (v : slack_data) : Prop :=
  let '(s, _, _, sel) := v in sel == 1 /\ s < thr.
(** the admissible effect of the adjustment on one slack *)
Definition slack_moved (thr sf mu : Q) (v : slack_data) (s' : Q) : Prop :=
  let '(s, b, z, sel) := v in
  (~ small_slack thr v -> s' == s) /\
  (small_slack thr v -> s <= s' /\ 0 < s' /\ s' - s <= sf * Qmax 1 (Qabs b)
      /\ s' <= Qmax (mu / z) thr /\
      (thr <= s' \/ s' == s + sf * Qmax 1 (Qabs b))).

(** ** a triple (vector, direction, pattern) *)
Definition triple : Type := list Q * list Q * list Q.
Definition t_interior (t : triple) : Prop := let '(x, _, p) := t in interior x p.
Definition t_keeps (tau a : Q) (t : triple) : Prop := let '(x, d, p) := t in keeps_fraction tau a x d p.
