(** What the optimality errors should measure: the first-order conditions of the problem
    min f(x)  s.t.  c(x) = rhs,  dl <= d(x) <= du,  xl <= x <= xu, entry by entry. *)
From Coq Require Import List ZArith QArith Qabs Qminmax.
From Verif Require Import VecModel ErrModel.
Import ListNotations.
Open Scope Q_scope.

(** inner product of a column of a Jacobian with the multipliers *)
Fixpoint inner (a y : list Q) : Q :=
  match a, y with p :: a, q :: y => p * q + inner a y | _, _ => 0 end.

(** the derivative of the Lagrangian with respect to one variable *)
Definition lagr_x (D : list (dvar Qar)) (E : list (evar Qar)) (x : xvar Qar) : Q :=
  x_g _ x + inner (x_jc _ x) (map (e_y _) E) + inner (x_jd _ x) (map (d_y _) D) - x_zl _ x + x_zu _ x.
(** the derivative of the Lagrangian with respect to one inequality's slack variable, negated *)
Definition lagr_d (d : dvar Qar) : Q := d_y _ d + d_vl _ d - d_vu _ d.

(** the first-order conditions hold up to [es] (stationarity), [ef] (constraints), and the products
    slack * multiplier differ from [mu] by at most [ec]; [ct] is the weight of the linear term that
    damps variables bounded on one side only (0 for the original problem) *)
Definition kkt_within (ct mu es ef ec : Q) (ranks : list (list (xvar Qar))) (D : list (dvar Qar)) (E : list (evar Qar)) : Prop :=
  (forall r x, In r ranks -> In x r -> Qabs (lagr_x D E x + ct * (x_il _ x - x_iu _ x)) <= es) /\
  (forall d, In d D -> Qabs (lagr_d d - ct * (d_il _ d - d_iu _ d)) <= es) /\
  (forall e, In e E -> Qabs (e_c _ e - e_rhs _ e) <= ef) /\
  (forall d, In d D -> (d_il _ d == 1 -> d_l _ d - ef <= d_val _ d) /\ (d_iu _ d == 1 -> d_val _ d <= d_u _ d + ef)) /\
  (forall r x, In r ranks -> In x r ->
     (x_il _ x == 1 -> Qabs (x_sl _ x * x_zl _ x - mu) <= ec) /\ (x_iu _ x == 1 -> Qabs (x_su _ x * x_zu _ x - mu) <= ec)) /\
  (forall d, In d D ->
     (d_il _ d == 1 -> Qabs (d_sl _ d * d_vl _ d - mu) <= ec) /\ (d_iu _ d == 1 -> Qabs (d_su _ d * d_vu _ d - mu) <= ec)).

(** patterns are made of zeros and ones *)
Definition bit (i : Q) : Prop := i == 0 \/ i == 1.
Definition bits (ranks : list (list (xvar Qar))) (D : list (dvar Qar)) : Prop :=
  (forall r x, In r ranks -> In x r -> bit (x_il _ x) /\ bit (x_iu _ x)) /\
  (forall d, In d D -> bit (d_il _ d) /\ bit (d_iu _ d)).

(** sum of absolute values *)
Fixpoint sum_abs (l : list Q) : Q := match l with [] => 0 | a :: r => Qabs a + sum_abs r end.
(** one-norm of the multipliers of the bounds *)
Definition bound_duals (ranks : list (list (xvar Qar))) (D : list (dvar Qar)) : Q :=
  sum_abs (map (x_zl _) (concat ranks)) + sum_abs (map (x_zu _) (concat ranks)) +
  sum_abs (map (d_vl _) D) + sum_abs (map (d_vu _) D).
(** one-norm of the multipliers of the constraints *)
Definition cons_duals (D : list (dvar Qar)) (E : list (evar Qar)) : Q := sum_abs (map (e_y _) E) + sum_abs (map (d_y _) D).

(** how many entries are 1 *)
Fixpoint count1 (l : list Q) : nat :=
  match l with [] => O | a :: r => if Qeq_dec a 1 then S (count1 r) else count1 r end.
(** the number of finite bounds *)
Definition bound_count (ranks : list (list (xvar Qar))) (D : list (dvar Qar)) : nat :=
  (count1 (map (x_il _) (concat ranks)) + count1 (map (x_iu _) (concat ranks)) +
   count1 (map (d_il _) D) + count1 (map (d_iu _) D))%nat.
(** max(smax, s/n)/smax, at most 1e8 (an empty average counts as 0) *)
Definition scale_of (smax s : Q) (n : nat) : Q :=
  Qmin (Qmax smax (match n with O => 0 | S _ => s / inject_Z (Z.of_nat n) end) / smax) (100000000 # 1).
(** the two scale factors of the overall error *)
Definition scale_stat (smax : Q) ranks D (E : list (evar Qar)) : Q :=
  scale_of smax (bound_duals ranks D + cons_duals D E) (bound_count ranks D + length E + length D).
Definition scale_comp (smax : Q) ranks D : Q := scale_of smax (bound_duals ranks D) (bound_count ranks D).
