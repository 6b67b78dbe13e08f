(** How the scale factors are chosen: hiopNLPObjGradScaling's constructor
    (src/Optimization/hiopNlpTransforms.cpp 421-499) and the decision to scale
    (src/Optimization/hiopNlpFormulation.cpp 671-714), over the rationals (no rounding).
    [None] is a failing assertion, an access outside an array, or a division by zero (which in IEEE
    arithmetic gives an infinite scale factor). *)
From Coq Require Import List Bool Arith QArith Qcanon.
From Verif Require Import RingKit PackModel ScaleModel.
Import ListNotations.
Close Scope Qc_scope. Close Scope Q_scope. Open Scope nat_scope.

(** [a < b] on doubles without NaN; the comparisons of hiopNlpTransforms.cpp 421-499 *)
Definition qlt (a b : Qc) : bool := negb (Qle_bool (this b) (this a)).
(** fabs; as in DLANGE, hiopMatrixDenseRowMajor.cpp 832-863 *)
Definition qabs (a : Qc) : Qc := if qlt a (Q2Qc 0) then Qcopp a else a.

(** hiopVectorPar.cpp 501-521 [infnorm] *)
Definition infnorm (v : list Qc) : Qc :=
  match v with
  | [] => Q2Qc 0
  | x :: r => fold_left (fun nrm y => if qlt nrm (qabs y) then qabs y else nrm) r (qabs x)
  end.
(** LAPACK DLANGE with norm 'M' as used by hiopMatrixDenseRowMajor.cpp 832-842 [max_abs_value] and, on
    one row, 844-863 [row_max_abs_value]; the triplet version is hiopMatrixSparseTriplet.cpp 267-301 *)
Definition max_abs (r : list Qc) : Qc :=
  fold_left (fun nrm y => if qlt nrm (qabs y) then qabs y else nrm) r (Q2Qc 0).
(** hiopMatrixDenseRowMajor.cpp 832-842 [max_abs_value] *)
Definition max_abs_value (M : list (list Qc)) : Qc := max_abs (concat M).
(** hiopMatrixDenseRowMajor.cpp 844-863 [row_max_abs_value] *)
Definition row_max_abs (M : list (list Qc)) : list Qc := map max_abs M.
(** hiopVectorPar.cpp 614-621 [component_max] with a constant *)
Definition component_max (a : Qc) (v : list Qc) : list Qc := map (fun x => if qlt x a then a else x) v.
(** hiopVectorPar.cpp 852-860 [invert]; callers apply it to entries that are at least 1 *)
Definition invert (v : list Qc) : list Qc := map (fun x => Qcdiv (Q2Qc 1) x) v.

(** the four options (hiopOptions.cpp, scaling_max_grad, scaling_min_grad, scaling_max_obj_grad,
    scaling_max_con_grad); hiopOptions.cpp 773-801 *)
Record sopts := SOpts { max_grad : Qc; min_grad : Qc; max_obj_grad : Qc; max_con_grad : Qc }.
(** literal 0 (hiopNlpTransforms.cpp 421-499) *)
Definition q0 : Qc := Q2Qc 0.
(** literal 1 (hiopNlpTransforms.cpp 421-499) *)
Definition q1 : Qc := Q2Qc 1.
(** [a == b] on doubles (hiopNlpTransforms.cpp 421-499) *)
Definition qeqb (a b : Qc) : bool := Qeq_bool (this a) (this b).

(** hiopNlpTransforms.cpp 441-455: scale_factor_obj *)
Definition obj_factor (o : sopts) (g : list Qc) : Qc :=
  let n := infnorm g in
  let s := if qeqb (max_obj_grad o) q0
           then if qlt (max_grad o) n then Qcdiv (max_grad o) n else q1
           else if qlt q0 n then Qcdiv (max_obj_grad o) n else q1 in
  if qlt q0 (min_grad o) && qlt s (min_grad o) then min_grad o else s.

(** hiopNlpTransforms.cpp 462-465 and 467-470: scale(1/max_grad), component_max(1), invert *)
Definition row_factors (o : sopts) (rowmax : list Qc) : list Qc :=
  invert (component_max q1 (map (fun x => Qcmult (Qcdiv q1 (max_grad o)) x) rowmax)).

(** hiopNlpTransforms.cpp 474-499: scale_factor_c (and, with the other Jacobian, scale_factor_d) *)
Definition block_factors (o : sopts) (rowmax : list Qc) : option (list Qc) :=
  match (if qeqb (max_con_grad o) q0 then
           Some (if qlt (max_grad o) (infnorm rowmax) then row_factors o rowmax
                 else map (fun _ => q1) rowmax)
         else match rowmax with
              | [] => Some []
              | _ => if qeqb (infnorm rowmax) q0 then None
                     else Some (map (fun _ => Qcdiv (max_con_grad o) (infnorm rowmax)) rowmax)
              end) with
  | Some v => Some (if qlt q0 (min_grad o) then component_max (min_grad o) v else v)
  | None => None
  end.

(** hiopNlpTransforms.cpp 424-500: the constructor *)
Definition new_scaling (o : sopts) (g : list Qc) (Jc Jd : list (list Qc)) (eqm inm : list nat)
  : option (scaling Qc_field) :=
  let rc := row_max_abs Jc in
  let rd := row_max_abs Jd in
  match merge (map (fun _ => q0) (Jc ++ Jd)) (row_factors o rc) eqm (row_factors o rd) inm,
        block_factors o rc, block_factors o rd with
  | Some cd, Some c, Some d => Some (@Scaling Qc_field (obj_factor o g) c d cd)
  | _, _, _ => None
  end.

(** hiopNlpFormulation.cpp 671-714 [apply_scaling] with scaling_type other than none: [g], [Jc],
    [Jd] are the solver's (transformed) gradient and Jacobians.  The state, whether a scaling was
    added, and the right-hand sides and inequality bounds *)
Definition apply_scaling (o : sopts) (P : nlp Qc_field) (rhs dl du g : list Qc) (Jc Jd : list (list Qc))
  : option (nlp Qc_field * bool * list Qc * list Qc * list Qc) :=
  let og := if qlt q0 (max_obj_grad o) then max_obj_grad o else max_grad o in
  let cg := if qlt q0 (max_con_grad o) then max_con_grad o else max_grad o in
  if qlt (infnorm g) og && qlt (max_abs_value Jc) cg && qlt (max_abs_value Jd) cg then
    Some (P, false, rhs, dl, du)
  else
    match new_scaling o g Jc Jd (n_eqm P) (n_inm P) with
    | Some s => match add_scaling P s rhs dl du with
                | Some (P', r, l, u) => Some (P', true, r, l, u)
                | None => None
                end
    | None => None
    end.
