(** Problem scaling and the functions that evaluate the user's functions through it and report back
    in the user's units: src/Optimization/hiopNlpTransforms.{hpp,cpp} (hiopNLPObjGradScaling and the
    chain hiopNlpTransformations) and src/Optimization/hiopNlpFormulation.{hpp,cpp}.
    Numbers are elements of a field (no rounding).  [None] is a failing assertion, an access outside
    an array, or an evaluation error reported by the user's code, as said at each definition. *)
From Coq Require Import List Bool Arith.
From Verif Require Import RingKit PackModel SparseModel.
Import ListNotations.

Section Scale.
Variable K : cfield.

(** hiopVectorPar.cpp 564-571 [componentMult], 573-578 [componentDiv]: the sizes must agree *)
Fixpoint cmap2 (f : K -> K -> K) (v s : list K) : option (list K) :=
  match v, s with
  | [], [] => Some []
  | x :: v', y :: s' => match cmap2 f v' s' with Some r => Some (f x y :: r) | None => None end
  | _, _ => None
  end.
(** hiopVectorPar.cpp 564-571 [componentMult] *)
Definition cmult : list K -> list K -> option (list K) := cmap2 fmul.
(** hiopVectorPar.cpp 573-578 [componentDiv] *)
Definition cdivv : list K -> list K -> option (list K) := cmap2 fdiv.
(** hiopVectorPar.cpp [scale] (DSCAL); hiopVectorPar.cpp 657-662 *)
Definition vscale (a : K) (v : list K) : list K := map (fun x => a *! x) v.

(** hiopNlpTransforms.hpp 493-497: the members of hiopNLPObjGradScaling *)
Record scaling := Scaling { s_obj : K; s_c : list K; s_d : list K; s_cd : list K }.
(** an element of the chain of transformations; the fixed-variable remover and the bound relaxers
    inherit the identity for objective values and constraints (hiopNlpTransforms.hpp 103-128) *)
Inductive trans := TScale (s : scaling) | TOther.

(** hiopNlpTransforms.hpp 389-390 *)
Definition t_to_obj (t : trans) (f : K) : K := match t with TScale s => s_obj s *! f | TOther => f end.
(** hiopNlpTransforms.hpp 387-388 *)
Definition t_inv_obj (t : trans) (f : K) : K := match t with TScale s => f /! s_obj s | TOther => f end.
(** hiopNlpTransforms.hpp 399-404 *)
Definition t_to_grad (t : trans) (g : list K) : list K :=
  match t with TScale s => vscale (s_obj s) g | TOther => g end.
(** hiopNlpTransforms.hpp 415-421 (eq), 431-437 (ineq), 447-453 (all constraints) *)
Definition t_to_eq (t : trans) (c : list K) : option (list K) :=
  match t with TScale s => cmult c (s_c s) | TOther => Some c end.
(** hiopNlpTransforms.hpp 431-437 (ineq) *)
Definition t_to_ineq (t : trans) (d : list K) : option (list K) :=
  match t with TScale s => cmult d (s_d s) | TOther => Some d end.
(** hiopNlpTransforms.hpp 447-453 (all constraints) *)
Definition t_to_cons (t : trans) (cd : list K) : option (list K) :=
  match t with TScale s => cmult cd (s_cd s) | TOther => Some cd end.
(** hiopNlpTransforms.hpp 407-413 (eq), 423-429 (ineq) *)
Definition t_inv_eq (t : trans) (c : list K) : option (list K) :=
  match t with TScale s => cdivv c (s_c s) | TOther => Some c end.
(** hiopNlpTransforms.hpp 423-429 (ineq) *)
Definition t_inv_ineq (t : trans) (d : list K) : option (list K) :=
  match t with TScale s => cdivv d (s_d s) | TOther => Some d end.

(** hiopNlpTransforms.hpp 555-794: [apply_to_...] walks the list forwards *)
Definition ch_to_obj (ch : list trans) (f : K) : K := fold_left (fun a t => t_to_obj t a) ch f.
(** hiopNlpTransforms.hpp 555-794: apply_to_grad_obj over the list, forwards *)
Definition ch_to_grad (ch : list trans) (g : list K) : list K := fold_left (fun a t => t_to_grad t a) ch g.
(** hiopNlpTransforms.hpp 555-794: apply_to_cons_eq over the list, forwards *)
Definition ch_to_eq (ch : list trans) (c : list K) : option (list K) := ofold t_to_eq ch c.
(** hiopNlpTransforms.hpp 555-794: apply_to_cons_ineq over the list, forwards *)
Definition ch_to_ineq (ch : list trans) (d : list K) : option (list K) := ofold t_to_ineq ch d.
(** hiopNlpTransforms.hpp 555-794: apply_to_cons over the list, forwards *)
Definition ch_to_cons (ch : list trans) (v : list K) : option (list K) := ofold t_to_cons ch v.
(** hiopNlpTransforms.hpp 555-794: [apply_inv_to_...] walks the list backwards *)
Definition ch_inv_obj (ch : list trans) (f : K) : K := fold_left (fun a t => t_inv_obj t a) (rev ch) f.
(** hiopNlpTransforms.hpp 555-794: apply_inv_to_cons_eq over the list, backwards *)
Definition ch_inv_eq (ch : list trans) (c : list K) : option (list K) := ofold t_inv_eq (rev ch) c.
(** hiopNlpTransforms.hpp 555-794: apply_inv_to_cons_ineq over the list, backwards *)
Definition ch_inv_ineq (ch : list trans) (d : list K) : option (list K) := ofold t_inv_ineq (rev ch) d.

(** the members of hiopNlpFormulation the functions below use: the chain, [nlp_scaling_] (the last
    scaling created, hiopNlpFormulation.cpp 696), the two index maps and the work vectors
    [temp_eq_], [temp_ineq_] of get_dual_solutions *)
Record nlp := Nlp { n_chain : list trans; n_last : option scaling; n_eqm : list nat; n_inm : list nat;
                    n_teq : list K; n_tin : list K }.

(** hiopNlpFormulation.cpp 1395-1402 [get_obj_scale] *)
Definition get_obj_scale (P : nlp) : K := match n_last P with Some s => s_obj s | None => f1 end.
(** hiopNlpFormulation.cpp 743-753 [eval_f]; [f] the value the user's function returned *)
Definition eval_f (P : nlp) (f : K) : K := ch_to_obj (n_chain P) f.
(** hiopNlpFormulation.cpp 755-773 [eval_grad_f] without fixed-variable removal; [g] the user's
    gradient (the solver's buffer, first divided in place, is overwritten by the user) *)
Definition eval_grad_f (P : nlp) (g : list K) : list K := ch_to_grad (n_chain P) g.
(** hiopNlpFormulation.hpp 254-257 [user_obj], called by getObjective (hiopAlgFilterIPM.cpp 769) *)
Definition user_obj (P : nlp) (f : K) : K := ch_inv_obj (n_chain P) f.

(** hiopNlpFormulation.cpp 696-711: the end of [apply_scaling], once a new scaling has been built;
    returns the new state and the scaled right-hand sides and inequality bounds *)
Definition add_scaling (P : nlp) (s : scaling) (rhs dl du : list K)
  : option (nlp * list K * list K * list K) :=
  match cmult rhs (s_c s), cmult dl (s_d s), cmult du (s_d s) with
  | Some r, Some l, Some u =>
      Some (Nlp (n_chain P ++ [TScale s]) (Some s) (n_eqm P) (n_inm P) (n_teq P) (n_tin P), r, l, u)
  | _, _, _ => None
  end.

(** ** Constraint evaluation *)
(** hiopNlpFormulation.hpp [cons_eval_type_]: -1, 0, 1; hiopNlpFormulation.hpp 389 *)
Inductive emode := Unknown | TwoCalls | OneCall.
(** the user's constraint callbacks at the current point: [u_two idx] is the call with an index set
    (hiopInterface.hpp 225-231), [u_one] the call for all constraints (248-255); [None]: returns false *)
Record ucons := UCons { u_two : list nat -> option (list K); u_one : option (list K) }.
(** outcome of an evaluation: an abort (assertion, access outside an array), false, or the values; hiopNlpFormulation.cpp 743-1033 *)
Inductive outcome (A : Type) := Abort | Fails | Vals (a : A).
Arguments Abort {A}. Arguments Fails {A}. Arguments Vals {A}.

(** hiopNlpFormulation.cpp 883-902 [eval_c], 904-923 [eval_d].  When the user's call fails the
    scaling is applied to whatever is in the buffer; the values are not used *)
Definition eval_c (P : nlp) (u : ucons) : outcome (list K) :=
  match u_two u (n_eqm P) with
  | None => Fails
  | Some c => match ch_to_eq (n_chain P) c with Some r => Vals r | None => Abort end
  end.
(** hiopNlpFormulation.cpp 904-923 [eval_d] *)
Definition eval_d (P : nlp) (u : ucons) : outcome (list K) :=
  match u_two u (n_inm P) with
  | None => Fails
  | Some d => match ch_to_ineq (n_chain P) d with Some r => Vals r | None => Abort end
  end.

(** hiopNlpFormulation.cpp 950-958: the two-call branch *)
Definition two_call (P : nlp) (u : ucons) : outcome (list K * list K) :=
  match eval_c P u with
  | Abort => Abort
  | Fails => Fails
  | Vals c => match eval_d P u with Abort => Abort | Fails => Fails | Vals d => Vals (c, d) end
  end.
(** hiopNlpFormulation.cpp 959-983: the one-call branch; [copy_to_two_vec_w_pattern] is
    [PackModel.split], whose size arguments are the sizes of c and d *)
Definition one_call (P : nlp) (u : ucons) : outcome (list K * list K) :=
  match u_one u with
  | None => Fails
  | Some body =>
      match PackModel.split body (map (fun _ => f0) (n_eqm P)) (n_eqm P)
                                 (map (fun _ => f0) (n_inm P)) (n_inm P) with
      | None => Abort
      | Some (c, d) =>
          match ch_to_eq (n_chain P) c, ch_to_ineq (n_chain P) d with
          | Some c', Some d' => Vals (c', d')
          | _, _ => Abort
          end
      end
  end.
(** hiopNlpFormulation.cpp 925-985 [eval_c_d]: the new mode and the outcome *)
Definition eval_c_d (P : nlp) (m : emode) (u : ucons) : emode * outcome (list K * list K) :=
  match m with
  | TwoCalls => (TwoCalls, two_call P u)
  | OneCall => (OneCall, one_call P u)
  | Unknown =>
      match eval_c P u with
      | Abort => (Unknown, Abort)
      | Fails =>
          match eval_d P u with
          | Abort => (Unknown, Abort)
          | Fails => (OneCall, one_call P u)
          | Vals _ => (TwoCalls, Fails)
          end
      | Vals c =>
          (TwoCalls, match eval_d P u with Abort => Abort | Fails => Fails | Vals d => Vals (c, d) end)
      end
  end.
(** hiopNlpFormulation.cpp 925-985: a history of evaluations at successive points; the chain of
    transformations may grow between two of them, [cons_eval_type_] is kept *)
Fixpoint eval_run (m : emode) (us : list (nlp * ucons)) : list (outcome (list K * list K)) :=
  match us with
  | [] => []
  | (P, u) :: us' => let (m', o) := eval_c_d P m u in o :: eval_run m' us'
  end.

(** ** Jacobians *)
(** hiopMatrixDenseRowMajor.cpp 182-197 [copyRowsFrom] with an index set, on the list of rows *)
Definition d_copy_rows (src : list (list K)) (idx : list nat) : option (list (list K)) :=
  if length idx <=? length src then gather src idx else None.
(** hiopMatrixDenseRowMajor.cpp 865-883 [scale_row] *)
Fixpoint d_scale_row (M : list (list K)) (s : list K) (inv : bool) : option (list (list K)) :=
  match M, s with
  | [], [] => Some []
  | r :: M', a :: s' =>
      match d_scale_row M' s' inv with
      | Some R => Some (map (fun x => (if inv then f1 /! a else a) *! x) r :: R)
      | None => None
      end
  | _, _ => None
  end.
(** hiopNlpTransforms.hpp 463-468 (eq), 479-484 (ineq); [pick] selects scale_factor_c or _d *)
Definition t_dense (pick : scaling -> list K) (inv : bool) (t : trans) (M : list (list K)) :=
  match t with TScale s => d_scale_row M (pick s) inv | TOther => Some M end.
(** hiopNlpTransforms.hpp 555-794: forwards for apply_to, backwards for apply_inv *)
Definition ch_to_dense (pick : scaling -> list K) (ch : list trans) (M : list (list K)) :=
  ofold (t_dense pick false) ch M.
(** hiopNlpTransforms.hpp 555-794: backwards for apply_inv *)
Definition ch_inv_dense (pick : scaling -> list K) (ch : list trans) (M : list (list K)) :=
  ofold (t_dense pick true) (rev ch) M.
(** hiopNlpFormulation.cpp 1546-1620: dense [eval_Jac_c], [eval_Jac_d]; [Jc], [Jd] are what the
    user's two calls wrote *)
Definition dense_jac_two (P : nlp) (Jc Jd : list (list K)) : option (list (list K) * list (list K)) :=
  match ch_to_dense s_c (n_chain P) Jc, ch_to_dense s_d (n_chain P) Jd with
  | Some a, Some b => Some (a, b)
  | _, _ => None
  end.
(** hiopNlpFormulation.cpp 1495-1544: dense [eval_Jac_c_d_interface_impl]; [J] is what the user's
    single call wrote.  Lines 1535-1536 call [apply_inv_to_jacob_eq], [apply_inv_to_jacob_ineq] *)
Definition dense_jac_one (P : nlp) (J : list (list K)) : option (list (list K) * list (list K)) :=
  match d_copy_rows J (n_eqm P), d_copy_rows J (n_inm P) with
  | Some c, Some d =>
      match ch_inv_dense s_c (n_chain P) c, ch_inv_dense s_d (n_chain P) d with
      | Some a, Some b => Some (a, b)
      | _, _ => None
      end
  | _, _ => None
  end.

(** hiopNlpTransforms.hpp 463-468, 479-484 on triplet matrices ([scale_row], SparseModel) *)
Definition t_sparse (pick : scaling -> list K) (t : trans) (A : trip K) : option (trip K) :=
  match t with TScale s => scale_row K A (pick s) false | TOther => Some A end.
(** hiopNlpTransforms.hpp 555-794 *)
Definition ch_to_sparse (pick : scaling -> list K) (ch : list trans) (A : trip K) : option (trip K) :=
  ofold (t_sparse pick) ch A.
(** hiopNlpFormulation.cpp 1886-1959: sparse [eval_Jac_c], [eval_Jac_d] *)
Definition sparse_jac_two (P : nlp) (Jc Jd : trip K) : option (trip K * trip K) :=
  match ch_to_sparse s_c (n_chain P) Jc, ch_to_sparse s_d (n_chain P) Jd with
  | Some a, Some b => Some (a, b)
  | _, _ => None
  end.
(** hiopNlpFormulation.cpp 1961-2021: sparse [eval_Jac_c_d_interface_impl]; [Jc0], [Jd0] are the
    solver's matrices (only their sizes matter), [J] the user's single call; assertion 1971 *)
Definition sparse_jac_one (P : nlp) (Jc0 Jd0 J : trip K) : option (trip K * trip K) :=
  if length (t_ent J) =? length (t_ent Jc0) + length (t_ent Jd0) then
    match copy_rows_from K Jc0 J (n_eqm P), copy_rows_from K Jd0 J (n_inm P) with
    | Some c, Some d => sparse_jac_two P c d
    | _, _ => None
    end
  else None.
(** hiopNlpFormulation.cpp 1688-1757 and 1761-1807: the mixed dense-sparse class applies the same
    operations to its two blocks (hiopMatrixMDS.hpp 61-66, 185-189) *)
Definition mds_jac_two (P : nlp) (Jc Jd : trip K * list (list K)) :=
  match sparse_jac_two P (fst Jc) (fst Jd), dense_jac_two P (snd Jc) (snd Jd) with
  | Some (a, b), Some (x, y) => Some ((a, x), (b, y))
  | _, _ => None
  end.
(** hiopNlpFormulation.cpp 1761-1807, one-call evaluation *)
Definition mds_jac_one (P : nlp) (Jc0 Jd0 : trip K) (J : trip K * list (list K)) :=
  match copy_rows_from K Jc0 (fst J) (n_eqm P), copy_rows_from K Jd0 (fst J) (n_inm P),
        d_copy_rows (snd J) (n_eqm P), d_copy_rows (snd J) (n_inm P) with
  | Some a, Some b, Some x, Some y => mds_jac_two P (a, x) (b, y)
  | _, _, _, _ => None
  end.

(** ** What the user's Hessian callback receives: the objective factor and the multipliers *)
(** hiopNlpFormulation.cpp 1829-1848 (mixed dense-sparse) *)
Definition mds_hess_args (P : nlp) (obj_factor : K) (leq lin : list K) : option (K * list K) :=
  if (length leq =? length (n_eqm P)) && (length lin =? length (n_inm P)) then
    match ch_to_cons (n_chain P) (leq ++ lin) with
    | Some l => Some (obj_factor *! get_obj_scale P, l)
    | None => None
    end
  else None.
(** hiopNlpFormulation.cpp 2043-2063 (sparse) *)
Definition sparse_hess_args (P : nlp) (obj_factor : K) (leq lin : list K) : option (K * list K) :=
  match merge (map (fun _ => f0) (leq ++ lin)) leq (n_eqm P) lin (n_inm P) with
  | Some v => match ch_to_cons (n_chain P) v with
              | Some l => Some (obj_factor *! get_obj_scale P, l)
              | None => None
              end
  | None => None
  end.

(** ** Reporting *)
(** the part of the iterate that is reported; hiopIterate.hpp 197-201 *)
Record duals := Duals { y_c : list K; y_d : list K; z_l : list K; z_u : list K }.
(** what the solution callback is given (hiopInterface.hpp 401-409), besides the point *)
Record report := Report { r_zl : list K; r_zu : list K; r_cons : list K; r_lambda : list K; r_obj : K }.

(** hiopNlpFormulation.cpp 1079-1163 [user_callback_solution]; also returns the duals of the iterate
    and the constraint values, which it changes in place *)
Definition callback_solution (P : nlp) (y : duals) (c d : list K) (obj : K)
  : option (report * duals * list K * list K) :=
  let os := get_obj_scale P in
  let buf := map (fun _ => f0) (n_eqm P ++ n_inm P) in
  match (match n_last P with
         | None => Some (y_c y, y_d y, z_l y, z_u y, c, d)
         | Some _ =>
             match ch_to_eq (n_chain P) (y_c y), ch_to_ineq (n_chain P) (y_d y),
                   ch_inv_eq (n_chain P) c, ch_inv_ineq (n_chain P) d with
             | Some a, Some b, Some c', Some d' =>
                 Some (vscale os a, vscale os b, vscale os (z_l y), vscale os (z_u y), c', d')
             | _, _, _, _ => None
             end
         end) with
  | Some (yc, yd, zl, zu, c', d') =>
      match merge buf yc (n_eqm P) yd (n_inm P), merge buf c' (n_eqm P) d' (n_inm P) with
      | Some lam, Some body =>
          Some (Report zl zu body lam (obj /! os), Duals yc yd zl zu, c', d')
      | _, _ => None
      end
  | None => None
  end.

(** hiopNlpFormulation.cpp 1035-1077 [get_dual_solutions]: the three arrays and the new state (the
    work vectors are scaled in place) *)
Definition get_dual_solutions (P : nlp) (y : duals) : option (list K * list K * list K * nlp) :=
  let buf := map (fun _ => f0) (n_eqm P ++ n_inm P) in
  match n_last P with
  | None =>
      match merge buf (y_c y) (n_eqm P) (y_d y) (n_inm P) with
      | Some lam => Some (z_l y, z_u y, lam, P)
      | None => None
      end
  | Some _ =>
      let os := get_obj_scale P in
      match ch_to_eq (n_chain P) (n_teq P), ch_to_ineq (n_chain P) (n_tin P) with
      | Some te, Some ti =>
          match merge buf te (n_eqm P) ti (n_inm P) with
          | Some lam => Some (vscale os (z_l y), vscale os (z_u y), vscale os lam,
                              Nlp (n_chain P) (n_last P) (n_eqm P) (n_inm P) te ti)
          | None => None
          end
      | _, _ => None
      end
  end.
End Scale.
Arguments Abort {A}. Arguments Fails {A}. Arguments Vals {A}.
Arguments Scaling {_}. Arguments s_obj {_}. Arguments s_c {_}. Arguments s_d {_}. Arguments s_cd {_}.
Arguments TScale {_}. Arguments TOther {_}.
Arguments Nlp {_}. Arguments n_chain {_}. Arguments n_last {_}. Arguments n_eqm {_}. Arguments n_inm {_}.
Arguments n_teq {_}. Arguments n_tin {_}. Arguments UCons {_}. Arguments u_two {_}. Arguments u_one {_}.
Arguments Duals {_}. Arguments y_c {_}. Arguments y_d {_}. Arguments z_l {_}. Arguments z_u {_}.
Arguments Report {_}. Arguments r_zl {_}. Arguments r_zu {_}. Arguments r_cons {_}. Arguments r_lambda {_}.
Arguments r_obj {_}.
Arguments get_obj_scale {_}. Arguments eval_f {_}. Arguments eval_grad_f {_}. Arguments user_obj {_}.
Arguments add_scaling {_}. Arguments eval_c_d {_}. Arguments eval_run {_}. Arguments callback_solution {_}.
Arguments get_dual_solutions {_}. Arguments mds_hess_args {_}. Arguments sparse_hess_args {_}.
Arguments dense_jac_one {_}. Arguments dense_jac_two {_}. Arguments sparse_jac_one {_}.
Arguments sparse_jac_two {_}. Arguments mds_jac_one {_}. Arguments mds_jac_two {_}.
Arguments one_call {_}. Arguments two_call {_}. Arguments eval_c {_}. Arguments eval_d {_}.
