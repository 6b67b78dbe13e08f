(** Fixed-variable removal, fixed-variable relaxation and bound relaxation:
    src/Optimization/hiopNlpTransforms.{hpp,cpp}, and the part of
    hiopNlpFormulation::finalizeInitialization (hiopNlpFormulation.cpp 256-411) that applies them to
    the variable bounds.  [None] is an out-of-bounds access or a failing assertion. *)
From Coq Require Import List Bool Arith ZArith.
From Verif Require Import FloatBase MuModel NlpModel PackModel.
Import ListNotations.

(** hiopNlpTransforms.cpp 160-171: the loop building [fs2rs_idx_map]; -1 is [None]; the second
    component is the final [it_rs] *)
Fixpoint map_loop (tol : b64) (it_rs : nat) (xs : list (b64 * b64)) : list (option nat) * nat :=
  match xs with
  | [] => ([], it_rs)
  | (l, u) :: xs' =>
      if close_bnds tol l u then
        let (m, n) := map_loop tol it_rs xs' in (None :: m, n)
      else
        let (m, n) := map_loop tol (S it_rs) xs' in (Some it_rs :: m, n)
  end.

(** hiopNlpTransforms.hpp 287-312: the members the modelled functions use *)
Record remover := Remover { r_map : list (option nat); r_xl : list b64; r_nfix : nat; r_xfs : list b64 }.

(** hiopNlpTransforms.cpp 63-86 (constructor; [x_fs] is a fresh, here arbitrary, buffer) and
    154-173 [setupDecisionVectorPart] with its assertion 171 *)
Definition mk_remover (tol : b64) (xs : list (b64 * b64)) (nfix : nat) (buf : list b64) : option remover :=
  let (m, it_rs) := map_loop tol 0 xs in
  if it_rs + nfix =? length xs then Some (Remover m (map fst xs) nfix buf) else None.

Section Copy.
Context {A : Type}.
(** hiopNlpTransforms.cpp 220-235 [apply_inv_to_vector]: reduced to full; the loop overwrites every
    entry of the full vector *)
Fixpoint expand (m : list (option nat)) (fixed rs : list A) : option (list A) :=
  match m, fixed with
  | [], _ => Some []
  | o :: m', x :: fx' =>
      match match o with None => Some x | Some r => nth_error rs r end, expand m' fx' rs with
      | Some v, Some t => Some (v :: t)
      | _, _ => None
      end
  | _ :: _, [] => None
  end.
(** hiopNlpTransforms.cpp 238-250 [apply_to_vector] (also 199-203, 205-216): full to reduced *)
Fixpoint reduce (m : list (option nat)) (fs rs : list A) : option (list A) :=
  match m, fs with
  | [], _ => Some rs
  | None :: m', _ :: fs' => reduce m' fs' rs
  | Some r :: m', v :: fs' => match upd rs r v with Some rs' => reduce m' fs' rs' | None => None end
  | _ :: _, [] => None
  end.
(** hiopNlpTransforms.cpp 281-288: the inner loop of [applyInvToMatrix] for row [i]: column [j]
    onwards, [nrs] entries per reduced row, [nfs] entries per full row *)
Fixpoint mat_reduce_row (nrs nfs i j : nat) (m : list (option nat)) (fs rs : list A) : option (list A) :=
  match m with
  | [] => Some rs
  | None :: m' => mat_reduce_row nrs nfs i (S j) m' fs rs
  | Some r :: m' =>
      match nth_error fs (i * nfs + j) with
      | Some v => match upd rs (i * nrs + r) v with
                  | Some rs' => mat_reduce_row nrs nfs i (S j) m' fs rs' | None => None end
      | None => None
      end
  end.
(** hiopNlpTransforms.cpp 274-290 [applyInvToMatrix]: the outer loop over [cnt] rows from row [i] *)
Fixpoint mat_reduce (nrs nfs i cnt : nat) (m : list (option nat)) (fs rs : list A) : option (list A) :=
  match cnt with
  | 0 => Some rs
  | S c => match mat_reduce_row nrs nfs i 0 m fs rs with
           | Some rs' => mat_reduce nrs nfs (S i) c m fs rs' | None => None end
  end.
(** hiopNlpTransforms.cpp 253-271 [applyToMatrix]: reduced to full; every entry of the full matrix
    is written, row after row *)
Fixpoint mat_expand (zero : A) (nrs i cnt : nat) (m : list (option nat)) (rs : list A) : option (list A) :=
  match cnt with
  | 0 => Some []
  | S c =>
      let row := map (fun o => match o with None => Some zero | Some r => nth_error rs (i * nrs + r) end) m in
      if forallb (fun o => match o with Some _ => true | None => false end) row then
        match mat_expand zero nrs (S i) c m rs with
        | Some t => Some (flat_map (fun o => match o with Some v => [v] | None => [] end) row ++ t)
        | None => None
        end
      else None
  end.
End Copy.

(** hiopNlpTransforms.hpp 275: [fs_n_local()-n_fixed_vars_local] *)
Definition rs_n (R : remover) : nat := length (r_map R) - r_nfix R.

(** hiopNlpTransforms.hpp 175-181 [apply_inv_to_x]: returns the full-space buffer, refreshed only
    when [new_x]; the new state keeps the buffer *)
Definition apply_inv_to_x (R : remover) (x : list b64) (new_x : bool) : option (remover * list b64) :=
  if new_x then
    match expand (r_map R) (r_xl R) x with
    | Some p => Some (Remover (r_map R) (r_xl R) (r_nfix R) p, p)
    | None => None
    end
  else Some (R, r_xfs R).

(** one evaluation request of the solver, with the solver's output buffer; hiopNlpFormulation.cpp 743-1033 *)
Inductive request :=
| EvalObj (x : list b64) (new_x : bool)                          (* hiopNlpFormulation.cpp 743-753 *)
| EvalGrad (x : list b64) (new_x : bool) (gradf : list b64)       (* hiopNlpFormulation.cpp 755-773 *)
| EvalJac (x : list b64) (new_x : bool) (m : nat) (J : list b64)  (* hiopNlpFormulation.cpp 1546-1582, 1584-1620 *)
| Start (x0 : list b64).                                          (* hiopNlpFormulation.cpp 775-825 *)

(** the answer: the point at which the user's callback was invoked and what the solver receives; hiopNlpFormulation.cpp 743-1033 *)
Inductive answer :=
| ObjAt (p : list b64) (f : b64)
| GradAt (p : list b64) (g : list b64)
| JacAt (p : list b64) (J : list b64)
| StartAt (x0 : list b64).

Section Eval.
Variable uf : list b64 -> b64.                 (* user's eval_f *)
Variable ugrad : list b64 -> list b64.         (* user's eval_grad_f: n_pre entries *)
Variable ujac : nat -> list b64 -> list b64.   (* user's eval_Jac_cons for m rows: m*n_pre entries *)
Variable ustart : list b64.                    (* user's starting point: n_pre entries *)

(** hiopNlpFormulation.cpp 743-773 and 1546-1620 with the fixed-variable remover as the only active
    transformation.  The full-space output buffers ([grad_fs], [Jacc_fs]) are first filled from the
    solver's buffer (hpp 201-206, 215-225) and then overwritten by the user's callback. *)
Definition eval_req (R : remover) (q : request) : option (remover * answer) :=
  match q with
  | EvalObj x new_x =>
      match apply_inv_to_x R x new_x with Some (R', p) => Some (R', ObjAt p (uf p)) | None => None end
  | EvalGrad x new_x gradf =>
      match apply_inv_to_x R x new_x with
      | Some (R', p) =>
          match expand (r_map R) (r_xl R) gradf, reduce (r_map R) (ugrad p) gradf with
          | Some _, Some g => Some (R', GradAt p g)
          | _, _ => None
          end
      | None => None
      end
  | EvalJac x new_x m J =>
      match apply_inv_to_x R x new_x with
      | Some (R', p) =>
          match mat_expand f_zero (rs_n R) 0 m (r_map R) J,
                mat_reduce (rs_n R) (length (r_map R)) 0 m (r_map R) (ujac m p) J with
          | Some _, Some g => Some (R', JacAt p g)
          | _, _ => None
          end
      | None => None
      end
  | Start x0 =>
      (* 786: the buffer is filled and handed to the user, who overwrites it; 820: reduced *)
      match apply_inv_to_x R x0 true with
      | Some (R', _) =>
          match reduce (r_map R) ustart x0 with
          | Some x => Some (Remover (r_map R) (r_xl R) (r_nfix R) ustart, StartAt x)
          | None => None
          end
      | None => None
      end
  end.
(** a sequence of requests; hiopNlpFormulation.cpp 743-1033 *)
Fixpoint eval_seq (R : remover) (qs : list request) : option (list answer) :=
  match qs with
  | [] => Some []
  | q :: qs' => match eval_req R q with
                | Some (R', a) => match eval_seq R' qs' with Some l => Some (a :: l) | None => None end
                | None => None
                end
  end.
End Eval.

(** hiopNlpTransforms.cpp 125-140: prefix sums of the gathered counts *)
Fixpoint prefix_sums (acc : Z) (l : list Z) : list Z :=
  match l with [] => [] | a :: l' => (acc + a)%Z :: prefix_sums (acc + a) l' end.
(** hiopNlpTransforms.cpp 106-151 [allocRSVectorDistrib]: [fs] is the full-space distribution
    (nranks+1 entries), [nfix] the number of fixed variables of each rank (MPI_Allgather) *)
Definition rs_distrib (fs : list Z) (nfix : list Z) : option (list Z) :=
  if length fs =? S (length nfix) then
    Some (map (fun '(a, b) => (a - b)%Z) (combine fs (0%Z :: prefix_sums 0 nfix)))
  else None.

(** hiopNlpTransforms.cpp 311-331 [hiopFixedVarsRelaxer::relax], one variable *)
Definition fixed_relax1 (tol pert : b64) (e : b64 * b64) : b64 * b64 :=
  let (l, u) := e in
  let uabs := fabs u in
  if fle (fabs (fsub u l)) (fmul tol (fmax f_one uabs)) then
    (fsub l (fmul pert (fmax f_one uabs)), fadd u (fmul pert (fmax f_one uabs)))
  else (l, u).

(** hiopVectorPar.cpp 614-621 [component_max] with a constant *)
Definition comp_max (x c : b64) : b64 := if flt x c then c else x.
(** hiopVectorPar.cpp 657-662 [scale] *)
Definition scale1 (num x : b64) : b64 := if feq f_one num then x else fmul num x.
(** hiopNlpTransforms.cpp 369-372, 379-382: a lower bound; the last step is axpy with 1.0 *)
Definition relax_low (p x : b64) : b64 :=
  fadd (scale1 (fopp p) (comp_max (fabs x) f_one)) (fmul f_one x).
(** hiopNlpTransforms.cpp 374-377, 384-387: an upper bound *)
Definition relax_upp (p x : b64) : b64 :=
  fadd (scale1 p (comp_max (fabs x) f_one)) (fmul f_one x).
(** hiopNlpTransforms.cpp 366-388 [hiopBoundsRelaxer::relax] on one pair (variable or constraint);
    [relax_from_ori] 391-417 first restores the original and then does the same *)
Definition bounds_relax1 (p : b64) (e : b64 * b64) : b64 * b64 := (relax_low p (fst e), relax_upp p (snd e)).

(** option fixed_var; hiopNlpFormulation.cpp 271, 347 *)
Inductive fixed_opt := FxRemove | FxRelax | FxNone.

(** the variable-bound part of the formulation after initialisation; counters as Z since the code
    subtracts (hiopNlpFormulation.cpp 334-336) *)
Record vbounds := VBounds { v_xs : list (b64 * b64); v_ixl : list b64; v_ixu : list b64;
                            v_low : Z; v_upp : Z; v_lu : Z }.

(** hiopNlpFormulation.cpp 256-411 for one rank (MPI sums as in [all_ranks]); [exit(EXIT_FAILURE)]
    at 359-364 is [None]; [junk] are the freshly allocated reduced vectors.  The elastic-mode variant
    (404) only changes the relaxation factor. *)
Definition finalize_bounds (o : fixed_opt) (tol pert brp : b64) (xs : list (b64 * b64)) (buf : list b64)
  : option vbounds :=
  let s := process_bounds tol xs in
  let v0 := VBounds xs (b_ixl s) (b_ixu s) (Z.of_nat (b_low s)) (Z.of_nat (b_upp s)) (Z.of_nat (b_lu s)) in
  let step1 :=
    if 0 <? b_fix s then
      match o with
      | FxRemove =>
          match mk_remover tol xs (b_fix s) buf with
          | Some R =>
              let junk := repeat f_zero (length xs - b_fix s) in
              match reduce (r_map R) (map fst xs) junk, reduce (r_map R) (map snd xs) junk,
                    reduce (r_map R) (b_ixl s) junk, reduce (r_map R) (b_ixu s) junk with
              | Some l, Some u, Some il, Some iu =>
                  let k := Z.of_nat (b_fix s) in
                  Some (VBounds (combine l u) il iu (v_low v0 - k) (v_upp v0 - k) (v_lu v0 - k))
              | _, _, _, _ => None
              end
          | None => None
          end
      | FxRelax => if feq brp f_zero then
                     Some (VBounds (map (fixed_relax1 tol pert) xs) (v_ixl v0) (v_ixu v0) (v_low v0) (v_upp v0) (v_lu v0))
                   else Some v0
      | FxNone => if feq brp f_zero then None else Some v0
      end
    else Some v0 in
  match step1 with
  | Some v => if fgt brp f_zero then
                Some (VBounds (map (bounds_relax1 brp) (v_xs v)) (v_ixl v) (v_ixu v) (v_low v) (v_upp v) (v_lu v))
              else Some v
  | None => None
  end.
