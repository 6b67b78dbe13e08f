(** Model of the feasibility-restoration problem: src/Optimization/hiopFRProb.cpp.
    The three classes (sparse, mixed dense-sparse, dense) are one model with a layout
    parameter, since their code differs only in where the blocks of the vector lie.
    Exact real arithmetic replaces binary64; one process, so the MPI copies and
    reductions of the dense class are the identity. *)
From Coq Require Import List Arith Reals.
Import ListNotations.
Open Scope R_scope.

(** Which class: hiopFRProbSparse (hiopFRProb.cpp 70-133) and hiopFRProbDense (1402-1483)
    keep x in front; hiopFRProbMDS (702-770) splits it in a sparse and a dense part. *)
Inductive kind := Front (nx : nat) | Mds (nsp nde : nat).

(** The original problem as the restoration problem sees it (nlp_base_): objective and
    constraint bodies (used at 264, 313, 574), Hessian of the Lagrangian (406) as a
    function of row and column, bounds (187-188, 210-212), and its sizes (76-78). *)
Record base := Base {
  b_kind : kind;
  b_meq : nat;
  b_mineq : nat;
  b_f : list R -> R;
  b_c : list R -> list R;
  b_d : list R -> list R;
  b_hess : list R -> R -> list R -> list R -> nat -> nat -> R;
  b_xl : list R;
  b_xu : list R;
  b_crhs : list R;
  b_dl : list R;
  b_du : list R
}.

(** What the restoration problem reads from the calling solver (solver_base_): the current
    iterate and the values c, d stored for it (433-440, 631-634); the residual norm at
    that iterate (127; theta_ref_ of 126 is never read); the barrier parameter (128). *)
Record caller := Caller {
  k_x : list R;
  k_s : list R;
  k_zl : list R;
  k_zu : list R;
  k_vl : list R;
  k_vu : list R;
  k_c : list R;
  k_d : list R;
  k_nrm : R;
  k_mu : R
}.

(** Members that change during a restoration solve: mu_, zeta_ (128-131, 620-621),
    obj_base_ (264; None before the first evaluation), last_x_, last_d_ (614-615). *)
Record state := State {
  s_mu : R;
  s_zeta : R;
  s_objb : option R;
  s_last : option (list R * list R)
}.

(** n_x_ : hiopFRProb.cpp 76; 708-710 (n_x_sp_ + n_x_de_); 1408. *)
Definition n_x (k : kind) : nat := match k with Front nx => nx | Mds a b => a + b end.
(** pe_st_ : 83; 720 (after the sparse part); 1417. *)
Definition pe_st (k : kind) : nat := match k with Front nx => nx | Mds a _ => a end.
(** ne_st_ : 84, 721, 1418. *)
Definition ne_st (k : kind) (me : nat) : nat := (pe_st k + me)%nat.
(** pi_st_ : 85, 722, 1419. *)
Definition pi_st (k : kind) (me : nat) : nat := (ne_st k me + me)%nat.
(** ni_st_ : 86, 723, 1420. *)
Definition ni_st (k : kind) (me mi : nat) : nat := (pi_st k me + mi)%nat.
(** x_de_st_ : 724 (only the mixed class). *)
Definition xde_st (k : kind) (me mi : nat) : nat := (ni_st k me mi + mi)%nat.
(** n_ : 80, 714, 1414. *)
Definition n_fr (k : kind) (me mi : nat) : nat := (n_x k + 2 * me + 2 * mi)%nat.
(** rho_ : 132 "rho_ = 1000" (769, 1482 alike). *)
Definition rho : R := 1000.
(** 1e+20 of get_vars_info 196, 838, 1559. *)
Definition big : R := 100000000000000000000.

(** hiopVectorPar::copy_from_starting_at / startingAtCopyToStartingAt as a read of n entries
    at a start index (hiopVectorPar.cpp 238-255, 284-292, 395-426). *)
Definition read (st n : nat) (v : list R) : list R := firstn n (skipn st v).
(** hiopVectorPar::copyToStarting / startingAtCopyToStartingAt as a write at a start index
    (hiopVectorPar.cpp 294-313, 395-426). *)
Definition write (st : nat) (src v : list R) : list R :=
  firstn st v ++ src ++ skipn (st + length src) v.
(** Componentwise combination of two vectors, shared by axpy and componentMult
    (hiopVectorPar.cpp 564-571, 664-670). *)
Fixpoint zip (f : R -> R -> R) (x y : list R) : list R :=
  match x, y with a :: x', b :: y' => f a b :: zip f x' y' | _, _ => [] end.
(** y.axpy(a, x): y + a*x (hiopVectorPar.cpp 664-670). *)
Definition axpy (a : R) (x y : list R) : list R := zip (fun yi xi => yi + a * xi) y x.
(** componentMult (hiopVectorPar.cpp 564-571). *)
Definition cmult (x y : list R) : list R := zip Rmult y x.
(** sum_local (hiopVectorPar.cpp 883-890; the order of summation does not matter over the reals). *)
Definition vsum (x : list R) : R := fold_right Rplus 0 x.
(** twonorm (hiopVectorPar.cpp 463-480). *)
Definition twonorm (x : list R) : R := sqrt (vsum (map (fun a => a * a) x)).
(** onenorm (hiopVectorPar.cpp 540-552). *)
Definition onenorm (x : list R) : R := vsum (map Rabs x).
(** infnorm (hiopVectorPar.cpp 501-520). *)
Definition infnorm (x : list R) : R := fold_right (fun a m => Rmax (Rabs a) m) 0 x.
(** component_sqrt with its assertion (hiopVectorPar.cpp 649-655): None is the abort. *)
Fixpoint csqrt (x : list R) : option (list R) :=
  match x with
  | [] => Some []
  | a :: x' => if Rle_dec 0 a then option_map (cons (sqrt a)) (csqrt x') else None
  end.

(** One entry of DR_ = min(1, 1/|x_ref|) (91-94, 729-732, 1425-1428); 1/0 is +infinity in
    binary64, whose minimum with 1 is 1. *)
Definition dr1 (x : R) : R := if Req_EM_T x 0 then 1 else Rmin (/ Rabs x) 1.
(** DR_ (91-94). *)
Definition dr (xref : list R) : list R := map dr1 xref.

(** mu_, zeta_ at construction (128-131, 765-768, 1478-1481). *)
Definition init (k : caller) : state :=
  let mu := Rmax (k_mu k) (k_nrm k) in State mu (sqrt mu) None None.

(** wrk_x_ from the full vector: 251, 899-900 (mixed class: two moves into wrk_x_), 1604. *)
Definition get_x (b : base) (y : list R) : list R :=
  match b_kind b with
  | Front nx => read 0 nx y
  | Mds a c => write a (read (xde_st (b_kind b) (b_meq b) (b_mineq b)) c y)
                 (write 0 (read 0 a y) (repeat 0 (a + c)))
  end.
(** wrk_x_ into the full vector: 281, 934-935 (mixed class), 1645. *)
Definition put_x (b : base) (x y : list R) : list R :=
  match b_kind b with
  | Front _ => write 0 x y
  | Mds a c => write (xde_st (b_kind b) (b_meq b) (b_mineq b)) (read a c x) (write 0 (read 0 a x) y)
  end.

(** get_vars_info: lower bounds [xl; 0], upper bounds [xu; 1e20] (183-204, 824-848, 1543-1568). *)
Definition vars_info (b : base) : list R * list R :=
  let n := n_fr (b_kind b) (b_meq b) (b_mineq b) in
  (put_x b (b_xl b) (repeat 0 n), put_x b (b_xu b) (repeat big n)).

(** get_cons_info: [crhs; dl] and [crhs; du] written into one work vector (206-231, 850-875,
    1570-1595). *)
Definition cons_info (b : base) : list R * list R :=
  let lo := write (b_meq b) (b_dl b) (write 0 (b_crhs b) (repeat 0 (b_meq b + b_mineq b))) in
  (lo, write (b_meq b) (b_du b) lo).

(** eval_f (245-267, 893-915, 1597-1627): None is the failed assertion on the length. The
    second component is the new state: obj_base_ is the original objective evaluated at
    wrk_x_, which by then holds DR*(x - x_ref). *)
Definition eval_f (b : base) (k : caller) (st : state) (y : list R) : option (R * state) :=
  if Nat.eqb (length y) (n_fr (b_kind b) (b_meq b) (b_mineq b)) then
    let x := get_x b y in
    let o1 := 0 + rho * (vsum y - vsum x) in
    let w := cmult (dr (k_x k)) (axpy (-1) (k_x k) x) in
    let nrm := twonorm w in
    let o2 := o1 + / 2 * s_zeta st * nrm * nrm in
    Some (o2, State (s_mu st) (s_zeta st) (Some (b_f b w)) (s_last st))
  else None.

(** eval_grad_f (269-287, 917-940, 1629-1651). *)
Definition eval_grad (b : base) (k : caller) (st : state) (y : list R) : option (list R) :=
  let n := n_fr (b_kind b) (b_meq b) (b_mineq b) in
  if Nat.eqb (length y) n then
    let w := axpy (-1) (k_x k) (get_x b y) in
    let w2 := cmult (dr (k_x k)) (cmult (dr (k_x k)) w) in
    Some (put_x b (map (Rmult (s_zeta st)) w2) (repeat rho n))
  else None.

(** eval_cons (300-332, 953-987, 1653-1719). *)
Definition eval_cons (b : base) (y : list R) : option (list R) :=
  let k := b_kind b in let me := b_meq b in let mi := b_mineq b in
  if Nat.eqb (length y) (n_fr k me mi) then
    let x := get_x b y in
    let c1 := axpy (-1) (read (pe_st k) me y) (b_c b x) in
    let c2 := axpy 1 (read (ne_st k me) me y) c1 in
    let d1 := axpy (-1) (read (pi_st k me) mi y) (b_d b x) in
    let d2 := axpy 1 (read (ni_st k me mi) mi y) d1 in
    Some (write me d2 (write 0 c2 (repeat 0 (me + mi))))
  else None.

(** eval_Hess_Lagr (379-418, 1329-1377): the original Hessian that is requested and the
    diagonal added to it. The argument obj_factor is shadowed by a local 0.0. *)
Definition eval_hess (b : base) (k : caller) (st : state) (y : list R) (obj_factor : R)
    (lam : list R) : option ((nat -> nat -> R) * list R) :=
  let me := b_meq b in let mi := b_mineq b in
  if Nat.eqb (length y) (n_fr (b_kind b) me mi) then
    let x := get_x b y in
    let obj_factor := 0 in
    let H := b_hess b x obj_factor (read 0 me lam) (read me mi lam) in
    let w := repeat (s_zeta st) (n_x (b_kind b)) in
    Some (H, cmult (dr (k_x k)) (cmult (dr (k_x k)) w))
  else None.

(** The values p and n for a constraint violation r, equation (33): 451-470 for the
    equalities, 474-488 for the inequalities; the same text at 643-662, 666-680, 1085-1120,
    1276-1311, 1785-1823, 1981-2016. None is component_sqrt's assertion. *)
Definition split_pn (mu : R) (r : list R) : option (list R * list R) :=
  let t := mu / (2 * rho) in
  let w := axpy (- / 2) r (repeat t (length r)) in
  let q := axpy t r (cmult w w) in
  match csqrt q with
  | None => None
  | Some q' => let n := axpy 1 w q' in Some (axpy 1 n r, n)
  end.

(** The vector assembled from x, pe, ne, pi, ni: 493-498, 685-690, 1126-1132, 1317-1323. *)
Definition assemble (b : base) (x pe ne pi ni : list R) (y : list R) : list R :=
  let k := b_kind b in let me := b_meq b in let mi := b_mineq b in
  write (ni_st k me mi) ni (write (pi_st k me) pi (write (ne_st k me) ne
    (write (pe_st k) pe (put_x b x y)))).

(** What get_warmstart_point hands to the solver: its output arguments (420-428). *)
Record warm := Warm {
  w_x : list R; w_zl : list R; w_zu : list R; w_lam : list R;
  w_s : list R; w_vl : list R; w_vu : list R
}.

(** component_min(rho) then the copy (503-504, 528-529, 534-535). *)
Definition clip (v : list R) : list R := map (fun a => Rmin a rho) v.

(** invert then scale(mu) (507-514). *)
Definition barrier_dual (mu : R) (v : list R) : list R := map (fun a => / a * mu) v.

(** get_warmstart_point (420-544, 1045-1174, 1752-1879). *)
Definition warmstart (b : base) (k : caller) (st : state) : option warm :=
  let me := b_meq b in let mi := b_mineq b in
  let n := n_fr (b_kind b) me mi in
  match split_pn (s_mu st) (axpy (-1) (b_crhs b) (k_c k)),
        split_pn (s_mu st) (axpy (-1) (k_s k) (k_d k)) with
  | Some (pe, ne), Some (pi, ni) =>
      let mu := s_mu st in
      Some (Warm (assemble b (k_x k) pe ne pi ni (repeat 0 n))
                 (assemble b (clip (k_zl k)) (barrier_dual mu pe) (barrier_dual mu ne)
                    (barrier_dual mu pi) (barrier_dual mu ni) (repeat 0 n))
                 (put_x b (clip (k_zu k)) (repeat 0 n))
                 (repeat 0 (me + mi)) (k_s k) (clip (k_vl k)) (clip (k_vu k)))
  | _, _ => None
  end.

(** force_update_x (626-695, 1258-1327, 1963-2032): x stays, p and n are recomputed from the
    values c, d, s that the calling solver has stored for its own current iterate. *)
Definition force_update (b : base) (k : caller) (st : state) (y : list R) : option (list R) :=
  let n := n_fr (b_kind b) (b_meq b) (b_mineq b) in
  if Nat.eqb (length y) n then
    match split_pn (s_mu st) (axpy (-1) (b_crhs b) (k_c k)),
          split_pn (s_mu st) (axpy (-1) (k_s k) (k_d k)) with
    | Some (pe, ne), Some (pi, ni) => Some (assemble b (get_x b y) pe ne pi ni y)
    | _, _ => None
    end
  else None.

(** The pieces of the calling solver used by iterate_callback 597-609: the log-barrier value
    of the original problem at a point with slacks s for a given objective value
    (compute_safe_slacks and updateWithNlpInfo_trial_funcOnly), and the filter. *)
Record judge := Judge {
  j_logbar : list R -> list R -> R -> R;
  j_filter : R -> R -> bool;
  j_kappa : R
}.

(** iterate_callback (546-624, 1176-1256, 1881-1961): true to go on, false to stop. The
    obj_base_ member is read as it is; None (never evaluated) has no outcome. *)
Definition callback (b : base) (k : caller) (j : judge) (st : state) (iter : nat)
    (y s : list R) (mu : R) : option (bool * state) :=
  if Nat.eqb (length y) (n_fr (b_kind b) (b_meq b) (b_mineq b)) then
    let x := get_x b y in
    let rc := axpy (-1) (b_crhs b) (b_c b x) in
    let rd := axpy (-1) s (b_d b x) in
    let theta := 0 + onenorm rc + onenorm rd in
    let nrm := Rmax (infnorm rc) (infnorm rd) in
    let go := Some (true, State mu (sqrt mu) (s_objb st) (s_last st)) in
    if Rle_dec nrm (j_kappa j * k_nrm k) then
      if Nat.ltb 0 iter then
        match s_objb st with
        | None => None
        | Some fb =>
            if j_filter j theta (j_logbar j x s fb) then go
            else Some (false, State (s_mu st) (s_zeta st) (s_objb st) (Some (x, s)))
        end
      else go
    else go
  else None.

(** One accepted iterate of the restoration solve: the vector, the slacks and the barrier
    parameter it reports (arguments of iterate_callback 546-563). *)
Record iterate := Iterate { i_y : list R; i_s : list R; i_mu : R }.

(** The restoration solve as the sequence of its iterates: each is evaluated (eval_f) and
    then reported (hiopAlgFilterIPM.cpp 2216-2276 and 1092-1150 evaluate and then call
    user_callback_iterate). The points in between that are evaluated but not accepted are
    left out. The result is the index of the iterate that stopped the solve, if any. *)
Fixpoint solve (b : base) (k : caller) (j : judge) (st : state) (iter : nat)
    (l : list iterate) : option (option nat * state) :=
  match l with
  | [] => Some (None, st)
  | i :: l' =>
      match eval_f b k st (i_y i) with
      | None => None
      | Some (_, st1) =>
          match callback b k j st1 iter (i_y i) (i_s i) (i_mu i) with
          | None => None
          | Some (false, st2) => Some (Some iter, st2)
          | Some (true, st2) => solve b k j st2 (S iter) l'
          end
      end
  end.
