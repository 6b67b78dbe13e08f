(** The starting point: src/Optimization/hiopNlpFormulation.cpp 775-880 (get_starting_point, get_warmstart_point) and
    src/Optimization/hiopAlgFilterIPM.cpp 290-439 (startingProcedure).
    Vectors are lists; an entry [None] is memory nobody has written (the iterate and the work vectors are allocated, not
    cleared).  What the numerical steps compute (projection, evaluation, slacks, least-squares multipliers) enters as
    parameters; the model follows which data reach them.  Scaling only changes the evaluation and is not part of this
    file.  Not modelled: statistics, logging, checkpoint loading, MPI. *)
From Coq Require Import List Bool Arith.
From Verif Require Import PackModel XformModel.
Import ListNotations.

Section Start.
Variable A : Type.
Notation mem := (list (option A)).

(** the answers of the three user methods: flag, flags by reference, and the values written from the start of each
    array ([] when nothing is written); hiopInterface.hpp 293-296, 335-346, 370-382 *)
Record ufull := UFull { f_ret : bool; f_x : list A; f_duals : bool; f_zl : list A; f_zu : list A; f_lam : list A; f_slacks : bool; f_d : list A }.
(** get_warmstart_point; hiopInterface.hpp 366-377 *)
Record uwarm := UWarm { w_ret : bool; w_x : list A; w_zl : list A; w_zu : list A; w_lam : list A; w_d : list A; w_vl : list A; w_vu : list A }.
(** get_starting_point for the primal variables only; hiopInterface.hpp 293-296 *)
Record uprim := UPrim { p_ret : bool; p_x : list A }.

(** the vectors of the iterate that take part, and the problem: index maps of the constraints, the map of the
    fixed-variable remover ([None]: no variable is removed), the values of the removed variables;
    hiopNlpFormulation.hpp 330-372, hiopIterate.hpp 195-201 *)
Record point := Point { i_x : mem; i_d : mem; i_zl : mem; i_zu : mem; i_vl : mem; i_vu : mem; i_yc : mem; i_yd : mem }.
(** see [point]; hiopNlpFormulation.hpp 330-372 *)
Record prob := Prob { p_eqm : list nat; p_inm : list nat; p_map : option (list (option nat)); p_fixed : list A }.

(** the user writes into an array; None: past its end.  No counterpart in /repo: user code *)
Definition wr (buf : mem) (v : list A) : option mem :=
  if length v <=? length buf then Some (map Some v ++ skipn (length v) buf) else None.
(** hiopNlpFormulation.cpp 790, 841: nlp_transformations_.apply_inv_to_x(x, true) *)
Definition inv_x (P : prob) (x : mem) : option mem :=
  match p_map P with None => Some x | Some m => expand m (map Some (p_fixed P)) x end.
(** hiopNlpFormulation.cpp 819, 871: nlp_transformations_.apply_to_x *)
Definition to_x (P : prob) (xu x : mem) : option mem :=
  match p_map P with None => Some xu | Some m => reduce m xu x end.
(** sequencing of steps that may access outside an array; no counterpart in /repo *)
Definition bind {X Y} (o : option X) (k : X -> option Y) : option Y := match o with Some x => k x | None => None end.

(** hiopNlpFormulation.cpp 775-825 [get_starting_point]; [lam0] is the new vector of multipliers; the flags come in
    false.  Result: flag, duals_avail, slacks_avail, iterate.  (When no variable is removed x0_for_user is
    the iterate's x itself and keeps what a declining call wrote; the caller then clears it, so this is not shown.) *)
Definition get_start (P : prob) (U : ufull) (V : uprim) (lam0 : mem) (it : point) : option (bool * bool * bool * point) :=
  bind (inv_x P (i_x it)) (fun xu0 =>
  bind (wr xu0 (f_x U)) (fun xu1 => bind (wr (i_zl it) (f_zl U)) (fun zl => bind (wr (i_zu it) (f_zu U)) (fun zu =>
  bind (wr lam0 (f_lam U)) (fun lam => bind (wr (i_d it) (f_d U)) (fun d =>
  bind (if f_duals U then split lam (i_yc it) (p_eqm P) (i_yd it) (p_inm P) else Some (i_yc it, i_yd it)) (fun '(yc, yd) =>
  bind (if f_ret U then Some xu1 else wr xu1 (p_x V)) (fun xu =>
  let ret := f_ret U || p_ret V in
  bind (if ret then to_x P xu (i_x it) else Some (i_x it)) (fun x =>
  Some (ret, f_duals U, f_slacks U, Point x d zl zu (i_vl it) (i_vu it) yc yd)))))))))).
(** hiopNlpFormulation.cpp 827-880 [get_warmstart_point] *)
Definition get_warm (P : prob) (W : uwarm) (V : uprim) (lam0 : mem) (it : point) : option (bool * point) :=
  bind (inv_x P (i_x it)) (fun xu0 =>
  bind (wr xu0 (w_x W)) (fun xu1 => bind (wr (i_zl it) (w_zl W)) (fun zl => bind (wr (i_zu it) (w_zu W)) (fun zu =>
  bind (wr lam0 (w_lam W)) (fun lam => bind (wr (i_d it) (w_d W)) (fun d => bind (wr (i_vl it) (w_vl W)) (fun vl => bind (wr (i_vu it) (w_vu W)) (fun vu =>
  bind (split lam (i_yc it) (p_eqm P) (i_yd it) (p_inm P)) (fun '(yc, yd) =>
  bind (if w_ret W then Some xu1 else wr xu1 (p_x V)) (fun xu =>
  let ret := w_ret W || p_ret V in
  bind (if ret then to_x P xu (i_x it) else Some (i_x it)) (fun x =>
  Some (ret, Point x d zl zu vl vu yc yd)))))))))))).

(** all entries written; no counterpart in /repo *)
Fixpoint inits (v : mem) : option (list A) :=
  match v with
  | [] => Some []
  | Some a :: v' => match inits v' with Some l => Some (a :: l) | None => None end
  | None :: _ => None
  end.
(** what the numerical steps compute; hiopAlgFilterIPM.cpp 340-425 *)
Record steps := Steps {
  e_ok : list A -> bool;                                   (* evalNlp_noHess at x succeeds *)
  e_d : list A -> list A;                                  (* the inequality bodies at x *)
  e_px : list A -> list A; e_pd : list A -> list A;        (* projectPrimalsX/DIntoBounds *)
  e_small : list A -> list A -> bool;                      (* some slack is below the threshold of adjust_small_slacks *)
  e_vl : list A -> list A; e_vu : list A -> list A;        (* determineDualsBounds_d *)
  e_one : list A * list A * list A * list A;               (* setBoundsDualsToConstant(1.) *)
  e_lsq : list A -> option (list A * list A);              (* compute_initial_duals_eq, None: dualsInitializ is not lsq *)
  e_hess : list A -> list A -> list A -> bool }.           (* evalNlp_HessOnly at x, yc, yd succeeds *)
(** an initialised iterate: x, d, zl, zu, vl, vu, yc, yd; hiopIterate.hpp 195-201 *)
Record start := Start0 { o_x : list A; o_d : list A; o_zl : list A; o_zu : list A; o_vl : list A; o_vu : list A; o_yc : list A; o_yd : list A }.
(** outcomes: an access outside an array, a read of memory nobody wrote, return false, return true; hiopAlgFilterIPM.cpp 290-439 *)
Inductive outcome := Overrun | Unwritten | Failed | Started (s : start).
(** a read that needs written memory; no counterpart in /repo *)
Definition need {X} (o : option X) (k : X -> outcome) : outcome := match o with Some x => k x | None => Unwritten end.

(** hiopAlgFilterIPM.cpp 290-439 [startingProcedure]; [zero] the number 0; [warm]: option warm_start is yes.  The bound
    duals are read by compute_safe_slacks (380) only when a slack is small (hiopIterate.cpp 431-432).  The slacks
    themselves and the adjusted bounds are not part of the result *)
Definition starting_procedure (zero : A) (E : steps) (P : prob) (warm : bool) (U : ufull) (W : uwarm) (V : uprim) (lam0 : mem) (it : point) : outcome :=
  match (if warm then match get_warm P W V lam0 it with Some (r, it) => Some (r, true, true, true, it) | None => None end
         else match get_start P U V lam0 it with Some (r, du, sl, it) => Some (r, false, du, sl, it) | None => None end) with
  | None => Overrun
  | Some (ret, wa, du, sl, it) =>
      let xm := if ret then i_x it else map (fun _ => Some zero) (i_x it) in
      let wa := ret && wa in let du := ret && du in let sl := ret && sl in
      need (inits xm) (fun x0 =>
      if negb (e_ok E x0) then Failed else
      let x := if wa then x0 else e_px E x0 in
      if negb (e_ok E x) then Failed else
      need (if sl then inits (i_d it) else Some (e_d E x)) (fun d0 =>
      let d := if wa then d0 else e_pd E d0 in
      need (if e_small E x d then match inits (i_zl it), inits (i_zu it), inits (i_vl it), inits (i_vu it) with Some _, Some _, Some _, Some _ => Some tt | _, _, _, _ => None end
            else Some tt) (fun _ =>
      let '(ozl, ozu, ovl, ovu) := e_one E in
      need (if du then match inits (i_zl it), inits (i_zu it) with Some a, Some b => Some (a, b) | _, _ => None end else Some (ozl, ozu)) (fun '(zl, zu) =>
      need (if du then if wa then match inits (i_vl it), inits (i_vu it) with Some a, Some b => Some (a, b) | _, _ => None end else Some (e_vl E d, e_vu E d)
            else Some (ovl, ovu)) (fun '(vl, vu) =>
      need (if du then match inits (i_yc it), inits (i_yd it) with Some a, Some b => Some (a, b) | _, _ => None end
            else match e_lsq E x with Some y => Some y | None => Some (map (fun _ => zero) (i_yc it), map (fun _ => zero) (i_yd it)) end) (fun '(yc, yd) =>
      if negb (e_hess E x yc yd) then Failed else
      Started (Start0 x d zl zu vl vu yc yd)))))))
  end.
End Start.
Arguments UFull {_}. Arguments UWarm {_}. Arguments UPrim {_}. Arguments Point {_}. Arguments Prob {_}. Arguments Steps {_}. Arguments Start0 {_}.
Arguments Overrun {_}. Arguments Unwritten {_}. Arguments Failed {_}. Arguments Started {_}.
Arguments f_ret {_}. Arguments f_x {_}. Arguments f_duals {_}. Arguments f_zl {_}. Arguments f_zu {_}. Arguments f_lam {_}. Arguments f_slacks {_}. Arguments f_d {_}.
Arguments w_ret {_}. Arguments w_x {_}. Arguments w_zl {_}. Arguments w_zu {_}. Arguments w_lam {_}. Arguments w_d {_}. Arguments w_vl {_}. Arguments w_vu {_}.
Arguments p_ret {_}. Arguments p_x {_}. Arguments i_x {_}. Arguments i_d {_}. Arguments i_zl {_}. Arguments i_zu {_}. Arguments i_vl {_}. Arguments i_vu {_}. Arguments i_yc {_}. Arguments i_yd {_}.
Arguments p_eqm {_}. Arguments p_inm {_}. Arguments p_map {_}. Arguments p_fixed {_}.
Arguments e_ok {_}. Arguments e_d {_}. Arguments e_px {_}. Arguments e_pd {_}. Arguments e_small {_}. Arguments e_vl {_}. Arguments e_vu {_}. Arguments e_one {_}. Arguments e_lsq {_}. Arguments e_hess {_}.
Arguments o_x {_}. Arguments o_d {_}. Arguments o_zl {_}. Arguments o_zu {_}. Arguments o_vl {_}. Arguments o_vu {_}. Arguments o_yc {_}. Arguments o_yd {_}.
