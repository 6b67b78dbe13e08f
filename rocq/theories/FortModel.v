(** The C and Fortran entry points of the sparse solver.

    Code modelled:
    - /repo/src/Interface/hiopFortranInterface.c, the sparse wrappers (lines
      73-237), problem creation (239-314) and solve (316-330);
    - /repo/src/Interface/chiopInterface.hpp, class cppUserProblemSparse
      (lines 288-427), and chiopInterface.cpp 98-121;
    - /repo/src/Optimization/hiopNlpFormulation.cpp, the places that call these
      (987-1033, 925-985, 1948-2017, 2019-2092).

    Integers of type hiop_size_type / hiop_index_type / int are mathematical
    integers (no 32-bit wrap-around).  A pointer argument is [None] when it is
    NULL and [Some contents] otherwise.  A failed assert, a NULL dereference and
    an access past the end of an array all give [None]. *)
From Coq Require Import ZArith List Bool Lia.
Import ListNotations.
Open Scope Z_scope.

(** A C array argument: [None] is NULL (hiopFortranInterface.c 161-169, the
    arguments compared with NULL at 179-186). *)
Definition ptr (A : Type) := option (list A).

(** [p != NULL] (hiopFortranInterface.c 179, 181). *)
Definition nonnull {A} (p : ptr A) : bool :=
  match p with Some _ => true | None => false end.

(** What a routine called by reference leaves behind an array argument: a NULL
    pointer stays NULL, the caller's array gets the new contents
    (hiopFortranInterface.c 187 and 226: iJacS, jJacS, MJacS are passed as
    pointers, so the callee changes the contents and not the pointers). *)
Definition store {A} (p q : ptr A) : ptr A :=
  match p, q with
  | Some _, Some l => Some l
  | Some l, None => Some l
  | None, _ => None
  end.

Section Fort.
  Variable V : Type.   (* doubles *)
  Variable U : Type.   (* everything the Fortran routines remember between calls *)

  (** The arguments the Fortran routine receives by reference and may change
      (hiopFortranInterface.h 76-95; hiopFortranInterface.c 187 and 226).
      [x], [lambda] and the objective factor are read only here: a Fortran
      routine that overwrites its evaluation point is not modelled. *)
  Record fargs := FA {
    a_task : Z; a_n : Z; a_m : Z; a_newx : Z; a_nnz : Z;
    a_i : ptr Z; a_j : ptr Z; a_v : ptr V }.

  (** A user routine for a sparse matrix: Jacobian (hiopFortranInterface.h
      76-84) or Hessian (85-96).  The extra read-only arguments are the point,
      the objective factor, the multipliers and new_lambda; the Jacobian routine
      gets none of the last three and is modelled by a routine ignoring them. *)
  Record point := PT { p_x : list V; p_obj : option V; p_lam : list V; p_newlam : Z }.
  (** the routine itself: state and arguments in, state and arguments out (hiopFortranInterface.h 76-96) *)
  Definition routine := U -> point -> fargs -> U * fargs.

  (** FSparseProb, the fields used here (hiopFortranInterface.h 98-116). *)
  Record fprob := FP {
    f_n : Z; f_m : Z; f_nnz_eq : Z; f_nnz_ineq : Z; f_nnz_hess : Z;
    f_xlow : list V; f_xupp : list V; f_clow : list V; f_cupp : list V; f_x0 : list V;
    f_jac : routine; f_hess : routine }.

  (** The loop [for(k=0; k<nnz; k++) a[k] -= 1] (hiopFortranInterface.c 189-194,
      229-234), [k] iterations from the start of the array; running past the end
      is [None]. *)
  Fixpoint dec (k : nat) (l : list Z) : option (list Z) :=
    match k with
    | O => Some l
    | S k' => match l with
              | [] => None
              | a :: r => match dec k' r with Some r' => Some (a - 1 :: r') | None => None end
              end
    end.

  (** The same loop through a pointer; NULL is only dereferenced when there is
      an iteration (hiopFortranInterface.c 189-194, 229-234). *)
  Definition decp (k : nat) (p : ptr Z) : option (ptr Z) :=
    match k with
    | O => Some p
    | _ => match p with
           | None => None
           | Some l => match dec k l with Some l' => Some (Some l') | None => None end
           end
    end.

  (** The choice of [task] from the three pointers (hiopFortranInterface.c
      174-186 and 211-224); the last branch prints an error and keeps 0. *)
  Definition task_of (i j : ptr Z) (v : ptr V) : Z :=
    if negb (nonnull i) && negb (nonnull j) && nonnull v then 1
    else if nonnull i && nonnull j && negb (nonnull v) then 0
    else 0.

  (** eval_jac_sparse_wrapper / eval_hess_sparse_wrapper (hiopFortranInterface.c
      161-196 and 198-237; the two differ only in the read-only arguments).
      [task] and [nnz] are passed by reference, so the values tested after the
      call are the ones the routine left. *)
  Definition wrapper (fp : fprob) (r : routine) (u : U) (p : point)
             (n m newx nnz : Z) (i j : ptr Z) (v : ptr V)
    : option (U * (ptr Z * ptr Z * ptr V)) :=
    if (n =? f_n fp) && (m =? f_m fp) then
      let '(u', a) := r u p (FA (task_of i j v) n m newx nnz i j v) in
      let i' := store i (a_i a) in
      let j' := store j (a_j a) in
      let v' := store v (a_v a) in
      if a_task a =? 0 then
        match decp (Z.to_nat (a_nnz a)) i', decp (Z.to_nat (a_nnz a)) j' with
        | Some i2, Some j2 => Some (u', (i2, j2, v'))
        | _, _ => None
        end
      else Some (u', (i', j', v'))
    else None.

  (** One call as the wrapper sees it: which of the three pointers are non-NULL
      and the task it computes (hiopFortranInterface.c 174-187). *)
  Record seen := Seen { s_i : bool; s_j : bool; s_v : bool; s_task : Z }.
  (** the call made with these pointers (hiopFortranInterface.c 174-187) *)
  Definition see (i j : ptr Z) (v : ptr V) : seen :=
    Seen (nonnull i) (nonnull j) (nonnull v) (task_of i j v).

  (** A sparse matrix of the solver in triplet form
      (hiopNlpFormulation.cpp 1976-2004: cons_Jac->i_row(), j_col(), M()). *)
  Record trip := TR { t_i : list Z; t_j : list Z; t_v : list V }.

  (** The solver's view: which evaluation mode the constraints are in
      (cons_eval_type_), the two pattern counters, the matrices, the user's
      memory and the calls made so far (hiopNlpFormulation.hpp 647-648;
      hiopNlpFormulation.cpp 987-1033). *)
  Record sst := SS {
    ss_type : Z; ss_njac : Z; ss_nhess : Z;
    ss_jac : trip; ss_hess : trip; ss_u : U;
    ss_jseen : list seen; ss_hseen : list seen }.

  (** The two calls behind one evaluation of a sparse matrix
      (hiopNlpFormulation.cpp 1978-2004 for the Jacobian, 2058-2087 for the
      Hessian): when the counter is zero a call with the index arrays and a NULL
      value array, then always a call with NULL index arrays and the values.
      cppUserProblemSparse forwards the arguments unchanged (chiopInterface.hpp
      389-423).  Result: counter, matrix, user memory, calls. *)
  Definition two_calls (fp : fprob) (r : routine) (u : U) (p : point)
             (n m newx cnt : Z) (t : trip) (log : list seen)
    : option (Z * trip * U * list seen) :=
    let nnz := Z.of_nat (length (t_v t)) in
    match
      (if cnt =? 0 then
         match wrapper fp r u p n m newx nnz (Some (t_i t)) (Some (t_j t)) None with
         | Some (u', (Some i', Some j', _)) =>
             Some (cnt + 1, TR i' j' (t_v t), u',
                   log ++ [see (Some (t_i t)) (Some (t_j t)) None])
         | _ => None
         end
       else Some (cnt, t, u, log))
    with
    | None => None
    | Some (cnt1, t1, u1, log1) =>
        match wrapper fp r u1 p n m newx nnz None None (Some (t_v t1)) with
        | Some (u', (_, _, Some v')) =>
            Some (cnt1, TR (t_i t1) (t_j t1) v', u', log1 ++ [see None None (Some (t_v t1))])
        | _ => None
        end
    end.

  (** What happens to the solver's problem object: requests for values and
      matrices (hiopNlpFormulation.cpp 925-985, 987-1033, 2019-2092), and a new
      solve of the same problem, for which a new solver object allocates its
      Hessian with unset contents (chiopInterface.cpp 114-121;
      hiopAlgFilterIPM.cpp 176; hiopNlpFormulation.hpp 614-618;
      hiopMatrixSparseTriplet.cpp 21-33). *)
  Inductive event :=
  | EvSolve (H : trip)                           (* a new solve *)
  | EvCons                                       (* constraint values *)
  | EvJac (x : list V) (newx : bool)             (* Jacobian *)
  | EvHess (x : list V) (newx : bool) (obj : V) (lam : list V) (newlam : bool).

  (** [int] value of a [bool] argument (chiopInterface.hpp 398-401, 417-421). *)
  Definition b2z (b : bool) : Z := if b then 1 else 0.

  (** Selection of the one-call mode (hiopNlpFormulation.cpp 928-947 for values,
      994-1017 for Jacobians): the two-call versions of cppUserProblemSparse
      return false without calling the user (chiopInterface.hpp 345-354,
      375-387), so the first request of either kind moves type -1 to type 1. *)
  Definition latch (ty : Z) : Z := if ty =? -1 then 1 else ty.

  (** One request of the solver (hiopNlpFormulation.cpp 987-1033 with 1948-2017;
      2019-2092).  In type 1 the assert of line 1026 holds; the two-call mode
      (type 0) cannot serve a user of this interface, the user not being called
      (chiopInterface.hpp 375-387): [None]. *)
  Definition serve (fp : fprob) (s : sst) (e : event) : option sst :=
    match e with
    | EvSolve H =>
        (* nothing resets the counters (hiopNlpFormulation.cpp 185-201) *)
        Some (SS (ss_type s) (ss_njac s) (ss_nhess s) (ss_jac s) H
                 (ss_u s) (ss_jseen s) (ss_hseen s))
    | EvCons =>
        Some (SS (latch (ss_type s)) (ss_njac s) (ss_nhess s) (ss_jac s) (ss_hess s)
                 (ss_u s) (ss_jseen s) (ss_hseen s))
    | EvJac x nx =>
        let ty := latch (ss_type s) in
        if ty =? 1 then
          match two_calls fp (f_jac fp) (ss_u s) (PT x None [] 0) (f_n fp) (f_m fp) (b2z nx)
                          (ss_njac s) (ss_jac s) (ss_jseen s) with
          | Some (c, t, u, l) => Some (SS ty c (ss_nhess s) t (ss_hess s) u l (ss_hseen s))
          | None => None
          end
        else None
    | EvHess x nx ob lam nl =>
        match two_calls fp (f_hess fp) (ss_u s) (PT x (Some ob) lam (b2z nl)) (f_n fp) (f_m fp) (b2z nx)
                        (ss_nhess s) (ss_hess s) (ss_hseen s) with
        | Some (c, t, u, l) => Some (SS (ss_type s) (ss_njac s) c (ss_jac s) t u (ss_jseen s) l)
        | None => None
        end
    end.

  (** Any number of requests, in any order (the loops of hiopAlgFilterIPM.cpp
      call these through evalNlp, 441-500). *)
  Fixpoint serve_all (fp : fprob) (s : sst) (es : list event) : option sst :=
    match es with
    | [] => Some s
    | e :: r => match serve fp s e with Some s' => serve_all fp s' r | None => None end
    end.

  (** The solver before its first request: counters at zero
      (hiopNlpFormulation.hpp 570), mode -1 (hiopNlpFormulation.cpp 133), arrays
      of the announced sizes with arbitrary contents
      (hiopNlpFormulation.hpp 609-618). *)
  Definition sst0 (J H : trip) (u : U) : sst := SS (-1) 0 0 J H u [] [].

  (** The loops that copy the problem data to the caller's arrays
      (hiopFortranInterface.c 73-81, 91-101, 103-113): [n] writes
      [dst[k] = src[k]]; past either end is [None]. *)
  Fixpoint copy (k : nat) (src dst : list V) : option (list V) :=
    match k with
    | O => Some dst
    | S k' => match src, dst with
              | a :: s, _ :: d => match copy k' s d with Some d' => Some (a :: d') | None => None end
              | _, _ => None
              end
    end.

  (** hiopsparseprob (hiopFortranInterface.c 239-314): the sizes are read and the
      five data arrays copied into fresh storage of [n] or [m] entries.
      Allocation is taken to succeed; [old] stands for the unset fresh storage. *)
  Definition create (n m je ji h : Z) (xl xu cl cu x0 : list V) (fj fh : routine) (old : V)
    : option fprob :=
    let nn := Z.to_nat n in
    let mm := Z.to_nat m in
    match copy nn xl (repeat old nn), copy nn xu (repeat old nn), copy mm cl (repeat old mm),
          copy mm cu (repeat old mm), copy nn x0 (repeat old nn) with
    | Some a, Some b, Some c, Some d, Some e => Some (FP n m je ji h a b c d e fj fh)
    | _, _, _, _, _ => None
    end.

  (** get_prob_sizes_sparse_wrapper (hiopFortranInterface.c 83-89). *)
  Definition get_sizes (fp : fprob) : Z * Z := (f_n fp, f_m fp).

  (** get_sparse_blocks_info_wrapper (hiopFortranInterface.c 115-127). *)
  Definition get_blocks (fp : fprob) : Z * Z * Z * Z :=
    (f_n fp, f_nnz_eq fp, f_nnz_ineq fp, f_nnz_hess fp).

  (** get_starting_point_sparse_wrapper (hiopFortranInterface.c 73-81). *)
  Definition get_start (fp : fprob) (n : Z) (x : list V) : option (list V) :=
    if n =? f_n fp then copy (Z.to_nat (f_n fp)) (f_x0 fp) x else None.

  (** get_vars_info_sparse_wrapper (hiopFortranInterface.c 91-101). *)
  Definition get_vars (fp : fprob) (n : Z) (xl xu : list V) : option (list V * list V) :=
    if n =? f_n fp then
      match copy (Z.to_nat (f_n fp)) (f_xlow fp) xl, copy (Z.to_nat (f_n fp)) (f_xupp fp) xu with
      | Some a, Some b => Some (a, b)
      | _, _ => None
      end
    else None.

  (** get_cons_info_sparse_wrapper (hiopFortranInterface.c 103-113). *)
  Definition get_cons (fp : fprob) (m : Z) (cl cu : list V) : option (list V * list V) :=
    if m =? f_m fp then
      match copy (Z.to_nat (f_m fp)) (f_clow fp) cl, copy (Z.to_nat (f_m fp)) (f_cupp fp) cu with
      | Some a, Some b => Some (a, b)
      | _, _ => None
      end
    else None.

  (** ** Scalar and vector callbacks of a C or Fortran user.
      [cb u x newx] is the user's routine with its memory, the point and the
      new_x flag it is given: result and error code (hiopInterface.h 114-116). *)
  Definition callback (R : Type) := U -> list V -> Z -> U * R * Z.

  (** The three kinds of evaluation that return numbers (chiopInterface.hpp
      332-343 and 356-364). *)
  Inductive kind := KObj | KGrad | KCons.

  (** The flag each of them passes on: eval_f and eval_grad_f pass the literal 0
      (chiopInterface.hpp 334, 340), eval_cons its argument (362). *)
  Definition flag_given (k : kind) (newx : bool) : Z :=
    match k with KObj | KGrad => 0 | KCons => b2z newx end.

  (** cppUserProblemSparse::eval_f, eval_grad_f, eval_cons (chiopInterface.hpp
      332-343, 356-364): the error code is dropped and true returned. *)
  Definition c_eval {R} (k : kind) (cb : callback R) (u : U) (x : list V) (newx : bool)
    : U * R * bool :=
    let '(u', r, _) := cb u x (flag_given k newx) in (u', r, true).

  (** A run of evaluations of one kind (hiopNlpFormulation.cpp 743-773). *)
  Fixpoint c_evals {R} (k : kind) (cb : callback R) (u : U) (xs : list (list V * bool))
    : U * list (R * bool) :=
    match xs with
    | [] => (u, [])
    | (x, nx) :: r =>
        let '(u1, v, ok) := c_eval k cb u x nx in
        let '(u2, vs) := c_evals k cb u1 r in (u2, (v, ok) :: vs)
    end.
End Fort.

Arguments FA {V}. Arguments a_task {V}. Arguments a_n {V}. Arguments a_m {V}.
Arguments a_newx {V}. Arguments a_nnz {V}. Arguments a_i {V}. Arguments a_j {V}. Arguments a_v {V}.
Arguments PT {V}. Arguments p_x {V}. Arguments p_obj {V}. Arguments p_lam {V}. Arguments p_newlam {V}.
Arguments TR {V}. Arguments t_i {V}. Arguments t_j {V}. Arguments t_v {V}.
Arguments FP {V U}. Arguments f_n {V U}. Arguments f_m {V U}. Arguments f_nnz_eq {V U}.
Arguments f_nnz_ineq {V U}. Arguments f_nnz_hess {V U}. Arguments f_xlow {V U}.
Arguments f_xupp {V U}. Arguments f_clow {V U}. Arguments f_cupp {V U}. Arguments f_x0 {V U}.
Arguments f_jac {V U}. Arguments f_hess {V U}.
Arguments SS {V U}. Arguments ss_type {V U}. Arguments ss_njac {V U}. Arguments ss_nhess {V U}.
Arguments ss_jac {V U}. Arguments ss_hess {V U}. Arguments ss_u {V U}.
Arguments ss_jseen {V U}. Arguments ss_hseen {V U}.
Arguments EvSolve {V}. Arguments EvCons {V}. Arguments EvJac {V}. Arguments EvHess {V}.
Arguments task_of {V}. Arguments wrapper {V U}. Arguments see {V}.
Arguments two_calls {V U}. Arguments serve {V U}. Arguments serve_all {V U}. Arguments sst0 {V U}.
Arguments copy {V}. Arguments create {V U}. Arguments get_sizes {V U}. Arguments get_blocks {V U}.
Arguments get_start {V U}. Arguments get_vars {V U}. Arguments get_cons {V U}.
Arguments c_eval {V U R}. Arguments c_evals {V U R}.
