(** What the options object promises. *)
From Coq Require Import List Bool ZArith String.
From Verif Require Import FloatBase OptModel.
Import ListNotations.
Open Scope string_scope.

(** the value is inside the declared range *)
Definition in_range (v : oval) : Prop :=
  match v with
  | VNum v lb ub => fle lb v = true /\ fle v ub = true
  | VInt v lb ub => (lb <= v <= ub)%Z
  | VStr v range => range = [] \/ In v range
  end.
(** same type and same declared range *)
Definition same_decl (a b : oval) : Prop :=
  match a, b with
  | VNum _ l u, VNum _ l' u' => l = l' /\ u = u'
  | VInt _ l u, VInt _ l' u' => l = l' /\ u = u'
  | VStr _ r, VStr _ r' => r = r'
  | _, _ => False
  end.
(** every registered option is there, with the type and range it was registered with, and holds a
    value in that range; [skip n] exempts option [n] from the last point *)
Definition legal (skip : string -> bool) (regs t : table) : Prop :=
  Forall2 (fun r e => fst e = fst r /\ same_decl (o_val (snd r)) (o_val (snd e)) /\
                      (skip (fst r) = false -> in_range (o_val (snd e)))) regs t.
(** the options the consistency rules may change *)
Definition rule_targets : list string :=
  ["acceptable_tolerance"; "dual_tol"; "cons_tol"; "comp_tol"; "KKTLinsys"; "duals_update_type";
   "linear_solver_sparse"; "ginkgo_exec"; "linear_solver_sparse_ordering"; "compute_mode"; "mem_space";
   "callback_mem_space"; "fixed_var"; "fact_acceptor"; "moving_lim_rel"].
(** the value of an option as returned by the getters *)
Inductive value := Num (v : b64) | Int (v : Z) | Str (v : string).
Definition value_of (v : oval) : value :=
  match v with VNum v _ _ => Num v | VInt v _ _ => Int v | VStr v _ => Str v end.
Definition val (n : string) (t : table) : option value := option_map (fun o => value_of (o_val o)) (find n t).
(** the values the consistency rules may install: [eps] is the value of "tolerance", [ms] that of
    "mem_space" *)
Definition corrected (eps : value) (ms : string) (n : string) (v : value) : Prop :=
  In n ["acceptable_tolerance"; "dual_tol"; "cons_tol"; "comp_tol"] /\ v = eps \/
  In (n, v) [("KKTLinsys", Str "auto"); ("duals_update_type", Str "linear"); ("linear_solver_sparse", Str "auto");
             ("ginkgo_exec", Str "reference"); ("linear_solver_sparse_ordering", Str "symamd-cuda");
             ("compute_mode", Str "hybrid"); ("compute_mode", Str "cpu"); ("mem_space", Str "default");
             ("callback_mem_space", Str ms); ("fixed_var", Str "relax"); ("fact_acceptor", Str "inertia_free");
             ("moving_lim_rel", Num f_zero)].
(** The relations between options the warnings of the consistency pass announce *)
Definition consistent (c : config) (t : table) : Prop :=
  (** a tolerance the user gave is not below "tolerance" *)
  (forall n, In n ["acceptable_tolerance"; "dual_tol"; "cons_tol"; "comp_tol"] -> is_user_defined n t = true ->
     exists v eps, get_num n t = Some v /\ get_num "tolerance" t = Some eps /\ flt v eps = false) /\
  (** a Hessian approximation the user asked for goes with the default or the condensed system *)
  (get_str "Hessian" t = Some "quasinewton_approx" -> is_user_defined "Hessian" t = true ->
     get_str "KKTLinsys" t = Some "auto" \/ get_str "KKTLinsys" t = Some "condensed") /\
  (get_str "Hessian" t = Some "analytical_exact" -> get_str "duals_update_type" t = Some "linear") /\
  (** sparse solvers *)
  (exists sp, get_str "linear_solver_sparse" t = Some sp /\
    (get_str "KKTLinsys" t = Some "full" -> In sp ["resolve"; "pardiso"; "strumpack"; "auto"]) /\
    (get_str "KKTLinsys" t = Some "condensed" -> In sp ["cusolver-chol"; "auto"]) /\
    (cuda c = false -> sp <> "resolve" /\ sp <> "cusolver-chol") /\
    (ginkgo c = true -> cuda c = false -> sp = "ginkgo" -> get_str "ginkgo_exec" t <> Some "cuda") /\
    (ginkgo c = true -> hip c = false -> sp = "ginkgo" -> get_str "ginkgo_exec" t <> Some "hip") /\
    (get_str "KKTLinsys" t = Some "full" \/ In sp ["strumpack"; "resolve"] ->
     get_str "fact_acceptor" t = Some "inertia_free")) /\
  (cuda c = true -> eigen c = false -> get_str "linear_solver_sparse_ordering" t <> Some "symamd-eigen") /\
  (** memory spaces and compute mode *)
  (raja c = false -> get_str "compute_mode" t <> Some "gpu" /\ get_str "mem_space" t = Some "default") /\
  (exists m cb, get_str "mem_space" t = Some m /\ get_str "callback_mem_space" t = Some cb /\
    (is_user_defined "callback_mem_space" t = true -> m <> "device" -> cb = m) /\
    (cb = "um" -> m <> "device") /\ (cb = "default" -> m = "default")) /\
  (gpu c = false -> get_str "compute_mode" t = Some "cpu") /\
  (get_str "compute_mode" t = Some "gpu" -> get_str "fixed_var" t <> Some "remove") /\
  (** only one kind of move limit *)
  (exists r a, get_num "moving_lim_rel" t = Some r /\ get_num "moving_lim_abs" t = Some a /\ feq f_zero (fmul r a) = true) /\
  (axom c = false -> forall n, In n chkpnt_opts -> is_user_defined n t = false).

(** Requests for one option in the order issued: whether it comes from the file (or claims to), and
    the value asked for if it is one of the option's type and range *)
Definition event := (bool * option value)%type.
(** a request counts if it comes from the file, or if no request from the file precedes it *)
Definition counts (evs : list event) (i : nat) : Prop :=
  exists f v, nth_error evs i = Some (f, v) /\
    (f = true \/ forall j v', j < i -> nth_error evs j <> Some (true, v')).
(** the last counting valid request wins; the default [d] stays if there is none *)
Definition winner (d : value) (evs : list event) (w : value) : Prop :=
  (exists i f, counts evs i /\ nth_error evs i = Some (f, Some w) /\
     forall j g v, i < j -> counts evs j -> nth_error evs j <> Some (g, Some v)) \/
  ((forall j g v, counts evs j -> nth_error evs j <> Some (g, Some v)) /\ w = d).

(** the request a call makes for option [n] declared as [o] *)
Definition valid_num (v lb ub : b64) : option value := if fle lb v && fle v ub then Some (Num v) else None.
Definition valid_int (v lb ub : Z) : option value := if ((lb <=? v) && (v <=? ub))%Z then Some (Int v) else None.
Definition valid_str (v : string) (range : list string) : option value :=
  if match range with [] => true | _ => existsb (String.eqb v) range end then Some (Str v) else None.
Definition call_event (n : string) (o : oval) (c : op) : list event :=
  match c, o with
  | SetNum m v f, VNum _ lb ub => if String.eqb m n then [(f, valid_num v lb ub)] else []
  | SetInt m v f, VInt _ lb ub => if String.eqb m n then [(f, valid_int v lb ub)] else []
  | SetStr m v f, VStr _ range => if String.eqb m n then [(f, valid_str (lower v) range)] else []
  | _, _ => []
  end.
(** the request a line of the file makes; [pn] and [pi] convert text to numbers *)
Definition line_event (pn : string -> option b64) (pi : string -> option Z) (n : string) (o : oval) (l : string) : list event :=
  match parse_line l with
  | Some (m, w) =>
      if String.eqb m n then
        match o with
        | VNum _ lb ub => match pn w with Some v => [(true, valid_num v lb ub)] | None => [] end
        | VInt _ lb ub => match pi w with Some v => [(true, valid_int v lb ub)] | None => [] end
        | VStr _ range => [(true, valid_str (lower w) range)]
        end
      else []
  | None => []
  end.

(** [t] is the table after constructing the object with a file of lines [ls] and then making the calls [ops] *)
Definition life (ens : table -> option table) (regs : table) (pn : string -> option b64) (pi : string -> option Z)
    (ls : list string) (ops : list op) (t : table) : Prop :=
  exists t0, construct ens pn pi regs ls = Some t0 /\ run ens ops t0 = Some t.
(** no number read from the file or passed in a call is NaN *)
Definition no_nan (pn : string -> option b64) (ops : list op) : Prop :=
  (forall s v, pn s = Some v -> is_nan v = false) /\ (forall n v f, In (SetNum n v f) ops -> is_nan v = false).
(** the call is about option [m] *)
Definition asks_for (o : op) (m : string) : Prop :=
  match o with SetNum n _ _ => n = m | SetInt n _ _ => n = m | SetStr n _ _ => n = m | SetLog => False end.
(** the documented relation of the primal decomposition options *)
Definition pridec_consistent (t : table) : Prop :=
  is_user_defined "acceptable_tolerance" t = true ->
  exists v eps, get_num "acceptable_tolerance" t = Some v /\ get_num "tolerance" t = Some eps /\ flt v eps = false.
