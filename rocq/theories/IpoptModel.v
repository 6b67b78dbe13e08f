(** The adapters that hand a problem written for this library to Ipopt
    (src/Drivers/IpoptAdapter/IpoptAdapter.hpp): constraint values, Jacobian and Hessian in the form
    Ipopt asks for them.  Arithmetic is only used by the statements; the adapters move data.

    [hiopSparse2IpoptTNLP] (698-1067) is [hiopMDS2IpoptTNLP] (218-688) without the dense block, line
    by line; it is modelled as the case of no dense variables.  User functions are functions of the
    point (and of the constraint list); [None] is the answer false, after which nothing they may have
    written is assumed.  Not modelled: reuse and deletion of the work matrices JacDeq, JacDineq,
    JacDeqineq, HessDL (fresh memory for the user on every call), the [new_x] flags, [int] overflow of
    the sizes, the null pointer passed for the dense block when only the pattern is asked for (401, 424). *)
From Coq Require Import List Bool Arith.
From Verif Require Import RingKit FloatBase.
Import ListNotations.

Section Ipopt.
Variable K : cfield.
Variable X : Type.

(** an array of Ipopt; [None]: an element nobody wrote.  IpoptAdapter.hpp 385-387, 572-575: the
    arguments iRow, jCol (one array of pairs here) and values *)
Definition mem (T : Type) := list (option T).
(** writing [l] from position [o] on, IpoptAdapter.hpp 399-413, 493-503 (the user writes through a
    shifted pointer, memcpy); None: outside the array *)
Definition put {T} (o : nat) (l : list T) (b : mem T) : option (mem T) :=
  if o + length l <=? length b then Some (firstn o b ++ map Some l ++ skipn (o + length l) b) else None.

(** how a call ends, IpoptAdapter.hpp 385-570: a failed assertion or an access outside an array; or the
    returned flag with the array *)
Inductive res (T : Type) := Bad | Ret (ok : bool) (b : T).
Arguments Bad {T}. Arguments Ret {T}.

(** the user's problem, src/Interface/hiopInterface.hpp 586-777 (mixed dense-sparse) and 779-876
    (sparse): sizes as answered by get_prob_sizes and get_sparse_dense_blocks_info (called at
    IpoptAdapter.hpp 245-252); constraint values for a list of constraints and for all; sparse pattern
    (row within the list, column), sparse values with the dense block by rows; second derivatives *)
Record user := User {
  u_m : nat; u_ns : nat; u_nd : nat; u_nnze : nat; u_nnzi : nat; u_nnzh : nat;
  u_bnd : list (b64 * b64);
  u_c2 : list nat -> X -> option (list K); u_c1 : X -> option (list K);
  u_p2 : list nat -> option (list (nat * nat)); u_p1 : option (list (nat * nat));
  u_v2 : list nat -> X -> option (list K * list K); u_v1 : X -> option (list K * list K);
  u_hp : option (list (nat * nat)); u_hv : X -> K -> list K -> option (list K * list K) }.
Variable U : user.

(** nnz_jac_g, IpoptAdapter.hpp 254-256 (733) *)
Definition nele_jac : nat := u_nnze U + u_nnzi U + u_m U * u_nd U.
(** nnz_h_lag, IpoptAdapter.hpp 259-261 (736) *)
Definition nele_hess : nat := u_nnzh U + u_nd U * (u_nd U + 1) / 2.

(** the two index loops of get_bounds_info, IpoptAdapter.hpp 295-299 (772-776): equalities and
    inequalities from constraint [i] on *)
Fixpoint split_idx (i : nat) (g : list (b64 * b64)) : list nat * list nat :=
  match g with
  | [] => ([], [])
  | (l, u) :: g => let (e, d) := split_idx (S i) g in if feq l u then (i :: e, d) else (e, i :: d)
  end.
(** cons_eq_idxs, IpoptAdapter.hpp 291-299 (768-776) *)
Definition eqi : list nat := fst (split_idx 0 (u_bnd U)).
(** cons_ineq_idxs, IpoptAdapter.hpp 291-299 (768-776) *)
Definition ini : list nat := snd (split_idx 0 (u_bnd U)).

(** [g[idx[i]] = v[i]] for every i, IpoptAdapter.hpp 350-351, 362-363 (827-828, 840-841) *)
Fixpoint scatter (idx : list nat) (v : list K) (g : mem K) : option (mem K) :=
  match idx, v with
  | [], _ => Some g
  | i :: idx, a :: v => match put i [a] g with Some g => scatter idx v g | None => None end
  | _ :: _, [] => None
  end.

(** eval_g, IpoptAdapter.hpp 339-378 (814-853) *)
Definition eval_g (x : X) (g : mem K) : res (mem K) :=
  let (failed, g1) := match u_c2 U eqi x with Some v => (false, scatter eqi v g) | None => (true, Some g) end in
  match g1 with
  | None => Bad
  | Some g1 =>
      match u_c2 U ini x with
      | Some v => match scatter ini v g1 with Some g2 => Ret true g2 | None => Bad end
      | None => if failed
                then match u_c1 U x with
                     | Some v => match put 0 v g1 with Some g2 => Ret true g2 | None => Bad end
                     | None => Ret false g1
                     end
                else Ret false g1
      end
  end.

(** row and column of the dense entries of the constraints [idx], IpoptAdapter.hpp 404-411, 430-437, 459-466 *)
Definition dense_pat (idx : list nat) : list (nat * nat) :=
  flat_map (fun i => map (fun j => (i, j + u_ns U)) (seq 0 (u_nd U))) idx.
(** [iRow[it] += n_eq] for it in [o, o+n), IpoptAdapter.hpp 426-427 (899-900) *)
Definition shift_rows (o n by_ : nat) (b : mem (nat * nat)) : mem (nat * nat) :=
  firstn o b ++ map (option_map (fun '(i, j) => (i + by_, j))) (firstn n (skipn o b)) ++ skipn (o + n) b.
(** an assertion compiled in or not (throughout IpoptAdapter.hpp, e.g. 446) *)
Definition asserted {T} (dbg cond : bool) (k : res T) : res T := if dbg && negb cond then Bad else k.

(** eval_jac_g without values, IpoptAdapter.hpp 393-469 (873-919) *)
Definition jac_struct (dbg : bool) (b : mem (nat * nat)) : res (mem (nat * nat)) :=
  let '(failed, nn, b1) :=
    match u_p2 U eqi with
    | Some p => (false, u_nnze U + length (dense_pat eqi),
                 match put 0 p b with Some b => put (u_nnze U) (dense_pat eqi) b | None => None end)
    | None => (true, 0, Some b)
    end in
  match b1 with
  | None => Bad
  | Some b1 =>
      match u_p2 U ini with
      | Some p =>
          match put nn p b1 with
          | None => Bad
          | Some b2 =>
              let b3 := shift_rows nn (u_nnzi U) (length eqi) b2 in
              match put (nn + u_nnzi U) (dense_pat ini) b3 with
              | None => Bad
              | Some b4 => asserted dbg (nn + u_nnzi U + length (dense_pat ini) =? nele_jac) (Ret true b4)
              end
          end
      | None =>
          if failed then
            match u_p1 U with
            | None => Ret false b1
            | Some p =>
                match put 0 p b1 with
                | None => Bad
                | Some b2 =>
                    match put (u_nnze U + u_nnzi U) (dense_pat (seq 0 (u_m U))) b2 with
                    | None => Bad
                    | Some b3 => asserted dbg (u_nnze U + u_nnzi U + length (dense_pat (seq 0 (u_m U))) =? nele_jac) (Ret true b3)
                    end
                end
            end
          else Ret false b1
      end
  end.

(** the part of eval_jac_g for one-call problems, IpoptAdapter.hpp 548-567 (963-971) *)
Definition jac_vals_one (dbg : bool) (x : X) (b : mem K) : res (mem K) :=
  match u_v1 U x with
  | None => Ret false b
  | Some (v, d) =>
      match put 0 v b with
      | None => Bad
      | Some b => match put (u_nnze U + u_nnzi U) (firstn (u_m U * u_nd U) d) b with
                  | None => Bad
                  | Some b => asserted dbg (u_nnze U + u_nnzi U + u_m U * u_nd U =? nele_jac) (Ret true b)
                  end
      end
  end.
(** eval_jac_g with values, IpoptAdapter.hpp 470-569 (920-973); [one] is onecall_Jac_detected_, whose
    new value is returned.  Assertion 500/517 (intermediate counts) follow from the arrays' sizes *)
Definition jac_vals (dbg one : bool) (x : X) (b : mem K) : bool * res (mem K) :=
  if one then (true, jac_vals_one dbg x b) else
  let '(failed, nn, b1) :=
    match u_v2 U eqi x with
    | Some (v, d) => (false, u_nnze U + length eqi * u_nd U,
        match put 0 v b with Some b => put (u_nnze U) (firstn (length eqi * u_nd U) d) b | None => None end)
    | None => (true, 0, Some b)
    end in
  match b1 with
  | None => (false, Bad)
  | Some b1 =>
      match u_v2 U ini x with
      | Some (v, d) =>
          (false, match put nn v b1 with
                  | None => Bad
                  | Some b2 => match put (nn + u_nnzi U) (firstn (length ini * u_nd U) d) b2 with
                               | None => Bad
                               | Some b3 => asserted dbg (nn + u_nnzi U + length ini * u_nd U =? nele_jac) (Ret true b3)
                               end
                  end)
      | None => if failed then (true, jac_vals_one dbg x b1) else (false, Ret false b1)
      end
  end.

(** the pairs (i,j), i <= j, of the dense block in the order of the loops, IpoptAdapter.hpp 592-599, 630-635 *)
Definition upper (n : nat) : list (nat * nat) := flat_map (fun i => map (fun j => (i, j)) (seq i (n - i))) (seq 0 n).
(** eval_h without values, IpoptAdapter.hpp 580-604 (983-996) *)
Definition hess_struct (dbg : bool) (b : mem (nat * nat)) : res (mem (nat * nat)) :=
  match u_hp U with
  | None => Ret false b
  | Some p =>
      match put 0 p b with
      | None => Bad
      | Some b => match put (u_nnzh U) (map (fun '(i, j) => (u_ns U + i, u_ns U + j)) (upper (u_nd U))) b with
                  | None => Bad
                  | Some b => asserted dbg (u_nnzh U + length (upper (u_nd U)) =? nele_hess) (Ret true b)
                  end
      end
  end.
(** eval_h with values, IpoptAdapter.hpp 605-641 (997-1011); [x], the factor on the objective and
    [lambda] go to the user unchanged.  Reading outside the user's dense block: Bad *)
Definition hess_vals (dbg : bool) (x : X) (of_ : K) (lam : list K) (b : mem K) : res (mem K) :=
  match u_hv U x of_ lam with
  | None => Ret false b
  | Some (v, d) =>
      match put 0 v b with
      | None => Bad
      | Some b =>
          if u_nd U * u_nd U <=? length d then
            match put (u_nnzh U) (map (fun '(i, j) => nth (i * u_nd U + j) d f0) (upper (u_nd U))) b with
            | None => Bad
            | Some b => asserted dbg (u_nnzh U + length (upper (u_nd U)) =? nele_hess) (Ret true b)
            end
          else Bad
      end
  end.

(** finalize_solution, IpoptAdapter.hpp 646-668 (1015-1042): the status passed to the user's
    solution_callback for a status of Ipopt; [None] for the dense adapter 185-190, which calls nothing *)
Inductive ipopt_status := SUCCESS | MAXITER_EXCEEDED | LOCAL_INFEASIBILITY | DIVERGING_ITERATES | USER_REQUESTED_STOP | OTHER_FAILURE.
(** the codes of src/Interface/hiopInterface.hpp 65-107 that matter here *)
Inductive hiop_status := Solve_Success | Max_Iter_Exceeded | Infeasible_Problem | Iterates_Diverging | User_Stopped | Error_In_User_Function.
(** IpoptAdapter.hpp 653-654 (1027-1028) *)
Definition final_status (dense : bool) (s : ipopt_status) : option hiop_status := if dense then None else Some Solve_Success.

(** ** hiopDenseCons2IpoptTNLP *)
(** the user's dense problem, src/Interface/hiopInterface.hpp 518-561: sizes, constraint values and one
    row of the Jacobian at a time as the adapter asks for them *)
Record duser := DUser { d_n : nat; d_m : nat; d_c : list nat -> X -> option (list K); d_row : nat -> X -> option (list K) }.
Variable D : duser.
(** eval_g, IpoptAdapter.hpp 115-123 *)
Definition d_eval_g (x : X) (g : mem K) : res (mem K) :=
  match d_c D (seq 0 (d_m D)) x with
  | Some v => match put 0 v g with Some g => Ret true g | None => Bad end
  | None => Ret false g
  end.
(** eval_jac_g without values, IpoptAdapter.hpp 152-159 *)
Definition d_struct (b : mem (nat * nat)) : res (mem (nat * nat)) :=
  match put 0 (flat_map (fun i => map (fun j => (i, j)) (seq 0 (d_n D))) (seq 0 (d_m D))) b with
  | Some b => Ret true b
  | None => Bad
  end.
(** eval_jac_g with values, IpoptAdapter.hpp 140-165: rows [i .. i+k) remain *)
Fixpoint d_vals (x : X) (k i : nat) (b : mem K) : res (mem K) :=
  match k with
  | O => Ret true b
  | S k => match d_row D i x with
           | None => Ret false b
           | Some r => match put (i * d_n D) (firstn (d_n D) r) b with Some b => d_vals x k (S i) b | None => Bad end
           end
  end.
End Ipopt.
Arguments Bad {T}. Arguments Ret {T}.
