(** Specification vocabulary for the linear-system files: the documented format (/repo/src/LinAlg/csr_iajaaa.md) as read
    by the script that accompanies it (/repo/src/LinAlg/load_kkt_mat.m), and the grouping of a run's calls. *)
From Coq Require Import List Bool Arith ZArith QArith Qabs Qcanon.
From Verif Require Import RingKit SparseModel SparseSpec KktFileModel.
Import ListNotations.
Local Close Scope Qc_scope. Local Close Scope Q_scope. Local Open Scope nat_scope.

(** the number a token stands for *)
Definition num (t : tok) : Qc := match t with TI z => Q2Qc (inject_Z z) | TD k => Q2Qc (k # 100000000000000000000) end.
(** tokens that are indices or sizes *)
Definition int (t : tok) : nat := match t with TI z => Z.to_nat z | TD _ => 0 end.
(** k-th number of the file, counted from 0 *)
Definition tk (l : list tok) (k : nat) : tok := nth k l (TI 0).
(** the fields, positions as in the script (which counts from 1) *)
Definition f_m (l : list tok) : nat := int (tk l 0).
Definition f_nx (l : list tok) : nat := int (tk l 1).
Definition f_meq (l : list tok) : nat := int (tk l 2).
Definition f_mineq (l : list tok) : nat := int (tk l 3).
Definition f_nnz (l : list tok) : nat := int (tk l 4).
Definition f_rowp (l : list tok) (i : nat) : nat := int (tk l (5 + i)).
Definition f_col (l : list tok) (k : nat) : nat := int (tk l (f_m l + 6 + k)).
Definition f_val (l : list tok) (k : nat) : Qc_field := num (tk l (f_nnz l + f_m l + 6 + k)).
Definition f_rhs (l : list tok) (p i : nat) : Qc := num (tk l (f_nnz l + f_nnz l + f_m l + 6 + 2 * p * f_m l + i)).
Definition f_sol (l : list tok) (p i : nat) : Qc := num (tk l (f_nnz l + f_nnz l + f_m l + 6 + 2 * p * f_m l + f_m l + i)).
(** the matrix of the triplets: the nonzeros of row i are numbers rowp(i) to rowp(i+1)-1, counted from 1, columns
    counted from 1; repeated positions are added (Matlab's sparse) *)
Definition raw (l : list tok) (i j : nat) : Qc_field :=
  lsum (map (fun k => if f_col l (k - 1) =? j + 1 then f_val l (k - 1) else f0)
            (seq (f_rowp l i) (f_rowp l (i + 1) - f_rowp l i))).
(** istril and istriu *)
Definition all2 (m : nat) (P : nat -> nat -> bool) : bool := forallb (fun i => forallb (P i) (seq 0 m)) (seq 0 m).
Definition is0 (x : Qc) : bool := if Qc_eq_dec x 0 then true else false.
Definition tril (l : list tok) : bool := all2 (f_m l) (fun i j => (j <=? i) || is0 (raw l i j)).
Definition triu (l : list tok) : bool := all2 (f_m l) (fun i j => (i <=? j) || is0 (raw l i j)).
(** the matrix the script ends up with *)
Definition loaded (l : list tok) (i j : nat) : Qc_field :=
  if tril l then raw l i j +! (if i <? j then raw l j i else f0)
  else if triu l then raw l i j +! (if j <? i then raw l j i else f0)
  else raw l i j.

(** distance at most c half units in the 20th decimal *)
Definition near (c : nat) (a b : Qc) : Prop := (Qabs (this a - this b) <= inject_Z (Z.of_nat c) * (1 # 200000000000000000000))%Q.
(** the symmetric matrix given by the upper triangle of a row-major array *)
Definition sym_up (m : nat) (M : list Qc) (i j : nat) : Qc := nth (Nat.min i j * m + Nat.max i j) M (Q2Qc 0).
(** number of triplets at position (i,j) *)
Definition count_at (A : trip Qc_field) (i j : nat) : nat := length (filter (fun e => (row e =? i) && (col e =? j)) (t_ent A)).
(** a line of decimals *)
Definition vec_line (v : list Qc) : list tok := map (fun x => TD (fix20 x)) v.
(** the lines of right-hand side and solution pairs (documented fields 7 to 9) *)
Definition pair_lines (l : list (list Qc * list Qc)) : list (list tok) := concat (map (fun p => [vec_line (fst p); vec_line (snd p)]) l).

(** matrices built with the option on, each with the solves that follow it; calls before the first are not recorded *)
Definition group := ((nat * nat * nat * sysmat) * list (list Qc * list Qc))%type.
Definition add_solve (rs : list Qc * list Qc) (g : list group) : list group :=
  match g with [] => [] | (a, l) :: t => (a, l ++ [rs]) :: t end.
(** latest group first *)
Fixpoint groups (acc : list group) (ops : list op) : list group :=
  match ops with
  | [] => acc
  | Build _ nx meq mineq A :: t => groups ((nx, meq, mineq, A, []) :: acc) t
  | Solve r x :: t => groups (add_solve (r, x) acc) t
  end.
(** sizes fit: right-hand sides and solutions are as long as the matrix built last *)
Fixpoint fits (m : option nat) (ops : list op) : Prop :=
  match ops with
  | [] => True
  | Build _ _ _ _ A :: t => fits (Some (sys_m A)) t
  | Solve r x :: t => match m with Some k => length r = k /\ length x = k | None => True end /\ fits m t
  end.
(** every build has the option on *)
Definition option_on (ops : list op) : Prop := forall on nx meq mineq A, In (Build on nx meq mineq A) ops -> on = true.
