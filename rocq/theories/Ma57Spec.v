(** Specification vocabulary for the MA57 wrapper: which symmetric matrix MA57 understands from the
    triplets it is given, which matrix each call should be about, and what is assumed of the answers
    of the factorization routine. *)
From Coq Require Import List Bool Arith ZArith.
From Verif Require Import RingKit SparseModel SparseSpec CsrModel CsrSpec Ma57Model.
Import ListNotations.

Section Spec.
Variable K : cfield.
(** MA57's convention: 1-based indices; an entry (a,b,v) adds v at (a,b) and, if a and b differ, at (b,a) *)
Definition reading (l : list (entry K)) (i j : nat) : K :=
  lsum (map (fun e : entry K => let '(a, b, v) := e in
    if ((a =? S i) && (b =? S j)) || ((a =? S j) && (b =? S i)) then v else f0) l).
(** the index arrays are 1-based positions of the lower triangle *)
Definition lower_one_based (n : nat) (l : list (entry K)) : Prop :=
  Forall (fun e : entry K => let '(a, b, v) := e in 1 <= b <= a /\ a <= n) l.
(** the symmetric matrix whose lower triangle is that of [rows] *)
Definition lower_sym (rows : list (list (nat * K))) (i j : nat) : K :=
  if j <=? i then cmat rows i j else cmat rows j i.
(** the matrix stored as [rows] is symmetric *)
Definition symmetric (n : nat) (rows : list (list (nat * K))) : Prop :=
  forall i j, i < n -> j < n -> cmat rows i j = cmat rows j i.
(** only the lower triangle is stored *)
Definition lower_only (rows : list (list (nat * K))) : Prop := forall i j, stored rows i j -> j <= i.
(** only the upper triangle is stored *)
Definition upper_only (rows : list (list (nat * K))) : Prop := forall i j, stored rows i j -> i <= j.
(** the symmetric matrix of which one triangle is stored *)
Definition completion (rows : list (list (nat * K))) (i j : nat) : K :=
  if i =? j then cmat rows i i else cmat rows i j +! cmat rows j i.

(** which matrix each MA57 call is about: a factorization about the current matrix, a solve about the
    matrix last factorized ([None] when there is none) *)
Fixpoint about {M} (cur : M) (last : option M) (ops : list (op M)) : option (list (bool * M)) :=
  match ops with
  | [] => Some []
  | Update B :: t => about B last t
  | Factor :: t => option_map (cons (true, cur)) (about cur (Some cur) t)
  | Solve :: t => match last with Some m => option_map (cons (false, m)) (about cur last t) | None => None end
  end.
(** the same with solves about the current matrix *)
Fixpoint about_now {M} (cur : M) (done : bool) (ops : list (op M)) : option (list (bool * M)) :=
  match ops with
  | [] => Some []
  | Update B :: t => about_now B done t
  | Factor :: t => option_map (cons (true, cur)) (about_now cur true t)
  | Solve :: t => if done then option_map (cons (false, cur)) (about_now cur done t) else None
  end.
(** the same calls, about a CSR object and about the rows it stores; all matrices have the dimension
    and the pattern given *)
Definition same_op {M N} (R : M -> N -> Prop) (o : op M) (p : op N) : Prop :=
  match o, p with
  | Update A, Update B => R A B
  | Factor, Factor => True
  | Solve, Solve => True
  | _, _ => False
  end.
(** the object is an n x n matrix that stores these rows, with the positions of [rows0] *)
Definition like (n : nat) (rows0 : list (list (nat * K))) (A : csr K) (rows : list (list (nat * K))) : Prop :=
  stores A rows /\ c_m A = n /\ c_n A = n /\ pattern rows = pattern rows0.
(** the same for triplet matrices *)
Definition liket (n : nat) (l0 : list (entry K)) (A : trip K) (l : list (entry K)) : Prop :=
  t_m A = n /\ t_n A = n /\ t_ent A = l /\ same_positions l l0.
(** what a call was given, and of which kind it was *)
Definition is_fact (e : event K) : bool := match e with Fact _ => true | Sol _ => false end.
Definition given (e : event K) : list (entry K) := match e with Fact l => l | Sol l => l end.
End Spec.
Arguments reading {_}. Arguments lower_one_based {_}. Arguments lower_sym {_}. Arguments symmetric {_}.
Arguments lower_only {_}. Arguments upper_only {_}. Arguments completion {_}. Arguments like {_}. Arguments liket {_}. Arguments is_fact {_}. Arguments given {_}.

Local Open Scope Z_scope.
(** MA57BD succeeds, or reports rank deficiency, or asks for more real or more integer workspace than it
    was given, never for more than [R] and [I] *)
Definition tame (R I : Z) (bd : nat -> Z -> Z -> info) : Prop :=
  forall c lr li, 0 <= lr -> 0 <= li ->
    i_code (bd c lr li) = 0 \/ i_code (bd c lr li) = 4 \/
    (i_code (bd c lr li) = -3 /\ lr < i_real (bd c lr li) <= R) \/
    (i_code (bd c lr li) = -4 /\ li < i_int (bd c lr li) <= I).
(** largest request whose 5% increase is still an int *)
Definition max_request : Z := 2045222521.
