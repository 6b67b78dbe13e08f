(** The primal-dual Newton system of the barrier problem, written out, and what an exact linear solve is. *)
From Coq Require Import List Bool Arith.
From Verif Require Import RingKit KktModel KktModel2.
From Verif Require Import SparseModel SparseSpec.
Import ListNotations.

Section S.
Variable K : cfield.
Notation vec := (nat -> K).
Notation mat := (nat -> nat -> K).
(** rows of the regularized Newton system
      H dx + delta_wx dx + Jc' dyc + Jd' dyd - dzl + dzu = rx,   delta_wd dd - dyd - dvl + dvu = rd,
      Jc dx - delta_cc dyc = ryc,   Jd dx - dd - delta_cd dyd = ryd,
      dsxl - dx = rxl, dsxu + dx = rxu (and the same in d),   S dz + Z ds = rsz  on the finite bounds;
    the parts of the direction that belong to no finite bound are zero *)
Definition newton (P : prob K) (it : iter K) (e : deltas K) (r : resid K) (w : iter K) : Prop :=
  (forall i, i < nx P ->
     sumn (nx P) (fun j => p_H P i j *! w_x w j) +! e_wx e i *! w_x w i +!
     sumn (neq P) (fun k => p_Jc P k i *! w_yc w k) +! sumn (ni P) (fun k => p_Jd P k i *! w_yd w k) -! w_zl w i +! w_zu w i = r_x r i) /\
  (forall i, i < ni P -> e_wd e i *! w_d w i -! w_yd w i -! w_vl w i +! w_vu w i = r_d r i) /\
  (forall i, i < neq P -> sumn (nx P) (fun j => p_Jc P i j *! w_x w j) -! e_cc e i *! w_yc w i = r_yc r i) /\
  (forall i, i < ni P -> sumn (nx P) (fun j => p_Jd P i j *! w_x w j) -! w_d w i -! e_cd e i *! w_yd w i = r_yd r i) /\
  (forall i, i < nx P -> if ixl P i then w_sxl w i -! w_x w i = r_xl r i /\ w_sxl it i *! w_zl w i +! w_zl it i *! w_sxl w i = r_szl r i
                         else w_sxl w i = f0 /\ w_zl w i = f0) /\
  (forall i, i < nx P -> if ixu P i then w_sxu w i +! w_x w i = r_xu r i /\ w_sxu it i *! w_zu w i +! w_zu it i *! w_sxu w i = r_szu r i
                         else w_sxu w i = f0 /\ w_zu w i = f0) /\
  (forall i, i < ni P -> if idl P i then w_sdl w i -! w_d w i = r_dl r i /\ w_sdl it i *! w_vl w i +! w_vl it i *! w_sdl w i = r_svl r i
                         else w_sdl w i = f0 /\ w_vl w i = f0) /\
  (forall i, i < ni P -> if idu P i then w_sdu w i +! w_d w i = r_du r i /\ w_sdu it i *! w_vu w i +! w_vu it i *! w_sdu w i = r_svu r i
                         else w_sdu w i = f0 /\ w_vu w i = f0).
(** slacks of finite bounds are not zero *)
Definition interior (P : prob K) (it : iter K) : Prop :=
  (forall i, i < nx P -> ixl P i = true -> w_sxl it i <> f0) /\ (forall i, i < nx P -> ixu P i = true -> w_sxu it i <> f0) /\
  (forall i, i < ni P -> idl P i = true -> w_sdl it i <> f0) /\ (forall i, i < ni P -> idu P i = true -> w_sdu it i <> f0).
(** the diagonal of the eliminated inequality slacks: vl/sdl + vu/sdu on the finite bounds, plus delta_wd *)
Definition ddiag (P : prob K) (it : iter K) (e : deltas K) (i : nat) : K :=
  (if idl P i then w_vl it i /! w_sdl it i else f0) +! (if idu P i then w_vu it i /! w_sdu it i else f0) +! e_wd e i.
(** zl/sxl + zu/sxu on the finite bounds *)
Definition xdiag (P : prob K) (it : iter K) (i : nat) : K :=
  (if ixl P i then w_zl it i /! w_sxl it i else f0) +! (if ixu P i then w_zu it i /! w_sxu it i else f0).
Definition symmetric (n : nat) (A : mat) : Prop := forall i j, i < n -> j < n -> A i j = A j i.
(** a dense symmetric solver that returns solutions: of the matrix whose upper triangle it is given *)
Definition exact (S : dsolver K) : Prop :=
  forall N M r s, S N M r = Some s -> forall i, i < N -> sumn N (fun j => (if i <=? j then M i j else M j i) *! s j) = r i.
(** residual blocks without finite bound are zero *)
Definition matches (P : prob K) (r : resid K) : Prop :=
  (forall i, i < nx P -> (ixl P i = false -> r_xl r i = f0 /\ r_szl r i = f0) /\ (ixu P i = false -> r_xu r i = f0 /\ r_szu r i = f0)) /\
  (forall i, i < ni P -> (idl P i = false -> r_dl r i = f0 /\ r_svl r i = f0) /\ (idu P i = false -> r_du r i = f0 /\ r_svu r i = f0)).
(** the parts of an iterate that belong to no finite bound are zero *)
Definition supported (P : prob K) (w : iter K) : Prop :=
  (forall i, i < nx P -> (ixl P i = false -> w_sxl w i = f0 /\ w_zl w i = f0) /\ (ixu P i = false -> w_sxu w i = f0 /\ w_zu w i = f0)) /\
  (forall i, i < ni P -> (idl P i = false -> w_sdl w i = f0 /\ w_vl w i = f0) /\ (idu P i = false -> w_sdu w i = f0 /\ w_vu w i = f0)).
(** equality of residuals, block by block *)
Definition same (P : prob K) (a b : resid K) : Prop :=
  (forall i, i < nx P -> r_x a i = r_x b i /\ r_xl a i = r_xl b i /\ r_xu a i = r_xu b i /\ r_szl a i = r_szl b i /\ r_szu a i = r_szu b i) /\
  (forall i, i < neq P -> r_yc a i = r_yc b i) /\
  (forall i, i < ni P -> r_d a i = r_d b i /\ r_yd a i = r_yd b i /\ r_dl a i = r_dl b i /\ r_du a i = r_du b i /\ r_svl a i = r_svl b i /\ r_svu a i = r_svu b i).
(** scalar product of a residual-like and an iterate-like vector, over all twelve blocks *)
Definition pair (P : prob K) (a : resid K) (w : iter K) : K :=
  let dx (u v : vec) := sumn (nx P) (fun i => u i *! v i) in let di (u v : vec) := sumn (ni P) (fun i => u i *! v i) in
  dx (r_x a) (w_x w) +! di (r_d a) (w_d w) +! sumn (neq P) (fun i => r_yc a i *! w_yc w i) +! di (r_yd a) (w_yd w) +!
  dx (r_xl a) (w_sxl w) +! dx (r_xu a) (w_sxu w) +! di (r_dl a) (w_sdl w) +! di (r_du a) (w_sdu w) +!
  dx (r_szl a) (w_zl w) +! dx (r_szu a) (w_zu w) +! di (r_svl a) (w_vl w) +! di (r_svu a) (w_vu w).
(** what the right-hand side must be: minus the violation of every equation of the perturbed optimality conditions
      grad f + Jc' yc + Jd' yd - zl + zu + damping = 0,  -yd - vl + vu + damping = 0,  c(x) = crhs,  d(x) = d,
      x - sxl = xl, x + sxu = xu (and the same in d),  s z = mu  on the finite bounds; zero elsewhere *)
Definition kkt_violation (P : prob K) (v : nlpvals K) (it : iter K) (r : resid K) : Prop :=
  (forall i, i < nx P -> r_x r i +! (v_grad v i +! sumn (neq P) (fun k => p_Jc P k i *! w_yc it k) +!
     sumn (ni P) (fun k => p_Jd P k i *! w_yd it k) -! w_zl it i +! w_zu it i +! v_dampx v i) = f0) /\
  (forall i, i < ni P -> r_d r i +! (v_dampd v i -! w_yd it i -! w_vl it i +! w_vu it i) = f0) /\
  (forall i, i < neq P -> r_yc r i +! (v_c v i -! v_crhs v i) = f0) /\
  (forall i, i < ni P -> r_yd r i +! (v_d v i -! w_d it i) = f0) /\
  (forall i, i < nx P -> if ixl P i then r_xl r i +! (w_sxl it i +! v_xl v i -! w_x it i) = f0 /\ r_szl r i +! (w_sxl it i *! w_zl it i -! v_mu v) = f0
                         else r_xl r i = f0 /\ r_szl r i = f0) /\
  (forall i, i < nx P -> if ixu P i then r_xu r i +! (w_x it i +! w_sxu it i -! v_xu v i) = f0 /\ r_szu r i +! (w_sxu it i *! w_zu it i -! v_mu v) = f0
                         else r_xu r i = f0 /\ r_szu r i = f0) /\
  (forall i, i < ni P -> if idl P i then r_dl r i +! (w_sdl it i +! v_dl v i -! w_d it i) = f0 /\ r_svl r i +! (w_sdl it i *! w_vl it i -! v_mu v) = f0
                         else r_dl r i = f0 /\ r_svl r i = f0) /\
  (forall i, i < ni P -> if idu P i then r_du r i +! (w_d it i +! w_sdu it i -! v_du v i) = f0 /\ r_svu r i +! (w_sdu it i *! w_vu it i -! v_mu v) = f0
                         else r_du r i = f0 /\ r_svu r i = f0).
(** the linear equations after the full step: linearized constraints and slack definitions hold *)
Definition lands (P : prob K) (v : nlpvals K) (it w : iter K) : Prop :=
  (forall i, i < neq P -> v_c v i +! sumn (nx P) (fun j => p_Jc P i j *! w_x w j) = v_crhs v i) /\
  (forall i, i < ni P -> v_d v i +! sumn (nx P) (fun j => p_Jd P i j *! w_x w j) = w_d it i +! w_d w i) /\
  (forall i, i < nx P -> ixl P i = true -> w_x it i +! w_x w i -! (w_sxl it i +! w_sxl w i) = v_xl v i) /\
  (forall i, i < nx P -> ixu P i = true -> w_x it i +! w_x w i +! (w_sxu it i +! w_sxu w i) = v_xu v i) /\
  (forall i, i < ni P -> idl P i = true -> w_d it i +! w_d w i -! (w_sdl it i +! w_sdl w i) = v_dl v i) /\
  (forall i, i < ni P -> idu P i = true -> w_d it i +! w_d w i +! (w_sdu it i +! w_sdu w i) = v_du v i).
(** matrix of a linear operator on vectors of dimension n *)
Definition matrix_of (B : vec -> vec) : mat := fun i j => B (fun k => if k =? j then f1 else f0) i.
(** in a sequence of builds, one that reports that only the dual regularization changed comes after one with the same
    iterate and the same primal regularization *)
Fixpoint reports_ok (prev : option (iter K * deltas K)) (bs : list (iter K * deltas K * bool)) : Prop :=
  match bs with
  | [] => True
  | (it, e, dual) :: bs =>
    (dual = true -> exists e0, prev = Some (it, e0) /\ forall i, e_wx e i = e_wx e0 i /\ e_wd e i = e_wd e0 i) /\ reports_ok (Some (it, e)) bs
  end.
(** a sparse problem as the user's callbacks deliver it: indices inside the matrices, rows nondecreasing, matching sizes *)
Definition sparse_ok (Q : sprob K) : Prop :=
  wf (s_H Q) /\ wf (s_Jc Q) /\ wf (s_Jd Q) /\ row_sorted (t_ent (s_H Q)) /\ row_sorted (t_ent (s_Jc Q)) /\ row_sorted (t_ent (s_Jd Q)) /\
  t_m (s_H Q) = t_n (s_H Q) /\ t_n (s_Jc Q) = t_n (s_H Q) /\ t_n (s_Jd Q) = t_n (s_H Q) /\
  length (s_ixl Q) = t_n (s_H Q) /\ length (s_ixu Q) = t_n (s_H Q) /\ length (s_idl Q) = t_m (s_Jd Q) /\ length (s_idu Q) = t_m (s_Jd Q).
(** a square triplet matrix of order N with Z slots *)
Definition slots_of (N Z : nat) (M : trip K) : Prop := t_m M = N /\ t_n M = N /\ length (t_ent M) = Z.
(** a sparse symmetric solver that returns solutions: of the matrix of which it is given one triangle *)
Definition exact_sym (S : ssolver K) : Prop :=
  forall N l r s, S N l r = Some s -> forall i, i < N -> sumn N (fun j => symmat l i j *! s j) = r i.
(** a sparse solver that returns solutions *)
Definition exact_gen (S : ssolver K) : Prop :=
  forall N l r s, S N l r = Some s -> forall i, i < N -> sumn N (fun j => SparseSpec.mat l i j *! s j) = r i.
End S.
