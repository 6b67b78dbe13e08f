(** Second-order corrections, as in the method's description: the k-th corrected direction solves the Newton system of the
    current point in which the constraint violation is replaced by
      sum over j of (product of the step lengths taken after point j) * (violation at point j),
    point 0 being the current one, point 1 the rejected one, the others the corrected points before. *)
From Coq Require Import List Bool Arith.
From Verif Require Import RingKit KktModel KktSpec SocModel.
Import ListNotations.
Section S.
Variable K : cfield.
Notation vec := (nat -> K).
Fixpoint prodl (l : list K) : K := match l with [] => f1 | a :: l => a *! prodl l end.
(** steps al (one fewer than points), violations rs *)
Definition mix (al rs : list K) : K := sumn (length rs) (fun j => prodl (skipn j al) *! nth j rs f0).
(** the problem's values with the constraint violations replaced by cs and ds *)
Definition corrected (v : nlpvals K) (it : iter K) (cs ds : vec) : nlpvals K :=
  Vals K (v_grad v) (fun i => v_crhs v i -! cs i) (fun i => w_d it i -! ds i) (v_crhs v) (v_xl v) (v_xu v) (v_dl v) (v_du v) (v_mu v) (v_dampx v) (v_dampd v).
(** violations of the i-th equality and of the i-th inequality's slack equation at the points before the next correction, given the
    corrections h made so far *)
Definition eq_viol (v : nlpvals K) (ct : vec) (h : list (corr K)) (i : nat) : list K :=
  (v_crhs v i -! v_c v i) :: (v_crhs v i -! ct i) :: map (fun q => v_crhs v i -! q_c q i) h.
Definition in_viol (v : nlpvals K) (it tr : iter K) (dt : vec) (h : list (corr K)) (i : nat) : list K :=
  (w_d it i -! v_d v i) :: (w_d tr i -! dt i) :: map (fun q => w_d (q_it q) i -! q_d q i) h.
Definition steps (alpha : K) (h : list (corr K)) : list K := alpha :: map q_alpha h.
(** affine constraints c(x) = bc + Jc x, d(x) = bd + Jd x *)
Definition affine_at (P : prob K) (bc bd : vec) (x c d : vec) : Prop :=
  (forall i, i < neq P -> c i = bc i +! sumn (nx P) (fun j => p_Jc P i j *! x j)) /\
  (forall i, i < ni P -> d i = bd i +! sumn (nx P) (fun j => p_Jd P i j *! x j)).
(** the slacks computed for a trial iterate do not change x and d *)
Definition keeps_xd (f : iter K -> iter K) : Prop := forall t, w_x (f t) = w_x t /\ w_d (f t) = w_d t.
End S.
