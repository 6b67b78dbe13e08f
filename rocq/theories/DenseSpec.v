(** What dense matrices mean: entries, rows of a matrix spread over ranks, and "these entries, nothing else". *)
From Coq Require Import List Bool Arith.
From Verif Require Import RingKit DenseModel.
Import ListNotations.
Open Scope nat_scope.

Section DenseSpec.
Variable K : cfield.

(** entry (i,j) of the rows held by the object (spare rows included) *)
Definition el (M : dmat K) (i j : nat) : K := nth (i * dn M + j) (dbuf M) f0.
(** a matrix as the constructor allocates it: room for dmax rows, of which dm are in use *)
Definition good (M : dmat K) : Prop := length (dbuf M) = dmax M * dn M /\ dm M <= dmax M.
(** row i of the local columns *)
Definition lrow (M : dmat K) (i : nat) : list K := map (el M i) (seq 0 (dn M)).
(** row i of the matrix whose columns are spread over the ranks *)
Definition grow (Ms : list (dmat K)) (i : nat) : list K := concat (map (fun M => lrow M i) Ms).
(** inner product *)
Fixpoint dot (a b : list K) : K :=
  match a, b with x :: a, y :: b => x *! y +! dot a b | _, _ => f0 end.
(** M' has the shape of M, is well allocated, and every entry (spare rows included) is the given one *)
Definition entries (M M' : dmat K) (f : nat -> nat -> K) : Prop :=
  dm M' = dm M /\ dn M' = dn M /\ dmax M' = dmax M /\ good M' /\
  forall i j, i < dmax M -> j < dn M -> el M' i j = f i j.
(** what shiftRows leaves *)
Definition shifted (M : dmat K) (up : bool) (s i j : nat) : K :=
  if s <? dm M then
    if up then (if i <? dm M - s then el M (i + s) j else el M i j)
    else (if (s <=? i) && (i <? dm M) then el M (i - s) j else el M i j)
  else el M i j.
(** all ranks agree on the rows *)
Definition vranks (m : nat) (rs : list (vrank K)) : Prop :=
  forall r, In r rs -> good (v_M r) /\ dm (v_M r) = m /\ length (v_x r) = dn (v_M r) /\ length (v_y r) = m.
(** the ranks of a product M X^T: the same rows on every rank, matching local columns, W replicated *)
Definition mranks (m k : nat) (rs : list (mrank K)) : Prop :=
  forall r, In r rs -> good (r_M r) /\ good (r_X r) /\ good (r_W r) /\ dm (r_M r) = m /\ dm (r_X r) = k /\
    dn (r_M r) = dn (r_X r) /\ dm (r_W r) = m /\ dn (r_W r) = k.
(** the Jacobian of the restoration problem: row i of [J, -I on p, I on n] with the variables p_c, n_c, p_d, n_d after
    the nb local variables; Jc has mc rows, Jd md *)
Definition fr_entry (Jc Jd : dmat K) (i j : nat) : K :=
  let nb := dn Jc in let mc := dm Jc in let md := dm Jd in
  if i <? mc then
    if j <? nb then el Jc i j else if j =? nb + i then fopp f1 else if j =? nb + mc + i then f1 else f0
  else
    if j <? nb then el Jd (i - mc) j else if j =? nb + 2 * mc + (i - mc) then fopp f1
    else if j =? nb + 2 * mc + md + (i - mc) then f1 else f0.
End DenseSpec.
Arguments el {_}. Arguments good {_}. Arguments lrow {_}. Arguments grow {_}. Arguments dot {_}. Arguments entries {_}.
Arguments shifted {_}. Arguments vranks {_}. Arguments mranks {_}. Arguments fr_entry {_}.
