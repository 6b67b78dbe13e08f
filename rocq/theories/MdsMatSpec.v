(** Specification vocabulary for mixed matrices: the matrix they stand for. *)
From Coq Require Import List Bool Arith.
From Verif Require Import RingKit SparseModel SparseSpec MdsMatModel.
From Verif Require DenseModel DenseSpec.
Import ListNotations.

Section Spec.
Variable K : cfield.
(** number of sparse and of dense columns *)
Definition nsp (M : mds K) : nat := t_n (m_sp M).
Definition nde (M : mds K) : nat := DenseModel.dn (m_de M).
(** entry of [S D] *)
Definition ent (M : mds K) (i j : nat) : K :=
  if j <? nsp M then mat (t_ent (m_sp M)) i j else DenseSpec.el (m_de M) i (j - nsp M).
(** m rows in both blocks, indices inside, buffers allocated *)
Definition okm (m : nat) (M : mds K) : Prop :=
  wf (m_sp M) /\ t_m (m_sp M) = m /\ DenseSpec.good (m_de M) /\ DenseModel.dm (m_de M) = m.
(** entry of the symmetric block-diagonal matrix diag(S, D), S given by one triangle *)
Definition sent (M : mds K) (i j : nat) : K :=
  if (i <? nsp M) && (j <? nsp M) then symmat (t_ent (m_sp M)) i j
  else if (nsp M <=? i) && (nsp M <=? j) then DenseSpec.el (m_de M) (i - nsp M) (j - nsp M) else f0.
(** both blocks square *)
Definition oks (M : mds K) : Prop :=
  wf (m_sp M) /\ t_m (m_sp M) = nsp M /\ DenseSpec.good (m_de M) /\ DenseModel.dm (m_de M) = nde M.
End Spec.
Arguments nsp {_}. Arguments nde {_}. Arguments ent {_}. Arguments okm {_}. Arguments sent {_}. Arguments oks {_}.
