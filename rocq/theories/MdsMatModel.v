(** Model of /repo/src/LinAlg/hiopMatrixMDS.hpp and hiopMatrixMDS.cpp: matrices made of a sparse and a dense
    block, on top of the models of the two blocks (SparseModel: triplets, DenseModel: row-major, one process).
    Doubles are elements of a field.  A failed assert and an access outside an array give [None].  A vector
    argument is the array behind it; the sparse block is given its first n_sp entries, the dense block the
    rest (pointer arithmetic [local_data()+mSp->n()]).  A dense matrix W that is updated has no spare rows.
    addMatrix and copyFrom are not modelled: they abort, the triplet class does not implement them
    (hiopMatrixSparseTriplet.cpp 251-254, 348-351). *)
From Coq Require Import List Bool Arith.
From Verif Require Import RingKit SparseModel.
From Verif Require DenseModel.
Import ListNotations.

Section Mds.
Variable K : cfield.
(** the test [beta != 1.] of hiopMatrixDenseRowMajor.cpp 475, 659 *)
Variable is_one : K -> bool.

(** members mSp and mDe (hiopMatrixMDS.hpp 256-257 and 491-492) *)
Record mds := Mds { m_sp : trip K; m_de : DenseModel.dmat K }.

(** a SparseModel dense matrix as a DenseModel one and back: the same object of class hiopMatrixDenseRowMajor,
    passed to both blocks (e.g. hiopMatrixMDS.hpp 94-100) *)
Definition todm (W : dense K) : DenseModel.dmat K := DenseModel.DMat (d_m W) (d_n W) (d_m W) (d_arr W).
(** the same object seen by the sparse block (hiopMatrixMDS.hpp 94-100) *)
Definition ofdm (W : DenseModel.dmat K) : dense K := Dense (DenseModel.dm W) (DenseModel.dn W) (DenseModel.dbuf W).

(** hiopMatrixMDS.hpp 68-74 [timesVec] *)
Definition times_vec (M : mds) (beta : K) (y : list K) (alpha : K) (x : list K) : option (list K) :=
  if length x =? t_n (m_sp M) + DenseModel.dn (m_de M) then
    match SparseModel.times_vec K (m_sp M) beta y alpha (firstn (t_n (m_sp M)) x) with
    | Some y1 => DenseModel.times_vec_serial K is_one f1 y1 alpha (m_de M) (skipn (t_n (m_sp M)) x)
    | None => None
    end
  else None.
(** hiopMatrixMDS.hpp 75-81 [transTimesVec] *)
Definition trans_times_vec (M : mds) (beta : K) (y : list K) (alpha : K) (x : list K) : option (list K) :=
  if length y =? t_n (m_sp M) + DenseModel.dn (m_de M) then
    match SparseModel.trans_times_vec K (m_sp M) beta (firstn (t_n (m_sp M)) y) alpha x,
          DenseModel.trans_times_vec K beta (skipn (t_n (m_sp M)) y) alpha (m_de M) x with
    | Some a, Some b => Some (a ++ b)
    | _, _ => None
    end
  else None.
(** hiopMatrixMDS.hpp 94-100 [timesMatTrans]; the argument alpha is not used.  The dense block is not
    distributed, so the reduction of its timesMatTrans changes nothing *)
Definition times_mat_trans (M : mds) (beta : K) (W : dense K) (alpha : K) (X : mds) : option (dense K) :=
  match DenseModel.times_mat_trans_local K is_one beta (todm W) f1 (m_de M) (m_de X) with
  | Some W1 => SparseModel.times_mat_trans K (m_sp M) f1 (ofdm W1) f1 (m_sp X)
  | None => None
  end.
(** hiopMatrixMDS.hpp 146-150 [transAddToSymDenseMatrixUpperTriangle] *)
Definition trans_add (M : mds) (rs cs : nat) (alpha : K) (W : dense K) : option (dense K) :=
  match trans_add_to_sym K (m_sp M) rs cs alpha W with
  | Some W1 => option_map ofdm (DenseModel.trans_add_upper K (m_de M) (rs + t_n (m_sp M)) cs alpha (todm W1))
  | None => None
  end.
(** hiopMatrixMDS.hpp 185-189 and 422-426 [scale_row], the same in both classes *)
Definition scale_row (M : mds) (v : list K) (inv : bool) : option mds :=
  match SparseModel.scale_row K (m_sp M) v inv, DenseModel.scale_row K (m_de M) v inv with
  | Some s, Some d => Some (Mds s d)
  | _, _ => None
  end.
(** hiopMatrixMDS.cpp 8-27 [set_Jac_FR]; copying the result to the user arrays (27) and the triplet arrays is
    not modelled *)
Definition jac_FR (M Jc Jd : mds) : option mds :=
  match SparseModel.jac_FR K (length (t_ent (m_sp M))) (t_m (m_sp M)) (t_n (m_sp M)) (m_sp Jc) (m_sp Jd) with
  | Some s =>
      if (DenseModel.dn (m_de Jc) =? DenseModel.dn (m_de M)) && (DenseModel.dn (m_de Jd) =? DenseModel.dn (m_de M)) then
        match DenseModel.copy_rows K (m_de M) (m_de Jc) (DenseModel.dm (m_de Jc)) 0 with
        | Some d1 => option_map (Mds s) (DenseModel.copy_rows K d1 (m_de Jd) (DenseModel.dm (m_de Jd)) (DenseModel.dm (m_de Jc)))
        | None => None
        end
      else None
  | None => None
  end.

(** hiopMatrixMDS.hpp 310-323, [timesVec] and [transTimesVec] of the symmetric block-diagonal class *)
Definition sym_times_vec (M : mds) (beta : K) (y : list K) (alpha : K) (x : list K) : option (list K) :=
  let ns := t_n (m_sp M) in
  if (length x =? ns + DenseModel.dn (m_de M)) && (length y =? ns + DenseModel.dn (m_de M)) then
    match SparseModel.sym_times_vec K (m_sp M) beta (firstn ns y) alpha (firstn ns x),
          DenseModel.times_vec_serial K is_one beta (skipn ns y) alpha (m_de M) (skipn ns x) with
    | Some a, Some b => Some (a ++ b)
    | _, _ => None
    end
  else None.
(** hiopMatrixMDS.hpp 397-403 [addUpperTriangleToSymDenseMatrixUpperTriangle] *)
Definition add_upper (M : mds) (st : nat) (alpha : K) (W : dense K) : option (dense K) :=
  if t_m (m_sp M) =? t_n (m_sp M) then
    match add_upper_to_sym K (m_sp M) st alpha W with
    | Some W1 => option_map ofdm (DenseModel.add_upper K (m_de M) (st + t_m (m_sp M)) alpha (todm W1))
    | None => None
    end
  else None.
End Mds.
Arguments Mds {_}. Arguments m_sp {_}. Arguments m_de {_}.
