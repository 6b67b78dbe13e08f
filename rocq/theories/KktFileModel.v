(** Model of the files written with option write_kkt: /repo/src/Utils/hiopCSR_IO.hpp and the places of the KKT classes
    that call it.  A file is a list of lines, a line a list of numbers.  Finite doubles are the rationals they stand
    for (NaN and infinities are not modelled).  [None] is a failed assert or a read outside an array.  fopen
    succeeds; only the writing rank is modelled. *)
From Coq Require Import List Bool Arith ZArith QArith Qabs Qcanon.
From Verif Require Import RingKit PackModel SparseModel CsrModel ConvModel.
Import ListNotations.
Local Close Scope Qc_scope. Local Close Scope Q_scope. Local Open Scope nat_scope.

(** what [fprintf] puts into the file: "%d" (hiopCSR_IO.hpp 123) or "%.20f" (hiopCSR_IO.hpp 63, 150, 221); [TD k] is
    the decimal number k / 10^20.  The sign printed for a negative number rounded to zero is not modelled *)
Inductive tok := TI (z : Z) | TD (k : Z).
(** 10^20: the number of digits in "%.20f" (hiopCSR_IO.hpp 63) *)
Definition e20 : Z := 100000000000000000000.
(** the digits printed by "%.20f": the nearest multiple of 10^-20, ties to even (hiopCSR_IO.hpp 63) *)
Definition fix20 (x : Qc) : Z :=
  let n := (Qnum (this x) * e20)%Z in let d := Zpos (Qden (this x)) in
  let q := (n / d)%Z in let r := (n mod d)%Z in
  if (2 * r <? d)%Z then q else if (d <? 2 * r)%Z then (q + 1)%Z else if Z.even q then q else (q + 1)%Z.

(** the double 1e-25 (hiopCSR_IO.hpp 111), a fraction with denominator 2^136 *)
Definition zero_tol : Q := 8711228593176025 # (2 ^ 136).
(** fabs(x) > zero_tol (hiopCSR_IO.hpp 111, 116) *)
Definition big (x : Qc) : bool := if Qlt_le_dec zero_tol (Qabs (this x)) then true else false.
(** the entries of row i visited by the loops 114-120, 128-134, 139-143 and 147-151 of hiopCSR_IO.hpp: columns i to
    m-1, the ones that pass the test; M is the row-major array of the matrix *)
Definition upper_row (m : nat) (M : list Qc) (i : nat) : option (list (nat * Qc)) :=
  option_map (filter (fun p => big (snd p))) (omap (fun j => option_map (pair j) (nth_error M (i * m + j))) (seq i (m - i))).
(** the offsets printed by 119-127, starting with 1 *)
Fixpoint offsets (o : nat) (rows : list (list (nat * Qc))) : list nat :=
  match rows with [] => [o] | r :: t => o :: offsets (o + length r) t end.
(** hiopCSR_IO.hpp 89-155 [writeMatToFile] for dense matrices: the new content of the file *)
Definition write_dense (m nx meq mineq : nat) (M : list Qc) : option (list (list tok)) :=
  match omap (upper_row m M) (seq 0 m) with
  | Some rows =>
      let nnz := length (concat rows) in
      if last (offsets 1 rows) 0 =? nnz + 1 then
        Some [[TI (Z.of_nat m)]; [TI (Z.of_nat nx)]; [TI (Z.of_nat meq)]; [TI (Z.of_nat mineq)]; [TI (Z.of_nat nnz)];
              map (fun o => TI (Z.of_nat o)) (offsets 1 rows);
              map (fun p => TI (Z.of_nat (fst p + 1))) (concat rows);
              map (fun p => TD (fix20 (snd p))) (concat rows)]
      else None
  | None => None
  end.

Section Writer.
(** std::sort inside convert_to_csr_arrays (hiopMatrixSparseTriplet.cpp 1293-1316) and the uninitialised slots *)
Variable srt : list nat -> list nat.
Variable junk_slot : slot Qc_field.
(** hiopCSR_IO.hpp 166-231 [writeMatToFile] for triplet matrices *)
Definition write_sparse (nx meq mineq : nat) (A : trip Qc_field) : option (list (list tok)) :=
  match convert Qc_field srt junk_slot A with
  | Some c =>
      let m := t_m A in
      match omap (fun i => nth_error (v_ptr c) i) (seq 0 (m + 1)), nth_error (v_ptr c) m with
      | Some ps, Some e =>
          if e =? v_nnz c then
            Some [[TI (Z.of_nat m)]; [TI (Z.of_nat nx)]; [TI (Z.of_nat meq)]; [TI (Z.of_nat mineq)]; [TI (Z.of_nat (v_nnz c))];
                  map (fun o => TI (Z.of_nat (o + 1))) ps;
                  map (fun s => TI (Z.of_nat (s_col s + 1))) (firstn (v_nnz c) (v_arr c));
                  map (fun s : slot Qc_field => TD (fix20 (s_val s))) (firstn (v_nnz c) (v_arr c))]
          else None
      | _, _ => None
      end
  | None => None
  end.

(** the system matrix handed to the writer: hiopKKTLinSysDense.hpp 165, hiopKKTLinSysMDS.cpp 301 (dense) or
    hiopKKTLinSysSparse.cpp 190, 520, 1060 (triplets) *)
Inductive sysmat := SD (m : nat) (M : list Qc) | SS (A : trip Qc_field).
(** Msys.m() (hiopCSR_IO.hpp 99, 176) *)
Definition sys_m (A : sysmat) : nat := match A with SD m _ => m | SS A => t_m A end.
(** the overloaded writeMatToFile (hiopCSR_IO.hpp 89, 166) *)
Definition write_mat (nx meq mineq : nat) (A : sysmat) : option (list (list tok)) :=
  match A with SD m M => write_dense m nx meq mineq M | SS A => write_sparse nx meq mineq A end.

(** which calls a KKT class makes: matrix, rhs and solution (hiopKKTLinSysDense.hpp 160-195 and 319-356,
    hiopKKTLinSysMDS.cpp 297-376, hiopKKTLinSysSparse.cpp 184-248, 514-580, 1054-1140), only rhs and solution
    (hiopKKTLinSysSparseNormalEqn.cpp 364-369, 453-471), nothing (hiopKKTLinSysSparseCondensed.cpp 336-341) *)
Inductive kkt_class := KAll | KVectors | KNothing.
(** members m and last_counter of hiopCSR_IO (hiopCSR_IO.hpp 238-239) and write_linsys_counter of the KKT object
    (hiopKKTLinSysDense.hpp 215) *)
Record writer := Writer { w_m : Z; w_last : Z; w_cnt : Z }.
(** a new KKT object (hiopCSR_IO.hpp 29-30, hiopKKTLinSysDense.hpp 77) *)
Definition fresh : writer := Writer (-1) (-1) (-1).
(** the directory: content of kkt_linsys_<k>.iajaaa (hiopCSR_IO.hpp 52-54) *)
Definition dir := nat -> option (list (list tok)).
(** fopen with "w+" and the writes (hiopCSR_IO.hpp 104, 181) *)
Definition set_file (d : dir) (k : nat) (f : list (list tok)) : dir := fun i => if i =? k then Some f else d i.
(** hiopCSR_IO.hpp 44-66 [writeRhsToFile], opened with "a+" *)
Definition write_rhs (d : dir) (w : writer) (counter : Z) (v : list Qc) : option dir :=
  if (counter =? w_last w)%Z && (w_m w =? Z.of_nat (length v))%Z then
    let l := map (fun x => TD (fix20 x)) v in
    Some (set_file d (Z.to_nat counter) (match d (Z.to_nat counter) with Some f => f ++ [l] | None => [l] end))
  else None.

(** build_kkt_matrix with option write_kkt on or off, and solveCompressed with right-hand side and what the linear
    solver leaves in it (hiopKKTLinSysDense.hpp 160-195) *)
Inductive op := Build (on : bool) (nx meq mineq : nat) (A : sysmat) | Solve (rhs sol : list Qc).
(** one call (hiopKKTLinSysDense.hpp 160-166 and 190-195) *)
Definition step (c : kkt_class) (o : op) (s : dir * writer) : option (dir * writer) :=
  let '(d, w) := s in
  match o with
  | Build on nx meq mineq A =>
      let cnt := if on then (w_cnt w + 1)%Z else w_cnt w in
      match c with
      | KAll => if (0 <=? cnt)%Z then
                  match write_mat nx meq mineq A with
                  | Some f => Some (set_file d (Z.to_nat cnt) f, Writer (Z.of_nat (sys_m A)) cnt cnt)
                  | None => None
                  end
                else Some (d, Writer (w_m w) (w_last w) cnt)
      | _ => Some (d, Writer (w_m w) (w_last w) cnt)
      end
  | Solve r x =>
      match c with
      | KNothing => Some s
      | _ => if (0 <=? w_cnt w)%Z then
               match write_rhs d w (w_cnt w) r with
               | Some d1 => option_map (fun d2 => (d2, w)) (write_rhs d1 w (w_cnt w) x)
               | None => None
               end
             else Some s
      end
  end.
(** a sequence of calls on one KKT object (hiopKKTLinSysDense.hpp 160-195) *)
Definition run (c : kkt_class) (ops : list op) (s : dir * writer) : option (dir * writer) := ofold (step c) ops s.
End Writer.
