(** Model of the reductions of /repo/src/LinAlg/hiopVectorPar.cpp over a distributed vector.  A
    distributed vector is the list of the local arrays, one per rank, rank order = global order
    (hiopVectorPar.cpp 60-100: contiguous blocks [glob_il,glob_iu)).  MPI_Allreduce is a left fold
    over the ranks. *)
From Coq Require Import List Bool QArith Qabs Qminmax ZArith Reals.
From Verif Require Import VecModel.
Import ListNotations.

(** hiopVectorPar.cpp 480-499, the local DDOT *)
Definition dot_local (e : list (Q * Q)) : Q := fold_left (fun s p => Qplus s (Qmult (fst p) (snd p))) e 0%Q.
(** MPI_Allreduce(MPI_SUM); hiopVectorPar.cpp 474, 494, 548 *)
Definition mpi_sum (l : list Q) : Q := fold_left Qplus l 0%Q.
(** hiopVectorPar.cpp 480-499 [dotProductWith]; the two vectors have the same distribution, a rank
    where the local sizes differ stops at the assert *)
Definition dot_all (ranks : list (list Q * list Q)) : option Q :=
  match all_some (map (fun r => zip (fst r) (snd r)) ranks) with
  | Some l => Some (mpi_sum (map dot_local l))
  | None => None
  end.

(** hiopVectorPar.cpp 501-521 [infnorm], local part *)
Definition inf_local (x : list Q) : Q :=
  match x with
  | [] => 0%Q
  | a :: r => fold_left (fun n v => let aux := Qabs v in if Qltb n aux then aux else n) r (Qabs a)
  end.
(** MPI_Allreduce(MPI_MAX) over at least one rank; hiopVectorPar.cpp 516 *)
Definition mpi_max (l : list Q) : option Q :=
  match l with [] => None | a :: r => Some (fold_left Qmax r a) end.
(** hiopVectorPar.cpp 501-521 [infnorm] *)
Definition inf_all (ranks : list (list Q)) : option Q := mpi_max (map inf_local ranks).

(** hiopVectorPar.cpp 540-553 [onenorm] *)
Definition one_local (x : list Q) : Q := fold_left (fun s v => Qplus s (Qabs v)) x 0%Q.
(** hiopVectorPar.cpp 540-553 [onenorm], the result on every rank *)
Definition one_all (ranks : list (list Q)) : Q := mpi_sum (map one_local ranks).

(** hiopVectorPar.cpp 880-887 [sum_local], summed over the ranks by its callers *)
Definition sum_local (x : list Q) : Q := fold_left Qplus x 0%Q.
(** hiopVectorPar.cpp 880-887 [sum_local], summed over the ranks by its callers *)
Definition sum_all (ranks : list (list Q)) : Q := mpi_sum (map sum_local ranks).

(** hiopVectorPar.cpp 806-819 [min]; starts from DBL_MAX *)
Definition min_local (x : list Q) : Q := fold_left (fun r v => if Qltb r v then r else v) x Q_maxv.
(** MPI_Allreduce(MPI_MIN), hiopVectorPar.cpp 814 *)
Definition mpi_minQ (l : list Q) : option Q :=
  match l with [] => None | a :: r => Some (fold_left Qmin r a) end.
(** hiopVectorPar.cpp 806-819 [min], the result on every rank *)
Definition min_all (ranks : list (list Q)) : option Q := mpi_minQ (map min_local ranks).

(** hiopVectorPar.cpp 946-962 [allPositive]: the while loop *)
Fixpoint all_pos_local (x : list Q) : bool :=
  match x with [] => true | v :: r => if Qle_bool v 0 then false else all_pos_local r end.
(** MPI_MIN of 0/1 flags = logical and; hiopVectorPar.cpp 958, 1088, 1110, 1161 *)
Definition mpi_land (l : list bool) : bool := fold_left andb l true.
(** hiopVectorPar.cpp 946-960 [allPositive], the result on every rank *)
Definition all_pos_all (ranks : list (list Q)) : bool := mpi_land (map all_pos_local ranks).

(** hiopVectorPar.cpp 1095-1111 [allPositive_w_patternSelect], 1072-1093 [matchesPattern],
    1150-1165 [is_zero]: the local loops stop at the first offending entry *)
Fixpoint all_pos_pat_local (e : list (Q * Q)) : bool :=
  match e with
  | [] => true
  | (x, w) :: r => if negb (Qeq_bool w 0) && Qle_bool x 0 then false else all_pos_pat_local r
  end.
(** hiopVectorPar.cpp 1095-1111 [allPositive_w_patternSelect], the result on every rank *)
Definition all_pos_pat_all (ranks : list (list (Q * Q))) : bool := mpi_land (map all_pos_pat_local ranks).
(** hiopVectorPar.cpp 1072-1093 [matchesPattern], the local loop *)
Fixpoint matches_local (e : list (Q * Q)) : bool :=
  match e with
  | [] => true
  | (x, w) :: r => if Qeq_bool w 0 && negb (Qeq_bool x 0) then false else matches_local r
  end.
(** hiopVectorPar.cpp 1072-1093 [matchesPattern], the result on every rank *)
Definition matches_all (ranks : list (list (Q * Q))) : bool := mpi_land (map matches_local ranks).
(** hiopVectorPar.cpp 1150-1165 [is_zero], the local loop *)
Fixpoint is_zero_local (x : list Q) : bool :=
  match x with [] => true | v :: r => if negb (Qeq_bool v 0) then false else is_zero_local r end.
(** hiopVectorPar.cpp 1150-1165 [is_zero], the result on every rank *)
Definition is_zero_all (ranks : list (list Q)) : bool := mpi_land (map is_zero_local ranks).

(** hiopVectorPar.cpp 1222-1240 [numOfElemsLessThan], 1242-1258 [numOfElemsAbsLessThan] *)
Definition num_less_local (v : Q) (x : list Q) : nat :=
  fold_left (fun n a => if Qltb a v then S n else n) x 0%nat.
(** hiopVectorPar.cpp 1222-1240 [numOfElemsLessThan], the result on every rank *)
Definition num_less_all (v : Q) (ranks : list (list Q)) : nat :=
  fold_left Nat.add (map (num_less_local v) ranks) 0%nat.
(** hiopVectorPar.cpp 1242-1258 [numOfElemsAbsLessThan], the local loop *)
Definition num_abs_less_local (v : Q) (x : list Q) : nat :=
  fold_left (fun n a => if Qltb (Qabs a) v then S n else n) x 0%nat.
(** hiopVectorPar.cpp 1242-1258 [numOfElemsAbsLessThan], the result on every rank *)
Definition num_abs_less_all (v : Q) (ranks : list (list Q)) : nat :=
  fold_left Nat.add (map (num_abs_less_local v) ranks) 0%nat.

Section Log.
(** the mathematical logarithm, any function of the entry *)
Variable lg : Q -> Q.
(** hiopVectorPar.cpp 860-879 [logBarrier_local]: compensated (Kahan) summation; entries are
    (value, pattern) *)
Definition kahan_step (st : Q * Q) (e : Q * Q) : Q * Q :=
  let '(sum, comp) := st in
  if Qeq_bool (snd e) 1 then
    let y := (lg (fst e) - comp)%Q in
    let t := (sum + y)%Q in
    (t, ((t - sum) - y)%Q)
  else (sum, comp).
(** hiopVectorPar.cpp 860-879 [logBarrier_local], the loop *)
Definition log_barrier_local (e : list (Q * Q)) : Q := fst (fold_left kahan_step e (0%Q, 0%Q)).
(** hiopIterate.cpp 528-537 [evalLogBarrier]: the x-part is summed over the ranks *)
Definition log_barrier_all (ranks : list (list (Q * Q))) : Q := mpi_sum (map log_barrier_local ranks).
End Log.

(** hiopVectorPar.cpp 907-925 [linearDampingTerm_local]; entries are (value, (left, right)) *)
Definition damping_local (mu kd : Q) (e : list (Q * (Q * Q))) : Q :=
  let term := fold_left (fun t v => if Qeq_bool (fst (snd v)) 1 && Qeq_bool (snd (snd v)) 0
                                    then (t + fst v)%Q else t) e 0%Q in
  (term * mu * kd)%Q.
(** hiopIterate.cpp 561-566 [linearDampingTerm]: summed over the ranks *)
Definition damping_all (mu kd : Q) (ranks : list (list (Q * (Q * Q)))) : Q :=
  mpi_sum (map (damping_local mu kd) ranks).

(** hiopVectorPar.cpp 466-478 [twonorm]: DNRM2 locally, squares summed over the ranks *)
Definition two_local (x : list R) : R := sqrt (fold_left (fun s v => Rplus s (Rmult v v)) x R0).
(** hiopVectorPar.cpp 466-478 [twonorm], the result on every rank *)
Definition two_all (ranks : list (list R)) : R :=
  sqrt (fold_left Rplus (map (fun r => Rmult (two_local r) (two_local r)) ranks) R0).
