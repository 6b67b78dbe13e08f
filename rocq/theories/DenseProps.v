(** C74-C77: dense row-major matrices. *)
From Coq Require Import List Bool Arith Lia Ring Field QArith Qcanon Reals Lra.
From Verif Require Import RingKit DenseModel DenseSpec DenseProofs DenseProofs2 DenseProofs3 DenseProofs4.
Import ListNotations.
Close Scope R_scope. Close Scope Qc_scope. Close Scope Q_scope. Open Scope nat_scope.

(** test data *)
Definition q (z : Z) : Qc_field := Q2Qc (inject_Z z).
Definition q1 (x : Qc_field) : bool := Qc_eq_bool x 1.
Definition mk (m n mx : nat) (l : list Z) : dmat Qc_field := DMat m n mx (map q l).
Definition ex_a := mk 2 2 3 [1; 2; 3; 4; 90; 91]%Z.
Definition ex_b := mk 2 1 3 [5; 6; 92]%Z.
Definition ex_0 := mk 2 0 3 []%Z.

(** * C74 *)
(** With the columns spread over the ranks in any way (ranks without columns included), every rank ends with the same
    y = beta*y + alpha*A*x, where beta multiplies the y of rank 0; without rows nothing changes. *)
Theorem C74_times_vec_partial : forall (K : cfield) (is_one : K -> bool), (forall b, is_one b = true -> b = f1) ->
  forall (beta alpha : K) (r0 : vrank K) rest m, vranks m (r0 :: rest) ->
  exists ys, times_vec K is_one beta alpha (r0 :: rest) = Some ys /\ length ys = S (length rest) /\
    forall y', In y' ys -> length y' = m /\
      forall i, i < m -> nth i y' f0 = beta *! nth i (v_y r0) f0 +!
        alpha *! dot (grow (map v_M (r0 :: rest)) i) (concat (map v_x (r0 :: rest))).
Proof.
  intros K is_one H1 beta alpha r0 rest m HV. destruct m as [|m].
  - rewrite times_vec_norows by exact HV. eexists. split; [reflexivity|]. split; [cbn; rewrite map_length; reflexivity|].
    intros y' Hy. apply in_map_iff in Hy. destruct Hy as (r & <- & Hr). destruct (HV r Hr) as (_ & _ & _ & HL).
    split; [exact HL|]. intros; lia.
  - apply times_vec_ok; [exact H1|exact HV|lia].
Qed.
Print Assumptions C74_times_vec_partial.
Definition ex_ranks : list (vrank Qc_field) :=
  [VRank ex_a (map q [1; 1]%Z) (map q [7; 8]%Z); VRank ex_0 [] (map q [50; 51]%Z); VRank ex_b (map q [2]%Z) (map q [60; 61]%Z)].
Example C74_times_vec_case :
  vranks 2 ex_ranks /\ times_vec Qc_field q1 (q 10) (q 1) ex_ranks = Some (repeat (map q [83; 99]%Z) 3).
Proof.
  split; [|vm_compute; reflexivity]. intros r [<-|[<-|[<-|[]]]]; repeat split; cbn; lia.
Qed.

(** y = beta*y + alpha*A^T*x, rank by rank and without communication. *)
Theorem C74_trans_times_vec_partial : forall (K : cfield) (beta : K) y alpha (M : dmat K) x,
  good M -> length x = dm M -> length y = dn M ->
  exists y', trans_times_vec K beta y alpha M x = Some y' /\ length y' = dn M /\
    forall j, j < dn M -> nth j y' f0 = beta *! nth j y f0 +! alpha *! sumn (dm M) (fun i => el M i j *! nth i x f0).
Proof. intros. apply trans_times_vec_ok; auto. Qed.
Print Assumptions C74_trans_times_vec_partial.
Example C74_trans_times_vec_case :
  trans_times_vec Qc_field (q 2) (map q [1; 1]%Z) (q 3) ex_a (map q [1; 10]%Z) = Some (map q [95; 128]%Z) /\
  trans_times_vec Qc_field (q 2) (map q [1; 4]%Z) (q 3) (mk 0 2 1 [70; 71]%Z) [] = Some (map q [2; 8]%Z).
Proof. split; vm_compute; reflexivity. Qed.

(** W = beta*W + alpha*A*X, with and without MPI, if A has a column and X has one. *)
Theorem C74_times_mat_partial : forall (K : cfield) (mpi : bool) (beta : K) (W : dmat K) alpha M X, good W -> good M -> good X ->
  dm W = dm M -> dm X = dn M -> dn W = dn X -> 0 < dn M -> 0 < dn X ->
  exists W', times_mat K mpi beta W alpha M X = Some W' /\
    entries W W' (fun i j => if i <? dm W then beta *! el W i j +! alpha *! sumn (dn M) (fun l => el M i l *! el X l j) else el W i j).
Proof.
  intros K mpi beta W alpha M X GW GM GX H1 H2 H3 H4 H5. unfold times_mat.
  destruct (times_mat_local_ok K beta W alpha M X GW GM GX H1 H2 H3 H4 H5) as (W' & E & HE).
  destruct mpi; [|exists W'; auto].
  rewrite (proj2 (Nat.eqb_eq _ _) H1), (proj2 (Nat.eqb_eq _ _) H2), (proj2 (Nat.eqb_eq _ _) H3). cbn [andb].
  rewrite (proj2 (Nat.eqb_neq (dm X) 0)), (proj2 (Nat.eqb_neq (dn W) 0)) by lia. rewrite !orb_false_r.
  destruct (dm W =? 0) eqn:E0; [|exists W'; auto].
  apply Nat.eqb_eq in E0. exists W. split; [reflexivity|]. split; [reflexivity|]. split; [reflexivity|]. split; [reflexivity|].
  split; [exact GW|]. intros i j Hi Hj. rewrite E0. reflexivity.
Qed.
Print Assumptions C74_times_mat_partial.
Example C74_times_mat_case :
  option_map dbuf (times_mat Qc_field true (q 2) (mk 2 1 3 [1; 2; 93]%Z) (q 1) ex_a (mk 2 1 2 [5; 6]%Z)) = Some (map q [19; 43; 93]%Z).
Proof. vm_compute. reflexivity. Qed.
(** With no column in A (inner dimension zero) beta is not applied: an MPI build returns W as it was, another build
    passes a leading dimension of zero that BLAS rejects. *)
Theorem C74_inner_zero_refuted : forall (K : cfield) (beta : K) (W : dmat K) alpha M X, dm W = dm M -> dm X = dn M -> dn W = dn X -> dn M = 0 ->
  times_mat K true beta W alpha M X = Some W /\ times_mat K false beta W alpha M X = None.
Proof.
  intros K beta W alpha M X H1 H2 H3 H4. unfold times_mat.
  rewrite (proj2 (Nat.eqb_eq _ _) H1), (proj2 (Nat.eqb_eq _ _) H2), (proj2 (Nat.eqb_eq _ _) H3). cbn [andb].
  rewrite (proj2 (Nat.eqb_eq (dm X) 0)) by lia. rewrite orb_true_r. split; [reflexivity|].
  unfold times_mat_local, dgemm. rewrite H2, H4. cbn [Nat.max Nat.leb andb]. rewrite andb_false_r. reflexivity.
Qed.
Print Assumptions C74_inner_zero_refuted.
Example C74_inner_zero_case :
  let W := mk 2 1 2 [7; 8]%Z in good W /\ good ex_0 /\ good (mk 0 1 1 [9]%Z) /\
  option_map dbuf (times_mat Qc_field true (q 0) W (q 1) ex_0 (mk 0 1 1 [9]%Z)) = Some (map q [7; 8]%Z).
Proof. repeat split; cbn; try lia. Qed.

(** W = beta*W + alpha*A^T*X for the local columns of X, if there are any. *)
Theorem C74_trans_times_mat_partial : forall (K : cfield) (beta : K) (W : dmat K) alpha M X, good W -> good M -> good X ->
  dm W = dn M -> dm X = dm M -> dn W = dn X -> 0 < dn X \/ dn M = 0 ->
  exists W', trans_times_mat K beta W alpha M X = Some W' /\
    entries W W' (fun i j => if i <? dm W then beta *! el W i j +! alpha *! sumn (dm M) (fun l => el M l i *! el X l j) else el W i j).
Proof. intros. apply trans_times_mat_ok; auto. Qed.
Print Assumptions C74_trans_times_mat_partial.
Example C74_trans_times_mat_case :
  option_map dbuf (trans_times_mat Qc_field (q 2) (mk 2 1 3 [1; 2; 93]%Z) (q 1) ex_a ex_b) = Some (map q [25; 38; 93]%Z).
Proof. vm_compute. reflexivity. Qed.
(** A rank that holds no column of X (and of W) makes the call with a leading dimension of zero, which BLAS rejects. *)
Theorem C74_no_local_column_refuted : forall (K : cfield) (beta : K) (W : dmat K) alpha M X, dn X = 0 -> dm W <> 0 ->
  trans_times_mat K beta W alpha M X = None.
Proof.
  intros K beta W alpha M X H1 H2. unfold trans_times_mat. destruct ((dm W =? dn M) && (dm X =? dm M)); [|reflexivity].
  rewrite (proj2 (Nat.eqb_neq _ _) H2). unfold dgemm. rewrite H1. reflexivity.
Qed.
Print Assumptions C74_no_local_column_refuted.
Example C74_no_local_column_case : let W := mk 2 0 2 []%Z in good W /\ good ex_a /\ good ex_0 /\ dm W = dn ex_a /\ dm ex_0 = dm ex_a /\
  trans_times_mat Qc_field (q 1) W (q 1) ex_a ex_0 = None.
Proof. repeat split; cbn; lia. Qed.

(** W = beta*W + alpha*A*X^T with the columns of A and X spread over the ranks in the same way: every rank ends with
    the same product of the whole matrices; beta multiplies the W of rank 0; spare rows of W keep their values. *)
Theorem C74_times_mat_trans_partial : forall (K : cfield) (is_one : K -> bool), (forall b, is_one b = true -> b = f1) ->
  forall (beta alpha : K) (r0 : mrank K) rest m k, mranks m k (r0 :: rest) ->
  exists Ws, times_mat_trans K is_one beta alpha (r0 :: rest) = Some Ws /\
    Forall2 (fun r W' => entries (r_W r) W' (fun i j => if i <? m then
        beta *! el (r_W r0) i j +! alpha *! dot (grow (map r_M (r0 :: rest)) i) (grow (map r_X (r0 :: rest)) j)
      else el (r_W r) i j)) (r0 :: rest) Ws.
Proof. intros K is_one H1 beta alpha r0 rest m k HV. exact (times_mat_trans_ok K is_one H1 beta alpha r0 rest m k HV). Qed.
Print Assumptions C74_times_mat_trans_partial.
Definition ex_mranks : list (mrank Qc_field) :=
  [MRank ex_b (mk 1 1 1 [2]%Z) (mk 2 1 3 [1; 2; 93]%Z); MRank ex_0 (mk 1 0 1 []%Z) (mk 2 1 2 [50; 51]%Z);
   MRank ex_a (mk 1 2 2 [3; 4; 94; 95]%Z) (mk 2 1 2 [60; 61]%Z)].
Example C74_times_mat_trans_case : mranks 2 1 ex_mranks /\
  option_map (map dbuf) (times_mat_trans Qc_field q1 (q 10) (q 1) ex_mranks) =
    Some [map q [31; 57; 93]%Z; map q [31; 57]%Z; map q [31; 57]%Z].
Proof.
  split; [|vm_compute; reflexivity]. intros r [<-|[<-|[<-|[]]]]; repeat split; cbn; lia.
Qed.

(** * C75 *)
(** Appending a row writes that row and counts it; there must be room. *)
Theorem C75_append_partial : forall (K : cfield) (M : dmat K) row, good M -> dm M < dmax M -> length row = dn M ->
  exists M', append_row K M row = Some M' /\ dm M' = S (dm M) /\ dn M' = dn M /\ dmax M' = dmax M /\ good M' /\
    forall i j, i < dmax M -> j < dn M -> el M' i j = if i =? dm M then nth j row f0 else el M i j.
Proof. intros. apply append_row_ok; auto; lia. Qed.
Print Assumptions C75_append_partial.
Example C75_append_case : option_map (fun M => (dm M, dbuf M)) (append_row Qc_field ex_a (map q [8; 9]%Z)) = Some (3, map q [1; 2; 3; 4; 8; 9]%Z).
Proof. vm_compute. reflexivity. Qed.

(** Copying a matrix, copying rows (consecutive or by index), copying into a block and from a block. *)
Theorem C75_copy_partial : forall (K : cfield) (M S : dmat K), good M -> good S ->
  (dm M = dm S -> dn M = dn S -> 0 < dmax S -> exists M', copy_from K M S = Some M' /\
     entries M M' (fun i j => if i <? dm M then el S i j else el M i j)) /\
  (forall num dest, dn M = dn S -> num <= dm S -> dest + num <= dm M -> exists M', copy_rows K M S num dest = Some M' /\
     entries M M' (fun i j => if (dest <=? i) && (i <? dest + num) then el S (i - dest) j else el M i j)) /\
  (forall idx, dn M = dn S -> length idx = dm M -> dm M <= dm S -> (forall k, In k idx -> k < dm S) ->
     exists M', copy_rows_idx K M S idx (dm M) = Some M' /\
     entries M M' (fun i j => if i <? dm M then el S (nth i idx 0) j else el M i j)) /\
  (forall is js, is + dm S <= dm M -> js + dn S <= dn M -> exists M', copy_block_from K M is js S = Some M' /\
     entries M M' (fun i j => if (is <=? i) && (i <? is + dm S) && ((js <=? j) && (j <? js + dn S))
                              then el S (i - is) (j - js) else el M i j)) /\
  (forall ib jb, dm M + ib <= dm S -> dn M + jb <= dn S -> 0 < dm M -> exists M', copy_from_block K M S ib jb = Some M' /\
     entries M M' (fun i j => if i <? dm M then el S (i + ib) (j + jb) else el M i j)).
Proof.
  intros K M S GM GS. pose proof GM as [GM1 GM2]. pose proof GS as [GS1 GS2]. split; [|split; [|split; [|split]]].
  - intros. apply copy_from_ok; auto.
  - intros. apply copy_rows_ok; auto; lia.
  - intros. apply copy_rows_idx_ok; auto.
  - intros. apply copy_block_from_ok; auto.
  - intros. apply copy_from_block_ok; auto.
Qed.
Print Assumptions C75_copy_partial.
Example C75_copy_case :
  let M := mk 3 3 4 [1;2;3; 4;5;6; 7;8;9; 97;98;99]%Z in
  option_map dbuf (copy_from Qc_field ex_a (mk 2 2 2 [11;12;13;14]%Z)) = Some (map q [11;12;13;14;90;91]%Z) /\
  option_map dbuf (copy_rows Qc_field M (mk 2 3 2 [11;12;13;14;15;16]%Z) 2 1) = Some (map q [1;2;3; 11;12;13; 14;15;16; 97;98;99]%Z) /\
  option_map dbuf (copy_rows_idx Qc_field (mk 2 3 2 [0;0;0;0;0;0]%Z) M [2; 0] 2) = Some (map q [7;8;9;1;2;3]%Z) /\
  option_map dbuf (copy_block_from Qc_field M 1 1 ex_a) = Some (map q [1;2;3; 4;1;2; 7;3;4; 97;98;99]%Z) /\
  option_map dbuf (copy_from_block Qc_field ex_a M 1 1) = Some (map q [5;6;8;9;90;91]%Z).
Proof. repeat split; vm_compute; reflexivity. Qed.

(** Shifting rows up or down moves the rows, in an order that never reads a row already overwritten; rows that are
    not the target of a move keep their values, and a shift by the number of rows does nothing. *)
Theorem C75_shift_partial : forall (K : cfield) (M : dmat K) (up : bool) s, good M -> s <= dm M ->
  exists M', shift_rows K M up s = Some M' /\ entries M M' (shifted M up s).
Proof. intros. apply shift_rows_ok; auto. Qed.
Print Assumptions C75_shift_partial.
Example C75_shift_case :
  let M := mk 4 1 5 [1;2;3;4;99]%Z in
  option_map dbuf (shift_rows Qc_field M true 1) = Some (map q [2;3;4;4;99]%Z) /\
  option_map dbuf (shift_rows Qc_field M false 2) = Some (map q [1;2;1;2;99]%Z).
Proof. split; vm_compute; reflexivity. Qed.

(** Replacing and reading a row, setting all values, scaling rows, completing the lower triangle. *)
Theorem C75_rows_partial : forall (K : cfield) (M : dmat K), good M ->
  (forall row v, row < dm M -> exists M', replace_row K M row v = Some M' /\
     entries M M' (fun i j => if (i =? row) && (j <? length v) then nth j v f0 else el M i j)) /\
  (forall row v, row < dm M -> length v = dn M -> get_row K M row v = Some (lrow M row)) /\
  (forall c, 0 < dm M -> exists M', set_const K M c = Some M' /\ entries M M' (fun i j => if i <? dm M then c else el M i j)) /\
  (forall v (inv : bool), length v = dm M -> exists M', scale_row K M v inv = Some M' /\
     entries M M' (fun i j => if i <? dm M then (if inv then f1 /! nth i v f0 else nth i v f0) *! el M i j else el M i j)) /\
  (dm M = dn M -> exists M', symmetrize K M = Some M' /\
     entries M M' (fun i j => if (j <? i) && (i <? dn M) then el M j i else el M i j)).
Proof.
  intros K M G. split; [|split; [|split; [|split]]].
  - intros. apply replace_row_ok; auto.
  - intros. apply get_row_ok; auto.
  - intros. apply set_const_ok; auto.
  - intros. apply scale_row_ok; auto.
  - intros. apply symmetrize_ok; auto.
Qed.
Print Assumptions C75_rows_partial.
Example C75_rows_case :
  option_map dbuf (replace_row Qc_field ex_a 1 (map q [7]%Z)) = Some (map q [1;2;7;4;90;91]%Z) /\
  get_row Qc_field ex_a 1 (map q [0;0]%Z) = Some (map q [3;4]%Z) /\
  option_map dbuf (set_const Qc_field ex_a (q 5)) = Some (map q [5;5;5;5;90;91]%Z) /\
  option_map dbuf (scale_row Qc_field ex_a (map q [10;20]%Z) false) = Some (map q [10;20;60;80;90;91]%Z) /\
  option_map dbuf (symmetrize Qc_field ex_a) = Some (map q [1;2;2;4;90;91]%Z).
Proof. repeat split; vm_compute; reflexivity. Qed.

(** Additions: the whole diagonal, a part of it, a matrix. *)
Theorem C75_add_partial : forall (K : cfield) (M : dmat K), good M ->
  (forall alpha d, dm M = dn M -> length d = dn M -> exists M', add_diag K M alpha d = Some M' /\
     entries M M' (fun i j => if i =? j then el M i j +! alpha *! nth i d f0 else el M i j)) /\
  (forall v, dm M = dn M -> exists M', add_diag_const K M v = Some M' /\
     entries M M' (fun i j => if i =? j then el M i j +! v else el M i j)) /\
  (forall alpha start d, dm M = dn M -> start + length d <= dn M -> exists M', add_subdiag K M alpha start d = Some M' /\
     entries M M' (fun i j => if (i =? j) && ((start <=? i) && (i <? start + length d)) then el M i j +! alpha *! nth (i - start) d f0 else el M i j)) /\
  (forall start alpha d src num, dn M = dm M -> start < dm M ->
     let cnt := match num with Some k => k | None => length d - src end in src + cnt <= length d ->
     exists M', add_subdiag_from K M start alpha d src num = Some M' /\
     entries M M' (fun i j => if (i =? j) && ((start <=? i) && (i <? start + cnt)) then el M i j +! alpha *! nth (src + (i - start)) d f0 else el M i j)) /\
  (forall start num c, dn M = dm M -> start + num <= dn M -> exists M', add_subdiag_const K M start num c = Some M' /\
     entries M M' (fun i j => if (i =? j) && ((start <=? i) && (i <? start + num)) then el M i j +! c else el M i j)) /\
  (forall alpha X, good X -> dm M = dm X -> dn M = dn X -> exists M', add_matrix K M alpha X = Some M' /\
     entries M M' (fun i j => if i <? dm M then el M i j +! alpha *! el X i j else el M i j)).
Proof.
  intros K M G. pose proof G as [G1 G2]. split; [|split; [|split; [|split; [|split]]]].
  - intros. apply add_diag_ok; auto; lia.
  - intros. apply add_diag_const_ok; auto; lia.
  - intros. apply add_subdiag_ok; auto; lia.
  - intros. apply add_subdiag_from_ok; auto.
  - intros. apply add_subdiag_const_ok; auto.
  - intros. apply add_matrix_ok; auto.
Qed.
Print Assumptions C75_add_partial.
Definition ex_sq := mk 3 3 3 [0;0;0; 0;0;0; 0;0;0]%Z.
Example C75_add_case :
  option_map dbuf (add_diag Qc_field ex_a (q 2) (map q [5;6]%Z)) = Some (map q [11;2;3;16;90;91]%Z) /\
  option_map dbuf (add_subdiag_from Qc_field ex_sq 1 (q 2) (map q [5;6;7]%Z) 1 None) = Some (map q [0;0;0; 0;12;0; 0;0;14]%Z) /\
  option_map dbuf (add_subdiag_from Qc_field ex_sq 2 (q 2) (map q [5;6;7]%Z) 1 (Some 2)) = Some (map q [0;0;0; 0;0;0; 0;0;12]%Z) /\
  option_map dbuf (add_subdiag_const Qc_field ex_sq 1 1 (q 4)) = Some (map q [0;0;0; 0;4;0; 0;0;0]%Z) /\
  option_map dbuf (add_matrix Qc_field ex_a (q 10) (mk 2 2 2 [1;1;2;2]%Z)) = Some (map q [11;12;23;24;90;91]%Z).
Proof. repeat split; vm_compute; reflexivity. Qed.
(** An explicit number of elements is checked against the length of the vector but not against what is left of it
    from the start position on: the entries behind the vector are read. *)
Theorem C75_subdiag_overrun_refuted : forall (K : cfield) (M : dmat K) alpha (d : list K) src num,
  good M -> dn M = dm M -> num <= length d -> num <= dm M -> length d < src + num -> 0 < num ->
  add_subdiag_from K M 0 alpha d src (Some num) = None.
Proof.
  intros K M alpha d src num [G1 G2] Hsq H1 H2 H3 H4. unfold add_subdiag_from.
  rewrite (proj2 (Nat.leb_le _ _) H1), (proj2 (Nat.eqb_eq _ _) Hsq), (proj2 (Nat.ltb_lt 0 (dm M))) by lia. cbn [andb].
  rewrite Nat.sub_0_r, Nat.min_l by lia.
  assert (E : forall b, ofold (fun i b => bind (nth_error d (src + i)) (fun v => bump K M (i + 0) (i + 0) (alpha *! v) b)) (seq 0 num) b = None).
  { intro b. replace num with ((num - 1) + 1) by lia. rewrite seq_app, ofold_app. cbn [seq ofold].
    destruct (ofold _ (seq 0 (num - 1)) b) as [b'|]; [|reflexivity]. cbn [Nat.add].
    assert (N : nth_error d (src + (num - 1)) = None) by (apply nth_error_None; lia). rewrite N. reflexivity. }
  rewrite E. reflexivity.
Qed.
Print Assumptions C75_subdiag_overrun_refuted.
Example C75_subdiag_overrun_case : good ex_sq /\ add_subdiag_from Qc_field ex_sq 0 (q 1) (map q [5;6;7]%Z) 1 (Some 3) = None.
Proof. repeat split; cbn; try lia. Qed.
(** Two calls on empty data that do not pass: adding a vector of no elements to the diagonal of an empty matrix fails
    its assert; copying no rows from behind the last row reads a row pointer that does not exist. *)
Theorem C75_empty_refuted : forall (K : cfield) alpha n (S : dmat K), good S -> dm S = dmax S -> 0 < dm S ->
  add_subdiag_from K (DMat 0 0 0 []) 0 alpha [] 0 None = None /\
  (dn S = n -> copy_from_block K (DMat 0 n 1 (repeat f0 n)) S (dm S) 0 = None).
Proof.
  intros K alpha n S [G1 G2] H1 H2. split; [reflexivity|]. intro Hn. unfold copy_from_block. cbn [dm dn].
  rewrite Hn, Nat.add_0_r, Nat.eqb_refl. cbn [Nat.add]. rewrite !Nat.leb_refl. cbn [andb]. unfold rowp.
  rewrite (proj2 (Nat.ltb_ge _ _)) by lia. reflexivity.
Qed.
Print Assumptions C75_empty_refuted.
Example C75_empty_case : good (mk 2 2 2 [1;2;3;4]%Z) /\ dm (mk 2 2 2 [1;2;3;4]%Z) = dmax (mk 2 2 2 [1;2;3;4]%Z) /\
  copy_from_block Qc_field (DMat 0 2 1 (repeat f0 2)) (mk 2 2 2 [1;2;3;4]%Z) 2 0 = None.
Proof. repeat split; cbn; lia. Qed.
(** Copying from a matrix that has no buffer (no rows allocated) makes the target drop its own: a target with room for
    rows cannot take one afterwards. *)
Theorem C75_copy_unallocated_refuted : forall (K : cfield) (M S : dmat K) row, good M -> dm M = 0 -> 0 < dmax M -> 0 < dn M ->
  dmax S = 0 -> dm S = 0 -> dn S = dn M ->
  exists M', copy_from K M S = Some M' /\ append_row K M' row = None /\
    (length row = dn M -> exists M'', append_row K M row = Some M'').
Proof.
  intros K M S row G Hm Hx Hn H1 H2 H3. unfold copy_from. rewrite H3, H2, Hm, H1, !Nat.eqb_refl. cbn [andb].
  eexists. split; [reflexivity|]. split.
  - unfold append_row, rowp. cbn [setbuf dm dn dmax dbuf]. rewrite Hm. rewrite (proj2 (Nat.ltb_lt 0 (Nat.max 1 (dmax M)))) by lia.
    cbn [bind]. unfold cpy. cbn [Nat.mul Nat.add length]. rewrite (proj2 (Nat.leb_gt (dn M) 0)) by lia. reflexivity.
  - intro HL. destruct (append_row_ok K M row G) as (M'' & E & _); [lia|lia|]. exists M''. exact E.
Qed.
Print Assumptions C75_copy_unallocated_refuted.
Example C75_copy_unallocated_case : good (mk 0 2 2 [0;0;0;0]%Z) /\ good (mk 0 2 0 []%Z) /\
  option_map dbuf (copy_from Qc_field (mk 0 2 2 [0;0;0;0]%Z) (mk 0 2 0 []%Z)) = Some [].
Proof. repeat split; cbn; lia. Qed.

(** Adding a transposed block, or an upper triangle, into the upper triangle of a symmetric matrix touches exactly the
    entries of that block. *)
Theorem C75_upper_partial : forall (K : cfield) (M W : dmat K) alpha, good M -> good W -> dn W = dm W ->
  (forall rs cs, dn M + rs <= dm W -> dm M + cs <= dn W -> (0 < dm M -> 0 < dn M -> dn M + rs <= S cs) ->
     exists W', trans_add_upper K M rs cs alpha W = Some W' /\
     entries W W' (fun i j => if ((rs <=? i) && (i <? rs + dn M)) && ((cs <=? j) && (j <? cs + dm M))
                              then el W i j +! alpha *! el M (j - cs) (i - rs) else el W i j)) /\
  (forall ds, dn M = dm M -> ds + dn M <= dn W -> exists W', add_upper K M ds alpha W = Some W' /\
     entries W W' (fun i j => if ((ds <=? i) && (i <=? j)) && (j <? ds + dn M)
                              then el W i j +! alpha *! el M (i - ds) (j - ds) else el W i j)).
Proof.
  intros. split.
  - intros. apply trans_add_upper_ok; auto.
  - intros. apply add_upper_ok; auto.
Qed.
Print Assumptions C75_upper_partial.
Example C75_upper_case :
  option_map dbuf (trans_add_upper Qc_field (mk 1 2 1 [5;6]%Z) 0 2 (q 2) ex_sq) = Some (map q [0;0;10; 0;0;12; 0;0;0]%Z) /\
  option_map dbuf (add_upper Qc_field ex_a 1 (q 2) ex_sq) = Some (map q [0;0;0; 0;2;4; 0;0;8]%Z) /\
  trans_add_upper Qc_field (mk 1 2 1 [5;6]%Z) 1 1 (q 2) ex_sq = None.
Proof. repeat split; vm_compute; reflexivity. Qed.

(** * C76 *)
Lemma fr_last_false k s : k < s -> fr_last k (S s) = false.
Proof. intro H. unfold fr_last. rewrite (proj2 (Nat.ltb_lt _ _)) by lia. reflexivity. Qed.
Lemma fr_last_true s : fr_last s (S s) = true.
Proof. unfold fr_last. rewrite (proj2 (Nat.ltb_ge _ _)) by lia. reflexivity. Qed.
Lemma lrow_ext (K : cfield) (A B : dmat K) i j : dn A = dn B -> (forall c, c < dn A -> el A i c = el B j c) -> lrow A i = lrow B j.
Proof. intros Hn H. unfold lrow. rewrite <- Hn. apply map_ext_in. intros c Hc. apply in_seq in Hc. apply H. lia. Qed.
Lemma grow_app (K : cfield) (A B : list (dmat K)) i : grow (A ++ B) i = grow A i ++ grow B i.
Proof. unfold grow. rewrite map_app, concat_app. reflexivity. Qed.
Lemma grow_one (K : cfield) (A : dmat K) i : grow [A] i = lrow A i.
Proof. unfold grow. cbn. apply app_nil_r. Qed.

(** The restoration Jacobian over any number of ranks, the last of which holds the added variables: row i applied to
    (x, p_c, n_c, p_d, n_d) is the row of the original Jacobian applied to x, minus p_i, plus n_i. *)
Theorem C76_jac_fr_partial : forall (K : cfield) s (M Jc Jd : nat -> dmat K) mc md, 0 < mc + md ->
  (forall k, k < S s -> good (M k) /\ good (Jc k) /\ good (Jd k) /\ dm (Jc k) = mc /\ dm (Jd k) = md /\ dm (M k) = mc + md /\
     dn (Jc k) = dn (Jd k) /\ dn (M k) = if k =? s then dn (Jc k) + 2 * mc + 2 * md else dn (Jc k)) ->
  (forall k, k < S s -> exists M', set_jac_fr K (M k) (Jc k) (Jd k) (fr_last k (S s)) = Some M') /\
  forall M' x pc nc pd nd, (forall k, k < S s -> set_jac_fr K (M k) (Jc k) (Jd k) (fr_last k (S s)) = Some (M' k)) ->
  (forall k, k < S s -> length (x k) = dn (Jc k)) ->
  length pc = mc -> length nc = mc -> length pd = md -> length nd = md ->
  forall i, i < mc + md ->
    dot (grow (map M' (seq 0 (S s))) i) (concat (map x (seq 0 (S s))) ++ pc ++ nc ++ pd ++ nd) =
      if i <? mc then dot (grow (map Jc (seq 0 (S s))) i) (concat (map x (seq 0 (S s)))) -! nth i pc f0 +! nth i nc f0
      else dot (grow (map Jd (seq 0 (S s))) (i - mc)) (concat (map x (seq 0 (S s)))) -! nth (i - mc) pd f0 +! nth (i - mc) nd f0.
Proof.
  intros K s M Jc Jd mc md Hpos HR.
  assert (HE : forall k, k < S s -> exists M', set_jac_fr K (M k) (Jc k) (Jd k) (fr_last k (S s)) = Some M' /\
     entries (M k) M' (fun i j => if i <? dm (M k) then fr_entry (Jc k) (Jd k) i j else el (M k) i j)).
  { intros k Hk. destruct (HR k Hk) as (A1 & A2 & A3 & A4 & A5 & A6 & A7 & A8). destruct (k =? s) eqn:Ek.
    - apply Nat.eqb_eq in Ek. subst k. rewrite fr_last_true. apply set_jac_fr_last; auto; lia.
    - apply Nat.eqb_neq in Ek. rewrite fr_last_false by lia. apply set_jac_fr_other; auto; lia. }
  split. { intros k Hk. destruct (HE k Hk) as (M' & E & _). exists M'. exact E. }
  intros M' x pc nc pd nd HM Hx Lpc Lnc Lpd Lnd i Hi.
  assert (HE' : forall k, k < S s -> dn (M' k) = dn (M k) /\ forall j, j < dn (M k) -> el (M' k) i j = fr_entry (Jc k) (Jd k) i j).
  { intros k Hk. destruct (HE k Hk) as (M1 & E & (B1 & B2 & B3 & B4 & B5)). rewrite HM in E by lia. injection E as <-.
    destruct (HR k Hk) as ((A1 & A1') & A2 & A3 & A4 & A5 & A6 & A7 & A8). split; [exact B2|].
    intros j Hj. rewrite B5 by lia. rewrite (proj2 (Nat.ltb_lt _ _)) by lia. reflexivity. }
  rewrite seq_S, !map_app, !grow_app, !concat_app. cbn [map concat Nat.add]. rewrite !grow_one, app_nil_r.
  assert (Hlens : forall (F : nat -> dmat K) r, (forall k, k < s -> dn (F k) = dn (Jc k)) ->
     length (grow (map F (seq 0 s)) r) = length (concat (map x (seq 0 s)))).
  { intros F r HF. assert (HXs : forall k, In k (seq 0 s) -> length (lrow (F k) r) = length (x k)).
    { intros k Hk. apply in_seq in Hk. rewrite lrow_len, HF, Hx by lia. reflexivity. }
    clear -HXs. unfold grow. induction (seq 0 s) as [|k l IH]; [reflexivity|]. cbn. rewrite !app_length, HXs by (left; reflexivity).
    f_equal. apply IH. intros; apply HXs; right; auto. }
  destruct (HR s (Nat.lt_succ_diag_r s)) as (A1 & A2 & A3 & A4 & A5 & A6 & A7 & A8). rewrite Nat.eqb_refl in A8.
  destruct (HE' s (Nat.lt_succ_diag_r s)) as (C1 & C2).
  rewrite <- app_assoc. rewrite dot_app.
  2: { apply Hlens. intros k Hk. destruct (HE' k) as (D1 & D2); [lia|]. destruct (HR k) as (_ & _ & _ & _ & _ & _ & _ & D8); [lia|].
       rewrite (proj2 (Nat.eqb_neq k s)) in D8 by lia. lia. }
  rewrite (fr_last_row K (Jc s) (Jd s) (M' s) (x s) pc nc pd nd i); try lia; auto.
  2: { intros j Hj. apply C2. lia. }
  rewrite A4. destruct (i <? mc) eqn:Ei.
  - rewrite dot_app by (apply Hlens; reflexivity).
    replace (grow (map M' (seq 0 s)) i) with (grow (map Jc (seq 0 s)) i).
    2: { unfold grow. rewrite !map_map. f_equal. apply map_ext_in. intros k Hk. apply in_seq in Hk. destruct (HE' k) as (D1 & D2); [lia|].
         destruct (HR k) as (_ & _ & _ & D4 & _ & _ & _ & D8); [lia|]. rewrite (proj2 (Nat.eqb_neq k s)) in D8 by lia.
         apply lrow_ext; [lia|]. intros c Hc. rewrite D2 by lia. unfold fr_entry. rewrite D4, Ei, (proj2 (Nat.ltb_lt _ _)) by lia. reflexivity. }
    pose proof (fth K) as FT. generalize (dot (grow (map Jc (seq 0 s)) i) (concat (map x (seq 0 s)))), (dot (lrow (Jc s) i) (x s)), (nth i pc f0), (nth i nc f0).
    intros a b c d. clear -FT. destruct FT as [RT _ _ _]. destruct RT as [R0 R1 R2 R3 R4 R5 R6 R7 R8]. rewrite !R7. rewrite !R2. reflexivity.
  - rewrite dot_app by (apply Hlens; intros k Hk; destruct (HR k) as (_ & _ & _ & _ & _ & _ & D7 & _); [lia|lia]).
    replace (grow (map M' (seq 0 s)) i) with (grow (map Jd (seq 0 s)) (i - mc)).
    2: { unfold grow. rewrite !map_map. f_equal. apply map_ext_in. intros k Hk. apply in_seq in Hk. destruct (HE' k) as (D1 & D2); [lia|].
         destruct (HR k) as (_ & _ & _ & D4 & _ & _ & D7 & D8); [lia|]. rewrite (proj2 (Nat.eqb_neq k s)) in D8 by lia.
         apply lrow_ext; [lia|]. intros c Hc. rewrite D2 by lia. unfold fr_entry. rewrite D4, Ei, (proj2 (Nat.ltb_lt _ _)) by lia. reflexivity. }
    pose proof (fth K) as FT. generalize (dot (grow (map Jd (seq 0 s)) (i - mc)) (concat (map x (seq 0 s)))), (dot (lrow (Jd s) (i - mc)) (x s)), (nth (i - mc) pd f0), (nth (i - mc) nd f0).
    intros a b c d. clear -FT. destruct FT as [RT _ _ _]. destruct RT as [R0 R1 R2 R3 R4 R5 R6 R7 R8]. rewrite !R7. rewrite !R2. reflexivity.
Qed.
Print Assumptions C76_jac_fr_partial.
Definition ex_frM (k : nat) := match k with O => mk 2 1 2 [70;71]%Z | _ => mk 2 6 2 (repeat 72 12)%Z end.
Definition ex_frJc (k : nat) := match k with O => mk 1 1 1 [3]%Z | _ => mk 1 2 1 [4;5]%Z end.
Definition ex_frJd (k : nat) := match k with O => mk 1 1 1 [6]%Z | _ => mk 1 2 1 [7;8]%Z end.
Example C76_jac_fr_case :
  option_map dbuf (set_jac_fr Qc_field (ex_frM 0) (ex_frJc 0) (ex_frJd 0) (fr_last 0 2)) = Some (map q [3;6]%Z) /\
  option_map dbuf (set_jac_fr Qc_field (ex_frM 1) (ex_frJc 1) (ex_frJd 1) (fr_last 1 2)) =
    Some (map q [4;5;-1;1;0;0; 7;8;0;0;-1;1]%Z).
Proof. split; vm_compute; reflexivity. Qed.

(** The Hessian of the restoration problem: the given matrix plus the vector on its diagonal. *)
Theorem C76_hess_fr_partial : forall (K : cfield) (M H : dmat K) d, good M -> good H -> dm M = dm H -> dn M = dn H -> 0 < dm M ->
  dn M = dm M -> length d = dn M ->
  exists M', set_hess_fr K M H d = Some M' /\
    forall i j, i < dm M -> j < dn M -> el M' i j = el H i j +! (if i =? j then nth i d f0 else f0).
Proof.
  intros K M H d G GH Hm Hn Hp Hsq Hd. pose proof G as [G1 G2]. pose proof GH as [GH1 GH2].
  destruct (set_hess_fr_ok K M H d G GH Hm Hn) as (M' & E & (A1 & A2 & A3 & A4 & A5)); try lia. exists M'. split; [exact E|].
  intros i j Hi Hj. rewrite A5 by lia. rewrite (proj2 (Nat.ltb_lt _ _) Hi). reflexivity.
Qed.
Print Assumptions C76_hess_fr_partial.
Example C76_hess_fr_case : option_map dbuf (set_hess_fr Qc_field ex_a (mk 2 2 2 [1;1;1;1]%Z) (map q [5;6]%Z)) = Some (map q [6;1;1;7;90;91]%Z).
Proof. vm_compute. reflexivity. Qed.

(** A matrix made by alloc_clone or new_copy has no value in comm_size_: whatever the rank and the shapes, there is a
    value with which a rank that is not the last fails its assert. *)
Theorem C76_clone_refuted : forall (K : cfield) myrank (M Jc Jd : dmat K), good M -> 0 < dm M -> dm Jc + dm Jd = dm M ->
  dn Jc = dn Jd -> dn M = dn Jc ->
  exists size, set_jac_fr K M Jc Jd (fr_last myrank size) = None /\
    (good Jc -> good Jd -> exists M', set_jac_fr K M Jc Jd (fr_last myrank (S (S myrank))) = Some M').
Proof.
  intros K myrank M Jc Jd G Hp Hm Hn HM. exists 0. split.
  - unfold fr_last. cbn [Nat.ltb Nat.leb negb]. unfold set_jac_fr. rewrite (proj2 (Nat.eqb_eq _ _) Hn), (proj2 (Nat.eqb_eq _ _) Hm). cbn [andb].
    destruct (set_const_ok K M f0 G Hp) as (M1 & E & (A1 & A2 & _)). rewrite E. cbn [bind]. cbv zeta.
    rewrite (proj2 (Nat.eqb_neq _ _)) by lia. reflexivity.
  - intros GC GD. rewrite fr_last_false by lia. destruct (set_jac_fr_other K M Jc Jd) as (M' & E & _); auto; try lia. exists M'. exact E.
Qed.
Print Assumptions C76_clone_refuted.
Example C76_clone_case : let M := ex_frM 0 in good M /\ 0 < dm M /\ dm (ex_frJc 0) + dm (ex_frJd 0) = dm M /\ dn M = dn (ex_frJc 0) /\
  set_jac_fr Qc_field M (ex_frJc 0) (ex_frJd 0) (fr_last 0 0) = None.
Proof. repeat split; cbn; lia. Qed.

(** * C77 *)
Open Scope R_scope.
(** row r of a real matrix spread over the ranks; the local parts are read as the constructor lays them out *)
Definition in_row (rs : list rmat) (r : nat) (v : R) : Prop :=
  exists M j, In M rs /\ (j < rn M)%nat /\ v = nth (r * rn M + j) (rbuf M) 0.
(** The reported largest absolute value of a row, and of the matrix, is an upper bound of all entries on all ranks and
    is attained (it is 0 if there is no entry), whatever the distribution. *)
Theorem C77_row_max_partial : forall rs m r, rs <> [] -> (forall M, In M rs -> rm M = m /\ (m * rn M <= length (rbuf M))%nat) -> (r < m)%nat ->
  exists v, row_max_abs_value rs r = Some v /\ (forall x, in_row rs r x -> Rabs x <= v) /\
    ((exists x, in_row rs r x /\ v = Rabs x) \/ v = 0).
Proof.
  intros rs m r Hne HM Hr. unfold row_max_abs_value.
  destruct (every_map (fun M => dlange (rn M) (rbuf M) (r * rn M))
    (fun M v => 0 <= v /\ (forall p, (p < rn M)%nat -> Rabs (nth (r * rn M + p) (rbuf M) 0) <= v) /\
       (v = 0 \/ exists p, (p < rn M)%nat /\ v = Rabs (nth (r * rn M + p) (rbuf M) 0))) rs) as (vs & E & F).
  { intros M HI. destruct (HM M HI) as (A & B). apply dlange_spec. eapply Nat.le_trans; [apply row_le; exact Hr|exact B]. }
  rewrite E. cbn [bind]. assert (Hvs : vs <> []). { intro Z. subst vs. inversion F; subst; congruence. }
  destruct (allmax_spec vs Hvs) as (v & Ev & Hin & Hmax). exists v. split; [exact Ev|]. clear E Ev HM Hne Hvs. split.
  - intros x (M & j & HI & Hj & ->). assert (H : exists w, In w vs /\ Rabs (nth (r * rn M + j) (rbuf M) 0) <= w).
    { clear Hin Hmax. induction F as [|M0 w0 rs vs (P1 & P2 & P3) F IH]; [destruct HI|]. destruct HI as [->|HI].
      - exists w0. split; [left; reflexivity|]. apply P2. exact Hj.
      - destruct (IH HI) as (w & W1 & W2). exists w. split; [right; exact W1|exact W2]. }
    destruct H as (w & W1 & W2). specialize (Hmax w W1). lra.
  - clear Hmax. induction F as [|M0 w0 rs vs (P1 & P2 & P3) F IH]; [destruct Hin|]. destruct Hin as [->|Hin].
    + destruct P3 as [->|(p & Hp & ->)]; [right; reflexivity|]. left. eexists. split; [|reflexivity]. exists M0, p.
      split; [left; reflexivity|]. auto.
    + destruct (IH Hin) as [(x & (M & j & X1 & X2 & X3) & Hx)|Z]; [|right; exact Z]. left. exists x. split; [|exact Hx].
      exists M, j. split; [right; exact X1|auto].
Qed.
Print Assumptions C77_row_max_partial.
Theorem C77_max_partial : forall rs m, rs <> [] -> (forall M, In M rs -> rm M = m /\ (m * rn M <= length (rbuf M))%nat) ->
  exists v, max_abs_value rs = Some v /\ (forall r x, (r < m)%nat -> in_row rs r x -> Rabs x <= v) /\
    ((exists r x, (r < m)%nat /\ in_row rs r x /\ v = Rabs x) \/ v = 0).
Proof.
  intros rs m Hne HM. unfold max_abs_value.
  destruct (every_map (fun M => dlange (rn M * rm M) (rbuf M) 0)
    (fun M v => rm M = m /\ 0 <= v /\ (forall p, (p < rn M * rm M)%nat -> Rabs (nth (0 + p) (rbuf M) 0) <= v) /\
       (v = 0 \/ exists p, (p < rn M * rm M)%nat /\ v = Rabs (nth (0 + p) (rbuf M) 0))) rs) as (vs & E & F).
  { intros M HI. destruct (HM M HI) as (A & B). destruct (dlange_spec (rn M * rm M) (rbuf M) 0) as (v & Ev & H).
    { rewrite A. cbn [Nat.add]. rewrite Nat.mul_comm. exact B. } exists v. split; [exact Ev|]. split; [exact A|exact H]. }
  rewrite E. cbn [bind]. assert (Hvs : vs <> []). { intro Z. subst vs. inversion F; subst; congruence. }
  destruct (allmax_spec vs Hvs) as (v & Ev & Hin & Hmax). exists v. split; [exact Ev|]. clear E Ev HM Hne Hvs. split.
  - intros r x Hr (M & j & HI & Hj & ->). assert (H : exists w, In w vs /\ Rabs (nth (r * rn M + j) (rbuf M) 0) <= w).
    { clear Hin Hmax. induction F as [|M0 w0 rs vs (P0 & P1 & P2 & P3) F IH]; [destruct HI|]. destruct HI as [->|HI].
      - exists w0. split; [left; reflexivity|]. apply (P2 (r * rn M + j)%nat). rewrite P0, (Nat.mul_comm (rn M) m). apply idx_lt; auto.
      - destruct (IH HI) as (w & W1 & W2). exists w. split; [right; exact W1|exact W2]. }
    destruct H as (w & W1 & W2). specialize (Hmax w W1). lra.
  - clear Hmax. induction F as [|M0 w0 rs vs (P0 & P1 & P2 & P3) F IH]; [destruct Hin|]. destruct Hin as [->|Hin].
    + destruct P3 as [->|(p & Hp & ->)]; [right; reflexivity|]. left. rewrite P0 in Hp.
      assert (Hn : (rn M0 <> 0)%nat) by (intro Z; rewrite Z in Hp; cbn in Hp; lia).
      exists (p / rn M0)%nat. eexists. split; [apply Nat.div_lt_upper_bound; auto|]. split; [|reflexivity].
      exists M0, (p mod rn M0)%nat. split; [left; reflexivity|]. split; [apply Nat.mod_upper_bound; exact Hn|].
      f_equal. cbn [Nat.add]. rewrite Nat.mul_comm. apply Nat.div_mod. exact Hn.
    + destruct (IH Hin) as [(r & x & Hr & (M & j & X1 & X2 & X3) & Hx)|Z]; [|right; exact Z]. left. exists r, x. split; [exact Hr|]. split; [|exact Hx].
      exists M, j. split; [right; exact X1|auto].
Qed.
Print Assumptions C77_max_partial.
Example C77_case : row_max_abs_value [RMat 2 1 [1; -5]; RMat 2 0 []; RMat 2 2 [2; -3; 4; 0]] 1 = Some 5 /\
  (forall M, In M [RMat 2 1 [1; -5]; RMat 2 0 []; RMat 2 2 [2; -3; 4; 0]] -> rm M = 2%nat /\ (2 * rn M <= length (rbuf M))%nat).
Proof.
  split.
  - unfold row_max_abs_value, dlange. cbn. repeat rewrite ?Rabs_R0. rewrite (Rabs_left (-5)) by lra. rewrite (Rabs_right 4) by lra.
    unfold Rmax. repeat destruct (Rle_dec _ _); try lra; f_equal; lra.
  - intros M [<-|[<-|[<-|[]]]]; cbn; lia.
Qed.
Example C77_max_case : max_abs_value [RMat 2 1 [1; -5]; RMat 2 0 []] = Some 5.
Proof.
  unfold max_abs_value, dlange. cbn. rewrite ?Rabs_R0. rewrite (Rabs_left (-5)) by lra. rewrite (Rabs_right 1) by lra.
  unfold Rmax. repeat destruct (Rle_dec _ _); try lra; f_equal; lra.
Qed.
