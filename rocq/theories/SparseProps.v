(** C24, C25, C26 and the linear-algebra half of C37: triplet matrix kernels. *)
From Coq Require Import List Bool Arith Lia Ring Field Sorted QArith Qcanon.
From Verif Require Import RingKit PackModel SparseModel SparseSpec SparseProofs SparseProofs2 SparseProofs3 SparseProofs4.
Import ListNotations.
Close Scope Qc_scope. Close Scope Q_scope. Open Scope nat_scope.

(** numbers of the examples: canonical rationals *)
Definition q (z : Z) : Qc_field := Q2Qc (inject_Z z).

(** * C24: matrix-vector products *)
Theorem C24_times_vec : forall (K : cfield) (A : trip K) (beta : K) y alpha x,
  wf A -> length x = t_n A -> length y = t_m A ->
  exists y', times_vec K A beta y alpha x = Some y' /\ length y' = t_m A /\
    forall i, i < t_m A -> at_ y' i = beta *! at_ y i +! alpha *! sumn (t_n A) (fun j => mat (t_ent A) i j *! at_ x j).
Proof. exact times_vec_spec. Qed.
Print Assumptions C24_times_vec.
Theorem C24_trans_times_vec : forall (K : cfield) (A : trip K) (beta : K) y alpha x,
  wf A -> length x = t_m A -> length y = t_n A ->
  exists y', trans_times_vec K A beta y alpha x = Some y' /\ length y' = t_n A /\
    forall j, j < t_n A -> at_ y' j = beta *! at_ y j +! alpha *! sumn (t_m A) (fun i => mat (t_ent A) i j *! at_ x i).
Proof. exact trans_times_vec_spec. Qed.
Print Assumptions C24_trans_times_vec.
Theorem C24_sym_times_vec : forall (K : cfield) (A : trip K) (beta : K) y alpha x,
  wf A -> t_n A = t_m A -> length x = t_n A -> length y = t_m A ->
  exists y', sym_times_vec K A beta y alpha x = Some y' /\ length y' = t_m A /\
    forall i, i < t_m A -> at_ y' i = beta *! at_ y i +! alpha *! sumn (t_n A) (fun j => symmat (t_ent A) i j *! at_ x j).
Proof. exact sym_times_vec_spec. Qed.
Print Assumptions C24_sym_times_vec.
Theorem C24_adjoint : forall (K : cfield) (A : trip K) x u y0 z0 y z,
  wf A -> length x = t_n A -> length u = t_m A -> length y0 = t_m A -> length z0 = t_n A ->
  times_vec K A f0 y0 f1 x = Some y -> trans_times_vec K A f0 z0 f1 u = Some z ->
  inner (t_m A) u y = inner (t_n A) z x.
Proof. exact adjoint. Qed.
Print Assumptions C24_adjoint.
Theorem C24_row_scaling : forall (K : cfield) (A : trip K) s inv, wf A -> length s = t_m A ->
  exists r, scale_row K A s inv = Some r /\ t_m r = t_m A /\ t_n r = t_n A /\
    map (fun e => (row e, col e)) (t_ent r) = map (fun e => (row e, col e)) (t_ent A) /\
    forall i j, mat (t_ent r) i j = mat (t_ent A) i j *! (if inv then f1 /! at_ s i else at_ s i).
Proof. exact scale_row_spec. Qed.
Print Assumptions C24_row_scaling.

(** a 2x3 matrix with a duplicate and unordered entries *)
Definition exA : trip Qc_field := Trip 2 3 [(1,2,q 5); (0,0,q 2); (0,1,q 3); (1,2,q 1)].
Example C24_case :
  times_vec Qc_field exA (q 2) [q 1; q 1] (q 1) [q 1; q 2; q 3] = Some [q 10; q 20] /\
  trans_times_vec Qc_field exA (q 0) [q 7; q 7; q 7] (q 1) [q 1; q 2] = Some [q 2; q 3; q 12] /\
  wf exA.
Proof.
  split; [vm_compute; reflexivity|]. split; [vm_compute; reflexivity|].
  intros e He. simpl in He. repeat (destruct He as [<-|He]; [vm_compute; lia|]). destruct He.
Qed.
(** the symmetric class stores one triangle *)
Example C24_case_sym :
  sym_times_vec Qc_field (Trip 2 2 [(0,0,q 2); (0,1,q 3)]) (q 0) [q 0; q 0] (q 1) [q 1; q 10] = Some [q 32; q 3].
Proof. vm_compute. reflexivity. Qed.
Example C24_case_adjoint :
  inner 2 [q 1; q 2] [q 8; q 18] = inner 3 [q 2; q 3; q 12] [q 1; q 2; q 3] /\
  times_vec Qc_field exA (q 0) [q 1; q 1] (q 1) [q 1; q 2; q 3] = Some [q 8; q 18].
Proof. split; vm_compute; reflexivity. Qed.
Example C24_case_scale : exists r, scale_row Qc_field exA [q 10; q 3] false = Some r /\
  mat (t_ent r) 1 2 = q 18 /\ mat (t_ent r) 0 1 = q 30.
Proof. eexists. split; [reflexivity|]. split; vm_compute; reflexivity. Qed.

(** * C25: block assembly.  [slots old st blk] replaces exactly the entries numbered
      [st..st+length blk-1]; the block inserted denotes the shifted source. *)
Theorem C25_slots_frame : forall (K : cfield) (old : list (entry K)) st blk k,
  st + length blk <= length old ->
  nth_error (slots old st blk) k =
    if (st <=? k) && (k <? st + length blk) then nth_error blk (k - st) else nth_error old k.
Proof.
  intros K old st blk k H. unfold slots. assert (L : length (firstn st old) = st) by (apply firstn_length_le; lia).
  destruct (Nat.leb_spec st k) as [H1|H1]; simpl.
  - rewrite nth_error_app2 by lia. rewrite L. destruct (Nat.ltb_spec k (st + length blk)) as [H2|H2].
    + apply nth_error_app1. lia.
    + rewrite nth_error_app2 by lia. rewrite <- (firstn_skipn (st + length blk) old) at 2.
      assert (L2 : length (firstn (st + length blk) old) = st + length blk) by (apply firstn_length_le; lia).
      rewrite nth_error_app2 by lia. rewrite L2. f_equal. lia.
  - rewrite nth_error_app1 by lia. rewrite <- (firstn_skipn st old) at 2. rewrite nth_error_app1 by lia. reflexivity.
Qed.
Print Assumptions C25_slots_frame.

Theorem C25_copy_rows : forall (K : cfield) (this src : trip K) idxs,
  row_sorted (t_ent src) -> StronglySorted lt idxs -> (forall i, In i idxs -> i < t_m src) ->
  t_m this = length idxs -> t_n this = t_n src ->
  length (t_ent this) = length (flat_map (fun i => filter (fun e => row e =? i) (t_ent src)) idxs) ->
  exists r, copy_rows_from K this src idxs = Some r /\ t_m r = t_m this /\ t_n r = t_n this /\
    length (t_ent r) = length (t_ent this) /\
    forall i j, i < length idxs -> mat (t_ent r) i j = mat (t_ent src) (nth i idxs 0) j.
Proof.
  intros K this src idxs H1 H2 H3 H4 H5 H6.
  destruct (copy_rows_from_spec K this src idxs) as [r [E1 [E2 [E3 [E4 [_ E6]]]]]]; auto.
  - rewrite H6. clear. unfold rows_block. generalize 0 as s. induction idxs as [|i l IH]; intro s; auto.
    simpl. rewrite !app_length. rewrite (IH (S s)). unfold row_as. rewrite map_length. reflexivity.
  - exists r. auto.
Qed.
Print Assumptions C25_copy_rows.

Theorem C25_copy_rows_block : forall (K : cfield) (this src : trip K) rs n rd st,
  row_sorted (t_ent src) -> n + rs <= t_m src -> n + rd <= t_m this -> t_n src <= t_n this ->
  length (t_ent src) <= length (t_ent this) ->
  st + length (filter (fun e => (rs <=? row e) && (row e <? rs + n)) (t_ent src)) <= length (t_ent this) ->
  exists r blk, copy_rows_block_from K this src rs n rd st = Some r /\ t_m r = t_m this /\ t_n r = t_n this /\
    t_ent r = slots (t_ent this) st blk /\
    length blk = length (filter (fun e => (rs <=? row e) && (row e <? rs + n)) (t_ent src)) /\
    forall i j, mat blk i j = if (rd <=? i) && (i <? rd + n) then mat (t_ent src) (rs + (i - rd)) j else f0.
Proof.
  intros K this src rs n rd st H1 H2 H3 H4 H5 H6.
  assert (L : length (block_rows K (t_ent src) rs n rd) = length (filter (fun e => (rs <=? row e) && (row e <? rs + n)) (t_ent src))).
  { clear. unfold block_rows.
    assert (G : forall m a, a + m <= n -> length (flat_map (fun k => row_as (t_ent src) (rs + k) (rd + k)) (seq a m)) =
       length (filter (fun e => (rs + a <=? row e) && (row e <? rs + (a + m))) (t_ent src))).
    { induction m as [|m IH]; intros a Ha.
      - simpl. rewrite Nat.add_0_r. clear. induction (t_ent src) as [|e l IH]; simpl; auto.
        destruct (Nat.leb_spec (rs + a) (row e)); destruct (Nat.ltb_spec (row e) (rs + a)); simpl; auto. lia.
      - cbn [seq flat_map]. rewrite app_length, IH by lia. unfold row_as. rewrite map_length. clear.
        induction (t_ent src) as [|e l IH]; cbn [filter]; auto.
        destruct (Nat.leb_spec (rs + a) (row e)); destruct (Nat.ltb_spec (row e) (rs + (a + S m)));
        destruct (Nat.leb_spec (rs + S a) (row e)); destruct (Nat.ltb_spec (row e) (rs + (S a + m)));
        destruct (Nat.eqb_spec (row e) (rs + a)); cbn [andb length] in *; lia. }
    specialize (G n 0). rewrite Nat.add_0_r in G. apply G. lia. }
  destruct (copy_rows_block_spec K this src rs n rd st) as [r [E1 [E2 [E3 E4]]]]; auto; [lia|].
  exists r, (block_rows K (t_ent src) rs n rd). repeat (split; [auto; fail|]). apply mat_block_rows.
Qed.
Print Assumptions C25_copy_rows_block.

Theorem C25_copy_submatrix : forall (K : cfield) (tr od : bool) (this src : trip K) dr dc st,
  (if tr then t_n src else t_m src) + dr <= t_m this -> (if tr then t_m src else t_n src) + dc <= t_n this ->
  length (t_ent src) <= length (t_ent this) ->
  st + length (filter (fun e => negb (od && (row e =? col e))) (t_ent src)) <= length (t_ent this) ->
  exists r blk, copy_submatrix K tr this src dr dc st od = Some r /\ t_m r = t_m this /\ t_n r = t_n this /\
    t_ent r = slots (t_ent this) st blk /\
    length blk = length (filter (fun e => negb (od && (row e =? col e))) (t_ent src)) /\
    forall i j, mat blk i j =
      if (dr <=? i) && (dc <=? j) && negb (od && (i - dr =? j - dc))
      then (if tr then mat (t_ent src) (j - dc) (i - dr) else mat (t_ent src) (i - dr) (j - dc)) else f0.
Proof.
  intros K tr od this src dr dc st H1 H2 H3 H4.
  assert (L : length (shifted K tr od (t_ent src) dr dc) = length (filter (fun e => negb (od && (row e =? col e))) (t_ent src)))
    by apply map_length.
  destruct (copy_submatrix_spec K tr this src dr dc st od H1 H2 H3) as [G _].
  destruct G as [r [E1 [E2 [E3 E4]]]]; [lia|].
  exists r, (shifted K tr od (t_ent src) dr dc). repeat (split; [auto; fail|]). intros. apply mat_shifted.
Qed.
Print Assumptions C25_copy_submatrix.
(** without room for the block the call does not return (out-of-range write or failed assert) *)
Theorem C25_copy_submatrix_needs_room : forall (K : cfield) (tr od : bool) (this src : trip K) dr dc st,
  (if tr then t_n src else t_m src) + dr <= t_m this -> (if tr then t_m src else t_n src) + dc <= t_n this ->
  length (t_ent src) <= length (t_ent this) ->
  length (t_ent this) < st + length (filter (fun e => negb (od && (row e =? col e))) (t_ent src)) ->
  copy_submatrix K tr this src dr dc st od = None.
Proof.
  intros K tr od this src dr dc st H1 H2 H3 H4.
  destruct (copy_submatrix_spec K tr this src dr dc st od H1 H2 H3) as [_ G]. apply G.
  unfold shifted. rewrite map_length. auto.
Qed.
Print Assumptions C25_copy_submatrix_needs_room.

Theorem C25_copy_diag : forall (K : cfield) (this : trip K) v dr dc st n,
  n + st <= length (t_ent this) -> n + dr <= t_m this -> n + dc <= t_n this ->
  exists r, copy_diag_block K this v dr dc st n = Some r /\ t_m r = t_m this /\ t_n r = t_n this /\
    t_ent r = slots (t_ent this) st (map (fun k => (dr + k, dc + k, v)) (seq 0 n)).
Proof. exact copy_diag_block_spec. Qed.
Print Assumptions C25_copy_diag.
(** the k-th marked entry of the vector lands at (dr+k, dc+k) *)
Theorem C25_copy_diag_pattern : forall (K : cfield) (this : trip K) dx dr dc st ix,
  let n := length (selected ix) in
  length dx = length ix -> n + st <= length (t_ent this) -> n + dr <= t_m this -> n + dc <= t_n this ->
  exists r, copy_diag_w_pattern K this dx dr dc st n ix = Some r /\ t_m r = t_m this /\ t_n r = t_n this /\
    t_ent r = slots (t_ent this) st (map (fun k => (dr + k, dc + k, at_ dx (nth k (selected ix) 0))) (seq 0 n)).
Proof. exact copy_diag_w_pattern_spec. Qed.
Print Assumptions C25_copy_diag_pattern.
Theorem C25_const_diag_colpattern : forall (K : cfield) (this : trip K) c dr dc st ix,
  let n := length (selected ix) in
  length ix + dr <= t_m this -> n + dc <= t_n this -> st + n <= length (t_ent this) ->
  exists r, set_const_diag_colpattern K this c dr dc st n ix = Some r /\ t_m r = t_m this /\ t_n r = t_n this /\
    t_ent r = slots (t_ent this) st (map (fun k => (dr + nth k (selected ix) 0, dc + k, c)) (seq 0 n)).
Proof. exact colpattern_spec. Qed.
Print Assumptions C25_const_diag_colpattern.
Theorem C25_const_diag_rowpattern : forall (K : cfield) (this : trip K) c dr dc st ix,
  let n := length (selected ix) in
  n + dr <= t_m this -> length ix + dc <= t_n this -> st + n <= length (t_ent this) ->
  exists r, set_const_diag_rowpattern K this c dr dc st n ix = Some r /\ t_m r = t_m this /\ t_n r = t_n this /\
    t_ent r = slots (t_ent this) st (map (fun k => (dr + k, dc + nth k (selected ix) 0, c)) (seq 0 n)).
Proof. exact rowpattern_spec. Qed.
Print Assumptions C25_const_diag_rowpattern.
Theorem C25_sub_diag_from : forall (K : cfield) (this : trip K) st n d nnz_st scal,
  n <= length d -> st + n <= t_m this -> nnz_st + n <= length (t_ent this) ->
  exists r, copy_sub_diag_from K this st n d nnz_st scal = Some r /\ t_m r = t_m this /\ t_n r = t_n this /\
    t_ent r = slots (t_ent this) nnz_st (map (fun k => (st + k, st + k, scal *! at_ d k)) (seq 0 n)).
Proof. exact sub_diag_from_spec. Qed.
Print Assumptions C25_sub_diag_from.
Theorem C25_set_sub_diag : forall (K : cfield) (this : trip K) st n c nnz_st,
  st + n <= t_m this -> nnz_st + n <= length (t_ent this) ->
  exists r, set_sub_diag_to K this st n c nnz_st = Some r /\ t_m r = t_m this /\ t_n r = t_n this /\
    t_ent r = slots (t_ent this) nnz_st (map (fun k => (st + k, st + k, c)) (seq 0 n)).
Proof. exact set_sub_diag_spec. Qed.
Print Assumptions C25_set_sub_diag.

Definition exBig : trip Qc_field := Trip 9 9 (repeat (8, 8, q 99) 6).
Example C25_case_sub :
  option_map (@t_ent _) (copy_submatrix Qc_field true exBig exA 3 4 1 false) =
    Some [(8,8,q 99); (5,5,q 5); (3,4,q 2); (4,4,q 3); (5,5,q 1); (8,8,q 99)].
Proof. vm_compute. reflexivity. Qed.
Example C25_case_room : copy_submatrix Qc_field true exBig exA 3 4 3 false = None.
Proof. vm_compute. reflexivity. Qed.
Example C25_case_rows :
  option_map (@t_ent _) (copy_rows_from Qc_field (Trip 2 3 (repeat (0,0,q 0) 3))
     (Trip 3 3 [(0,0,q 1); (0,2,q 2); (1,1,q 7); (2,0,q 3)]) [0; 2]) = Some [(0,0,q 1); (0,2,q 2); (1,0,q 3)] /\
  option_map (@t_ent _) (copy_rows_block_from Qc_field exBig
     (Trip 3 3 [(0,0,q 1); (0,2,q 2); (1,1,q 7); (2,0,q 3)]) 1 2 4 1) =
    Some [(8,8,q 99); (4,1,q 7); (5,0,q 3); (8,8,q 99); (8,8,q 99); (8,8,q 99)].
Proof. split; vm_compute; reflexivity. Qed.
Example C25_case_pattern :
  option_map (@t_ent _) (set_const_diag_colpattern Qc_field exBig (q 4) 2 5 1 2 [true; false; true]) =
    Some [(8,8,q 99); (2,5,q 4); (4,6,q 4); (8,8,q 99); (8,8,q 99); (8,8,q 99)] /\
  option_map (@t_ent _) (set_const_diag_rowpattern Qc_field exBig (q 4) 2 5 1 2 [true; false; true]) =
    Some [(8,8,q 99); (2,5,q 4); (3,7,q 4); (8,8,q 99); (8,8,q 99); (8,8,q 99)] /\
  option_map (@t_ent _) (copy_diag_w_pattern Qc_field exBig [q 1; q 2; q 3] 2 5 1 2 [true; false; true]) =
    Some [(8,8,q 99); (2,5,q 1); (3,6,q 3); (8,8,q 99); (8,8,q 99); (8,8,q 99)].
Proof. split; [|split]; vm_compute; reflexivity. Qed.
Example C25_case_diag :
  option_map (@t_ent _) (copy_diag_block Qc_field exBig (q 4) 2 5 1 2) =
    Some [(8,8,q 99); (2,5,q 4); (3,6,q 4); (8,8,q 99); (8,8,q 99); (8,8,q 99)] /\
  option_map (@t_ent _) (copy_sub_diag_from Qc_field exBig 3 2 [q 1; q 2; q 3] 0 (q 10)) =
    Some [(3,3,q 10); (4,4,q 20); (8,8,q 99); (8,8,q 99); (8,8,q 99); (8,8,q 99)] /\
  option_map (@t_ent _) (set_sub_diag_to Qc_field exBig 3 2 (q 6) 4) =
    Some [(8,8,q 99); (8,8,q 99); (8,8,q 99); (8,8,q 99); (3,3,q 6); (4,4,q 6)].
Proof. split; [|split]; vm_compute; reflexivity. Qed.

(** * C26: Schur-complement kernels *)
Theorem C26_MDinvMt : forall (K : cfield) (A : trip K) st alpha D W,
  wf A -> sorted (t_ent A) -> length D = t_n A -> dwf W -> d_m W = d_n W -> st + t_m A <= d_m W ->
  exists W', add_MDinvMt K A st alpha D W = Some W' /\ d_m W' = d_m W /\ d_n W' = d_n W /\ dwf W' /\
    forall p r, p < d_m W -> r < d_n W -> dmat W' p r = dmat W p r +!
      (if (st <=? p) && (p <=? r) && (r <? st + t_m A)
       then alpha *! sumn (t_n A) (fun c => mat (t_ent A) (p - st) c *! finv (at_ D c) *! mat (t_ent A) (r - st) c)
       else f0).
Proof. exact MDinvMt_spec. Qed.
Print Assumptions C26_MDinvMt.
Theorem C26_MDinvNt : forall (K : cfield) (A : trip K) rs cs alpha D B W,
  wf A -> wf B -> sorted (t_ent A) -> sorted (t_ent B) -> t_n B = t_n A -> length D = t_n A ->
  dwf W -> d_m W = d_n W -> rs + t_m A <= d_m W -> cs + t_m B <= d_n W -> rs + t_m A <= S cs ->
  exists W', add_MDinvNt K A rs cs alpha D B W = Some W' /\ d_m W' = d_m W /\ d_n W' = d_n W /\ dwf W' /\
    forall p r, p < d_m W -> r < d_n W -> dmat W' p r = dmat W p r +!
      (if (rs <=? p) && (p <? rs + t_m A) && (cs <=? r) && (r <? cs + t_m B)
       then alpha *! sumn (t_n A) (fun c => mat (t_ent A) (p - rs) c *! finv (at_ D c) *! mat (t_ent B) (r - cs) c)
       else f0).
Proof. exact MDinvNt_spec. Qed.
Print Assumptions C26_MDinvNt.
(** a block that would touch the strict lower triangle is refused *)
Theorem C26_MDinvNt_upper_only : forall (K : cfield) (A : trip K) rs cs alpha D B W,
  0 < t_m A -> 0 < t_m B -> S cs < rs + t_m A -> add_MDinvNt K A rs cs alpha D B W = None.
Proof. exact MDinvNt_lower. Qed.
Print Assumptions C26_MDinvNt_upper_only.
Theorem C26_times_mat_trans : forall (K : cfield) (A : trip K) beta W alpha B,
  wf A -> wf B -> sorted (t_ent A) -> sorted (t_ent B) -> t_n B = t_n A ->
  dwf W -> d_m W = t_m A -> d_n W = t_m B ->
  exists W', times_mat_trans K A beta W alpha B = Some W' /\ d_m W' = d_m W /\ d_n W' = d_n W /\ dwf W' /\
    forall p r, p < d_m W -> r < d_n W -> dmat W' p r = beta *! dmat W p r +!
       alpha *! sumn (t_n A) (fun c => mat (t_ent A) p c *! mat (t_ent B) r c).
Proof. exact times_mat_trans_spec. Qed.
Print Assumptions C26_times_mat_trans.
Theorem C26_trans_add : forall (K : cfield) (A : trip K) rs cs alpha W,
  wf A -> dwf W -> d_m W = d_n W -> rs + t_n A <= d_m W -> cs + t_m A <= d_n W ->
  (forall e, In e (t_ent A) -> col e + rs <= row e + cs) ->
  exists W', trans_add_to_sym K A rs cs alpha W = Some W' /\ d_m W' = d_m W /\ d_n W' = d_n W /\ dwf W' /\
    forall p r, p < d_m W -> r < d_n W -> dmat W' p r = dmat W p r +!
      (if (rs <=? p) && (cs <=? r) then alpha *! mat (t_ent A) (r - cs) (p - rs) else f0).
Proof. exact trans_add_spec. Qed.
Print Assumptions C26_trans_add.
Theorem C26_add_upper : forall (K : cfield) (A : trip K) st alpha W,
  wf A -> dwf W -> d_m W = d_n W -> st + t_m A <= d_m W -> st + t_n A <= d_n W ->
  (forall e, In e (t_ent A) -> row e <= col e) ->
  exists W', add_upper_to_sym K A st alpha W = Some W' /\ d_m W' = d_m W /\ d_n W' = d_n W /\ dwf W' /\
    forall p r, p < d_m W -> r < d_n W -> dmat W' p r = dmat W p r +!
      (if (st <=? p) && (st <=? r) then alpha *! mat (t_ent A) (p - st) (r - st) else f0).
Proof. exact add_upper_spec. Qed.
Print Assumptions C26_add_upper.
Theorem C26_copy_to_dense : forall (K : cfield) (A : trip K) W,
  wf A -> dwf W -> d_m W = t_m A -> d_n W = t_n A ->
  exists W', copy_to_dense K A W = Some W' /\ d_m W' = d_m W /\ d_n W' = d_n W /\ dwf W' /\
    forall p r, p < t_m A -> r < t_n A -> dmat W' p r = mat (t_ent A) p r.
Proof. exact copy_to_dense_spec. Qed.
Print Assumptions C26_copy_to_dense.

Definition exM : trip Qc_field := Trip 2 3 [(0,0,q 2); (0,2,q 3); (1,2,q 5)].
Definition exN : trip Qc_field := Trip 1 3 [(0,1,q 7); (0,2,q 4)].
Example C26_case_M :
  option_map (@d_arr _) (add_MDinvMt Qc_field exM 1 (q 6) [q 1; q 1; q 3] (Dense 3 3 (repeat (q 1) 9))) =
    Some [q 1; q 1; q 1;  q 1; q 43; q 31;  q 1; q 1; q 51].
Proof. vm_compute. reflexivity. Qed.
Example C26_case_N :
  option_map (@d_arr _) (add_MDinvNt Qc_field exM 0 2 (q 1) [q 1; q 1; q 2] exN (Dense 3 3 (repeat (q 0) 9))) =
    Some [q 0; q 0; q 6;  q 0; q 0; q 10;  q 0; q 0; q 0] /\
  add_MDinvNt Qc_field exM 1 0 (q 1) [q 1; q 1; q 2] exN (Dense 3 3 (repeat (q 0) 9)) = None.
Proof. split; vm_compute; reflexivity. Qed.
Example C26_case_others :
  option_map (@d_arr _) (times_mat_trans Qc_field exM (q 2) (Dense 2 1 [q 1; q 1]) (q 1) exN) = Some [q 14; q 22] /\
  option_map (@d_arr _) (trans_add_to_sym Qc_field exN 0 3 (q 2) (Dense 4 4 (repeat (q 0) 16))) =
    Some [q 0;q 0;q 0;q 0; q 0;q 0;q 0;q 14; q 0;q 0;q 0;q 8; q 0;q 0;q 0;q 0] /\
  option_map (@d_arr _) (add_upper_to_sym Qc_field (Trip 2 2 [(0,1,q 3); (1,1,q 4)]) 1 (q 2) (Dense 3 3 (repeat (q 0) 9))) =
    Some [q 0;q 0;q 0; q 0;q 0;q 6; q 0;q 0;q 8] /\
  option_map (@d_arr _) (copy_to_dense Qc_field exA (Dense 2 3 (repeat (q 9) 6))) = Some [q 2; q 3; q 0; q 0; q 0; q 6].
Proof. split; [|split; [|split]]; vm_compute; reflexivity. Qed.

(** * C37 (matrix half): derivative blocks of the restoration problem [x, p_c, n_c, p_d, n_d] *)
Theorem C37_jacobian_blocks : forall (K : cfield) n_ent m_this n_this (Jc Jd : trip K),
  wf Jc -> wf Jd -> sorted (t_ent Jc) -> sorted (t_ent Jd) -> t_n Jc = t_n Jd ->
  n_ent = length (t_ent Jc) + 2 * t_m Jc + (length (t_ent Jd) + 2 * t_m Jd) ->
  exists r, jac_FR K n_ent m_this n_this Jc Jd = Some r /\ length (t_ent r) = n_ent /\ sorted (t_ent r) /\
    (forall i j, i < t_m Jc -> j < t_n Jc -> mat (t_ent r) i j = mat (t_ent Jc) i j) /\
    (forall i j, i < t_m Jd -> j < t_n Jc -> mat (t_ent r) (t_m Jc + i) j = mat (t_ent Jd) i j) /\
    (forall i j, i < t_m Jc -> j < t_m Jc -> mat (t_ent r) i (t_n Jc + j) = if i =? j then fopp f1 else f0) /\
    (forall i j, i < t_m Jc -> j < t_m Jc -> mat (t_ent r) i (t_n Jc + t_m Jc + j) = if i =? j then f1 else f0) /\
    (forall i j, i < t_m Jd -> j < t_m Jd ->
       mat (t_ent r) (t_m Jc + i) (t_n Jc + 2 * t_m Jc + j) = if i =? j then fopp f1 else f0) /\
    (forall i j, i < t_m Jd -> j < t_m Jd ->
       mat (t_ent r) (t_m Jc + i) (t_n Jc + 2 * t_m Jc + t_m Jd + j) = if i =? j then f1 else f0) /\
    (forall i j, i < t_m Jc -> j < 2 * t_m Jd -> mat (t_ent r) i (t_n Jc + 2 * t_m Jc + j) = f0) /\
    (forall i j, i < t_m Jd -> j < 2 * t_m Jc -> mat (t_ent r) (t_m Jc + i) (t_n Jc + j) = f0).
Proof.
  intros K n_ent m_this n_this Jc Jd W1 W2 S1 S2 Hn He.
  destruct (jac_FR_spec K n_ent m_this n_this Jc Jd) as [r [E1 [E2 [E3 E4]]]]; auto.
  exists r. split; auto. split; auto. split; auto.
  assert (B : forall a b, a < b -> (a <? b) = true) by (intros; apply Nat.ltb_lt; auto).
  assert (B' : forall a b, b <= a -> (a <? b) = false) by (intros; apply Nat.ltb_ge; auto).
  repeat split; intros i j Hi Hj; rewrite E4 by lia; unfold fr_entry; cbv zeta.
  - rewrite (B i), (B j) by lia. reflexivity.
  - rewrite (B' (t_m Jc + i)), (B j) by lia. f_equal. lia.
  - rewrite (B i), (B' (t_n Jc + j)) by lia. destruct (Nat.eqb_spec i j) as [<-|N].
    + rewrite Nat.eqb_refl. reflexivity.
    + destruct (Nat.eqb_spec (t_n Jc + j) (t_n Jc + i)); [lia|].
      destruct (Nat.eqb_spec (t_n Jc + j) (t_n Jc + t_m Jc + i)); [lia|]. reflexivity.
  - rewrite (B i), (B' (t_n Jc + t_m Jc + j)) by lia.
    destruct (Nat.eqb_spec (t_n Jc + t_m Jc + j) (t_n Jc + i)); [lia|].
    destruct (Nat.eqb_spec (t_n Jc + t_m Jc + j) (t_n Jc + t_m Jc + i)); destruct (Nat.eqb_spec i j); try lia; reflexivity.
  - rewrite (B' (t_m Jc + i)), (B' (t_n Jc + 2 * t_m Jc + j)) by lia.
    destruct (Nat.eqb_spec (t_n Jc + 2 * t_m Jc + j) (t_n Jc + 2 * t_m Jc + (t_m Jc + i - t_m Jc)));
    destruct (Nat.eqb_spec (t_n Jc + 2 * t_m Jc + j) (t_n Jc + 2 * t_m Jc + t_m Jd + (t_m Jc + i - t_m Jc)));
    destruct (Nat.eqb_spec i j); try lia; reflexivity.
  - rewrite (B' (t_m Jc + i)), (B' (t_n Jc + 2 * t_m Jc + t_m Jd + j)) by lia.
    destruct (Nat.eqb_spec (t_n Jc + 2 * t_m Jc + t_m Jd + j) (t_n Jc + 2 * t_m Jc + (t_m Jc + i - t_m Jc)));
    destruct (Nat.eqb_spec (t_n Jc + 2 * t_m Jc + t_m Jd + j) (t_n Jc + 2 * t_m Jc + t_m Jd + (t_m Jc + i - t_m Jc)));
    destruct (Nat.eqb_spec i j); try lia; reflexivity.
  - rewrite (B i), (B' (t_n Jc + 2 * t_m Jc + j)) by lia.
    destruct (Nat.eqb_spec (t_n Jc + 2 * t_m Jc + j) (t_n Jc + i)); [lia|].
    destruct (Nat.eqb_spec (t_n Jc + 2 * t_m Jc + j) (t_n Jc + t_m Jc + i)); [lia|]. reflexivity.
  - rewrite (B' (t_m Jc + i)), (B' (t_n Jc + j)) by lia.
    destruct (Nat.eqb_spec (t_n Jc + j) (t_n Jc + 2 * t_m Jc + (t_m Jc + i - t_m Jc))); [lia|].
    destruct (Nat.eqb_spec (t_n Jc + j) (t_n Jc + 2 * t_m Jc + t_m Jd + (t_m Jc + i - t_m Jc))); [lia|]. reflexivity.
Qed.
Print Assumptions C37_jacobian_blocks.
Theorem C37_hessian_blocks : forall (K : cfield) (this H : trip K) d,
  wf H -> sorted (t_ent H) -> (forall e, In e (t_ent H) -> row e <= col e) -> t_n H = t_m H ->
  (t_m H = length d \/ t_m H = 0) ->
  length (t_ent this) = length d + length (filter (fun e => negb (row e =? col e)) (t_ent H)) ->
  exists r, hess_FR K this H d = Some r /\ length (t_ent r) = length (t_ent this) /\ sorted (t_ent r) /\
    forall i j, i < length d -> mat (t_ent r) i j = mat (t_ent H) i j +! (if i =? j then at_ d i else f0).
Proof.
  intros K this H d H1 H2 H3 H4 H5 H6. apply hess_FR_spec; auto. rewrite H6. unfold num_offdiag. f_equal. clear.
  induction (t_ent H) as [|e l IH]; cbn [filter length]; auto.
  assert (length (filter (fun e => row e =? col e) l) <= length l).
  { clear. induction l as [|e l IH]; simpl; auto. destruct (row e =? col e); simpl; lia. }
  destruct (row e =? col e); cbn [length negb]; lia.
Qed.
Print Assumptions C37_hessian_blocks.
Example C37_case_jac :
  option_map (@t_ent _) (jac_FR Qc_field 11 3 9 exM exN) =
    Some [(0,0,q 2); (0,2,q 3); (0,3,q (-1)); (0,5,q 1); (1,2,q 5); (1,4,q (-1)); (1,6,q 1);
          (2,1,q 7); (2,2,q 4); (2,7,q (-1)); (2,8,q 1)].
Proof. vm_compute. reflexivity. Qed.
Example C37_case_hess :
  option_map (@t_ent _) (hess_FR Qc_field (Trip 4 4 (repeat (0,0,q 0) 3)) (Trip 2 2 [(0,0,q 3); (0,1,q 5)]) [q 10; q 20]) =
    Some [(0,0,q 13); (0,1,q 5); (1,1,q 20)].
Proof. vm_compute. reflexivity. Qed.

(** * C44: diagonal extraction *)
Theorem C44_extract_diagonal_partial : forall (K : cfield) (A : trip K),
  wf A -> t_m A = t_n A -> sorted (t_ent A) ->
  exists d, extract_diagonal K A (t_m A) = Some d /\ length d = t_m A /\ forall i, i < t_m A -> at_ d i = mat (t_ent A) i i.
Proof. exact extract_spec. Qed.
Print Assumptions C44_extract_diagonal_partial.
(** with a duplicated diagonal entry the last one is returned although the products use the sum *)
Theorem C44_extract_diagonal_refuted : exists (A : trip Qc_field) d,
  wf A /\ t_m A = t_n A /\ row_sorted (t_ent A) /\ extract_diagonal Qc_field A (t_m A) = Some d /\
  at_ d 0 <> mat (t_ent A) 0 0.
Proof.
  exists (Trip 1 1 [(0,0,q 1); (0,0,q 2)]), [q 2]. split.
  { intros e He. simpl in He. repeat (destruct He as [<-|He]; [vm_compute; lia|]). destruct He. }
  split; auto. split. { repeat constructor. } split; [vm_compute; reflexivity|].
  intro E. apply (f_equal this) in E. vm_compute in E. discriminate.
Qed.
Print Assumptions C44_extract_diagonal_refuted.
Example C44_case : extract_diagonal Qc_field (Trip 2 2 [(0,0,q 3); (0,1,q 5); (1,1,q 4)]) 2 = Some [q 3; q 4].
Proof. vm_compute. reflexivity. Qed.

(** a matrix reported diagonal is square and zero off the diagonal, and a square matrix without
    off-diagonal stored positions is reported diagonal *)
Theorem C44_is_diagonal : forall (K : cfield) (A : trip K),
  (is_diagonal K A = true -> t_m A = t_n A /\ forall i j, i <> j -> mat (t_ent A) i j = f0) /\
  (t_m A = t_n A -> (forall e, In e (t_ent A) -> row e = col e) -> is_diagonal K A = true).
Proof.
  intros K A. unfold is_diagonal. split.
  - intro H. apply andb_prop in H. destruct H as [H1 H2]. apply Nat.eqb_eq in H1. split; auto.
    rewrite forallb_forall in H2. intros i j Hij. unfold mat. apply lsum_zero. intros e He. specialize (H2 e He). apply Nat.eqb_eq in H2.
    destruct (Nat.eqb_spec (row e) i); auto. destruct (Nat.eqb_spec (col e) j); auto. lia.
  - intros H1 H2. rewrite H1, Nat.eqb_refl. simpl. apply forallb_forall. intros e He. apply Nat.eqb_eq. auto.
Qed.
Print Assumptions C44_is_diagonal.
Example C44_case_is_diagonal : is_diagonal Qc_field (Trip 2 2 [(0,0,q 3); (1,1,q 4)]) = true /\
  is_diagonal Qc_field (Trip 2 2 [(0,0,q 3); (0,1,q 5)]) = false.
Proof. vm_compute. auto. Qed.

(** * C45: adding a sub-diagonal to a part of a vector *)
Theorem C45_sub_diagonal_partial : forall (K : cfield) (A : trip K) alpha v vs n,
  wf A -> n <= t_m A -> vs + n <= length v ->
  exists r, add_sub_diag_to K A 0 alpha v vs (Some n) = Some r /\ length r = length v /\
    forall p, p < length v -> at_ r p = at_ v p +!
      (if (vs <=? p) && (p <? vs + n) then alpha *! mat (t_ent A) (p - vs) (p - vs) else f0).
Proof.
  intros K A alpha v vs n W H1 H2. destruct (sub_diag_spec K A 0 alpha v vs n) as [r [E1 [E2 E3]]]; auto; try lia.
  exists r. split; auto. split; auto. intros p Hp. rewrite E3 by auto. rewrite Nat.add_0_r. reflexivity.
Qed.
Print Assumptions C45_sub_diagonal_partial.
(** a nonzero start of the diagonal shifts the destination by that start as well *)
Theorem C45_sub_diagonal_refuted : exists (A : trip Qc_field) v r,
  wf A /\ add_sub_diag_to Qc_field A 1 (q 1) v 0 (Some 1) = Some r /\
  mat (t_ent A) 1 1 <> q 0 /\ at_ r 0 = at_ v 0 /\ at_ r 1 <> at_ v 1.
Proof.
  exists (Trip 2 2 [(0,0,q 1); (1,1,q 2)]), [q 0; q 0], [q 0; q 2]. split.
  { intros e He. simpl in He. repeat (destruct He as [<-|He]; [vm_compute; lia|]). destruct He. }
  split; [vm_compute; reflexivity|]. split; [|split; [reflexivity|]];
  intro E; apply (f_equal this) in E; vm_compute in E; discriminate.
Qed.
Print Assumptions C45_sub_diagonal_refuted.
Example C45_case : add_sub_diag_to Qc_field (Trip 2 2 [(0,0,q 3); (0,1,q 5); (1,1,q 4)]) 0 (q 2) [q 1; q 1; q 1] 1 (Some 2)
  = Some [q 1; q 7; q 9].
Proof. vm_compute. reflexivity. Qed.
