(** C87: mixed dense-sparse matrices stand for [S D] (Jacobians) and diag(S, D) (Hessians): the operations the solver
    uses on them are those of that matrix. *)
From Coq Require Import List Bool Arith Lia QArith Qcanon.
From Verif Require Import RingKit SparseModel SparseSpec MdsMatModel MdsMatSpec MdsMatProofs.
From Verif Require DenseModel DenseSpec DenseProofs SparseProps.
Import ListNotations.
Local Open Scope nat_scope.

Theorem C87_times_vec : forall (K : cfield) (is_one : K -> bool) m (M : mds K) (beta : K) y alpha x,
  (forall b, is_one b = true -> b = f1) -> okm m M -> length x = nsp M + nde M -> length y = m ->
  exists y', times_vec K is_one M beta y alpha x = Some y' /\ length y' = m /\
    forall i, i < m -> at_ y' i = beta *! at_ y i +! alpha *! sumn (nsp M + nde M) (fun j => ent M i j *! at_ x j).
Proof. intros K is_one m M beta y alpha x H. exact (times_vec_ok K is_one H m M beta y alpha x). Qed.
Print Assumptions C87_times_vec.

Theorem C87_trans_times_vec : forall (K : cfield) m (M : mds K) (beta : K) y alpha x,
  okm m M -> length y = nsp M + nde M -> length x = m ->
  exists y', trans_times_vec K M beta y alpha x = Some y' /\ length y' = nsp M + nde M /\
    forall j, j < nsp M + nde M -> at_ y' j = beta *! at_ y j +! alpha *! sumn m (fun i => ent M i j *! at_ x i).
Proof. exact trans_times_vec_ok. Qed.
Print Assumptions C87_trans_times_vec.

(** Full statement: W' = beta W + alpha M X^T.  Missing: alpha other than 1, which is ignored (refuted below). *)
Theorem C87_times_mat_trans_partial : forall (K : cfield) (is_one : K -> bool) m k (M X : mds K) (beta : K) W,
  (forall b, is_one b = true -> b = f1) -> okm m M -> okm k X -> nsp M = nsp X -> nde M = nde X ->
  sorted (t_ent (m_sp M)) -> sorted (t_ent (m_sp X)) -> dwf W -> d_m W = m -> d_n W = k -> 0 < m -> 0 < k ->
  exists W', times_mat_trans K is_one M beta W f1 X = Some W' /\ d_m W' = m /\ d_n W' = k /\ dwf W' /\
    forall p r, p < m -> r < k -> dmat W' p r = beta *! dmat W p r +! sumn (nsp M + nde M) (fun c => ent M p c *! ent X r c).
Proof. intros K is_one m k M X beta W H. exact (times_mat_trans_ok K is_one H m k M X beta W f1). Qed.
Print Assumptions C87_times_mat_trans_partial.

Theorem C87_trans_add : forall (K : cfield) m (M : mds K) rs cs alpha W,
  okm m M -> dwf W -> d_m W = d_n W -> rs + (nsp M + nde M) <= S cs -> cs + m <= d_n W -> 0 < m ->
  exists W', trans_add K M rs cs alpha W = Some W' /\ d_m W' = d_m W /\ d_n W' = d_n W /\ dwf W' /\
    forall p r, p < d_m W -> r < d_n W -> dmat W' p r = dmat W p r +!
      (if (rs <=? p) && (p <? rs + (nsp M + nde M)) && (cs <=? r) && (r <? cs + m) then alpha *! ent M (r - cs) (p - rs) else f0).
Proof. exact trans_add_ok. Qed.
Print Assumptions C87_trans_add.

Theorem C87_scale_row : forall (K : cfield) m (M : mds K) v inv, okm m M -> length v = m ->
  exists M', scale_row K M v inv = Some M' /\ okm m M' /\ nsp M' = nsp M /\ nde M' = nde M /\
    forall i j, i < m -> j < nsp M + nde M -> ent M' i j = (if inv then f1 /! at_ v i else at_ v i) *! ent M i j.
Proof. exact scale_ok. Qed.
Print Assumptions C87_scale_row.

(** the Jacobian of the restoration problem: columns x_sparse, p_c, n_c, p_d, n_d, x_dense *)
Theorem C87_jac_FR : forall (K : cfield) mc md (M Jc Jd : mds K),
  okm mc Jc -> okm md Jd -> DenseSpec.good (m_de M) -> DenseModel.dm (m_de M) = mc + md ->
  sorted (t_ent (m_sp Jc)) -> sorted (t_ent (m_sp Jd)) -> nsp Jc = nsp Jd -> nde Jc = nde M -> nde Jd = nde M ->
  nsp M = nsp Jc + 2 * mc + 2 * md ->
  length (t_ent (m_sp M)) = length (t_ent (m_sp Jc)) + 2 * mc + (length (t_ent (m_sp Jd)) + 2 * md) ->
  exists r, jac_FR K M Jc Jd = Some r /\ nsp r = nsp M /\ nde r = nde M /\
    (forall i j, i < mc -> j < nsp Jc -> ent r i j = ent Jc i j) /\
    (forall i j, i < mc -> j < nde Jc -> ent r i (nsp M + j) = ent Jc i (nsp Jc + j)) /\
    (forall i j, i < md -> j < nsp Jd -> ent r (mc + i) j = ent Jd i j) /\
    (forall i j, i < md -> j < nde Jd -> ent r (mc + i) (nsp M + j) = ent Jd i (nsp Jd + j)) /\
    (forall i j, i < mc -> j < mc -> ent r i (nsp Jc + j) = if i =? j then fopp f1 else f0) /\
    (forall i j, i < mc -> j < mc -> ent r i (nsp Jc + mc + j) = if i =? j then f1 else f0) /\
    (forall i j, i < md -> j < md -> ent r (mc + i) (nsp Jc + 2 * mc + j) = if i =? j then fopp f1 else f0) /\
    (forall i j, i < md -> j < md -> ent r (mc + i) (nsp Jc + 2 * mc + md + j) = if i =? j then f1 else f0) /\
    (forall i j, i < mc -> j < 2 * md -> ent r i (nsp Jc + 2 * mc + j) = f0) /\
    (forall i j, i < md -> j < 2 * mc -> ent r (mc + i) (nsp Jc + j) = f0).
Proof.
  intros K mc md M Jc Jd (W1 & M1 & G1 & D1) (W2 & M2 & G2 & D2) G DM S1 S2 N ND1 ND2 NM Hn. unfold jac_FR. subst mc. subst md. unfold nsp, nde in *.
  destruct (SparseProps.C37_jacobian_blocks K (length (t_ent (m_sp M))) (t_m (m_sp M)) (t_n (m_sp M)) (m_sp Jc) (m_sp Jd)) as (s & E & _ & _ & A1 & A2 & A3 & A4 & A5 & A6 & A7 & A8); auto.
  assert (Sn : t_n s = t_n (m_sp M)).
  { clear - E. unfold SparseModel.jac_FR in E. destruct (_ && _); [|discriminate]. do 2 (destruct (row_starts _ _); [|discriminate]). cbv zeta in E.
    do 2 (destruct (ofold _ _ _); [|discriminate]). destruct (_ =? _); [|discriminate]. injection E as <-. reflexivity. }
  rewrite E. rewrite (proj2 (Nat.eqb_eq _ _) ND1), (proj2 (Nat.eqb_eq _ _) ND2). cbn [andb].
  pose proof G as [_ Gm]. pose proof G1 as [_ G1m]. pose proof G2 as [_ G2m].
  destruct (DenseProofs.copy_rows_ok K (m_de M) (m_de Jc) (DenseModel.dm (m_de Jc)) 0) as (d1 & Ed1 & (Q1 & Q2 & Q3 & Q4 & Q5)); auto; try lia. rewrite Ed1.
  destruct (DenseProofs.copy_rows_ok K d1 (m_de Jd) (DenseModel.dm (m_de Jd)) (DenseModel.dm (m_de Jc))) as (d2 & Ed2 & (P1 & P2 & P3 & P4 & P5)); auto; try lia. rewrite Ed2.
  cbn [option_map]. eexists. split; [reflexivity|]. unfold ent, nsp. cbn [m_sp m_de]. rewrite Sn. split; [reflexivity|]. split; [congruence|].
  assert (L : forall j, j < t_n (m_sp M) -> (j <? t_n (m_sp M)) = true) by (intros j Hj; apply Nat.ltb_lt; exact Hj).
  assert (R : forall a j, (a + j <? a) = false) by (intros a j; apply Nat.ltb_ge; lia).
  assert (R' : forall a j, a + j - a = j) by lia.
  repeat apply conj.
  - intros i j Hi Hj. rewrite L by lia. rewrite (proj2 (Nat.ltb_lt _ _) Hj). apply A1; assumption.
  - intros i j Hi Hj. rewrite !R, !R'. rewrite P5 by lia. rewrite (proj2 (Nat.leb_gt (DenseModel.dm (m_de Jc)) i)) by lia. cbn [andb]. rewrite Q5 by lia. cbn [Nat.leb Nat.add andb].
    rewrite (proj2 (Nat.ltb_lt i _)) by lia. rewrite Nat.sub_0_r. reflexivity.
  - intros i j Hi Hj. rewrite L by lia. rewrite (proj2 (Nat.ltb_lt _ _) Hj). apply A2; lia.
  - intros i j Hi Hj. rewrite !R, !R'. rewrite P5 by lia. rewrite (proj2 (Nat.leb_le (DenseModel.dm (m_de Jc)) _)) by lia. rewrite (proj2 (Nat.ltb_lt (t_m (m_sp Jc) + i) _)) by lia. cbn [andb].
    rewrite D1, R'. reflexivity.
  - intros i j Hi Hj. rewrite L by lia. apply A3; assumption.
  - intros i j Hi Hj. rewrite L by lia. apply A4; assumption.
  - intros i j Hi Hj. rewrite L by lia. apply A5; assumption.
  - intros i j Hi Hj. rewrite L by lia. apply A6; assumption.
  - intros i j Hi Hj. rewrite L by lia. apply A7; assumption.
  - intros i j Hi Hj. rewrite L by lia. apply A8; assumption.
Qed.
Print Assumptions C87_jac_FR.

(** Hessians: the symmetric matrix diag(S, D) *)
Theorem C87_sym_times_vec : forall (K : cfield) (is_one : K -> bool) (M : mds K) (beta : K) y alpha x,
  (forall b, is_one b = true -> b = f1) -> oks M -> length x = nsp M + nde M -> length y = nsp M + nde M ->
  exists y', sym_times_vec K is_one M beta y alpha x = Some y' /\ length y' = nsp M + nde M /\
    forall i, i < nsp M + nde M -> at_ y' i = beta *! at_ y i +! alpha *! sumn (nsp M + nde M) (fun j => sent M i j *! at_ x j).
Proof. intros K is_one M beta y alpha x H. exact (sym_times_vec_ok K is_one H M beta y alpha x). Qed.
Print Assumptions C87_sym_times_vec.

Theorem C87_sym_add_upper : forall (K : cfield) (M : mds K) st alpha W,
  oks M -> (forall e, In e (t_ent (m_sp M)) -> row e <= col e) -> dwf W -> d_m W = d_n W -> st + (nsp M + nde M) <= d_m W ->
  exists W', add_upper K M st alpha W = Some W' /\ d_m W' = d_m W /\ d_n W' = d_n W /\ dwf W' /\
    forall p r, p < d_m W -> r < d_n W -> dmat W' p r = dmat W p r +!
      (if (st <=? p) && (p <=? r) && (r <? st + (nsp M + nde M)) then alpha *! sent M (p - st) (r - st) else f0).
Proof. exact add_upper_ok. Qed.
Print Assumptions C87_sym_add_upper.

(** *** counterexamples *)
Definition q (z : Z) : Qc_field := Q2Qc (inject_Z z).
Definition qone (x : Qc_field) : bool := if Qc_eq_dec x (q 1) then true else false.
(** 2 x (2+1): [1 0 | 4; 0 3 | 5], and 1 x (2+1): [2 0 | 1] *)
Definition exJ : mds Qc_field := Mds (Trip 2 2 [(0,0,q 1); (1,1,q 3)]) (DenseModel.DMat 2 1 2 [q 4; q 5]).
Definition exX : mds Qc_field := Mds (Trip 1 2 [(0,0,q 2)]) (DenseModel.DMat 1 1 1 [q 1]).
(** diag([1 2; 2 0], [7]) *)
Definition exH : mds Qc_field := Mds (Trip 2 2 [(0,0,q 1); (0,1,q 2)]) (DenseModel.DMat 1 1 1 [q 7]).

(** the factor alpha of M X^T has no effect at all *)
Theorem C87_times_mat_trans_refuted :
  (forall (K : cfield) is_one (M X : mds K) beta W a b, times_mat_trans K is_one M beta W a X = times_mat_trans K is_one M beta W b X) /\
  okm 2 exJ /\ okm 1 exX /\
  exists W', times_mat_trans Qc_field qone exJ (q 0) (Dense 2 1 [q 0; q 0]) (q 2) exX = Some W' /\
    dmat W' 0 0 = q 6 /\ dmat W' 0 0 <> q 0 *! q 0 +! q 2 *! sumn 3 (fun c => ent exJ 0 c *! ent exX 0 c).
Proof.
  split; [intros; reflexivity|].
  assert (A : okm 2 exJ).
  { repeat split; cbn; try lia; destruct H as [<-|[<-|[]]]; cbn; lia. }
  assert (B : okm 1 exX).
  { repeat split; cbn; try lia; destruct H as [<-|[]]; cbn; lia. }
  split; [exact A|]. split; [exact B|].
  eexists. split; [reflexivity|]. split; [apply Qc_is_canon; vm_compute; reflexivity|].
  intro H. apply (f_equal this) in H. vm_compute in H. discriminate.
Qed.
Print Assumptions C87_times_mat_trans_refuted.

(** scaling the rows of a Hessian: no vector works when both blocks have rows and their sizes differ *)
Theorem C87_sym_scale_refuted :
  (forall (K : cfield) (M : mds K) v inv, oks M -> length v = nsp M + nde M -> 0 < nsp M -> 0 < nde M -> scale_row K M v inv = None) /\
  oks exH /\ scale_row Qc_field exH [q 1; q 1; q 1] false = None.
Proof.
  split; [|split; [|reflexivity]].
  - intros K M v inv (W & Sq & G & Dq) Hv Hs Hd. unfold scale_row, nsp, nde in *. destruct (SparseModel.scale_row K (m_sp M) v inv); [|reflexivity].
    unfold DenseModel.scale_row. rewrite (proj2 (Nat.eqb_neq (DenseModel.dm (m_de M)) (length v))) by lia. reflexivity.
  - repeat split; cbn; try lia; destruct H as [<-|[<-|[]]]; cbn; lia.
Qed.
Print Assumptions C87_sym_scale_refuted.

(** *** concrete cases *)
Lemma ex_ok : okm 2 exJ /\ okm 1 exX /\ oks exH.
Proof. split; [apply C87_times_mat_trans_refuted|]. split; [apply C87_times_mat_trans_refuted|apply C87_sym_scale_refuted]. Qed.
Example C87_times_vec_case : okm 2 exJ /\ nsp exJ = 2 /\ nde exJ = 1 /\
  times_vec Qc_field qone exJ (q 2) [q 1; q 1] (q 1) [q 1; q 2; q 3] = Some [q 15; q 23].
Proof. split; [apply ex_ok|]. repeat split; reflexivity. Qed.
Example C87_trans_times_vec_case : okm 2 exJ /\ trans_times_vec Qc_field exJ (q 2) [q 1; q 1; q 1] (q 1) [q 1; q 2] = Some [q 3; q 8; q 16].
Proof. split; [apply ex_ok|reflexivity]. Qed.
Example C87_times_mat_trans_case : okm 2 exJ /\ okm 1 exX /\ sorted (t_ent (m_sp exJ)) /\ sorted (t_ent (m_sp exX)) /\
  option_map (@d_arr _) (times_mat_trans Qc_field qone exJ (q 1) (Dense 2 1 [q 1; q 1]) (q 1) exX) = Some [q 7; q 6].
Proof. split; [apply ex_ok|]. split; [apply ex_ok|]. split; [|split; [|reflexivity]]; repeat constructor; cbn; lia. Qed.
Example C87_trans_add_case : okm 1 exX /\
  option_map (@d_arr _) (trans_add Qc_field exX 0 3 (q 2) (Dense 4 4 (repeat (q 0) 16))) =
  Some [q 0; q 0; q 0; q 4;  q 0; q 0; q 0; q 0;  q 0; q 0; q 0; q 2;  q 0; q 0; q 0; q 0].
Proof. split; [apply ex_ok|reflexivity]. Qed.
Example C87_scale_row_case : okm 2 exJ /\ option_map (fun M => (t_ent (m_sp M), DenseModel.dbuf (m_de M))) (scale_row Qc_field exJ [q 2; q 3] false) =
  Some ([(0,0,q 2); (1,1,q 9)], [q 8; q 15]).
Proof. split; [apply ex_ok|reflexivity]. Qed.
Example C87_jac_FR_case : okm 2 exJ /\ okm 1 exX /\
  exists r, jac_FR Qc_field (Mds (Trip 3 8 (repeat (0,0,q 0) 9)) (DenseModel.DMat 3 1 3 (repeat (q 0) 3))) exJ exX = Some r /\
    map (fun j => ent r 0 j) (seq 0 9) = [q 1; q 0; q (-1); q 0; q 1; q 0; q 0; q 0; q 4] /\
    map (fun j => ent r 2 j) (seq 0 9) = [q 2; q 0; q 0; q 0; q 0; q 0; q (-1); q 1; q 1].
Proof. split; [apply ex_ok|]. split; [apply ex_ok|]. eexists. split; [reflexivity|]. split; reflexivity. Qed.
Example C87_sym_times_vec_case : oks exH /\ sym_times_vec Qc_field qone exH (q 0) [q 9; q 9; q 9] (q 1) [q 1; q 2; q 3] = Some [q 5; q 2; q 21].
Proof. split; [apply ex_ok|reflexivity]. Qed.
Example C87_sym_add_upper_case : oks exH /\ option_map (@d_arr _) (add_upper Qc_field exH 0 (q 2) (Dense 3 3 (repeat (q 1) 9))) =
  Some [q 3; q 5; q 1; q 1; q 1; q 1; q 1; q 1; q 15].
Proof. split; [apply ex_ok|reflexivity]. Qed.
