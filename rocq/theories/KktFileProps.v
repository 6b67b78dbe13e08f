(** C88: the linear systems saved with option write_kkt are the ones solved. *)
From Coq Require Import Reals Qreals Lra.
From Flocq Require Import Core.
From Coq Require Import List Bool Arith ZArith QArith Qabs Qcanon Lia.

From Verif Require Import RingKit PackModel SparseModel SparseSpec CsrModel CsrSpec ConvModel ConvSpec KktFileModel KktFileSpec KktFileProofs KktFileProofs2.
From Verif Require ConvProps KktFileProofs3.
Import ListNotations.
Local Close Scope Qc_scope. Local Close Scope Q_scope. Local Open Scope nat_scope.

(** dense systems: sizes, the symmetric matrix and the vectors, each number within half a unit of the 20th decimal *)
Theorem C88_dense : forall m nx meq mineq M l, length M = m * m ->
  (forall q, In q l -> length (fst q) = m /\ length (snd q) = m) ->
  exists F, write_dense m nx meq mineq M = Some F /\
    let t := concat (F ++ pair_lines l) in
    f_m t = m /\ f_nx t = nx /\ f_meq t = meq /\ f_mineq t = mineq /\
    (forall i j, i < m -> j < m -> near 1 (loaded t i j) (sym_up m M i j)) /\
    (forall p r x i, nth_error l p = Some (r, x) -> i < m -> near 1 (f_rhs t p i) (nth i r (Q2Qc 0)) /\ near 1 (f_sol t p i) (nth i x (Q2Qc 0))).
Proof.
  intros m nx meq mineq M l HM Hl. destruct (write_dense_ok m nx meq mineq M HM) as (F & E & C). exists F. split; [exact E|]. cbv zeta.
  rewrite concat_app, C. set (rows := map (urow m M) (seq 0 m)). assert (L : length rows = m) by (unfold rows; rewrite map_length; apply seq_length).
  destruct (r_head m nx meq mineq rows (concat (pair_lines l))) as (A1 & A2 & A3 & A4 & A5).
  split; [exact A1|]. split; [exact A2|]. split; [exact A3|]. split; [exact A4|]. split.
  - intros i j Hi Hj. apply dense_loaded; assumption.
  - intros p r x i Hp Hi. destruct (pair_tok m l p i r x Hl Hp Hi) as [T1 T2]. unfold f_rhs, f_sol. rewrite A1, A5. rewrite <- !(Nat.add_assoc (_ + 6)). rewrite !r_rest by exact L. rewrite T1, T2. split; apply fix20_near.
Qed.
Print Assumptions C88_dense.

(** triplet systems: the saved triplets add up to the stored matrix *)
Theorem C88_sparse : forall srt j0 nx meq mineq (A : trip Qc_field) l, sorts srt -> t_m A = t_n A -> wf A -> one_extra A ->
  (forall q, In q l -> length (fst q) = t_m A /\ length (snd q) = t_m A) ->
  exists F, write_sparse srt j0 nx meq mineq A = Some F /\
    let t := concat (F ++ pair_lines l) in
    f_m t = t_m A /\ f_nx t = nx /\ f_meq t = meq /\ f_mineq t = mineq /\
    (forall i j, i < t_m A -> j < t_m A -> near (count_at A i j) (raw t i j) (mat (t_ent A) i j)) /\
    (forall p r x i, nth_error l p = Some (r, x) -> i < t_m A -> near 1 (f_rhs t p i) (nth i r (Q2Qc 0)) /\ near 1 (f_sol t p i) (nth i x (Q2Qc 0))).
Proof.
  intros srt j0 nx meq mineq A l H1 H2 H3 H4 Hl. destruct (write_sparse_ok srt j0 nx meq mineq A H1 H2 H3 H4) as (F & rows & E & C & L & M & N). exists F. split; [exact E|]. cbv zeta.
  rewrite concat_app, C. destruct (r_head (t_m A) nx meq mineq rows (concat (pair_lines l))) as (A1 & A2 & A3 & A4 & A5).
  split; [exact A1|]. split; [exact A2|]. split; [exact A3|]. split; [exact A4|]. split.
  - intros i j Hi Hj. apply sparse_raw; assumption.
  - intros p r x i Hp Hi. destruct (pair_tok (t_m A) l p i r x Hl Hp Hi) as [T1 T2]. unfold f_rhs, f_sol. rewrite A1, A5. rewrite <- !(Nat.add_assoc (_ + 6)). rewrite !r_rest by exact L. rewrite T1, T2. split; apply fix20_near.
Qed.
Print Assumptions C88_sparse.

(** Full statement: the matrix loaded from the file is the symmetric matrix the solver was given.  Missing: systems
    stored with entries on both sides of the diagonal (refuted below: that is how the sparse KKT systems are stored). *)
Theorem C88_sparse_symmetric_partial : forall srt j0 nx meq mineq (A : trip Qc_field) l, sorts srt -> t_m A = t_n A -> wf A -> one_extra A ->
  (forall e, In e (t_ent A) -> col e <= row e) ->
  exists F, write_sparse srt j0 nx meq mineq A = Some F /\
    forall i j, i < t_m A -> j < t_m A -> near (count_at A (Nat.max i j) (Nat.min i j)) (loaded (concat (F ++ pair_lines l)) i j) (symmat (t_ent A) i j).
Proof.
  intros srt j0 nx meq mineq A l H1 H2 H3 H4 Low. destruct (write_sparse_ok srt j0 nx meq mineq A H1 H2 H3 H4) as (F & rows & E & C & L & M & N). exists F. split; [exact E|].
  intros i j Hi Hj. rewrite concat_app, C. apply sparse_loaded; assumption.
Qed.
Print Assumptions C88_sparse_symmetric_partial.

(** one KKT object, option on: one file per matrix, followed by the right-hand sides and solutions up to the next *)
Theorem C88_files : forall srt j0 ops d0, option_on ops -> fits None ops ->
  (forall on nx meq mineq A, In (Build on nx meq mineq A) ops -> write_mat srt j0 nx meq mineq A <> None) ->
  exists d w, run srt j0 KAll ops (d0, fresh) = Some (d, w) /\
    (forall k nx meq mineq A l, nth_error (rev (groups [] ops)) k = Some (nx, meq, mineq, A, l) ->
       exists F, write_mat srt j0 nx meq mineq A = Some F /\ d k = Some (F ++ pair_lines l)) /\
    (forall k, length (groups [] ops) <= k -> d k = d0 k).
Proof.
  intros srt j0 ops d0 On Fi W. destruct (run_groups srt j0 ops d0 [] (d0, fresh)) as ([d w] & E & _ & _ & G3 & G4); auto.
  - repeat split; cbn; try discriminate; auto. intros k g Hk. destruct k; discriminate.
  - exists d, w. split; [exact E|]. split; [|exact G4]. intros k nx meq mineq A l Hk. destruct (G3 k _ Hk) as (f & Ef & F & EF & Ff). cbn [fst] in Ef. exists F. split; [exact EF|]. congruence.
Qed.
Print Assumptions C88_files.

(** Full statement: the double read from the file is the double written.  Missing: magnitudes below 2^-13 (refuted below). *)
Theorem C88_exact_partial : forall x : Qc,
  generic_format radix2 (FLT_exp (-1074) 53) (Q2R (this x)) ->
  Rle (bpow radix2 (-13)) (Rabs (Q2R (this x))) ->
  round radix2 (FLT_exp (-1074) 53) ZnearestE (Q2R (this (num (TD (fix20 x))))) = Q2R (this x).
Proof.
  intros x F H. apply KktFileProofs3.round_near; [exact F|exact H|]. pose proof (KktFileProofs3.near_R 1 _ _ (fix20_near x)) as N.
  change (INR 1) with (IZR 1) in N. rewrite Rmult_1_l in N. exact N.
Qed.
Print Assumptions C88_exact_partial.

(** *** counterexamples *)
Definition q (z : Z) : Qc := Q2Qc (inject_Z z).
(** the double 2^-70 is printed as zero, although it passes the test for nonzeros of dense matrices *)
Theorem C88_small_refuted : exists x : Qc, x <> Q2Qc 0 /\ (this x == 1 # (2 ^ 70))%Q /\ big x = true /\ num (TD (fix20 x)) = Q2Qc 0.
Proof.
  exists (Q2Qc (1 # (2 ^ 70))). split; [|split; [|split]].
  - intro H. apply (f_equal this) in H. vm_compute in H. discriminate.
  - apply Qred_correct.
  - vm_compute. reflexivity.
  - apply Qc_is_canon. vm_compute. reflexivity.
Qed.
Print Assumptions C88_small_refuted.

(** two variables and one equality: the Hessian [4 1; 1 4] by its upper triangle, the Jacobian row below, the diagonal
    terms last, as hiopKKTLinSysSparse.cpp 126-172 stores them *)
Definition exK : trip Qc_field :=
  @Trip Qc_field 3 3 [(0,0,q 4); (0,1,q 1); (1,1,q 4); (2,0,q 1); (2,1,q 1); (0,0,q 1); (1,1,q 1); (2,2,q (-1))].
Lemma exK_ok : t_m exK = t_n exK /\ wf exK /\ one_extra exK.
Proof.
  split; [reflexivity|]. split.
  - intros e He. cbn in He. repeat (destruct He as [<-|He]; [cbn; lia|]). destruct He.
  - intro i. destruct i as [|[|[|i]]]; cbn; lia.
Qed.
(** the script takes the saved matrix for a nonsymmetric one: the mirrored entries are missing *)
Theorem C88_sparse_symmetric_refuted : exists F, write_sparse ConvProps.isrt (0, q 0, 0) 2 1 0 exK = Some F /\
  t_m exK = t_n exK /\ wf exK /\ one_extra exK /\
  loaded (concat F) 0 1 = q 1 /\ loaded (concat F) 1 0 = q 0 /\ loaded (concat F) 0 2 = q 0 /\
  symmat (t_ent exK) 1 0 = q 1 /\ symmat (t_ent exK) 0 2 = q 1 /\ q 0 <> q 1.
Proof.
  eexists. split; [vm_compute; reflexivity|]. split; [apply exK_ok|]. split; [apply exK_ok|]. split; [apply exK_ok|].
  repeat (split; [apply Qc_is_canon; vm_compute; reflexivity|]). intro H. apply (f_equal this) in H. vm_compute in H. discriminate.
Qed.
Print Assumptions C88_sparse_symmetric_refuted.

(** normal equations: the first solve after a build fails the writer's assert; condensed system: nothing is saved *)
Theorem C88_other_classes_refuted :
  (forall srt j0 d0 nx meq mineq A r x, run srt j0 KVectors [Build true nx meq mineq A; Solve r x] (d0, fresh) = None) /\
  (forall srt j0 ops d0 w, exists w', run srt j0 KNothing ops (d0, w) = Some (d0, w')).
Proof.
  split; [intros; reflexivity|]. intros srt j0 ops d0. unfold run. induction ops as [|o ops IH]; intro w; [exists w; reflexivity|].
  cbn [ofold]. destruct o as [on nx meq mineq A|r x]; cbn [step]; apply IH.
Qed.
Print Assumptions C88_other_classes_refuted.

(** a second KKT object (created when the solver switches formulations) overwrites the files of the first *)
Theorem C88_second_object_refuted : forall srt j0 ops1 ops2 d0, option_on ops1 -> option_on ops2 -> fits None ops1 -> fits None ops2 ->
  (forall on nx meq mineq A, In (Build on nx meq mineq A) (ops1 ++ ops2) -> write_mat srt j0 nx meq mineq A <> None) ->
  exists d1 w1 d2 w2, run srt j0 KAll ops1 (d0, fresh) = Some (d1, w1) /\ run srt j0 KAll ops2 (d1, fresh) = Some (d2, w2) /\
    (forall k nx meq mineq A l, nth_error (rev (groups [] ops2)) k = Some (nx, meq, mineq, A, l) ->
       exists F, write_mat srt j0 nx meq mineq A = Some F /\ d2 k = Some (F ++ pair_lines l)).
Proof.
  intros srt j0 ops1 ops2 d0 O1 O2 F1 F2 W.
  destruct (C88_files srt j0 ops1 d0 O1 F1) as (d1 & w1 & E1 & _ & _); [intros; apply (W on); apply in_or_app; auto|].
  destruct (C88_files srt j0 ops2 d1 O2 F2) as (d2 & w2 & E2 & G & _); [intros; apply (W on); apply in_or_app; auto|].
  exists d1, w1, d2, w2. auto.
Qed.
Print Assumptions C88_second_object_refuted.

(** *** concrete cases *)
Definition exD : list Qc := [q 2; Q2Qc (1 # 3); q 7; q 0].
Example C88_dense_case : length exD = 2 * 2 /\ exists F, write_dense 2 1 1 0 exD = Some F /\
  F = [[TI 2]; [TI 1]; [TI 1]; [TI 0]; [TI 2]; [TI 1; TI 3; TI 3]; [TI 1; TI 2]; [TD 200000000000000000000; TD 33333333333333333333]] /\
  loaded (concat F) 1 0 = Q2Qc (33333333333333333333 # 100000000000000000000) /\ sym_up 2 exD 1 0 = Q2Qc (1 # 3).
Proof.
  split; [reflexivity|]. eexists. split; [vm_compute; reflexivity|]. split; [reflexivity|]. split; [apply Qc_is_canon; vm_compute; reflexivity|]. reflexivity.
Qed.
Definition exL : trip Qc_field := @Trip Qc_field 2 2 [(0,0,q 4); (1,0,q 1); (0,0,q 1); (1,1,q (-1))].
Example C88_sparse_case : t_m exL = t_n exL /\ wf exL /\ one_extra exL /\ (forall e, In e (t_ent exL) -> col e <= row e) /\
  exists F, write_sparse ConvProps.isrt (0, q 0, 0) 1 1 0 exL = Some F /\
    F = [[TI 2]; [TI 1]; [TI 1]; [TI 0]; [TI 3]; [TI 1; TI 2; TI 4]; [TI 1; TI 1; TI 2]; [TD 500000000000000000000; TD 100000000000000000000; TD (-100000000000000000000)]] /\
    loaded (concat F) 0 1 = q 1.
Proof.
  split; [reflexivity|]. split; [|split; [|split]].
  - intros e He. cbn in He. repeat (destruct He as [<-|He]; [cbn; lia|]). destruct He.
  - intro i. destruct i as [|[|i]]; cbn; lia.
  - intros e He. cbn in He. repeat (destruct He as [<-|He]; [cbn; lia|]). destruct He.
  - eexists. split; [vm_compute; reflexivity|]. split; [reflexivity|]. apply Qc_is_canon. vm_compute. reflexivity.
Qed.
Definition exOps : list op := [Solve [q 9] [q 9]; Build true 1 0 0 (SD 1 [q 2]); Solve [q 4] [q 2]; Solve [q 6] [q 3]; Build true 1 0 0 (SD 1 [q 5]); Solve [q 5] [q 1]].
Example C88_files_case : option_on exOps /\ fits None exOps /\ length (groups [] exOps) = 2 /\
  exists d w, run ConvProps.isrt (0, q 0, 0) KAll exOps (fun _ => None, fresh) = Some (d, w) /\
    d 0 = Some [[TI 1]; [TI 1]; [TI 0]; [TI 0]; [TI 1]; [TI 1; TI 2]; [TI 1]; [TD 200000000000000000000];
                [TD 400000000000000000000]; [TD 200000000000000000000]; [TD 600000000000000000000]; [TD 300000000000000000000]] /\
    d 1 <> None /\ d 2 = None.
Proof.
  split; [|split; [|split; [reflexivity|]]].
  - intros on nx meq mineq A H. cbn in H. repeat (destruct H as [H|H]; [first [discriminate H | (injection H as <- _ _ _ _; reflexivity)]|]). destruct H.
  - cbn. repeat split; auto.
  - eexists. eexists. split; [reflexivity|]. split; [vm_compute; reflexivity|]. split; [vm_compute; discriminate|reflexivity].
Qed.
Example C88_exact_case : generic_format radix2 (FLT_exp (-1074) 53) (Q2R (this (Q2Qc (3 # 4)))) /\
  Rle (bpow radix2 (-13)) (Rabs (Q2R (this (Q2Qc (3 # 4))))) /\ num (TD (fix20 (Q2Qc (3 # 4)))) = Q2Qc (3 # 4).
Proof.
  assert (E : Q2R (this (Q2Qc (3 # 4))) = (3 * / 4)%R) by reflexivity.
  rewrite E. split; [|split].
  - apply generic_format_FLT. exists (Float radix2 3 (-2)); [|cbn; lia|cbn; lia]. unfold F2R. cbn [Fnum Fexp]. reflexivity.
  - rewrite Rabs_pos_eq by Lra.lra. cbn. Lra.lra.
  - apply Qc_is_canon. vm_compute. reflexivity.
Qed.
