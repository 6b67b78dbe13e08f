(** C36: the directions the KKT systems return. *)
From Coq Require Import List Bool Arith ZArith Lia Ring Field QArith Qcanon.
From Verif Require Import RingKit.
From Verif Require Import PackModel SparseModel SparseSpec SparseProps ScaleProps.
From Verif Require Import HessModel HessSpec HessAlgModel HessAlgSpec HessAlgProofs2 HessProps.
From Verif Require Import KktModel KktModel2 KktSpec KktProofs KktProofs2 KktProofs3 KktProofs4 KktProofs5 KktProofs6 KktProofs7 KktProofs8 KktProofs9 KktProofs11.
Import ListNotations.
Close Scope Qc_scope. Close Scope Q_scope. Open Scope nat_scope.

Section C36.
Variable K : cfield.
Add Field kf : (fth K).
Notation vec := (nat -> K).

(** dense problems, 3-block system: an exact solve gives a solution of the whole regularized Newton system, when there
    are no equalities or no dual regularization.  Missing: see [C36_dense_xycyd_refuted] *)
Theorem C36_dense_xycyd_partial : forall (P : prob K) it e r S w, exact K S -> interior K P it -> symmetric K (nx P) (p_H P) ->
  (forall i, i < ni P -> ddiag K P it e i <> f0) ->
  neq P = 0 \/ ((forall i, i < neq P -> e_cc e i = f0) /\ (forall i, i < ni P -> e_cd e i = f0)) ->
  dense_xycyd K S P it e r = Some w -> newton K P it e r w.
Proof.
  intros P it e r S w EX IN SY DD HE E.
  refine (xycyd_ok K P it e r _ w (dd_inv K P it e) IN DD (fun i _ => dd_inv_eq K P it e i) _ E).
  intros rx ryc ryd dx dyc dyd. exact (dense_xycyd_solve_ok K P it e SY HE S rx ryc ryd dx dyc dyd EX).
Qed.
(** dense problems, 4-block system, likewise *)
Theorem C36_dense_xdycyd_partial : forall (P : prob K) it e r S w, exact K S -> interior K P it -> symmetric K (nx P) (p_H P) ->
  neq P = 0 \/ ((forall i, i < neq P -> e_cc e i = f0) /\ (forall i, i < ni P -> e_cd e i = f0)) ->
  dense_xdycyd K S P it e r = Some w -> newton K P it e r w.
Proof.
  intros P it e r S w EX IN SY HE E. refine (xdycyd_ok K P it e r _ w IN _ E).
  intros rx rd ryc ryd dx dd dyc dyd. exact (dense_xdycyd_solve_ok K P it e SY HE S rx rd ryc ryd dx dd dyc dyd EX).
Qed.
(** mixed dense-sparse problems, for any regularization *)
Theorem C36_mds : forall (D : mds K) it e r S w, exact K S -> interior K (mds_prob K D) it -> symmetric K (d_nd D) (d_Hd D) ->
  (forall i, i < d_ni D -> ddiag K (mds_prob K D) it e i <> f0) ->
  (forall i, i < d_ns D -> xdiag K (mds_prob K D) it i +! e_wx e i +! d_Hs D i <> f0) ->
  mds_xycyd K S D it e r = Some w -> newton K (mds_prob K D) it e r w.
Proof.
  intros D it e r S w EX IN SY DD HN E.
  refine (xycyd_ok K _ it e r _ w _ IN DD (fun i _ => dd_inv_eq K _ it e i) _ E).
  assert (HN' : forall j, j < d_ns D -> mds_hxs K D it e j <> f0).
  { intros j Hj. unfold mds_hxs. rewrite barrier_x_eq. exact (HN j Hj). }
  intros rx ryc ryd dx dyc dyd. exact (mds_solve_ok K D it e SY HN' S rx ryc ryd dx dyc dyd EX).
Qed.
(** the quasi-Newton system, after any history of accepted pairs: the Hessian is the BFGS matrix of the pairs kept *)
Theorem C36_lowrank : forall junk lmax qs (P : prob K), exists m, remember K (nx P) junk lmax qs = Some m /\
  forall solveV S it sigma old Wold r w, exact K S -> interior K P it ->
  p_H P = matrix_of K (bfgs K (nx P) sigma (lastn lmax qs)) -> defined K (nx P) sigma (lastn lmax qs) ->
  (forall i, i < nx P -> sigma +! xdiag K P it i <> f0) -> (forall i, i < ni P -> ddiag K P it (no_deltas K) i <> f0) ->
  exactV K (nx P) solveV sigma (dhinv K sigma (barrier_x K P it)) m old ->
  lowrank K solveV S P it sigma m old Wold r = Some w -> newton K P it (no_deltas K) r w.
Proof.
  intros junk lmax qs P. destruct (remember_ok K (nx P) junk lmax qs) as (m & E & M). exists m. split; [exact E|].
  intros solveV S it sigma old Wold r w EX IN HH HD HN DD HV EW.
  refine (xycyd_ok K P it (no_deltas K) r _ w _ IN DD (fun i _ => dd_inv_eq K P it _ i) _ EW).
  assert (HN' : forall p, p < nx P -> sigma +! barrier_x K P it p <> f0) by (intros p Hp; rewrite barrier_x_eq; exact (HN p Hp)).
  intros rx ryc ryd dx dyc dyd. exact (lr_solve_ok K P it solveV S sigma m old Wold _ M HD HN' HV HH rx ryc ryd dx dyc dyd EX).
Qed.
(** the normal equations, for constant matrices, after any number of builds with truthful reports of what changed.
    Missing: reports that are not truthful, see [C36_normal_refuted]; changing matrices, see [C36_normal_stale_refuted] *)
Theorem C36_normal_partial : forall (P : prob K) junk jv bs it e dual r S w, exact K S -> interior K P it ->
  (forall i j, i < nx P -> j < nx P -> i <> j -> p_H P i j = f0) ->
  (forall i, i < nx P -> xdiag K P it i +! e_wx e i +! p_H P i i <> f0) -> (forall i, i < ni P -> ddiag K P it e i <> f0) ->
  reports_ok K None (bs ++ [(it, e, dual)]) ->
  ne_dir K S P it r (ne_builds K (map (fun b => match b with (it, e, dual) => (P, it, e, dual) end) (bs ++ [(it, e, dual)])) (ne_new K junk jv)) = Some w ->
  newton K P it e r w.
Proof.
  intros P junk jv bs it e dual r S w EX IN HO HX DD RO E.
  refine (ne_dir_ok K P it e r _ S w IN HO HX DD _ EX E).
  apply builds_ok with (prev := None); [|exact RO]. left. split; reflexivity.
Qed.

(** * sparse triplet systems *)
Definition xy_slots (Q : sprob K) (M : trip K) : Prop := let P := sp_prob K Q in
  slots_of K (nx P + neq P + ni P) (length (t_ent (s_H Q)) + length (t_ent (s_Jc Q)) + length (t_ent (s_Jd Q)) + nx P + neq P + ni P) M.
Definition xd_slots (Q : sprob K) (M : trip K) : Prop := let P := sp_prob K Q in
  slots_of K (nx P + ni P + neq P + ni P)
    (length (t_ent (s_H Q)) + length (t_ent (s_Jc Q)) + length (t_ent (s_Jd Q)) + ni P + nx P + ni P + neq P + ni P) M.
Definition full_slots (Q : sprob K) (M : trip K) : Prop := let P := sp_prob K Q in
  let b := marks (s_idl Q) + marks (s_idu Q) + marks (s_ixl Q) + marks (s_ixu Q) in
  slots_of K (nx P + neq P + ni P + ni P + b + b)
    (length (t_ent (s_H Q)) + num_offdiag K (s_H Q) + 2 * length (t_ent (s_Jc Q)) + 2 * length (t_ent (s_Jd Q)) + 2 * (ni P + b + b) + b +
     (nx P + neq P + ni P + ni P)) M.
Lemma full_slots_eq Q M : full_slots Q M -> slots_of K
  (nx (sp_prob K Q) + neq (sp_prob K Q) + ni (sp_prob K Q) + ni (sp_prob K Q) + marks (s_idl Q) + marks (s_idu Q) + marks (s_ixl Q) + marks (s_ixu Q) +
   marks (s_idl Q) + marks (s_idu Q) + marks (s_ixl Q) + marks (s_ixu Q))
  (length (t_ent (s_H Q)) + num_offdiag K (s_H Q) + 2 * length (t_ent (s_Jc Q)) + 2 * length (t_ent (s_Jd Q)) +
   2 * (ni (sp_prob K Q) + marks (s_idl Q) + marks (s_idu Q) + marks (s_ixl Q) + marks (s_ixu Q) + marks (s_idl Q) + marks (s_idu Q) + marks (s_ixl Q) + marks (s_ixu Q)) +
   marks (s_idl Q) + marks (s_idu Q) + marks (s_ixl Q) + marks (s_ixu Q) + (nx (sp_prob K Q) + neq (sp_prob K Q) + ni (sp_prob K Q) + ni (sp_prob K Q))) M.
Proof. intros (A & B & C). repeat split; lia. Qed.
(** the space computed for the matrices is what their assembly fills: no entry is written outside, none is left over *)
Theorem C36_sparse_assembly : forall (Q : sprob K) it e M, sparse_ok K Q ->
  (forall Ddi, xy_slots Q M -> exists R, sp_xycyd_mat K Q it e Ddi M = Some R /\ length (t_ent R) = length (t_ent M)) /\
  (xd_slots Q M -> exists R, sp_xdycyd_mat K Q it e M = Some R /\ length (t_ent R) = length (t_ent M)) /\
  (forall Hx Hd, full_slots Q M -> exists R, sp_full_mat K Q it e Hx Hd M = Some R /\ length (t_ent R) = length (t_ent M)).
Proof.
  intros Q it e M OK. split; [|split].
  - intros Ddi SL. destruct (xy_mat K Q it e OK Ddi M SL) as (R & ER & ET). exists R. split; [exact ER|].
    destruct SL as (_ & _ & ->). rewrite ET. unfold xy_ent. rewrite ?app_length, ?moved_len, ?diagb_len. lia.
  - intros SL. destruct (xd_mat K Q it e OK M SL) as (R & ER & ET). exists R. split; [exact ER|].
    destruct SL as (_ & _ & ->). rewrite ET. unfold xd_ent. rewrite ?app_length, ?moved_len, ?diagb_len. lia.
  - intros Hx Hd SL. destruct (full_mat K Q it e Hx Hd OK M (full_slots_eq Q M SL)) as (R & ER & ET). exists R. split; [exact ER|].
    destruct SL as (_ & _ & ->). rewrite ET. unfold full_ent. rewrite ?app_length, ?moved_len, ?movedT_len, ?diagb_len, ?colb_len, ?rowb_len, ?offdiag_len.
    unfold num_offdiag, marks. lia.
Qed.
(** 3-block system, when the vector of reciprocals starts from zero and there is no dual regularization of the
    inequalities.  Missing: see [C36_sparse_xycyd_refuted], [C36_sparse_xycyd_dual_refuted] *)
Theorem C36_sparse_xycyd_partial : forall (Q : sprob K) it e old M r S w, exact_sym K S -> sparse_ok K Q -> interior K (sp_prob K Q) it ->
  (forall i, i < ni (sp_prob K Q) -> ddiag K (sp_prob K Q) it e i <> f0) -> xy_slots Q M ->
  (forall i, i < ni (sp_prob K Q) -> old i = f0) -> (forall i, i < ni (sp_prob K Q) -> e_cd e i = f0) ->
  sp_xycyd K S Q it e old M r = Some w -> newton K (sp_prob K Q) it e r w.
Proof.
  intros Q it e old M r S w EX OK IN DD SL HO HC E. unfold sp_xycyd in E. cbv zeta in E.
  destruct (xy_mat K Q it e OK (sp_ddi K (sp_prob K Q) it e old) M SL) as (R & ER & ET). rewrite ER in E. cbn [obind] in E.
  refine (xycyd_ok K _ it e r _ w _ IN DD _ _ E).
  - intros i Hi. unfold sp_ddi. rewrite (HC i Hi). rewrite <- dd_inv_eq. unfold dd_inv, axdz. rewrite (HO i Hi).
    rewrite !(Fdiv_def (fth K)). destruct (idl (sp_prob K Q) i), (idu (sp_prob K Q) i);
      match goal with |- f1 *! finv ?a +! f0 = f1 *! finv ?b => replace a with b by ring; ring end.
  - intros rx ryc ryd dx dyc dyd. exact (xy_solve_ok K Q it e OK _ S R rx ryc ryd dx dyc dyd EX ET HC).
Qed.
(** 4-block system, for any regularization and any number of builds *)
Theorem C36_sparse_xdycyd : forall (Q : sprob K) it e M r S w, exact_sym K S -> sparse_ok K Q -> interior K (sp_prob K Q) it -> xd_slots Q M ->
  sp_xdycyd K S Q it e M r = Some w -> newton K (sp_prob K Q) it e r w.
Proof.
  intros Q it e M r S w EX OK IN SL E. unfold sp_xdycyd in E. cbv zeta in E.
  destruct (xd_mat K Q it e OK M SL) as (R & ER & ET). rewrite ER in E. cbn [obind] in E.
  refine (xdycyd_ok K _ it e r _ w IN _ E).
  intros rx rd ryc ryd dx dd dyc dyd. exact (xd_solve_ok K Q it e OK S R rx rd ryc ryd dx dd dyc dyd EX ET).
Qed.
(** the unreduced system, in the first build (Hx and Hd still zero).  Missing: see [C36_sparse_full_refuted] *)
Theorem C36_sparse_full_partial : forall (Q : sprob K) it e hx0 hd0 M r old S w, exact_gen K S -> sparse_ok K Q -> full_slots Q M ->
  (forall i, i < nx (sp_prob K Q) -> hx0 i = f0) -> (forall i, i < ni (sp_prob K Q) -> hd0 i = f0) -> supported K (sp_prob K Q) old ->
  sp_full K S Q it e hx0 hd0 M r old = Some w -> newton K (sp_prob K Q) it e r w.
Proof.
  intros Q it e hx0 hd0 M r old S w EX OK SL H1 H2 SU E. unfold sp_full in E.
  destruct (full_mat K Q it e (fun i => hx0 i +! e_wx e i) (fun i => hd0 i +! e_wd e i) OK M (full_slots_eq Q M SL)) as (R & ER & ET).
  rewrite ER in E. cbn [obind] in E. refine (full_solve_ok K Q it e _ _ OK S R r old w EX ET _ _ SU E).
  - intros i Hi. rewrite (H1 i Hi). ring.
  - intros i Hi. rewrite (H2 i Hi). ring.
Qed.

(** * the right-hand side, the operator, the full step *)
(** the operator used to refine directions is the Newton system *)
Theorem C36_operator : forall (P : prob K) it e r w, matches K P r -> supported K P w ->
  (same K P (full_op K P it e w) r <-> newton K P it e r w).
Proof. exact (full_op_ok K). Qed.
(** after any updates from a new residual object, the residual is minus the violation of the optimality conditions *)
Theorem C36_residual : forall (P : prob K) us v it,
  kkt_violation K P v it (resid_update K P v it (fold_left (fun r u => resid_update K P (fst u) (snd u) r) us (resid0 K))).
Proof. intros P us v it. apply resid_update_ok, updates_match, resid0_matches. Qed.
(** a direction that solves the Newton system for this residual without dual regularization: after the full step the
    linearized constraints hold and the slacks are the distances to the bounds *)
Theorem C36_full_step : forall (P : prob K) us v it e w,
  newton K P it e (resid_update K P v it (fold_left (fun r u => resid_update K P (fst u) (snd u) r) us (resid0 K))) w ->
  (forall i, i < neq P -> e_cc e i = f0) -> (forall i, i < ni P -> e_cd e i = f0) -> lands K P v it w.
Proof. intros P us v it e w HN. exact (lands_ok K P v it e _ w (C36_residual P us v it) HN). Qed.
End C36.
Print Assumptions C36_dense_xycyd_partial.
Print Assumptions C36_dense_xdycyd_partial.
Print Assumptions C36_mds.
Print Assumptions C36_lowrank.
Print Assumptions C36_normal_partial.
Print Assumptions C36_sparse_assembly.
Print Assumptions C36_sparse_xycyd_partial.
Print Assumptions C36_sparse_xdycyd.
Print Assumptions C36_sparse_full_partial.
Print Assumptions C36_operator.
Print Assumptions C36_residual.
Print Assumptions C36_full_step.

(** * rational data *)
Notation F := Qc_field.
Definition eqq (a b : F) : bool := Qeq_bool (this a) (this b).
Lemma eqq_ok a b : eqq a b = true -> a = b.
Proof. intros H. apply Qc_is_canon. apply Qeq_bool_iff. exact H. Qed.
(** solvers that know one solution and answer when it is one *)
Definition knows (s : nat -> F) : dsolver F := fun N M r =>
  if forallb (fun i => eqq (sumn N (fun j => (if i <=? j then M i j else M j i) *! s j)) (r i)) (seq 0 N) then Some s else None.
Definition knows_sym (s : nat -> F) : ssolver F := fun N l r =>
  if forallb (fun i => eqq (sumn N (fun j => symmat l i j *! s j)) (r i)) (seq 0 N) then Some s else None.
Definition knows_gen (s : nat -> F) : ssolver F := fun N l r =>
  if forallb (fun i => eqq (sumn N (fun j => SparseSpec.mat l i j *! s j)) (r i)) (seq 0 N) then Some s else None.
Lemma knows_ok s : exact F (knows s).
Proof.
  intros N M r s'. unfold knows. destruct (forallb _ _) eqn:E; [|discriminate]. intros [= <-] i Hi.
  rewrite forallb_forall in E. apply eqq_ok. apply (E i). apply in_seq. lia.
Qed.
Lemma knows_sym_ok s : exact_sym F (knows_sym s).
Proof.
  intros N l r s'. unfold knows_sym. destruct (forallb _ _) eqn:E; [|discriminate]. intros [= <-] i Hi.
  rewrite forallb_forall in E. apply eqq_ok. apply (E i). apply in_seq. lia.
Qed.
Lemma knows_gen_ok s : exact_gen F (knows_gen s).
Proof.
  intros N l r s'. unfold knows_gen. destruct (forallb _ _) eqn:E; [|discriminate]. intros [= <-] i Hi.
  rewrite forallb_forall in E. apply eqq_ok. apply (E i). apply in_seq. lia.
Qed.
Definition z (l : list Z) : nat -> F := fun i => q (nth i l 0%Z).
Definition bl (l : list bool) : nat -> bool := fun i => nth i l false.
Definition nob : nat -> bool := fun _ => false.
Definition cst (a b c d : Z) : deltas F := Deltas F (fun _ => q a) (fun _ => q b) (fun _ => q c) (fun _ => q d).
Definition mz (l : list (list Z)) : nat -> nat -> F := fun i j => q (nth j (nth i l []) 0%Z).
Definition zz := z [].
Definition iz : iter F := Iter F zz zz zz zz zz zz zz zz zz zz zz zz.
Definition rz (rx rd ryc ryd : nat -> F) : resid F := Resid F rx rd ryc ryd zz zz zz zz zz zz zz zz.
Ltac sm := intros [|[|]] Hi; [| |lia].
Ltac nz := apply qneq; vm_compute; reflexivity.
Ltac below1 := let i := fresh "i" in intros [|i] ?; [|exfalso; simpl in *; lia].

(** one equality, a dual regularization: it is not in the dense 3-block system *)
Definition p1 : prob F := Prob F 1 1 0 (mz [[0]]%Z) (mz [[1]]%Z) (mz []) nob nob nob nob.
Theorem C36_dense_xycyd_refuted : exists (P : prob F) it e r S w, exact F S /\ interior F P it /\ symmetric F (nx P) (p_H P) /\
  (forall i, i < ni P -> ddiag F P it e i <> f0) /\ dense_xycyd F S P it e r = Some w /\ ~ newton F P it e r w.
Proof.
  set (o := dense_xycyd F (knows (z [1; -1]%Z)) p1 iz (cst 1 1 1 1) (rz zz zz (z [1]%Z) zz)).
  exists p1, iz, (cst 1 1 1 1), (rz zz zz (z [1]%Z) zz), (knows (z [1; -1]%Z)), (get iz o).
  split; [apply knows_ok|]. split; [repeat split; intros i _ H; discriminate H|].
  split; [intros [|i] [|j] H H'; cbn in *; try lia; reflexivity|]. split; [intros i H; cbn in H; lia|].
  split; [unfold o; got|]. intros (_ & _ & H & _). specialize (H 0 ltac:(cbn; lia)). revert H. apply qneq. vm_compute. reflexivity.
Qed.
Theorem C36_dense_xdycyd_refuted : exists (P : prob F) it e r S w, exact F S /\ interior F P it /\ symmetric F (nx P) (p_H P) /\
  dense_xdycyd F S P it e r = Some w /\ ~ newton F P it e r w.
Proof.
  set (o := dense_xdycyd F (knows (z [1; -1]%Z)) p1 iz (cst 1 1 1 1) (rz zz zz (z [1]%Z) zz)).
  exists p1, iz, (cst 1 1 1 1), (rz zz zz (z [1]%Z) zz), (knows (z [1; -1]%Z)), (get iz o).
  split; [apply knows_ok|]. split; [repeat split; intros i _ H; discriminate H|].
  split; [intros [|i] [|j] H H'; cbn in *; try lia; reflexivity|].
  split; [unfold o; got|]. intros (_ & _ & H & _). specialize (H 0 ltac:(cbn; lia)). revert H. apply qneq. vm_compute. reflexivity.
Qed.
(** the primal regularization is raised from 1 to 2 by the dual-first strategy, which reports a dual update *)
Theorem C36_normal_refuted : exists (P : prob F) it e1 e2 r S w, exact F S /\ interior F P it /\
  (forall i j, i < nx P -> j < nx P -> i <> j -> p_H P i j = f0) /\
  (forall i, i < nx P -> xdiag F P it i +! e_wx e2 i +! p_H P i i <> f0) /\ (forall i, i < ni P -> ddiag F P it e2 i <> f0) /\
  ne_dir F S P it r (ne_builds F [(P, it, e1, false); (P, it, e2, df_reports_dual)] (ne_new F (mz []) zz)) = Some w /\ ~ newton F P it e2 r w.
Proof.
  set (o := ne_dir F (knows (z [-1]%Z)) p1 iz (rz zz zz (z [1]%Z) zz)
    (ne_builds F [(p1, iz, cst 1 1 0 0, false); (p1, iz, cst 2 2 0 0, df_reports_dual)] (ne_new F (mz []) zz))).
  exists p1, iz, (cst 1 1 0 0), (cst 2 2 0 0), (rz zz zz (z [1]%Z) zz), (knows (z [-1]%Z)), (get iz o).
  split; [apply knows_ok|]. split; [repeat split; intros i _ H; discriminate H|].
  split; [intros i j H H' N; cbn in *; lia|]. split; [intros [|i] H; [nz|cbn in H; lia]|]. split; [intros i H; cbn in H; lia|].
  split; [unfold o; got|]. intros (_ & _ & H & _). specialize (H 0 ltac:(cbn; lia)). revert H. apply qneq. vm_compute. reflexivity.
Qed.
(** the Hessian changes between two builds: the second one still uses the first *)
Definition p1h : prob F := Prob F 1 1 0 (mz [[1]]%Z) (mz [[1]]%Z) (mz []) nob nob nob nob.
Theorem C36_normal_stale_refuted : exists (P1 P2 : prob F) it e r S w, exact F S /\ interior F P2 it /\
  (forall i j, i < nx P2 -> j < nx P2 -> i <> j -> p_H P2 i j = f0) /\
  (forall i, i < nx P2 -> xdiag F P2 it i +! e_wx e i +! p_H P2 i i <> f0) /\ (forall i, i < ni P2 -> ddiag F P2 it e i <> f0) /\
  ne_dir F S P2 it r (ne_builds F [(P1, it, e, false); (P2, it, e, false)] (ne_new F (mz []) zz)) = Some w /\ ~ newton F P2 it e r w.
Proof.
  set (o := ne_dir F (knows (z [-1]%Z)) p1h iz (rz zz zz (z [1]%Z) zz)
    (ne_builds F [(p1, iz, cst 1 1 0 0, false); (p1h, iz, cst 1 1 0 0, false)] (ne_new F (mz []) zz))).
  exists p1, p1h, iz, (cst 1 1 0 0), (rz zz zz (z [1]%Z) zz), (knows (z [-1]%Z)), (get iz o).
  split; [apply knows_ok|]. split; [repeat split; intros i _ H; discriminate H|].
  split; [intros i j H H' N; cbn in *; lia|]. split; [intros [|i] H; [nz|cbn in H; lia]|]. split; [intros i H; cbn in H; lia|].
  split; [unfold o; got|]. intros (H & _). specialize (H 0 ltac:(cbn; lia)). revert H. apply qneq. vm_compute. reflexivity.
Qed.
(** one variable, one inequality with a lower bound *)
Definition tr (m n : nat) (l : list (nat * nat * Z)) : trip F := Trip m n (map (fun en => match en with (i, j, a) => (i, j, q a) end) l).
Definition q1 : sprob F := SProb F (tr 1 1 [(0, 0, 1%Z)]) (tr 0 1 []) (tr 1 1 [(0, 0, 1%Z)]) [false] [false] [true] [false].
Definition i1 : iter F := Iter F zz zz zz zz zz zz (z [1]%Z) zz zz zz (z [1]%Z) zz.
Definition blank (N Z : nat) : trip F := Trip N N (repeat (0, 0, q 0) Z).
Ltac swf := intros en I; unfold tr in I; cbn [t_ent map s_H s_Jc s_Jd] in I; repeat (destruct I as [<-|I]; [unfold row, col; cbn; lia|]); destruct I.
Ltac srt := unfold row_sorted; cbn [t_ent map s_H s_Jc s_Jd tr]; repeat (constructor; try (unfold row; cbn; lia)).
Ltac sok := split; [swf|split; [swf|split; [swf|split; [srt|split; [srt|split; [srt|repeat split]]]]]].
Lemma q1_ok : sparse_ok F q1.
Proof. sok. Qed.
Lemma i1_ok : interior F (sp_prob F q1) i1.
Proof. repeat split; intros [|i] L H; try (cbn in L; lia); try discriminate H. nz. Qed.
(** two builds of the same system: the second starts from the reciprocals of the first *)
Theorem C36_sparse_xycyd_refuted : exists (Q : sprob F) it e M r S w, let P := sp_prob F Q in
  exact_sym F S /\ sparse_ok F Q /\ interior F P it /\ (forall i, i < ni P -> ddiag F P it e i <> f0) /\ xy_slots F Q M /\
  (forall i, i < ni P -> e_cd e i = f0) /\
  sp_xycyd F S Q it e (sp_ddi F P it e (fun _ => f0)) M r = Some w /\ ~ newton F P it e r w.
Proof.
  set (o := sp_xycyd F (knows_sym (z [2; -2]%Z)) q1 i1 (cst 0 0 0 0) (sp_ddi F (sp_prob F q1) i1 (cst 0 0 0 0) (fun _ => f0)) (blank 2 4) (rz zz zz zz (z [3]%Z))).
  exists q1, i1, (cst 0 0 0 0), (blank 2 4), (rz zz zz zz (z [3]%Z)), (knows_sym (z [2; -2]%Z)), (get iz o). cbv zeta.
  split; [apply knows_sym_ok|]. split; [exact q1_ok|]. split; [exact i1_ok|].
  split; [intros [|i] H; [nz|cbn in H; lia]|]. split; [repeat split|]. split; [reflexivity|].
  split; [unfold o; got|]. intros (_ & H & _). specialize (H 0 ltac:(cbn; lia)). revert H. apply qneq. vm_compute. reflexivity.
Qed.
(** the first build with a dual regularization: the reciprocals contain it *)
Theorem C36_sparse_xycyd_dual_refuted : exists (Q : sprob F) it e M r S w, let P := sp_prob F Q in
  exact_sym F S /\ sparse_ok F Q /\ interior F P it /\ (forall i, i < ni P -> ddiag F P it e i <> f0) /\ xy_slots F Q M /\
  sp_xycyd F S Q it e (fun _ => f0) M r = Some w /\ ~ newton F P it e r w.
Proof.
  set (o := sp_xycyd F (knows_sym (z [1; -1]%Z)) q1 i1 (cst 0 0 1 1) (fun _ => f0) (blank 2 4) (rz zz zz zz (z [3]%Z))).
  exists q1, i1, (cst 0 0 1 1), (blank 2 4), (rz zz zz zz (z [3]%Z)), (knows_sym (z [1; -1]%Z)), (get iz o). cbv zeta.
  split; [apply knows_sym_ok|]. split; [exact q1_ok|]. split; [exact i1_ok|].
  split; [intros [|i] H; [nz|cbn in H; lia]|]. split; [repeat split|].
  split; [unfold o; got|]. intros (_ & _ & _ & H & _). specialize (H 0 ltac:(cbn; lia)). revert H. apply qneq. vm_compute. reflexivity.
Qed.
(** two builds of the unreduced system: the second adds its primal regularization to that of the first *)
Definition q2 : sprob F := SProb F (tr 1 1 [(0, 0, 1%Z)]) (tr 0 1 []) (tr 0 1 []) [false] [false] [] [].
Theorem C36_sparse_full_refuted : exists (Q : sprob F) it e M r old S w, let P := sp_prob F Q in
  exact_gen F S /\ sparse_ok F Q /\ interior F P it /\ full_slots F Q M /\ supported F P old /\
  sp_full F S Q it e (e_wx e) (e_wd e) M r old = Some w /\ ~ newton F P it e r w.
Proof.
  set (o := sp_full F (knows_gen (z [1]%Z)) q2 iz (cst 1 1 0 0) (e_wx (cst 1 1 0 0)) (e_wd (cst 1 1 0 0)) (blank 1 2) (rz (z [3]%Z) zz zz zz) iz).
  exists q2, iz, (cst 1 1 0 0), (blank 1 2), (rz (z [3]%Z) zz zz zz), iz, (knows_gen (z [1]%Z)), (get iz o). cbv zeta.
  split; [apply knows_gen_ok|]. split; [sok|]. split; [repeat split; intros [|i] L H; try (cbn in L; lia); discriminate H|].
  split; [repeat split|]. split; [split; intros i L; (split; intros _; split; destruct i as [|[|i]]; reflexivity)|].
  split; [unfold o; got|]. intros (H & _). specialize (H 0 ltac:(cbn; lia)). revert H. apply qneq. vm_compute. reflexivity.
Qed.
Print Assumptions C36_dense_xycyd_refuted.
Print Assumptions C36_dense_xdycyd_refuted.
Print Assumptions C36_normal_refuted.
Print Assumptions C36_normal_stale_refuted.
Print Assumptions C36_sparse_xycyd_refuted.
Print Assumptions C36_sparse_xycyd_dual_refuted.
Print Assumptions C36_sparse_full_refuted.

(** * concrete cases: two variables, one equality, one inequality, both kinds of bounds *)
Definition kpH (H : list (list Z)) : prob F := Prob F 2 1 1 (mz H) (mz [[1; 1]]%Z) (mz [[1; -1]]%Z) (bl [true; false]) (bl [true; true]) (bl [true]) (bl [false]).
Definition kp := kpH [[2; 1]; [1; 3]]%Z.
Definition kit : iter F := Iter F (z [1; 1]%Z) (z [2]%Z) (z [1]%Z) (z [3]%Z) (z [1; 0]%Z) (z [2; 1]%Z) (z [1]%Z) zz (z [1; 0]%Z) (z [2; 1]%Z) (z [1]%Z) zz.
(** the direction the systems are expected to return *)
Definition kw : iter F := Iter F (z [1; 2]%Z) (z [3]%Z) (z [1]%Z) (z [2]%Z) (z [1; 0]%Z) (z [1; 1]%Z) (z [1]%Z) zz (z [1; 0]%Z) (z [2; 1]%Z) (z [1]%Z) zz.
Definition shows (o : option (iter F)) : option (list Q) := match o with
  | Some w => Some (map (fun v => this v) [w_x w 0; w_x w 1; w_d w 0; w_yc w 0; w_yd w 0; w_sxl w 0; w_sxu w 0; w_sxu w 1; w_sdl w 0; w_zl w 0; w_zu w 0; w_zu w 1; w_vl w 0])
  | None => None end.
Definition kws : option (list Q) := Some (map inject_Z [1; 2; 3; 1; 2; 1; 1; 1; 1; 1; 2; 1; 1]%Z).
Lemma kp_in H : interior F (kpH H) kit.
Proof. repeat split; intros [|[|i]] L B; try (cbn in L; lia); try discriminate B; nz. Qed.
Lemma kp_sym : symmetric F (nx kp) (p_H kp).
Proof. intros [|[|i]] [|[|j]] L L'; try (cbn in L, L'; lia); reflexivity. Qed.
Lemma kp_dd H a b c d : (b = 0 \/ b = 1)%Z -> forall i, i < ni (kpH H) -> ddiag F (kpH H) kit (cst a b c d) i <> f0.
Proof. intros [-> | ->] [|i] L; try (cbn in L; lia); nz. Qed.
Example C36_dense_xycyd_partial_case : let e := cst 1 1 0 0 in interior F kp kit /\ symmetric F (nx kp) (p_H kp) /\
  (forall i, i < ni kp -> ddiag F kp kit e i <> f0) /\ exact F (knows (z [1; 2; 1; 2]%Z)) /\
  shows (dense_xycyd F (knows (z [1; 2; 1; 2]%Z)) kp kit e (full_op F kp kit e kw)) = kws.
Proof. split; [apply kp_in|]. split; [exact kp_sym|]. split; [apply kp_dd; lia|]. split; [apply knows_ok|]. vm_compute. reflexivity. Qed.
Example C36_dense_xdycyd_partial_case : let e := cst 1 1 0 0 in interior F kp kit /\ symmetric F (nx kp) (p_H kp) /\ exact F (knows (z [1; 2; 3; 1; 2]%Z)) /\
  shows (dense_xdycyd F (knows (z [1; 2; 3; 1; 2]%Z)) kp kit e (full_op F kp kit e kw)) = kws.
Proof. split; [apply kp_in|]. split; [exact kp_sym|]. split; [apply knows_ok|]. vm_compute. reflexivity. Qed.
(** the first variable sparse, the second dense; all regularizations on *)
Definition km : mds F := Mds F 1 1 1 1 (z [2]%Z) (mz [[3]]%Z) (mz [[1]]%Z) (mz [[1]]%Z) (mz [[1]]%Z) (mz [[-1]]%Z) (bl [true; false]) (bl [true; true]) (bl [true]) (bl [false]).
Example C36_mds_case : let e := cst 1 1 1 1 in let P := mds_prob F km in interior F P kit /\ symmetric F (d_nd km) (d_Hd km) /\
  (forall i, i < d_ni km -> ddiag F P kit e i <> f0) /\ (forall i, i < d_ns km -> xdiag F P kit i +! e_wx e i +! d_Hs km i <> f0) /\
  exact F (knows (z [2; 1; 2]%Z)) /\ shows (mds_xycyd F (knows (z [2; 1; 2]%Z)) km kit e (full_op F P kit e kw)) = kws.
Proof.
  split; [repeat split; intros [|[|i]] L B; try (cbn in L; lia); try discriminate B; nz|].
  split; [intros [|i] [|j] L L'; try (cbn in L, L'; lia); reflexivity|].
  split; [intros [|i] L; [nz|cbn in L; lia]|]. split; [intros [|i] L; [nz|cbn in L; lia]|]. split; [apply knows_ok|]. vm_compute. reflexivity.
Qed.
Definition kl : prob F := Prob F 2 1 1 (matrix_of F (bfgs F 2 (q 1) (lastn 1 qs2))) (mz [[1; 1]]%Z) (mz [[1; -1]]%Z) (bl [true; false]) (bl [true; true]) (bl [true]) (bl [false]).
Example C36_lowrank_case : let old := fun _ _ => q 9 in remember F 2 (q 7) 1 qs2 = Some m2 /\ interior F kl kit /\ defined F 2 (q 1) (lastn 1 qs2) /\
  (forall i, i < nx kl -> q 1 +! xdiag F kl kit i <> f0) /\ (forall i, i < ni kl -> ddiag F kl kit (no_deltas F) i <> f0) /\
  exactV F 2 cramer (q 1) (dhinv F (q 1) (barrier_x F kl kit)) m2 old /\ exact F (knows (z [1; 2]%Z)) /\
  shows (lowrank F cramer (knows (z [1; 2]%Z)) kl kit (q 1) m2 old old (full_op F kl kit (no_deltas F) kw)) = kws.
Proof.
  split; [unfold m2; got|]. split; [repeat split; intros [|[|i]] L B; try (cbn in L; lia); try discriminate B; nz|]. split; [exact def2|].
  split; [intros [|[|i]] L; try (cbn in L; lia); nz|]. split; [intros [|i] L; [nz|cbn in L; lia]|].
  split; [intros r; apply cramer_ok; nz|]. split; [apply knows_ok|]. vm_compute. reflexivity.
Qed.
(** three builds: new iterate, larger dual regularization, larger primal regularization; all reported as they are *)
Definition kn := kpH [[2; 0]; [0; 3]]%Z.
Definition kbs := [(kit, cst 1 1 0 0, false); (kit, cst 1 1 1 1, true)].
Example C36_normal_partial_case : let e := cst 0 0 1 1 in let S := knows (z [1; 2]%Z) in exact F S /\ interior F kn kit /\
  (forall i j, i < nx kn -> j < nx kn -> i <> j -> p_H kn i j = f0) /\
  (forall i, i < nx kn -> xdiag F kn kit i +! e_wx e i +! p_H kn i i <> f0) /\ (forall i, i < ni kn -> ddiag F kn kit e i <> f0) /\
  reports_ok F None (kbs ++ [(kit, e, false)]) /\
  shows (ne_dir F S kn kit (full_op F kn kit e kw)
    (ne_builds F (map (fun b => match b with (it, e, dual) => (kn, it, e, dual) end) (kbs ++ [(kit, e, false)])) (ne_new F (mz []) zz))) = kws.
Proof.
  split; [apply knows_ok|]. split; [apply kp_in|].
  split; [intros [|[|i]] [|[|j]] L L' N; try (cbn in L, L'; lia); reflexivity|]. split; [intros [|[|i]] L; try (cbn in L; lia); nz|].
  split; [apply kp_dd; lia|]. split; [|vm_compute; reflexivity].
  cbn. split; [discriminate|]. split; [|split; [discriminate|exact I]]. intros _. exists (cst 1 1 0 0). split; [reflexivity|]. intros i. split; reflexivity.
Qed.
Definition kq : sprob F := SProb F (tr 2 2 [(0, 0, 2%Z); (0, 1, 1%Z); (1, 1, 3%Z)]) (tr 1 2 [(0, 0, 1%Z); (0, 1, 1%Z)]) (tr 1 2 [(0, 0, 1%Z); (0, 1, (-1)%Z)])
  [true; false] [true; true] [true] [false].
Lemma kq_ok : sparse_ok F kq.
Proof. sok. Qed.
Lemma kq_in : interior F (sp_prob F kq) kit.
Proof. repeat split; intros [|[|i]] L B; try (cbn in L; lia); try discriminate B; nz. Qed.
Example C36_sparse_assembly_case : sparse_ok F kq /\ xy_slots F kq (blank 4 11) /\ xd_slots F kq (blank 5 13) /\ full_slots F kq (blank 13 39).
Proof. split; [exact kq_ok|]. repeat split. Qed.
Example C36_sparse_xycyd_partial_case : let e := cst 1 1 1 0 in let S := knows_sym (z [1; 2; 1; 2]%Z) in exact_sym F S /\ sparse_ok F kq /\
  interior F (sp_prob F kq) kit /\ (forall i, i < ni (sp_prob F kq) -> ddiag F (sp_prob F kq) kit e i <> f0) /\ xy_slots F kq (blank 4 11) /\
  shows (sp_xycyd F S kq kit e (fun _ => f0) (blank 4 11) (full_op F (sp_prob F kq) kit e kw)) = kws.
Proof.
  split; [apply knows_sym_ok|]. split; [exact kq_ok|]. split; [exact kq_in|]. split; [intros [|i] L; [nz|cbn in L; lia]|]. split; [repeat split|]. vm_compute. reflexivity.
Qed.
Example C36_sparse_xdycyd_case : let e := cst 1 1 1 1 in let S := knows_sym (z [1; 2; 3; 1; 2]%Z) in exact_sym F S /\ sparse_ok F kq /\
  interior F (sp_prob F kq) kit /\ xd_slots F kq (blank 5 13) /\
  shows (sp_xdycyd F S kq kit e (blank 5 13) (full_op F (sp_prob F kq) kit e kw)) = kws.
Proof. split; [apply knows_sym_ok|]. split; [exact kq_ok|]. split; [exact kq_in|]. split; [repeat split|]. vm_compute. reflexivity. Qed.
Example C36_sparse_full_partial_case : let e := cst 1 1 1 1 in let S := knows_gen (z [1; 2; 1; 2; 3; 1; 1; 2; 1; 1; 1; 1; 1]%Z) in exact_gen F S /\ sparse_ok F kq /\
  full_slots F kq (blank 13 39) /\ supported F (sp_prob F kq) iz /\
  shows (sp_full F S kq kit e (fun _ => f0) (fun _ => f0) (blank 13 39) (full_op F (sp_prob F kq) kit e kw) iz) = kws.
Proof.
  split; [apply knows_gen_ok|]. split; [exact kq_ok|]. split; [repeat split|].
  split; [split; intros i L; (split; intros _; split; destruct i as [|[|i]]; reflexivity)|]. vm_compute. reflexivity.
Qed.
Example C36_operator_case : let e := cst 1 1 1 1 in matches F kp (full_op F kp kit e kw) /\ supported F kp kw /\ newton F kp kit e (full_op F kp kit e kw) kw.
Proof.
  assert (S : supported F kp kw) by (split; intros [|[|i]] L; try (cbn in L; lia); split; intros B; try discriminate B; split; reflexivity).
  assert (M : matches F kp (full_op F kp kit (cst 1 1 1 1) kw))
    by (split; intros [|[|i]] L; try (cbn in L; lia); split; intros B; try discriminate B; split; apply Qc_is_canon; vm_compute; reflexivity).
  split; [exact M|]. split; [exact S|]. apply (C36_operator F kp kit _ _ _ M S). repeat split.
Qed.
Definition kv (mu : Z) : nlpvals F := Vals F (z [1; 2]%Z) (z [5]%Z) (z [4]%Z) (z [3]%Z) (z [0; 0]%Z) (z [3; 2]%Z) (z [1]%Z) zz (q mu) zz zz.
Example C36_residual_case : let r := resid_update F kp (kv 1) kit (resid_update F kp (kv 2) kw (resid0 F)) in
  map (fun v => this v) [r_x r 0; r_x r 1; r_d r 0; r_yc r 0; r_yd r 0; r_szl r 0; r_szu r 0; r_svl r 0] = map inject_Z [-6; -1; 4; -2; -2; 0; -3; 0]%Z.
Proof. vm_compute. reflexivity. Qed.
(** the step of [kw]-like data from the residual itself: a Newton direction without dual regularization exists *)
Example C36_full_step_case : let P := Prob F 1 1 0 (mz [[1]]%Z) (mz [[2]]%Z) (mz []) nob nob nob nob in
  let v := Vals F (z [0]%Z) (z [7]%Z) zz (z [3]%Z) zz zz zz zz (q 1) zz zz in
  let w := Iter F (z [-2]%Z) zz (z [1]%Z) zz zz zz zz zz zz zz zz zz in
  newton F P iz (cst 0 0 0 0) (resid_update F P v iz (fold_left (fun r u => resid_update F P (fst u) (snd u) r) [(v, iz)] (resid0 F))) w.
Proof.
  cbv zeta. split; [|split; [|split; [|split; [|split; [|split; [|split]]]]]]; intros [|i] L; try (cbn in L; lia); try (apply Qc_is_canon; vm_compute; reflexivity);
    try (cbn [ixl ixu idl idu]; unfold nob; split; apply Qc_is_canon; vm_compute; reflexivity).
Qed.
