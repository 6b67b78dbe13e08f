(** C68: least-squares multipliers. *)
From Coq Require Import List Bool Arith Lia Reals Lra Psatz.
From Verif Require Import RingKit.
From Verif Require Import SparseModel SparseSpec KktModel KktModel2 KktSpec.
From Verif Require Import InertiaModel InertiaProofs LsqModel LsqSpec LsqProofs LsqProofs2.
Import ListNotations.
Open Scope R_scope.

(** a successful dense update returns multipliers that minimise the dual infeasibility, whatever the matrix object held *)
Theorem C68_dense_minimises : forall S n me mi g Jc Jd zl zu vl vu M0 yc yd yc' yd', exact R_field S ->
  dense_lsq R_field S (LsqIn R_field n me mi g Jc Jd zl zu vl vu) M0 yc yd = (true, yc', yd') ->
  least_squares n me mi g Jc Jd zl zu vl vu yc' yd'.
Proof. intros. apply stationary_min, normal_stationary. eapply dense_normal; eauto. Qed.
Print Assumptions C68_dense_minimises.

(** a failed dense update reports the failure and leaves the multipliers *)
Theorem C68_dense_failure_keeps : forall S I M0 yc yd yc' yd', dense_lsq R_field S I M0 yc yd = (false, yc', yd') -> yc' = yc /\ yd' = yd.
Proof. intros S I M0 yc yd yc' yd'. unfold dense_lsq. destruct (S _ _ _); [discriminate|]. intros [= <- <-]. auto. Qed.
Print Assumptions C68_dense_failure_keeps.

(** the matrix given to the Cholesky factorization is positive definite exactly when the rows of the equality
    Jacobian are independent *)
Theorem C68_system_definite_iff : forall n me mi g Jc Jd zl zu vl vu M0,
  (forall y, (exists i, (i < me + mi)%nat /\ y i <> 0) -> 0 < sysform n me mi g Jc Jd zl zu vl vu M0 y) <->
  independent me n Jc.
Proof. intros. apply sysform_definite. Qed.
Print Assumptions C68_system_definite_iff.

(** a dense update with independent equality gradients succeeds, when the factorization succeeds on positive definite
    matrices, and then minimises the dual infeasibility *)
Theorem C68_dense_succeeds : forall S n me mi g Jc Jd zl zu vl vu M0 yc yd, exact R_field S -> solves_definite (me + mi) S -> independent me n Jc ->
  exists yc' yd', dense_lsq R_field S (LsqIn R_field n me mi g Jc Jd zl zu vl vu) M0 yc yd = (true, yc', yd') /\
  least_squares n me mi g Jc Jd zl zu vl vu yc' yd'.
Proof.
  intros S n me mi g Jc Jd zl zu vl vu M0 yc yd EX SD IND.
  destruct (dense_succeeds n me mi g Jc Jd zl zu vl vu M0 S yc yd SD IND) as (a & b & E).
  exists a, b. split; [exact E|]. eapply C68_dense_minimises; eauto.
Qed.
Print Assumptions C68_dense_succeeds.

(** the sparse update never leaves its arrays; it keeps the multipliers when the factorization fails, and otherwise
    they minimise the dual infeasibility or are all zero.  Missing from the full claim: after a failed solve the
    update answers true with multipliers set to zero *)
Theorem C68_sparse_minimises_partial : forall fact S (Q : lsq_sp R_field) Msys yc yd,
  let n := t_n (q_Jc Q) in let q := t_m (q_Jc Q) in let m := t_m (q_Jd Q) in let N := (n + m + q + m)%nat in
  wf (q_Jc Q) -> wf (q_Jd Q) -> row_sorted (t_ent (q_Jc Q)) -> row_sorted (t_ent (q_Jd Q)) -> t_n (q_Jd Q) = n ->
  slots_of R_field N (n + m + length (t_ent (q_Jc Q)) + length (t_ent (q_Jd Q)) + m + N) Msys -> exact_sym R_field S ->
  exists ok yc' yd', sparse_lsq R_field fact S Q Msys yc yd = Some (ok, yc', yd') /\ (ok = false -> yc' = yc /\ yd' = yd) /\
  (ok = true ->
     least_squares n q m (q_g Q) (SparseSpec.mat (t_ent (q_Jc Q))) (SparseSpec.mat (t_ent (q_Jd Q))) (q_zl Q) (q_zu Q) (q_vl Q) (q_vu Q) yc' yd' \/
     ((forall k, yc' k = 0) /\ forall k, yd' k = 0)).
Proof.
  intros fact S Q Msys yc yd n q m N W1 W2 O1 O2 SN SL EX.
  destruct (aug_mat R_field Q W1 W2 O1 O2 SN Msys SL) as (R & ER & EE).
  unfold sparse_lsq. fold n q m N. rewrite ER. cbn [obind]. rewrite EE.
  destruct (fact N (aug_ent R_field Q)); [|eexists _, _, _; split; [reflexivity|]; split; [auto|discriminate]].
  destruct (S N (aug_ent R_field Q) (lsq_aug_rhs R_field Q)) as [s|] eqn:E.
  - eexists _, _, _. split; [reflexivity|]. split; [discriminate|]. intros _. left. apply stationary_min, normal_stationary.
    exact (aug_solve R_field Q W1 W2 SN S s EX E).
  - eexists _, _, _. split; [reflexivity|]. split; [discriminate|]. intros _. right. split; reflexivity.
Qed.
Print Assumptions C68_sparse_minimises_partial.

(** with independent equality gradients, and a factorization and solver that succeed on nonsingular matrices, the
    sparse update succeeds and minimises the dual infeasibility *)
Theorem C68_sparse_succeeds : forall fact S (Q : lsq_sp R_field) Msys yc yd,
  let n := t_n (q_Jc Q) in let q := t_m (q_Jc Q) in let m := t_m (q_Jd Q) in let N := (n + m + q + m)%nat in
  wf (q_Jc Q) -> wf (q_Jd Q) -> row_sorted (t_ent (q_Jc Q)) -> row_sorted (t_ent (q_Jd Q)) -> t_n (q_Jd Q) = n ->
  slots_of R_field N (n + m + length (t_ent (q_Jc Q)) + length (t_ent (q_Jd Q)) + m + N) Msys -> exact_sym R_field S ->
  (forall l, regular N l -> fact N l = true) -> (forall l r, regular N l -> S N l r <> None) ->
  independent q n (SparseSpec.mat (t_ent (q_Jc Q))) ->
  exists yc' yd', sparse_lsq R_field fact S Q Msys yc yd = Some (true, yc', yd') /\
    least_squares n q m (q_g Q) (SparseSpec.mat (t_ent (q_Jc Q))) (SparseSpec.mat (t_ent (q_Jd Q))) (q_zl Q) (q_zu Q) (q_vl Q) (q_vu Q) yc' yd'.
Proof.
  intros fact S Q Msys yc yd n q m N W1 W2 O1 O2 SN SL EX FC SC IND.
  destruct (aug_mat R_field Q W1 W2 O1 O2 SN Msys SL) as (R & ER & EE).
  assert (REG : regular N (aug_ent R_field Q)) by (intros x H; exact (aug_nonsingular Q x W1 W2 SN IND H)).
  unfold sparse_lsq. fold n q m N. rewrite ER. cbn [obind]. rewrite EE, (FC _ REG).
  destruct (S N (aug_ent R_field Q) (lsq_aug_rhs R_field Q)) as [s|] eqn:E; [|exfalso; exact (SC _ _ REG E)].
  eexists _, _. split; [reflexivity|]. apply stationary_min, normal_stationary.
  exact (aug_solve R_field Q W1 W2 SN S s EX E).
Qed.
Print Assumptions C68_sparse_succeeds.

(** all minimisers give the same dual infeasibility vector and the same inequality multipliers: which linear system
    computed them does not matter *)
Theorem C68_minimisers_agree : forall n me mi g Jc Jd zl zu vl vu yc yd yc' yd',
  least_squares n me mi g Jc Jd zl zu vl vu yc yd -> least_squares n me mi g Jc Jd zl zu vl vu yc' yd' ->
  (forall i, (i < n)%nat -> lag_x me mi g Jc Jd zl zu yc' yd' i = lag_x me mi g Jc Jd zl zu yc yd i) /\
  (forall k, (k < mi)%nat -> yd' k = yd k).
Proof. intros. eapply min_unique; eauto. apply min_stationary. assumption. Qed.
Print Assumptions C68_minimisers_agree.

(** the initial multipliers never exceed duals_lsq_ini_max, and are either zero or a successful update *)
Theorem C68_initial_bounded : forall upd me mi ymax yc yd ok yc' yd', 0 <= ymax ->
  initial_duals true upd me mi ymax yc yd = (ok, yc', yd') ->
  bounded_by me yc' ymax /\ bounded_by mi yd' ymax /\
  (((forall k, yc' k = 0) /\ forall k, yd' k = 0) \/ (ok = true /\ upd yc yd = (true, yc', yd'))).
Proof.
  intros upd me mi ymax yc yd ok yc' yd' P. unfold initial_duals. destruct (upd yc yd) as [[o a] b] eqn:E.
  set (nc := rinfnorm me a). set (nd := rinfnorm mi b).
  destruct (rltb ymax (if rltb nd nc then nc else nd)) eqn:L; cbn [orb].
  - intros [= <- <- <-]. split; [|split; [|left; auto]]; intros k _; rewrite Rabs_R0; exact P.
  - destruct o; cbn [negb].
    + intros [= <- <- <-]. apply rltb_false in L.
      assert (nc <= ymax /\ nd <= ymax) as (A & B).
      { destruct (rltb nd nc) eqn:X; [apply rltb_true in X|apply rltb_false in X]; lra. }
      split; [apply rinfnorm_le; exact A|]. split; [apply rinfnorm_le; exact B|]. right. auto.
    + intros [= <- <- <-]. split; [|split; [|left; auto]]; intros k _; rewrite Rabs_R0; exact P.
Qed.
Print Assumptions C68_initial_bounded.

(** at the end of an iteration the multipliers are those of the step when the primal infeasibility is above
    recalc_lsq_duals_tol, and otherwise, with independent equality gradients, minimise the dual infeasibility formed
    with the derivatives of the PREVIOUS point.  Missing from the full claim: the derivatives of the new point *)
Theorem C68_end_of_iteration_partial : forall S n me mi dv new tol infeas M0 zl zu vl vu yc yd yc' yd' dv',
  exact R_field S -> solves_definite (me + mi) S -> independent me n (dv_Jc dv) ->
  end_of_iteration S n me mi dv new tol infeas M0 zl zu vl vu yc yd = (yc', yd', dv') ->
  dv' = new /\ (tol < infeas -> yc' = yc /\ yd' = yd) /\
  (infeas <= tol -> least_squares n me mi (dv_g dv) (dv_Jc dv) (dv_Jd dv) zl zu vl vu yc' yd').
Proof.
  intros S n me mi dv new tol infeas M0 zl zu vl vu yc yd yc' yd' dv' EX SD IND. unfold end_of_iteration, lsq_go.
  destruct (rltb tol infeas) eqn:L.
  - apply rltb_true in L. intros [= <- <- <-]. split; [auto|]. split; [auto|]. intro; lra.
  - apply rltb_false in L.
    destruct (C68_dense_succeeds S n me mi (dv_g dv) (dv_Jc dv) (dv_Jd dv) zl zu vl vu M0 yc yd EX SD IND) as (a & b & E & LS).
    rewrite E. intros [= <- <- <-]. split; [auto|]. split; [intro; lra|]. intros _. exact LS.
Qed.
Print Assumptions C68_end_of_iteration_partial.

(** ** a concrete solver: Cramer's rule for systems of order 2, division for order 1 *)
Definition solve12 (N : nat) (M : nat -> nat -> R) (r : nat -> R) : option (nat -> R) :=
  match N with
  | 1%nat => if Req_EM_T (M 0%nat 0%nat) 0 then None else Some (fun _ => r 0%nat / M 0%nat 0%nat)
  | 2%nat =>
      let a := M 0%nat 0%nat in let b := M 0%nat 1%nat in let c := M 1%nat 1%nat in let d := a * c - b * b in
      if Req_EM_T d 0 then None else
      Some (fun i => if Nat.eqb i 0 then (c * r 0%nat - b * r 1%nat) / d else (a * r 1%nat - b * r 0%nat) / d)
  | _ => None
  end.
Lemma two_rows N s (M : nat -> nat -> R) r : solve12 N M r = Some s ->
  forall i, (i < N)%nat -> @sumn R_field N (fun j => (if (i <=? j)%nat then M i j else M j i) * s j) = r i.
Proof.
  destruct N as [|[|[|N]]]; cbn [solve12]; try discriminate.
  - destruct (Req_EM_T _ _) as [|D]; [discriminate|]. intros [= <-] i Hi. assert (i = 0%nat) by lia. subst.
    unfold sumn. cbn [seq map lsum R_field fadd f0 fcar Nat.leb]. field. exact D.
  - cbv zeta. destruct (Req_EM_T _ _) as [|D]; [discriminate|]. intros [= <-] i Hi. destruct i as [|[|]]; [| |lia];
      unfold sumn; cbn [seq map lsum R_field fadd f0 fcar Nat.leb Nat.eqb]; field; exact D.
Qed.
Lemma solve12_exact : exact R_field solve12.
Proof. intros N M r s E i Hi. exact (two_rows N s M r E i Hi). Qed.
Definition solve12s : ssolver R_field := fun N l r => solve12 N (symmat l) r.
Lemma solve12s_exact : exact_sym R_field solve12s.
Proof.
  intros N l r s E i Hi. rewrite <- (two_rows N s (symmat l) r E i Hi). apply rsumn_ext. intros j _.
  destruct (i <=? j)%nat; [reflexivity|]. assert (X : symmat l i j = symmat l j i); [|rewrite X; reflexivity].
  unfold symmat. rewrite (Nat.eqb_sym j i). destruct (Nat.eqb_spec i j) as [->|]; [reflexivity|apply Rplus_comm].
Qed.
(** it answers on the positive definite and on the nonsingular matrices of order 2 *)
Lemma solve12_definite : solves_definite 2 solve12.
Proof.
  intros M r H. cbn [solve12]. cbv zeta. destruct (Req_EM_T _ _) as [E|]; [|discriminate]. exfalso.
  assert (A : 0 < M 0%nat 0%nat).
  { specialize (H (fun i => if Nat.eqb i 0 then 1 else 0)). unfold sumn in H. cbn [seq map lsum R_field fadd f0 fcar Nat.leb Nat.eqb] in H.
    assert (G : exists i, (i < 2)%nat /\ (if Nat.eqb i 0 then 1 else 0) <> 0) by (exists 0%nat; split; [lia|cbn; lra]). specialize (H G). lra. }
  specialize (H (fun i => if Nat.eqb i 0 then - M 0%nat 1%nat else M 0%nat 0%nat)). unfold sumn in H. cbn [seq map lsum R_field fadd f0 fcar Nat.leb Nat.eqb] in H.
  assert (G : exists i, (i < 2)%nat /\ (if Nat.eqb i 0 then - M 0%nat 1%nat else M 0%nat 0%nat) <> 0) by (exists 1%nat; split; [lia|cbn; lra]). specialize (H G). nra.
Qed.
Lemma solve12s_regular : forall l r, regular 2 l -> solve12s 2%nat l r <> None.
Proof.
  intros l r H. unfold solve12s. cbn [solve12]. cbv zeta. destruct (Req_EM_T _ _) as [E|]; [|discriminate]. exfalso.
  set (a := symmat l 0 0) in *. set (b := symmat l 0 1) in *. set (c := symmat l 1 1) in *.
  assert (B : symmat l 1 0 = b) by (unfold b, symmat; cbn [Nat.eqb]; apply Rplus_comm).
  assert (Z : a = 0 /\ b = 0).
  { pose proof (H (fun i => if Nat.eqb i 0 then - b else a)) as G.
    assert (K0 : forall i, (i < 2)%nat -> @sumn R_field 2 (fun j => symmat l i j * (if Nat.eqb j 0 then - b else a)) = 0).
    { intros i Hi. destruct i as [|[|]]; [| |lia]; unfold sumn; cbn [seq map lsum R_field fadd f0 fcar Nat.eqb]; rewrite ?B; fold a b c; match goal with |- ?x = ?y => change (@eq R x y) end; lra. }
    specialize (G K0). pose proof (G 0%nat ltac:(lia)) as G0. pose proof (G 1%nat ltac:(lia)) as G1. cbn in G0, G1. split; [exact G1|]. change (@eq R b 0). change (@eq R (- b) 0) in G0. lra. }
  destruct Z as (Za & Zb).
  pose proof (H (fun i => if Nat.eqb i 0 then 1 else 0)) as G.
  assert (K0 : forall i, (i < 2)%nat -> @sumn R_field 2 (fun j => symmat l i j * (if Nat.eqb j 0 then 1 else 0)) = 0).
  { intros i Hi. destruct i as [|[|]]; [| |lia]; unfold sumn; cbn [seq map lsum R_field fadd f0 fcar Nat.eqb]; rewrite ?B; fold a b c; match goal with |- ?x = ?y => change (@eq R x y) end; lra. }
  specialize (G K0 0%nat ltac:(lia)). cbn in G. lra.
Qed.
Ltac unsum := unfold sumn; cbn [seq map lsum R_field fadd f0 fcar].

(** one equality x0 + x1 = ..., one inequality on x0; gradient (1,3), a lower-bound multiplier 1 on x1 *)
Definition exI : lsq_in R_field :=
  LsqIn R_field 2 1 1 (fun i => if Nat.eqb i 0 then 1 else 3) (fun _ _ => 1) (fun _ i => if Nat.eqb i 0 then 1 else 0)
    (fun i => if Nat.eqb i 0 then 0 else 1) (fun _ => 0) (fun _ => 0) (fun _ => 0).
(** the lower-left block holds garbage *)
Example C68_case : exists yc yd, dense_lsq R_field solve12 exI (fun _ _ => 7) (fun _ => 0) (fun _ => 0) = (true, yc, yd) /\
  yc 0%nat = - (5 / 3) /\ yd 0%nat = 1 / 3.
Proof.
  unfold dense_lsq. cbn [exI l_me l_mi Nat.add solve12]. cbv zeta. destruct (Req_EM_T _ _) as [E|D].
  - exfalso. revert E. unfold lsq_mat, copy_block, add_const_diag, times_trans. cbn. lra.
  - eexists _, _. split; [reflexivity|]. unfold cut. cbn [Nat.add Nat.eqb exI l_me].
    unfold lsq_mat, lsq_rhs, copy_block, add_const_diag, times_trans, KktModel.put, mv. cbn. split; field.
Qed.

(** sparse, one variable, one equality 2x *)
Definition exQ : lsq_sp R_field :=
  LsqSp R_field (fun _ => 3) (Trip 1 1 [(0%nat, 0%nat, 2 : R_field)]) (Trip 0 1 []) (fun _ => 1) (fun _ => 0) (fun _ => 0) (fun _ => 0).
Definition exM : trip R_field := Trip 2 2 (repeat (0%nat, 0%nat, 5 : R_field) 4).
Lemma exQ_ok : wf (q_Jc exQ) /\ wf (q_Jd exQ) /\ row_sorted (t_ent (q_Jc exQ)) /\ row_sorted (t_ent (q_Jd exQ)) /\ t_n (q_Jd exQ) = 1%nat /\
  slots_of R_field 2 4 exM /\ independent 1 1 (SparseSpec.mat (t_ent (q_Jc exQ))).
Proof.
  repeat split; try (repeat constructor; fail).
  - destruct H as [<-|[]]. cbn. lia.
  - destruct H as [<-|[]]. cbn. lia.
  - destruct H.
  - destruct H.
  - intros u H k Hk. assert (k = 0%nat) by lia. subst. specialize (H 0%nat Hk). revert H. unsum. cbn. lra.
Qed.
Example C68_sparse_case : exists yc yd, sparse_lsq R_field (fun _ _ => true) solve12s exQ exM (fun _ => 0) (fun _ => 0) = Some (true, yc, yd) /\ yc 0%nat = -1.
Proof.
  unfold sparse_lsq. cbn [exQ q_Jc q_Jd t_m t_n Nat.add].
  replace (lsq_aug_mat R_field exQ exM) with (Some (Trip 2 2 [(0%nat, 0%nat, 1 : R_field); (1%nat, 0%nat, 2 : R_field); (0%nat, 0%nat, 0 : R_field); (1%nat, 1%nat, 0 : R_field)])) by reflexivity.
  cbn [obind t_ent]. unfold solve12s. cbn [solve12]. cbv zeta. destruct (Req_EM_T _ _) as [E|D].
  - exfalso. revert E. unfold symmat, SparseSpec.mat. cbn. lra.
  - eexists _, _. split; [reflexivity|]. unfold cut. cbn [Nat.add Nat.eqb].
    unfold symmat, SparseSpec.mat, lsq_aug_rhs, KktModel.put. cbn. field.
Qed.

(** a failed solve of the sparse update is reported as success; the multipliers, zero, do not minimise *)
Theorem C68_sparse_failure_refuted : exists S, exact_sym R_field S /\ exists yc yd,
  sparse_lsq R_field (fun _ _ => true) S exQ exM (fun _ => -1) (fun _ => 0) = Some (true, yc, yd) /\
  ~ least_squares 1 1 0 (q_g exQ) (SparseSpec.mat (t_ent (q_Jc exQ))) (SparseSpec.mat (t_ent (q_Jd exQ))) (q_zl exQ) (q_zu exQ) (q_vl exQ) (q_vu exQ) yc yd.
Proof.
  exists (fun _ _ _ => None). split; [discriminate|]. eexists _, _. split; [reflexivity|].
  intro H. specialize (H (fun _ => -1) (fun _ => 0)). revert H. unfold dual_infeas, lag_x, lag_d, SparseSpec.mat. unsum. cbn. lra.
Qed.
Print Assumptions C68_sparse_failure_refuted.

(** minimise x^2/2 subject to x = 1: an iteration from x = 2 to the solution x = 1 leaves the multiplier -2 of the old
    point, although -1 makes the dual infeasibility at the new point zero *)
Definition dv_at (x : R) : derivs := Derivs (fun _ => x) (fun _ _ => 1) (fun _ _ => 0).
Definition z0 : nat -> R := fun _ => 0.
Theorem C68_stale_derivatives_refuted : exists yc yd,
  end_of_iteration solve12 1 1 0 (dv_at 2) (dv_at 1) 1 0 (fun _ _ => 0) z0 z0 z0 z0 (fun _ => -1) z0 = (yc, yd, dv_at 1) /\
  dual_infeas 1 1 0 (dv_g (dv_at 1)) (dv_Jc (dv_at 1)) (dv_Jd (dv_at 1)) z0 z0 z0 z0 yc yd = 1 /\
  dual_infeas 1 1 0 (dv_g (dv_at 1)) (dv_Jc (dv_at 1)) (dv_Jd (dv_at 1)) z0 z0 z0 z0 (fun _ => -1) z0 = 0.
Proof.
  unfold end_of_iteration, lsq_go. rewrite (proj2 (rltb_false 1 0)) by lra. unfold dense_lsq. cbn [l_me l_mi Nat.add solve12].
  destruct (Req_EM_T _ _) as [E|D].
  - exfalso. revert E. unfold lsq_mat, copy_block, times_trans. cbn. lra.
  - eexists _, _. split; [reflexivity|]. unfold dual_infeas, lag_x, lag_d, lsq_mat, copy_block, times_trans, cut, lsq_rhs, KktModel.put, mv, z0. unsum. cbn. split; field.
Qed.
Print Assumptions C68_stale_derivatives_refuted.

(** the initial multipliers: kept when small enough, dropped when not *)
Example C68_initial_case : 
  (let '(_, a, _) := initial_duals true (fun _ _ => (true, (fun _ => 5), z0)) 1 1 10 z0 z0 in a 0%nat) = 5 /\
  (let '(_, a, _) := initial_duals true (fun _ _ => (true, (fun _ => 5), z0)) 1 1 4 z0 z0 in a 0%nat) = 0.
Proof.
  unfold initial_duals, rinfnorm, z0. cbn [seq fold_left]. rewrite Rabs_R0, (Rabs_right 5), (Rmax_right 0 5), (Rmax_left 0 0) by lra.
  rewrite (proj2 (rltb_true 0 5)) by lra. rewrite (proj2 (rltb_false 10 5)), (proj2 (rltb_true 4 5)) by lra. split; reflexivity.
Qed.
(** independence of the equality gradients holds in the first case, the hypothesis of [C68_dense_succeeds], with [solve12_definite] *)
Example C68_independent_case : independent 1 2 (l_Jc exI).
Proof. intros u H k Hk. assert (k = 0%nat) by lia. subst. specialize (H 0%nat ltac:(lia)). revert H. unsum. cbn. lra. Qed.
