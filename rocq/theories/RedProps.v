(** C34: reductions do not depend on the distribution.  Every statement gives the value in terms of
    the concatenated (global) vector only. *)
From Coq Require Import List Bool QArith Qabs Qminmax ZArith Reals.
From Verif Require Import VecModel VecSpec VecProofs RedModel RedSpec RedProofs.
Import ListNotations.
Open Scope Q_scope.

Theorem C34_dot_product : forall ranks d, dot_all ranks = Some d ->
  exists e, zip (concat (map fst ranks)) (concat (map snd ranks)) = Some e /\
            d == sumQ (map (fun p => fst p * snd p) e).
Proof. exact dot_spec. Qed.
Print Assumptions C34_dot_product.

Theorem C34_sums : forall ranks,
  one_all ranks == sumQ (map Qabs (concat ranks)) /\ sum_all ranks == sumQ (concat ranks).
Proof. intro ranks. split; [apply one_spec|apply sum_spec]. Qed.
Print Assumptions C34_sums.

Theorem C34_infnorm : forall ranks m, inf_all ranks = Some m -> is_max_abs (concat ranks) m.
Proof. exact inf_spec. Qed.
Print Assumptions C34_infnorm.

Theorem C34_min : forall ranks m, min_all ranks = Some m -> is_min Q_maxv (concat ranks) m.
Proof. exact min_spec. Qed.
Print Assumptions C34_min.

Theorem C34_logical_tests : forall ranks pranks,
  (all_pos_all ranks = true <-> forall v, In v (concat ranks) -> 0 < v) /\
  (is_zero_all ranks = true <-> forall v, In v (concat ranks) -> v == 0) /\
  (all_pos_pat_all pranks = true <-> forall v w, In (v, w) (concat pranks) -> ~ w == 0 -> 0 < v) /\
  (matches_all pranks = true <-> forall v w, In (v, w) (concat pranks) -> w == 0 -> v == 0).
Proof.
  intros. split; [apply all_pos_spec|split; [apply is_zero_spec|split; [apply all_pos_pat_spec|apply matches_spec]]].
Qed.
Print Assumptions C34_logical_tests.

Theorem C34_counts : forall v ranks,
  num_less_all v ranks = length (filter (fun a => Qltb a v) (concat ranks)) /\
  num_abs_less_all v ranks = length (filter (fun a => Qltb (Qabs a) v) (concat ranks)).
Proof. intros. split; apply count_spec. Qed.
Print Assumptions C34_counts.

(** the compensated summation of the log barrier is the plain sum in exact arithmetic *)
Theorem C34_log_barrier : forall lg ranks, log_barrier_all lg ranks ==
  sumQ (map (fun p => if Qeq_bool (snd p) 1 then lg (fst p) else 0) (concat ranks)).
Proof. exact log_spec. Qed.
Print Assumptions C34_log_barrier.

Theorem C34_damping_term : forall mu kd ranks, damping_all mu kd ranks ==
  kd * mu * sumQ (map (fun v => if Qeq_bool (fst (snd v)) 1 && Qeq_bool (snd (snd v)) 0 then fst v else 0)
                      (concat ranks)).
Proof. exact damping_spec. Qed.
Print Assumptions C34_damping_term.

Theorem C34_twonorm : forall ranks, two_all ranks = sqrt (sumsq (concat ranks)).
Proof. exact two_spec. Qed.
Print Assumptions C34_twonorm.

(** the step length of a distributed iterate is that of the undistributed one *)
Theorem C34_step_length : forall tau r1 r2 ap1 ad1 ap2 ad2,
  0 < tau -> tau < 1 ->
  (forall t, In t (flat_map prim_triples r1 ++ flat_map dual_triples r1) -> t_interior t) ->
  (forall t, In t (flat_map prim_triples r2 ++ flat_map dual_triples r2) -> t_interior t) ->
  (forall a, (forall t, In t (flat_map prim_triples r1) -> t_keeps tau a t) <->
             (forall t, In t (flat_map prim_triples r2) -> t_keeps tau a t)) ->
  (forall a, (forall t, In t (flat_map dual_triples r1) -> t_keeps tau a t) <->
             (forall t, In t (flat_map dual_triples r2) -> t_keeps tau a t)) ->
  ftb_all Qar (10 : Q) tau r1 = Some (ap1, ad1) -> ftb_all Qar (10 : Q) tau r2 = Some (ap2, ad2) ->
  ap1 == ap2 /\ ad1 == ad2.
Proof.
  intros tau r1 r2 ap1 ad1 ap2 ad2 Ht Ht1 I1 I2 EP ED H1 H2.
  apply ftb_all_correct in H1 as [[(A1 & A2 & A3) A4] [(B1 & B2 & B3) B4]]; auto.
  apply ftb_all_correct in H2 as [[(C1 & C2 & C3) C4] [(D1 & D2 & D3) D4]]; auto.
  split; apply Qle_antisym.
  - apply C4; auto. apply EP; auto.
  - apply A4; auto. apply EP; auto.
  - apply D4; auto. apply ED; auto.
  - apply B4; auto. apply ED; auto.
Qed.
Print Assumptions C34_step_length.

Example C34_case : exists d, dot_all [([1; 2], [3; 4]); ([], []); ([5], [-6])] = Some d /\ d == -19.
Proof. eexists. split; [vm_compute; reflexivity|reflexivity]. Qed.
Example C34_case_inf : exists d, inf_all [[1; -7 # 2]; []; [3]] = Some d /\ d == 7 # 2.
Proof. eexists. split; [vm_compute; reflexivity|reflexivity]. Qed.
Example C34_case_min : exists d, min_all [[1; -7 # 2]; []; [3]] = Some d /\ d == -7 # 2.
Proof. eexists. split; [vm_compute; reflexivity|reflexivity]. Qed.
Example C34_case_logical : all_pos_all [[1; 2]; [3]] = true /\ all_pos_pat_all [[(1, 1)]; [(-1, 0)]] = true /\
  matches_all [[(1, 1)]; [(-1, 0)]] = false /\ num_less_all 2 [[1; 2]; [0]] = 2%nat.
Proof. vm_compute. auto. Qed.
