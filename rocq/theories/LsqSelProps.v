(** C95: the linear solver of the initial least-squares multipliers of a sparse problem. *)
From Coq Require Import List Bool Arith Reals Lia Lra.
From Verif Require Import LinSelModel LinSelSpec LinSelProofs InertiaModel InertiaProofs LsqModel LsqSpec LsqProofs LsqProofs2 LsqSelModel LsqSelSpec LsqSelProofs.
Import ListNotations.
Local Close Scope R_scope. Local Open Scope nat_scope.

(** builds used in the cases: every cpu solver, STRUMPACK only, MA57 only, everything *)
Definition q_cpu : build := Build true true true true false false false false false.
Definition q_strum : build := Build false false true false false false false false false.
Definition q_ma57 : build := Build true false false false false false false false false.
Definition q_dev : build := Build true true true true true true true true true.
Definition q_ginkgo : build := Build false false false true false true false true true.

(** On the cpu the solver is exactly the named one when it is in the build, the first of the order under auto, and
    STRUMPACK only without inertia correction.  Missing for the full claim: the other compute modes, the requests that are
    not in the build and the acceptor; see the refutations. *)
Theorem C95_cpu_partial : forall b l ic s,
  sel_lsq b Cpu l ic = Cur (Some s) <-> choice b lsq_cpu_order l s /\ (s = STRUMPACK -> ic = false).
Proof. exact lsq_cpu_ok. Qed.
Print Assumptions C95_cpu_partial.
Example C95_cpu_partial_case :
  sel_lsq q_cpu Cpu None true = Cur (Some MA57) /\ sel_lsq q_cpu Cpu (Some GINKGO) true = Cur (Some GINKGO) /\
  sel_lsq q_strum Cpu None false = Cur (Some STRUMPACK).
Proof. repeat split. Qed.

(** On the cpu the run goes on without a solver exactly when nothing fits and STRUMPACK is not in the build; the
    multipliers then start at zero. *)
Theorem C95_no_solver_partial : forall b l ic,
  (sel_lsq b Cpu l ic = Cur None <-> none_fits b lsq_cpu_order l /\ avail b STRUMPACK = false) /\
  (sel_lsq b Cpu l ic = Cur None -> forall upd me mi ymax,
     exists yc yd, start_duals b Cpu l ic upd me mi ymax = Some (yc, yd) /\ forall i, yc i = 0%R /\ yd i = 0%R).
Proof.
  intros b l ic. split; [apply lsq_cpu_none|]. intros H upd me mi ymax.
  eexists; eexists. split; [apply start_no_solver, H | split; reflexivity].
Qed.
Print Assumptions C95_no_solver_partial.
Example C95_no_solver_partial_case : sel_lsq q_ma57 Cpu (Some PARDISO) true = Cur None.
Proof. reflexivity. Qed.

(** Without GPU support and with the option at auto, whatever the other options are, a build with MA57, PARDISO or Ginkgo
    starts a run with the first of them. *)
Theorem C95_default_partial : forall b o,
  b_gpu b = false -> (avail b MA57 = true \/ avail b PARDISO = true \/ avail b GINKGO = true) ->
  exists s, first_of b [MA57; PARDISO; GINKGO] s /\
    sel_lsq b (o_mode (consistent b o)) None (o_ic (consistent b o)) = Cur (Some s).
Proof.
  intros b o G A.
  assert (M : o_mode (consistent b o) = Cpu) by (unfold consistent; cbn [o_mode]; rewrite G; reflexivity).
  rewrite M. generalize (o_ic (consistent b o)) as ic. intro ic.
  assert (F : exists s, first_b b [MA57; PARDISO; GINKGO] = Some s).
  { cbn [first_b]. destruct (avail b MA57); [eauto|]. destruct (avail b PARDISO); [eauto|].
    destruct (avail b GINKGO); [eauto|]. destruct A as [A|[A|A]]; discriminate A. }
  destruct F as [s F]. exists s. split; [apply first_b_ok, F|]. apply lsq_cpu_ok. split.
  - rewrite <- choice_b_ok. cbn [choice_b lsq_cpu_order first_b] in *.
    destruct (avail b MA57); [exact F|]. destruct (avail b PARDISO); [exact F|]. destruct (avail b GINKGO); [exact F | discriminate F].
  - intros ->. cbn [first_b] in F. destruct (avail b MA57); [discriminate F|]. destruct (avail b PARDISO); [discriminate F|].
    destruct (avail b GINKGO); discriminate F.
Qed.
Print Assumptions C95_default_partial.
Example C95_default_partial_case :
  let o := consistent q_cpu (Opts KFull (Some RESOLVE) Hybrid true) in
  o_mode o = Cpu /\ sel_lsq q_cpu (o_mode o) None (o_ic o) = Cur (Some MA57).
Proof. split; reflexivity. Qed.

(** Under hybrid and auto compute mode: with auto the first of the order, provided inertia correction is off when ReSolve
    is in the build; a named solver that is in the build is used, except PARDISO and Ginkgo when a solver asserted before
    them is there; nothing else but Ginkgo is ever used. *)
Theorem C95_device_partial : forall b mode ic,
  mode = Hybrid \/ mode = CAuto ->
  (forall s, sel_lsq b mode None ic = Cur (Some s) <->
     first_of b lsq_device_order s /\ (avail b RESOLVE = true -> ic = false)) /\
  (forall t, (avail b RESOLVE = true -> ic = false) -> In t lsq_device_order -> avail b t = true ->
     (t = PARDISO -> avail b MA57 = false) -> (t = GINKGO -> avail b MA57 = false /\ avail b PARDISO = false) ->
     sel_lsq b mode (Some t) ic = Cur (Some t)) /\
  (forall l s, sel_lsq b mode l ic = Cur (Some s) ->
     choice b lsq_device_order l s \/ (s = GINKGO /\ avail b GINKGO = true /\ none_fits b lsq_device_order l)).
Proof.
  intros b mode ic M. split; [|split].
  - intro s. apply lsq_dev_auto, M.
  - intros t. apply lsq_dev_request, M.
  - intros l s H. apply lsq_dev_sound with (1 := H). destruct M as [-> | ->]; discriminate.
Qed.
Print Assumptions C95_device_partial.
Example C95_device_partial_case :
  sel_lsq q_dev Hybrid None false = Cur (Some RESOLVE) /\ sel_lsq q_dev CAuto (Some MA57) false = Cur (Some MA57).
Proof. split; reflexivity. Qed.

(** With a solver the multipliers of the start are those it returns when it succeeds and they are within
    duals_lsq_ini_max, and zero when it fails or one of them is beyond the limit. *)
Theorem C95_used_partial : forall b mode l ic upd me mi ymax s ok yc yd,
  sel_lsq b mode l ic = Cur (Some s) -> (0 <= ymax)%R ->
  upd s (fun _ => 0%R) (fun _ => 0%R) = (ok, yc, yd) ->
  exists yc' yd', start_duals b mode l ic upd me mi ymax = Some (yc', yd') /\
    (ok = true -> bounded_by me yc ymax -> bounded_by mi yd ymax -> yc' = yc /\ yd' = yd) /\
    (ok = false \/ ~ bounded_by me yc ymax \/ ~ bounded_by mi yd ymax -> forall i, yc' i = 0%R /\ yd' i = 0%R).
Proof.
  intros b mode l ic upd me mi ymax s ok yc yd H P E. rewrite (start_solver _ _ _ _ _ _ _ _ _ _ _ _ H E).
  set (nc := rinfnorm me yc). set (nd := rinfnorm mi yd).
  destruct (rltb ymax (if rltb nd nc then nc else nd)) eqn:L; cbn [orb].
  - eexists; eexists. split; [reflexivity|]. split; [|split; reflexivity].
    intros _ A B. exfalso. apply rltb_true in L.
    pose proof (rinfnorm_ge me yc ymax P A) as A'. pose proof (rinfnorm_ge mi yd ymax P B) as B'.
    fold nc in A'. fold nd in B'. destruct (rltb nd nc); lra.
  - apply rltb_false in L.
    assert (nc <= ymax /\ nd <= ymax)%R as (A & B).
    { destruct (rltb nd nc) eqn:X; [apply rltb_true in X|apply rltb_false in X]; lra. }
    destruct ok; cbn [negb]; eexists; eexists; (split; [reflexivity|]); split.
    + auto.
    + intros [D|[D|D]]; [discriminate D | destruct D; apply rinfnorm_le; exact A | destruct D; apply rinfnorm_le; exact B].
    + discriminate.
    + split; reflexivity.
Qed.
Print Assumptions C95_used_partial.
Example C95_used_partial_case :
  let upd := fun (_ : solver) (_ _ : nat -> R) => (true, (fun _ : nat => 2%R), (fun _ : nat => 1%R)) in
  sel_lsq q_dev Hybrid (Some STRUMPACK) false = Cur (Some STRUMPACK) /\
  start_duals q_dev Hybrid (Some STRUMPACK) false upd 1 1 3%R = Some ((fun _ => 2%R), (fun _ => 1%R)) /\
  bounded_by 1 (fun _ => 2%R) 3 /\ bounded_by 1 (fun _ => 1%R) 3 /\ ~ bounded_by 1 (fun _ => 2%R) 1.
Proof.
  split; [reflexivity|]. split; [|split; [|split]].
  - destruct (C95_used_partial q_dev Hybrid (Some STRUMPACK) false
      (fun _ _ _ => (true, (fun _ : nat => 2%R), (fun _ : nat => 1%R))) 1 1 3%R STRUMPACK true (fun _ => 2%R) (fun _ => 1%R))
      as (yc & yd & E & F & _); [reflexivity | lra | reflexivity |].
    rewrite E. destruct F as [-> ->]; [reflexivity | | | reflexivity]; intros k _; rewrite Rabs_right; lra.
  - intros k _. rewrite Rabs_right; lra.
  - intros k _. rewrite Rabs_right; lra.
  - intro H. specialize (H 0%nat ltac:(lia)). cbn in H. rewrite Rabs_right in H; lra.
Qed.

(** Exactly when the start of a run stops at a failed assert.  Cpu: only in builds with STRUMPACK, for a named solver that
    is not there or for STRUMPACK with inertia correction.  Hybrid and auto: ReSolve with inertia correction, or a named
    solver that is neither an available ReSolve or STRUMPACK nor the first available one of MA57 and PARDISO.  (The gpu
    mode is [C95_gpu_refuted].)  Missing: that it never stops. *)
Theorem C95_stops_partial : forall b l ic,
  (sel_lsq b Cpu l ic = Abort <->
   avail b STRUMPACK = true /\
   ((exists t, l = Some t /\ none_fits b lsq_cpu_order l) \/ (choice b lsq_cpu_order l STRUMPACK /\ ic = true))) /\
  (forall mode, mode = Hybrid \/ mode = CAuto ->
   (sel_lsq b mode l ic = Abort <->
    (avail b RESOLVE = true /\ ic = true) \/
    exists t s, l = Some t /\ first_of b [MA57; PARDISO] s /\ s <> t /\
      ((t = RESOLVE \/ t = STRUMPACK) -> avail b t = false))).
Proof. intros b l ic. split; [apply lsq_cpu_abort | intros mode M; apply lsq_dev_abort, M]. Qed.
Print Assumptions C95_stops_partial.
Example C95_stops_partial_case :
  sel_lsq q_cpu Cpu (Some RESOLVE) false = Abort /\ sel_lsq q_cpu Cpu (Some GINKGO) true <> Abort /\
  sel_lsq q_cpu Hybrid (Some RESOLVE) false = Abort /\ sel_lsq q_dev Hybrid (Some STRUMPACK) false <> Abort.
Proof. repeat split; discriminate. Qed.

(** The documented choice of auto with a device, STRUMPACK, is not made when ReSolve is there. *)
Theorem C95_auto_refuted : ~ (forall b ic, documented_auto b (sel_lsq b Hybrid None ic)).
Proof. intro H. specialize (H q_dev false eq_refl). discriminate H. Qed.
Print Assumptions C95_auto_refuted.

(** With ReSolve in the build and inertia correction (the default acceptor) every run of a sparse problem outside the cpu
    mode stops at a failed assert, whatever solver is named. *)
Theorem C95_acceptor_refuted :
  (forall b mode l, avail b RESOLVE = true -> mode <> Cpu -> sel_lsq b mode l true = Abort) /\
  ~ (forall b t, request_met b lsq_device_order t (sel_lsq b Hybrid (Some t) true)).
Proof.
  split; [exact lsq_resolve_ic|]. intro H. specialize (H q_dev MA57 (or_intror (or_intror (or_introl eq_refl))) eq_refl).
  discriminate H.
Qed.
Print Assumptions C95_acceptor_refuted.

(** Under gpu compute mode the multipliers cannot be initialised by least squares at all. *)
Theorem C95_gpu_refuted : forall b l ic upd me mi ymax, start_duals b Gpu l ic upd me mi ymax = None.
Proof. intros. unfold start_duals. rewrite lsq_gpu. reflexivity. Qed.
Print Assumptions C95_gpu_refuted.
Example C95_gpu_refuted_case :
  let o := consistent q_dev (Opts KXDY (Some RESOLVE) Gpu true) in
  o_mode o = Gpu /\ o_ic o = false /\ create q_dev o XDY false (o_ic o) None = Cur (Some RESOLVE) /\
  sel_lsq q_dev (o_mode o) (Some RESOLVE) (o_ic o) = Abort.
Proof. repeat split. Qed.

(** The consistency rules do not read the option: naming STRUMPACK stops the run under the default acceptor, although
    naming it for the KKT systems switches the acceptor. *)
Theorem C95_rules_refuted : exists b o,
  o_lin o = None /\ avail b STRUMPACK = true /\
  sel_lsq b (o_mode (consistent b o)) (Some STRUMPACK) (o_ic (consistent b o)) = Abort /\
  let o' := consistent b (Opts (o_kkt o) (Some STRUMPACK) (o_mode o) (o_ic o)) in
  create b o' XDY false (o_ic o') None = Cur (Some STRUMPACK).
Proof. exists q_cpu, (Opts KXDY None Cpu true). repeat split. Qed.
Print Assumptions C95_rules_refuted.

(** A named solver that is not in the build stops the run on the cpu when STRUMPACK is there, is dropped when it is not,
    and gives Ginkgo on a device. *)
Theorem C95_missing_refuted :
  sel_lsq q_strum Cpu (Some MA57) false = Abort /\ sel_lsq q_ma57 Cpu (Some PARDISO) false = Cur None /\
  sel_lsq q_ginkgo Hybrid (Some MA57) false = Cur (Some GINKGO).
Proof. repeat split. Qed.
Print Assumptions C95_missing_refuted.

(** On a device PARDISO and Ginkgo cannot be named in a build that has MA57. *)
Theorem C95_request_refuted : ~ (forall b t, request_met b lsq_device_order t (sel_lsq b Hybrid (Some t) false)) /\
  (forall b t mode, (t = PARDISO \/ t = GINKGO) -> avail b MA57 = true -> mode <> Cpu ->
     sel_lsq b mode (Some t) false = Abort).
Proof.
  split.
  - intro H. specialize (H q_dev PARDISO (or_intror (or_intror (or_intror (or_introl eq_refl)))) eq_refl). discriminate H.
  - intros b t mode T V M. cases_b b; try discriminate V; destruct mode; try (destruct (M eq_refl));
      destruct T as [-> | ->]; reflexivity.
Qed.
Print Assumptions C95_request_refuted.
