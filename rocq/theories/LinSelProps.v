(** C91 (which sparse linear solver is used) and C92 (the option linsol_mode over a run). *)
From Coq Require Import List Bool Arith ZArith QArith Lia.
From Verif Require Import LinSelModel LinSelSpec LinSelProofs.
Import ListNotations.
Local Close Scope Q_scope. Local Open Scope nat_scope.

(** * C91 *)
(** builds used in the cases *)
Definition b_none : build := Build false false false false false false false false false.
Definition b_cpu : build := Build true true true true false false false false false.
Definition b_strum : build := Build false false true false false false false false false.
Definition b_dev : build := Build true true true true true true true true true.

(** On the cpu with safe mode off both symmetric indefinite systems use exactly the documented solver: the requested one
    when it is in the build, the first of the order under auto.  Missing for the full claim: safe mode, hybrid mode of
    xdycyd, full system, fallback of a request that is not there; each is refuted below. *)
Theorem C91_cpu_partial : forall b o c ic s,
  c = XY \/ c = XDY -> o_mode o = Cpu ->
  create b o c false ic None = Cur (Some s) <-> choice b cpu_order (o_lin o) s /\ inertia_ok s ic.
Proof.
  intros b o c ic s [-> | ->] Hm; cbn [create]; rewrite Hm; [|rewrite sel_cpu_same]; apply sel_cpu_ok.
Qed.
Print Assumptions C91_cpu_partial.
Example C91_cpu_partial_case :
  create b_cpu (Opts KXDY (Some GINKGO) Cpu true) XDY false true None = Cur (Some GINKGO) /\
  create b_cpu (Opts KXDY None Cpu true) XDY false true None = Cur (Some MA57).
Proof. split; reflexivity. Qed.

(** The user's options through the consistency rules: without GPU support a requested solver of the cpu list that is in the
    build is used, whatever compute_mode and fact_acceptor say. *)
Theorem C91_requested_partial : forall b k t mode ic m,
  b_gpu b = false -> k = KXY \/ k = KXDY -> In t cpu_order -> avail b t = true ->
  let o := consistent b (Opts k (Some t) mode ic) in
  create b o (decide Sparse (o_kkt o) m) false (o_ic o) None = Cur (Some t).
Proof.
  intros b k t mode ic m Hg Hk Ht Ha o.
  assert (Hm : o_mode o = Cpu) by (unfold o, consistent; cbn; rewrite Hg; reflexivity).
  assert (Hl : o_lin o = Some t).
  { unfold o, consistent; cbn -[seqb]. destruct Hk as [-> | ->]; destruct Ht as [<-|[<-|[<-|[<-|[]]]]];
      destruct (b_cuda b); reflexivity. }
  apply (C91_cpu_partial b o _ (o_ic o) t).
  - unfold o; cbn. destruct Hk as [-> | ->]; [left | right]; reflexivity.
  - exact Hm.
  - rewrite Hl. split; [cbn; auto|].
    intros E. unfold o, consistent; cbn -[seqb].
    destruct Hk as [-> | ->]; destruct E as [-> | ->]; try (destruct (b_cuda b); reflexivity);
      exfalso; destruct Ht as [H|[H|[H|[H|[]]]]]; discriminate H.
Qed.
Print Assumptions C91_requested_partial.
Example C91_requested_partial_case :
  let o := consistent b_cpu (Opts KXDY (Some STRUMPACK) Hybrid true) in
  o_ic o = false /\ create b_cpu o (decide Sparse (o_kkt o) 3) false (o_ic o) None = Cur (Some STRUMPACK).
Proof. split; reflexivity. Qed.

(** Under hybrid the compact system xycyd uses exactly the documented solver. *)
Theorem C91_hybrid_xycyd_partial : forall b o ic s,
  o_mode o = Hybrid ->
  create b o XY false ic None = Cur (Some s) <-> choice b hybrid_order (o_lin o) s /\ inertia_ok s ic.
Proof. intros b o ic s Hm; cbn [create]; rewrite Hm; apply sel_hybrid_ok. Qed.
Print Assumptions C91_hybrid_xycyd_partial.
Example C91_hybrid_xycyd_partial_case :
  create b_dev (Opts KXY None Hybrid false) XY false false None = Cur (Some RESOLVE).
Proof. reflexivity. Qed.

(** The positive definite systems, in safe mode or not: MA57 on the cpu, the Cholesky of cuSOLVER otherwise, and nothing else. *)
Theorem C91_spd : forall b o c safe ic s,
  c = Condensed \/ c = Normal ->
  create b o c safe ic None = Cur (Some s) <->
  (o_lin o = None \/ o_lin o = Some s) /\ avail b s = true /\
  ((o_mode o = Cpu /\ s = MA57) \/ (o_mode o <> Cpu /\ s = CUCHOL)).
Proof.
  intros b o c safe ic s Hc.
  assert (E : create b o c safe ic None = sel_spd b (o_mode o) (o_lin o)) by (destruct Hc as [-> | ->]; reflexivity).
  rewrite E. unfold sel_spd, is_req, is_auto.
  destruct (o_mode o); destruct (o_lin o) as [t|]; try destruct t; cbn -[avail];
    change (b_coinhsl b) with (avail b MA57); change (b_cuda b) with (avail b CUCHOL);
    destruct (avail b MA57) eqn:A1; destruct (avail b CUCHOL) eqn:A2; split; intro H; try discriminate H;
    try (injection H as <-; split; [auto | split; [assumption |
         first [ left; split; reflexivity | right; split; [discriminate | reflexivity] ]]]);
    destruct H as [[H|H] [V [[M ->]|[M ->]]]]; try discriminate; try reflexivity; try congruence; exfalso; apply M; reflexivity.
Qed.
Print Assumptions C91_spd.
Example C91_spd_case : create b_dev (Opts KCondensed None Hybrid true) Condensed false true None = Cur (Some CUCHOL).
Proof. reflexivity. Qed.

(** A sparse problem with the default values of all options: in no build does the first factorization start; the run ends in
    the failed assert "does not support safe mode". *)
Theorem C91_default_refuted : forall b m mu0 theta kappa x w,
  run b Sparse (consistent b (Opts KAuto None CAuto true)) Stable mu0 0 (x :: w)
      (start Sparse (consistent b (Opts KAuto None CAuto true)) m Stable mu0 theta kappa) = ([], None).
Proof. intros b m mu0 theta kappa [[mu p1] p2] w. reflexivity. Qed.
Print Assumptions C91_default_refuted.
Example C91_default_refuted_case :
  exists s, first_of b_cpu cpu_order s.
Proof. exists MA57, [], [PARDISO; STRUMPACK; GINKGO]. repeat split. intros t []. Qed.

(** In safe mode (linsol_mode = stable is the default) xdycyd ignores the request: MA57 or nothing. *)
Theorem C91_safe_refuted :
  (forall b o ic s, create b o XDY true ic None = Cur (Some s) -> s = MA57) /\
  (exists b o, o_lin o = Some PARDISO /\ avail b PARDISO = true /\ create b o XDY true (o_ic o) None = Cur (Some MA57)).
Proof.
  split.
  - intros b o ic s. cbn. destruct (o_mode o); destruct (b_coinhsl b); intro H; try discriminate H; injection H; auto.
  - exists b_cpu, (Opts KXDY (Some PARDISO) Cpu true). repeat split.
Qed.
Print Assumptions C91_safe_refuted.

(** Under hybrid, xdycyd with auto gives no solver in any build, ginkgo neither, and a request for PARDISO gives MA57. *)
Theorem C91_hybrid_refuted : forall b k m ic v,
  create b (Opts k None Hybrid ic) (decide Sparse KXDY m) false ic None <> Cur v /\
  create b (Opts k (Some GINKGO) Hybrid ic) (decide Sparse KXDY m) false ic None <> Cur v /\
  (avail b PARDISO = true ->
   create b (Opts k (Some PARDISO) Hybrid ic) (decide Sparse KXDY m) false ic None = Cur (Some MA57)).
Proof.
  intros b k m ic v. cbn -[avail]. unfold attempt; cbn -[avail].
  split; [|split].
  - destruct (avail b RESOLVE); destruct (avail b STRUMPACK); destruct ic; cbn; discriminate.
  - discriminate.
  - intros ->. reflexivity.
Qed.
Print Assumptions C91_hybrid_refuted.
Example C91_hybrid_refuted_case : avail b_dev PARDISO = true /\ first_of b_dev hybrid_order RESOLVE.
Proof. split; [reflexivity|]. exists [], [STRUMPACK; MA57; PARDISO]. repeat split. intros t []. Qed.

(** The documented fallback does not exist: a requested solver that is not in the build ends the run although another
    documented solver is there. *)
Theorem C91_fallback_refuted : exists b o s,
  o = consistent b (Opts KXDY (Some MA57) Cpu false) /\ documented b cpu_order (o_lin o) s /\
  create b o XDY false (o_ic o) None = Abort.
Proof.
  exists b_strum, (consistent b_strum (Opts KXDY (Some MA57) Cpu false)), STRUMPACK.
  split; [reflexivity|]. split; [|reflexivity].
  cbn. exists [MA57; PARDISO], [GINKGO]. repeat split. intros t [<-|[<-|[]]]; reflexivity.
Qed.
Print Assumptions C91_fallback_refuted.

(** The full system: neither the request nor the documented order is followed. *)
Theorem C91_full_refuted : exists b o,
  o = consistent b (Opts KFull (Some STRUMPACK) Cpu true) /\ o_lin o = Some STRUMPACK /\
  documented b full_order (o_lin o) STRUMPACK /\ create b o Full false (o_ic o) None = Cur (Some PARDISO).
Proof. exists b_cpu, (consistent b_cpu (Opts KFull (Some STRUMPACK) Cpu true)). repeat split. Qed.
Print Assumptions C91_full_refuted.

(** auto that comes down to STRUMPACK ends the run under the default fact_acceptor, while the explicit request works. *)
Theorem C91_auto_refuted : exists b,
  let oa := consistent b (Opts KXDY None CAuto true) in
  let os := consistent b (Opts KXDY (Some STRUMPACK) CAuto true) in
  first_of b cpu_order STRUMPACK /\
  create b oa XDY false (o_ic oa) None = Abort /\ create b os XDY false (o_ic os) None = Cur (Some STRUMPACK).
Proof.
  exists b_strum. cbn. split; [|split; reflexivity].
  exists [MA57; PARDISO], [GINKGO]. repeat split. intros t [<-|[<-|[]]]; reflexivity.
Qed.
Print Assumptions C91_auto_refuted.

(** * C92 *)
(** linsol_mode = stable: every factorization of every run is in safe mode and never by the condensed class. *)
Theorem C92_stable : forall b p o m mu0 theta kappa w,
  Forall (fun e => e_safe e = true /\ e_cls e <> Condensed)
    (fst (run b p o Stable mu0 0 w (start p o m Stable mu0 theta kappa))).
Proof.
  intros b p o m mu0 theta kappa w.
  apply (run_ind b p o Stable mu0 (fun _ _ => True)); [|exact I].
  intros iter mu p1 p2 s _. unfold iteration. split; [|auto].
  apply (passes_ind b o mu0 (fun s => s_safe s = true)); [| | |reflexivity].
  - intros s0 H. unfold safer. rewrite H. destruct (s_cls s0); cbn; first [assumption | reflexivity].
  - intros s0 v sf H [-> | [_ ->]]; cbn; [exact H | reflexivity].
  - intros s0 v H1 H0 _. cbn. split; [exact H1|]. unfold safer. rewrite H0. destruct (s_cls s0) eqn:E; cbn; congruence.
Qed.
Print Assumptions C92_stable.
Example C92_stable_case :
  fst (run b_cpu Sparse (Opts KCondensed None Cpu true) Stable (1 # 1) 0 [((1 # 2)%Q, POk, POk); ((1 # 4)%Q, POk, POk)]
        (start Sparse (Opts KCondensed None Cpu true) 2 Stable (1 # 1) (3 # 2) (1 # 5)))
  = [Ev 0 XDY true MA57 (1 # 1) (1 # 2) true; Ev 1 XDY true MA57 (1 # 4) (1 # 4) true].
Proof. reflexivity. Qed.

(** linsol_mode = forcequick: no factorization is in safe mode and the class chosen at the start stays. *)
Theorem C92_forcequick : forall b p o m mu0 theta kappa w,
  Forall (fun e => e_safe e = false /\ e_cls e = decide p (o_kkt o) m)
    (fst (run b p o Forcequick mu0 0 w (start p o m Forcequick mu0 theta kappa))).
Proof.
  intros b p o m mu0 theta kappa w.
  apply (run_ind b p o Forcequick mu0 (fun _ s => s_cls s = decide p (o_kkt o) m)); [|reflexivity].
  intros iter mu p1 p2 s Hc. unfold iteration.
  assert (G : Forall (fun e => e_safe e = false /\ e_cls e = decide p (o_kkt o) m)
      (fst (passes b o mu0 true iter mu [p1; p2] (with_safe (St (s_cls s) (s_sol s) mu (s_ic s) (s_safe s) (s_last s) (s_max s) (s_theta s) (s_kappa s)) false (s_sol s)))) /\
    forall s', snd (passes b o mu0 true iter mu [p1; p2] (with_safe (St (s_cls s) (s_sol s) mu (s_ic s) (s_safe s) (s_last s) (s_max s) (s_theta s) (s_kappa s)) false (s_sol s))) = Some s' ->
      s_safe s' = false /\ s_cls s' = decide p (o_kkt o) m).
  { apply (passes_ind b o mu0 (fun s => s_safe s = false /\ s_cls s = decide p (o_kkt o) m)).
    - intros s0 [H1 H2]. unfold safer. rewrite H1. auto.
    - intros s0 v sf [H1 H2] [-> | [H _]]; [cbn; auto | discriminate H].
    - intros s0 v H1 _ _. exact H1.
    - cbn. auto. }
  destruct G as [G1 G2]. split; [exact G1|]. intros s' H. apply (G2 s' H).
Qed.
Print Assumptions C92_forcequick.
Example C92_forcequick_case :
  fst (run b_cpu Sparse (Opts KCondensed None Cpu true) Forcequick (1 # 1) 0 [((1 # 2)%Q, PSmall, POk); ((1 # 4)%Q, PFail, POk)]
        (start Sparse (Opts KCondensed None Cpu true) 2 Forcequick (1 # 1) (3 # 2) (1 # 5)))
  = [Ev 0 Condensed false MA57 (1 # 2) (1 # 2) true; Ev 1 Condensed false MA57 (1 # 4) (1 # 4) true].
Proof. reflexivity. Qed.

(** KKTLinsys = condensed on a sparse problem, linsol_mode stable or speculative: a factorization in safe mode is by
    xdycyd with the inertia test, one outside safe mode by the condensed system. *)
(** the two states of such a run (hiopAlgFilterIPM.cpp 1915-1945, 2005-2039) *)
Definition two_cls (s : st) : Prop := s_cls s = Condensed \/ (s_cls s = XDY /\ s_safe s = true /\ s_ic s = true).
Theorem C92_condensed : forall b o m mu0 theta kappa l w,
  o_kkt o = KCondensed -> l <> Forcequick ->
  Forall (fun e => (e_safe e = true /\ e_cls e = XDY /\ e_ic e = true) \/ (e_safe e = false /\ e_cls e = Condensed))
    (fst (run b Sparse o l mu0 0 w (start Sparse o m l mu0 theta kappa))).
Proof.
  intros b o m mu0 theta kappa l w Hk Hl.
  apply (run_ind b Sparse o l mu0 (fun _ => two_cls)); [|left; cbn; rewrite Hk; reflexivity].
  intros iter mu p1 p2 s Hs. unfold iteration.
  apply (passes_ind b o mu0 two_cls).
  - intros s0 [H|[H1 [H2 H3]]]; unfold safer.
    + rewrite H. destruct (s_safe s0) eqn:E; [right; cbn; auto | left; exact H].
    + rewrite H1, H2. right. auto.
  - intros s0 v sf [H|[H1 [H2 H3]]] Hsf; [left; exact H | right; cbn].
    split; [exact H1|]. split; [|exact H3]. destruct Hsf as [-> | [_ ->]]; [exact H2 | reflexivity].
  - intros s0 v _ H0 _. cbn. unfold safer. destruct H0 as [H|[H1 [H2 H3]]].
    + rewrite H. destruct (s_safe s0) eqn:E; cbn; [left; auto | right; auto].
    + rewrite H1, H2. left. auto.
  - destruct l; [| |exfalso; apply Hl; reflexivity].
    + destruct Hs as [H|[H1 [H2 H3]]]; [left; exact H | right; cbn; auto].
    + unfold fast. destruct (_ && _) eqn:E; [left; reflexivity|]. exact Hs.
Qed.
Print Assumptions C92_condensed.
Example C92_condensed_case :
  fst (run b_cpu Sparse (Opts KCondensed None Cpu false) Speculative (1 # 1) 0 [((1 # 2)%Q, PFail, POk)]
        (start Sparse (Opts KCondensed None Cpu false) 2 Speculative (1 # 1) (3 # 2) (1 # 5)))
  = [Ev 0 Condensed false MA57 (1 # 2) (1 # 2) false; Ev 0 XDY true MA57 (1 # 1) (1 # 2) true].
Proof. reflexivity. Qed.

(** The number [r] of returns to the condensed system in a sparse run with KKTLinsys = condensed: the limit is 10*2^r and
    10*(2^r-1)+r iterations have passed; in particular 2^r <= 1 + iterations/10, so the limit fits an int. *)
(** the invariant of the loop for that (hiopAlgFilterIPM.cpp 1943, 2007-2023) *)
Definition returns_inv (iter : Z) (s : st) : Prop :=
  exists r : nat, (s_max s = 10 * 2 ^ Z.of_nat r)%Z /\
    (10 * (2 ^ Z.of_nat r - 1) + Z.of_nat r <= iter)%Z /\
    (s_cls s <> Condensed -> s_safe s = true -> 10 * (2 ^ Z.of_nat r - 1) + Z.of_nat r <= s_last s <= iter)%Z.
Theorem C92_returns : forall b o m mu0 theta kappa w s,
  o_kkt o = KCondensed ->
  snd (run b Sparse o Speculative mu0 0 w (start Sparse o m Speculative mu0 theta kappa)) = Some s ->
  exists r : nat, (s_max s = 10 * 2 ^ Z.of_nat r)%Z /\
    (10 * (2 ^ Z.of_nat r - 1) + Z.of_nat r <= Z.of_nat (length w))%Z.
Proof.
  intros b o m mu0 theta kappa w s Hk H.
  enough (G : returns_inv (0 + Z.of_nat (length w)) s).
  { destruct G as (r & G1 & G2 & _). exists r. split; [exact G1 | lia]. }
  set (J := fun iter s => returns_inv iter s /\ two_cls s).
  assert (R : forall s', snd (run b Sparse o Speculative mu0 0 w (start Sparse o m Speculative mu0 theta kappa)) = Some s' ->
                         J (0 + Z.of_nat (length w))%Z s').
  2:{ apply (R s H). }
  clear s H. apply (run_ind b Sparse o Speculative mu0 J (fun _ => True)).
  2:{ split; [|left; cbn; rewrite Hk; reflexivity].
      exists 0%nat. cbn. rewrite Hk. repeat split; try lia; exfalso; apply H; reflexivity. }
  intros iter mu p1 p2 s [Hs Ht]. unfold iteration.
  match goal with |- Forall _ (fst ?X) /\ _ =>
    assert (G : Forall (fun _ : event => True) (fst X) /\ forall s', snd X = Some s' -> J iter s') end.
  2:{ destruct G as [G1 G2]. split; [exact G1|]. intros s' H. destruct (G2 s' H) as [(r & A & B & C) D].
      split; [|exact D]. exists r. split; [exact A|]. split; [lia|]. intros X Y. specialize (C X Y). lia. }
  apply (passes_ind b o mu0 (J iter)).
  - intros s0 [(r & A & B & C) D]. unfold safer.
    destruct (s_safe s0) eqn:E; [|split; [exists r; rewrite E; auto | exact D]].
    destruct D as [D|[D1 [D2 D3]]].
    + rewrite D. split; [|right; cbn; auto]. exists r. cbn. repeat split; auto; lia.
    + rewrite D1. split; [exists r; rewrite E; auto | right; auto].
  - intros s0 v sf [(r & A & B & C) D] Hsf. split.
    + exists r. cbn. split; [exact A|]. split; [exact B|]. intros X _. apply C; [exact X|].
      destruct D as [D|[_ [D _]]]; [contradiction | exact D].
    + destruct D as [D|[D1 [D2 D3]]]; [left; exact D | right; cbn].
      split; [exact D1|]. split; [|exact D3]. destruct Hsf as [-> | [_ ->]]; [exact D2 | reflexivity].
  - intros. exact I.
  - destruct Hs as (r & A & B & C). unfold fast.
    destruct (_ && _) eqn:E.
    + split; [|left; reflexivity].
      apply andb_prop in E. destruct E as [E1 E2]. unfold long_safe in E2. cbn in E1, E2.
      apply andb_prop in E2. destruct E2 as [E2 _]. apply andb_prop in E2. destruct E2 as [E2 E3].
      apply Z.ltb_lt in E3.
      assert (N : s_cls s <> Condensed) by (intro X; rewrite X in E1; discriminate E1).
      specialize (C N E2). exists (S r). rewrite Nat2Z.inj_succ, Z.pow_succ_r by lia.
      cbn [s_max s_cls s_safe s_last]. split; [rewrite A; lia|]. split; [lia|]. intros X; exfalso; apply X; reflexivity.
    + split; [exists r; cbn; auto | exact Ht].
Qed.
Print Assumptions C92_returns.
(** one failure at iteration 0, then good steps: the return is at iteration 11 *)
Example C92_returns_case :
  let o := Opts KCondensed None Cpu false in
  let w n := ((1 # 2)%Q, PFail, POk) :: repeat ((1 # 2)%Q, POk, POk) n in
  let mx n := option_map s_max (snd (run b_cpu Sparse o Speculative (1 # 1) 0 (w n) (start Sparse o 2 Speculative (1 # 1) (3 # 2) (1 # 5)))) in
  mx 10 = Some 10%Z /\ mx 11 = Some 20%Z.
Proof. split; vm_compute; reflexivity. Qed.

(** Mixed dense-sparse problems: in a build with MAGMA and outside compute_mode = cpu the pivoting solver is used exactly in
    safe mode and the one without pivoting exactly outside; otherwise LAPACK, which pivots, is used throughout. *)
Theorem C92_mds_solver : forall b o m mu0 theta kappa l w,
  o_kkt o <> KCondensed ->
  Forall (fun e => e_cls e = Mds /\
            (b_magma b = true /\ o_mode o <> Cpu -> e_sol e = if e_safe e then BUKA else NOPIV) /\
            (b_magma b = false \/ o_mode o = Cpu -> e_sol e = LAPACK))
    (fst (run b MdsProb o l mu0 0 w (start MdsProb o m l mu0 theta kappa))).
Proof.
  intros b o m mu0 theta kappa l w Hk.
  apply (run_ind b MdsProb o l mu0 (fun _ s => s_cls s = Mds)); [|reflexivity].
  intros iter mu p1 p2 s Hs. unfold iteration.
  apply (passes_ind b o mu0 (fun s => s_cls s = Mds)).
  - intros s0 H. unfold safer. rewrite H. destruct (s_safe s0); exact H.
  - intros s0 v sf H _. exact H.
  - intros s0 v H1 _ C. cbn zeta. cbn [e_cls e_sol e_safe]. rewrite H1 in C |- *. cbn [create] in C.
    unfold sel_mds in C. split; [reflexivity|]. injection C as <-. split.
    + intros [-> Hm]. destruct (o_mode o); try reflexivity. exfalso; apply Hm; reflexivity.
    + intros [-> | ->]; [reflexivity | destruct (b_magma b); reflexivity].
  - destruct l; [exact Hs | | exact Hs].
    unfold fast. cbn [s_cls]. rewrite Hs. destruct (o_kkt o) eqn:E; try (exfalso; apply Hk; reflexivity);
      cbn [andb]; destruct (long_safe _ _ _); reflexivity.
Qed.
Print Assumptions C92_mds_solver.
Example C92_mds_solver_case :
  let o := Opts KAuto None Hybrid true in
  map (fun e => (e_safe e, e_sol e))
    (fst (run b_dev MdsProb o Speculative (1 # 1) 0 [((1 # 2)%Q, POk, POk); ((1 # 2)%Q, PFail, POk)] (start MdsProb o 2 Speculative (1 # 1) (3 # 2) (1 # 5))))
  = [(false, NOPIV); (false, NOPIV); (true, BUKA)].
Proof. reflexivity. Qed.

(** Mixed dense-sparse problems never return to the fast solver, against the comment "switch back to fast mode after couple
    of iters": after a factorization in safe mode at iteration at most 100010, all later ones up to there are in safe mode. *)
Theorem C92_mds_refuted : forall b o mu0 w iter s,
  s_cls s = Mds -> s_safe s = true -> s_last s = 100000%Z -> s_max s = 10%Z ->
  (iter + Z.of_nat (length w) <= 100011)%Z ->
  Forall (fun e => e_safe e = true) (fst (run b MdsProb o Speculative mu0 iter w s)).
Proof.
  intros b o mu0 w. induction w as [|[[mu p1] p2] w IH]; intros iter s H1 H2 H3 H4 H5; [constructor|].
  cbn [run length] in *.
  assert (G : Forall (fun e => e_safe e = true) (fst (iteration b MdsProb o Speculative mu0 iter mu p1 p2 s)) /\
    forall s', snd (iteration b MdsProb o Speculative mu0 iter mu p1 p2 s) = Some s' ->
      (s_cls s' = Mds /\ s_safe s' = true /\ s_last s' = 100000%Z /\ s_max s' = 10%Z)).
  { unfold iteration.
    apply (passes_ind b o mu0 (fun s => s_cls s = Mds /\ s_safe s = true /\ s_last s = 100000%Z /\ s_max s = 10%Z)).
    - intros s0 (A & B & C & D). unfold safer. rewrite A, B. auto.
    - intros s0 v sf (A & B & C & D) [-> | [_ ->]]; cbn; auto.
    - intros s0 v (A & B & C & D) _ _. exact B.
    - assert (L : long_safe iter mu (St (s_cls s) (s_sol s) mu (s_ic s) (s_safe s) (s_last s) (s_max s) (s_theta s) (s_kappa s)) = false).
      { unfold long_safe. cbn. rewrite H2, H3, H4.
        replace (10 <? iter - 100000)%Z with false by (symmetry; apply Z.ltb_ge; lia). reflexivity. }
      unfold fast. rewrite L, andb_false_r. cbn. auto. }
  destruct (iteration b MdsProb o Speculative mu0 iter mu p1 p2 s) as [es [s'|]]; cbn [fst snd] in *.
  - destruct G as [G1 G2]. destruct (G2 s' eq_refl) as (A & B & C & D).
    specialize (IH (iter + 1)%Z s' A B C D ltac:(lia)).
    destruct (run b MdsProb o Speculative mu0 (iter + 1) w s') as [l' r]. cbn [fst] in *.
    apply Forall_app. split; assumption.
  - apply G.
Qed.
Print Assumptions C92_mds_refuted.
(** the state of the hypotheses is reached from the start by one failed factorization; 40 good iterations with a large
    barrier parameter follow *)
Example C92_mds_refuted_case :
  let o := Opts KAuto None Hybrid true in
  let s0 := start MdsProb o 2 Speculative (1 # 1) (3 # 2) (1 # 5) in
  option_map (fun s => (s_cls s, s_safe s, s_last s, s_max s))
    (snd (run b_dev MdsProb o Speculative (1 # 1) 0 [((1 # 2)%Q, PFail, POk)] s0)) = Some (Mds, true, 100000%Z, 10%Z) /\
  map e_sol (fst (run b_dev MdsProb o Speculative (1 # 1) 0 (((1 # 2)%Q, PFail, POk) :: repeat ((1 # 2)%Q, POk, POk) 40) s0))
    = NOPIV :: repeat BUKA 41.
Proof. split; vm_compute; reflexivity. Qed.

(** Safe mode does not change the solver of a sparse run outside KKTLinsys = condensed: the repeated solve "with additional
    accuracy and stability" uses the solver that just failed, and so does every later one. *)
Theorem C92_same_solver_refuted : forall b o mu0 w iter s v,
  o_kkt o <> KCondensed -> s_cls s <> Condensed -> s_cls s <> Mds -> s_sol s = Some v ->
  Forall (fun e => e_sol e = v) (fst (run b Sparse o Speculative mu0 iter w s)).
Proof.
  intros b o mu0 w iter s v Hk Hc Hm Hv.
  apply (run_ind b Sparse o Speculative mu0 (fun _ s => s_cls s <> Condensed /\ s_cls s <> Mds /\ s_sol s = Some v)); [|auto].
  clear iter s Hc Hm Hv. intros iter mu p1 p2 s (A & B & C). unfold iteration.
  assert (F : fast Sparse o mu0 iter mu (St (s_cls s) (s_sol s) mu (s_ic s) (s_safe s) (s_last s) (s_max s) (s_theta s) (s_kappa s))
              = St (s_cls s) (s_sol s) mu (s_ic s) (s_safe s) (s_last s) (s_max s) (s_theta s) (s_kappa s)).
  { unfold fast. cbn [s_cls]. destruct (s_cls s), (o_kkt o); try reflexivity; exfalso; apply Hk; reflexivity. }
  rewrite F. clear F.
  set (K := fun s => s_cls s <> Condensed /\ s_cls s <> Mds /\ s_sol s = Some v).
  assert (S : forall t, K t -> safer mu0 iter t = t).
  { intros t (X & _ & _). unfold safer. destruct (s_safe t); [|reflexivity]. destruct (s_cls t); try reflexivity. exfalso; apply X; reflexivity. }
  assert (CR : forall t x, K t -> create b o (s_cls t) (s_safe t) (s_ic t) (s_sol t) = Cur (Some x) -> x = v).
  { intros t x (X & Y & Z) E. rewrite Z in E. destruct (s_cls t); cbn in E; try (injection E; auto); exfalso; apply Y; reflexivity. }
  generalize (St (s_cls s) (s_sol s) mu (s_ic s) (s_safe s) (s_last s) (s_max s) (s_theta s) (s_kappa s))
    (conj A (conj B C) : K (St (s_cls s) (s_sol s) mu (s_ic s) (s_safe s) (s_last s) (s_max s) (s_theta s) (s_kappa s))).
  generalize [p1; p2]. intros ps. induction ps as [|q ps IH]; intros t Ht.
  - cbn. split; [constructor | intros s' [= <-]; exact Ht].
  - cbn [passes]. rewrite (S t Ht).
    destruct (create b o (s_cls t) (s_safe t) (s_ic t) (s_sol t)) as [[x|]|] eqn:E;
      [|split; [constructor | intros s' H; discriminate H] ..].
    assert (x = v) by (apply (CR t x Ht E)). subst x.
    assert (W : forall sf, K (with_safe t sf (Some v))) by (intro sf; destruct Ht as (X & Y & Z); repeat split; assumption).
    destruct (after_pass false (s_safe t) q) as [|sf|].
    + split; [constructor; [reflexivity | constructor] | intros s' [= <-]; apply W].
    + destruct (IH _ (W sf)) as [G1 G2]. destruct (passes b o mu0 false iter mu ps (with_safe t sf (Some v))) as [es r].
      split; [constructor; [reflexivity | exact G1] | exact G2].
    + split; [constructor; [reflexivity | constructor] | intros s' H; discriminate H].
Qed.
Print Assumptions C92_same_solver_refuted.
Example C92_same_solver_refuted_case :
  let o := Opts KXDY (Some GINKGO) Cpu true in
  map (fun e => (e_safe e, e_sol e))
    (fst (run b_cpu Sparse o Speculative (1 # 1) 0 [((1 # 2)%Q, POk, POk); ((1 # 2)%Q, PFail, POk)] (start Sparse o 2 Speculative (1 # 1) (3 # 2) (1 # 5))))
  = [(false, GINKGO); (false, GINKGO); (true, GINKGO)] /\ avail b_cpu MA57 = true.
Proof. split; reflexivity. Qed.

(** After a switch the options theta_mu and kappa_mu of the user are gone, and the KKT object of that iteration works with
    mu0 in place of the barrier parameter. *)
Theorem C92_switch_refuted : forall b o mu0 theta kappa m mu p2,
  o_kkt o = KCondensed -> o_mode o = Cpu -> o_lin o = None -> b_coinhsl b = true ->
  exists e1 e2, fst (run b Sparse o Speculative mu0 0 [(mu, PFail, p2)] (start Sparse o m Speculative mu0 theta kappa)) = [e1; e2] /\
    e_kmu e1 = mu /\ e_kmu e2 = mu0 /\ e_mu e2 = mu /\
    forall s, snd (run b Sparse o Speculative mu0 0 [(mu, PFail, p2)] (start Sparse o m Speculative mu0 theta kappa)) = Some s ->
      s_theta s = (6 # 5)%Q /\ s_kappa s = (2 # 5)%Q.
Proof.
  intros b [k lin mode ic] mu0 theta kappa m mu p2 Hk Hm Hl Hb. cbn in Hk, Hm, Hl. subst k mode lin.
  unfold run, iteration, start. cbn -[Qle_bool]. rewrite Hb. cbn -[Qle_bool]. rewrite ?Hb.
  destruct p2; cbn; do 2 eexists; (split; [reflexivity|]); repeat (split; [reflexivity|]); intros s H; try discriminate H;
    injection H as <-; split; reflexivity.
Qed.
Print Assumptions C92_switch_refuted.
Example C92_switch_refuted_case : b_coinhsl b_cpu = true /\ ~ ((1 # 100) == (1 # 1))%Q.
Proof. split; [reflexivity | discriminate]. Qed.
