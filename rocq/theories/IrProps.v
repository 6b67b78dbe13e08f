(** C94: the search direction with outer iterative refinement, for arbitrary linear systems, vectors and kernels. *)
From Flocq Require Import Core.Core IEEE754.BinarySingleNaN.
From Coq Require Import Reals Lra List Bool Arith ZArith Lia.
From Verif Require Import FloatBase FloatBridge KrylovModel KrylovSpec KrylovProps IrModel IrSpec IrProofs.
Import ListNotations.

Section Any.
Variable V : Type.
Variables (axpy : b64 -> V -> V -> V) (scale : b64 -> V -> V) (dot : V -> V -> b64) (nrm : V -> b64) (zero : V -> V).
Notation ir_call := (ir_call V axpy scale dot nrm zero).
Notation ir_calls := (ir_calls V axpy scale dot nrm zero).
Notation soft_dirs := (soft_dirs V axpy scale dot nrm zero).

(** Calls that all ask for the same object: without refinement each direction and return value is the one of the linear
    solve; with it the return value is true, and a direction returned without a warning has a full residual of at most
    min(mu*ir_outer_tol_factor, ir_outer_tol_min) relative to the right-hand side.  Missing for the full claim: calls
    asking for different objects, the residual itself instead of the relative one, and failures (see below). *)
Theorem C94_direction_partial : forall o l s d, (forall c, In c l -> c_dir c = d) -> h_b s = None \/ h_b s = Some d ->
  Forall2 (fun (c : call V) '(ok, x, warn) =>
      ((o_maxit o <= 0)%Z -> (x, ok) = c_C c (c_rhs c) /\ warn = None) /\
      ((0 < o_maxit o)%Z -> ok = true /\ exists t conv, below_both t (fmul (c_mu c) (o_fac o)) (o_min o) /\ warn = Some conv /\
         (conv = true -> relative V axpy scale nrm (c_A c) t (c_rhs c) x)))
    l (ir_calls o l s).
Proof.
  intros o l. induction l as [|c l IH]; intros s d D B; [constructor|]. cbn [IrModel.ir_calls].
  pose proof (D c (or_introl eq_refl)) as Dc. subst d.
  pose proof (ir_call_ok V axpy scale dot nrm zero o c s B) as O.
  destruct (ir_call o c s) as [[ok s1] w]. destruct O as (O1 & _ & O3 & O4). constructor.
  - split; [exact O3|]. intros P. destruct (O4 P) as (E & conv & W & R). split; [exact E|].
    exists (ir_tol V o c), conv. split; [apply ir_tol_below|]. auto.
  - apply (IH s1 (c_dir c)); [intros c' I; apply D; right; exact I|exact O1].
Qed.

(** A linear solve that is exact is kept: if computeDirections solves the full system for this right-hand side, the
    refined direction is that solution, found in half an iteration.  (The residual at zero is the right-hand side, the
    kernels are exact on the vectors met, and the zero direction is not accepted already.) *)
Theorem C94_exact_partial : forall o c s,
  (0 < o_maxit o)%Z -> h_b s = None \/ h_b s = Some (c_dir c) ->
  let b := c_rhs c in let x := fst (c_C c b) in
  feq (nrm b) (fofZ 0) = false ->
  (forall t, t = fmul (c_mu c) (o_fac o) \/ t = o_min o -> fle (nrm b) (fmul t (nrm b)) = false /\ fle (fofZ 0) (fmul t (nrm b)) = true) ->
  (forall k, c_A c k x = b) -> residual V axpy scale b (c_A c 0 (zero b)) = b ->
  axpy (fofZ 1) x (zero b) = x -> nrm (axpy (fofZ (-1)) b b) = fofZ 0 -> nrm (residual V axpy scale b b) = fofZ 0 ->
  vb (dot b b) = true -> finite (dot b b) = true -> val (dot b b) <> 0%R -> feq (dot b b) (fofZ 0) = false -> fle (fabs (dot b b)) f_1e20 = true ->
  let '(ok, s', warn) := ir_call o c s in ok = true /\ warn = Some true /\ h_val s' (c_dir c) = x.
Proof.
  intros o c s P B b x NZ HT AC R0 AX N1 N2 Vd Fd Zd Ed Gd. unfold IrModel.ir_call.
  destruct (HT (ir_tol V o c) (proj1 (ir_tol_below V o c))) as (NT & T0). clear HT.
  destruct (Z.leb_spec (o_maxit o) 0); [lia|].
  replace (match h_b s with Some b => b | None => c_dir c end) with (c_dir c) by (destruct B as [-> | ->]; reflexivity).
  assert (G : fgt (fabs (dot b b)) c_1e40 = false).
  { change (flt c_1e40 (fabs (dot b b)) = false). destruct (flt c_1e40 (fabs (dot b b))) eqn:E; [|reflexivity]. exfalso.
    assert (V4 : vb c_1e40 = true) by (vm_compute; reflexivity). assert (F4 : finite c_1e40 = true) by (vm_compute; reflexivity).
    assert (V2 : vb f_1e20 = true) by (vm_compute; reflexivity). assert (F2 : finite f_1e20 = true) by (vm_compute; reflexivity).
    assert (Fa : finite (fabs (dot b b)) = true) by (rewrite fabs_fin; exact Fd).
    pose proof (vb_fabs _ Vd) as Va. rewrite flt_val in E by assumption. rewrite fle_val in Gd by assumption.
    assert (L : fle f_1e20 c_1e40 = true) by (vm_compute; reflexivity). rewrite fle_val in L by assumption.
    revert E Gd L. case Rlt_bool_spec; [|discriminate]. intros E _. case Rle_bool_spec; [|discriminate]. intros G _.
    case Rle_bool_spec; [|discriminate]. intros L _. lra. }
  destruct (bi_exact V axpy scale dot nrm zero (c_A c) (fun v => fst (c_C c v)) (ir_tol V o c) (Z.to_nat (o_maxit o)) b) as (s' & E & _); auto; [lia|].
  change (fun _ : nat => fun v => fst (c_C c v)) with (prec_op V c) in E. unfold ir_solver. fold b. rewrite E.
  cbn [h_val]. split; [reflexivity|]. split; [reflexivity|]. rewrite put_same. reflexivity.
Qed.

(** Soft restoration with refinement on, after a direction was computed into [dir]: every trial uses the direction the
    first one used, whatever the linear solves return. *)
Theorem C94_soft_repeated : forall o dir soft l s, (0 < o_maxit o)%Z -> h_b s = Some dir -> soft <> dir ->
  fst (soft_dirs o dir soft l s) = repeat (h_val s dir) (S (length l)).
Proof.
  intros o dir soft l s P B N. unfold IrModel.soft_dirs.
  pose proof (soft_more_repeated V axpy scale dot nrm zero o dir soft l (IrSt V (put V (h_val s) soft (h_val s dir)) (h_b s)) P B N) as (E & _).
  destruct (soft_more V axpy scale dot nrm zero o soft l _) as (r, s'). cbn [fst] in *. rewrite E. cbn [h_val]. rewrite put_same. reflexivity.
Qed.
(** With refinement off each trial after the first uses the direction solved for it. *)
Theorem C94_soft_partial : forall o dir soft l s, (o_maxit o <= 0)%Z ->
  fst (soft_dirs o dir soft l s) = h_val s dir :: map (fun c => fst (c_C c (c_rhs c))) l.
Proof.
  intros o dir soft l s P. unfold IrModel.soft_dirs.
  pose proof (soft_more_off V axpy scale dot nrm zero o soft l (IrSt V (put V (h_val s) soft (h_val s dir)) (h_b s)) P) as E.
  destruct (soft_more V axpy scale dot nrm zero o soft l _) as (r, s'). cbn [fst] in *. rewrite E. cbn [h_val]. rewrite put_same. reflexivity.
Qed.
End Any.
Print Assumptions C94_direction_partial.
Print Assumptions C94_exact_partial.
Print Assumptions C94_soft_repeated.
Print Assumptions C94_soft_partial.

(** vectors of length two; the full operator diag(2,4) and its exact solve *)
Definition A24 (_ : nat) (x : V2) : V2 := (fmul (fofZ 2) (fst x), fmul (fofZ 4) (snd x)).
Definition C24 (b : V2) : V2 * bool := ((fdiv (fst b) (fofZ 2), fdiv (snd b) (fofZ 4)), true).
Definition z2 : V2 -> V2 := fun _ => (f_zero, f_zero).
Definition call2 := ir_call V2 axpy2 scale2 dot2 nrm2 z2.
Definition calls2 := ir_calls V2 axpy2 scale2 dot2 nrm2 z2.
Definition soft2 := soft_dirs V2 axpy2 scale2 dot2 nrm2 z2.
Definition i2 (a b : Z) : V2 := (fofZ a, fofZ b).
(** values within the documented ranges of the options: 1/128, 1/1048576, 8 iterations *)
Definition o8 : iropts := IrOpts 8 (fdiv (fofZ 1) (fofZ 128)) tol20.
Definition st0 : irst V2 := IrSt V2 (fun _ => i2 7 7) None.
(** an approximate solve: the matrix [4 1; 1 3] of C32 preconditioned by its diagonal *)
Definition Cdiag (b : V2) : V2 * bool := ((fdiv (fst b) (fofZ 4), fdiv (snd b) (fofZ 3)), true).
Example C94_direction_case :
  let l := [Call V2 A24 C24 (fofZ 1) (i2 4 8) 0; Call V2 A2 Cdiag (fofZ 1) (i2 1 2) 0] in
  (forall c, In c l -> c_dir c = 0) /\ h_b st0 = None /\
  map (fun '(ok, _, w) => (ok, w)) (calls2 o8 l st0) = [(true, Some true); (true, Some true)].
Proof. cbv zeta. split; [|split; [reflexivity|vm_compute; reflexivity]]. intros c [<-|[<-|[]]]; reflexivity. Qed.
Example C94_exact_case :
  let c := Call V2 A24 C24 (fofZ 1) (i2 4 8) 0 in let b := c_rhs c in let x := fst (c_C c b) in
  x = i2 2 2 /\ (forall k, c_A c k x = b) /\ residual V2 axpy2 scale2 b (c_A c 0 (z2 b)) = b /\
  axpy2 (fofZ 1) x (z2 b) = x /\ nrm2 (axpy2 (fofZ (-1)) b b) = fofZ 0 /\ nrm2 (residual V2 axpy2 scale2 b b) = fofZ 0 /\
  feq (nrm2 b) (fofZ 0) = false /\ (forall t, t = fmul (c_mu c) (o_fac o8) \/ t = o_min o8 -> fle (nrm2 b) (fmul t (nrm2 b)) = false /\ fle (fofZ 0) (fmul t (nrm2 b)) = true) /\
  dot2 b b = fofZ 80 /\ val (dot2 b b) <> 0%R.
Proof.
  cbv zeta. repeat match goal with |- _ /\ _ => split end; try (match goal with |- _ = _ => vm_compute; reflexivity end).
  - intros k. vm_compute. reflexivity.
  - intros t [-> | ->]; split; vm_compute; reflexivity.
  - replace (dot2 _ _) with (fofZ 80) by (vm_compute; reflexivity). unfold val, SF2R, fofZ. cbn. unfold F2R. cbn. lra.
Qed.
(** three trials: with refinement off they use the solutions of their own systems *)
Definition trials : list (call V2) := [Call V2 A24 C24 (fofZ 1) (i2 4 8) 0; Call V2 A24 C24 (fofZ 1) (i2 16 16) 0].
Example C94_soft_case :
  fst (soft2 (IrOpts 0 (fofZ 1) (fofZ 1)) 0 1 trials st0) = [i2 7 7; i2 2 2; i2 8 4].
Proof. vm_compute. reflexivity. Qed.
Example C94_soft_repeated_case :
  let s := snd (fst (call2 o8 (Call V2 A24 C24 (fofZ 1) (i2 2 4) 0) st0)) in
  h_b s = Some 0 /\ h_val s 0 = i2 1 1 /\ fst (soft2 o8 0 1 trials s) = [i2 1 1; i2 1 1; i2 1 1].
Proof. vm_compute. auto. Qed.

(** The direction asked for is the one computed: false.  After a direction for one object, a call for another one returns true without a
    warning, leaves the requested object as it was, and overwrites the first. *)
Theorem C94_object_refuted : exists c c' s, c_dir c <> c_dir c' /\
  let r1 := call2 o8 c s in let s1 := snd (fst r1) in let r2 := call2 o8 c' s1 in let s2 := snd (fst r2) in
  fst (fst r1) = true /\ fst (fst r2) = true /\ snd r2 = Some true /\ h_val s2 (c_dir c') = h_val s (c_dir c') /\
  ~ meets V2 axpy2 scale2 nrm2 (c_A c') (fofZ 1) (c_rhs c') (h_val s2 (c_dir c')) /\
  h_val s1 (c_dir c) = fst (c_C c (c_rhs c)) /\ h_val s2 (c_dir c) = fst (c_C c' (c_rhs c')) /\
  fst (c_C c (c_rhs c)) <> fst (c_C c' (c_rhs c')).
Proof.
  exists (Call V2 A24 C24 (fofZ 1) (i2 2 4) 0), (Call V2 A24 C24 (fofZ 1) (i2 4 8) 1), st0. split; [discriminate|]. cbv zeta.
  repeat match goal with |- _ /\ _ => split end; try (match goal with |- _ = _ => vm_compute; reflexivity end).
  - intros (r & (k & R) & L). rewrite R in L. vm_compute in L. discriminate.
  - vm_compute. discriminate.
Qed.
(** Refinement is applied while the full residual exceeds min(mu*ir_outer_tol_factor, ir_outer_tol_min), as the options
    are documented: false, the test is relative to the right-hand side.  With mu = 1 and both options 1 (within their
    ranges) the zero direction is returned without a warning, its residual being the whole right-hand side, although
    the linear solve is exact. *)
Theorem C94_tolerance_refuted : exists o c s, (1 <= o_maxit o <= 100)%Z /\ fle (o_fac o) (fofZ 1) = true /\ fle (o_min o) f_1e20 = true /\
  (forall b k, b = c_rhs c -> c_A c k (fst (c_C c b)) = b) /\
  let r := call2 o c s in let x := h_val (snd (fst r)) (c_dir c) in
  fst (fst r) = true /\ snd r = Some true /\ x = i2 0 0 /\
  (forall t, below_both t (fmul (c_mu c) (o_fac o)) (o_min o) -> ~ absolute V2 axpy2 scale2 nrm2 (c_A c) t (c_rhs c) x).
Proof.
  exists (IrOpts 8 (fofZ 1) (fofZ 1)), (Call V2 A24 C24 (fofZ 1) (i2 4 8) 0), st0. cbn [o_maxit o_fac o_min]. split; [lia|].
  repeat match goal with |- _ /\ _ => split end; try (match goal with |- _ = _ => vm_compute; reflexivity end).
  - intros b k ->. vm_compute. reflexivity.
  - cbv zeta. repeat match goal with |- _ /\ _ => split end; try (match goal with |- _ = _ => vm_compute; reflexivity end).
    intros t (T & _) (k & L). assert (E : t = fofZ 1) by (destruct T as [-> | ->]; vm_compute; reflexivity).
    rewrite E in L. vm_compute in L. discriminate.
Qed.
(** A linear solve that fails is reported: false with refinement on.  Every solve fails, the call returns true, and the
    direction is no solution to any tolerance below 1. *)
Theorem C94_failure_refuted : exists c s, (forall v, snd (c_C c v) = false) /\
  let r := call2 o8 c s in
  fst (fst r) = true /\ ~ relative V2 axpy2 scale2 nrm2 (c_A c) (fdiv (fofZ 1) (fofZ 2)) (c_rhs c) (h_val (snd (fst r)) (c_dir c)) /\
  fst (fst (call2 (IrOpts 0 (o_fac o8) (o_min o8)) c s)) = false.
Proof.
  exists (Call V2 A24 (fun _ => (i2 0 0, false)) (fofZ 1) (i2 4 8) 0), st0. split; [reflexivity|]. cbv zeta.
  split; [vm_compute; reflexivity|]. split; [|vm_compute; reflexivity].
  intros [(Z & _)|(r & (k & R) & L)]; [vm_compute in Z; discriminate|]. rewrite R in L. vm_compute in L. discriminate.
Qed.
(** Each trial of the soft restoration uses the direction solved for it: false with refinement on. *)
Theorem C94_soft_refuted : exists c s l,
  let s1 := snd (fst (call2 o8 c s)) in
  c_dir c = 0 /\ fst (soft2 o8 0 1 l s1) <> h_val s1 0 :: map (fun c => fst (c_C c (c_rhs c))) l /\
  (forall c' b, In c' l -> b = c_rhs c' -> c_A c' 0 (fst (c_C c' b)) = b) /\
  h_val (snd (soft2 o8 0 1 l s1)) 0 <> h_val s1 0.
Proof.
  exists (Call V2 A24 C24 (fofZ 1) (i2 2 4) 0), st0, trials. cbv zeta. split; [reflexivity|]. split; [vm_compute; discriminate|].
  split; [|vm_compute; discriminate]. intros c' b [<-|[<-|[]]] ->; vm_compute; reflexivity.
Qed.
Print Assumptions C94_object_refuted.
Print Assumptions C94_tolerance_refuted.
Print Assumptions C94_failure_refuted.
Print Assumptions C94_soft_refuted.
