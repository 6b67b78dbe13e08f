(** C83: the measure of infeasibility by which steps are judged. *)
From Flocq Require Import Core BinarySingleNaN Plus_error.
From Coq Require Import List Bool Arith ZArith QArith Qabs.
From Verif Require Import FloatBase FloatFacts FloatBridge MuModel VecModel RegSpec ErrModel ErrSpec ErrProofs ErrFloatProofs ThetaSpec ThetaProofs.
Import ListNotations.
Open Scope Q_scope.

(** In exact arithmetic, for all equalities and inequalities: it is the total violation, it is zero exactly
    when every constraint holds, it bounds every single violation, and it is at most the number of constraints
    times the largest one (the error tested for termination). *)
Theorem C83_exact : forall D E,
  theta Qar D E == total D E /\
  0 <= theta Qar D E /\
  (theta Qar D E == 0 <-> holds D E) /\
  within (theta Qar D E) D E /\
  nlp_feas Qar D E <= theta Qar D E <= inject_Z (Z.of_nat (length E + length D)) * nlp_feas Qar D E.
Proof.
  intros D E. pose proof (theta_total D E) as T. pose proof (total_within D E) as W.
  assert (P : 0 <= total D E).
  { unfold total. rewrite <- (Qplus_0_l 0). apply Qplus_le_compat; apply sum_abs_nonneg. }
  split; [exact T|]. split; [rewrite T; exact P|]. split; [|split].
  - rewrite T. split.
    + intro Z. apply within_zero. apply feas_within; [apply Qle_refl|]. rewrite <- Z. apply feas_within; assumption.
    + intro H. apply Qle_antisym; [|exact P]. apply within_zero in H. pose proof (within_total 0 D E H) as L.
      rewrite Qmult_0_r in L. exact L.
  - apply feas_within; [rewrite T; exact P|]. rewrite T. apply feas_within; assumption.
  - split; rewrite T; [apply feas_within; assumption|]. apply within_total, feas_within; [apply feas_nonneg|apply Qle_refl].
Qed.
Print Assumptions C83_exact.

(** In binary64, for all double values: the measure is NaN exactly when some constraint's violation is
    undefined (NaN, or the same infinity on both sides). *)
Theorem C83_nan : forall D E, doubles D E -> (is_nan (theta Far D E) = true <-> undef_somewhere D E).
Proof. exact theta_nan. Qed.
Print Assumptions C83_nan.

(** Otherwise it is nonnegative and, in spite of rounding, at least every single violation and at least the
    error tested for termination. *)
Theorem C83_bounds : forall D E, doubles D E -> ~ undef_somewhere D E ->
  fle f_zero (theta Far D E) = true /\
  (forall e, In e E -> fle (fabs (fsub (e_rhs _ e) (e_c _ e))) (theta Far D E) = true) /\
  (forall d, In d D -> fle (fabs (fsub (d_it _ d) (d_val _ d))) (theta Far D E) = true) /\
  fle (nlp_feas Far D E) (theta Far D E) = true.
Proof.
  intros D E HD NU. destruct HD as [V1 V2] eqn:EQ. clear EQ.
  destruct (theta_ge D E HD) as (P & G1 & G2).
  { intros e He. destruct (is_nan (ryc1 Far e)) eqn:Z; [|reflexivity]. exfalso. apply NU. left. exists e. split; [exact He|].
    apply fsub_nan_iff; [apply (V1 e He)|apply (V1 e He)|exact Z]. }
  { intros d Hd. destruct (is_nan (ryd1 Far d)) eqn:Z; [|reflexivity]. exfalso. apply NU. right. exists d. split; [exact Hd|].
    apply fsub_nan_iff; [apply (V2 d Hd)|apply (V2 d Hd)|exact Z]. }
  split; [|split; [exact G1|split; [exact G2|exact (feas_theta D E HD NU)]]].
  destruct P as [_ P]. destruct (theta Far D E) as [s|s| |s m e]; try contradiction; subst; reflexivity.
Qed.
Print Assumptions C83_bounds.

(** In binary64 it is zero exactly when every constraint holds exactly: rounding never hides a violation. *)
Theorem C83_zero : forall D E, doubles D E ->
  (fle (theta Far D E) f_zero = true <->
   (forall e, In e E -> same (e_rhs _ e) (e_c _ e)) /\ (forall d, In d D -> same (d_it _ d) (d_val _ d))).
Proof. exact theta_zero. Qed.
Print Assumptions C83_zero.

(** two equalities (one violated by 3) and an inequality violated by 2 *)
Definition th_E : list (evar Qar) := [EVar Qar 5 2 0; EVar Qar 1 1 0].
Definition th_D : list (dvar Qar) := [DVar Qar 1 (-(1)) 0 0 1 0 0 0 0 0 0].
Example C83_exact_case : theta Qar th_D th_E == 5 /\ nlp_feas Qar th_D th_E == 3 /\ ~ holds th_D th_E.
Proof. split; [reflexivity|]. split; [reflexivity|]. intros [_ H]. specialize (H _ (or_introl eq_refl)). discriminate. Qed.
(** neighbouring subnormal numbers: the smallest double against zero, and 1 against 1 + 2^-52 *)
Definition th_tiny : b64 := S754_finite false 1 (-1074).
Definition th_one' : b64 := S754_finite false 4503599627370497 (-52).
Definition thf_E : list (evar Far) := [EVar Far th_tiny f_zero f_zero; EVar Far f_one f_one f_zero].
Definition thf_D : list (dvar Far) := [DVar Far f_one th_one' f_zero f_zero f_one f_zero f_zero f_zero f_zero f_zero f_zero].
Lemma th_dbl : doubles thf_D thf_E.
Proof. split; intros a H; repeat (destruct H as [<-|H]; [split; reflexivity|]); destruct H. Qed.
Lemma th_def : ~ undef_somewhere thf_D thf_E.
Proof. rewrite <- (theta_nan _ _ th_dbl). vm_compute. discriminate. Qed.
Example C83_bounds_case : doubles thf_D thf_E /\ ~ undef_somewhere thf_D thf_E /\ fle (theta Far thf_D thf_E) f_zero = false /\
  fle (theta Far [] thf_E) f_zero = false /\ fle (theta Far [] (tl thf_E)) f_zero = true.
Proof. split; [exact th_dbl|]. split; [exact th_def|]. vm_compute. auto. Qed.
(** a NaN value of a constraint *)
Example C83_nan_case : let E := [EVar Far S754_nan f_zero f_zero] in doubles thf_D E /\ undef_somewhere thf_D E /\ is_nan (theta Far thf_D E) = true.
Proof.
  split; [split; [intros a [<-|[]]; split; reflexivity|exact (proj2 th_dbl)]|]. split; [|vm_compute; reflexivity].
  left. eexists. split; [left; reflexivity|]. right. left. reflexivity.
Qed.
Print Assumptions C83_bounds_case.
