(** C64, C66: what the errors tested for termination measure. *)
From Coq Require Import List Bool Arith ZArith QArith Qabs Qminmax Lia Lqa.
From Verif Require Import FloatBase FloatFacts MuModel VecModel FilterModel LineSearchModel RunModel ErrModel ErrSpec ErrProofs ErrFloatProofs.
Import ListNotations.
Open Scope Q_scope.

(** C64.  For every problem, every distribution of the variables over ranks and every iterate: the three
    errors are within (a, b, c) exactly when the first-order conditions hold within (a, b, c). *)
Theorem C64_errors_are_kkt : forall a b c ranks D E, 0 <= a -> 0 <= b -> 0 <= c -> ranks <> [] -> bits ranks D ->
  (nlp_optim Qar D E ranks <= a /\ cons_viol Qar D E <= b /\ nlp_complem Qar D ranks <= c <->
   kkt_within 0 0 a b c ranks D E).
Proof. exact nlp_kkt. Qed.
Print Assumptions C64_errors_are_kkt.

(** the overall error is within [tol] exactly when the first-order conditions hold within the scaled tolerances;
    the scale factors lie between 1 and 1e8 *)
Theorem C64_overall_is_scaled_kkt : forall smax tol ranks D E, 0 < smax -> 0 <= tol -> ranks <> [] -> bits ranks D ->
  (nlp_overall Qar Q_ofn Q_cap D E smax ranks <= tol <->
   kkt_within 0 0 (tol * scale_stat smax ranks D E) tol (tol * scale_comp smax ranks D) ranks D E) /\
  1 <= scale_stat smax ranks D E <= 100000000 # 1 /\ 1 <= scale_comp smax ranks D <= 100000000 # 1.
Proof.
  intros smax tol ranks D E P Pt NE B. split; [apply overall_kkt; assumption|].
  split; (split; [apply scale_of_ge1; exact P|apply Q.le_min_r]).
Qed.
Print Assumptions C64_overall_is_scaled_kkt.

(** the error of the barrier problem is within [tol] exactly when the conditions perturbed by [mu] and by
    the damping weight [ct] hold within the scaled tolerances *)
Theorem C64_barrier_error_is_perturbed_kkt : forall smax ct mu tol ranks D E, 0 < smax -> 0 <= tol -> ranks <> [] -> bits ranks D ->
  (log_overall Qar Q_ofn Q_cap D E smax ct mu ranks <= tol <->
   kkt_within ct mu (tol * scale_stat smax ranks D E) tol (tol * scale_comp smax ranks D) ranks D E).
Proof. exact log_overall_kkt. Qed.
Print Assumptions C64_barrier_error_is_perturbed_kkt.

(** complementarity in terms of the values of the constraints: the error is the slack's plus the tested
    distance between slack variable and constraint times the multiplier; lower and upper bounds *)
Theorem C64_true_complementarity : forall D E d c ef, In d D -> 0 <= ef -> nlp_feas Qar D E <= ef ->
  (Qabs (d_sl Qar d * d_vl Qar d) <= c -> d_sl Qar d == d_it Qar d - d_l Qar d ->
     Qabs ((d_val Qar d - d_l Qar d) * d_vl Qar d) <= c + ef * Qabs (d_vl Qar d)) /\
  (Qabs (d_su Qar d * d_vu Qar d) <= c -> d_su Qar d == d_u Qar d - d_it Qar d ->
     Qabs ((d_val Qar d - d_u Qar d) * d_vu Qar d) <= c + ef * Qabs (d_vu Qar d)).
Proof.
  intros D E d c ef Hd Pe Hf. split; intros Hc Hs; eapply comp_true; eauto.
Qed.
Print Assumptions C64_true_complementarity.

(** the example: min x s.t. 0 <= x, one inequality, with the slack variable at its bound and x at m *)
Definition far_d (m : Q) : dvar Qar := DVar Qar 0 m 0 0 1 0 0 0 (-(1)) 1 0.
Definition far_x : xvar Qar := XVar Qar 1 [] [1] 0 0 0 0 0 0.
(** that distance is not tested: for every m >= 0 the overall error is 0 for min x s.t. x >= 0 at x = m, with
    consistent slack and multiplier 1, although (d(x) - dl) * vl = m *)
Theorem C64_untested_slack_refuted : forall smax m, 0 < smax -> 0 <= m ->
  nlp_overall Qar Q_ofn Q_cap [far_d m] [] smax [[far_x]] <= 0 /\
  d_sl Qar (far_d m) == d_it Qar (far_d m) - d_l Qar (far_d m) /\
  (d_val Qar (far_d m) - d_l Qar (far_d m)) * d_vl Qar (far_d m) == m.
Proof.
  intros smax m P Pm. split; [|split; cbn; lra].
  apply overall_kkt; [exact P|lra|discriminate| |].
  - split.
    + intros r x [<-|[]] [<-|[]]. split; left; reflexivity.
    + intros d [<-|[]]. split; [right|left]; reflexivity.
  - unfold kkt_within. repeat split.
    + intros r x [<-|[]] [<-|[]]. rewrite Qmult_0_l. cbn. unfold Qle. cbn. lia.
    + intros d [<-|[]]. rewrite Qmult_0_l. cbn. unfold Qle. cbn. lia.
    + intros e [].
    + destruct H as [<-|[]]. intros _. cbn. lra.
    + destruct H as [<-|[]]. cbn. intro C. exfalso. lra.
    + destruct H as [<-|[]]. destruct H0 as [<-|[]]. cbn. intro C. exfalso. lra.
    + destruct H as [<-|[]]. destruct H0 as [<-|[]]. cbn. intro C. exfalso. lra.
    + destruct H as [<-|[]]. intros _. rewrite Qmult_0_l. cbn. unfold Qle. cbn. lia.
    + destruct H as [<-|[]]. cbn. intro C. exfalso. lra.
Qed.
Print Assumptions C64_untested_slack_refuted.

(** binary64, one rank: no computed residual is NaN *)
Definition no_nan (D : list (dvar Far)) (E : list (evar Far)) (r : list (xvar Far)) : Prop :=
  (forall x, In x r -> is_nan (rx1 Far D E x) = false /\ is_nan (fsub f_zero (fmul (x_sl Far x) (x_zl Far x))) = false /\
                       is_nan (fsub f_zero (fmul (x_su Far x) (x_zu Far x))) = false) /\
  (forall e, In e E -> is_nan (fsub (e_rhs Far e) (e_c Far e)) = false) /\
  (forall d, In d D -> is_nan (fsub (fadd (d_y Far d) (d_vl Far d)) (d_vu Far d)) = false /\
                       is_nan (fsub (d_val Far d) (d_l Far d)) = false /\ is_nan (fsub (d_u Far d) (d_val Far d)) = false /\
                       is_nan (fsub f_zero (fmul (d_sl Far d) (d_vl Far d))) = false /\
                       is_nan (fsub f_zero (fmul (d_su Far d) (d_vu Far d))) = false).
(** every computed residual is within its own tolerance *)
Definition within_tols (P : run_params) (D : list (dvar Far)) (E : list (evar Far)) (r : list (xvar Far)) : Prop :=
  (forall x, In x r -> fle (fabs (rx1 Far D E x)) (dual_tol P) = true) /\
  (forall d, In d D -> fle (fabs (fsub (fadd (d_y Far d) (d_vl Far d)) (d_vu Far d))) (dual_tol P) = true) /\
  (forall e, In e E -> fle (fabs (fsub (e_rhs Far e) (e_c Far e))) (cons_tol P) = true) /\
  (forall d, In d D -> (feq (d_il Far d) f_one = true -> fle (fopp (fsub (d_val Far d) (d_l Far d))) (cons_tol P) = true) /\
                       (feq (d_iu Far d) f_one = true -> fle (fopp (fsub (d_u Far d) (d_val Far d))) (cons_tol P) = true)) /\
  (forall x, In x r -> (feq (x_il Far x) f_one = true -> fle (fabs (fsub f_zero (fmul (x_sl Far x) (x_zl Far x)))) (comp_tol P) = true) /\
                       (feq (x_iu Far x) f_one = true -> fle (fabs (fsub f_zero (fmul (x_su Far x) (x_zu Far x)))) (comp_tol P) = true)) /\
  (forall d, In d D -> (feq (d_il Far d) f_one = true -> fle (fabs (fsub f_zero (fmul (d_sl Far d) (d_vl Far d)))) (comp_tol P) = true) /\
                       (feq (d_iu Far d) f_one = true -> fle (fabs (fsub f_zero (fmul (d_su Far d) (d_vu Far d)))) (comp_tol P) = true)).

Lemma head_of {A} (f : A -> b64) l : (forall a, In a l -> is_nan (f a) = false) -> head_ok (map f l).
Proof. intro H. destruct l; cbn; [exact I|]. apply H. left. reflexivity. Qed.

(** C64/C66 in binary64: if the termination test reports Solve_Success and no residual is NaN, every computed
    residual is within its tolerance, for every tolerance, iterate and problem size *)
Theorem C66_success_without_nan_partial : forall P smax D E r e0 it na, no_nan D E r ->
  fst (check_termination P (errs_of smax D E r) e0 it na) = Some Solve_Success -> within_tols P D E r.
Proof.
  intros P smax D E r e0 it na [NX [NE ND]] H. apply success_errs in H. destruct H as [_ [HO [HC HM]]].
  cbn [errs_of e_optim e_cons e_complem] in *.
  destruct (optim_sound D E r) as [O1 O2].
  { apply head_of. intros x Hx. apply (NX x Hx). } { apply head_of. intros d Hd. apply (ND d Hd). }
  destruct (cons_sound D E) as [C1 [C2 C3]].
  { apply head_of. intros x Hx. apply (NE x Hx). }
  { intros e He. apply in_map_iff in He. destruct He as [d [<- Hd]]. apply (ND d Hd). }
  { intros e He. apply in_map_iff in He. destruct He as [d [<- Hd]]. apply (ND d Hd). }
  destruct (complem_sound D r) as [M1 M2].
  { intros x Hx. split; apply (NX x Hx). } { intros d Hd. split; apply (ND d Hd). }
  repeat split.
  - intros x Hx. eapply fle_trans; [apply O1; [exact Hx|apply (NX x Hx)]|exact HO].
  - intros d Hd. eapply fle_trans; [apply (O2 d); [exact Hd|apply (ND d Hd)]|exact HO].
  - intros e He. eapply fle_trans; [apply (C1 e); [exact He|apply (NE e He)]|exact HC].
  - intro B. eapply fle_trans; [apply (C2 d); [exact H|exact B]|exact HC].
  - intro B. eapply fle_trans; [apply (C3 d); [exact H|exact B]|exact HC].
  - intro B. eapply fle_trans; [apply (proj1 (M1 x H)); exact B|exact HM].
  - intro B. eapply fle_trans; [apply (proj2 (M1 x H)); exact B|exact HM].
  - intro B. eapply fle_trans; [apply (proj1 (M2 d H)); exact B|exact HM].
  - intro B. eapply fle_trans; [apply (proj2 (M2 d H)); exact B|exact HM].
Qed.
Print Assumptions C66_success_without_nan_partial.

(** NaN in the first component of the gradient hides all others: for every problem with equalities only whose
    first constraint value is NaN too (or that has none), whatever the other components, multipliers and
    non-negative tolerances, the test reports Solve_Success *)
Theorem C66_nan_is_success_refuted : forall P smax E x r e0 it na,
  is_nan (x_g Far x) = true -> (match E with [] => True | e :: _ => is_nan (e_c Far e) = true end) ->
  Forall (fun v => x_il Far v = f_zero /\ x_iu Far v = f_zero) (x :: r) ->
  fle f_zero (eps_tol P) = true -> fle f_zero (dual_tol P) = true -> fle f_zero (cons_tol P) = true -> fle f_zero (comp_tol P) = true ->
  fst (check_termination P (errs_of smax [] E (x :: r)) e0 it na) = Some Solve_Success.
Proof.
  intros P smax E x r e0 it na Hx HE HB T1 T2 T3 T4.
  destruct (nan_errs smax E x r Hx HE HB) as [E1 [E2 [E3 [_ E5]]]].
  unfold check_termination. rewrite E1, E2, E3, T2, T3, T4, (E5 _ T1). reflexivity.
Qed.
Print Assumptions C66_nan_is_success_refuted.

(** a step whose objective is NaN is accepted when it reduces the infeasibility enough, for every filter,
    step length, current objective and direction *)
Theorem C66_nan_step_accepted_refuted : forall fpow P F th ph g tht pht alpha c,
  is_nan pht = true -> fge th (theta_min P) = true -> fle tht (fmul (fsub f_one (gamma_theta P)) th) = true ->
  accept fpow P F th ph g tht pht alpha c = (1%Z, false, c).
Proof.
  intros fpow P F th ph g tht pht alpha c N T S. unfold accept, suff_dec. rewrite T, S. cbn [orb].
  rewrite filter_nan by exact N. reflexivity.
Qed.
Print Assumptions C66_nan_step_accepted_refuted.

(** what does hold: a step with NaN infeasibility or objective is never accepted on account of the Armijo test, and
    a step with both NaN is never accepted at all *)
Theorem C66_nan_step_rejected_partial : forall fpow P F th ph g tht pht alpha c s rej c',
  accept fpow P F th ph g tht pht alpha c = (s, rej, c') ->
  (is_nan pht = true -> s <> 3%Z) /\ (is_nan pht = true -> is_nan tht = true -> s = 0%Z).
Proof.
  intros fpow P F th ph g tht pht alpha c s rej c' H.
  assert (A : is_nan pht = true -> forall y, armijo P alpha y ph pht = false).
  { intros N y. rewrite (nan_eq _ N). unfold armijo, fle, SFleb. cbn. reflexivity. }
  assert (B : is_nan pht = true -> is_nan tht = true -> suff_dec P th ph tht pht = false).
  { intros N1 N2. rewrite (nan_eq _ N1), (nan_eq _ N2). reflexivity. }
  unfold accept in H. split.
  - intro N. rewrite (A N) in H.
    repeat match type of H with context [if ?b then _ else _] => destruct b end; inversion H; discriminate.
  - intros N1 N2. rewrite (A N1), (B N1 N2) in H.
    repeat match type of H with context [if ?b then _ else _] => destruct b end; inversion H; reflexivity.
Qed.
Print Assumptions C66_nan_step_rejected_partial.

(** cases: a bound-constrained problem with one equality and one inequality on two ranks, at a solution up to 1/10 *)
Definition c_x1 : xvar Qar := XVar Qar 2 [1] [0] 1 0 (1 # 10) 0 (21 # 20) 0.
Definition c_x2 : xvar Qar := XVar Qar (-(3)) [1] [1] 0 0 0 0 0 0.
Definition c_e : evar Qar := EVar Qar (101 # 100) 1 (-(1)).
Definition c_d : dvar Qar := DVar Qar 1 (99 # 100) 0 1 0 1 0 0 4 0 4.
Example C64_case_bits : bits [[c_x1]; [c_x2]] [c_d].
Proof.
  split.
  - intros r x [<-|[<-|[]]] [<-|[]]; split; ((left; reflexivity) || (right; reflexivity)).
  - intros d [<-|[]]. split; [left|right]; reflexivity.
Qed.
Example C64_case_values :
  nlp_optim Qar [c_d] [c_e] [[c_x1]; [c_x2]] == 1 # 20 /\ cons_viol Qar [c_d] [c_e] == 1 # 100 /\
  nlp_complem Qar [c_d] [[c_x1]; [c_x2]] == 21 # 200.
Proof. vm_compute. repeat split. Qed.
Example C64_case : kkt_within 0 0 (1 # 20) (1 # 100) (21 # 200) [[c_x1]; [c_x2]] [c_d] [c_e] /\
  ~ kkt_within 0 0 (1 # 25) (1 # 100) (21 # 200) [[c_x1]; [c_x2]] [c_d] [c_e].
Proof.
  split.
  - apply C64_errors_are_kkt; [vm_compute; discriminate..|discriminate|apply C64_case_bits|]. vm_compute. repeat split; discriminate.
  - intro C. apply C64_errors_are_kkt in C; [|vm_compute; discriminate..|discriminate|apply C64_case_bits].
    destruct C as [C _]. revert C. vm_compute. intro C. apply C. reflexivity.
Qed.
(** perturbed conditions hold exactly: slack 1/10, multiplier 2, mu = 1/5, damping weight 1/7 *)
Definition b_x : xvar Qar := XVar Qar (13 # 7) [] [] 1 0 (1 # 10) 0 2 0.
Example C64_barrier_case : log_overall Qar Q_ofn Q_cap [] [] 100 (1 # 7) (1 # 5) [[b_x]] <= 0 /\ kkt_within (1 # 7) (1 # 5) 0 0 0 [[b_x]] [] [].
Proof.
  assert (B : bits [[b_x]] []) by (split; [intros r x [<-|[]] [<-|[]]; split; [right|left]; reflexivity|intros d []]).
  assert (H : log_overall Qar Q_ofn Q_cap [] [] 100 (1 # 7) (1 # 5) [[b_x]] <= 0) by (vm_compute; discriminate).
  split; [exact H|].
  apply C64_barrier_error_is_perturbed_kkt in H; [|reflexivity|discriminate|discriminate|exact B].
  rename H into K. unfold kkt_within in *. destruct K as [K1 [K2 [K3 [K4 [K5 K6]]]]].
  split; [intros r x Hr Hx; specialize (K1 r x Hr Hx); rewrite Qmult_0_l in K1; exact K1|].
  split; [intros d []|]. split; [intros e []|]. split; [intros d []|]. split; [|intros d []].
  intros r x Hr Hx. specialize (K5 r x Hr Hx). rewrite Qmult_0_l in K5. exact K5.
Qed.
Example C64_true_case : Qabs ((d_val Qar c_d - d_u Qar c_d) * d_vu Qar c_d) <= 0 + (1 # 100) * Qabs (d_vu Qar c_d).
Proof.
  apply (C64_true_complementarity [c_d] [c_e] c_d 0 (1 # 100)); [left; reflexivity|discriminate|vm_compute; discriminate|vm_compute; discriminate|reflexivity].
Qed.

(** binary64: gradient 1 = multiplier of an active lower bound, tolerance 2^-20, one equality with value 1 = rhs *)
Definition f_tol : b64 := S754_finite false 1 (-20).
Definition f_P (t : b64) : run_params :=
  mk_run_params (mk_ls_params f_one f_tol f_tol f_one f_one f_one f_tol f_tol 2 f_one false) t t t t f_zero f_zero 1%Z 10%Z f_one false false.
Definition f_x1 : xvar Far := XVar Far f_one [f_one] [] f_one f_zero f_zero f_zero f_one f_zero.
Definition f_x2 : xvar Far := XVar Far f_tol [f_zero] [] f_zero f_zero f_zero f_zero f_zero f_zero.
Definition f_e : evar Far := EVar Far f_one f_one f_zero.
Example C66_success_case : no_nan [] [f_e] [f_x1; f_x2] /\
  fst (check_termination (f_P f_tol) (errs_of (fofZ 100) [] [f_e] [f_x1; f_x2]) (f_one, f_one, f_one) 3 0) = Some Solve_Success.
Proof.
  split; [|vm_compute; reflexivity]. split; [|split].
  - intros x [<-|[<-|[]]]; vm_compute; repeat split.
  - intros e [<-|[]]; vm_compute; repeat split.
  - intros d [].
Qed.
(** gradient (NaN, 1e20) *)
Example C66_nan_case :
  fst (check_termination (f_P f_tol) (errs_of (fofZ 100) [] []
     [XVar Far S754_nan [] [] f_zero f_zero f_zero f_zero f_zero f_zero;
      XVar Far f_1e20 [] [] f_zero f_zero f_zero f_zero f_zero f_zero]) (f_one, f_one, f_one) 0 0) = Some Solve_Success /\
  fst (check_termination (f_P f_tol) (errs_of (fofZ 100) [] []
     [XVar Far f_1e20 [] [] f_zero f_zero f_zero f_zero f_zero f_zero;
      XVar Far S754_nan [] [] f_zero f_zero f_zero f_zero f_zero f_zero]) (f_one, f_one, f_one) 0 0) = None.
Proof. vm_compute. split; reflexivity. Qed.
Example C66_step_case : forall fpow,
  accept fpow (rp_ls (f_P f_tol)) [(f_1e20, f_zero)] (fofZ 8) f_one f_zero f_one S754_nan f_one None = (1%Z, false, None) /\
  accept fpow (rp_ls (f_P f_tol)) [(f_1e20, f_zero)] (fofZ 8) f_one f_zero S754_nan S754_nan f_one None = (0%Z, false, None).
Proof. intro. vm_compute. split; reflexivity. Qed.
