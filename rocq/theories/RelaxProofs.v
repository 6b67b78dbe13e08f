(** Lemmas for C19: relaxation enlarges intervals in binary64. *)
From Flocq Require Import Core BinarySingleNaN Mult_error Ulp.
From Coq Require Import List Bool ZArith Lia Reals Lra.
From Verif Require Import FloatBase FloatFacts FloatBridge MuModel NlpModel RegSpec RegProofs RegProofs3 XformModel.
Import ListNotations.

Definition sgn (x : b64) : bool := match x with S754_zero s => s | S754_infinity s => s | S754_finite s _ _ => s | S754_nan => false end.

Lemma fopp_vb x : vb x = true -> vb (fopp x) = true.
Proof. destruct x; auto. Qed.
Lemma fopp_fin x : finite (fopp x) = finite x.
Proof. destruct x; reflexivity. Qed.
Lemma fopp_val x : val (fopp x) = (- val x)%R.
Proof. destruct x as [s|s| |s m e]; unfold val, fopp; simpl; try (rewrite Ropp_0; reflexivity). rewrite <- F2R_Zopp. destruct s; reflexivity. Qed.

Lemma bra_opp s m e l : SpecFloat.binary_round_aux prec emax (negb s) m e l = fopp (SpecFloat.binary_round_aux prec emax s m e l).
Proof.
  unfold SpecFloat.binary_round_aux. destruct (SpecFloat.shr_fexp prec emax m e l) as [mrs' e'].
  destruct (SpecFloat.shr_fexp prec emax _ e' _) as [mrs'' e''].
  destruct (shr_m mrs''); simpl; auto. match goal with |- context[if ?b then _ else _] => destruct b end; reflexivity.
Qed.
Lemma fmul_opp x y : fmul (fopp x) y = fopp (fmul x y).
Proof.
  destruct x as [s|s| |s m e], y as [s'|s'| |s' m' e']; simpl; rewrite <- ?negb_xorb_l; auto.
  apply bra_opp.
Qed.
Lemma fadd_comm x y : fadd x y = fadd y x.
Proof.
  destruct x as [s|s| |s m e], y as [s'|s'| |s' m' e']; auto; unfold fadd; simpl;
    try (destruct s, s'; reflexivity).
  rewrite Z.min_comm, Z.add_comm. reflexivity.
Qed.
Lemma fsub_fadd x y : fsub x y = fadd x (fopp y).
Proof.
  destruct x as [s|s| |s m e], y as [s'|s'| |s' m' e']; auto; unfold fadd, fsub; simpl;
    try (destruct s, s'; reflexivity).
Qed.

Lemma sgn_toB z Vz : finite z = true -> Bsign (toB z Vz) = sgn z.
Proof. destruct z as [s|s| |s m e]; intros; try discriminate; reflexivity. Qed.

(** the two outcomes of an addition of finite numbers *)
Lemma fadd_case x y : vb x = true -> vb y = true -> finite x = true -> finite y = true ->
  (finite (fadd x y) = true /\ val (fadd x y) = rne (val x + val y) /\ (Rabs (rne (val x + val y)) < bpow radix2 emax)%R) \/
  (fadd x y = S754_infinity (sgn x) /\ sgn x = sgn y).
Proof.
  intros Vx Vy Fx Fy.
  destruct (Rlt_or_le (Rabs (rne (val x + val y))) (bpow radix2 emax)) as [L|L].
  - left. destruct (fadd_val x y Vx Vy Fx Fy L). auto.
  - right.
    assert (Fx' : is_finite (toB x Vx) = true) by (rewrite fin_toB; auto).
    assert (Fy' : is_finite (toB y Vy) = true) by (rewrite fin_toB; auto).
    pose proof (Bplus_correct prec emax Hprec53 Hmax53 mode_NE (toB x Vx) (toB y Vy) Fx' Fy') as C.
    rewrite !val_toB in C. simpl round_mode in C. fold rne in C. rewrite (Rlt_bool_false _ _ L) in C. destruct C as [C1 C2].
    assert (S : forall z Vz, finite z = true -> Bsign (toB z Vz) = sgn z).
    { intros z Vz. destruct z as [s|s| |s m e]; intros; try discriminate; reflexivity. }
    rewrite !S in C2 by auto. rewrite !S in C1 by auto. split; auto.
    rewrite <- (B2SF_toB x Vx) at 1. rewrite <- (B2SF_toB y Vy), fadd_B. exact C1.
Qed.

Lemma nonneg_cases y : nonneg y -> y = S754_infinity false \/ (finite y = true /\ sgn y = false /\ (0 <= val y)%R).
Proof.
  intros [V H]. destruct y as [s|s| |s m e]; simpl in H; subst; try tauto; auto.
  - right. repeat split; auto. unfold val. simpl. lra.
  - right. repeat split; auto. unfold val. simpl. apply F2R_ge_0. simpl. lia.
Qed.

Lemma fle_pinf x : is_nan x = false -> fle x (S754_infinity false) = true.
Proof. destruct x as [s|s| |s m e]; try destruct s; simpl; auto; discriminate. Qed.
Lemma fle_ninf x : is_nan x = false -> fle (S754_infinity true) x = true.
Proof. destruct x as [s|s| |s m e]; try destruct s; simpl; auto; discriminate. Qed.
Lemma flt_pinf x : finite x = true -> flt x (S754_infinity false) = true.
Proof. destruct x as [s|s| |s m e]; try destruct s; simpl; auto; discriminate. Qed.
Lemma flt_ninf x : finite x = true -> flt (S754_infinity true) x = true.
Proof. destruct x as [s|s| |s m e]; try destruct s; simpl; auto; discriminate. Qed.
Lemma fin_nn x : finite x = true -> is_nan x = false.
Proof. destruct x; auto; discriminate. Qed.

(** adding something nonnegative does not decrease *)
Lemma fadd_up x y : vb x = true -> is_nan x = false -> nonneg y -> x <> S754_infinity true -> fle x (fadd x y) = true.
Proof.
  intros Vx Nx Ny NI. destruct (nonneg_cases y Ny) as [->|(Fy & Sy & Py)].
  - destruct x as [s|s| |s m e]; try discriminate; try destruct s; try reflexivity. congruence.
  - destruct (finite x) eqn:Fx.
    2: { destruct x as [s|s| |s m e]; try discriminate. destruct s; [congruence|]. destruct y; try discriminate; reflexivity. }
    destruct (fadd_case x y Vx (proj1 Ny) Fx Fy) as [(F & E & _)|(E & S)].
    + rewrite fle_val; auto; [|apply vb_fadd; auto; apply Ny]. apply Rle_bool_true. rewrite E.
      rewrite <- (rne_val x Vx Fx) at 1. apply round_le; [exact valid_fe64|apply valid_rnd_N|lra].
    + rewrite E, S, Sy. apply fle_pinf; auto.
Qed.
(** subtracting something nonnegative does not increase *)
Lemma fadd_dn x y : vb x = true -> is_nan x = false -> nonneg y -> x <> S754_infinity false -> fle (fadd x (fopp y)) x = true.
Proof.
  intros Vx Nx Ny NI. destruct (nonneg_cases y Ny) as [->|(Fy & Sy & Py)].
  - destruct x as [s|s| |s m e]; try discriminate; try destruct s; try reflexivity. congruence.
  - destruct (finite x) eqn:Fx.
    2: { destruct x as [s|s| |s m e]; try discriminate. destruct s; [|congruence]. destruct y; try discriminate; reflexivity. }
    assert (Vy : vb (fopp y) = true) by (apply fopp_vb, Ny).
    destruct (fadd_case x (fopp y) Vx Vy Fx) as [(F & E & _)|(E & S)]; [rewrite fopp_fin; auto| |].
    + rewrite fle_val; auto; [|apply vb_fadd; auto]. apply Rle_bool_true. rewrite E, fopp_val.
      rewrite <- (rne_val x Vx Fx) at 2. apply round_le; [exact valid_fe64|apply valid_rnd_N|lra].
    + rewrite E, S. replace (sgn (fopp y)) with true. { apply fle_ninf; auto. }
      destruct y; simpl in *; try discriminate; rewrite ?Sy; reflexivity.
Qed.

(** gap to the neighbours *)
Lemma ulp_small x : vb x = true -> finite x = true -> (ulp radix2 fe64 (val x) <= bpow radix2 (-52) * Rmax 1 (Rabs (val x)))%R.
Proof.
  intros Vx Fx. set (v := val x).
  assert (FL : forall z, ulp radix2 fe64 z = ulp radix2 (FLT_exp (3 - emax - prec) prec) z) by reflexivity.
  rewrite FL. destruct (Rle_or_lt (Rabs v) 1) as [L|L].
  - rewrite Rmax_left by auto. rewrite Rmult_1_r.
    apply Rle_trans with (ulp radix2 (FLT_exp (3 - emax - prec) prec) 1).
    + rewrite <- (ulp_abs _ _ v). apply ulp_le_pos; [apply FLT_exp_valid; reflexivity|apply FLT_exp_monotone|apply Rabs_pos|auto].
    + rewrite <- (Rmult_1_r (bpow radix2 (-52))). replace 1%R with (bpow radix2 0) at 1 by reflexivity.
      rewrite ulp_bpow. unfold FLT_exp. simpl (Z.max _ _). rewrite Rmult_1_r. apply Rle_refl.
  - rewrite Rmax_right by lra. rewrite Rmult_comm. change (-52)%Z with (1 - prec)%Z.
    apply ulp_FLT_le. apply Rle_trans with (bpow radix2 0); [apply bpow_le; lia|simpl; lra].
Qed.

Lemma fmt_val x : vb x = true -> generic_format radix2 fe64 (val x).
Proof. intro H. rewrite <- (val_toB x H). apply generic_format_B2R. Qed.

Lemma step_up x z : vb x = true -> finite x = true -> (bpow radix2 (-52) * Rmax 1 (Rabs (val x)) <= z)%R ->
  (val x < rne (val x + z))%R.
Proof.
  intros Vx Fx Hz. pose proof (ulp_small x Vx Fx) as U.
  assert (SL : (succ radix2 fe64 (val x) <= val x + z)%R).
  { pose proof (succ_le_plus_ulp radix2 fe64 (val x)). lra. }
  assert (SP : (val x < succ radix2 fe64 (val x))%R).
  { destruct (Req_dec (val x) 0) as [E|N]; [|apply succ_gt_id; auto]. rewrite E, succ_0. change (ulp radix2 fe64 0) with (ulp radix2 (FLT_exp (3 - emax - prec) prec) 0). rewrite ulp_FLT_0 by reflexivity. apply bpow_gt_0. }
  assert (G : (succ radix2 fe64 (val x) <= rne (val x + z))%R).
  { rewrite <- (round_generic radix2 fe64 ZnearestE (succ radix2 fe64 (val x))) at 1.
    - apply round_le; [exact valid_fe64|apply valid_rnd_N|auto].
    - apply generic_format_succ; [exact valid_fe64|apply fmt_val; auto]. }
  lra.
Qed.
Lemma step_dn x z : vb x = true -> finite x = true -> (bpow radix2 (-52) * Rmax 1 (Rabs (val x)) <= z)%R ->
  (rne (val x - z) < val x)%R.
Proof.
  intros Vx Fx Hz. pose proof (step_up (fopp x) z) as H. rewrite fopp_fin, fopp_val, Rabs_Ropp in H.
  specialize (H (fopp_vb _ Vx) Fx Hz).
  replace (- val x + z)%R with (- (val x - z))%R in H by lra. unfold rne in *. rewrite round_NE_opp in H. lra.
Qed.

(** big enough steps move strictly *)
Definition big_step (x y : b64) : Prop := nonneg y /\ (finite y = true -> (bpow radix2 (-52) * Rmax 1 (Rabs (val x)) <= val y)%R).
Lemma fadd_up_strict x y : vb x = true -> finite x = true -> big_step x y -> flt x (fadd x y) = true.
Proof.
  intros Vx Fx [Ny B]. destruct (nonneg_cases y Ny) as [->|(Fy & Sy & Py)].
  - destruct x as [s|s| |s m e]; try discriminate; try destruct s; reflexivity.
  - destruct (fadd_case x y Vx (proj1 Ny) Fx Fy) as [(F & E & _)|(E & S)].
    + rewrite flt_val; auto; [|apply vb_fadd; auto; apply Ny]. apply Rlt_bool_true. rewrite E. apply step_up; auto.
    + rewrite E, S, Sy. apply flt_pinf; auto.
Qed.
Lemma fadd_dn_strict x y : vb x = true -> finite x = true -> big_step x y -> flt (fadd x (fopp y)) x = true.
Proof.
  intros Vx Fx [Ny B]. destruct (nonneg_cases y Ny) as [->|(Fy & Sy & Py)].
  - destruct x as [s|s| |s m e]; try discriminate; try destruct s; reflexivity.
  - assert (Vy : vb (fopp y) = true) by (apply fopp_vb, Ny).
    destruct (fadd_case x (fopp y) Vx Vy Fx) as [(F & E & _)|(E & S)]; [rewrite fopp_fin; auto| |].
    + rewrite flt_val; auto; [|apply vb_fadd; auto]. apply Rlt_bool_true. rewrite E, fopp_val. apply step_dn; auto.
    + rewrite E, S. replace (sgn (fopp y)) with true. { apply flt_ninf; auto. }
      destruct y; simpl in *; try discriminate; rewrite ?Sy; reflexivity.
Qed.

(** the magnitude max(1,|x|) *)
Lemma val_one : val f_one = 1%R.
Proof. unfold val, f_one. cbv. field_simplify; lra. Qed.
Lemma mag_posfin x m : vb x = true -> finite x = true -> m = fmax f_one (fabs x) \/ m = comp_max (fabs x) f_one \/ m = std_max (fabs x) f_one ->
  posfin m /\ val m = Rmax 1 (Rabs (val x)).
Proof.
  intros Vx Fx Hm.
  assert (Va := vb_fabs x Vx). assert (Fa : finite (fabs x) = true) by (rewrite fabs_fin; auto).
  assert (Na : is_nan (fabs x) = false) by (apply fin_nn; auto).
  assert (E : (m = f_one /\ (Rabs (val x) <= 1)%R) \/ (m = fabs x /\ (1 <= Rabs (val x))%R)).
  { assert (D : forall b, Rlt_bool (Rabs (val x)) 1 = b -> (m = (if b then f_one else fabs x)) ->
        (m = f_one /\ (Rabs (val x) <= 1)%R) \/ (m = fabs x /\ (1 <= Rabs (val x))%R)).
    { intros b Hb ->. destruct (Rlt_bool_spec (Rabs (val x)) 1) as [L|L]; subst b; [left|right]; split; auto; lra. }
    assert (L1 : flt (fabs x) f_one = Rlt_bool (Rabs (val x)) 1) by (rewrite flt_val; auto; rewrite fabs_val, val_one; reflexivity).
    destruct Hm as [->|[->| ->]].
    - unfold fmax. replace (is_nan f_one) with false by reflexivity. rewrite Na.
      rewrite flt_val; auto. rewrite fabs_val, val_one. destruct (Rlt_bool_spec 1 (Rabs (val x))) as [L|L].
      + right. split; auto; lra.
      + left. auto.
    - eapply D; [reflexivity|]. unfold comp_max. rewrite L1. reflexivity.
    - eapply D; [reflexivity|]. unfold std_max. rewrite L1. reflexivity. }
  destruct E as [[-> L]|[-> L]].
  - split; [split; reflexivity|]. rewrite val_one, Rmax_left; auto.
  - rewrite fabs_val, Rmax_right by auto. split; auto. split; auto.
    rewrite <- fabs_val in L. destruct x as [s|s| |s mm e]; simpl in *; try discriminate; auto.
    unfold val in L. simpl in L. lra.
Qed.
Lemma mag_inf s m : m = fmax f_one (fabs (S754_infinity s)) \/ m = comp_max (fabs (S754_infinity s)) f_one \/ m = std_max (fabs (S754_infinity s)) f_one ->
  m = S754_infinity false.
Proof. intros [->|[->| ->]]; reflexivity. Qed.

Lemma posfin_nonneg_mag x m : vb x = true -> is_nan x = false ->
  m = fmax f_one (fabs x) \/ m = comp_max (fabs x) f_one \/ m = std_max (fabs x) f_one -> nonneg m.
Proof.
  intros Vx Nx Hm. destruct (finite x) eqn:Fx.
  - apply posfin_nonneg. eapply mag_posfin; eauto.
  - destruct x as [s|s| |s mm e]; try discriminate. rewrite (mag_inf s m Hm). split; reflexivity.
Qed.

(** [k]*2^-52 as a binary64 number, for powers of two k *)
Definition f_em52 : b64 := S754_finite false 4503599627370496 (-104).  (* 2^-52 *)
Definition f_em50 : b64 := S754_finite false 4503599627370496 (-102).  (* 2^-50 *)
Lemma val_em52 : val f_em52 = bpow radix2 (-52).
Proof. unfold val, f_em52. simpl SF2R. unfold F2R. simpl Fnum. simpl Fexp. change (IZR (Z.pos 4503599627370496)) with (bpow radix2 52). rewrite <- bpow_plus. reflexivity. Qed.
Lemma val_em50 : val f_em50 = bpow radix2 (-50).
Proof. unfold val, f_em50. simpl SF2R. unfold F2R. simpl Fnum. simpl Fexp. change (IZR (Z.pos 4503599627370496)) with (bpow radix2 52). rewrite <- bpow_plus. reflexivity. Qed.

Lemma fmul_lower p m k : posfin p -> posfin m -> (1 <= val m)%R -> (-1000 <= k <= 0)%Z -> (bpow radix2 k <= val p)%R ->
  finite (fmul p m) = true -> (bpow radix2 k * val m <= val (fmul p m))%R.
Proof.
  intros Pp Pm M1 Hk Hp F.
  destruct (Rlt_or_le (Rabs (rne (val p * val m))) (bpow radix2 emax)) as [L|L].
  2: { rewrite (fmul_over _ _ Pp Pm L) in F. discriminate. }
  destruct (fmul_val p m (proj1 Pp) (proj1 Pm) L) as [E _]. rewrite E.
  assert (G : generic_format radix2 fe64 (val m * bpow radix2 k)).
  { apply (mult_bpow_exact_FLT radix2 (3 - emax - prec) prec); [apply fmt_val, Pm|].
    assert ((1 <= mag radix2 (val m))%Z).
    { apply mag_ge_bpow. simpl. rewrite Rabs_pos_eq by lra. lra. }
    lia. }
  rewrite Rmult_comm. rewrite <- (round_generic radix2 fe64 ZnearestE _ G) at 1.
  apply round_le; [exact valid_fe64|apply valid_rnd_N|]. pose proof (posfin_val m Pm). nra.
Qed.
Lemma fle_fmul_k p k c : val c = bpow radix2 k -> vb c = true -> finite c = true -> posfin p -> fle c p = true -> (bpow radix2 k <= val p)%R.
Proof.
  intros Vc Hc Fc Pp H. rewrite fle_val in H; auto; [|apply Pp|apply posfin_fin; auto].
  destruct (Rle_bool_spec (val c) (val p)); [|discriminate]. rewrite <- Vc. auto.
Qed.

Lemma fmul_one x : vb x = true -> fmul f_one x = x.
Proof.
  intro V. destruct x as [s|s| |s m e]; try (destruct s; reflexivity); try reflexivity.
  set (X := S754_finite s m e) in *.
  assert (L : (Rabs (rne (val f_one * val X)) < bpow radix2 emax)%R).
  { rewrite val_one, Rmult_1_l, rne_val by auto. apply val_lt_emax; auto. }
  assert (V1 : vb f_one = true) by reflexivity.
  pose proof (Bmult_correct prec emax Hprec53 Hmax53 mode_NE (toB f_one V1) (toB X V)) as C.
  rewrite !val_toB in C. simpl round_mode in C. fold rne in C. rewrite (Rlt_bool_true _ _ L) in C.
  destruct C as (C1 & C2 & C3). rewrite !fin_toB in C2. simpl andb in C2.
  rewrite val_one, Rmult_1_l, rne_val in C1 by auto.
  rewrite <- (B2SF_toB f_one V1), <- (B2SF_toB X V), fmul_B, B2SF_toB.
  assert (E : Bmult mode_NE (toB f_one V1) (toB X V) = toB X V).
  { apply B2R_Bsign_inj.
    - rewrite C2. reflexivity.
    - rewrite fin_toB. reflexivity.
    - rewrite C1, val_toB. reflexivity.
    - rewrite C3.
      + rewrite !sgn_toB by reflexivity. replace (sgn f_one) with false by (vm_compute; reflexivity). apply xorb_false_l.
      + destruct (Bmult mode_NE (toB f_one V1) (toB X V)); auto; discriminate. }
  rewrite E, B2SF_toB. reflexivity.
Qed.

Lemma scale1_fmul num x : vb x = true -> scale1 num x = fmul num x \/ (scale1 num x = x /\ feq f_one num = true).
Proof. intro V. unfold scale1. destruct (feq f_one num) eqn:E; auto. Qed.
Lemma feq_one num : feq f_one num = true -> num = f_one.
Proof.
  intro H. unfold feq, SFeqb in H. unfold f_one in *. cbv [fofZ] in *.
  change (SpecFloat.binary_normalize 53 1024 1 0 false) with (S754_finite false 4503599627370496 (-52)) in *.
  destruct num as [s|s| |s m e]; try destruct s; simpl in H; try discriminate.
  destruct e as [|e|e]; try discriminate.
  destruct (Pos.compare_spec 52 e) as [E|E|E]; try discriminate. subst.
  destruct (Pos.compare_cont Eq 4503599627370496 m) eqn:C; try discriminate.
  apply Pos.compare_eq in C. subst. reflexivity.
Qed.
Lemma scale1_eq num x : vb x = true -> scale1 num x = fmul num x.
Proof.
  intro V. destruct (scale1_fmul num x V) as [E|[E F]]; auto. apply feq_one in F. subst. rewrite fmul_one by auto. exact E.
Qed.

Lemma relax_low_eq p x : vb x = true -> is_nan x = false -> relax_low p x = fadd x (fopp (fmul p (comp_max (fabs x) f_one))).
Proof.
  intros V N. unfold relax_low. rewrite fmul_one by auto.
  assert (NM : nonneg (comp_max (fabs x) f_one)) by (eapply posfin_nonneg_mag; eauto).
  rewrite scale1_eq by apply NM. rewrite fmul_opp. apply fadd_comm.
Qed.
Lemma relax_upp_eq p x : vb x = true -> is_nan x = false -> relax_upp p x = fadd x (fmul p (comp_max (fabs x) f_one)).
Proof.
  intros V N. unfold relax_upp. rewrite fmul_one by auto.
  assert (NM : nonneg (comp_max (fabs x) f_one)) by (eapply posfin_nonneg_mag; eauto).
  rewrite scale1_eq by apply NM. apply fadd_comm.
Qed.

Lemma big_step_mag p x m : posfin p -> fle f_em52 p = true -> vb x = true -> finite x = true ->
  m = fmax f_one (fabs x) \/ m = comp_max (fabs x) f_one \/ m = std_max (fabs x) f_one -> big_step x (fmul p m).
Proof.
  intros Pp Hp Vx Fx Hm. destruct (mag_posfin x m Vx Fx Hm) as [Pm Em].
  split; [apply fmul_nonneg; auto; apply posfin_nonneg; auto|]. intro F. rewrite <- Em.
  apply fmul_lower; auto; [rewrite Em; apply Rmax_l|lia|].
  eapply fle_fmul_k; eauto using val_em52.
Qed.

(** fixed-variable relaxation: the lower bound is close to the upper one *)
Lemma close_abs tol l u : posfin tol -> fle tol f_one = true -> vb l = true -> vb u = true -> finite l = true -> finite u = true ->
  fle (fabs (fsub u l)) (fmul tol (fmax f_one (fabs u))) = true ->
  (Rabs (val l) <= 3 * val (fmax f_one (fabs u)))%R.
Proof.
  intros Pt Ht Vl Vu Fl Fu H.
  destruct (mag_posfin u (fmax f_one (fabs u)) Vu Fu (or_introl eq_refl)) as [Pm Em].
  set (m := fmax f_one (fabs u)) in *.
  assert (M1 : (1 <= val m)%R) by (rewrite Em; apply Rmax_l).
  assert (MU : (Rabs (val u) <= val m)%R) by (rewrite Em; apply Rmax_r).
  assert (T1 : (val tol <= 1)%R).
  { rewrite fle_val in Ht; try reflexivity; [|apply Pt|apply posfin_fin; auto]. rewrite val_one in Ht.
    destruct (Rle_bool_spec (val tol) 1); auto; discriminate. }
  pose proof (posfin_val _ Pt) as T0.
  assert (TM : (0 <= rne (val tol * val m) <= val m)%R).
  { split.
    - replace 0%R with (rne 0) by (apply round_0; apply valid_rnd_N). apply round_le; [exact valid_fe64|apply valid_rnd_N|]. nra.
    - rewrite <- (rne_val m (proj1 Pm) (posfin_fin _ Pm)) at 2. apply round_le; [exact valid_fe64|apply valid_rnd_N|]. nra. }
  assert (L : (Rabs (rne (val tol * val m)) < bpow radix2 emax)%R).
  { rewrite Rabs_pos_eq by lra. pose proof (val_lt_emax m (proj1 Pm)) as B. rewrite Rabs_pos_eq in B by lra. lra. }
  destruct (fmul_val tol m (proj1 Pt) (proj1 Pm) L) as [E1 E2]. rewrite (posfin_fin tol Pt), (posfin_fin m Pm) in E2. simpl in E2.
  destruct (Rlt_or_le (Rabs (rne (val u - val l))) (bpow radix2 emax)) as [L2|L2].
  - destruct (fsub_val u l Vu Vl Fu Fl L2) as [E3 E4].
    rewrite fle_val in H; auto; try (rewrite fabs_fin; auto); try (apply vb_fabs, vb_fsub; auto); try (apply vb_fmul; [apply Pt|apply Pm]).
    rewrite fabs_val, E1, E3 in H. destruct (Rle_bool_spec (Rabs (rne (val u - val l))) (rne (val tol * val m))) as [B|B]; [|discriminate].
    assert (B2 : (Rabs (val u - val l) <= 2 * val m)%R).
    { destruct (Rle_or_lt (Rabs (val u - val l)) (2 * val m)) as [C|C]; auto. exfalso.
      assert (G : generic_format radix2 fe64 (val m * bpow radix2 1)).
      { apply (mult_bpow_pos_exact_FLT radix2 (3 - emax - prec) prec); [apply fmt_val, Pm|lia]. }
      assert (R : (val m * bpow radix2 1 <= rne (Rabs (val u - val l)))%R).
      { rewrite <- (round_generic radix2 fe64 ZnearestE _ G) at 1. apply round_le; [exact valid_fe64|apply valid_rnd_N|]. simpl (bpow radix2 1). lra. }
      unfold rne in R. rewrite round_NE_abs in R by exact valid_fe64. fold rne in R. simpl (bpow radix2 1) in R. lra. }
    replace (val l) with (val u - (val u - val l))%R by lra.
    pose proof (Rabs_triang (val u) (- (val u - val l))) as T. rewrite Rabs_Ropp in T. unfold Rminus at 1. lra.
  - exfalso. rewrite fsub_fadd in H.
    destruct (fadd_case u (fopp l) Vu (fopp_vb _ Vl) Fu) as [(F & E & L3)|(E & S)]; [rewrite fopp_fin; auto| |].
    + rewrite fopp_val in L3. unfold Rminus in L2. lra.
    + rewrite E in H. simpl in H. destruct (fmul tol m) as [s|s| |s mm ee]; simpl in *; try discriminate; destruct s; discriminate.
Qed.

Lemma br_opp s m e : SpecFloat.binary_round prec emax (negb s) m e = fopp (SpecFloat.binary_round prec emax s m e).
Proof. unfold SpecFloat.binary_round. destruct (SpecFloat.shl_align m e _) as [mz ez]. apply bra_opp. Qed.
Lemma fabs_opp x : fabs (fopp x) = fabs x.
Proof. destruct x; reflexivity. Qed.
Lemma bn_abs z e s : fabs (SpecFloat.binary_normalize prec emax (- z) e s) = fabs (SpecFloat.binary_normalize prec emax z e s).
Proof.
  destruct z as [|p|p]; [reflexivity| |]; unfold SpecFloat.binary_normalize; cbn [Z.opp].
  - change true with (negb false). rewrite br_opp. apply fabs_opp.
  - change true with (negb false). rewrite br_opp. rewrite fabs_opp. reflexivity.
Qed.
Lemma fabs_sub_comm x y : fabs (fsub x y) = fabs (fsub y x).
Proof.
  destruct x as [s|s| |s m e], y as [s'|s'| |s' m' e']; auto; unfold fsub; simpl; try (destruct s, s'; reflexivity).
  rewrite (Z.min_comm e' e).
  match goal with |- fabs (SpecFloat.binary_normalize _ _ (?a - ?b) _ _) = _ => replace (a - b)%Z with (- (b - a))%Z by lia end.
  apply bn_abs.
Qed.

(** *** one pair of bounds *)
Definition sane (e : b64 * b64) : Prop :=
  vb (fst e) = true /\ vb (snd e) = true /\ is_nan (fst e) = false /\ is_nan (snd e) = false /\
  fst e <> S754_infinity false /\ snd e <> S754_infinity true.

Lemma bounds_relax_contains p e : posfin p -> sane e ->
  fle (fst (bounds_relax1 p e)) (fst e) = true /\ fle (snd e) (snd (bounds_relax1 p e)) = true.
Proof.
  destruct e as [l u]. intros Pp (Vl & Vu & Nl & Nu & Il & Iu). cbn [fst snd] in *. unfold bounds_relax1. cbn [fst snd].
  rewrite relax_low_eq, relax_upp_eq by auto.
  assert (NN : forall x, vb x = true -> is_nan x = false -> nonneg (fmul p (comp_max (fabs x) f_one))).
  { intros x Vx Nx. apply fmul_nonneg; auto. eapply posfin_nonneg_mag; eauto. }
  split; [apply fadd_dn|apply fadd_up]; auto.
Qed.
Lemma bounds_relax_strict p e : posfin p -> fle f_em52 p = true -> sane e ->
  (finite (fst e) = true -> flt (fst (bounds_relax1 p e)) (fst e) = true) /\
  (finite (snd e) = true -> flt (snd e) (snd (bounds_relax1 p e)) = true).
Proof.
  destruct e as [l u]. intros Pp Hp (Vl & Vu & Nl & Nu & Il & Iu). cbn [fst snd] in *. unfold bounds_relax1. cbn [fst snd].
  rewrite relax_low_eq, relax_upp_eq by auto.
  split; intro F; [apply fadd_dn_strict|apply fadd_up_strict]; auto; eapply big_step_mag; eauto.
Qed.

Lemma fixed_relax_contains tol pert e : posfin pert -> sane e ->
  fle (fst (fixed_relax1 tol pert e)) (fst e) = true /\ fle (snd e) (snd (fixed_relax1 tol pert e)) = true.
Proof.
  destruct e as [l u]. intros Pp (Vl & Vu & Nl & Nu & Il & Iu). cbn [fst snd] in *. unfold fixed_relax1.
  destruct (fle (fabs (fsub u l)) _); cbn [fst snd]; [|split; apply fle_refl; auto].
  assert (NN : nonneg (fmul pert (fmax f_one (fabs u)))).
  { apply fmul_nonneg; auto. eapply posfin_nonneg_mag; eauto. }
  rewrite fsub_fadd. split; [apply fadd_dn|apply fadd_up]; auto.
Qed.
Lemma fixed_relax_strict tol pert e : posfin tol -> fle tol f_one = true -> posfin pert -> fle f_em50 pert = true -> sane e ->
  finite (fst e) = true -> finite (snd e) = true ->
  fle (fabs (fsub (snd e) (fst e))) (fmul tol (fmax f_one (fabs (snd e)))) = true ->
  flt (fst (fixed_relax1 tol pert e)) (fst e) = true /\ flt (snd e) (snd (fixed_relax1 tol pert e)) = true.
Proof.
  destruct e as [l u]. intros Pt Ht Pp Hp (Vl & Vu & Nl & Nu & Il & Iu) Fl Fu C. cbn [fst snd] in *. unfold fixed_relax1.
  rewrite C. cbn [fst snd].
  destruct (mag_posfin u (fmax f_one (fabs u)) Vu Fu (or_introl eq_refl)) as [Pm Em].
  pose proof (close_abs tol l u Pt Ht Vl Vu Fl Fu C) as CA.
  set (m := fmax f_one (fabs u)) in *.
  assert (M1 : (1 <= val m)%R) by (rewrite Em; apply Rmax_l).
  assert (P50 : (bpow radix2 (-50) <= val pert)%R) by (eapply fle_fmul_k; eauto using val_em50).
  assert (NN : nonneg (fmul pert m)) by (apply fmul_nonneg; auto; apply posfin_nonneg; auto).
  assert (LB : finite (fmul pert m) = true -> (bpow radix2 (-50) * val m <= val (fmul pert m))%R).
  { intro F. apply fmul_lower; auto. lia. }
  assert (B5 : bpow radix2 (-50) = (4 * bpow radix2 (-52))%R).
  { change 4%R with (bpow radix2 2). rewrite <- bpow_plus. reflexivity. }
  pose proof (bpow_gt_0 radix2 (-52)) as B0.
  assert (K : forall z, (Rabs (val z) <= 3 * val m)%R -> big_step z (fmul pert m)).
  { intros z Hz. split; auto. intro F. specialize (LB F). rewrite B5 in LB.
    assert ((Rmax 1 (Rabs (val z)) <= 3 * val m)%R) by (apply Rmax_lub; lra).
    assert ((bpow radix2 (-52) * Rmax 1 (Rabs (val z)) <= bpow radix2 (-52) * (3 * val m))%R) by (apply Rmult_le_compat_l; lra).
    assert ((bpow radix2 (-52) * (3 * val m) <= 4 * bpow radix2 (-52) * val m)%R) by nra.
    lra. }
  rewrite fsub_fadd. split; [apply fadd_dn_strict|apply fadd_up_strict]; auto; apply K; auto.
  assert ((Rabs (val u) <= val m)%R) by (rewrite Em; apply Rmax_r). lra.
Qed.

(** the inequality-only formulation *)
Lemma feq_val x y : vb x = true -> vb y = true -> finite x = true -> finite y = true -> feq x y = true -> val x = val y.
Proof.
  intros Vx Vy Fx Fy H.
  assert (L1 : fle x y = true). { unfold feq, fle, SFeqb, SFleb in *. destruct (SFcompare x y) as [[]|]; auto; discriminate. }
  assert (L2 : flt x y = false). { unfold feq, flt, SFeqb, SFltb in *. destruct (SFcompare x y) as [[]|]; auto; discriminate. }
  rewrite fle_val in L1 by auto. rewrite flt_val in L2 by auto.
  destruct (Rle_bool_spec (val x) (val y)); [|discriminate]. destruct (Rlt_bool_spec (val x) (val y)); [discriminate|]. lra.
Qed.
Lemma ineq_relax_strict {k} rf l u (t : k) : posfin rf -> fle f_em52 rf = true -> vb l = true -> vb u = true ->
  finite l = true -> finite u = true -> feq l u = true ->
  flt (fst (ineq_only1 rf (l, u, t))) l = true /\ flt u (snd (ineq_only1 rf (l, u, t))) = true.
Proof.
  intros Pp Hp Vl Vu Fl Fu E. unfold ineq_only1. rewrite E. cbn [fst snd]. rewrite fsub_fadd.
  pose proof (feq_val l u Vl Vu Fl Fu E) as EV.
  assert (B : big_step l (fmul rf (std_max (fabs l) f_one))) by (eapply big_step_mag; eauto).
  split; [apply fadd_dn_strict|apply fadd_up_strict]; auto.
  destruct B as [B1 B2]. split; auto. rewrite <- EV. auto.
Qed.

Lemma fle_nn x y : fle x y = true -> is_nan x = false /\ is_nan y = false.
Proof. destruct x as [s|s| |s m e], y as [s'|s'| |s' m' e']; try discriminate; auto. Qed.
Lemma flt_fle x y : flt x y = true -> fle x y = true /\ fle y x = false.
Proof.
  intro H. assert (N : is_nan x = false /\ is_nan y = false).
  { destruct x as [s|s| |s m e], y as [s'|s'| |s' m' e']; try discriminate; auto. }
  destruct N as [Nx Ny]. rewrite flt_not_fge in H by auto. apply negb_true_iff in H.
  change (fge x y) with (fle y x) in H. split; auto. destruct (fle_total x y Nx Ny) as [?|G]; auto. rewrite H in G. discriminate.
Qed.
Lemma flt_fle_trans x y z : flt x y = true -> fle y z = true -> flt x z = true.
Proof.
  intros H1 H2. destruct (flt_fle _ _ H1) as [L1 L2]. destruct (fle_nn _ _ L1), (fle_nn _ _ H2).
  rewrite flt_not_fge by auto. apply negb_true_iff. destruct (fge x z) eqn:E; auto. unfold fge in E.
  rewrite (fle_trans _ _ _ H2 E) in L2. discriminate.
Qed.
Lemma fle_flt_trans x y z : fle x y = true -> flt y z = true -> flt x z = true.
Proof.
  intros H1 H2. destruct (flt_fle _ _ H2) as [L1 L2]. destruct (fle_nn _ _ L1), (fle_nn _ _ H1).
  rewrite flt_not_fge by auto. apply negb_true_iff. destruct (fge x z) eqn:E; auto. unfold fge in E.
  rewrite (fle_trans _ _ _ E H1) in L2. discriminate.
Qed.
