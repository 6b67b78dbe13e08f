(** Lemmas about the elastic mode. *)
From Flocq Require Import Core BinarySingleNaN Mult_error Ulp.
From Coq Require Import List Bool ZArith Lia Reals Lra.
From Verif Require Import FloatBase FloatFacts FloatBridge MuModel MuSpec MuProofs NlpModel RegSpec RegProofs RegProofs3
  XformModel XformSpec RelaxProofs ElasModel ElasSpec.
Import ListNotations.
Open Scope R_scope.

Local Notation B := (bpow radix2).

Lemma rne_le_pow x e : (-1074 <= e <= 1023)%Z -> Rabs x <= B e -> Rabs (rne x) <= B e.
Proof.
  intros He H. rewrite rne_abs. rewrite <- (rne_pow2 e He). apply rne_mono. auto.
Qed.
Lemma lt_emax x e : (e <= 1023)%Z -> x <= B e -> x < bpow radix2 emax.
Proof. intros He H. eapply Rle_lt_trans; [exact H|]. apply bpow_lt. change emax with 1024%Z; lia. Qed.

Lemma sub_small a b e : (-1074 <= e <= 1023)%Z -> fin a -> fin b -> Rabs (val a - val b) <= B e ->
  fin (fsub a b) /\ val (fsub a b) = rne (val a - val b) /\ Rabs (val (fsub a b)) <= B e.
Proof.
  intros He [Va Fa] [Vb Fb] H. pose proof (rne_le_pow _ e He H) as L.
  destruct (fsub_val a b Va Vb Fa Fb) as [E F]; [eapply lt_emax; [|exact L]; lia|].
  split; [split; auto; apply vb_fsub; auto|]. split; auto. rewrite E. auto.
Qed.
Lemma add_small a b e : (-1074 <= e <= 1023)%Z -> fin a -> fin b -> Rabs (val a + val b) <= B e ->
  fin (fadd a b) /\ val (fadd a b) = rne (val a + val b) /\ Rabs (val (fadd a b)) <= B e.
Proof.
  intros He [Va Fa] [Vb Fb] H. pose proof (rne_le_pow _ e He H) as L.
  destruct (fadd_val a b Va Vb Fa Fb) as [E F]; [eapply lt_emax; [|exact L]; lia|].
  split; [split; auto; apply vb_fadd; auto|]. split; auto. rewrite E. auto.
Qed.
Lemma mul_small a b e : (-1074 <= e <= 1023)%Z -> fin a -> fin b -> Rabs (val a * val b) <= B e ->
  fin (fmul a b) /\ val (fmul a b) = rne (val a * val b) /\ Rabs (val (fmul a b)) <= B e.
Proof.
  intros He [Va Fa] [Vb Fb] H. pose proof (rne_le_pow _ e He H) as L.
  destruct (fmul_val a b Va Vb) as [E F]; [eapply lt_emax; [|exact L]; lia|].
  split; [split; [apply vb_fmul; auto|rewrite F, Fa, Fb; reflexivity]|]. split; auto. rewrite E. auto.
Qed.
Lemma div_small a b e : (-1074 <= e <= 1023)%Z -> fin a -> fin b -> val b <> 0 -> Rabs (val a / val b) <= B e ->
  fin (fdiv a b) /\ val (fdiv a b) = rne (val a / val b) /\ Rabs (val (fdiv a b)) <= B e.
Proof.
  intros He [Va Fa] [Vb Fb] N H. pose proof (rne_le_pow _ e He H) as L.
  destruct (fdiv_val a b Va Vb N) as [E F]; [eapply lt_emax; [|exact L]; lia|].
  split; [split; [apply vb_fdiv; auto|rewrite F; auto]|]. split; auto. rewrite E. auto.
Qed.

(** two different numbers, the smaller at least 2^-47, are at least 2^-99 apart *)
Lemma gap a b : fin a -> fin b -> B (-47) <= val a -> val a < val b -> B (-99) <= val b - val a.
Proof.
  intros Fa Fb Ha L.
  assert (S : succ radix2 fe64 (val a) <= val b).
  { apply succ_le_lt; auto; [exact valid_fe64|apply fmt_val, Fa|apply fmt_val, Fb]. }
  rewrite succ_eq_pos in S.
  2: { eapply Rle_trans; [|exact Ha]. apply bpow_ge_0. }
  assert (U : B (-99) <= ulp radix2 fe64 (val a)).
  { change (ulp radix2 fe64 (val a)) with (ulp radix2 (FLT_exp (3 - emax - prec) prec) (val a)).
    apply Rle_trans with (ulp radix2 (FLT_exp (3 - emax - prec) prec) (B (-47))).
    - rewrite ulp_bpow. unfold FLT_exp. simpl Z.max. apply Rle_refl.
    - apply ulp_le_pos; [apply FLT_exp_valid; reflexivity|apply FLT_exp_monotone|apply bpow_ge_0|auto]. }
  lra.
Qed.

(** the two clamps (hiopAlgFilterIPM.cpp:586-592) *)
Definition clamp (E : elastic) (r : b64) : b64 :=
  let r := if fgt r (el_init E) then el_init E else r in
  if flt r (el_fin E) then el_fin E else r.
Lemma clamp_val E r : fin r -> fin (el_init E) -> fin (el_fin E) ->
  fin (clamp E r) /\ val (clamp E r) = Rmax (Rmin (val r) (val (el_init E))) (val (el_fin E)).
Proof.
  intros Fr Fi Ff. unfold clamp.
  assert (A : fin (if fgt r (el_init E) then el_init E else r) /\
    val (if fgt r (el_init E) then el_init E else r) = Rmin (val r) (val (el_init E))).
  { change (fgt r (el_init E)) with (flt (el_init E) r). destruct (flt (el_init E) r) eqn:L.
    - apply fin_lt in L; auto. rewrite Rmin_right by lra. split; [exact Fi|reflexivity].
    - apply fin_lt_false in L; auto. rewrite Rmin_left by lra. split; [exact Fr|reflexivity]. }
  destruct A as [A1 A2]. revert A1 A2. generalize (if fgt r (el_init E) then el_init E else r). intros y Fy Vy. cbv zeta.
  destruct (flt y (el_fin E)) eqn:L.
  - apply fin_lt in L; auto. rewrite <- Vy, Rmax_right by lra. split; [exact Ff|reflexivity].
  - apply fin_lt_false in L; auto. rewrite <- Vy, Rmax_left by lra. split; [exact Fy|reflexivity].
Qed.

Record efacts (E : elastic) : Prop := EF {
  e_fi : fin (el_init E); e_ff : fin (el_fin E); e_ft : fin (el_tol E); e_fm : fin (el_mu0 E);
  e_i : 0 < val (el_init E) <= 1/4; e_f : 0 < val (el_fin E) <= 1/4; e_t : B (-47) <= val (el_tol E) <= 1/4;
  e_m : 0 < val (el_mu0 E) <= B 10 }.
Lemma ranges_facts E : elastic_ranges E = true -> efacts E.
Proof.
  unfold elastic_ranges. rewrite !andb_true_iff. intros [[[I F] T] M].
  apply in_range_fin in I; [|litfin|litfin]. apply in_range_fin in F; [|litfin|litfin].
  apply in_range_fin in T; [|litfin|litfin]. apply in_range_fin in M; [|litfin|litfin].
  destruct I as [Fi [I1 I2]], F as [Ff [F1 F2]], T as [Ft [T1 T2]], M as [Fm [M1 M2]].
  assert (Q : val (f_2pow (-2)) = 1/4) by (rewrite val_2pow; simpl; lra).
  assert (L1 : val (fdiv f_one (fofZ 10)) <= val (f_2pow (-2))) by (apply le_lit; [litfin|litfin|vm_compute; reflexivity]).
  assert (L2 : val (f_2pow (-60)) <= val (fdiv f_one (fofZ 100000000))) by (apply le_lit; [litfin|litfin|vm_compute; reflexivity]).
  assert (L3 : val (f_2pow (-60)) <= val f_em16) by (apply le_lit; [litfin|litfin|vm_compute; reflexivity]).
  assert (L4 : val (f_2pow (-47)) <= val (fdiv f_one (fofZ 100000000000000))) by (apply le_lit; [litfin|litfin|vm_compute; reflexivity]).
  assert (L5 : val (fofZ 1000) <= val (f_2pow 10)) by (apply le_lit; [litfin|litfin|vm_compute; reflexivity]).
  rewrite val_2pow in L2, L3, L4, L5. rewrite Q in L1. pose proof (bpow_gt_0 radix2 (-60)).
  constructor; auto; lra.
Qed.

Lemma mu_ok_facts mu : mu_ok mu = true -> fin mu /\ 0 < val mu <= B 10.
Proof.
  unfold mu_ok. rewrite !andb_true_iff. intros [[V A] C].
  assert (F : fin mu).
  { apply (between_fin f_zero mu (fofZ 1000)); [exact V|litfin|litfin| |exact C].
    unfold fgt in A. destruct mu as [s|s| |s m e]; try destruct s; try discriminate; reflexivity. }
  split; auto. split.
  - unfold fgt in A. apply (fin_lt f_zero mu) in A; [|litfin|exact F]. exact A.
  - assert (L5 : val (fofZ 1000) <= val (f_2pow 10)) by (apply le_lit; [litfin|litfin|vm_compute; reflexivity]).
    rewrite val_2pow in L5. apply (fin_le mu (fofZ 1000)) in C; [lra|exact F|litfin].
Qed.

(** the raw factor is finite and its value is the same monotone function of the value of mu for all mu *)
Lemma raw_scaled E mu : el_strat E = MuScaled -> mu_ok mu = true ->
  fin (raw_factor E mu) /\ val (raw_factor E mu) = rne (val f_0995 * val mu).
Proof.
  intros S M. destruct (mu_ok_facts mu M) as [F R0]. unfold raw_factor. rewrite S.
  assert (Fc : fin f_0995) by litfin.
  assert (Lc : 0 <= val f_0995 <= 1).
  { split; [apply (le_lit f_zero f_0995); [litfin|litfin|reflexivity]|].
    rewrite <- one_val. apply le_lit; [litfin|litfin|vm_compute; reflexivity]. }
  destruct (mul_small f_0995 mu 10) as (A & C & _); auto; [lia|].
  rewrite Rabs_pos_eq by nra. nra.
Qed.
Lemma raw_projected E mu : el_strat E = MuProjected -> elastic_ranges E = true -> flt (el_tol E) (el_mu0 E) = true -> mu_ok mu = true ->
  fin (raw_factor E mu) /\
  val (raw_factor E mu) = rne (rne (rne (rne (val mu - val (el_tol E)) / rne (val (el_mu0 E) - val (el_tol E)))
     * rne (val (el_init E) - val (el_fin E))) + val (el_fin E)) /\
  0 < rne (val (el_mu0 E) - val (el_tol E)).
Proof.
  intros S RG LT M. destruct (mu_ok_facts mu M) as [F R0]. unfold raw_factor. rewrite S.
  destruct (ranges_facts E RG) as [Fi Ff Ft Fm Ri Rf Rt Rm].
  apply fin_lt in LT; auto.
  assert (B10 : B 10 = 1024) by (simpl; lra).
  assert (B11 : B 11 = 2048) by (simpl; lra).
  pose proof (bpow_gt_0 radix2 (-47)) as P47.
  assert (G := gap (el_tol E) (el_mu0 E) Ft Fm (proj1 Rt) LT).
  pose proof (bpow_gt_0 radix2 (-99)) as P99.
  destruct (sub_small mu (el_tol E) 11) as (A1 & A2 & A3); auto; [lia| |].
  { apply Rabs_le. rewrite B11. lra. }
  destruct (sub_small (el_mu0 E) (el_tol E) 11) as (C1 & C2 & C3); auto; [lia| |].
  { apply Rabs_le. rewrite B11. lra. }
  assert (C4 : B (-99) <= val (fsub (el_mu0 E) (el_tol E))).
  { rewrite C2. rewrite <- (rne_pow2 (-99)) by lia. apply rne_mono. auto. }
  destruct (div_small (fsub mu (el_tol E)) (fsub (el_mu0 E) (el_tol E)) 110) as (D1 & D2 & D3); auto; [lia|lra| |].
  { unfold Rdiv. rewrite Rabs_mult. replace 110%Z with (11 + 99)%Z by reflexivity. rewrite bpow_plus.
    apply Rmult_le_compat; try apply Rabs_pos; auto. rewrite Rabs_inv.
    replace (B 99) with (/ B (-99)) by (rewrite <- bpow_opp; reflexivity).
    apply Rinv_le; auto. rewrite Rabs_pos_eq; lra. }
  destruct (sub_small (el_init E) (el_fin E) 0) as (G1 & G2 & G3); auto; [lia| |].
  { apply Rabs_le. simpl. lra. }
  destruct (mul_small (fdiv (fsub mu (el_tol E)) (fsub (el_mu0 E) (el_tol E))) (fsub (el_init E) (el_fin E)) 110) as (H1 & H2 & H3); auto; [lia| |].
  { rewrite Rabs_mult. rewrite <- (Rmult_1_r (B 110)). apply Rmult_le_compat; try apply Rabs_pos; auto. }
  destruct (add_small (fmul (fdiv (fsub mu (el_tol E)) (fsub (el_mu0 E) (el_tol E))) (fsub (el_init E) (el_fin E))) (el_fin E) 111) as (I1 & I2 & I3); auto; [lia| |].
  { eapply Rle_trans; [apply Rabs_triang|]. change 111%Z with (110 + 1)%Z. rewrite bpow_plus. simpl (B 1).
    assert (1 <= B 110) by (change 1 with (B 0); apply bpow_le; lia).
    rewrite (Rabs_pos_eq (val (el_fin E))) by lra. lra. }
  split; [exact I1|]. split; [|rewrite <- C2; lra].
  rewrite I2, H2, D2, A2, C2, G2. reflexivity.
Qed.

Lemma rne_sub_nonneg a b : b <= a -> 0 <= rne (a - b).
Proof. intros H. rewrite <- rne_zero. apply rne_mono. lra. Qed.

Lemma raw_fin E mu : elastic_sensible E -> mu_ok mu = true -> fin (raw_factor E mu).
Proof.
  intros (RG & FI & LT) M. destruct (el_strat E) eqn:S; [apply raw_projected; auto|apply raw_scaled; auto].
Qed.
Lemma raw_mono E mu mu' : elastic_sensible E -> mu_ok mu = true -> mu_ok mu' = true -> fle mu' mu = true ->
  val (raw_factor E mu') <= val (raw_factor E mu).
Proof.
  intros (RG & FI & LT) M M' L.
  destruct (mu_ok_facts mu M) as [F R0]. destruct (mu_ok_facts mu' M') as [F' R0'].
  apply fin_le in L; auto.
  destruct (ranges_facts E RG) as [Fi Ff Ft Fm Ri Rf Rt Rm]. apply fin_le in FI; auto.
  destruct (el_strat E) eqn:S.
  - destruct (raw_projected E mu S RG LT M) as (_ & -> & P). destruct (raw_projected E mu' S RG LT M') as (_ & -> & _).
    apply rne_mono. apply Rplus_le_compat_r. apply rne_mono. apply Rmult_le_compat_r; [apply rne_sub_nonneg; auto|].
    apply rne_mono. unfold Rdiv. apply Rmult_le_compat_r; [left; apply Rinv_0_lt_compat; auto|].
    apply rne_mono. lra.
  - destruct (raw_scaled E mu S M) as (_ & ->). destruct (raw_scaled E mu' S M') as (_ & ->).
    apply rne_mono. assert (0 <= val f_0995) by (apply (le_lit f_zero f_0995); [litfin|litfin|reflexivity]). nra.
Qed.

Lemma factor_val E mu : elastic_sensible E -> mu_ok mu = true ->
  fin (relax_factor E mu) /\ val (relax_factor E mu) = Rmax (Rmin (val (raw_factor E mu)) (val (el_init E))) (val (el_fin E)).
Proof.
  intros H M. pose proof (raw_fin E mu H M). destruct H as (RG & _). destruct (ranges_facts E RG). exact (clamp_val E _ H0 e_fi0 e_ff0).
Qed.

Lemma factor_range E mu : elastic_sensible E -> mu_ok mu = true ->
  fle (el_fin E) (relax_factor E mu) = true /\ fle (relax_factor E mu) (el_init E) = true.
Proof.
  intros H M. destruct (factor_val E mu H M) as [F V]. destruct H as (RG & FI & _). destruct (ranges_facts E RG).
  apply fin_le in FI; auto. split; apply fin_le; auto; rewrite V.
  - apply Rmax_r.
  - apply Rmax_lub; auto. apply Rmin_r.
Qed.
Lemma factor_mono E mu mu' : elastic_sensible E -> mu_ok mu = true -> mu_ok mu' = true -> fle mu' mu = true ->
  fle (relax_factor E mu') (relax_factor E mu) = true.
Proof.
  intros H M M' L. destruct (factor_val E mu H M) as [F V]. destruct (factor_val E mu' H M') as [F' V'].
  apply fin_le; auto. rewrite V, V'. pose proof (raw_mono E mu mu' H M M' L).
  apply Rmax_lub; [|apply Rmax_r]. eapply Rle_trans; [|apply Rmax_l]. apply Rmin_glb; [|apply Rmin_r].
  eapply Rle_trans; [apply Rmin_l|auto].
Qed.
Lemma fin_eq_val x y : fin x -> fin y -> 0 < val y -> val x = val y -> x = y.
Proof.
  intros [Vx Fx] [Vy Fy] P E. rewrite <- (B2SF_toB x Vx), <- (B2SF_toB y Vy). f_equal.
  apply B2R_inj; try (rewrite !val_toB; auto).
  - destruct x as [s|s| |s m e]; try discriminate; unfold val in *; simpl in *; try lra; try reflexivity.
  - destruct y as [s|s| |s m e]; try discriminate; unfold val in *; simpl in *; try lra; try reflexivity.
Qed.
Lemma factor_final_projected E mu : elastic_sensible E -> el_strat E = MuProjected -> mu_ok mu = true -> fle mu (el_tol E) = true ->
  relax_factor E mu = el_fin E.
Proof.
  intros H S M L. destruct (factor_val E mu H M) as [F V]. destruct H as (RG & FI & LT).
  destruct (raw_projected E mu S RG LT M) as (_ & W & P). destruct (mu_ok_facts mu M) as [Fmu R0].
  destruct (ranges_facts E RG) as [Fi Ff Ft Fm Ri Rf Rt Rm]. apply fin_le in FI; auto. apply fin_le in L; auto.
  apply fin_eq_val; auto; [lra|]. rewrite V, Rmax_right; auto. eapply Rle_trans; [apply Rmin_l|]. rewrite W.
  rewrite <- (rne_val (el_fin E) (proj1 Ff) (proj2 Ff)) at 3. apply rne_mono.
  assert (Z1 : rne (val mu - val (el_tol E)) <= 0) by (rewrite <- rne_zero; apply rne_mono; lra).
  assert (Z2 : rne (rne (val mu - val (el_tol E)) / rne (val (el_mu0 E) - val (el_tol E))) <= 0).
  { rewrite <- rne_zero. apply rne_mono. unfold Rdiv. pose proof (Rinv_0_lt_compat _ P). nra. }
  assert (Z3 : rne (rne (rne (val mu - val (el_tol E)) / rne (val (el_mu0 E) - val (el_tol E))) * rne (val (el_init E) - val (el_fin E))) <= 0).
  { rewrite <- rne_zero. apply rne_mono. pose proof (rne_sub_nonneg _ _ FI). nra. }
  lra.
Qed.
Lemma factor_final_scaled E mu : elastic_sensible E -> el_strat E = MuScaled -> mu_ok mu = true -> fle mu (el_fin E) = true ->
  relax_factor E mu = el_fin E.
Proof.
  intros H S M L. destruct (factor_val E mu H M) as [F V]. destruct H as (RG & FI & LT).
  destruct (raw_scaled E mu S M) as (_ & W). destruct (mu_ok_facts mu M) as [Fmu R0].
  destruct (ranges_facts E RG) as [Fi Ff Ft Fm Ri Rf Rt Rm]. apply fin_le in FI; auto. apply fin_le in L; auto.
  apply fin_eq_val; auto; [lra|]. rewrite V, Rmax_right; auto. eapply Rle_trans; [apply Rmin_l|]. rewrite W.
  rewrite <- (rne_val (el_fin E) (proj1 Ff) (proj2 Ff)). apply rne_mono.
  assert (Lc : 0 <= val f_0995 <= 1).
  { split; [apply (le_lit f_zero f_0995); [litfin|litfin|reflexivity]|].
    rewrite <- one_val. apply le_lit; [litfin|litfin|vm_compute; reflexivity]. }
  nra.
Qed.

(** addition of finite numbers is monotone, overflow included *)
Lemma fadd_case2 x y : vb x = true -> vb y = true -> finite x = true -> finite y = true ->
  (finite (fadd x y) = true /\ val (fadd x y) = rne (val x + val y) /\ Rabs (rne (val x + val y)) < bpow radix2 emax) \/
  (fadd x y = S754_infinity (sgn x) /\ sgn x = sgn y /\ bpow radix2 emax <= Rabs (rne (val x + val y))).
Proof.
  intros Vx Vy Fx Fy.
  destruct (Rlt_or_le (Rabs (rne (val x + val y))) (bpow radix2 emax)) as [L|L].
  - left. destruct (fadd_val x y Vx Vy Fx Fy L). auto.
  - destruct (fadd_case x y Vx Vy Fx Fy) as [(_ & _ & C)|[C D]]; [lra|]. right. auto.
Qed.
Lemma sgn_val x : finite x = true -> if sgn x then val x <= 0 else 0 <= val x.
Proof.
  destruct x as [s|s| |s m e]; intros; try discriminate; unfold val; simpl; destruct s; try lra.
  - apply F2R_le_0. simpl. lia.
  - apply F2R_ge_0. simpl. lia.
Qed.
Lemma fadd_mono a b x : fin a -> fin b -> fin x -> val a <= val b -> fle (fadd a x) (fadd b x) = true.
Proof.
  intros [Va Fa] [Vb Fb] [Vx Fx] L.
  assert (M : rne (val a + val x) <= rne (val b + val x)) by (apply rne_mono; lra).
  destruct (fadd_case2 a x Va Vx Fa Fx) as [(A1 & A2 & A3)|(A1 & A2 & A3)];
  destruct (fadd_case2 b x Vb Vx Fb Fx) as [(C1 & C2 & C3)|(C1 & C2 & C3)].
  - apply fin_le; [split; auto; apply vb_fadd; auto|split; auto; apply vb_fadd; auto|rewrite A2, C2; exact M].
  - rewrite C1. destruct (sgn b) eqn:Sb; [|apply fle_pinf; destruct (fadd a x); auto; discriminate].
    exfalso. assert (val x <= 0) by (pose proof (sgn_val x Fx) as H; rewrite <- C2 in H; auto).
    assert (val b <= 0) by (pose proof (sgn_val b Fb) as H0; rewrite Sb in H0; auto).
    assert (rne (val b + val x) <= 0) by (rewrite <- rne_zero; apply rne_mono; lra).
    rewrite Rabs_left1 in C3 by auto. apply Rabs_def2 in A3. lra.
  - rewrite A1. destruct (sgn a) eqn:Sa; [apply fle_ninf; destruct (fadd b x); auto; discriminate|].
    exfalso. assert (0 <= val x) by (pose proof (sgn_val x Fx) as H; rewrite <- A2 in H; auto).
    assert (0 <= val a) by (pose proof (sgn_val a Fa) as H0; rewrite Sa in H0; auto).
    assert (0 <= rne (val a + val x)) by (rewrite <- rne_zero; apply rne_mono; lra).
    rewrite Rabs_pos_eq in A3 by auto. apply Rabs_def2 in C3. lra.
  - rewrite A1, C1, A2, C2. destruct (sgn x); reflexivity.
Qed.

Lemma fin_posfin r : fin r -> 0 < val r -> posfin r.
Proof.
  intros [V F] P. split; auto. pose proof (sgn_val r F) as H.
  destruct r as [s|s| |s m ex]; try discriminate; cbn [sgn] in H; [unfold val in P; simpl in P; lra|].
  destruct s; auto. lra.
Qed.
Lemma relax_mono p q e : fin p -> fin q -> 0 < val p -> val p <= val q -> val q <= 1 -> sane e ->
  contains (bounds_relax1 q e) (bounds_relax1 p e).
Proof.
  destruct e as [l u]. intros Fp Fq Pp Hpq Hq (Vl & Vu & Nl & Nu & Il & Iu). cbn [fst snd] in *.
  assert (PF := fin_posfin).
  assert (Qp := PF p Fp Pp). assert (Qq := PF q Fq ltac:(lra)).
  unfold contains, bounds_relax1. cbn [fst snd]. rewrite !relax_low_eq, !relax_upp_eq by auto.
  assert (K : forall x, vb x = true -> finite x = true -> exists a b, fmul p (comp_max (fabs x) f_one) = a /\ fmul q (comp_max (fabs x) f_one) = b /\ fin a /\ fin b /\ val a <= val b).
  { intros x Vx Fx. destruct (mag_posfin x (comp_max (fabs x) f_one) Vx Fx) as [Pm Vm]; auto.
    set (m := comp_max (fabs x) f_one) in *. assert (Fm : fin m) by (split; [apply Pm|apply posfin_fin; auto]).
    assert (M0 : 0 < val m) by (rewrite Vm; pose proof (Rmax_l 1 (Rabs (val x))); lra).
    pose proof (val_lt_emax m (proj1 Pm)) as LM. rewrite Rabs_pos_eq in LM by lra.
    assert (Z : forall r, fin r -> 0 < val r <= 1 -> fin (fmul r m) /\ val (fmul r m) = rne (val r * val m)).
    { intros r [Vr Fr] Rr.
      assert (L : Rabs (rne (val r * val m)) < bpow radix2 emax).
      { rewrite rne_abs, Rabs_pos_eq by nra. eapply Rle_lt_trans; [apply rne_mono with (y := val m); nra|].
        rewrite rne_val; auto; apply Fm. }
      destruct (fmul_val r m Vr (proj1 Pm) L) as [E1 E2]. split; auto. split; [apply vb_fmul; auto; apply Pm|].
      rewrite E2, Fr. apply Fm. }
    destruct (Z p Fp) as [Z1 Z2]; [lra|]. destruct (Z q Fq) as [Z3 Z4]; [lra|].
    do 2 eexists. repeat (split; [reflexivity|]). split; auto. split; auto. rewrite Z2, Z4. apply rne_mono. nra. }
  assert (INF : forall r s, posfin r -> fmul r (comp_max (fabs (S754_infinity s)) f_one) = S754_infinity false).
  { intros r s [V R]. rewrite (mag_inf s (comp_max (fabs (S754_infinity s)) f_one)) by auto.
    destruct r as [t|t| |t m ex]; try contradiction. destruct t; [contradiction|reflexivity]. }
  split.
  - destruct (finite l) eqn:Fl.
    + destruct (K l Vl Fl) as (a & b & -> & -> & [Va Fa] & [Vb Fb] & Hab). rewrite !(fadd_comm l).
      apply fadd_mono; try (split; auto); rewrite ?fopp_fin, ?fopp_val; auto; try (apply fopp_vb; auto). lra.
    + destruct l as [s|s| |s m ex]; try discriminate. rewrite !INF by auto. destruct s; [reflexivity|congruence].
  - destruct (finite u) eqn:Fu.
    + destruct (K u Vu Fu) as (a & b & -> & -> & Ga & Gb & Hab). rewrite !(fadd_comm u).
      apply fadd_mono; auto. split; auto.
    + destruct u as [s|s| |s m ex]; try discriminate. rewrite !INF by auto. destruct s; [congruence|reflexivity].
Qed.

Lemma relax_all_mono p q o : fin p -> fin q -> 0 < val p -> val p <= val q -> val q <= 1 -> user_ok o ->
  inside (relax_all p o) (relax_all q o).
Proof.
  intros Fp Fq Pp H Hq [Ux Ud].
  assert (A : forall l, Forall sane l -> Forall2 contains (map (bounds_relax1 q) l) (map (bounds_relax1 p) l)).
  { induction 1; constructor; auto. apply relax_mono; auto. }
  split; cbn [relax_all b_x b_d]; auto.
Qed.
Lemma relax_all_user p o : fin p -> 0 < val p -> user_ok o -> inside o (relax_all p o).
Proof.
  intros [Vp Fp] Pp [Ux Ud].
  assert (PF : posfin p) by (apply fin_posfin; auto; split; auto).
  assert (A : forall l, Forall sane l -> Forall2 contains (map (bounds_relax1 p) l) l).
  { induction 1; constructor; auto. exact (bounds_relax_contains p _ PF H). }
  split; cbn [relax_all b_x b_d]; auto.
Qed.

Lemma inside_refl_relax p o : fin p -> 0 < val p -> val p <= 1 -> user_ok o -> inside (relax_all p o) (relax_all p o).
Proof. intros. apply relax_all_mono; auto. lra. Qed.

(** one update *)
Lemma bounds_of_mode eps sf E mu o it : el_how E <> CorrectItAdjustBound ->
  elastic_bounds eps sf E mu o it = relax_all (relax_factor E mu) o.
Proof. intros H. unfold elastic_bounds. destruct (el_how E); try reflexivity. congruence. Qed.

Lemma factor_pos E mu : elastic_sensible E -> mu_ok mu = true ->
  fin (relax_factor E mu) /\ 0 < val (relax_factor E mu) <= 1.
Proof.
  intros H M. destruct (factor_val E mu H M) as [F V]. destruct (factor_range E mu H M) as [A C].
  destruct H as (RG & _). destruct (ranges_facts E RG). apply fin_le in A, C; auto. split; auto. lra.
Qed.

Section Run.
  Variable fpow : b64 -> b64 -> b64.
  Variable P : mu_params.
  Variable E : elastic.
  Variables eps sf : b64.
  Hypothesis Hpow : forall a b, valid_binary 53 1024 (fpow a b) = true.
  Hypothesis HP : mu_options_ok P = true.
  Hypothesis HE : elastic_sensible E.
  Hypothesis Hmode : el_how E <> CorrectItAdjustBound.
  Variable o : wbounds.
  Hypothesis Ho : user_ok o.

  Lemma update_ok mu m t : mu_ok mu = true -> fge mu (mu_floor P) = true -> mu_update fpow P mu = Some (m, t) ->
    mu_ok m = true /\ fge m (mu_floor P) = true /\ fle m mu = true.
  Proof.
    intros M G U. destruct (mu_update_ranges fpow P mu m t Hpow HP M U) as (A & C & D & F & _).
    specialize (F G).
    destruct (mu_history_ranges fpow P mu [(m, t)] m t Hpow HP M) as (OKm & _); [econstructor; [exact U|constructor]|left; reflexivity|].
    split; auto. split; auto. destruct (mu_ok_facts mu M) as [F1 _]. destruct (mu_ok_facts m OKm) as [F2 _].
    apply fin_lt in F; auto. apply fin_le; auto. lra.
  Qed.

  Lemma run_shrinks : forall its mu p l, mu_ok mu = true -> fge mu (mu_floor P) = true ->
    fin p -> val p <= 1 -> (forall m, mu_ok m = true -> fle m mu = true -> val (relax_factor E m) <= val p) ->
    elastic_run fpow P E eps sf (Some o) mu its = Some l ->
    shrinking (relax_all p o) (map snd l) /\
    (forall m b, In (m, b) l -> inside (relax_all (el_fin E) o) b /\ inside o b /\ mu_ok m = true /\ fle m mu = true /\
       fge m (mu_floor P) = true /\ b = relax_all (relax_factor E m) o).
  Proof.
    induction its as [|it its IH]; intros mu p l M G Fp P1 Hp R; cbn [elastic_run] in R.
    - injection R as <-. split; [exact I|intros m b []].
    - unfold elastic_update in R. destruct (mu_update fpow P mu) as [[m t]|] eqn:U.
      + rewrite (bounds_of_mode eps sf E m o it Hmode) in R.
        destruct (update_ok mu m t M G U) as (M' & G' & L').
        destruct (elastic_run fpow P E eps sf (Some o) m its) as [l'|] eqn:R'; [|discriminate].
        injection R as <-. destruct (factor_pos E m HE M') as [Ff Pf].
        destruct (IH m (relax_factor E m) l' M' G' Ff (proj2 Pf)) as [S I0]; auto.
        { intros m' Om' Lm'. apply fin_le; try (apply factor_pos; auto). apply factor_mono; auto. }
        split.
        * cbn [map snd shrinking]. split; [|exact S]. apply relax_all_mono; auto; [lra].
        * intros m0 b [X|X].
          -- injection X as <- <-. destruct HE as (RG & FI & LT). destruct (ranges_facts E RG).
             destruct (factor_range E m HE M') as [A _]. apply fin_le in A; auto.
             split; [apply relax_all_mono; auto; lra|]. split; [apply relax_all_user; auto; lra|]. auto.
          -- destruct (I0 m0 b X) as (X1 & X2 & X3 & X4 & X5 & X6). repeat (split; auto).
             eapply fle_trans; eauto.
      + eapply IH; eauto.
  Qed.

  Lemma floor_le_tol : mu_options_ok P = true -> val (mu_floor P) <= val (mp_eps_tol P).
  Proof.
    intros OKP. destruct (options_facts P OKP) as [_ _ _ _ F F1].
    assert (Ft : fin (mp_eps_tol P)).
    { unfold mu_options_ok in OKP. rewrite !andb_true_iff in OKP. destruct OKP as [[[[K T] X] C] O0].
      apply in_range_fin in X; [|litfin|litfin]. apply X. }
    revert F F1. unfold mu_floor. set (q := fdiv (mp_comp_tol P) (mp_obj_scale P)).
    set (el := fadd (fofZ 10) f_one). intros F F1.
    assert (Fel : fin el) by litfin. assert (Vel : val el = 11) by apply eleven_val.
    assert (Vq : vb q = true).
    { unfold mu_options_ok in OKP. rewrite !andb_true_iff in OKP. destruct OKP as [[[[K T] X] C] O0].
      apply in_range_fin in C; [|litfin|litfin]. apply in_range_fin in O0; [|litfin|litfin].
      apply vb_fdiv; [apply C|apply O0]. }
    assert (M : fin (fmin (mp_eps_tol P) q) /\ val (fmin (mp_eps_tol P) q) <= val (mp_eps_tol P)).
    { unfold fmin in *. rewrite (fin_nan _ Ft) in *. destruct (is_nan q) eqn:Nq; [split; [auto|lra]|].
      destruct (flt q (mp_eps_tol P)) eqn:L; [|split; [auto|lra]].
      destruct (finite q) eqn:Fq.
      - assert (fin q) by (split; auto). apply fin_lt in L; auto. split; auto. lra.
      - exfalso. destruct q as [s|s| |s m e]; try discriminate. destruct F as [_ F]. destruct s; discriminate. }
    destruct M as [Fm Lm]. set (m := fmin (mp_eps_tol P) q) in *.
    assert (L : Rabs (rne (val m / val el)) < bpow radix2 emax).
    { rewrite rne_abs. apply Rle_lt_trans with (rne (Rabs (val m))).
      - apply rne_mono. rewrite Vel. unfold Rdiv. rewrite Rabs_mult, (Rabs_pos_eq (/ 11)) by lra. pose proof (Rabs_pos (val m)). lra.
      - rewrite <- rne_abs, rne_val; [apply val_lt_emax|..]; apply Fm. }
    destruct (fdiv_val m el (proj1 Fm) (proj1 Fel)) as [EV _]; [rewrite Vel; lra|exact L|].
    assert (Pm : 0 < val m).
    { destruct (Rle_or_lt (val m) 0) as [N|N]; auto. exfalso.
      assert (rne (val m / val el) <= 0) by (rewrite <- rne_zero; apply rne_mono; rewrite Vel; lra).
      rewrite EV in F1. lra. }
    rewrite EV. apply Rle_trans with (rne (val m)); [apply rne_mono; rewrite Vel; lra|].
    rewrite rne_val; [auto|apply Fm|apply Fm].
  Qed.
  Lemma above_tol_floor mu : fin mu -> val (mp_eps_tol P) < val mu -> fge mu (mu_floor P) = true.
  Proof.
    intros F L. pose proof (floor_le_tol HP). destruct (options_facts P HP) as [_ _ _ _ Ff _].
    unfold fge. change (fle (mu_floor P) mu = true). apply fin_le; auto. lra.
  Qed.
End Run.

Lemma fmul_comm x y : fmul x y = fmul y x.
Proof.
  destruct x as [s|s| |s m e], y as [s'|s'| |s' m' e']; unfold fmul; simpl; try rewrite (xorb_comm s s'); try reflexivity.
  rewrite Pos.mul_comm, Z.add_comm. reflexivity.
Qed.
Lemma relax_low_vb p x : vb p = true -> vb x = true -> vb (relax_low p x) = true.
Proof.
  intros Vp Vx. assert (A : vb (comp_max (fabs x) f_one) = true) by (unfold comp_max; destruct (flt _ _); [reflexivity|apply vb_fabs; auto]).
  unfold relax_low, scale1. apply vb_fadd; [|apply vb_fmul; auto; reflexivity].
  destruct (feq f_one (fopp p)); [auto|apply vb_fmul; auto; apply fopp_vb; auto].
Qed.
Lemma relax_upp_vb p x : vb p = true -> vb x = true -> vb (relax_upp p x) = true.
Proof.
  intros Vp Vx. assert (A : vb (comp_max (fabs x) f_one) = true) by (unfold comp_max; destruct (flt _ _); [reflexivity|apply vb_fabs; auto]).
  unfold relax_upp, scale1. apply vb_fadd; [|apply vb_fmul; auto; reflexivity].
  destruct (feq f_one p); [auto|apply vb_fmul; auto].
Qed.
Lemma start_unscaled E brp scal o : vb (el_init E) = true -> user_ok o -> fgt brp f_zero = true ->
  length scal = length (b_d o) -> Forall (eq f_one) scal -> start_bounds E brp scal o = relax_all (el_init E) o.
Proof.
  intros V [_ Ud] G L A. unfold start_bounds, make_relaxer. rewrite G. unfold scale_ineq, relax_all. cbn [b_x b_d]. f_equal.
  revert scal L A. induction Ud as [|e l He Hl IH]; intros [|c scal] L A; try discriminate; [reflexivity|].
  cbn [map combine]. rewrite IH by (auto; inversion A; auto). inversion A as [|? ? A1 A2]. subst c. f_equal.
  destruct He as (V1 & V2 & _). cbn [fst snd]. unfold bounds_relax1. cbn [fst snd].
  rewrite !(fmul_comm _ f_one), !fmul_one; auto; [apply relax_upp_vb|apply relax_low_vb]; auto.
Qed.
