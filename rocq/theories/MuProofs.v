(** Proofs about the barrier update, at the level of binary64 rounding. *)
From Coq Require Import List Bool ZArith Reals Lia Lra.
From Flocq Require Import Core.Core IEEE754.BinarySingleNaN.
From Verif Require Import FloatBase FloatFacts FloatBridge MuModel MuSpec.
Import ListNotations.
Open Scope R_scope.

Lemma rne_mono x y : x <= y -> rne x <= rne y.
Proof. intros H. apply round_le; [apply valid_fe64|apply valid_rnd_N|exact H]. Qed.
Lemma rne_zero : rne 0 = 0.
Proof. apply round_0. apply valid_rnd_N. Qed.
Lemma rne_pow2 e : (-1074 <= e <= 1023)%Z -> rne (bpow radix2 e) = bpow radix2 e.
Proof.
  intros H. apply round_generic; [apply valid_rnd_N|].
  apply generic_format_bpow. unfold SpecFloat.fexp, SpecFloat.emin. lia.
Qed.
Lemma rne_opp x : rne (- x) = - rne x.
Proof. apply round_NE_opp. Qed.
Lemma rne_abs x : Rabs (rne x) = rne (Rabs x).
Proof.
  unfold Rabs at 2. destruct (Rcase_abs x) as [H|H].
  - rewrite rne_opp. rewrite Rabs_left1; [reflexivity|]. rewrite <- rne_zero. apply rne_mono. lra.
  - rewrite Rabs_pos_eq; [reflexivity|]. rewrite <- rne_zero. apply rne_mono. lra.
Qed.

(** a finite well-formed double *)
Definition fin (x : b64) : Prop := vb x = true /\ finite x = true.

Lemma fin_le x y : fin x -> fin y -> fle x y = true <-> val x <= val y.
Proof.
  intros [Vx Fx] [Vy Fy]. rewrite fle_val; auto.
  destruct (Rle_bool_spec (val x) (val y)); split; intros; auto; try discriminate; lra.
Qed.
Lemma fin_lt x y : fin x -> fin y -> flt x y = true <-> val x < val y.
Proof.
  intros [Vx Fx] [Vy Fy]. rewrite flt_val; auto.
  destruct (Rlt_bool_spec (val x) (val y)); split; intros; auto; try discriminate; lra.
Qed.
Lemma fin_lt_false x y : fin x -> fin y -> flt x y = false <-> val y <= val x.
Proof.
  intros [Vx Fx] [Vy Fy]. rewrite flt_val; auto.
  destruct (Rlt_bool_spec (val x) (val y)); split; intros; auto; try discriminate; lra.
Qed.
Lemma fin_nan x : fin x -> is_nan x = false.
Proof. intros [_ F]. destruct x; try discriminate; reflexivity. Qed.

Lemma between_fin lo x hi : vb x = true -> fin lo -> fin hi ->
  fle lo x = true -> fle x hi = true -> fin x.
Proof.
  intros Hx [_ Fl] [_ Fh] H1 H2. split; auto.
  destruct x as [|[|]| |]; try reflexivity; destruct lo as [|[|]| |[|]], hi as [|[|]| |[|]]; discriminate.
Qed.

Lemma fmax_val a b : fin a -> fin b -> fin (fmax a b) /\ val (fmax a b) = Rmax (val a) (val b).
Proof.
  intros Ha Hb. unfold fmax. rewrite (fin_nan a Ha), (fin_nan b Hb).
  destruct (flt a b) eqn:E.
  - apply fin_lt in E; auto. split; auto. rewrite Rmax_right; lra.
  - apply fin_lt_false in E; auto. split; auto. rewrite Rmax_left; lra.
Qed.
Lemma fmin_val a b : fin a -> fin b -> fin (fmin a b) /\ val (fmin a b) = Rmin (val a) (val b).
Proof.
  intros Ha Hb. unfold fmin. rewrite (fin_nan a Ha), (fin_nan b Hb).
  destruct (flt b a) eqn:E.
  - apply fin_lt in E; auto. split; auto. rewrite Rmin_right; lra.
  - apply fin_lt_false in E; auto. split; auto. rewrite Rmin_left; lra.
Qed.

(** fmax 0 (fmin a p) for an arbitrary double p *)
Lemma clip_val a p : fin a -> 0 <= val a -> vb p = true ->
  let r := fmax f_zero (fmin a p) in fin r /\ 0 <= val r <= val a.
Proof.
  intros Ha H0 Hp r.
  assert (Fz : fin f_zero) by (split; reflexivity).
  assert (Vz : val f_zero = 0) by reflexivity.
  assert (HA : fin (fmax f_zero a) /\ 0 <= val (fmax f_zero a) <= val a).
  { destruct (fmax_val _ _ Fz Ha) as [A B]. split; auto. rewrite B, Vz, Rmax_right; lra. }
  subst r. unfold fmin. rewrite (fin_nan a Ha).
  destruct (is_nan p) eqn:Np; auto.
  destruct (flt p a) eqn:E; auto.
  destruct (finite p) eqn:Fp.
  - assert (Hfp : fin p) by (split; auto). apply fin_lt in E; auto.
    destruct (fmax_val _ _ Fz Hfp) as [A B]. split; auto. rewrite B, Vz.
    split; [apply Rmax_l|]. apply Rmax_lub; lra.
  - destruct p as [|[|]| |]; try discriminate.
    + assert (fmax f_zero (S754_infinity true) = f_zero) as -> by reflexivity.
      split; auto. rewrite Vz. lra.
    + destruct a as [|[|]| |[|]]; discriminate.
Qed.

Lemma val_2pow e : val (f_2pow e) = bpow radix2 e.
Proof.
  unfold val, f_2pow, SF2R, F2R. simpl Fnum. simpl Fexp.
  change (Z.pos 4503599627370496) with (Zpower radix2 52).
  rewrite (IZR_Zpower radix2) by lia. rewrite <- bpow_plus. f_equal. lia.
Qed.

Lemma fin_lit x : vb x = true -> finite x = true -> fin x.
Proof. split; auto. Qed.

(** --- the floor --- *)
Definition OK (P : mu_params) : Prop := mu_options_ok P = true.

Lemma in_range_fin lo x hi : fin lo -> fin hi -> in_range lo x hi = true ->
  fin x /\ val lo <= val x <= val hi.
Proof.
  intros Hl Hh. unfold in_range. rewrite !andb_true_iff. intros [[V A] B].
  assert (Hx : fin x) by (eapply between_fin with (lo := lo) (hi := hi); eauto).
  split; auto. split; apply fin_le; auto.
Qed.

Ltac litfin := split; vm_compute; reflexivity.

Lemma le_lit a b : fin a -> fin b -> fle a b = true -> val a <= val b.
Proof. intros Ha Hb. apply fin_le; auto. Qed.

Record facts (P : mu_params) : Prop := mk_facts {
  F_k : fin (mp_kappa_mu P); F_k1 : 0 <= val (mp_kappa_mu P) < 1;
  F_t : fin (mp_tau_min P); F_t1 : 0 < val (mp_tau_min P) < 1;
  F_f : fin (mu_floor P); F_f1 : 0 < val (mu_floor P) <= bpow radix2 (-5) }.

Lemma one_val : val f_one = 1.
Proof. change f_one with (f_2pow 0). apply val_2pow. Qed.
Lemma one_fin : fin f_one. Proof. litfin. Qed.

Lemma eleven_val : val (fadd (fofZ 10) f_one) = 11.
Proof.
  replace (fadd (fofZ 10) f_one) with (S754_finite false 6192449487634432 (-49)) by (vm_compute; reflexivity).
  unfold val, SF2R, F2R. simpl. unfold Z.pow_pos. simpl. lra.
Qed.

Lemma pow2_le a b : (a <= b)%Z -> bpow radix2 a <= bpow radix2 b.
Proof. apply bpow_le. Qed.

Lemma options_facts P : OK P -> facts P.
Proof.
  unfold OK, mu_options_ok. rewrite !andb_true_iff. intros [[[[K T] E] C] O].
  apply in_range_fin in K; [|litfin|litfin]. destruct K as [Kf [K1 K2]].
  apply in_range_fin in T; [|litfin|litfin]. destruct T as [Tf [T1 T2]].
  apply in_range_fin in E; [|litfin|litfin]. destruct E as [Ef [E1 E2]].
  apply in_range_fin in C; [|litfin|litfin]. destruct C as [Cf [C1 C2]].
  apply in_range_fin in O; [|litfin|litfin]. destruct O as [Of [O1 O2]].
  rewrite val_2pow in O1, O2.
  assert (K0 : 0 <= val (fdiv f_one (fofZ 100000000))).
  { change 0 with (val f_zero). apply le_lit; [litfin|litfin|vm_compute; reflexivity]. }
  assert (K9 : val (fdiv (fofZ 999) (fofZ 1000)) < 1).
  { rewrite <- one_val. apply fin_lt; [litfin|litfin|vm_compute; reflexivity]. }
  assert (T0 : 0 < val (fdiv (fofZ 9) (fofZ 10))).
  { change 0 with (val f_zero). apply fin_lt; [litfin|litfin|vm_compute; reflexivity]. }
  assert (T9 : val (fdiv (fofZ 99999) (fofZ 100000)) < 1).
  { rewrite <- one_val. apply fin_lt; [litfin|litfin|vm_compute; reflexivity]. }
  assert (E0 : bpow radix2 (-47) <= val (fdiv f_one (fofZ 100000000000000))).
  { rewrite <- val_2pow. apply le_lit; [litfin|litfin|vm_compute; reflexivity]. }
  assert (E9 : val (fdiv f_one (fofZ 10)) <= bpow radix2 (-3)).
  { rewrite <- val_2pow. apply le_lit; [litfin|litfin|vm_compute; reflexivity]. }
  assert (C0 : bpow radix2 (-54) <= val f_em16).
  { rewrite <- val_2pow. apply le_lit; [litfin|litfin|vm_compute; reflexivity]. }
  assert (C9 : val (fofZ 10000000000) <= bpow radix2 34).
  { rewrite <- val_2pow. apply le_lit; [litfin|litfin|vm_compute; reflexivity]. }
  (* quotient comp_tol / obj_scale *)
  set (c := val (mp_comp_tol P)) in *. set (o := val (mp_obj_scale P)) in *.
  assert (Pp : forall e, 0 < bpow radix2 e) by (intros; apply bpow_gt_0).
  assert (Ho : 0 < o) by (pose proof (Pp (-400)%Z); lra).
  assert (Q : bpow radix2 (-454) <= c / o <= bpow radix2 434).
  { split.
    - apply Rle_trans with (bpow radix2 (-54) / bpow radix2 400).
      +        unfold Rdiv. rewrite <- bpow_opp, <- bpow_plus. apply Rle_refl.
      + unfold Rdiv. apply Rmult_le_compat; [apply Rlt_le, Pp|apply Rlt_le, Rinv_0_lt_compat, Pp|lra|].
        apply Rinv_le; lra.
    - apply Rle_trans with (bpow radix2 34 / bpow radix2 (-400)).
      + unfold Rdiv. apply Rmult_le_compat; [pose proof (Pp (-54)%Z); lra|apply Rlt_le, Rinv_0_lt_compat; lra|lra|].
        apply Rinv_le; [apply Pp|lra].
      + unfold Rdiv. rewrite <- bpow_opp, <- bpow_plus. apply Rle_refl. }
  assert (RQ : bpow radix2 (-454) <= rne (c / o) <= bpow radix2 434).
  { rewrite <- (rne_pow2 (-454)), <- (rne_pow2 434) by lia. split; apply rne_mono; tauto. }
  assert (AQ : Rabs (rne (c / o)) < bpow radix2 1024).
  { rewrite Rabs_pos_eq; [|pose proof (Pp (-454)%Z); lra].
    apply Rle_lt_trans with (bpow radix2 434); [tauto|apply bpow_lt; lia]. }
  destruct (fdiv_val (mp_comp_tol P) (mp_obj_scale P) (proj1 Cf) (proj1 Of)) as [QV QF]; [fold o; lra|exact AQ|].
  fold c o in QV.
  set (q := fdiv (mp_comp_tol P) (mp_obj_scale P)) in *.
  assert (Qf : fin q). { split; [apply vb_fdiv; apply Cf || apply Of|]. rewrite QF. apply Cf. }
  destruct (fmin_val _ _ Ef Qf) as [Mf MV].
  set (m := fmin (mp_eps_tol P) q) in *.
  assert (MB : bpow radix2 (-454) <= val m <= bpow radix2 (-3)).
  { rewrite MV. split.
    - apply Rmin_glb; [|rewrite QV; tauto].
      apply Rle_trans with (bpow radix2 (-47)); [apply pow2_le; lia|lra].
    - apply Rle_trans with (val (mp_eps_tol P)); [apply Rmin_l|lra]. }
  assert (D : bpow radix2 (-458) <= val m / 11 <= bpow radix2 (-6)).
  { split.
    - apply Rle_trans with (bpow radix2 (-454) / 11).
      + replace (-458)%Z with (-454 + -4)%Z by lia. rewrite bpow_plus.
        unfold Rdiv. apply Rmult_le_compat_l; [apply Rlt_le, Pp|]. simpl. lra.
      + unfold Rdiv. apply Rmult_le_compat_r; [lra|tauto].
    - apply Rle_trans with (bpow radix2 (-3) / 11).
      + unfold Rdiv. apply Rmult_le_compat_r; [lra|tauto].
      + simpl. lra. }
  assert (RD : bpow radix2 (-458) <= rne (val m / 11) <= bpow radix2 (-6)).
  { rewrite <- (rne_pow2 (-458)), <- (rne_pow2 (-6)) by lia. split; apply rne_mono; tauto. }
  assert (Lf : fin (fadd (fofZ 10) f_one)) by litfin.
  destruct (fdiv_val m (fadd (fofZ 10) f_one) (proj1 Mf) (proj1 Lf)) as [FV FF].
  { rewrite eleven_val. lra. }
  { rewrite eleven_val. rewrite Rabs_pos_eq; [|pose proof (Pp (-458)%Z); lra].
    apply Rle_lt_trans with (bpow radix2 (-6)); [tauto|apply bpow_lt; lia]. }
  rewrite eleven_val in FV.
  split; auto.
  - lra.
  - lra.
  - split; [apply vb_fdiv; [apply Mf|apply Lf]|]. unfold mu_floor. fold q m. rewrite FF. apply Mf.
  - unfold mu_floor. fold q m. rewrite FV. split; [pose proof (Pp (-458)%Z); lra|].
    apply Rle_trans with (bpow radix2 (-6)); [tauto|apply pow2_le; lia].
Qed.

(** --- one update --- *)
Section Upd.
  Variable fpow : b64 -> b64 -> b64.
  Hypothesis Hpow : forall a b, vb (fpow a b) = true.
  Variable P : mu_params.
  Hypothesis HP : facts P.
  Let fl := val (mu_floor P).

  Lemma kmu_val mu : fin mu -> 0 <= val mu ->
    fin (fmul (mp_kappa_mu P) mu) /\ 0 <= val (fmul (mp_kappa_mu P) mu) <= val mu.
  Proof.
    intros Hm H0. destruct HP as [Kf K1 _ _ _ _].
    assert (B : 0 <= rne (val (mp_kappa_mu P) * val mu) <= val mu).
    { split.
      - rewrite <- rne_zero. apply rne_mono. apply Rmult_le_pos; lra.
      - rewrite <- (rne_val mu) at 2 by apply Hm. apply rne_mono.
        rewrite <- (Rmult_1_l (val mu)) at 2. apply Rmult_le_compat_r; lra. }
    destruct (fmul_val (mp_kappa_mu P) mu (proj1 Kf) (proj1 Hm)) as [V F].
    { rewrite Rabs_pos_eq by tauto. apply Rle_lt_trans with (val mu); [tauto|].
      pose proof (val_lt_emax mu (proj1 Hm)) as A. rewrite Rabs_pos_eq in A; auto. }
    split.
    - split; [apply vb_fmul; [apply Kf|apply Hm]|]. rewrite F, (proj2 Kf), (proj2 Hm). reflexivity.
    - rewrite V. exact B.
  Qed.

  Lemma candidate_val mu : fin mu -> 0 <= val mu ->
    fin (mu_candidate fpow P mu) /\ fl <= val (mu_candidate fpow P mu) /\
    (val (mu_candidate fpow P mu) <= val (fmul (mp_kappa_mu P) mu) \/ val (mu_candidate fpow P mu) = fl).
  Proof.
    intros Hm H0. destruct (kmu_val mu Hm H0) as [Kf [Ka Kb]].
    destruct (clip_val _ (fpow mu (mp_theta_mu P)) Kf Ka (Hpow _ _)) as [Cf [Ca Cb]].
    unfold mu_candidate. destruct (fmax_val _ _ Cf (F_f P HP)) as [Mf MV].
    split; auto. rewrite MV. fold fl. split; [apply Rmax_r|].
    unfold Rmax. destruct (Rle_dec _ _); [right; reflexivity|left; exact Cb].
  Qed.

  Lemma candidate_le mu : fin mu -> 0 <= val mu ->
    val (mu_candidate fpow P mu) <= Rmax (val mu) fl.
  Proof.
    intros Hm H0. destruct (candidate_val mu Hm H0) as (_ & _ & [H| ->]); [|apply Rmax_r].
    destruct (kmu_val mu Hm H0) as [_ [_ B]]. eapply Rle_trans; [|apply Rmax_l]. lra.
  Qed.

  Lemma tau_val mu : fin mu -> 0 <= val mu <= bpow radix2 1000 ->
    fin (tau_of P mu) /\ val (mp_tau_min P) <= val (tau_of P mu) <= 1.
  Proof.
    intros Hm [H0 H9].
    assert (B : Rabs (rne (val f_one - val mu)) < bpow radix2 1024).
    { rewrite rne_abs. apply Rle_lt_trans with (rne (bpow radix2 1000)).
      - apply rne_mono. rewrite one_val. apply Rabs_le. split; [lra|].
        apply Rle_trans with (bpow radix2 0); [simpl; lra|apply pow2_le; lia].
      - rewrite rne_pow2 by lia. apply bpow_lt. lia. }
    destruct (fsub_val f_one mu (proj1 one_fin) (proj1 Hm) (proj2 one_fin) (proj2 Hm) B) as [V F].
    assert (Sf : fin (fsub f_one mu)) by (split; [apply vb_fsub; [apply one_fin|apply Hm]|exact F]).
    unfold tau_of. destruct (fmax_val _ _ (F_t P HP) Sf) as [Mf MV]. split; auto.
    rewrite MV. split; [apply Rmax_l|]. apply Rmax_lub; [pose proof (F_t1 P HP); lra|].
    rewrite V, one_val. apply Rle_trans with (rne (bpow radix2 0)); [apply rne_mono; simpl; lra|rewrite rne_pow2 by lia; simpl; lra].
  Qed.

  Lemma tau_lt1 mu : fin mu -> bpow radix2 (-53) <= val mu <= bpow radix2 1000 ->
    val (tau_of P mu) < 1.
  Proof.
    intros Hm [H0 H9].
    assert (Hp : 0 < bpow radix2 (-53)) by apply bpow_gt_0.
    assert (B : Rabs (rne (val f_one - val mu)) < bpow radix2 1024).
    { rewrite rne_abs. apply Rle_lt_trans with (rne (bpow radix2 1000)).
      - apply rne_mono. rewrite one_val. apply Rabs_le. split; [lra|].
        apply Rle_trans with (bpow radix2 0); [simpl; lra|apply pow2_le; lia].
      - rewrite rne_pow2 by lia. apply bpow_lt. lia. }
    destruct (fsub_val f_one mu (proj1 one_fin) (proj1 Hm) (proj2 one_fin) (proj2 Hm) B) as [V F].
    assert (Sf : fin (fsub f_one mu)) by (split; [apply vb_fsub; [apply one_fin|apply Hm]|exact F]).
    unfold tau_of. destruct (fmax_val _ _ (F_t P HP) Sf) as [Mf MV].
    rewrite MV. apply Rmax_lub_lt; [pose proof (F_t1 P HP); lra|].
    rewrite V, one_val.
    set (g := S754_finite false 9007199254740991 (-53)).
    assert (Gf : fin g) by litfin.
    assert (GV : val g = 1 - bpow radix2 (-53)).
    { unfold val, g, SF2R, F2R. simpl. unfold Z.pow_pos. simpl. lra. }
    apply Rle_lt_trans with (val g); [|rewrite GV; lra].
    rewrite <- (rne_val g) by apply Gf. apply rne_mono. rewrite GV. lra.
  Qed.

  (** a reported change really moves mu by more than 2^-54 *)
  Lemma changed mu m t : fin mu -> 0 <= val mu <= bpow radix2 1000 ->
    mu_update fpow P mu = Some (m, t) ->
    m = mu_candidate fpow P mu /\ t = tau_of P m /\ Rabs (val m - val mu) > bpow radix2 (-54).
  Proof.
    intros Hm [H0 H9]. unfold mu_update.
    destruct (flt _ _) eqn:E; [discriminate|]. intros H; inversion H; subst m t; clear H.
    split; auto. split; auto.
    destruct (candidate_val mu Hm H0) as (Cf & C1 & C2). pose proof (candidate_le mu Hm H0) as C3.
    set (m := mu_candidate fpow P mu) in *.
    assert (Cm : 0 <= val m <= bpow radix2 1000).
    { pose proof (F_f1 P HP) as [A B]. fold fl in A, B. split; [lra|].
      eapply Rle_trans; [exact C3|]. apply Rmax_lub; auto.
      eapply Rle_trans; [exact B|apply pow2_le; lia]. }
    assert (AD : Rabs (val m - val mu) <= bpow radix2 1000) by (apply Rabs_le; lra).
    assert (B : Rabs (rne (val m - val mu)) < bpow radix2 1024).
    { rewrite rne_abs. apply Rle_lt_trans with (rne (bpow radix2 1000)); [apply rne_mono; auto|].
      rewrite rne_pow2 by lia. apply bpow_lt. lia. }
    destruct (fsub_val m mu (proj1 Cf) (proj1 Hm) (proj2 Cf) (proj2 Hm) B) as [V F].
    assert (Sf : fin (fabs (fsub m mu))).
    { split; [apply vb_fabs, vb_fsub; [apply Cf|apply Hm]|rewrite fabs_fin; exact F]. }
    assert (Lf : fin f_em16) by litfin.
    apply fin_lt_false in E; auto. rewrite fabs_val, V, rne_abs in E.
    apply Rnot_le_gt. intros Hc.
    assert (rne (Rabs (val m - val mu)) <= bpow radix2 (-54)).
    { rewrite <- (rne_pow2 (-54)) by lia. apply rne_mono. exact Hc. }
    assert (bpow radix2 (-54) < val f_em16).
    { rewrite <- val_2pow. apply fin_lt; [litfin|litfin|vm_compute; reflexivity]. }
    lra.
  Qed.

  Lemma update_ok mu m t : fin mu -> 0 <= val mu <= bpow radix2 1000 ->
    mu_update fpow P mu = Some (m, t) ->
    fin m /\ fin t /\ fl <= val m /\ val m <= Rmax (val mu) fl /\
    (fl <= val mu -> val m < val mu - bpow radix2 (-54)) /\
    (val m <= val (fmul (mp_kappa_mu P) mu) \/ val m = fl) /\
    val (mp_tau_min P) <= val t <= 1 /\ (bpow radix2 (-53) <= val m -> val t < 1).
  Proof.
    intros Hm H0 H. destruct (changed _ _ _ Hm H0 H) as (-> & -> & D).
    destruct (candidate_val mu Hm (proj1 H0)) as (Cf & C1 & C2).
    pose proof (candidate_le mu Hm (proj1 H0)) as C3.
    pose proof (F_f1 P HP) as [A B]. fold fl in A, B.
    assert (Cm : 0 <= val (mu_candidate fpow P mu) <= bpow radix2 1000).
    { split; [lra|]. eapply Rle_trans; [exact C3|]. apply Rmax_lub; [tauto|].
      eapply Rle_trans; [exact B|apply pow2_le; lia]. }
    destruct (tau_val _ Cf Cm) as [Tf T1].
    refine (conj Cf (conj Tf (conj C1 (conj C3 (conj _ (conj C2 (conj T1 _))))))).
    - intros Hge. rewrite Rmax_left in C3 by lra. rewrite Rabs_left1 in D by lra. lra.
    - intros Hge. apply tau_lt1; auto. tauto.
  Qed.

  Lemma mu_ok_fin mu : mu_ok mu = true -> fin mu /\ 0 < val mu <= bpow radix2 10.
  Proof.
    unfold mu_ok. rewrite !andb_true_iff. intros [[V A] B].
    assert (Hx : fin mu).
    { split; auto. destruct mu as [|[|]| |]; try reflexivity; try discriminate. }
    split; auto. split.
    - apply (fin_lt f_zero mu) in A; auto. litfin.
    - apply fin_le in B; auto; [|litfin]. eapply Rle_trans; [exact B|].
      rewrite <- val_2pow. apply le_lit; [litfin|litfin|vm_compute; reflexivity].
  Qed.

  Lemma small1000 x : x <= bpow radix2 10 -> x <= bpow radix2 1000.
  Proof. intros H. eapply Rle_trans; [exact H|apply pow2_le; lia]. Qed.

  Lemma fl10 : fl <= bpow radix2 10.
  Proof. eapply Rle_trans; [apply (F_f1 P HP)|apply pow2_le; lia]. Qed.

  (** every history of updates *)
  Lemma steps_ok mu l : fin mu -> 0 < val mu <= bpow radix2 10 -> mu_steps fpow P mu l ->
    forall m t, In (m, t) l ->
      fin m /\ fin t /\ fl <= val m <= Rmax (val mu) fl /\
      val (mp_tau_min P) <= val t <= 1 /\ (bpow radix2 (-53) <= val m -> val t < 1).
  Proof.
    intros Hm H0 Hs. induction Hs as [|mu m t l Hu Hs IH]; [contradiction|].
    destruct (update_ok _ _ _ Hm (conj (Rlt_le _ _ (proj1 H0)) (small1000 _ (proj2 H0))) Hu)
      as (Mf & Tf & U1 & U2 & U3 & U4 & U5 & U6).
    pose proof (F_f1 P HP) as [A B]. fold fl in A, B. pose proof fl10.
    assert (Hm2 : 0 < val m <= bpow radix2 10).
    { split; [lra|]. eapply Rle_trans; [exact U2|]. apply Rmax_lub; tauto. }
    intros m' t' [E|Hin].
    - inversion E; subst. refine (conj Mf (conj Tf (conj (conj U1 U2) (conj U5 U6)))).
    - destruct (IH Mf Hm2 _ _ Hin) as (I1 & I2 & [I3 I3'] & I4 & I5).
      refine (conj I1 (conj I2 (conj (conj I3 _) (conj I4 I5)))).
      eapply Rle_trans; [exact I3'|]. apply Rmax_lub; [exact U2|apply Rmax_r].
  Qed.

  (** termination *)
  Lemma loop_ends elastic err : forall n mu, fin mu -> fl <= val mu <= bpow radix2 10 ->
    val mu <= INR n * bpow radix2 (-54) ->
    forall fuel k e tau, (n < fuel)%nat -> mu_loop fpow P fuel elastic err k e mu tau <> None.
  Proof.
    pose proof (F_f1 P HP) as [A B]. fold fl in A, B.
    induction n as [|n IH]; intros mu Hm H0 Hn fuel k e tau Hf.
    - simpl in Hn. lra.
    - destruct fuel as [|fuel]; [lia|]. cbn [mu_loop].
      destruct (fle _ _); [|discriminate].
      destruct (mu_update fpow P mu) as [[m t]|] eqn:Hu; [|discriminate].
      destruct (err k) as [e'|]; [|discriminate]. destruct elastic; [discriminate|].
      assert (H1 : 0 <= val mu <= bpow radix2 1000) by (split; [lra|apply small1000; tauto]).
      destruct (update_ok _ _ _ Hm H1 Hu) as (Mf & Tf & U1 & U2 & U3 & _).
      apply IH; auto; [|specialize (U3 (proj1 H0)); rewrite S_INR in Hn; lra|lia].
      split; auto. rewrite Rmax_left in U2 by tauto. lra.
  Qed.

  Lemma loop_ends_any elastic err mu n : fin mu -> 0 < val mu <= bpow radix2 10 ->
    Rmax (val mu) fl <= INR n * bpow radix2 (-54) ->
    forall fuel k e tau, (S n < fuel)%nat -> mu_loop fpow P fuel elastic err k e mu tau <> None.
  Proof.
    intros Hm H0 Hn fuel k e tau Hf.
    pose proof (F_f1 P HP) as [A B]. fold fl in A, B. pose proof fl10.
    destruct (Rle_dec fl (val mu)) as [Hle|Hgt].
    - apply (loop_ends elastic err n); auto; [lra| |lia]. eapply Rle_trans; [apply Rmax_l|exact Hn].
    - destruct fuel as [|fuel]; [lia|]. cbn [mu_loop].
      destruct (fle _ _); [|discriminate].
      destruct (mu_update fpow P mu) as [[m t]|] eqn:Hu; [|discriminate].
      destruct (err k) as [e'|]; [|discriminate]. destruct elastic; [discriminate|].
      assert (H1 : 0 <= val mu <= bpow radix2 1000) by (split; [lra|apply small1000; tauto]).
      destruct (update_ok _ _ _ Hm H1 Hu) as (Mf & Tf & U1 & U2 & _).
      apply (loop_ends false err n); auto; [|lra|lia].
      split; auto. eapply Rle_trans; [exact U2|]. apply Rmax_lub; tauto.
  Qed.
End Upd.

(** float-level restatements *)
Lemma fin_le2 x y : fin x -> fin y -> val x <= val y -> fle x y = true.
Proof. intros. apply fin_le; auto. Qed.
Lemma fin_lt2 x y : fin x -> fin y -> val x < val y -> flt x y = true.
Proof. intros. apply fin_lt; auto. Qed.

Lemma mu_update_ranges fpow P mu m t :
  (forall a b, valid_binary 53 1024 (fpow a b) = true) ->
  mu_options_ok P = true -> mu_ok mu = true -> mu_update fpow P mu = Some (m, t) ->
  fgt m f_zero = true /\ fge m (mu_floor P) = true /\ fle m (fmax mu (mu_floor P)) = true /\
  (fge mu (mu_floor P) = true -> flt m mu = true) /\
  fle (mp_tau_min P) t = true /\ fle t f_one = true /\
  (fge m (f_2pow (-53)) = true -> flt t f_one = true).
Proof.
  intros Hp HO Hm Hu. apply options_facts in HO. destruct (mu_ok_fin _ Hm) as [Mf [M0 M1]].
  assert (H1 : 0 <= val mu <= bpow radix2 1000) by (split; [lra|apply small1000; auto]).
  destruct (update_ok fpow Hp P HO _ _ _ Mf H1 Hu) as (Nf & Tf & U1 & U2 & U3 & U4 & U5 & U6).
  pose proof (F_f1 P HO) as [A B]. pose proof (F_f P HO) as Ff.
  assert (Zf : fin f_zero) by litfin.
  split; [apply fin_lt2; auto; change (val f_zero) with 0; lra|].
  split; [apply fin_le2; auto|].
  split. { destruct (fmax_val mu _ Mf Ff) as [X Y]. apply fin_le2; auto. rewrite Y. auto. }
  split. { intros H. apply fin_le in H; auto. apply fin_lt2; auto. specialize (U3 H).
           pose proof (bpow_gt_0 radix2 (-54)). lra. }
  split; [apply fin_le2; [apply (F_t P HO)|exact Tf|tauto]|].
  split; [apply fin_le2; [exact Tf|apply one_fin|rewrite one_val; tauto]|].
  intros H. apply fin_lt2; [exact Tf|apply one_fin|]. rewrite one_val. apply U6.
  apply fin_le in H; [|litfin|exact Nf]. rewrite val_2pow in H. exact H.
Qed.

Lemma mu_history_ranges fpow P mu l m t :
  (forall a b, valid_binary 53 1024 (fpow a b) = true) ->
  mu_options_ok P = true -> mu_ok mu = true -> mu_steps fpow P mu l -> In (m, t) l ->
  mu_ok m = true /\ fge m (mu_floor P) = true /\ fle m (fmax mu (mu_floor P)) = true /\
  fle (mp_tau_min P) t = true /\ fle t f_one = true /\
  (fge (mu_floor P) (f_2pow (-53)) = true -> flt t f_one = true).
Proof.
  intros Hp HO Hm Hs Hin. pose proof (options_facts P HO) as F.
  destruct (mu_ok_fin _ Hm) as [Mf M].
  destruct (steps_ok fpow Hp P F mu l Mf M Hs m t Hin) as (Nf & Tf & [U1 U2] & [T1 T2] & U5).
  pose proof (F_f1 P F) as [A B]. pose proof (F_f P F) as Ff.
  assert (Zf : fin f_zero) by litfin. assert (Kf : fin (fofZ 1000)) by litfin.
  assert (Mk : val mu <= val (fofZ 1000)).
  { unfold mu_ok in Hm. rewrite !andb_true_iff in Hm. destruct Hm as [_ X]. apply fin_le in X; auto. }
  assert (Fk : val (mu_floor P) <= val (fofZ 1000)).
  { eapply Rle_trans; [exact B|]. rewrite <- val_2pow. apply le_lit; [litfin|litfin|vm_compute; reflexivity]. }
  split.
  { unfold mu_ok. rewrite !andb_true_iff. split; [split|].
    - apply Nf.
    - apply fin_lt2; auto. change (val f_zero) with 0. lra.
    - apply fin_le2; auto. eapply Rle_trans; [exact U2|]. apply Rmax_lub; auto. }
  split; [apply fin_le2; auto|].
  split. { destruct (fmax_val mu _ Mf Ff) as [X Y]. apply fin_le2; auto. rewrite Y. auto. }
  split; [apply fin_le2; [apply (F_t P F)|exact Tf|auto]|].
  split; [apply fin_le2; [exact Tf|apply one_fin|rewrite one_val; auto]|].
  intros H. apply fin_lt2; [exact Tf|apply one_fin|]. rewrite one_val. apply U5.
  apply fin_le in H; [|litfin|exact Ff]. rewrite val_2pow in H. lra.
Qed.

Lemma mu_loop_ends fpow P mu :
  (forall a b, valid_binary 53 1024 (fpow a b) = true) ->
  mu_options_ok P = true -> mu_ok mu = true ->
  exists n, forall fuel elastic err k e tau, (n < fuel)%nat ->
    mu_loop fpow P fuel elastic err k e mu tau <> None.
Proof.
  intros Hp HO Hm. pose proof (options_facts P HO) as F. destruct (mu_ok_fin _ Hm) as [Mf M].
  pose proof (bpow_gt_0 radix2 (-54)) as Hb.
  assert (Hex : exists n, Rmax (val mu) (val (mu_floor P)) / bpow radix2 (-54) < INR n).
  { set (x := Rmax _ _ / _). destruct (archimed x) as [Hx _].
    assert (H0 : 0 < x).
    { apply Rmult_lt_0_compat; [|apply Rinv_0_lt_compat; exact Hb].
      eapply Rlt_le_trans; [apply (proj1 M)|apply Rmax_l]. }
    exists (Z.to_nat (up x)). rewrite INR_IZR_INZ, Z2Nat.id; [lra|].
    apply le_IZR. lra. }
  destruct Hex as [n Hn].
  exists (S n). intros fuel elastic err k e tau Hf.
  apply (loop_ends_any fpow Hp P F elastic err mu n Mf M); auto.
  apply Rlt_le. apply Rmult_lt_reg_r with (/ bpow radix2 (-54)); [apply Rinv_0_lt_compat; auto|].
  rewrite Rmult_assoc, Rinv_r by lra. rewrite Rmult_1_r. exact Hn.
Qed.

(** the loop only produces results of update sequences *)
Lemma mu_loop_result fpow P : forall fuel elastic err k e mu tau r,
  mu_loop fpow P fuel elastic err k e mu tau = Some r ->
  exists l, mu_steps fpow P mu l /\ mr_n r = (k + length l)%nat /\
    (mr_mu r, mr_tau r) = last l (mu, tau).
Proof.
  induction fuel as [|fuel IH]; intros elastic err k e mu tau r; cbn [mu_loop]; [discriminate|].
  assert (Z : forall b, exists l, mu_steps fpow P mu l /\ mr_n (mk_mu_res mu tau k b) = (k + length l)%nat /\
    (mu, tau) = last l (mu, tau)).
  { intros b. exists []. split; [constructor|]. split; simpl; auto. }
  destruct (fle _ _); [|intros H; inversion H; subst; apply (Z false)].
  destruct (mu_update fpow P mu) as [[m t]|] eqn:Hu; [|intros H; inversion H; subst; apply (Z false)].
  assert (Z1 : forall b, exists l, mu_steps fpow P mu l /\ mr_n (mk_mu_res m t (S k) b) = (k + length l)%nat /\
    (m, t) = last l (mu, tau)).
  { intros b. exists [(m, t)]. split; [econstructor; eauto; constructor|]. split; simpl; auto. lia. }
  destruct (err k) as [e'|]; [|intros H; inversion H; subst; apply (Z1 true)].
  destruct elastic; [intros H; inversion H; subst; apply (Z1 false)|].
  intros H. destruct (IH _ _ _ _ _ _ _ H) as (l & L1 & L2 & L3).
  exists ((m, t) :: l). split; [econstructor; eauto|]. split; [simpl; lia|].
  rewrite L3. destruct l as [|x l]; [reflexivity|].
  change (last ((m, t) :: x :: l) (mu, tau)) with (last (x :: l) (mu, tau)).
  clear. revert x. induction l as [|y l IHl]; intros x; [reflexivity|].
  change (last (y :: l) (m, t) = last (y :: l) (mu, tau)). apply IHl.
Qed.
