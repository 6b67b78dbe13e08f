(** Lemmas for C08 in binary64: the fraction-to-boundary kernel with rounding, overflow and NaN. *)
From Flocq Require Import Core BinarySingleNaN Relative.
From Coq Require Import List Bool ZArith Lia Reals Lra.
From Verif Require Import FloatBase FloatFacts FloatBridge MuModel VecModel RegModel RegSpec RegProofs RegProofs3 MuProofs RelaxProofs ErrFloatProofs VecProofs FtbSpec.
Import ListNotations.
Open Scope R_scope.

(** an entry that takes part: selected by the pattern and with a direction that is not >= 0 *)
Definition counts (e : b64 * b64 * b64) : bool := let '(x, d, p) := e in negb (fle f_zero d) && negb (feq p f_zero).
(** the step to the boundary of one entry, as computed *)
Definition quotient (tau : b64) (e : b64 * b64 * b64) : b64 := let '(x, d, p) := e in fdiv (fmul (fopp tau) x) d.

Lemma step_unfold tau a e : ftb_step Far tau a e = if counts e then (if flt (quotient tau e) a then quotient tau e else a) else a.
Proof.
  destruct e as [[x d] p]. unfold ftb_step, counts, quotient. change (ale Far) with fle. change (azero Far) with f_zero. change (aeq Far) with feq.
  change (alt Far) with flt. change (adiv Far) with fdiv. change (amul Far) with fmul. change (aopp Far) with fopp.
  destruct (fle f_zero d); [reflexivity|]. destruct (feq p f_zero); [reflexivity|]. reflexivity.
Qed.
Lemma flt_not_nan x y : flt x y = true -> is_nan x = false /\ is_nan y = false.
Proof. intro H. destruct (is_nan x) eqn:A; [rewrite flt_nan_l in H by exact A; discriminate|]. destruct (is_nan y) eqn:B; [rewrite flt_nan_r in H by exact B; discriminate|]. auto. Qed.

Lemma fold_facts tau l : forall a, is_nan a = false ->
  (forall e, In e l -> counts e = true -> is_nan (quotient tau e) = true \/ fle f_zero (quotient tau e) = true) ->
  fle f_zero a = true ->
  let r := fold_left (ftb_step Far tau) l a in
  fle f_zero r = true /\ fle r a = true /\
  (forall e, In e l -> counts e = true -> is_nan (quotient tau e) = false -> fle r (quotient tau e) = true) /\
  (r = a \/ exists e, In e l /\ counts e = true /\ r = quotient tau e).
Proof.
  induction l as [|e l IH]; intros a Na H Pa r; unfold r; clear r; cbn [fold_left].
  - split; [exact Pa|]. split; [apply fle_refl, Na|]. split; [intros ? []|auto].
  - rewrite step_unfold. destruct (counts e) eqn:C.
    + destruct (flt (quotient tau e) a) eqn:L.
      * destruct (flt_not_nan _ _ L) as [Nq _].
        destruct (H e (or_introl eq_refl) C) as [B|B]; [congruence|].
        destruct (IH (quotient tau e) Nq (fun y Hy => H y (or_intror Hy)) B) as (I1 & I2 & I3 & I4).
        split; [exact I1|]. split; [eapply fle_trans; [exact I2|apply flt_fle; exact L]|]. split.
        -- intros y [<-|Hy] Cy Ny; [exact I2|auto].
        -- right. destruct I4 as [I4|(y & Hy & Cy & E)]; [exists e|exists y]; cbn [In]; auto.
      * destruct (IH a Na (fun y Hy => H y (or_intror Hy)) Pa) as (I1 & I2 & I3 & I4).
        split; [exact I1|]. split; [exact I2|]. split.
        -- intros y [<-|Hy] Cy Ny; [|auto]. eapply fle_trans; [exact I2|]. apply flt_fle_false; assumption.
        -- destruct I4 as [I4|(y & Hy & Cy & E)]; [auto|]. right. exists y. cbn [In]; auto.
    + destruct (IH a Na (fun y Hy => H y (or_intror Hy)) Pa) as (I1 & I2 & I3 & I4).
      split; [exact I1|]. split; [exact I2|]. split.
      * intros y [<-|Hy] Cy Ny; [congruence|auto].
      * destruct I4 as [I4|(y & Hy & Cy & E)]; [auto|]. right. exists y. cbn [In]; auto.
Qed.

(** signs *)
Lemma fdiv_opp x y : fdiv (fopp x) (fopp y) = fdiv x y.
Proof. destruct x as [s|s| |s m e], y as [s'|s'| |s' m' e']; simpl; rewrite ?xorb_negb_negb; auto; destruct s, s'; reflexivity. Qed.
Lemma fdiv_nonneg x y : nonneg x -> nonneg y -> y <> f_zero -> is_nan (fdiv x y) = true \/ nonneg (fdiv x y).
Proof.
  intros [Vx Nx] [Vy Ny] NZ.
  destruct x as [s|s| |s m e]; try contradiction; subst s;
    destruct y as [s|s| |s m' e']; try contradiction; subst s; try congruence; auto; try (right; split; reflexivity).
  right. set (X := S754_finite false m e) in *. set (Y := S754_finite false m' e') in *. split; [apply vb_fdiv; assumption|].
  assert (NY : B2R (toB Y Vy) <> 0). { rewrite val_toB. unfold Y, val. cbn. apply Rgt_not_eq, F2R_gt_0. cbn. lia. }
  rewrite <- (B2SF_toB X Vx), <- (B2SF_toB Y Vy), fdiv_B.
  pose proof (Bdiv_correct prec emax Hprec53 Hmax53 mode_NE (toB X Vx) (toB Y Vy) NY) as C.
  destruct (Rlt_bool _ _).
  - destruct C as [_ [C2 C3]].
    assert (F : is_finite (Bdiv mode_NE (toB X Vx) (toB Y Vy)) = true) by (rewrite C2, !fin_toB; reflexivity). clear C2.
    destruct (Bdiv mode_NE (toB X Vx) (toB Y Vy)) as [s|s| |s mm ee Hb]; try discriminate; exact (C3 eq_refl).
  - rewrite C. reflexivity.
Qed.
Lemma nonneg_ge x : nonneg x -> fle f_zero x = true.
Proof. intros [_ H]. destruct x as [s|s| |s m e]; try contradiction; subst; reflexivity. Qed.
(** a direction that counts is NaN or the opposite of a positive number *)
Lemma neg_dir d : vb d = true -> fle f_zero d = false -> d = S754_nan \/ exists d', d = fopp d' /\ nonneg d' /\ d' <> f_zero.
Proof.
  intros V H. destruct d as [s|s| |s m e]; auto.
  - destruct s; discriminate.
  - destruct s; [|discriminate]. right. exists (S754_infinity false). repeat split. discriminate.
  - destruct s; [|discriminate]. right. exists (S754_finite false m e). repeat split; try discriminate. exact V.
Qed.
Lemma quotient_ok tau x d p : posfin tau -> vb x = true -> vb d = true -> (is_nan x = true \/ nonneg x) -> counts (x, d, p) = true ->
  is_nan (quotient tau (x, d, p)) = true \/ fle f_zero (quotient tau (x, d, p)) = true.
Proof.
  intros Pt Vx Vd Hx C. unfold counts in C. apply andb_prop in C as [C _]. apply negb_true_iff in C. unfold quotient.
  destruct (neg_dir d Vd C) as [->|(d' & -> & Pd & Nz)].
  - left. destruct (fmul (fopp tau) x); reflexivity.
  - destruct Hx as [Hx|Hx].
    + left. rewrite (nan_eq _ Hx). destruct tau as [s|s| |s m e]; destruct d'; reflexivity.
    + rewrite fmul_opp, fdiv_opp. destruct (fdiv_nonneg (fmul tau x) d' (fmul_nonneg tau x Pt Hx) Pd Nz) as [A|A]; [auto|right; apply nonneg_ge, A].
Qed.

(** relative error of a rounding above the smallest normal number *)
Lemma rne_up x : bpow radix2 (-1022) <= x -> rne x <= x * (1 + bpow radix2 (-53)).
Proof.
  intro H. assert (P : 0 < x) by (eapply Rlt_le_trans; [apply (bpow_gt_0 radix2 (-1022))|exact H]).
  pose proof (relative_error_N_FLT radix2 (3 - emax - prec) prec eq_refl (fun n => negb (Z.even n)) x) as E.
  change (3 - emax - prec + prec - 1)%Z with (-1022)%Z in E. rewrite (Rabs_pos_eq x) in E by lra. specialize (E H).
  change (FLT_exp (3 - emax - prec) prec) with fe64 in E. change (- prec + 1)%Z with (-52)%Z in E.
  replace (/ 2 * bpow radix2 (-52)) with (bpow radix2 (-53)) in E by (cbn; lra).
  apply Rabs_le_inv in E. unfold rne. set (r := Generic_fmt.round _ _ _ _) in E. set (r' := Generic_fmt.round _ _ _ _). change r' with r. nra.
Qed.

Lemma rne_above x : bpow radix2 (-1022) < rne x -> bpow radix2 (-1022) <= x.
Proof. intro H. destruct (Rle_or_lt (bpow radix2 (-1022)) x) as [L|L]; [exact L|]. apply Rlt_le, rne_mono in L. rewrite rne_pow2 in L by lia. lra. Qed.
Lemma f_min_val : val f_min = bpow radix2 (-1022).
Proof. unfold f_min, val. cbn [SF2R cond_Zopp]. change 4503599627370496%Z with (2 ^ 52)%Z. unfold F2R. cbn [Fnum Fexp].
  change (2 ^ 52)%Z with (Zpower radix2 52). rewrite IZR_Zpower by lia. rewrite <- bpow_plus. reflexivity. Qed.
(** one entry: the boundary is not reached in exact arithmetic, rounding included *)
Lemma entry_interior tau x d r : posfin tau -> posfin x -> vb d = true -> finite d = true -> flt d f_zero = true ->
  val tau <= 1 - bpow radix2 (-50) ->
  flt f_min (fmul tau x) = true -> flt f_min (fdiv (fmul (fopp tau) x) d) = true ->
  vb r = true -> finite r = true -> fle f_zero r = true -> fle r f_one = true -> fle r (fdiv (fmul (fopp tau) x) d) = true ->
  0 < val x + val r * val d.
Proof.
  intros Pt Px Vd Fd Ld Ht H1 H2 Vr Fr R0 R1 Rq.
  pose proof (posfin_val _ Pt) as T0. pose proof (posfin_val _ Px) as X0.
  pose proof (posfin_fin _ Pt) as Ft. pose proof (posfin_fin _ Px) as Fx. pose proof (proj1 Pt) as Vt. pose proof (proj1 Px) as Vx.
  assert (D0 : val d < 0). { rewrite flt_val in Ld by (auto; reflexivity). destruct (Rlt_bool_spec (val d) (val f_zero)) as [L|L]; [exact L|discriminate]. }
  rewrite fle_val in R0 by (auto; reflexivity). rewrite fle_val in R1 by (auto; reflexivity).
  destruct (Rle_bool_spec (val f_zero) (val r)) as [A0|]; [|discriminate]. destruct (Rle_bool_spec (val r) (val f_one)) as [A1|]; [|discriminate].
  change (val f_zero) with 0 in A0. rewrite val_one in A1. clear R0 R1.
  set (u := bpow radix2 (-53)) in *. assert (U8 : bpow radix2 (-50) = 8 * u) by (unfold u; cbn; lra). rewrite U8 in Ht.
  assert (U0 : 0 < u) by apply bpow_gt_0. assert (U1 : u <= / 8) by (unfold u; cbn; lra).
  (* the product *)
  assert (PB : Rabs (rne (val tau * val x)) < bpow radix2 emax).
  { rewrite rne_abs, Rabs_pos_eq by nra. eapply Rle_lt_trans; [apply rne_mono with (y := val x); nra|].
    rewrite rne_val by assumption. rewrite <- (Rabs_pos_eq (val x)) by lra. apply val_lt_emax; assumption. }
  destruct (fmul_val tau x Vt Vx PB) as [Ep Fp]. rewrite Ft, Fx in Fp. simpl in Fp.
  pose proof (vb_fmul tau x Vt Vx) as Vp.
  rewrite flt_val in H1 by (auto; reflexivity). destruct (Rlt_bool_spec (val f_min) (val (fmul tau x))) as [L1|]; [|discriminate]. clear H1.
  rewrite f_min_val, Ep in L1. pose proof (rne_up _ (rne_above _ L1)) as Up. rewrite <- Ep in Up, L1. fold u in Up.
  set (P := fmul tau x) in *. assert (P0 : 0 < val P) by (eapply Rlt_trans; [apply (bpow_gt_0 radix2 (-1022))|exact L1]).
  (* the quotient *)
  rewrite fmul_opp in H2, Rq. fold P in H2, Rq.
  assert (EO : fdiv (fopp P) d = fdiv P (fopp d)). { rewrite <- (fdiv_opp P (fopp d)). f_equal. destruct d; simpl; rewrite ?negb_involutive; reflexivity. }
  rewrite EO in H2, Rq. clear EO. set (D := fopp d) in *.
  assert (VD : vb D = true) by (unfold D; destruct d; exact Vd).
  assert (ED : val D = - val d) by (unfold D; apply fopp_val).
  assert (D1 : 0 < val D) by lra.
  assert (KEY : val r * val D <= val P * (1 + u)).
  { destruct (Rlt_or_le (Rabs (rne (val P / val D))) (bpow radix2 emax)) as [B|B].
    - destruct (fdiv_val P D Vp VD ltac:(lra) B) as [Eq Fq]. rewrite Fp in Fq. pose proof (vb_fdiv P D Vp VD) as Vq.
      rewrite flt_val in H2 by (auto; reflexivity). destruct (Rlt_bool_spec (val f_min) (val (fdiv P D))) as [L2|]; [|discriminate].
      rewrite f_min_val, Eq in L2. pose proof (rne_up _ (rne_above _ L2)) as Uq. fold u in Uq.
      rewrite fle_val in Rq by auto. destruct (Rle_bool_spec (val r) (val (fdiv P D))) as [L3|]; [|discriminate]. rewrite Eq in L3.
      assert (E : val P / val D * val D = val P) by (field; lra). nra.
    - assert (G : 1 < val P / val D).
      { apply Rnot_le_lt. intro G. assert (N : 0 <= val P / val D) by (apply Rlt_le, Rdiv_lt_0_compat; lra).
        rewrite rne_abs, Rabs_pos_eq in B by exact N. apply rne_mono in G. change 1 with (bpow radix2 0) in G. rewrite rne_pow2 in G by lia.
        assert (bpow radix2 0 < bpow radix2 emax) by (apply bpow_lt; reflexivity). lra. }
      assert (E : val P / val D * val D = val P) by (field; lra). nra. }
  assert (K2 : val P * (1 + u) <= val tau * val x * (1 + u) * (1 + u)) by nra.
  assert (K3 : val tau * ((1 + u) * (1 + u)) < 1) by nra.
  rewrite ED in KEY. nra.
Qed.

Lemma entry_app L1 L2 x d p : entry_of (L1 ++ L2) x d p <-> entry_of L1 x d p \/ entry_of L2 x d p.
Proof.
  split.
  - intros (xs & ds & ps & i & H & R). apply in_app_or in H as [H|H]; [left|right]; exists xs, ds, ps, i; auto.
  - intros [(xs & ds & ps & i & H & R)|(xs & ds & ps & i & H & R)]; exists xs, ds, ps, i; split; auto; apply in_or_app; auto.
Qed.
Lemma stored_app L1 L2 : stored_ok (L1 ++ L2) <-> stored_ok L1 /\ stored_ok L2.
Proof.
  split.
  - intro H. split; intros x d p E; apply (H x d p), entry_app; auto.
  - intros [H1 H2] x d p E. apply entry_app in E as [E|E]; eauto.
Qed.
Lemma one_ok r : fle r f_one = true -> is_nan r = false.
Proof. intro H. destruct (is_nan r) eqn:A; [|reflexivity]. rewrite (nan_eq _ A) in H. discriminate. Qed.

Lemma kernel_best tau xs ds ps r : posfin tau -> stored_ok [(xs, ds, ps)] -> ftb_w_pattern Far xs ds tau ps = Some r -> best_step tau [(xs, ds, ps)] r.
Proof.
  intros Pt Ok H. unfold ftb_w_pattern in H. change (car Far) with b64 in *. destruct (zip3 xs ds ps) as [l|] eqn:Z; [|discriminate].
  injection H as <-. change (aone Far) with f_one. pose proof (zip3_nth _ _ _ _ Z) as N.
  assert (IN : forall x d p, In (x, d, p) l <-> entry_of [(xs, ds, ps)] x d p).
  { intros x d p. split.
    - intro H. apply In_nth_error in H as [i H]. apply N in H. exists xs, ds, ps, i. split; [left; reflexivity|exact H].
    - intros (xs' & ds' & ps' & i & [E|[]] & R). injection E as <- <- <-. apply N in R. eapply nth_error_In. exact R. }
  assert (CT : forall x d p, counts (x, d, p) = true <-> feq p f_zero = false /\ fle f_zero d = false).
  { intros x d p. unfold counts. rewrite andb_true_iff, !negb_true_iff. tauto. }
  destruct (fold_facts tau l f_one eq_refl) as (A & B & C & D).
  - intros [[x d] p] Hin Hc. apply IN in Hin. destruct (Ok _ _ _ Hin) as (V1 & V2 & V3). apply quotient_ok; auto.
  - reflexivity.
  - split; [exact A|]. split; [exact B|]. split.
    + intros x d p E1 E2 E3 E4. apply (C (x, d, p)); [apply IN; exact E1|apply CT; auto|exact E4].
    + destruct D as [D|([[x d] p] & D1 & D2 & D3)]; [auto|]. right. exists x, d, p. apply IN in D1. apply CT in D2 as [D2 D4]. auto.
Qed.

Lemma best_min tau L1 L2 a b : best_step tau L1 a -> best_step tau L2 b -> best_step tau (L1 ++ L2) (fmin a b).
Proof.
  intros (A1 & A2 & A3 & A4) (B1 & B2 & B3 & B4). pose proof (one_ok _ A2) as Na. pose proof (one_ok _ B2) as Nb.
  unfold fmin. rewrite Na, Nb. destruct (flt b a) eqn:L.
  - split; [exact B1|]. split; [exact B2|]. split.
    + intros x d p E1 E2 E3 E4. apply entry_app in E1 as [E1|E1]; [|eauto]. eapply fle_trans; [apply flt_fle, L|eauto].
    + destruct B4 as [B4|(x & d & p & E & R)]; [auto|]. right. exists x, d, p. rewrite entry_app. auto.
  - assert (L' : fle a b = true) by (apply flt_fle_false; assumption). split; [exact A1|]. split; [exact A2|]. split.
    + intros x d p E1 E2 E3 E4. apply entry_app in E1 as [E1|E1]; [eauto|]. eapply fle_trans; [exact L'|eauto].
    + destruct A4 as [A4|(x & d & p & E & R)]; [auto|]. right. exists x, d, p. rewrite entry_app. auto.
Qed.
Lemma min_ten a : fle a f_one = true -> fmin f_10 a = a.
Proof. intro H. unfold fmin. rewrite (one_ok _ H). change (is_nan f_10) with false. cbv iota. rewrite (fle_flt_trans a f_one f_10 H eq_refl). reflexivity. Qed.

Lemma local_best tau it dir p a b : posfin tau -> stored_ok (slack_vectors (it, dir, p) ++ multiplier_vectors (it, dir, p)) ->
  ftb_local_pair Far f_10 it dir p tau = Some (a, b) ->
  best_step tau (slack_vectors (it, dir, p)) a /\ best_step tau (multiplier_vectors (it, dir, p)) b.
Proof.
  intros Pt Ok H. apply stored_app in Ok as [Os Om]. unfold slack_vectors, multiplier_vectors in *.
  unfold ftb_local_pair in H. change (afmin Far) with fmin in H.
  destruct (ftb_w_pattern Far (c_sxl it) _ _ _) as [a1|] eqn:E1; [|discriminate].
  destruct (ftb_w_pattern Far (c_sxu it) _ _ _) as [a2|] eqn:E2; [|discriminate].
  destruct (ftb_w_pattern Far (c_sdl it) _ _ _) as [a3|] eqn:E3; [|discriminate].
  destruct (ftb_w_pattern Far (c_sdu it) _ _ _) as [a4|] eqn:E4; [|discriminate].
  destruct (ftb_w_pattern Far (c_zl it) _ _ _) as [b1|] eqn:F1; [|discriminate].
  destruct (ftb_w_pattern Far (c_zu it) _ _ _) as [b2|] eqn:F2; [|discriminate].
  destruct (ftb_w_pattern Far (c_vl it) _ _ _) as [b3|] eqn:F3; [|discriminate].
  destruct (ftb_w_pattern Far (c_vu it) _ _ _) as [b4|] eqn:F4; [|discriminate].
  injection H as <- <-.
  assert (G : forall t1 t2 t3 t4 c1 c2 c3 c4,
     stored_ok [t1; t2; t3; t4] ->
     (stored_ok [t1] -> best_step tau [t1] c1) -> (stored_ok [t2] -> best_step tau [t2] c2) ->
     (stored_ok [t3] -> best_step tau [t3] c3) -> (stored_ok [t4] -> best_step tau [t4] c4) ->
     best_step tau [t1; t2; t3; t4] (fmin (fmin (fmin (fmin f_10 c1) c2) c3) c4)).
  { intros t1 t2 t3 t4 c1 c2 c3 c4 O H1 H2 H3 H4.
    change [t1; t2; t3; t4] with ((([t1] ++ [t2]) ++ [t3]) ++ [t4]) in *.
    apply stored_app in O as [O O4]. apply stored_app in O as [O O3]. apply stored_app in O as [O1 O2].
    rewrite (min_ten c1) by (apply (H1 O1)). repeat apply best_min; auto. }
  split; apply G; auto; intro O; eapply kernel_best; eauto.
Qed.

Lemma all_best tau ranks ap ad : posfin tau -> stored_ok (flat_map slack_vectors ranks ++ flat_map multiplier_vectors ranks) ->
  ftb_all Far f_10 tau ranks = Some (ap, ad) ->
  best_step tau (flat_map slack_vectors ranks) ap /\ best_step tau (flat_map multiplier_vectors ranks) ad.
Proof.
  intros Pt Ok H. unfold ftb_all in H. destruct (all_some _) as [[|[a b] rest]|] eqn:E; try discriminate.
  injection H as <- <-. apply all_some_map in E. inversion E as [|r0 ? rs ? Hr0 Hrs]; subst. clear E.
  apply stored_app in Ok as [Os Om]. cbn [flat_map] in *. apply stored_app in Os as [Os Oss]. apply stored_app in Om as [Om Omm].
  destruct r0 as [[it dir] p]. cbn [fst snd] in Hr0.
  destruct (local_best tau it dir p a b Pt (proj2 (stored_app _ _) (conj Os Om)) Hr0) as [Ba Bb]. clear Hr0 Os Om.
  unfold mpi_min. change (afmin Far) with fmin.
  revert Ba Bb Oss Omm. generalize (slack_vectors (it, dir, p)), (multiplier_vectors (it, dir, p)). revert a b.
  induction Hrs as [|[[i0 d0] p0] [a0 b0] rs rest H H2 IH]; intros a b S M Ba Bb Oss Omm; cbn [flat_map map fold_left fst snd] in *.
  - rewrite !app_nil_r. auto.
  - apply stored_app in Oss as [O1 O2]. apply stored_app in Omm as [O3 O4].
    destruct (local_best tau i0 d0 p0 a0 b0 Pt (proj2 (stored_app _ _) (conj O1 O3)) H) as [Ca Cb].
    rewrite !app_assoc. apply IH; auto; apply best_min; auto.
Qed.

Lemma best_inside tau L r : posfin tau -> fle tau (S754_finite false 9007199254740984 (-53)) = true -> best_step tau L r -> vb r = true ->
  forall x d p, entry_of L x d p -> feq p f_zero = false -> posfin x -> vb d = true -> finite d = true ->
    (flt d f_zero = true -> no_underflow tau x d) -> strictly_inside x d r.
Proof.
  intros Pt Ht (B1 & B2 & B3 & _) Vr x d p E Ep Px Vd Fd Nu. unfold strictly_inside.
  assert (Fr : finite r = true). { destruct r as [s|s| |s m e]; try reflexivity; try discriminate. destruct s; discriminate. }
  assert (R0 : 0 <= val r). { rewrite fle_val in B1 by (auto; reflexivity). destruct (Rle_bool_spec (val f_zero) (val r)); [assumption|discriminate]. }
  destruct (fle f_zero d) eqn:Ld.
  - rewrite fle_val in Ld by (auto; reflexivity). destruct (Rle_bool_spec (val f_zero) (val d)) as [D0|]; [|discriminate].
    change (val f_zero) with 0 in D0. pose proof (posfin_val _ Px). nra.
  - assert (Ld' : flt d f_zero = true).
    { rewrite fle_val in Ld by (auto; reflexivity). rewrite flt_val by (auto; reflexivity). apply Rlt_bool_true.
      destruct (Rle_bool_spec (val f_zero) (val d)); [discriminate|assumption]. }
    destruct (Nu Ld') as [U1 U2]. apply (entry_interior tau x d r); auto.
    + rewrite fle_val in Ht by (try apply Pt; try (apply posfin_fin, Pt); reflexivity).
      destruct (Rle_bool_spec (val tau) (val (S754_finite false 9007199254740984 (-53)))) as [T|]; [|discriminate].
      eapply Rle_trans; [exact T|]. unfold val. cbn [SF2R cond_Zopp]. unfold F2R. cbn [Fnum Fexp].
      change (bpow radix2 (-53)) with (/ 9007199254740992). change (bpow radix2 (-50)) with (/ 1125899906842624). cbn [cond_Zopp]. lra.
    + apply (B3 x d p); auto. destruct (flt_not_nan _ _ U2) as [_ U3]. exact U3.
Qed.

Lemma best_valid tau L r : posfin tau -> stored_ok L -> best_step tau L r -> vb r = true.
Proof.
  intros Pt Ok (_ & _ & _ & [->|(x & d & p & E & _ & _ & ->)]); [reflexivity|]. destruct (Ok _ _ _ E) as (V1 & V2 & _).
  unfold entry_step. apply vb_fdiv; [|exact V2]. apply vb_fmul; [|exact V1]. destruct Pt as [V _]. destruct tau; exact V.
Qed.
