(** Lemmas for C83: the one-norm of the infeasibility, exact and in binary64. *)
From Flocq Require Import Core BinarySingleNaN Plus_error.
From Coq Require Import List Bool Arith ZArith QArith Qabs Qminmax Lia Lqa Reals Lra.
From Verif Require Import FloatBase FloatFacts FloatBridge MuModel VecModel RegSpec MuProofs RelaxProofs ErrModel ErrSpec ErrProofs ErrFloatProofs ThetaSpec.
Import ListNotations.
Open Scope Q_scope.

(** exact arithmetic *)
Lemma sum_abs_map {A} (f g : A -> Q) l : (forall a, Qabs (f a) == Qabs (g a)) -> sum_abs (map f l) == sum_abs (map g l).
Proof. intro H. induction l as [|a l IH]; cbn [map sum_abs]; [reflexivity|]. rewrite H, IH. reflexivity. Qed.
Lemma theta_total D E : theta Qar D E == total D E.
Proof.
  unfold theta, total. cbn [aadd azero Qar]. rewrite !one_norm_spec, Qplus_0_l.
  rewrite (sum_abs_map (ryc1 Qar) (fun e => e_c Qar e - e_rhs Qar e)), (sum_abs_map (ryd1 Qar) (fun d => d_val Qar d - d_it Qar d)).
  - reflexivity.
  - intro d. unfold ryd1. cbn [asub Qar]. rewrite Qabs_Qminus. reflexivity.
  - intro e. unfold ryc1. cbn [asub Qar]. rewrite Qabs_Qminus. reflexivity.
Qed.
Lemma sum_abs_in {A} (f : A -> Q) l a : In a l -> Qabs (f a) <= sum_abs (map f l).
Proof.
  induction l as [|x l IH]; intros []; cbn [map sum_abs].
  - subst. pose proof (sum_abs_nonneg (map f l)). Lqa.lra.
  - specialize (IH H). pose proof (Qabs_nonneg (f x)). Lqa.lra.
Qed.
Lemma sum_abs_le {A} (f : A -> Q) l t : (forall a, In a l -> Qabs (f a) <= t) -> sum_abs (map f l) <= inject_Z (Z.of_nat (length l)) * t.
Proof.
  induction l as [|x l IH]; intro H; cbn [map sum_abs length].
  - change (inject_Z (Z.of_nat 0)) with 0. Lqa.lra.
  - rewrite Nat2Z.inj_succ. unfold Z.succ. rewrite inject_Z_plus. change (inject_Z 1) with 1.
    pose proof (H x (or_introl eq_refl)). assert (I := IH (fun a Ha => H a (or_intror Ha))). Lqa.lra.
Qed.
Lemma total_within D E : within (total D E) D E.
Proof.
  unfold total. split.
  - intros e He. pose proof (sum_abs_in (fun e => e_c Qar e - e_rhs Qar e) E e He).
    pose proof (sum_abs_nonneg (map (fun d => d_val Qar d - d_it Qar d) D)). cbn beta in *. Lqa.lra.
  - intros d Hd. pose proof (sum_abs_in (fun d => d_val Qar d - d_it Qar d) D d Hd).
    pose proof (sum_abs_nonneg (map (fun e => e_c Qar e - e_rhs Qar e) E)). cbn beta in *. Lqa.lra.
Qed.
Lemma within_total t D E : within t D E -> total D E <= inject_Z (Z.of_nat (length E + length D)) * t.
Proof.
  intros [H1 H2]. unfold total. rewrite Nat2Z.inj_add, inject_Z_plus.
  pose proof (sum_abs_le (fun e => e_c Qar e - e_rhs Qar e) E t H1). pose proof (sum_abs_le (fun d => d_val Qar d - d_it Qar d) D t H2). Lqa.lra.
Qed.
Lemma Qabs_zero x : Qabs x <= 0 -> x == 0.
Proof. intro H. apply Qabs_Qle_condition in H. Lqa.lra. Qed.
Lemma within_zero D E : within 0 D E <-> holds D E.
Proof.
  split; intros [H1 H2]; split.
  - intros e He. pose proof (Qabs_zero _ (H1 e He)). Lqa.lra.
  - intros d Hd. pose proof (Qabs_zero _ (H2 d Hd)). Lqa.lra.
  - intros e He. rewrite (H1 e He). unfold Qminus. rewrite Qplus_opp_r. cbn. Lqa.lra.
  - intros d Hd. rewrite (H2 d Hd). unfold Qminus. rewrite Qplus_opp_r. cbn. Lqa.lra.
Qed.
Lemma feas_within D E t : 0 <= t -> (nlp_feas Qar D E <= t <-> within t D E).
Proof.
  intro P. unfold nlp_feas. cbn [afmax azero Qar].
  rewrite !Q.max_lub_iff, (inf_norm_map_le (ryc1 Qar)), (inf_norm_map_le (ryd1 Qar)) by exact P. unfold within, ryc1, ryd1. cbn [asub Qar]. split.
  - intros [[_ H1] H2]. split; intros a Ha; rewrite Qabs_Qminus; auto.
  - intros [H1 H2]. split; [split; [exact P|]|]; intros a Ha; rewrite Qabs_Qminus; auto.
Qed.
Lemma feas_nonneg D E : 0 <= nlp_feas Qar D E.
Proof. unfold nlp_feas. cbn [afmax azero Qar]. eapply Qle_trans; [|apply Q.le_max_l]. apply Q.le_max_l. Qed.

(** binary64 *)
Close Scope Q_scope.
Open Scope R_scope.
Lemma nonneg_nn x : nonneg x -> is_nan x = false.
Proof. intros [V H]. destruct x; auto. contradiction. Qed.
Lemma nonneg_fabs x : vb x = true -> is_nan x = false -> nonneg (fabs x).
Proof. intros V N. split; [apply vb_fabs; exact V|]. destruct x; try discriminate; reflexivity. Qed.
Lemma nonneg_fadd x y : nonneg x -> nonneg y -> nonneg (fadd x y).
Proof.
  intros Hx Hy. split; [apply vb_fadd; [apply Hx|apply Hy]|].
  destruct (nonneg_cases x Hx) as [->|(Fx & Sx & Px)].
  { destruct Hy as [_ Hy]. destruct y as [s|s| |s m e]; try contradiction; subst; reflexivity. }
  destruct (nonneg_cases y Hy) as [->|(Fy & Sy & Py)].
  { destruct Hx as [_ Hx]. destruct x as [s|s| |s m e]; try contradiction; subst; reflexivity. }
  destruct x as [s|s| |s m e]; try discriminate; cbn in Sx; subst s.
  { destruct y as [s|s| |s m e]; try discriminate; cbn in Sy; subst s; reflexivity. }
  destruct y as [s|s| |s' m' e']; try discriminate; cbn in Sy; subst s || subst s'; [reflexivity|].
  set (x := S754_finite false m e) in *. set (y := S754_finite false m' e') in *.
  destruct (fadd_case x y (proj1 Hx) (proj1 Hy) Fx Fy) as [(F & E & L)|(E & S)].
  2: { rewrite E. reflexivity. }
  assert (P : 0 < val x) by (unfold x, val; cbn; apply F2R_gt_0; cbn; lia).
  assert (P2 : val x <= rne (val x + val y)).
  { rewrite <- (rne_val x (proj1 Hx) Fx) at 1. apply rne_mono. lra. }
  rewrite <- E in P2. destruct (fadd x y) as [s|s| |s k q]; try discriminate.
  - change (val (S754_zero s)) with 0 in P2. lra.
  - destruct s; [|reflexivity]. exfalso.
    assert (val (S754_finite true k q) < 0) by (unfold val; cbn; apply F2R_lt_0; cbn; lia). lra.
Qed.

Lemma one_fold_ge r : forall s, nonneg s -> (forall x, In x r -> vb x = true /\ is_nan x = false) ->
  let m := fold_left (fun s x => aadd Far s (aabs Far x)) r s in
  nonneg m /\ fle s m = true /\ forall x, In x r -> fle (fabs x) m = true.
Proof.
  induction r as [|x r IH]; intros s Hs H m; unfold m; clear m; cbn [fold_left].
  - split; [exact Hs|]. split; [apply fle_refl, nonneg_nn, Hs|]. intros ? [].
  - change (aadd Far s (aabs Far x)) with (fadd s (fabs x)).
    destruct (H x (or_introl eq_refl)) as [Vx Nx]. pose proof (nonneg_fabs x Vx Nx) as Hx.
    destruct (IH (fadd s (fabs x)) (nonneg_fadd _ _ Hs Hx) (fun y Hy => H y (or_intror Hy))) as (I1 & I2 & I3).
    assert (NI : forall z, nonneg z -> z <> S754_infinity true) by (intros z [_ Hz] ->; discriminate).
    split; [exact I1|]. split.
    + eapply fle_trans; [|exact I2]. apply fadd_up; [apply Hs|apply nonneg_nn, Hs|exact Hx|apply NI, Hs].
    + intros y [<-|Hy]; [|apply I3, Hy]. eapply fle_trans; [|exact I2]. rewrite fadd_comm.
      apply fadd_up; [apply Hx|apply nonneg_nn, Hx|exact Hs|apply NI, Hx].
Qed.
Lemma nonneg_zero : nonneg f_zero. Proof. split; reflexivity. Qed.
Lemma one_norm_ge v : (forall x, In x v -> vb x = true /\ is_nan x = false) ->
  nonneg (one_norm Far v) /\ forall x, In x v -> fle (fabs x) (one_norm Far v) = true.
Proof. intro H. destruct (one_fold_ge v f_zero nonneg_zero H) as (A & _ & B). split; assumption. Qed.
Lemma fadd_ge a b : nonneg a -> nonneg b -> nonneg (fadd a b) /\ fle a (fadd a b) = true /\ fle b (fadd a b) = true.
Proof.
  intros Ha Hb. assert (NI : forall z, nonneg z -> z <> S754_infinity true) by (intros z [_ Hz] ->; discriminate).
  split; [apply nonneg_fadd; assumption|]. split; [|rewrite fadd_comm]; apply fadd_up; try apply Ha; try apply Hb; try (apply nonneg_nn; assumption); try (apply NI; assumption); assumption.
Qed.
Lemma theta_ge D E : doubles D E ->
  (forall e, In e E -> is_nan (ryc1 Far e) = false) -> (forall d, In d D -> is_nan (ryd1 Far d) = false) ->
  nonneg (theta Far D E) /\ (forall e, In e E -> fle (fabs (ryc1 Far e)) (theta Far D E) = true) /\
  (forall d, In d D -> fle (fabs (ryd1 Far d)) (theta Far D E) = true).
Proof.
  intros [V1 V2] N1 N2. unfold theta. change (aadd Far) with fadd. change (azero Far) with f_zero.
  destruct (one_norm_ge (map (ryc1 Far) E)) as [A1 B1].
  { intros x Hx. apply in_map_iff in Hx. destruct Hx as (e & <- & He). split; [|apply N1, He]. apply vb_fsub; apply (V1 e He). }
  destruct (one_norm_ge (map (ryd1 Far) D)) as [A2 B2].
  { intros x Hx. apply in_map_iff in Hx. destruct Hx as (d & <- & Hd). split; [|apply N2, Hd]. apply vb_fsub; apply (V2 d Hd). }
  destruct (fadd_ge f_zero _ nonneg_zero A1) as (A3 & _ & G3).
  destruct (fadd_ge _ _ A3 A2) as (A4 & G4 & G5).
  split; [exact A4|]. split.
  - intros e He. eapply fle_trans; [apply B1, in_map, He|]. eapply fle_trans; [exact G3|exact G4].
  - intros d Hd. eapply fle_trans; [apply B2, in_map, Hd|]. exact G5.
Qed.

(** NaN *)
Lemma fadd_nan_iff x y : nonneg x \/ x = S754_nan -> nonneg y \/ y = S754_nan -> (is_nan (fadd x y) = true <-> is_nan x = true \/ is_nan y = true).
Proof.
  intros [Hx| ->] [Hy| ->]; try (cbn; tauto).
  - rewrite (nonneg_nn _ (nonneg_fadd _ _ Hx Hy)), (nonneg_nn _ Hx), (nonneg_nn _ Hy). intuition discriminate.
  - split; auto. intros _. rewrite fadd_comm. reflexivity.
Qed.
Lemma nn_fadd x y : nonneg x \/ x = S754_nan -> nonneg y \/ y = S754_nan -> nonneg (fadd x y) \/ fadd x y = S754_nan.
Proof.
  intros [Hx| ->] [Hy| ->]; auto. - left. apply nonneg_fadd; assumption. - right. rewrite fadd_comm. reflexivity.
Qed.
Lemma one_norm_nan v : (forall x, In x v -> vb x = true) -> forall s, nonneg s \/ s = S754_nan ->
  let m := fold_left (fun s x => aadd Far s (aabs Far x)) v s in
  (nonneg m \/ m = S754_nan) /\ (is_nan m = true <-> is_nan s = true \/ exists x, In x v /\ is_nan x = true).
Proof.
  induction v as [|x v IH]; intros V s Hs m; unfold m; clear m; cbn [fold_left].
  - split; [exact Hs|]. split; [auto|]. intros [H|(x & [] & _)]. exact H.
  - change (aadd Far s (aabs Far x)) with (fadd s (fabs x)).
    assert (Hx : nonneg (fabs x) \/ fabs x = S754_nan).
    { destruct (is_nan x) eqn:N; [right; destruct x; try discriminate; reflexivity|left; apply nonneg_fabs; [apply V; left; reflexivity|exact N]]. }
    destruct (IH (fun y Hy => V y (or_intror Hy)) _ (nn_fadd _ _ Hs Hx)) as [I1 I2]. split; [exact I1|].
    rewrite I2, (fadd_nan_iff _ _ Hs Hx), fabs_nan. split.
    + intros [[H|H]|(y & Hy & Ny)]; [auto| |]; right; [exists x|exists y]; split; auto; [left; reflexivity|right; exact Hy].
    + intros [H|(y & [<-|Hy] & Ny)]; [auto|auto|]. right. exists y. auto.
Qed.
Lemma fsub_nan_iff x y : vb x = true -> vb y = true -> (is_nan (fsub x y) = true <-> undef x y).
Proof.
  intros Vx Vy. unfold undef. split.
  - destruct x as [s|s| |s m e]; [| |auto|]; destruct y as [s'|s'| |s' m' e']; auto; intro H; try discriminate.
    + destruct s, s'; discriminate.
    + destruct s, s'; try discriminate; right; right; eexists; split; reflexivity.
    + rewrite fsub_fadd in H.
      destruct (fadd_case (S754_finite s m e) (fopp (S754_finite s' m' e')) Vx (fopp_vb _ Vy) eq_refl) as [(F & _)|(F & _)]; [reflexivity| |].
      * rewrite (fin_nn _ F) in H. discriminate.
      * rewrite F in H. discriminate.
  - intros [->|[->|(s & -> & ->)]]; [reflexivity|destruct x; reflexivity|destruct s; reflexivity].
Qed.
Lemma theta_nan D E : doubles D E -> (is_nan (theta Far D E) = true <-> undef_somewhere D E).
Proof.
  intros [V1 V2]. unfold theta. change (aadd Far) with fadd. change (azero Far) with f_zero.
  assert (Z0 : nonneg f_zero \/ f_zero = S754_nan) by (left; exact nonneg_zero).
  destruct (one_norm_nan (map (ryc1 Far) E)) with (s := f_zero) as [A1 B1]; [|exact Z0|].
  { intros x Hx. apply in_map_iff in Hx. destruct Hx as (e & <- & He). apply vb_fsub; apply (V1 e He). }
  destruct (one_norm_nan (map (ryd1 Far) D)) with (s := f_zero) as [A2 B2]; [|exact Z0|].
  { intros x Hx. apply in_map_iff in Hx. destruct Hx as (d & <- & Hd). apply vb_fsub; apply (V2 d Hd). }
  rewrite (fadd_nan_iff (fadd f_zero (one_norm Far (map (ryc1 Far) E))) (one_norm Far (map (ryd1 Far) D)) (nn_fadd _ _ Z0 A1) A2).
  rewrite (fadd_nan_iff f_zero (one_norm Far (map (ryc1 Far) E)) Z0 A1). unfold one_norm at 1 2. change (azero Far) with f_zero. rewrite B1, B2.
  change (is_nan f_zero = true) with (false = true). unfold undef_somewhere. split.
  - intros [[H|[H|(x & Hx & Nx)]]|[H|(x & Hx & Nx)]]; try discriminate; apply in_map_iff in Hx; destruct Hx as (a & <- & Ha).
    + left. exists a. split; [exact Ha|]. apply fsub_nan_iff; [apply (V1 a Ha)|apply (V1 a Ha)|exact Nx].
    + right. exists a. split; [exact Ha|]. apply fsub_nan_iff; [apply (V2 a Ha)|apply (V2 a Ha)|exact Nx].
  - intros [(a & Ha & U)|(a & Ha & U)].
    + left; right; right. exists (ryc1 Far a). split; [apply in_map, Ha|]. apply fsub_nan_iff; [apply (V1 a Ha)|apply (V1 a Ha)|exact U].
    + right; right. exists (ryd1 Far a). split; [apply in_map, Ha|]. apply fsub_nan_iff; [apply (V2 a Ha)|apply (V2 a Ha)|exact U].
Qed.

(** a difference that rounds to zero is zero *)
Lemma feq_val x y : vb x = true -> vb y = true -> finite x = true -> finite y = true -> val x = val y -> feq x y = true.
Proof.
  intros Vx Vy Fx Fy E. pose proof (fle_val x y Vx Vy Fx Fy) as A. pose proof (fle_val y x Vy Vx Fy Fx) as B.
  rewrite (Rle_bool_true _ _ (Req_le _ _ E)) in A. rewrite (Rle_bool_true _ _ (Req_le _ _ (eq_sym E))) in B.
  assert (C : flt x y = false). { rewrite flt_val by assumption. apply Rlt_bool_false. lra. }
  unfold feq, fle, flt, SFeqb, SFleb, SFltb in *. destruct (SFcompare x y) as [[]|]; try discriminate. reflexivity.
Qed.
Lemma val_feq x y : vb x = true -> vb y = true -> finite x = true -> finite y = true -> feq x y = true -> val x = val y.
Proof.
  intros Vx Vy Fx Fy E. apply Rle_antisym.
  - apply (fin_le x y); [split; assumption|split; assumption|]. unfold feq, fle, SFeqb, SFleb in *. destruct (SFcompare x y) as [[]|]; try discriminate; reflexivity.
  - apply Rnot_lt_le. intro C. apply (fin_lt x y) in C; [|split; assumption|split; assumption].
    unfold feq, flt, SFeqb, SFltb in *. destruct (SFcompare x y) as [[]|]; discriminate.
Qed.
Lemma zero_le x : fle (fabs x) f_zero = true -> exists s, x = S754_zero s.
Proof. destruct x as [s|s| |s m e]; cbn; intro H; try discriminate. exists s. reflexivity. Qed.
Lemma fsub_zero x y : vb x = true -> vb y = true -> (fle (fabs (fsub x y)) f_zero = true <-> same x y).
Proof.
  intros Vx Vy. split.
  - intro H. destruct (zero_le _ H) as [s Z].
    assert (Fx : finite x = true /\ finite y = true).
    { destruct x as [a|a| |a m e], y as [b|b| |b n q]; try discriminate; auto; destruct a, b; discriminate. }
    destruct Fx as [Fx Fy]. split; [exact Fx|]. split; [exact Fy|]. apply feq_val; auto.
    rewrite fsub_fadd in Z.
    destruct (fadd_case x (fopp y) Vx (fopp_vb _ Vy) Fx) as [(F & E & _)|(F & _)]; [rewrite fopp_fin; exact Fy| |rewrite Z in F; discriminate].
    rewrite Z in E. unfold val at 1 in E. cbn in E.
    destruct (Req_dec (val x + val (fopp y)) 0) as [Q|Q]; [rewrite fopp_val in Q; lra|].
    exfalso. unfold rne in E. revert E. apply not_eq_sym.
    apply (@round_plus_neq_0 radix2 fe64 valid_fe64 _ ZnearestE (valid_rnd_N _)); [apply fmt_val, Vx|apply fmt_val, fopp_vb, Vy|exact Q].
  - intros (Fx & Fy & E). pose proof (val_feq x y Vx Vy Fx Fy E) as Q.
    assert (G : rne (val x - val y) = 0) by (rewrite Q; unfold Rminus; rewrite Rplus_opp_r; apply rne_zero).
    assert (L : Rabs (rne (val x - val y)) < bpow radix2 emax) by (rewrite G, Rabs_R0; apply bpow_gt_0).
    destruct (fsub_val x y Vx Vy Fx Fy L) as [V F].
    assert (V2 := vb_fsub x y Vx Vy). rewrite fle_val; [|apply vb_fabs, V2|reflexivity|rewrite fabs_fin; exact F|reflexivity].
    apply Rle_bool_true. rewrite fabs_val, V, G, Rabs_R0. unfold val. cbn. lra.
Qed.
Lemma nonneg_le_zero x : nonneg x -> fle x f_zero = true -> x = f_zero.
Proof. intros [_ H] L. destruct x as [s|s| |s m e]; try contradiction; subst; try discriminate. reflexivity. Qed.

Lemma one_fold_zero v : (forall x, In x v -> fle (fabs x) f_zero = true) -> fold_left (fun s x => aadd Far s (aabs Far x)) v f_zero = f_zero.
Proof.
  induction v as [|x v IH]; intro H; [reflexivity|]. cbn [fold_left]. destruct (zero_le x (H x (or_introl eq_refl))) as [s ->].
  change (aadd Far f_zero (aabs Far (S754_zero s))) with f_zero. apply IH. intros y Hy. apply H. right. exact Hy.
Qed.
Lemma same_not_undef x y : same x y -> ~ undef x y.
Proof. intros (A & B & _) [->|[->|(s & -> & ->)]]; discriminate. Qed.

Lemma theta_zero D E : doubles D E ->
  (fle (theta Far D E) f_zero = true <->
   (forall e, In e E -> same (e_rhs _ e) (e_c _ e)) /\ (forall d, In d D -> same (d_it _ d) (d_val _ d))).
Proof.
  intros HD. destruct HD as [V1 V2] eqn:EQ. clear EQ. split.
  - intro H. assert (NN : is_nan (theta Far D E) = false) by apply (fle_nan _ _ H).
    assert (NU : ~ undef_somewhere D E) by (rewrite <- (theta_nan D E HD); congruence).
    destruct (theta_ge D E HD) as (P & G1 & G2).
    { intros e He. destruct (is_nan (ryc1 Far e)) eqn:Z; [|reflexivity]. exfalso. apply NU. left. exists e. split; [exact He|].
      apply fsub_nan_iff; [apply (V1 e He)|apply (V1 e He)|exact Z]. }
    { intros d Hd. destruct (is_nan (ryd1 Far d)) eqn:Z; [|reflexivity]. exfalso. apply NU. right. exists d. split; [exact Hd|].
      apply fsub_nan_iff; [apply (V2 d Hd)|apply (V2 d Hd)|exact Z]. }
    split; intros a Ha.
    + apply fsub_zero; [apply (V1 a Ha)|apply (V1 a Ha)|]. eapply fle_trans; [apply (G1 a Ha)|exact H].
    + apply fsub_zero; [apply (V2 a Ha)|apply (V2 a Ha)|]. eapply fle_trans; [apply (G2 a Ha)|exact H].
  - intros [S1 S2]. unfold theta, one_norm. change (azero Far) with f_zero.
    rewrite !one_fold_zero; [reflexivity| |].
    + intros x Hx. apply in_map_iff in Hx. destruct Hx as (d & <- & Hd). apply fsub_zero; [apply (V2 d Hd)|apply (V2 d Hd)|apply S2, Hd].
    + intros x Hx. apply in_map_iff in Hx. destruct Hx as (e & <- & He). apply fsub_zero; [apply (V1 e He)|apply (V1 e He)|apply S1, He].
Qed.

(** the max-norm error is not larger *)
Lemma inf_fold_mem r : forall n, let m := fold_left (fun n x => let aux := aabs Far x in if alt Far n aux then aux else n) r n in
  m = n \/ exists x, In x r /\ m = fabs x.
Proof.
  induction r as [|x r IH]; intros n m; unfold m; clear m; cbn [fold_left]; [auto|]. cbv zeta.
  destruct (alt Far n (aabs Far x)).
  - destruct (IH (aabs Far x)) as [H|(y & Hy & H)]; right; [exists x|exists y]; split; auto; [left; reflexivity|right; exact Hy].
  - destruct (IH n) as [H|(y & Hy & H)]; [auto|]. right. exists y. split; [right; exact Hy|exact H].
Qed.
Lemma inf_norm_mem v : inf_norm Far v = f_zero \/ exists x, In x v /\ inf_norm Far v = fabs x.
Proof.
  destruct v as [|a r]; [left; reflexivity|]. right. unfold inf_norm. destruct (inf_fold_mem r (aabs Far a)) as [H|(y & Hy & H)].
  - exists a. split; [left; reflexivity|exact H].
  - exists y. split; [right; exact Hy|exact H].
Qed.
Lemma fmax_lub a b t : fle a t = true -> fle b t = true -> fle (fmax a b) t = true.
Proof. intros A B. unfold fmax. destruct (is_nan a), (is_nan b), (flt a b); assumption. Qed.
Lemma feas_theta D E : doubles D E -> ~ undef_somewhere D E -> fle (nlp_feas Far D E) (theta Far D E) = true.
Proof.
  intros HD NU. destruct HD as [V1 V2] eqn:EQ. clear EQ.
  destruct (theta_ge D E HD) as (P & G1 & G2).
  { intros e He. destruct (is_nan (ryc1 Far e)) eqn:Z; [|reflexivity]. exfalso. apply NU. left. exists e. split; [exact He|].
    apply fsub_nan_iff; [apply (V1 e He)|apply (V1 e He)|exact Z]. }
  { intros d Hd. destruct (is_nan (ryd1 Far d)) eqn:Z; [|reflexivity]. exfalso. apply NU. right. exists d. split; [exact Hd|].
    apply fsub_nan_iff; [apply (V2 d Hd)|apply (V2 d Hd)|exact Z]. }
  assert (Z : fle f_zero (theta Far D E) = true).
  { destruct P as [_ P]. destruct (theta Far D E) as [s|s| |s m e]; try contradiction; subst; reflexivity. }
  unfold nlp_feas. change (afmax Far) with fmax. change (azero Far) with f_zero. apply fmax_lub; [apply fmax_lub; [exact Z|]|].
  - destruct (inf_norm_mem (map (ryc1 Far) E)) as [->|(x & Hx & ->)]; [exact Z|]. apply in_map_iff in Hx. destruct Hx as (e & <- & He). apply G1, He.
  - destruct (inf_norm_mem (map (ryd1 Far) D)) as [->|(x & Hx & ->)]; [exact Z|]. apply in_map_iff in Hx. destruct Hx as (d & <- & Hd). apply G2, Hd.
Qed.
