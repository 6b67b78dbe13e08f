(** Bridge between the executable binary64 operations of FloatBase (standard library [SpecFloat])
    and Flocq's [binary_float 53 1024] with its correctness theorems about rounding.  The
    equivalence lemmas are those of Flocq's PrimFloat.v restated without primitive floats. *)
From Coq Require Import ZArith Reals Lia Lra Bool.
From Verif Require Import FloatBase.
From Flocq Require Import Core.Core IEEE754.BinarySingleNaN.

Notation prec := 53%Z.
Notation emax := 1024%Z.
Definition Hprec53 : Prec_gt_0 prec := eq_refl.
Definition Hmax53 : Prec_lt_emax prec emax := eq_refl.
#[global] Existing Instances Hprec53 Hmax53.
Notation bf := (binary_float prec emax).
Notation fe64 := (SpecFloat.fexp prec emax).
Definition rne : R -> R := round radix2 fe64 ZnearestE.
Global Instance valid_fe64 : Valid_exp fe64 := fexp_correct prec emax Hprec53.

(** a well-formed binary64 value (mantissa and exponent in canonical range) *)
Definition vb (x : b64) : bool := valid_binary prec emax x.

Definition toB (x : b64) (H : vb x = true) : bf := SF2B x H.

Lemma B2SF_toB x H : B2SF (toB x H) = x.
Proof. apply B2SF_SF2B. Qed.

(** real value (0 for infinities and NaN) *)
Definition val (x : b64) : R := SF2R radix2 x.

Lemma val_B2SF (x : bf) : val (B2SF x) = B2R x.
Proof. apply SF2R_B2SF. Qed.

Definition finite (x : b64) : bool := is_finite_SF x.

Lemma round_nearest_even_eq s m l : round_nearest_even m l = choice_mode mode_NE s m l.
Proof.
  case l; [reflexivity|intro c]. case c; [ | reflexivity..].
  now simpl; unfold Round.cond_incr; case Z.even.
Qed.

Lemma bra_eq sx mx ex lx :
  SpecFloat.binary_round_aux prec emax sx mx ex lx = binary_round_aux prec emax mode_NE sx mx ex lx.
Proof.
  unfold SpecFloat.binary_round_aux, binary_round_aux.
  set (mrse' := shr_fexp _ _ _). case mrse'; intros mrs' e'; simpl.
  now rewrite (round_nearest_even_eq sx).
Qed.

Lemma br_eq s m e :
  SpecFloat.binary_round prec emax s m e = binary_round prec emax mode_NE s m e.
Proof.
  unfold SpecFloat.binary_round, binary_round, shl_align_fexp.
  set (mez := shl_align _ _ _); case mez as [mz ez]. apply bra_eq.
Qed.

Lemma bn_eq m e sz :
  SpecFloat.binary_normalize prec emax m e sz
  = B2SF (binary_normalize prec emax Hprec53 Hmax53 mode_NE m e sz).
Proof.
  case m as [ | p | p]; [now simpl| |]; simpl; rewrite B2SF_SF2B; apply br_eq.
Qed.

Lemma fmul_B (x y : bf) : fmul (B2SF x) (B2SF y) = B2SF (Bmult mode_NE x y).
Proof.
  unfold fmul. case x as [sx|sx| |sx mx ex Bx]; case y as [sy|sy| |sy my ey By]; [now trivial..|].
  simpl. rewrite B2SF_SF2B. apply bra_eq.
Qed.

Lemma fadd_B (x y : bf) : fadd (B2SF x) (B2SF y) = B2SF (Bplus mode_NE x y).
Proof.
  unfold fadd. case x as [sx|sx| |sx mx ex Bx]; case y as [sy|sy| |sy my ey By];
    [now (trivial || simpl; case Bool.eqb).. | ].
  apply bn_eq.
Qed.

Lemma fsub_B (x y : bf) : fsub (B2SF x) (B2SF y) = B2SF (Bminus mode_NE x y).
Proof.
  unfold fsub. case x as [sx|sx| |sx mx ex Bx]; case y as [sy|sy| |sy my ey By];
    [now (trivial || simpl; case Bool.eqb).. | ].
  simpl. unfold Zminus. rewrite <- cond_Zopp_negb. apply bn_eq.
Qed.

Lemma fdiv_B (x y : bf) : fdiv (B2SF x) (B2SF y) = B2SF (Bdiv mode_NE x y).
Proof.
  unfold fdiv. case x as [sx|sx| |sx mx ex Bx]; case y as [sy|sy| |sy my ey By];
    [now (trivial || simpl; case Bool.eqb).. | ].
  simpl. rewrite B2SF_SF2B.
  set (melz := SFdiv_core_binary _ _ _ _ _ _). case melz as [[mz ez] lz]. apply bra_eq.
Qed.

Lemma vb_B2SF (x : bf) : vb (B2SF x) = true.
Proof. apply valid_binary_B2SF. Qed.

Lemma vb_fmul x y : vb x = true -> vb y = true -> vb (fmul x y) = true.
Proof. intros Hx Hy. rewrite <- (B2SF_toB x Hx), <- (B2SF_toB y Hy), fmul_B. apply vb_B2SF. Qed.
Lemma vb_fadd x y : vb x = true -> vb y = true -> vb (fadd x y) = true.
Proof. intros Hx Hy. rewrite <- (B2SF_toB x Hx), <- (B2SF_toB y Hy), fadd_B. apply vb_B2SF. Qed.
Lemma vb_fsub x y : vb x = true -> vb y = true -> vb (fsub x y) = true.
Proof. intros Hx Hy. rewrite <- (B2SF_toB x Hx), <- (B2SF_toB y Hy), fsub_B. apply vb_B2SF. Qed.
Lemma vb_fdiv x y : vb x = true -> vb y = true -> vb (fdiv x y) = true.
Proof. intros Hx Hy. rewrite <- (B2SF_toB x Hx), <- (B2SF_toB y Hy), fdiv_B. apply vb_B2SF. Qed.

Lemma fin_toB x H : is_finite (toB x H) = finite x.
Proof. rewrite <- is_finite_SF_B2SF, B2SF_toB. reflexivity. Qed.

Lemma val_toB x H : B2R (toB x H) = val x.
Proof. rewrite <- val_B2SF, B2SF_toB. reflexivity. Qed.

Lemma fle_val x y : vb x = true -> vb y = true -> finite x = true -> finite y = true ->
  fle x y = Rle_bool (val x) (val y).
Proof.
  intros Hx Hy Fx Fy.
  pose proof (Bleb_correct prec emax (toB x Hx) (toB y Hy)) as H.
  rewrite !fin_toB, !val_toB in H. unfold Bleb in H. rewrite !B2SF_toB in H. apply H; assumption.
Qed.

Lemma flt_val x y : vb x = true -> vb y = true -> finite x = true -> finite y = true ->
  flt x y = Rlt_bool (val x) (val y).
Proof.
  intros Hx Hy Fx Fy.
  pose proof (Bltb_correct prec emax (toB x Hx) (toB y Hy)) as H.
  rewrite !fin_toB, !val_toB in H. unfold Bltb in H. rewrite !B2SF_toB in H. apply H; assumption.
Qed.

Lemma fmul_val x y : vb x = true -> vb y = true ->
  (Rabs (rne (val x * val y)) < bpow radix2 emax)%R ->
  val (fmul x y) = rne (val x * val y) /\
  finite (fmul x y) = finite x && finite y.
Proof.
  intros Hx Hy Hb.
  pose proof (Bmult_correct prec emax Hprec53 Hmax53 mode_NE (toB x Hx) (toB y Hy)) as H.
  rewrite !val_toB in H. simpl round_mode in H. fold rne in H.
  rewrite (Rlt_bool_true _ _ Hb) in H. destruct H as (H1 & H2 & _).
  assert (E : fmul x y = B2SF (Bmult mode_NE (toB x Hx) (toB y Hy)))
    by (rewrite <- fmul_B, !B2SF_toB; reflexivity).
  rewrite E, val_B2SF. split; [exact H1|].
  unfold finite at 1. rewrite is_finite_SF_B2SF, H2, !fin_toB. reflexivity.
Qed.

Lemma fdiv_val x y : vb x = true -> vb y = true -> val y <> 0%R ->
  (Rabs (rne (val x / val y)) < bpow radix2 emax)%R ->
  val (fdiv x y) = rne (val x / val y) /\ finite (fdiv x y) = finite x.
Proof.
  intros Hx Hy Hn Hb.
  assert (Hn' : B2R (toB y Hy) <> 0%R) by (rewrite val_toB; exact Hn).
  pose proof (Bdiv_correct prec emax Hprec53 Hmax53 mode_NE (toB x Hx) (toB y Hy) Hn') as H.
  rewrite !val_toB in H. simpl round_mode in H. fold rne in H.
  rewrite (Rlt_bool_true _ _ Hb) in H. destruct H as (H1 & H2 & _).
  assert (E : fdiv x y = B2SF (Bdiv mode_NE (toB x Hx) (toB y Hy)))
    by (rewrite <- fdiv_B, !B2SF_toB; reflexivity).
  rewrite E, val_B2SF. split; [exact H1|].
  unfold finite at 1. rewrite is_finite_SF_B2SF, H2, fin_toB. reflexivity.
Qed.

Lemma fsub_val x y : vb x = true -> vb y = true -> finite x = true -> finite y = true ->
  (Rabs (rne (val x - val y)) < bpow radix2 emax)%R ->
  val (fsub x y) = rne (val x - val y) /\ finite (fsub x y) = true.
Proof.
  intros Hx Hy Fx Fy Hb.
  rewrite <- (fin_toB x Hx) in Fx. rewrite <- (fin_toB y Hy) in Fy.
  pose proof (Bminus_correct prec emax Hprec53 Hmax53 mode_NE (toB x Hx) (toB y Hy) Fx Fy) as H.
  rewrite !val_toB in H. simpl round_mode in H. fold rne in H.
  rewrite (Rlt_bool_true _ _ Hb) in H. destruct H as (H1 & H2 & _).
  assert (E : fsub x y = B2SF (Bminus mode_NE (toB x Hx) (toB y Hy)))
    by (rewrite <- fsub_B, !B2SF_toB; reflexivity).
  rewrite E, val_B2SF. split; [exact H1|].
  unfold finite. rewrite is_finite_SF_B2SF. exact H2.
Qed.

Lemma fadd_val x y : vb x = true -> vb y = true -> finite x = true -> finite y = true ->
  (Rabs (rne (val x + val y)) < bpow radix2 emax)%R ->
  val (fadd x y) = rne (val x + val y) /\ finite (fadd x y) = true.
Proof.
  intros Hx Hy Fx Fy Hb.
  rewrite <- (fin_toB x Hx) in Fx. rewrite <- (fin_toB y Hy) in Fy.
  pose proof (Bplus_correct prec emax Hprec53 Hmax53 mode_NE (toB x Hx) (toB y Hy) Fx Fy) as H.
  rewrite !val_toB in H. simpl round_mode in H. fold rne in H.
  rewrite (Rlt_bool_true _ _ Hb) in H. destruct H as (H1 & H2 & _).
  assert (E : fadd x y = B2SF (Bplus mode_NE (toB x Hx) (toB y Hy)))
    by (rewrite <- fadd_B, !B2SF_toB; reflexivity).
  rewrite E, val_B2SF. split; [exact H1|].
  unfold finite. rewrite is_finite_SF_B2SF. exact H2.
Qed.

(** finite values are fixed by rounding *)
Lemma rne_val x : vb x = true -> finite x = true -> rne (val x) = val x.
Proof.
  intros Hx Fx. apply round_generic; [apply valid_rnd_N|].
  rewrite <- (val_toB x Hx). apply generic_format_B2R.
Qed.

Lemma val_lt_emax x : vb x = true -> (Rabs (val x) < bpow radix2 emax)%R.
Proof. intros Hx. rewrite <- (val_toB x Hx). apply abs_B2R_lt_emax. Qed.

Lemma fabs_val x : val (fabs x) = Rabs (val x).
Proof.
  destruct x as [s|s| |s m e]; unfold val, fabs; simpl; try (rewrite Rabs_R0; reflexivity).
  rewrite <- F2R_Zabs. simpl. destruct s; reflexivity.
Qed.
Lemma fabs_fin x : finite (fabs x) = finite x.
Proof. destruct x; reflexivity. Qed.
Lemma vb_fabs x : vb x = true -> vb (fabs x) = true.
Proof. destruct x; auto. Qed.
