(** Lemmas about the ratio of the recourse approximation: direction of its changes. *)
From Coq Require Import List Bool ZArith Reals Lia Lra.
From Flocq Require Import Core.Core IEEE754.BinarySingleNaN.
From Verif Require Import FloatBase FloatFacts FloatBridge MuModel MuSpec MuProofs PdAlgModel.
Import ListNotations.
Open Scope R_scope.

(** a ratio as the class uses it: finite and away from the ends of the binary64 range *)
Definition mid (x : b64) : Prop := fin x /\ bpow radix2 (-1000) <= val x <= bpow radix2 1000.

Lemma quarter_val : val f_quarter = 1/4.
Proof. change f_quarter with (f_2pow (-2)). rewrite val_2pow. simpl. lra. Qed.
Lemma q34_val : val f_34 = 3/4.
Proof. unfold val, f_34, SF2R, F2R. simpl. lra. Qed.

Lemma rne_close x : bpow radix2 (-1010) <= x -> Rabs (rne x - x) <= x / 8.
Proof.
  intros H. assert (P : 0 < x) by (pose proof (bpow_gt_0 radix2 (-1010)); lra).
  pose proof (error_le_half_ulp radix2 fe64 (fun z => negb (Z.even z)) x) as E. fold rne in E.
  assert (U : ulp radix2 fe64 x <= x * bpow radix2 (-52)).
  { change (ulp radix2 fe64 x) with (ulp radix2 (FLT_exp (3 - emax - prec) prec) x).
    rewrite <- (Rabs_pos_eq x) at 2 by lra. change (-52)%Z with (1 - prec)%Z. apply ulp_FLT_le.
    rewrite Rabs_pos_eq by lra. eapply Rle_trans; [|exact H]. apply bpow_le. change emax with 1024%Z. change prec with 53%Z. lia. }
  assert (S : bpow radix2 (-52) <= bpow radix2 (-2)) by (apply bpow_le; lia). simpl (bpow radix2 (-2)) in S.
  assert (M : x * bpow radix2 (-52) <= x / 4) by nra.
  change (Rabs (rne x - x) <= / 2 * ulp radix2 fe64 x) in E. lra.
Qed.

Lemma grow r : mid r -> fin (fdiv r f_34) /\ val r < val (fdiv r f_34).
Proof.
  intros [F [L U]]. pose proof (bpow_gt_0 radix2 (-1000)) as P.
  assert (B1 : bpow radix2 (-1010) <= val r / (3/4)).
  { apply Rle_trans with (val r); [|lra]. eapply Rle_trans; [|exact L]. apply bpow_le. lia. }
  pose proof (rne_close _ B1) as C. apply Rabs_def2b in C || apply Rabs_le_inv in C.
  assert (LT : Rabs (rne (val r / val f_34)) < bpow radix2 emax).
  { rewrite q34_val. rewrite Rabs_pos_eq by lra. apply Rle_lt_trans with (bpow radix2 1001).
    - change 1001%Z with (1000 + 1)%Z. rewrite bpow_plus. simpl (bpow radix2 1). lra.
    - apply bpow_lt. change emax with 1024%Z. lia. }
  destruct (fdiv_val r f_34 (proj1 F)) as [E G]; [reflexivity|rewrite q34_val; lra|exact LT|].
  split; [split; [apply vb_fdiv; [apply F|reflexivity]|rewrite G; apply F]|].
  rewrite E, q34_val. lra.
Qed.
Lemma shrink r : mid r -> fin (fmul r f_34) /\ val (fmul r f_34) < val r.
Proof.
  intros [F [L U]]. pose proof (bpow_gt_0 radix2 (-1000)) as P.
  assert (B1 : bpow radix2 (-1010) <= val r * (3/4)).
  { assert (bpow radix2 (-1010) <= bpow radix2 (-1000) * (3/4)); [|lra].
    change (-1010)%Z with (-1000 + -10)%Z. rewrite bpow_plus. simpl (bpow radix2 (-10)). lra. }
  pose proof (rne_close _ B1) as C. apply Rabs_def2b in C || apply Rabs_le_inv in C.
  assert (LT : Rabs (rne (val r * val f_34)) < bpow radix2 emax).
  { rewrite q34_val. rewrite Rabs_pos_eq by lra. apply Rle_lt_trans with (bpow radix2 1000); [lra|].
    apply bpow_lt. change emax with 1024%Z. lia. }
  destruct (fmul_val r f_34 (proj1 F)) as [E G]; [reflexivity|exact LT|].
  split; [split; [apply vb_fmul; [apply F|reflexivity]|rewrite G; apply andb_true_iff; split; [apply F|reflexivity]]|].
  rewrite E, q34_val. lra.
Qed.

Lemma clamp_ratio_val h r : fin r -> fin (h_rmin h) -> fin (h_rmax h) ->
  fin (clamp_ratio h r) /\ val (clamp_ratio h r) = Rmin (val (h_rmax h)) (Rmax (val (h_rmin h)) (val r)).
Proof.
  intros Fr Fi Fx. unfold clamp_ratio, stdmin, stdmax.
  assert (A : fin (if flt (h_rmin h) r then r else h_rmin h) /\ val (if flt (h_rmin h) r then r else h_rmin h) = Rmax (val (h_rmin h)) (val r)).
  { destruct (flt (h_rmin h) r) eqn:L.
    - apply fin_lt in L; auto. rewrite Rmax_right by lra. split; [exact Fr|reflexivity].
    - apply fin_lt_false in L; auto. rewrite Rmax_left by lra. split; [exact Fi|reflexivity]. }
  destruct A as [A1 A2]. rewrite <- A2. revert A1. generalize (if flt (h_rmin h) r then r else h_rmin h). intros y Fy.
  destruct (flt y (h_rmax h)) eqn:L.
  - apply fin_lt in L; auto. rewrite Rmin_right by lra. split; [exact Fy|reflexivity].
  - apply fin_lt_false in L; auto. rewrite Rmin_left by lra. split; [exact Fx|reflexivity].
Qed.

(** the state of the class between calls: a ratio inside its bounds *)
Definition ratio_inv (h : ha) : Prop :=
  mid (h_ratio h) /\ fin (h_rmin h) /\ fin (h_rmax h) /\ val (h_rmin h) <= val (h_ratio h) <= val (h_rmax h).

Lemma clamp_up h r : ratio_inv h -> fin r -> val (h_ratio h) < val r ->
  val (h_ratio h) <= val (clamp_ratio h r) /\ (val (h_ratio h) < val (h_rmax h) -> val (h_ratio h) < val (clamp_ratio h r)).
Proof.
  intros (_ & Fi & Fx & B) Fr L. destruct (clamp_ratio_val h r Fr Fi Fx) as [_ ->].
  rewrite (Rmax_right (val (h_rmin h))) by lra. split; [apply Rmin_glb; lra|intros; apply Rmin_glb_lt; lra].
Qed.
Lemma clamp_down h r : ratio_inv h -> fin r -> val r < val (h_ratio h) ->
  val (clamp_ratio h r) <= val (h_ratio h) /\ (val (h_rmin h) < val (h_ratio h) -> val (clamp_ratio h r) < val (h_ratio h)).
Proof.
  intros (_ & Fi & Fx & B) Fr L. destruct (clamp_ratio_val h r Fr Fi Fx) as [_ ->]. split.
  - eapply Rle_trans; [apply Rmin_r|]. apply Rmax_lub; lra.
  - intros. eapply Rle_lt_trans; [apply Rmin_r|]. apply Rmax_lub_lt; lra.
Qed.
Lemma clamp_same h : ratio_inv h -> val (clamp_ratio h (h_ratio h)) = val (h_ratio h).
Proof.
  intros ((Fr & _) & Fi & Fx & B). destruct (clamp_ratio_val h _ Fr Fi Fx) as [_ ->].
  rewrite Rmax_right by lra. apply Rmin_right. lra.
Qed.
