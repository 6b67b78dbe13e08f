(** Lemmas for C88: which doubles survive the 20 decimals. *)
From Coq Require Import ZArith QArith Qabs Qcanon Reals Qreals Lra Lia.
From Flocq Require Import Core.
From Verif Require Import KktFileModel KktFileSpec KktFileProofs.
Local Open Scope R_scope.

Local Notation fexp := (FLT_exp (-1074) 53).
Local Instance p53 : Prec_gt_0 53. Proof. reflexivity. Qed.
Lemma ulp_big x : bpow radix2 (-13) <= x -> bpow radix2 (-65) <= ulp radix2 fexp x.
Proof.
  intro H. assert (P : 0 < x) by (pose proof (bpow_gt_0 radix2 (-13)); lra).
  rewrite ulp_neq_0 by lra. apply bpow_le. unfold cexp, FLT_exp.
  assert (M : (-12 <= mag radix2 x)%Z).
  { apply (mag_ge_bpow radix2 x (-12)). rewrite Rabs_pos_eq by lra. exact H. }
  lia.
Qed.
Lemma gap_pos x : generic_format radix2 fexp x -> bpow radix2 (-13) <= x ->
  bpow radix2 (-66) <= succ radix2 fexp x - x /\ bpow radix2 (-66) <= x - pred radix2 fexp x.
Proof.
  intros F H. assert (P : 0 < x) by (pose proof (bpow_gt_0 radix2 (-13)); lra). pose proof (ulp_big x H) as U.
  assert (B : bpow radix2 (-66) <= bpow radix2 (-65)) by (apply bpow_le; lia). split.
  - rewrite succ_eq_pos by lra. lra.
  - rewrite pred_eq_pos by lra. unfold pred_pos. destruct (Req_bool_spec x (bpow radix2 (mag radix2 x - 1))) as [E|E]; [|lra].
    assert (M : (-12 <= mag radix2 x)%Z) by (apply (mag_ge_bpow radix2 x (-12)); rewrite Rabs_pos_eq by lra; exact H).
    assert (B2 : bpow radix2 (-66) <= bpow radix2 (fexp (mag radix2 x - 1))) by (apply bpow_le; unfold FLT_exp; lia). lra.
Qed.
Lemma gap x : generic_format radix2 fexp x -> bpow radix2 (-13) <= Rabs x ->
  bpow radix2 (-66) <= succ radix2 fexp x - x /\ bpow radix2 (-66) <= x - pred radix2 fexp x.
Proof.
  intros F H. destruct (Rle_lt_dec 0 x) as [P|N].
  - rewrite Rabs_pos_eq in H by exact P. apply gap_pos; assumption.
  - rewrite Rabs_left in H by exact N. destruct (gap_pos (- x)) as [A B]; [apply generic_format_opp; exact F|exact H|].
    rewrite succ_opp in A. rewrite pred_opp in B. lra.
Qed.
Lemma round_near x d : generic_format radix2 fexp x -> bpow radix2 (-13) <= Rabs x -> Rabs (d - x) <= / 200000000000000000000 ->
  round radix2 fexp ZnearestE d = x.
Proof.
  intros F H D. destruct (gap x F H) as [A B]. assert (E : / 200000000000000000000 < bpow radix2 (-66) / 2).
  { change (bpow radix2 (-66)) with (/ 73786976294838206464). lra. }
  apply Rabs_le_inv in D. apply Rle_antisym.
  - apply (round_N_le_midp radix2 fexp (fun t => negb (Z.even t)) x d F). lra.
  - apply (round_N_ge_midp radix2 fexp (fun t => negb (Z.even t)) x d F). lra.
Qed.
Lemma near_R c a b : near c a b -> Rabs (Q2R (this a) - Q2R (this b)) <= INR c * / 200000000000000000000.
Proof.
  rewrite near_iff. intros [H1 H2]. apply Qle_Rle in H1, H2. rewrite Q2R_opp, Q2R_mult, Q2R_minus in H1. rewrite Q2R_mult, Q2R_minus in H2.
  assert (E : Q2R (inject_Z (Z.of_nat c)) = INR c) by (unfold Q2R, inject_Z; cbn [Qnum Qden]; rewrite <- INR_IZR_INZ; field).
  assert (E2 : Q2R (1 # 200000000000000000000) = / 200000000000000000000) by (unfold Q2R; cbn [Qnum Qden]; lra).
  rewrite E, E2 in *. apply Rabs_le. lra.
Qed.
