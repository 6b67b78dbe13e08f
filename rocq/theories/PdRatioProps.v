(** Theorems about the adaptation of the recourse curvature: C80. *)
From Coq Require Import List Bool ZArith Reals Lia Lra.
From Flocq Require Import Core.Core.
From Flocq Require IEEE754.BinarySingleNaN.
From Verif Require Import RingKit FloatBase FloatFacts FloatBridge MuModel MuSpec MuProofs PdAlgModel PdAlgSpec PdRatioProofs.
From Verif Require InertiaModel RecModel.
Import ListNotations.
Open Scope R_scope.

(** C80, binary64: the ratio is raised when the quotient of the decrease obtained and the decrease predicted is below
    1/4, lowered when it is above 3/4, and kept in between or when the quotient is not a number; strictly unless the
    ratio is at its bound; and it stays between its bounds. *)
Theorem C80_ratio_direction : forall rho h, ratio_inv h ->
  let r := val (h_ratio h) in let r' := val (h_ratio (ratio_tr2 rho h)) in
  val (h_rmin h) <= r' <= val (h_rmax h) /\
  (fin rho -> val rho < 1/4 -> r <= r' /\ (r < val (h_rmax h) -> r < r')) /\
  (fin rho -> 3/4 < val rho -> r' <= r /\ (val (h_rmin h) < r -> r' < r)) /\
  (fin rho -> 1/4 <= val rho <= 3/4 -> r' = r) /\
  (is_nan rho = true -> r' = r).
Proof.
  intros rho h I r r'. pose proof I as (M & Fi & Fx & B).
  assert (Q : fin f_quarter) by litfin. assert (T : fin f_34) by litfin.
  destruct (grow _ M) as [G1 G2]. destruct (shrink _ M) as [S1 S2].
  assert (E : r' = val (clamp_ratio h (if flt rho f_quarter then fdiv (h_ratio h) f_34 else if fgt rho f_34 then fmul (h_ratio h) f_34 else h_ratio h)))
    by reflexivity.
  assert (F : fin (if flt rho f_quarter then fdiv (h_ratio h) f_34 else if fgt rho f_34 then fmul (h_ratio h) f_34 else h_ratio h)).
  { destruct (flt rho f_quarter); auto. destruct (fgt rho f_34); auto. apply M. }
  split.
  { rewrite E. destruct (clamp_ratio_val h _ F Fi Fx) as [_ ->]. split; [apply Rmin_glb; [lra|apply Rmax_l]|apply Rmin_l]. }
  split.
  { intros Fr L. rewrite E. rewrite (proj2 (fin_lt rho f_quarter Fr Q)) by (rewrite quarter_val; exact L). apply clamp_up; auto. }
  split.
  { intros Fr L. rewrite E. rewrite (proj2 (fin_lt_false rho f_quarter Fr Q)) by (rewrite quarter_val; lra).
    change (fgt rho f_34) with (flt f_34 rho). rewrite (proj2 (fin_lt f_34 rho T Fr)) by (rewrite q34_val; lra). apply clamp_down; auto. }
  split.
  { intros Fr L. rewrite E. rewrite (proj2 (fin_lt_false rho f_quarter Fr Q)) by (rewrite quarter_val; lra).
    change (fgt rho f_34) with (flt f_34 rho). rewrite (proj2 (fin_lt_false f_34 rho T Fr)) by (rewrite q34_val; lra). apply clamp_same; auto. }
  intros N. rewrite E. destruct rho; try discriminate. apply clamp_same; auto.
Qed.
Print Assumptions C80_ratio_direction.
Example C80_ratio_case : ratio_inv (ha_new 1 f_one) /\
  h_ratio (ratio_tr2 f_zero (ha_new 1 f_one)) = fdiv f_one f_34 /\ h_ratio (ratio_tr2 f_one (ha_new 1 f_one)) = f_34 /\
  h_ratio (ratio_tr2 f_half (ha_new 1 f_one)) = f_one /\ h_ratio (ratio_tr2 S754_nan (ha_new 1 f_one)) = f_one /\
  h_ratio (ratio_tr2 f_zero (ha_new 1 f_five)) = f_five.
Proof.
  split; [|repeat split; vm_compute; reflexivity].
  assert (A : val f_half = 1/2) by (change f_half with (f_2pow (-1)); rewrite val_2pow; simpl; lra).
  assert (C : val f_five = 5) by (replace f_five with (SpecFloat.S754_finite false 5629499534213120 (-50)) by (vm_compute; reflexivity); unfold val, BinarySingleNaN.SF2R, F2R; simpl; lra).
  split; [split; [litfin|]|].
  - cbn [h_ratio ha_new]. rewrite one_val. split; [change 1 with (bpow radix2 0)|change 1 with (bpow radix2 0)]; apply bpow_le; lia.
  - split; [litfin|]. split; [litfin|]. cbn [h_rmin h_rmax h_ratio ha_new]. rewrite A, C, one_val. lra.
Qed.

(** C80, binary64, the other rule (the overload of update_ratio without arguments): a step after which the recourse
    value went up never lowers the ratio, whatever the quotient and the step are, NaN included, and raises it strictly
    below its bound when the quotient is negative; the ratio stays between its bounds *)
Theorem C80_other_rule : forall rho rkm1 rk ag h, ratio_inv h ->
  let r := val (h_ratio h) in let r' := val (h_ratio (ratio_tr5 rho rkm1 rk ag h)) in
  val (h_rmin h) <= r' <= val (h_rmax h) /\
  (flt (fsub rkm1 rk) f_zero = true -> r <= r') /\
  (flt (fsub rkm1 rk) f_zero = true -> flt rho f_zero = true -> r < val (h_rmax h) -> r < r').
Proof.
  intros rho rkm1 rk ag h I r r'. pose proof I as (M & Fi & Fx & B). destruct (grow _ M) as [G1 G2]. destruct (shrink _ M) as [S1 S2].
  set (c := if fgt rho f_zero && flt rho f_quarter && fgt (fsub rkm1 rk) f_zero then fdiv (h_ratio h) f_34
           else if flt rho f_zero && flt (fsub rkm1 rk) f_zero then fdiv (h_ratio h) f_34
           else if fgt rho f_34 && flt rho f_1333 && fgt (fsub rkm1 rk) f_zero && fgt ag f_01 then fmul (h_ratio h) f_34
           else if fgt rho f_1333 && flt (fsub rkm1 rk) f_zero then fdiv (h_ratio h) f_34 else h_ratio h).
  assert (E : r' = val (clamp_ratio h c)) by reflexivity.
  assert (F : fin c) by (unfold c; repeat match goal with |- context [if ?b then _ else _] => destruct b end; auto; apply M).
  split; [rewrite E; destruct (clamp_ratio_val h _ F Fi Fx) as [_ ->]; split; [apply Rmin_glb; [lra|apply Rmax_l]|apply Rmin_l]|].
  split.
  - intro D. assert (ND : fgt (fsub rkm1 rk) f_zero = false).
    { change (flt f_zero (fsub rkm1 rk) = false). destruct (fsub rkm1 rk) as [[|]|[|]| |[|] m e]; try discriminate D; reflexivity. }
    rewrite E. unfold c. rewrite ND, D, !andb_false_r, !andb_true_r. cbn [andb].
    destruct (flt rho f_zero); [apply clamp_up; auto|]. destruct (fgt rho f_1333); [apply clamp_up; auto|]. rewrite clamp_same by auto. apply Rle_refl.
  - intros D Q LT. rewrite E. unfold c. rewrite Q, D.
    assert (NQ : fgt rho f_zero = false).
    { change (flt f_zero rho = false). destruct rho as [[|]|[|]| |[|] m e]; try discriminate Q; reflexivity. }
    rewrite NQ. cbn [andb]. apply clamp_up; auto.
Qed.
Print Assumptions C80_other_rule.
Example C80_other_case : ratio_inv (ha_new 1 f_one) /\ flt (fsub f_one f_two) f_zero = true /\
  h_ratio (ratio_tr5 f_two f_one f_two f_zero (ha_new 1 f_one)) = fdiv f_one f_34.
Proof. split; [apply C80_ratio_case|]. split; vm_compute; reflexivity. Qed.

(** C80, over the reals, what the quotient stands for: with [total0] the objective of the whole problem at the previous
    point, [total1] at the new one and [model1] the value the master's model gave for the new one, and a predicted
    decrease, the ratio is multiplied by 4/3 when less than a quarter of the decrease was obtained, by 3/4 when more
    than three quarters were, and kept otherwise, within its bounds. *)
Theorem C80_meaning_partial : forall l base basem1 h total0 total1 model1,
  RecModel.l_rmin l <= RecModel.l_rmax l ->
  total0 = basem1 + RecModel.h_fkm1 h -> total1 = base + RecModel.h_fk h -> model1 = base + RecModel.predicted h ->
  model1 < total0 ->
  exists f r', RecModel.update_ratio l base basem1 h = Some r' /\
    r' = Rmin (RecModel.l_rmax l) (Rmax (RecModel.l_rmin l) (RecModel.h_ratio h * f)) /\
    (total0 - total1 < (total0 - model1) / 4 -> f = 4 / 3) /\
    (3 / 4 * (total0 - model1) < total0 - total1 -> f = 3 / 4) /\
    ((total0 - model1) / 4 <= total0 - total1 <= 3 / 4 * (total0 - model1) -> f = 1).
Proof.
  intros l base basem1 h t0 t1 m1 HL -> -> -> D.
  set (A := basem1 + RecModel.h_fkm1 h - RecModel.h_fk h - base).
  set (den := RecModel.h_fkm1 h + basem1 - RecModel.predicted h - base).
  assert (Dp : 0 < den) by (unfold den; lra).
  replace (basem1 + RecModel.h_fkm1 h - (base + RecModel.h_fk h)) with A by (unfold A; ring).
  replace (basem1 + RecModel.h_fkm1 h - (base + RecModel.predicted h)) with den by (unfold den; ring).
  unfold RecModel.update_ratio. fold A. fold den. destruct (Req_EM_T den 0) as [Z|Z]; [lra|].
  assert (K : A = A / den * den) by (field; lra).
  assert (CL : forall x, RecModel.rmin (RecModel.l_rmax l) (RecModel.rmax (RecModel.l_rmin l) x) = Rmin (RecModel.l_rmax l) (Rmax (RecModel.l_rmin l) x)).
  { intros x. assert (E : RecModel.rmax (RecModel.l_rmin l) x = Rmax (RecModel.l_rmin l) x).
    { unfold RecModel.rmax, InertiaModel.rltb, Rmax. destruct (Rlt_dec (RecModel.l_rmin l) x), (Rle_dec (RecModel.l_rmin l) x); lra. }
    rewrite E. generalize (Rmax (RecModel.l_rmin l) x). intros y. unfold RecModel.rmin, InertiaModel.rltb, Rmin.
    destruct (Rlt_dec y (RecModel.l_rmax l)), (Rle_dec (RecModel.l_rmax l) y); lra. }
  unfold RecModel.ratio_tr, InertiaModel.rltb.
  destruct (Rlt_dec (A / den) (/ 4)) as [L|L]; [|destruct (Rlt_dec (3 / 4) (A / den)) as [L2|L2]].
  - exists (4 / 3). eexists. split; [reflexivity|]. rewrite CL. split; [f_equal; f_equal; field|]. repeat split; intros; try reflexivity; exfalso; nra.
  - exists (3 / 4). eexists. split; [reflexivity|]. rewrite CL. split; [reflexivity|]. repeat split; intros; try reflexivity; exfalso; nra.
  - exists 1. eexists. split; [reflexivity|]. rewrite CL. split; [f_equal; f_equal; ring|]. repeat split; intros; try reflexivity; exfalso; nra.
Qed.
Print Assumptions C80_meaning_partial.
Definition ex_lims := RecModel.Lims (/ 100000) 1000000 (/ 2) 5.
Definition ex_hst := RecModel.Hst 3 4 (-2) [1] [1] [1] [1] 2 1.
Example C80_meaning_case : RecModel.l_rmin ex_lims <= RecModel.l_rmax ex_lims /\ RecModel.predicted ex_hst = 3 /\
  1 + RecModel.predicted ex_hst < 2 + RecModel.h_fkm1 ex_hst /\
  3 / 4 * ((2 + 4) - (1 + 3)) < (2 + 4) - (1 + 3) /\ RecModel.update_ratio ex_lims 1 2 ex_hst = Some (3 / 4).
Proof.
  assert (N : RecModel.norm2 [1] = 1).
  { unfold RecModel.norm2. cbn [RecModel.dotp]. replace (1 * 1 + 0) with (1 * 1) by ring. apply sqrt_square. lra. }
  assert (P : RecModel.predicted ex_hst = 3).
  { unfold RecModel.predicted. cbn [RecModel.h_fkm1 RecModel.h_lin RecModel.h_alpha RecModel.h_s ex_hst]. rewrite N. lra. }
  rewrite P. cbn [RecModel.l_rmin RecModel.l_rmax ex_lims RecModel.h_fkm1 ex_hst]. repeat split; try lra.
  destruct (C80_meaning_partial ex_lims 1 2 ex_hst 6 4 4) as (f & r' & U & -> & _ & F & _); cbn [RecModel.l_rmin RecModel.l_rmax ex_lims RecModel.h_fkm1 RecModel.h_fk ex_hst]; try lra.
  rewrite U. f_equal. rewrite (F ltac:(lra)). cbn [RecModel.l_rmin RecModel.l_rmax ex_lims RecModel.h_ratio ex_hst].
  rewrite Rmax_right by lra. apply Rmin_right || rewrite Rmin_right by lra; lra.
Qed.

(** C80 refuted when the master did not decrease its model (it may stop early or at a local solution): predicted
    increase and a much larger actual increase give a quotient above 3/4, and the curvature is lowered *)
Theorem C80_increase_refuted : exists l base basem1 h total0 total1 model1 r',
  total0 = basem1 + RecModel.h_fkm1 h /\ total1 = base + RecModel.h_fk h /\ model1 = base + RecModel.predicted h /\
  total0 < model1 /\ model1 - total0 < (total1 - total0) / 9 /\
  RecModel.l_rmin l < RecModel.h_ratio h < RecModel.l_rmax l /\
  RecModel.update_ratio l base basem1 h = Some r' /\ r' < RecModel.h_ratio h.
Proof.
  assert (N : RecModel.norm2 [1] = 1).
  { unfold RecModel.norm2. cbn [RecModel.dotp]. replace (1 * 1 + 0) with (1 * 1) by ring. apply sqrt_square. lra. }
  set (h := RecModel.Hst 20 4 (-1) [1] [1] [1] [1] 2 1).
  assert (P : RecModel.predicted h = 4).
  { unfold RecModel.predicted, h. cbn [RecModel.h_fkm1 RecModel.h_lin RecModel.h_alpha RecModel.h_s]. rewrite N. lra. }
  exists ex_lims, 3, 2, h, 6, 23, 7, (3 / 4). rewrite P. cbn [RecModel.h_fkm1 RecModel.h_fk RecModel.h_ratio h RecModel.l_rmin RecModel.l_rmax ex_lims].
  repeat split; try lra.
  unfold RecModel.update_ratio. rewrite P. cbn [RecModel.h_fkm1 RecModel.h_fk RecModel.h_ratio h].
  destruct (Req_EM_T (4 + 2 - 4 - 3) 0) as [Z|Z]; [lra|]. f_equal.
  unfold RecModel.ratio_tr, RecModel.rmin, RecModel.rmax, InertiaModel.rltb. cbn [RecModel.l_rmin RecModel.l_rmax ex_lims].
  replace ((2 + 4 - 20 - 3) / (4 + 2 - 4 - 3)) with 17 by field.
  destruct (Rlt_dec 17 (/ 4)); [lra|]. destruct (Rlt_dec (3 / 4) 17); [|lra].
  destruct (Rlt_dec (/ 2) (1 * (3 / 4))); [|lra]. destruct (Rlt_dec (1 * (3 / 4)) 5); lra.
Qed.
Print Assumptions C80_increase_refuted.
