(** Lemmas for C84: moving limits. *)
From Flocq Require Import Core BinarySingleNaN.
From Coq Require Import List Bool ZArith QArith Qabs Qminmax Lqa Reals Lra.
From Verif Require Import FloatBase FloatFacts FloatBridge MuProofs VecModel VecSpec ErrModel ErrProofs MoveModel MoveSpec.
Import ListNotations.
Open Scope Q_scope.
Ltac qlra := Lqa.lra.
Notation Qhalf := (1 # 2).

Lemma dir_norm_le dx a : 0 <= a -> (dir_norm Qar dx <= a <-> forall d v, In d dx -> In v d -> Qabs v <= a).
Proof.
  intro P. unfold dir_norm. rewrite (over_ranks_map_le (inf_norm Qar)) by exact P. split.
  - intros H d v Hd Hv. apply (proj1 (inf_norm_le d a P)); auto.
  - intros H d Hd. apply (proj2 (inf_norm_le d a P)). intros v Hv. apply (H d v Hd Hv).
Qed.
Lemma dir_norm_nonneg dx : 0 <= dir_norm Qar dx.
Proof.
  unfold dir_norm, over_ranks. destruct dx as [|d dx]; cbn [map]; [apply Qle_refl|]. cbn [afmax Qar].
  assert (A : forall l n, n <= fold_left Qmax l n).
  { intros l n. exact (proj1 (proj1 (fold_max_le l n _) (Qle_refl _))). }
  eapply Qle_trans; [|apply A]. destruct d as [|v d]; cbn [inf_norm]; [apply Qle_refl|].
  eapply Qle_trans; [apply (Qabs_nonneg v)|]. exact (proj1 (proj1 (fold_inf_le d (Qabs v) _) (Qle_refl _))).
Qed.

Lemma halved_le n : forall a : Q, 0 <= a -> 0 <= halved Qar Qhalf n a <= a.
Proof.
  induction n as [|n IH]; intros a P; [split; [exact P|apply Qle_refl]|]. cbn [halved]. change (amul Qar a Qhalf) with (a * Qhalf).
  destruct (IH (a * Qhalf)) as [A B]; [qlra|]. split; qlra.
Qed.

(** moving along a direction *)
Lemma take_nth x : forall d (al : Q) i a b, fits x d -> nth_error x i = Some a -> nth_error (take_x Qar x d al) i = Some b ->
  exists v, nth_error d i = Some v /\ b = a + al * v.
Proof.
  induction x as [|a0 x IH]; intros [|v d] al i a b F Hx Hb; destruct i as [|i]; try discriminate.
  - cbn in Hx, Hb. injection Hx as <-. injection Hb as <-. exists v. split; reflexivity.
  - cbn in Hx, Hb. apply (IH d al i a b); auto. unfold fits in *. cbn in F. congruence.
Qed.
Lemma nth_take x : forall d (al : Q) i v, fits x d -> nth_error d i = Some v ->
  exists a, nth_error x i = Some a /\ nth_error (take_x Qar x d al) i = Some (a + al * v).
Proof.
  induction x as [|a0 x IH]; intros [|v0 d] al i v F Hv; destruct i as [|i]; try discriminate.
  - cbn in Hv. injection Hv as ->. exists a0. split; reflexivity.
  - cbn in Hv. unfold fits in F. cbn in F. apply (IH d al i v); [unfold fits; congruence|exact Hv].
Qed.
Lemma moved_iff x d (al L : Q) : fits x d -> 0 <= al ->
  (moved_at_most L x (take_x Qar x d al) <-> forall v, In v d -> al * Qabs v <= L).
Proof.
  intros F P. split.
  - intros H v Hv. apply In_nth_error in Hv as [i Hi]. destruct (nth_take x d al i v F Hi) as (a & Ha & Hb).
    specialize (H i a _ Ha Hb). assert (E : a + al * v - a == al * v) by ring. rewrite E, Qabs_Qmult, (Qabs_pos al P) in H. exact H.
  - intros H i a b Ha Hb. destruct (take_nth x d al i a b F Ha Hb) as (v & Hv & ->). apply nth_error_In in Hv.
    assert (E : a + al * v - a == al * v) by ring. rewrite E, Qabs_Qmult, (Qabs_pos al P). apply H, Hv.
Qed.
(** all ranks: the move is within [L] exactly when the step times the norm is *)
Lemma all_moved_iff xs : forall ds (al L : Q), fits_all xs ds -> 0 <= al -> 0 <= L ->
  (Forall2 (fun x d => moved_at_most L x (take_x Qar x d al)) xs ds <-> al * dir_norm Qar ds <= L).
Proof.
  intros ds al L F P PL.
  assert (A : Forall2 (fun x d => moved_at_most L x (take_x Qar x d al)) xs ds <-> forall d v, In d ds -> In v d -> al * Qabs v <= L).
  { induction F as [|x d xs ds F1 F2 IH].
    - split; [intros _ ? ? []|constructor].
    - split.
      + intros H. inversion H; subst. intros d' v [<-|Hd] Hv; [apply (moved_iff x d al L F1 P); auto|]. apply IH with (d := d'); auto.
      + intro H. constructor; [apply (moved_iff x d al L F1 P); intros v Hv; apply (H d); [left; reflexivity|exact Hv]|].
        apply IH. intros d' v Hd Hv. apply (H d'); [right; exact Hd|exact Hv]. }
  rewrite A. destruct (Qlt_le_dec 0 al) as [Pa|Na].
  - assert (PD : 0 <= L / al) by (apply Qle_shift_div_l; qlra).
    assert (S : forall y, al * y <= L <-> y <= L / al).
    { intro y. split; intro H; [apply Qle_shift_div_l; qlra|]. apply (Qmult_le_l _ _ al Pa) in H. rewrite (Qmult_div_r L al) in H by qlra. exact H. }
    rewrite S, (dir_norm_le ds _ PD). split; intros H d v Hd Hv; apply S; eauto.
  - assert (Z : al == 0) by qlra. rewrite Z. split; [intros _|intros _ d v _ _; rewrite Z]; qlra.
Qed.

(** keeping the fraction is monotone in the step *)
Lemma keeps_mono tau a a' x d ix : 0 <= tau -> interior x ix -> 0 <= a' -> a' <= a -> keeps_fraction tau a x d ix -> keeps_fraction tau a' x d ix.
Proof.
  intros Pt I P L H i xi di pi Hx Hd Hp N. specialize (H i xi di pi Hx Hd Hp N). pose proof (I i xi pi Hx Hp N) as Px.
  assert (0 <= tau * xi) by Lqa.nra. destruct (Qlt_le_dec di 0); Lqa.nra.
Qed.

(** the branches *)
Lemma ensure_rel (rel lim : Q) dx alpha : 0 < rel -> fst (ensure_moving_lims Qar rel lim dx alpha) = rel * alpha.
Proof. intro H. unfold ensure_moving_lims. change (azero Qar) with 0. rewrite (proj2 (Qltb_lt 0 rel) H). reflexivity. Qed.
Lemma ensure_off (rel lim : Q) dx alpha : rel <= 0 -> lim <= 0 -> ensure_moving_lims Qar rel lim dx alpha = (alpha, false).
Proof. intros H1 H2. unfold ensure_moving_lims. change (azero Qar) with 0. rewrite (proj2 (Qltb_ge 0 rel) H1), (proj2 (Qltb_ge 0 lim) H2). reflexivity. Qed.
Lemma ensure_sat (rel lim : Q) dx alpha : rel <= 0 -> alpha * dir_norm Qar dx <= lim -> ensure_moving_lims Qar rel lim dx alpha = (alpha, false).
Proof.
  intros H1 H2. unfold ensure_moving_lims. change (azero Qar) with 0. rewrite (proj2 (Qltb_ge 0 rel) H1). destruct (alt Qar 0 lim); [|reflexivity].
  cbv zeta. change (amul Qar alpha (dir_norm Qar dx)) with (alpha * dir_norm Qar dx). rewrite (proj2 (Qltb_ge lim _) H2). reflexivity.
Qed.
Lemma ensure_red (rel lim : Q) dx alpha : rel <= 0 -> 0 < lim -> lim < alpha * dir_norm Qar dx ->
  ensure_moving_lims Qar rel lim dx alpha = (lim / (alpha * dir_norm Qar dx), true).
Proof.
  intros H1 H2 H3. unfold ensure_moving_lims. change (azero Qar) with 0. rewrite (proj2 (Qltb_ge 0 rel) H1), (proj2 (Qltb_lt 0 lim) H2).
  cbv zeta. change (amul Qar alpha (dir_norm Qar dx)) with (alpha * dir_norm Qar dx). rewrite (proj2 (Qltb_lt lim _) H3). reflexivity.
Qed.
Lemma reduced_norm (lim n alpha : Q) : 0 < alpha -> 0 < n -> lim / (alpha * n) * n == lim / alpha.
Proof. intros. field. split; intro; qlra. Qed.

(** binary64: scaling by the relative limit does not lengthen *)
Open Scope R_scope.
Lemma fmul_shrink r a : fin r -> fin a -> 0 < val r <= 1 -> 0 <= val a -> fin (fmul r a) /\ 0 <= val (fmul r a) <= val a.
Proof.
  intros [Vr Fr] [Va Fa] Hr Ha.
  assert (M : 0 <= rne (val r * val a) <= val a).
  { split; [rewrite <- rne_zero; apply rne_mono; nra|]. rewrite <- (rne_val a Va Fa) at 2. apply rne_mono. nra. }
  assert (L : Rabs (rne (val r * val a)) < bpow radix2 emax).
  { rewrite Rabs_pos_eq by apply M. eapply Rle_lt_trans; [apply M|]. eapply Rle_lt_trans; [apply Rle_abs|]. apply val_lt_emax, Va. }
  destruct (fmul_val r a Vr Va L) as [E F]. rewrite Fr, Fa in F. split; [split; [apply vb_fmul; assumption|exact F]|]. rewrite E. exact M.
Qed.
