From Coq Require Import List Bool ZArith Lia Reals Lra.
From Flocq Require Import Core.Core IEEE754.BinarySingleNaN.
From Verif Require Import FloatBase FloatFacts FilterModel FilterSpec FilterProofs LineSearchModel RunModel
  LineSearchSpec FloatBridge.
Import ListNotations.

Section LS.
  Variable fpow : b64 -> b64 -> b64.
  Variable P : ls_params.

  Lemma suff_dec_iff th ph tht pht : suff_dec P th ph tht pht = true <-> Progress P th ph tht pht.
  Proof. unfold suff_dec, Progress. rewrite orb_true_iff. reflexivity. Qed.
  Lemma switching_iff a g th : switching fpow P a g th = true <-> Switching fpow P a g th.
  Proof. unfold switching, Switching, fgt. rewrite andb_true_iff. reflexivity. Qed.
  Lemma switching_false a g th : switching fpow P a g th = false -> ~ Switching fpow P a g th.
  Proof. intros H H1. apply switching_iff in H1. congruence. Qed.

  Definition cache_ok (W : ls_world) (c : option b64) : Prop := c = None \/ c = Some (w_gdir W).

  Lemma get_g_ok W c : cache_ok W c -> get_g (w_gdir W) c = w_gdir W.
  Proof. intros [->| ->]; reflexivity. Qed.

  (* what a positive status of the acceptance test means *)
  Lemma accept_pos F W tht pht alpha c st rej c' :
    cache_ok W c ->
    accept fpow P F (w_theta W) (w_phi W) (w_gdir W) tht pht alpha c = (st, rej, c') ->
    cache_ok W c' /\
    (st = 0%Z \/
     (filter_contains F tht pht = false /\
      ((st = 1%Z /\ fge (w_theta W) (theta_min P) = true /\
        Progress P (w_theta W) (w_phi W) tht pht /\ c' = c) \/
       (st = 2%Z /\ fge (w_theta W) (theta_min P) = false /\
        ~ Switching fpow P alpha (w_gdir W) (w_theta W) /\ Progress P (w_theta W) (w_phi W) tht pht) \/
       (st = 3%Z /\ fge (w_theta W) (theta_min P) = false /\
        Switching fpow P alpha (w_gdir W) (w_theta W) /\
        Armijo P alpha (w_gdir W) (w_phi W) pht)))).
  Proof.
    intros Hc. unfold accept. rewrite (get_g_ok W c Hc).
    destruct (fge (w_theta W) (theta_min P)) eqn:Hfar.
    - destruct (suff_dec P (w_theta W) (w_phi W) tht pht) eqn:Hs;
        [destruct (filter_contains F tht pht) eqn:Hf|]; intros H; inversion H; subst; clear H.
      + split; auto.
      + split; auto. right. split; auto. left. apply suff_dec_iff in Hs. auto.
      + split; auto.
    - destruct (switching fpow P alpha (w_gdir W) (w_theta W)) eqn:Hsw.
      + destruct (armijo P alpha (w_gdir W) (w_phi W) pht) eqn:Ha;
          [destruct (filter_contains F tht pht) eqn:Hf|]; intros H; inversion H; subst; clear H;
          (split; [right; reflexivity|]); auto.
        right. split; auto. right; right. apply switching_iff in Hsw. auto.
      + destruct (suff_dec P (w_theta W) (w_phi W) tht pht) eqn:Hs;
          [destruct (filter_contains F tht pht) eqn:Hf|]; intros H; inversion H; subst; clear H;
          (split; [right; reflexivity|]); auto.
        right. split; auto. right; left. apply switching_false in Hsw. apply suff_dec_iff in Hs. auto.
  Qed.

  Definition good (F : filter_st) (W : ls_world) (st : Z) (pt : point) (alpha : b64) : Prop :=
      filter_contains F (fst pt) (snd pt) = false /\
      ((st = 1%Z /\ fge (w_theta W) (theta_min P) = true /\
        Progress P (w_theta W) (w_phi W) (fst pt) (snd pt)) \/
       (st = 2%Z /\ fge (w_theta W) (theta_min P) = false /\
        ~ Switching fpow P alpha (w_gdir W) (w_theta W) /\
        Progress P (w_theta W) (w_phi W) (fst pt) (snd pt)) \/
       (st = 3%Z /\ fge (w_theta W) (theta_min P) = false /\
        Switching fpow P alpha (w_gdir W) (w_theta W) /\
        Armijo P alpha (w_gdir W) (w_phi W) (snd pt))).

  Lemma accept_good F W tht pht alpha c st rej c' :
    cache_ok W c ->
    accept fpow P F (w_theta W) (w_phi W) (w_gdir W) tht pht alpha c = (st, rej, c') ->
    (0 <? st)%Z = true -> good F W st (tht, pht) alpha /\ cache_ok W c'.
  Proof.
    intros Hc H Hst. destruct (accept_pos _ _ _ _ _ _ _ _ _ Hc H) as [H1 [->|[H2 H3]]].
    - discriminate.
    - split; auto. split; auto. simpl. intuition.
  Qed.

  Lemma soc_loop_good F W alpha : forall left j tl t c st pt j' a c',
    cache_ok W c ->
    soc_loop fpow P F W alpha left j tl t c = SocOk st pt j' a c' ->
    good F W st pt alpha /\ cache_ok W c'.
  Proof.
    induction left as [|left IH]; intros j tl t c st pt j' a c' Hc; simpl; [discriminate|].
    destruct (_ || _); [|discriminate].
    destruct (w_soc W j) as [[t1 p1]|]; [|discriminate].
    destruct (accept _ _ _ _ _ _ _ _ _ _) as [[s0 r0] c0] eqn:Ha.
    destruct (0 <? s0)%Z eqn:Hs.
    - intros H. inversion H; subst. apply (accept_good _ _ _ _ _ _ _ _ _ Hc Ha Hs).
    - apply IH. apply (accept_pos _ _ _ _ _ _ _ _ _ Hc Ha).
  Qed.

  Lemma ls_loop_good : forall fuel F W ini k tv c st pt tv' a g c' sc,
    cache_ok W c ->
    ls_loop fpow P fuel F W ini k (halved (w_alpha0 W) k) tv c = LSAccept st pt tv' a g c' sc ->
    exists k', good F W st pt (halved (w_alpha0 W) k') /\ cache_ok W c' /\
      (sc = false -> tv' = fst pt /\ a = halved (w_alpha0 W) k' /\ g = w_gdir W).
  Proof.
    induction fuel as [|fuel IH]; intros F W ini k tv c st pt tv' a g c' sc Hc; simpl; [discriminate|].
    destruct (_ && _); [discriminate|].
    destruct (w_trial W k) as [[t1 p1]|]; [|discriminate].
    destruct (disable_ls P); [discriminate|].
    destruct (accept _ _ _ _ _ _ _ _ _ _) as [[s0 r0] c0] eqn:Ha.
    destruct (0 <? s0)%Z eqn:Hs.
    - intros H. inversion H; subst. exists k.
      destruct (accept_good _ _ _ _ _ _ _ _ _ Hc Ha Hs). auto.
    - assert (Hc0 : cache_ok W c0) by apply (accept_pos _ _ _ _ _ _ _ _ _ Hc Ha).
      destruct (_ && _).
      + destruct (soc _ _ _ _ _ _) eqn:Hsoc.
        * intros H. apply (IH F W false (S k) t1 c0 st pt tv' a g c' sc Hc0 H).
        * discriminate.
        * intros H. inversion H; subst. exists k.
          unfold soc in Hsoc. apply soc_loop_good in Hsoc; [|left; reflexivity].
          destruct Hsoc. split; auto. split; auto. discriminate.
      + intros H. apply (IH F W false (S k) t1 c0 st pt tv' a g c' sc Hc0 H).
  Qed.

  Lemma line_search_good fuel F W st pt tv a g c sc :
    line_search fpow P fuel F W = LSAccept st pt tv a g c sc ->
    exists k, good F W st pt (halved (w_alpha0 W) k) /\ cache_ok W c /\
      (sc = false -> tv = fst pt /\ a = halved (w_alpha0 W) k /\ g = w_gdir W).
  Proof. intros H. apply (ls_loop_good fuel F W true 0 _ _ _ _ _ _ _ _ _ (or_introl eq_refl) H). Qed.

  Lemma good_justified F W st pt k :
    good F W st pt (halved (w_alpha0 W) k) -> Justified fpow P W st pt.
  Proof. intros [_ H]. exists k. simpl. exact H. Qed.

  (* filter augmentation *)
  Lemma augment_filter F W o F' r :
    filter_augment fpow P F W o = (F', r) ->
    F' = match r with Some (t, p) => filter_add t p F | None => F end.
  Proof.
    destruct o as [st [t p] tv a g c sc| | | | |]; simpl; try (intros H; inversion H; reflexivity).
    repeat match goal with |- context [if ?b then _ else _] => destruct b end;
      intros H; inversion H; reflexivity.
  Qed.

  Lemma augment_record fuel F W st pt tv a g c F' r :
    line_search fpow P fuel F W = LSAccept st pt tv a g c false ->
    filter_augment fpow P F W (LSAccept st pt tv a g c false) = (F', r) ->
    r = Some pt \/
    (exists k, Switching fpow P (halved (w_alpha0 W) k) (w_gdir W) (w_theta W) /\
               Armijo P (halved (w_alpha0 W) k) (w_gdir W) (w_phi W) (snd pt)).
  Proof.
    intros H. destruct (line_search_good _ _ _ _ _ _ _ _ _ _ H) as (k & Hg & Hc & Hs).
    destruct (Hs eq_refl) as (-> & -> & ->). destruct pt as [t p]. simpl.
    rewrite (get_g_ok _ _ Hc).
    destruct Hg as [_ [(-> & _)|[(-> & _)|(-> & _ & H1 & H2)]]]; simpl.
    - destruct (switching _ _ _ _ _) eqn:Hsw.
      + destruct (armijo _ _ _ _ _) eqn:Har; intros H3; inversion H3; subst; auto.
        right. exists k. apply switching_iff in Hsw. auto.
      + intros H3; inversion H3; subst; auto.
    - intros H3; inversion H3; subst; auto.
    - intros _. right. exists k. auto.
  Qed.

  (* termination of backtracking *)
  Lemma ls_loop_terminates W F j : forall fuel k tv c,
    (k <= j)%nat -> (1 <= k)%nat -> (j - k < fuel)%nat ->
    flt (halved (w_alpha0 W) j) (min_step P) = true ->
    ls_loop fpow P fuel F W false k (halved (w_alpha0 W) k) tv c <> LSFuel.
  Proof.
    induction fuel as [|fuel IH]; intros k tv c Hk H1 Hf Hj; [lia|]. simpl.
    destruct (flt (halved (w_alpha0 W) k) (min_step P)) eqn:Hlt; [discriminate|].
    destruct (w_trial W k) as [[t1 p1]|]; [|discriminate].
    destruct (disable_ls P); [discriminate|].
    destruct (accept _ _ _ _ _ _ _ _ _ _) as [[s0 r0] c0].
    destruct (0 <? s0)%Z; [discriminate|].
    assert (k <> j) by (intros ->; congruence).
    apply (IH (S k) t1 c0); try lia. exact Hj.
  Qed.

  Lemma line_search_terminates W F j fuel :
    (1 <= j)%nat -> (j < fuel)%nat -> flt (halved (w_alpha0 W) j) (min_step P) = true ->
    line_search fpow P fuel F W <> LSFuel.
  Proof.
    intros Hj1 Hf Hj. unfold line_search. destruct fuel as [|fuel]; [lia|]. simpl.
    destruct (w_trial W 0) as [[t1 p1]|]; [|discriminate].
    destruct (disable_ls P); [discriminate|].
    destruct (accept _ _ _ _ _ _ _ _ _ _) as [[s0 r0] c0].
    destruct (0 <? s0)%Z; [discriminate|].
    assert (Hgo : ls_loop fpow P fuel F W false 1 (halved (w_alpha0 W) 1) t1 c0 <> LSFuel)
      by (apply (ls_loop_terminates W F j); auto; lia).
    destruct (fle _ _); [|exact Hgo].
    destruct (soc _ _ _ _ _ _); [exact Hgo|discriminate|discriminate].
  Qed.

  Lemma ls_loop_mono W F : forall fuel fuel' ini k a tv c,
    (fuel <= fuel')%nat ->
    ls_loop fpow P fuel F W ini k a tv c <> LSFuel ->
    ls_loop fpow P fuel' F W ini k a tv c = ls_loop fpow P fuel F W ini k a tv c.
  Proof.
    induction fuel as [|fuel IH]; intros fuel' ini k a tv c Hle; [simpl; congruence|].
    destruct fuel' as [|fuel']; [lia|]. simpl.
    destruct (_ && _); [reflexivity|].
    destruct (w_trial W k) as [[t1 p1]|]; [|reflexivity].
    destruct (disable_ls P); [reflexivity|].
    destruct (accept _ _ _ _ _ _ _ _ _ _) as [[s0 r0] c0].
    destruct (0 <? s0)%Z; [reflexivity|].
    destruct (_ && _); [|apply IH; lia].
    destruct (soc _ _ _ _ _ _); try reflexivity. apply IH; lia.
  Qed.
End LS.

(* ---- halving in binary64 ---- *)

Lemma f_half_val : val f_half = (/2)%R.
Proof. unfold val, f_half, SF2R, F2R. simpl. unfold Z.pow_pos. simpl. lra. Qed.

Lemma rne_bpow (e : Z) : (-1074 <= e <= 1023)%Z -> rne (bpow radix2 e) = bpow radix2 e.
Proof.
  intros H. apply round_generic; [apply valid_rnd_N|].
  apply generic_format_bpow. unfold SpecFloat.fexp, SpecFloat.emin. lia.
Qed.

Lemma rne_le x y : (x <= y)%R -> (rne x <= rne y)%R.
Proof. intros H. apply round_le; [apply valid_fe64|apply valid_rnd_N|exact H]. Qed.

Lemma rne_0 : rne 0 = 0%R.
Proof. apply round_0. apply valid_rnd_N. Qed.

Lemma halve_step (x : b64) (k : Z) :
  vb x = true -> finite x = true -> (0 <= val x <= bpow radix2 k)%R -> (-1073 <= k <= 1024)%Z ->
  vb (fmul x f_half) = true /\ finite (fmul x f_half) = true /\
  (0 <= val (fmul x f_half) <= bpow radix2 (k - 1))%R.
Proof.
  intros Hv Hf [H0 H1] Hk.
  assert (Hhv : vb f_half = true) by reflexivity.
  assert (Hb : (0 <= rne (val x * val f_half) <= bpow radix2 (k - 1))%R).
  { rewrite f_half_val. split.
    - rewrite <- rne_0. apply rne_le. lra.
    - rewrite <- (rne_bpow (k - 1)) by lia. apply rne_le.
      replace (bpow radix2 (k - 1)) with (bpow radix2 k * /2)%R; [lra|].
      replace (k - 1)%Z with (k + -1)%Z by lia. rewrite bpow_plus. reflexivity. }
  assert (Hlt : (Rabs (rne (val x * val f_half)) < bpow radix2 emax)%R).
  { rewrite Rabs_pos_eq by lra. apply Rle_lt_trans with (bpow radix2 (k - 1)); [lra|].
    apply bpow_lt. lia. }
  destruct (fmul_val x f_half Hv Hhv Hlt) as [E1 E2].
  split; [apply vb_fmul; auto|]. split; [rewrite E2, Hf; reflexivity|]. rewrite E1. exact Hb.
Qed.

Lemma halve_last (x : b64) :
  vb x = true -> finite x = true -> (0 <= val x <= bpow radix2 (-1074))%R ->
  finite (fmul x f_half) = true /\ val (fmul x f_half) = 0%R.
Proof.
  intros Hv Hf [H0 H1].
  assert (Hhv : vb f_half = true) by reflexivity.
  set (tiny := S754_finite false 1 (-1074)).
  assert (Htv : vb tiny = true) by reflexivity.
  assert (Htval : val tiny = bpow radix2 (-1074)).
  { unfold val, tiny, SF2R, F2R. simpl Fnum; simpl Fexp. simpl cond_Zopp. lra. }
  assert (Hsm : forall y, (0 <= y <= bpow radix2 (-1074))%R ->
                (0 <= rne (y * val f_half) <= bpow radix2 (-1074))%R).
  { intros y Hy. rewrite f_half_val. split.
    - rewrite <- rne_0. apply rne_le. lra.
    - rewrite <- (rne_bpow (-1074)) by lia. apply rne_le. pose proof (bpow_gt_0 radix2 (-1074)). lra. }
  assert (Hov : forall y, (0 <= y <= bpow radix2 (-1074))%R ->
                (Rabs (rne (y * val f_half)) < bpow radix2 emax)%R).
  { intros y Hy. specialize (Hsm y Hy). rewrite Rabs_pos_eq by lra.
    apply Rle_lt_trans with (bpow radix2 (-1074)); [lra|]. apply bpow_lt. lia. }
  destruct (fmul_val x f_half Hv Hhv (Hov _ (conj H0 H1))) as [E1 E2].
  split; [rewrite E2, Hf; reflexivity|].
  assert (Ht : (0 <= val tiny <= bpow radix2 (-1074))%R)
    by (rewrite Htval; pose proof (bpow_gt_0 radix2 (-1074)); lra).
  destruct (fmul_val tiny f_half Htv Hhv (Hov _ Ht)) as [E3 _].
  assert (E4 : fmul tiny f_half = S754_zero false) by (vm_compute; reflexivity).
  rewrite E4 in E3. change (val (S754_zero false)) with 0%R in E3. rewrite E1.
  assert (rne (val x * val f_half) <= rne (val tiny * val f_half))%R.
  { apply rne_le. rewrite Htval, f_half_val. lra. }
  specialize (Hsm _ (conj H0 H1)). rewrite <- E3 in H. lra.
Qed.

Lemma val_zero_inv x : vb x = true -> finite x = true -> val x = 0%R -> exists s, x = S754_zero s.
Proof.
  intros Hv Hf H. destruct x as [s|s| |s m e]; try discriminate; [eauto|].
  exfalso. unfold val, SF2R in H. apply eq_0_F2R in H. destruct s; discriminate.
Qed.

Lemma halved_bound a0 : vb a0 = true -> finite a0 = true -> (0 <= val a0 <= 1)%R ->
  forall k, (k <= 1074)%nat ->
  vb (halved a0 k) = true /\ finite (halved a0 k) = true /\
  (0 <= val (halved a0 k) <= bpow radix2 (- Z.of_nat k))%R.
Proof.
  intros Hv Hf H0. induction k as [|k IH]; intros Hk.
  - simpl. auto.
  - destruct IH as (I1 & I2 & I3); [lia|].
    replace (- Z.of_nat (S k))%Z with (- Z.of_nat k - 1)%Z by lia.
    apply (halve_step (halved a0 k)); auto. lia.
Qed.

Lemma halved_zero a0 : vb a0 = true -> finite a0 = true -> (0 <= val a0 <= 1)%R ->
  exists s, halved a0 1075 = S754_zero s.
Proof.
  intros Hv Hf H0. destruct (halved_bound a0 Hv Hf H0 1074 (le_n _)) as (I1 & I2 & I3).
  destruct (halve_last (halved a0 1074) I1 I2 I3) as [E1 E2].
  change (halved a0 1075) with (fmul (halved a0 1074) f_half).
  apply val_zero_inv; auto. apply vb_fmul; auto.
Qed.

Lemma unit_val a0 : vb a0 = true -> fge a0 f_zero = true -> fle a0 f_one = true ->
  finite a0 = true /\ (0 <= val a0 <= 1)%R.
Proof.
  intros Hv H0 H1.
  assert (Hf : finite a0 = true).
  { destruct a0 as [s|[|]| |s m e]; try reflexivity; discriminate. }
  split; auto.
  unfold fge in H0. change (fle f_zero a0 = true) in H0.
  rewrite fle_val in H0, H1; auto.
  assert (val f_one = 1%R).
  { change f_one with (S754_finite false 4503599627370496 (-52)).
    unfold val, SF2R, F2R. simpl. unfold Z.pow_pos; simpl. lra. }
  split.
  - destruct (Rle_bool_spec (val f_zero) (val a0)); [|discriminate]. exact H2.
  - destruct (Rle_bool_spec (val a0) (val f_one)); [|discriminate]. rewrite <- H. exact H2.
Qed.

Lemma zero_lt_minstep s m : fgt m f_zero = true -> flt (S754_zero s) m = true.
Proof. intros H. destruct m as [?|[|]| |[|] ? ?]; try discriminate; reflexivity. Qed.

Lemma line_search_terminates_b64 fpow P F W :
  fgt (min_step P) f_zero = true ->
  vb (w_alpha0 W) = true -> fge (w_alpha0 W) f_zero = true -> fle (w_alpha0 W) f_one = true ->
  line_search fpow P 1076 F W <> LSFuel.
Proof.
  intros Hm Hv H0 H1. destruct (unit_val _ Hv H0 H1) as [Hf Hb].
  destruct (halved_zero _ Hv Hf Hb) as [s Hs].
  apply (line_search_terminates fpow P W F 1075); [lia|lia|].
  rewrite Hs. apply zero_lt_minstep. exact Hm.
Qed.

(* never terminates with min_step = 0 or a NaN step *)
Definition nneg (x : b64) : bool :=
  match x with S754_zero _ | S754_nan => true | S754_infinity s | S754_finite s _ _ => negb s end.

Lemma bra_nneg m e l : nneg (SpecFloat.binary_round_aux 53 1024 false m e l) = true.
Proof.
  unfold SpecFloat.binary_round_aux.
  destruct (shr_fexp _ _ _) as [mrs1 e1]. destruct (shr_fexp _ _ _) as [mrs2 e2].
  destruct (shr_m mrs2); try reflexivity. destruct (Z.leb _ _); reflexivity.
Qed.

Lemma nneg_halve x : nneg x = true -> nneg (fmul x f_half) = true.
Proof.
  destruct x as [s|s| |s m e]; simpl; try reflexivity.
  - destruct s; [discriminate|reflexivity].
  - destruct s; [discriminate|]. intros _. apply bra_nneg.
Qed.

Lemma nneg_not_lt0 x : nneg x = true -> flt x f_zero = false.
Proof. destruct x as [s|[|]| |[|] m e]; simpl; try discriminate; reflexivity. Qed.
