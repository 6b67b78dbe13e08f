(** Lemmas for C86. *)
From Flocq Require Import Core BinarySingleNaN Relative.
From Coq Require Import List Bool Arith ZArith Lia Reals Lra.
From Verif Require Import RingKit FloatBase FloatFacts FloatBridge MuProofs FtbProofs.
From Verif Require Import Ma57Model Ma57Spec.
Import ListNotations.

(** * sizes *)
Section Sizes.
Open Scope R_scope.
Lemma ofZ_val k : (0 <= k <= 2147483647)%Z -> val (fofZ k) = IZR k /\ fin (fofZ k).
Proof.
  intro Hk. unfold fofZ. 
  pose proof (binary_normalize_correct prec emax Hprec53 Hmax53 mode_NE k 0 false) as H. cbv zeta in H.
  assert (E : F2R (Float radix2 k 0) = IZR k) by (unfold F2R; simpl; lra).
  assert (G : round radix2 fe64 ZnearestE (IZR k) = IZR k).
  { apply round_generic; [apply valid_rnd_N|]. rewrite <- E. apply generic_format_F2R. intro Hn.
    unfold cexp. rewrite E. unfold SpecFloat.fexp, SpecFloat.emin. 
    assert (B : (mag radix2 (IZR k) <= 31)%Z).
    { apply mag_le_bpow. { intro Z0. apply Hn. apply eq_IZR. exact Z0. }
      change (bpow radix2 31) with (IZR 2147483648). rewrite Rabs_pos_eq by (apply IZR_le; lia). apply IZR_lt. lia. }
    lia. }
  rewrite E in H. simpl round_mode in H. rewrite G in H. rewrite Rlt_bool_true in H.
  - destruct H as (H1 & H2 & _). rewrite bn_eq. split; [rewrite val_B2SF; exact H1|].
    split; [unfold vb; apply valid_binary_B2SF|]. unfold finite. rewrite is_finite_SF_B2SF. exact H2.
  - rewrite Rabs_pos_eq by (apply IZR_le; lia). eapply Rlt_le_trans with (IZR 2147483648); [apply IZR_lt; lia|].
    change (IZR 2147483648) with (bpow radix2 31). apply bpow_le. lia.
Qed.
Lemma rne_int k : (0 <= k <= 2147483647)%Z -> rne (IZR k) = IZR k.
Proof. intro H. destruct (ofZ_val k H) as [E [V F]]. rewrite <- E. apply rne_val; auto. Qed.
Lemma val_105 : val f_105 = 4728779608739021 / 4503599627370496.
Proof. unfold val. replace f_105 with (S754_finite false 4728779608739021 (-52)) by (vm_compute; reflexivity). unfold SF2R, F2R. cbn [Fnum Fexp cond_Zopp]. change (bpow radix2 (-52)) with (/ 4503599627370496). lra. Qed.
Lemma fin_105 : fin f_105. Proof. split; vm_compute; reflexivity. Qed.

(** truncation of a nonnegative value *)
Lemma to_int_floor x z : vb x = true -> finite x = true -> (0 <= z)%Z -> IZR z <= val x < IZR (z + 1) ->
  to_int x = if (z <=? 2147483647)%Z then Some z else None.
Proof.
  intros V F Hz [L U]. unfold val in *. destruct x as [s|s| |s m e]; try discriminate.
  - cbn in L, U. assert (z <= 0)%Z by (apply le_IZR; lra). replace z with 0%Z by lia. reflexivity.
  - cbn [to_int]. unfold SF2R, F2R in *. cbn [Fnum Fexp] in *.
    destruct s.
    { cbn [cond_Zopp] in *. exfalso. assert (0 < bpow radix2 e) by apply bpow_gt_0.
      assert (IZR (Z.neg m) < 0) by (apply IZR_lt; lia).
      assert (IZR (Z.neg m) * bpow radix2 e < 0) by nra. assert (0 <= IZR z) by (apply IZR_le; lia). change (- Z.pos m)%Z with (Z.neg m) in *. lra. }
    cbn [cond_Zopp] in *.
    assert (A : (if 0 <=? e then Z.pos m * 2 ^ e else Z.pos m / 2 ^ (- e))%Z = z).
    { destruct (Z.leb_spec 0 e) as [He|He].
      - replace (bpow radix2 e) with (IZR (2 ^ e)) in * by (destruct e; [reflexivity|reflexivity|lia]).
        rewrite <- mult_IZR in *. apply le_IZR in L. apply lt_IZR in U. lia.
      - assert (P : (0 < 2 ^ (- e))%Z) by (apply Z.pow_pos_nonneg; lia).
        assert (Eb : bpow radix2 e = / IZR (2 ^ (- e))).
        { rewrite <- (Z.opp_involutive e) at 1. rewrite bpow_opp. f_equal. destruct (- e)%Z eqn:X; [lia|reflexivity|lia]. }
        rewrite Eb in *. assert (0 < IZR (2 ^ (- e))) as PR by (apply IZR_lt; lia).
        assert (L' : IZR z * IZR (2 ^ (- e)) <= IZR (Z.pos m)).
        { apply Rmult_le_compat_r with (r := IZR (2 ^ (- e))) in L; [|lra]. rewrite Rmult_assoc, Rinv_l, Rmult_1_r in L by lra. exact L. }
        assert (U' : IZR (Z.pos m) < IZR (z + 1) * IZR (2 ^ (- e))).
        { apply Rmult_lt_compat_r with (r := IZR (2 ^ (- e))) in U; [|lra]. rewrite Rmult_assoc, Rinv_l, Rmult_1_r in U by lra. exact U. }
        rewrite <- mult_IZR in L', U'. apply le_IZR in L'. apply lt_IZR in U'.
        symmetry. apply Z.div_unique with (r := (Z.pos m - z * 2 ^ (- e))%Z); [left|]; nia. }
    rewrite A. replace (-2147483648 <=? z)%Z with true by (symmetry; apply Z.leb_le; lia). reflexivity.
Qed.

Lemma grow_spec k : (0 <= k <= 2147483647)%Z ->
  grow k = if (21 * k / 20 <=? 2147483647)%Z then Some (21 * k / 20)%Z else None.
Proof.
  intro Hk. destruct (ofZ_val k Hk) as [E [V F]]. destruct fin_105 as [V5 F5].
  assert (K0 : 0 <= IZR k) by (apply IZR_le; lia). assert (K1 : IZR k <= 2147483647) by (apply IZR_le; lia).
  set (q := (21 * k / 20)%Z). assert (Q : (20 * q <= 21 * k < 20 * (q + 1))%Z) by (unfold q; pose proof (Z.div_mod (21*k) 20); pose proof (Z.mod_pos_bound (21*k) 20); lia).
  assert (Q0 : (0 <= q <= 2254857829)%Z) by lia.
  set (p := val (fofZ k) * val f_105).
  assert (Pe : p = IZR k * (4728779608739021 / 4503599627370496)) by (unfold p; rewrite E, val_105; reflexivity).
  assert (Rq : rne (IZR q) = IZR q).
  { apply round_generic; [apply valid_rnd_N|].
    assert (EQ : F2R (Float radix2 q 0) = IZR q) by (unfold F2R; simpl; lra). rewrite <- EQ. apply generic_format_F2R. intro Hn.
    unfold cexp. rewrite EQ. unfold SpecFloat.fexp, SpecFloat.emin.
    assert (B : (mag radix2 (IZR q) <= 32)%Z).
    { apply mag_le_bpow. { intro Z0. apply Hn. apply eq_IZR. exact Z0. }
      change (bpow radix2 32) with (IZR 4294967296). rewrite Rabs_pos_eq by (apply IZR_le; lia). apply IZR_lt. lia. }
    lia. }
  assert (Lq : IZR q <= p).
  { rewrite Pe. destruct Q as [Q1 _]. apply IZR_le in Q1. rewrite !mult_IZR in Q1. lra. }
  assert (Uq : p <= IZR q + 19/20 + 1/1000000).
  { rewrite Pe. assert (Q2 : (21 * k <= 20 * q + 19)%Z) by lia. apply IZR_le in Q2. rewrite plus_IZR, !mult_IZR in Q2. lra. }
  assert (L : IZR q <= rne p) by (rewrite <- Rq; apply rne_mono; exact Lq).
  assert (Pp : 0 <= p) by (rewrite Pe; apply Rmult_le_pos; lra).
  assert (U : rne p < IZR (q + 1)).
  { rewrite plus_IZR. destruct (Rle_or_lt (bpow radix2 (-1022)) p) as [B|B].
    - pose proof (rne_up p B) as H. change (bpow radix2 (-53)) with (/ 9007199254740992) in H.
      assert (p <= 2254857831) by (destruct Q0 as [_ Q0]; apply IZR_le in Q0; lra). lra.
    - assert (bpow radix2 (-1022) <= bpow radix2 (-2)) as B2 by (apply bpow_le; lia).
      assert (rne p <= rne (bpow radix2 (-2))) as M by (apply rne_mono; lra). rewrite rne_pow2 in M by lia.
      change (bpow radix2 (-2)) with (/ 4) in *. assert (0 <= IZR q) by (apply IZR_le; lia). lra. }
  assert (Bd : Rabs (rne p) < bpow radix2 emax).
  { rewrite Rabs_pos_eq by (assert (0 <= IZR q) by (apply IZR_le; lia); lra).
    eapply Rlt_trans; [exact U|]. eapply Rlt_le_trans with (bpow radix2 32); [change (bpow radix2 32) with (IZR 4294967296); apply IZR_lt; lia|apply bpow_le; lia]. }
  unfold grow. destruct (fmul_val (fofZ k) f_105 V V5 Bd) as [Ev Ef]. fold p in Ev.
  apply to_int_floor; [apply vb_fmul; assumption|rewrite Ef, F, F5; reflexivity|lia|rewrite Ev; auto].
Qed.
End Sizes.

(** * the loop *)
Local Open Scope Z_scope.
Lemma grow_some k : 0 <= k <= max_request -> grow k = Some (21 * k / 20) /\ k <= 21 * k / 20.
Proof.
  unfold max_request. intro H. rewrite grow_spec by lia.
  assert (20 * (21 * k / 20) <= 21 * k < 20 * (21 * k / 20 + 1)) as Q by (pose proof (Z.div_mod (21*k) 20); pose proof (Z.mod_pos_bound (21*k) 20); lia).
  replace (21 * k / 20 <=? 2147483647) with true by (symmetry; apply Z.leb_le; lia). split; [reflexivity|lia].
Qed.
Lemma grow_none k : max_request < k <= 2147483647 -> grow k = None.
Proof.
  unfold max_request. intro H. rewrite grow_spec by lia.
  assert (20 * (21 * k / 20) <= 21 * k < 20 * (21 * k / 20 + 1)) as Q by (pose proof (Z.div_mod (21*k) 20); pose proof (Z.mod_pos_bound (21*k) 20); lia).
  replace (21 * k / 20 <=? 2147483647) with false by (symmetry; apply Z.leb_gt; lia). reflexivity.
Qed.
(** number of calls still possible *)
Definition room (R I lr li : Z) : nat := Z.to_nat (Z.max 0 (R - lr) + Z.max 0 (I - li)).
Lemma loop_ends R I bd dbg : tame R I bd -> R <= max_request -> I <= max_request ->
  forall fuel c lr li, 0 <= lr -> 0 <= li -> (room R I lr li < fuel)%nat ->
  exists d lr' li',
    loop dbg bd fuel c lr li = Return (S (c + d)) lr' li' (if i_code (bd (c + d)%nat lr' li') =? 4 then -1 else i_neg (bd (c + d)%nat lr' li')) /\
    (d <= room R I lr li)%nat /\ (i_code (bd (c + d)%nat lr' li') = 0 \/ i_code (bd (c + d)%nat lr' li') = 4) /\
    (lr' = lr \/ lr < lr' <= 21 * R / 20) /\ (li' = li \/ li < li' <= 21 * I / 20).
Proof.
  intros T HR HI. induction fuel as [|f IH]; intros c lr li Hr Hi Hf; [lia|].
  cbn [loop]. destruct (T c lr li Hr Hi) as [E|[E|[[E B]|[E B]]]]; rewrite E.
  - exists 0%nat, lr, li. rewrite Nat.add_0_r, E. cbn. repeat split; auto. lia.
  - exists 0%nat, lr, li. rewrite Nat.add_0_r, E. cbn. repeat split; auto. lia.
  - change (-3 =? 0) with false. change (-3 =? -3) with true. cbv iota.
    destruct (grow_some (i_real (bd c lr li))) as [G G2]; [lia|]. rewrite G.
    set (g := 21 * i_real (bd c lr li) / 20) in *.
    assert (g <= 21 * R / 20) by (apply Z.div_le_mono; lia).
    replace (g <? 0) with false by (symmetry; apply Z.ltb_ge; lia).
    destruct (IH (S c) g li) as (d & lr' & li' & H1 & H2 & H3 & H4 & H5); [lia|lia|unfold room in *; lia|].
    exists (S d), lr', li'. rewrite Nat.add_succ_r. rewrite Nat.add_succ_l in *. split; [exact H1|]. split; [unfold room in *; lia|]. split; [exact H3|]. split; [lia|exact H5].
  - change (-4 =? 0) with false. change (-4 =? -3) with false. change (-4 =? -4) with true. cbv iota.
    destruct (grow_some (i_int (bd c lr li))) as [G G2]; [lia|]. rewrite G.
    set (g := 21 * i_int (bd c lr li) / 20) in *.
    assert (g <= 21 * I / 20) by (apply Z.div_le_mono; lia).
    replace (g <? 0) with false by (symmetry; apply Z.ltb_ge; lia).
    destruct (IH (S c) lr g) as (d & lr' & li' & H1 & H2 & H3 & H4 & H5); [lia|lia|unfold room in *; lia|].
    exists (S d), lr', li'. rewrite Nat.add_succ_r. rewrite Nat.add_succ_l in *. split; [exact H1|]. split; [unfold room in *; lia|]. split; [exact H3|]. split; [exact H4|lia].
Qed.
(** a request that is not above the current size, below 20: the size never changes *)
Lemma loop_stuck dbg bd k : 0 <= k < 20 -> (forall c lr li, i_code (bd c lr li) = -3 /\ i_real (bd c lr li) = k) ->
  forall fuel c lr li, loop dbg bd fuel c lr li = Running.
Proof.
  intros Hk H. induction fuel as [|f IH]; intros c lr li; [reflexivity|]. cbn [loop]. destruct (H c lr li) as [E E2]. rewrite E, E2.
  change (-3 =? 0) with false. change (-3 =? -3) with true. cbv iota.
  destruct (grow_some k) as [G G2]; [unfold max_request; lia|]. rewrite G.
  replace (21 * k / 20 <? 0) with false by (symmetry; apply Z.ltb_ge; lia). apply IH.
Qed.
Lemma loop_unknown bd e : e < 0 -> e <> -3 -> e <> -4 -> (forall c lr li, i_code (bd c lr li) = e) ->
  forall fuel c lr li, loop false bd fuel c lr li = Running.
Proof.
  intros H1 H2 H3 H. induction fuel as [|f IH]; intros c lr li; [reflexivity|]. cbn [loop]. rewrite H.
  destruct (Z.eqb_spec e 0); [lia|]. destruct (Z.eqb_spec e (-3)); [lia|]. destruct (Z.eqb_spec e (-4)); [lia|]. destruct (Z.eqb_spec e 4); [lia|].
  destruct (Z.leb_spec 0 e); [lia|]. apply IH.
Qed.
