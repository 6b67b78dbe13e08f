(** Lemmas for C11, C49: growth of the regularisation and the factorisation dialogue. *)
From Flocq Require Import Core BinarySingleNaN Mult_error.
From Coq Require Import List Bool ZArith Lia Reals Lra.
From Verif Require Import FloatBase FloatFacts FloatBridge MuModel RegModel RegSpec RegProofs RegProofs2.
Import ListNotations.

Lemma fmul_over x y : posfin x -> posfin y -> (bpow radix2 emax <= Rabs (rne (val x * val y)))%R -> fmul x y = S754_infinity false.
Proof.
  intros [Vx Fx] [Vy Fy] H. pose proof (Bmult_correct prec emax Hprec53 Hmax53 mode_NE (toB x Vx) (toB y Vy)) as C.
  rewrite !val_toB in C. simpl round_mode in C. fold rne in C. rewrite (Rlt_bool_false _ _ H) in C.
  rewrite <- (B2SF_toB x Vx), <- (B2SF_toB y Vy), fmul_B, C.
  assert (S : forall z Vz, posfin z -> Bsign (toB z Vz) = false).
  { intros z Vz [_ Fz]. destruct z as [s|s| |s m e]; try tauto. destruct s; [tauto|reflexivity]. }
  rewrite !S by (split; assumption). reflexivity.
Qed.
Lemma posfin_fin x : posfin x -> finite x = true.
Proof. intros [_ H]. destruct x as [s|s| |s m e]; tauto || reflexivity. Qed.
Lemma posfin_val x : posfin x -> (0 < val x)%R.
Proof. intros [_ H]. destruct x as [s|s| |s m e]; try tauto. destruct s; try tauto. unfold val. simpl. apply F2R_gt_0. reflexivity. Qed.
Lemma fle_inf x : nonneg x -> fle x (S754_infinity false) = true.
Proof. intros [_ H]. destruct x as [s|s| |s m e]; simpl in H; subst; try tauto; reflexivity. Qed.

Lemma fmul_grows k x : posfin k -> fle f_one k = true -> nonneg x -> fle x (fmul k x) = true.
Proof.
  intros Hk K Hx. assert (NN : nonneg (fmul k x)) by (apply fmul_nonneg; auto).
  assert (K1 : (1 <= val k)%R).
  { rewrite fle_val in K; [|reflexivity|apply Hk|reflexivity|apply posfin_fin; auto]. destruct (Rle_bool_spec (val f_one) (val k)) as [E|E]; [|discriminate].
    replace (val f_one) with 1%R in E; auto. unfold val, f_one. cbv. field_simplify; lra. }
  assert (Cx : posfin x \/ x = f_zero \/ x = S754_infinity false).
  { destruct Hx as [V H]. destruct x as [s|s| |s m e]; simpl in H; subst; auto; try tauto. left. split; auto. }
  destruct Cx as [Px|[->| ->]].
  - destruct (Rlt_or_le (Rabs (rne (val k * val x))) (bpow radix2 emax)) as [L|L].
    + destruct (fmul_val k x (proj1 Hk) (proj1 Px) L) as [E1 E2]. rewrite (posfin_fin k), (posfin_fin x) in E2 by auto.
      rewrite fle_val; [|apply Px|apply NN|apply posfin_fin; auto|exact E2]. apply Rle_bool_true. rewrite E1, <- (rne_val x) at 1; [|apply Px|apply posfin_fin; auto].
      apply round_le; [exact valid_fe64|apply valid_rnd_N|]. pose proof (posfin_val x Px). nra.
    + rewrite (fmul_over _ _ Hk Px L). apply fle_inf. exact Hx.
  - destruct Hk as [_ Fk]. destruct k as [s|s| |s m e]; try (exfalso; exact Fk). destruct s; [exfalso; exact Fk|reflexivity].
  - destruct Hk as [_ Fk]. destruct k as [s|s| |s m e]; try (exfalso; exact Fk). destruct s; [exfalso; exact Fk|reflexivity].
Qed.

Lemma fmul_grows_strict k x : posfin k -> fle (fofZ 2) k = true -> posfin x -> flt x (fmul k x) = true.
Proof.
  intros Hk K Px. assert (NN : nonneg (fmul k x)) by (apply fmul_nonneg; auto using posfin_nonneg).
  assert (K1 : (2 <= val k)%R).
  { rewrite fle_val in K; [|reflexivity|apply Hk|reflexivity|apply posfin_fin; auto]. destruct (Rle_bool_spec (val (fofZ 2)) (val k)) as [E|E]; [|discriminate].
    replace (val (fofZ 2)) with 2%R in E; auto. unfold val, fofZ. cbv. field_simplify; lra. }
  destruct (Rlt_or_le (Rabs (rne (val k * val x))) (bpow radix2 emax)) as [L|L].
  - destruct (fmul_val k x (proj1 Hk) (proj1 Px) L) as [E1 E2]. rewrite (posfin_fin k), (posfin_fin x) in E2 by auto.
    rewrite flt_val; [|apply Px|apply NN|apply posfin_fin; auto|exact E2]. apply Rlt_bool_true. rewrite E1.
    pose proof (posfin_val x Px) as PV.
    assert (F2 : generic_format radix2 fe64 (val x * bpow radix2 1)).
    { apply (mult_bpow_pos_exact_FLT radix2 (3 - emax - prec) prec); [|lia]. rewrite <- (val_toB x (proj1 Px)). apply generic_format_B2R. }
    assert (G : (val x * bpow radix2 1 <= rne (val k * val x))%R).
    { rewrite <- (round_generic radix2 fe64 ZnearestE _ F2) at 1. apply round_le; [exact valid_fe64|apply valid_rnd_N|]. simpl (bpow radix2 1). nra. }
    simpl (bpow radix2 1) in G. lra.
  - rewrite (fmul_over _ _ Hk Px L). destruct Px as [_ F]. destruct x as [s|s| |s m e]; try (exfalso; exact F). destruct s; [exfalso; exact F|reflexivity].
Qed.

Section F.
  Variables (fpow : b64 -> b64 -> b64) (P : reg_params) (nx md mc : nat) (fill : nat -> nat -> b64 -> list b64) (dbg : bool).
  Hypothesis HP : params_ok P.
  Hypothesis Hpow : pow_ok fpow P.
  Notation call := (call fpow P nx md mc fill dbg).
  Notation reach := (reach fpow P nx md mc fill dbg).

  Lemma ppw_grows s : good s -> fle f_one (rp_kplus P) = true -> fle f_one (rp_kplusbar P) = true -> fle (wx s) (ppw P s) = true.
  Proof.
    intros G K1 K2. pose proof (ppw_nonneg P nx fill HP s G) as N. destruct G as [[A _] _]. unfold ppw, increase in *. destruct HP as [_ [_ [_ [_ [H5 [H6 _]]]]]].
    destruct (feq (wx s) f_zero) eqn:E.
    - apply feq_zero in E; auto. rewrite E. match goal with |- fle _ ?x = true => change (nonneg x) in N; generalize dependent x end.
      intros x [_ N]. destruct x as [z|z| |z m e]; simpl in N; subst; try reflexivity. tauto.
    - destruct (_ || _); apply fmul_grows; auto.
  Qed.
  Lemma ppw_grows_strict s : good s -> posfin (wx s) -> fle (fofZ 2) (rp_kplus P) = true -> fle (fofZ 2) (rp_kplusbar P) = true -> flt (wx s) (ppw P s) = true.
  Proof.
    intros G PX K1 K2. unfold ppw, increase. destruct HP as [_ [_ [_ [_ [H5 [H6 _]]]]]].
    destruct (feq (wx s) f_zero) eqn:E.
    - apply feq_zero in E; [|apply G]. rewrite E in PX. destruct PX as [_ []].
    - destruct (_ || _); apply fmul_grows_strict; auto.
  Qed.
  Lemma pf_wrong_grows s ok mus s' : Inv fpow P nx md mc fill s ok mus -> pf_wrong_inertia fpow P nx md mc fill dbg s = Some (true, s') ->
    (wx s' = ppw P s /\ cc s' = cc s) \/ (cc s = f_zero /\ cc s' = delta_c fpow P (mu s) /\ fgt (ppw P s) (rp_wmax P) = true).
  Proof.
    intros I H. unfold pf_wrong_inertia in H. pose proof (Inv_upd _ _ _ _ _ _ _ _ _ I) as I1.
    assert (E1 : ppw P (update_degeneracy s) = ppw P s /\ cc (update_degeneracy s) = cc s /\ mu (update_degeneracy s) = mu s).
    { destruct (upd_proj s) as [X1 [X2 [X3 [X4 [X5 [X6 [_ [_ [_ [_ [_ [_ [X13 _]]]]]]]]]]]]]. unfold ppw. rewrite X1, X5. auto. }
    destruct E1 as [Ea [Eb Ec]]. rewrite <- Ea, <- Eb, <- Ec. set (s1 := update_degeneracy s) in *. clearbody s1. cbv zeta in H.
    apply chk_some in H. apply chk_some in H.
    destruct (primal_perturb P nx md mc fill dbg s1) as [[r s2]|] eqn:PP; [|discriminate].
    apply primal_perturb_spec in PP. destruct PP as [-> ->].
    destruct (pp_state_proj P nx md mc fill s1) as [P1 [P2 [P3 [P4 [P5 _]]]]]. set (s2 := pp_state P nx md mc fill s1) in *. clearbody s2.
    destruct (negb (negb _) && _) eqn:C.
    - right. apply andb_prop in C. destruct C as [C1 C2]. rewrite negb_involutive in C1.
      assert (Z : cc s2 = f_zero) by (apply feq_zero; [rewrite P3; apply I1|exact C2]). rewrite P3 in Z. split; [exact Z|]. split; [|exact C1].
      match type of H with match primal_perturb _ _ _ _ _ _ ?x with _ => _ end = _ => assert (Q : cc x = delta_c fpow P (mu s2)) by (destruct (degen_eqb _ _); reflexivity); generalize dependent x end.
      intros x H Q. destruct (primal_perturb P nx md mc fill dbg x) as [[r2 s5]|] eqn:PP; [|discriminate]. injection H as -> <-.
      apply primal_perturb_spec in PP. destruct PP as [_ ->]. destruct (pp_state_proj P nx md mc fill x) as [_ [_ [Y _]]]. pj. rewrite Y, Q, P5. reflexivity.
    - left. injection H as _ <-. pj. auto.
  Qed.

  Lemma require_cases a v req ans s r s' : require_refact fpow P nx md mc fill dbg a v req ans false s = Some (r, s') ->
    (r = 0%Z /\ s' = s /\ usable a req ans = true) \/
    (usable a req ans = false /\ exists o b, (o = OWrong \/ o = OSing) /\ call v o s = Some (b, s') /\ r = if b then 1%Z else (-1)%Z).
  Proof.
    assert (AK : forall x, ask x = Some (r, s') -> exists b, x = Some (b, s') /\ r = if b then 1%Z else (-1)%Z).
    { intros [[b z]|] E; [|discriminate]. injection E as <- <-. eauto. }
    assert (AR : forall o x, (o = OWrong \/ o = OSing) -> call v o s = x -> ask x = Some (r, s') ->
                 exists o b, (o = OWrong \/ o = OSing) /\ call v o s = Some (b, s') /\ r = if b then 1%Z else (-1)%Z).
    { intros o x O E H. apply AK in H. destruct H as [b [H1 H2]]. exists o, b. rewrite E, H1. auto. }
    unfold require_refact, usable. intro H. destruct a.
    - destruct (0 <? req)%Z eqn:R.
      + destruct (ans <? 0)%Z eqn:L.
        * right. split; [apply Z.eqb_neq; apply Z.ltb_lt in L; apply Z.ltb_lt in R; lia|]. apply (AR OSing _ (or_intror eq_refl) eq_refl H).
        * destruct (ans =? req)%Z eqn:E; cbn [negb] in H; [left; injection H as <- <-; auto|right]. split; auto. apply (AR OWrong _ (or_introl eq_refl) eq_refl H).
      + destruct (ans =? 0)%Z eqn:E; cbn [negb] in H; [left; injection H as <- <-; auto|right]. split; auto. apply (AR OWrong _ (or_introl eq_refl) eq_refl H).
    - cbn [negb] in H. rewrite Z.leb_antisym. destruct (0 <? req)%Z eqn:R; destruct (ans <? 0)%Z eqn:L; cbn [negb].
      + right. split; auto. apply (AR OSing _ (or_intror eq_refl) eq_refl H).
      + left. injection H as <- <-. auto.
      + right. split; auto. apply (AR OWrong _ (or_introl eq_refl) eq_refl H).
      + left. injection H as <- <-. auto.
  Qed.

  (** the regularisation exceeded its maximum *)
  Definition over (v : variant) (s : reg) : Prop :=
    fgt (wx s) (rp_wmax P) = true \/ (v = DualFirst /\ fgt (cc s) (rp_wmax P) = true).
  Lemma call_over v al s ok mus o s' : reach v al s ok mus -> (o = OWrong \/ o = OSing) -> call v o s = Some (false, s') -> over v s'.
  Proof.
    intros R O C. destruct v.
    - apply pf_reach in R; auto. left. destruct O as [-> | ->]; cbn [RegSpec.call wrong_inertia singularity] in C.
      + apply (pf_wrong_inv _ _ _ _ _ _ _ HP Hpow _ _ _ _ _ R C). reflexivity.
      + apply (pf_sing_inv _ _ _ _ _ _ _ HP Hpow _ _ _ _ _ R C). reflexivity.
    - apply df_reach in R; auto. destruct (df_wrong_runs fpow P nx md mc fill dbg HP Hpow s ok R) as [b [x [X1 [_ X2]]]].
      assert (C2 : df_wrong_inertia fpow P nx md mc fill dbg s = Some (false, s')) by (destruct O as [-> | ->]; exact C).
      rewrite X1 in C2. injection C2 as -> ->. destruct (X2 eq_refl); [left|right]; auto.
  Qed.

  Definition all_ops (o : op) : Prop := True.
  Lemma reach_req v s mus o b s' : reach v all_ops s true mus -> (o = OWrong \/ o = OSing) -> call v o s = Some (b, s') -> reach v all_ops s' b mus.
  Proof.
    intros R O C. assert (X : forall m, o = OMu m -> posfin m) by (intros m E; destruct O as [-> | ->]; discriminate).
    pose proof (reach_step fpow P nx md mc fill dbg v all_ops s true mus o b s' R I X C) as Y. destruct O as [-> | ->]; exact Y.
  Qed.

  Lemma fact_loop_spec a v req answer mus : forall fuel num s, reach v all_ops s true mus -> num <= 11 -> 12 - num <= fuel ->
    forall o, fact_loop fpow P nx md mc fill dbg fuel a v req answer num s = Some o ->
    exists b s' l, o = Some (b, s', l) /\ num + length l <= 11 /\ Forall (fun x => reach v all_ops (fst x) true mus) l /\
      map snd l = map answer (seq num (length l)) /\
      (b = true -> exists l0 ans, l = l0 ++ [(s', ans)] /\ usable a req ans = true /\ Forall (fun x => usable a req (snd x) = false) l0) /\
      (b = false -> Forall (fun x => usable a req (snd x) = false) l /\ (num + length l = 11 \/ over v s')).
  Proof.
    induction fuel as [|fuel IH]; intros num s R N F o H; [lia|]. cbn [fact_loop] in H. destruct (Nat.leb_spec num 10) as [L|L].
    2:{ injection H as <-. exists false, s, []. assert (num = 11) as -> by lia. simpl. repeat split; auto; try discriminate. }
    destruct (require_refact _ _ _ _ _ _ _ a v req (answer num) false s) as [[r s1]|] eqn:RR; [|discriminate].
    apply require_cases in RR. destruct RR as [[-> [-> U]]|[U [o' [b [O [C ->]]]]]].
    - cbn [Z.eqb] in H. injection H as <-. destruct (Nat.ltb_spec 10 num); [lia|]. eexists true, s, _. split; [reflexivity|]. simpl. split; [lia|].
      split; [constructor; auto|]. split; [reflexivity|]. split; [|discriminate]. intros _. exists [], (answer num). auto.
    - destruct b; cbn [Z.eqb] in H.
      + destruct (fact_loop _ _ _ _ _ _ _ fuel a v req answer (S num) s1) as [o2|] eqn:FL; [|discriminate].
        pose proof (reach_req _ _ _ _ _ _ R O C) as R1.
        destruct (IH (S num) s1 R1 ltac:(lia) ltac:(lia) o2 FL) as [b2 [s2 [l [-> [LL [FR [SN [HT HF]]]]]]]]. injection H as <-.
        eexists b2, s2, _. split; [reflexivity|]. cbn [length map seq]. split; [lia|]. split; [constructor; auto|]. split; [simpl; rewrite SN; reflexivity|]. split.
        * intro E. destruct (HT E) as [l0 [ans [-> [U2 FU]]]]. exists ((s, answer num) :: l0), ans. split; [reflexivity|]. split; auto.
        * intro E. destruct (HF E) as [FU D]. split; [constructor; auto|]. destruct D; [left; lia|right; auto].
      + injection H as <-. eexists false, s1, _. split; [reflexivity|]. simpl. split; [lia|]. split; [constructor; auto|]. split; [reflexivity|]. split; [discriminate|].
        intros _. split; [constructor; auto|]. right. apply (call_over _ _ _ _ _ _ _ R O C).
  Qed.

  Lemma free_loop_spec v req answer : forall fuel num s, num <= 11 -> 12 - num <= fuel ->
    forall o, free_loop fpow P nx md mc fill dbg fuel InertiaFree v req answer num (answer num) s = Some o ->
    exists b s' l, o = Some (b, s', l) /\ num + length l <= 11 /\ map snd l = map answer (seq (S num) (length l)) /\
      (b = true -> num + length l = 11 \/ (0 <= answer (num + length l)%nat)%Z).
  Proof.
    induction fuel as [|fuel IH]; intros num s N F o H; [lia|]. cbn [free_loop] in H.
    destruct (Nat.leb num 10 && (answer num <? 0)%Z) eqn:C.
    - apply andb_prop in C. destruct C as [C1 C2]. apply Nat.leb_le in C1.
      destruct (require_refact _ _ _ _ _ _ _ InertiaFree v req (answer num) false s) as [[r s1]|] eqn:RR; [|discriminate].
      apply require_cases in RR. destruct RR as [[-> [-> U]]|[U [o' [b [O [Cl ->]]]]]]; [apply Z.leb_le in U; apply Z.ltb_lt in C2; lia|].
      destruct b; cbn [Z.eqb] in H.
      + apply chk_some in H. destruct (free_loop _ _ _ _ _ _ _ fuel InertiaFree v req answer (S num) (answer (S num)) s1) as [o2|] eqn:FL; [|discriminate].
        destruct (IH (S num) s1 ltac:(lia) ltac:(lia) o2 FL) as [b2 [s2 [l [-> [LL [SN HT]]]]]]. injection H as <-.
        eexists b2, s2, _. split; [reflexivity|]. cbn [length map seq]. split; [lia|]. split; [simpl; rewrite SN; reflexivity|].
        intro E. rewrite <- Nat.add_succ_comm. apply HT. exact E.
      + injection H as <-. eexists false, s1, []. split; [reflexivity|]. simpl. split; [lia|]. split; [reflexivity|discriminate].
    - injection H as <-. eexists true, s, []. split; [reflexivity|]. simpl. split; [lia|]. split; [reflexivity|]. intros _. rewrite Nat.add_0_r.
      apply andb_false_iff in C. destruct C as [C|C]; [left; apply Nat.leb_gt in C; lia|right; apply Z.ltb_ge in C; exact C].
  Qed.
End F.
