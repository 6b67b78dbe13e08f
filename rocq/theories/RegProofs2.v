(** Lemmas for C11, C12: the dual-first calculator, absence of aborts, the factorisation dialogue. *)
From Flocq Require Import Core BinarySingleNaN.
From Coq Require Import List Bool ZArith Lia Reals Lra.
From Verif Require Import FloatBase FloatFacts FloatBridge MuModel RegModel RegSpec RegProofs.
Import ListNotations.

Section D.
  Variables (fpow : b64 -> b64 -> b64) (P : reg_params) (nx md mc : nat) (fill : nat -> nat -> b64 -> list b64) (dbg : bool).
  Hypothesis HP : params_ok P.
  Hypothesis Hpow : pow_ok fpow P.

  (** x and slack (c and d) values agree, nothing is classified degenerate, the test is trivial *)
  Definition tame (s : reg) : Prop :=
    wd s = wx s /\ cd s = cc s /\ lwd s = lwx s /\ lcd s = lcc s /\ hess s <> Degenerate /\ jac s <> Degenerate /\ (test s = NoTest \/ test s = c0w0).

  Lemma feq_same x y : nonneg x -> y = x -> feq x y = true.
  Proof. intros H ->. apply feq_refl. apply nonneg_nn. exact H. Qed.
  Lemma primal_perturb_runs s : good s -> wd s = wx s -> lwd s = lwx s ->
    primal_perturb P nx md mc fill dbg s = Some (negb (fgt (ppw P s) (rp_wmax P)), pp_state P nx md mc fill s).
  Proof.
    intros [[A _] [[B _] _]] E1 E2. unfold primal_perturb, pp_state. rewrite (feq_same _ _ A E1), (feq_same _ _ B E2), !chk_true. pj. fold (ppw P s).
    destruct (fgt _ _); reflexivity.
  Qed.
  Lemma tame_pp s : tame s -> tame (pp_state P nx md mc fill s).
  Proof. intros [A [B [C [D [E [F G]]]]]]. unfold tame, pp_state. destruct (fgt _ _); pj; auto 10. Qed.
  Lemma tame_upd s : tame s -> tame (update_degeneracy s).
  Proof.
    intros [A [B [C [D [E [F G]]]]]]. destruct (upd_proj s) as [E1 [E2 [E3 [E4 [E5 [E6 [E7 [E8 [_ [_ [_ [_ [_ E14]]]]]]]]]]]]].
    unfold tame. rewrite E1, E2, E3, E4, E5, E6, E7, E8, E14. do 4 (split; [assumption|]).
    unfold update_degeneracy. destruct G as [->| ->]; pj; auto. destruct (hess s), (jac s); simpl; auto; repeat split; auto; discriminate.
  Qed.
  Lemma tame_save s : tame s -> tame (reset_test (save_last s)).
  Proof.
    intros [A [B [C [D [E [F G]]]]]]. unfold tame. pj. rewrite A, B, C, D. do 4 (split; [reflexivity|]). split; [exact E|]. split; [exact F|]. destruct (_ || _); auto.
  Qed.

  (** ** primal-first without singularity reports *)
  Lemma pf_initial_runs s : good s -> tame s ->
    exists s', pf_initial fpow P nx md mc fill dbg s = Some (true, s') /\ tame s'.
  Proof.
    intros G T. unfold pf_initial. pose proof (tame_save _ (tame_upd _ T)) as T1. set (s1 := reset_test (save_last (update_degeneracy s))) in *. cbv zeta.
    assert (J : degen_eqb (jac s1) Degenerate = false) by (destruct T1 as [_ [_ [_ [_ [_ [F _]]]]]]; destruct (jac s1); auto; congruence).
    assert (H : degen_eqb (hess s1) Degenerate = false) by (destruct T1 as [_ [_ [_ [_ [F _]]]]]; destruct (hess s1); auto; congruence).
    rewrite J. pj. rewrite H. eexists. split; [reflexivity|]. destruct T1 as [A [B [C [D [E [F K]]]]]]. unfold tame; pj; auto 10.
  Qed.
  Lemma pf_wrong_runs s : good s -> tame s ->
    exists b s', pf_wrong_inertia fpow P nx md mc fill dbg s = Some (b, s') /\ tame s'.
  Proof.
    intros G T. unfold pf_wrong_inertia. apply tame_upd in T. apply upd_good in G. set (s1 := update_degeneracy s) in *. cbv zeta.
    assert (T0 := T). destruct T0 as [A [B [C _]]].
    rewrite (feq_same (wx s1) _ (proj1 (proj1 G)) A), (feq_same (cc s1) (cd s1)), !chk_true; [|apply G|exact B].
    rewrite (primal_perturb_runs s1 G A C). pose proof (pp_state_good P nx md mc fill HP s1 G) as G2. pose proof (tame_pp s1 T) as T2.
    set (s2 := pp_state P nx md mc fill s1) in *. destruct (_ && _).
    - set (dc := delta_c fpow P (mu s2)). set (s3 := set_test (set_c (set_w s2 f_zero f_zero) dc dc) NoTest).
      assert (H : degen_eqb (hess s3) Degenerate = false) by (destruct T2 as [_ [_ [_ [_ [F _]]]]]; unfold s3; pj; destruct (hess s2); auto; congruence).
      rewrite H.
      assert (T3 : tame s3) by (destruct T2 as [A2 [B2 [C2 [D2 [E2 [F2 K2]]]]]]; unfold tame, s3; pj; auto 10).
      assert (G3 : good s3).
      { assert (N : nonneg dc) by (apply delta_c_nonneg; auto; apply G2). destruct G2 as [_ [X Y]]. unfold good, s3; pj; auto 10 using nonneg_zero. }
      rewrite (primal_perturb_runs s3 G3); [|apply T3|apply T3]. eexists _, _. split; [reflexivity|].
      pose proof (tame_pp s3 T3) as T4. exact T4.
    - eexists _, _. split; [reflexivity|]. exact T2.
  Qed.

  Lemma pf_no_sing_tame s ok mus : reach fpow P nx md mc fill dbg PrimalFirst (fun o => o <> OSing) s ok mus -> tame s.
  Proof.
    induction 1 as [|s ok mus o b s' R IH HA HM HC]; [unfold tame; pj; repeat split; auto; discriminate|].
    pose proof (pf_reach _ _ _ _ _ _ _ HP Hpow _ _ _ _ R) as [G _].
    destruct o as [|m| | |]; cbn [call initial_deltas wrong_inertia] in HC; [| | | |congruence].
    - injection HC as <- <-. destruct IH as [A [B [C [D [E [F K]]]]]]. unfold tame; pj; auto 10.
    - injection HC as <- <-. exact IH.
    - destruct (pf_initial_runs s G IH) as [x [X1 X2]]. rewrite X1 in HC. injection HC as <- <-. exact X2.
    - destruct (pf_wrong_runs s G IH) as [y [x [X1 X2]]]. rewrite X1 in HC. injection HC as <- <-. exact X2.
  Qed.

  (** ** dual-first *)
  Definition dpw (s : reg) : b64 :=
    increase P (fmax f_em20 (fmul (rp_cbar P) (fpow (mu s) (rp_kc P)))) f_em20 f_10 (cc s) (lcc s).
  Definition dp_state (s : reg) : reg :=
    let s1 := set_curr_vec nx md mc fill DualUpdate (set_c s (dpw s) (dpw s)) in
    if fgt (dpw s) (rp_wmax P) then set_lc s1 f_zero f_zero else s1.
  Lemma dual_perturb_runs s : good s -> cd s = cc s -> lcd s = lcc s ->
    dual_perturb fpow P nx md mc fill dbg s = Some (negb (fgt (dpw s) (rp_wmax P)), dp_state s).
  Proof.
    intros [[_ [_ [A _]]] [[_ [_ [B _]]] _]] E1 E2. unfold dual_perturb, dp_state. rewrite (feq_same _ _ A E1), (feq_same _ _ B E2), !chk_true. pj. fold (dpw s).
    destruct (fgt _ _); reflexivity.
  Qed.
  Lemma dpw_nonneg s : good s -> nonneg (dpw s).
  Proof.
    intros [[_ [_ [A _]]] [[_ [_ [B _]]] M]]. apply increase_nonneg; auto using posfin_10, posfin_nonneg, posfin_em20.
    apply fmax_nonneg; [apply posfin_nonneg, posfin_em20|]. apply delta_c_nonneg; auto.
  Qed.
  Lemma dp_state_good s : good s -> good (dp_state s).
  Proof.
    intro G. pose proof (dpw_nonneg s G) as W. unfold dp_state. destruct G as [[A1 [A2 [A3 A4]]] [[B1 [B2 [B3 B4]]] M]].
    destruct (fgt _ _); unfold good; pj; auto 10 using nonneg_zero.
  Qed.
  Lemma tame_dp s : tame s -> tame (dp_state s).
  Proof. intros [A [B [C [D [E [F G]]]]]]. unfold tame, dp_state. destruct (fgt _ _); pj; auto 10. Qed.
  Lemma dp_state_proj s : wx (dp_state s) = wx s /\ wd (dp_state s) = wd s /\ cc (dp_state s) = dpw s /\ cd (dp_state s) = dpw s /\
    vwx (dp_state s) = vwx s /\ vwd (dp_state s) = vwd s /\ (exists k, vcc (dp_state s) = fill k mc (dpw s)) /\ (exists k, vcd (dp_state s) = fill k md (dpw s)).
  Proof. unfold dp_state. destruct (fgt _ _); pj; repeat split; eauto. Qed.

  Definition InvD (s : reg) (ok : bool) : Prop :=
    good s /\ tame s /\ (ok = true -> filled nx md mc fill s /\ fle (wx s) (rp_wmax P) = true /\ fle (cc s) (rp_wmax P) = true).

  Lemma df_initial_runs s ok : InvD s ok -> exists s', df_initial fpow P nx md mc fill dbg s = Some (true, s') /\ InvD s' true.
  Proof.
    intros [G [T _]]. unfold df_initial. pose proof (tame_save _ (tame_upd _ T)) as T1. pose proof (save_good _ (upd_good s G)) as G1.
    set (s1 := reset_test (save_last (update_degeneracy s))) in *. cbv zeta.
    assert (J : degen_eqb (jac s1) Degenerate = false) by (destruct T1 as [_ [_ [_ [_ [_ [F _]]]]]]; destruct (jac s1); auto; congruence).
    assert (H : degen_eqb (hess s1) Degenerate = false) by (destruct T1 as [_ [_ [_ [_ [F _]]]]]; destruct (hess s1); auto; congruence).
    pj. rewrite J. pj. rewrite H. eexists. split; [reflexivity|]. destruct T1 as [A [B [C [D [E [F K]]]]]].
    split; [destruct G1 as [_ [X Y]]; unfold good; pj; auto 10 using nonneg_zero|]. split; [unfold tame; pj; auto 10|].
    intros _. split; [unfold filled; pj; eauto 10|]. pj. split; exact (fle_zero_max P nx fill HP).
  Qed.
  Lemma df_wrong_runs s ok : InvD s ok ->
    exists b s', df_wrong_inertia fpow P nx md mc fill dbg s = Some (b, s') /\ InvD s' (ok && b) /\
      (b = false -> fgt (wx s') (rp_wmax P) = true \/ fgt (cc s') (rp_wmax P) = true).
  Proof.
    intros [G [T O]]. unfold df_wrong_inertia.
    destruct (upd_proj s) as [E1 [E2 [E3 [E4 [_ [_ [_ [_ [E9 [E10 [E11 [E12 _]]]]]]]]]]]].
    assert (O1 : ok = true -> filled nx md mc fill (update_degeneracy s) /\ fle (wx (update_degeneracy s)) (rp_wmax P) = true).
    { intro K. destruct (O K) as [F [L1 _]]. split; [|rewrite E1; auto]. unfold filled in *. rewrite E1, E2, E3, E4, E9, E10, E11, E12. exact F. }
    apply tame_upd in T. apply upd_good in G. set (s1 := update_degeneracy s) in *. clearbody s1. clear O E1 E2 E3 E4 E9 E10 E11 E12. cbv zeta.
    assert (T0 := T). destruct T0 as [A [B [C [D _]]]].
    rewrite (feq_same (wx s1) _ (proj1 (proj1 G)) A), (feq_same (cc s1) (cd s1)), !chk_true; [|apply G|exact B].
    rewrite (dual_perturb_runs s1 G B D). pose proof (dp_state_good s1 G) as G2. pose proof (tame_dp s1 T) as T2.
    destruct (dp_state_proj s1) as [Q1 [Q2 [Q3 [Q4 [Q5 [Q6 [Q7 Q8]]]]]]]. pose proof (dpw_nonneg s1 G) as N1.
    set (s2 := dp_state s1) in *. clearbody s2.
    destruct (negb (negb (fgt (dpw s1) (rp_wmax P))) && feq (wx s2) f_zero) eqn:BR.
    - set (s3 := set_c s2 f_zero f_zero).
      assert (G3 : good s3) by (destruct G2 as [[X1 [X2 _]] [Y Z]]; unfold good, s3; pj; auto 10 using nonneg_zero).
      assert (T3 : tame s3) by (destruct T2 as [A2 [B2 [C2 [D2 [F2 [H2 K2]]]]]]; unfold tame, s3; pj; auto 10).
      rewrite (primal_perturb_runs s3 G3); [|apply T3|apply T3].
      pose proof (pp_state_good P nx md mc fill HP s3 G3) as G4. pose proof (tame_pp s3 T3) as T4. pose proof (ppw_nonneg P nx fill HP s3 G3) as N3.
      destruct (pp_state_proj P nx md mc fill s3) as [P1 [P2 [P3 [P4 [P5 [P6 [P7 [P8 [P9 [P10 _]]]]]]]]]].
      set (s4 := pp_state P nx md mc fill s3) in *. clearbody s4.
      destruct (fgt (ppw P s3) (rp_wmax P)) eqn:GT; cbn [negb].
      + eexists _, _. split; [reflexivity|]. split; [split; [exact G4|split; [exact T4|rewrite andb_false_r; discriminate]]|]. intros _. left. rewrite P1. exact GT.
      + set (s5 := set_test s4 NoTest).
        assert (J : degen_eqb (jac s5) Degenerate = false) by (destruct T4 as [_ [_ [_ [_ [_ [F _]]]]]]; unfold s5; pj; destruct (jac s4); auto; congruence).
        rewrite J. assert (T5 : tame s5) by (destruct T4 as [A2 [B2 [C2 [D2 [F2 [H2 K2]]]]]]; unfold tame, s5; pj; auto 10).
        assert (G5 : good s5) by exact G4. rewrite (dual_perturb_runs s5 G5); [|apply T5|apply T5].
        pose proof (dp_state_good s5 G5) as G6. pose proof (tame_dp s5 T5) as T6. pose proof (dpw_nonneg s5 G5) as N5.
        destruct (dp_state_proj s5) as [R1 [R2 [R3 [R4 [R5 [R6 [R7 R8]]]]]]]. set (s6 := dp_state s5) in *. clearbody s6.
        eexists _, _. split; [reflexivity|]. split.
        * split; [exact G6|]. split; [exact T6|]. intro E. apply andb_prop in E. destruct E as [_ E]. apply negb_true_iff in E.
          split; [unfold filled; pj; eauto 10|]. pj. rewrite R1, R3. unfold s5. pj. rewrite P1. split; apply not_fgt_fle; auto; apply HP.
        * intro E. apply negb_false_iff in E. right. pj. rewrite R3. exact E.
    - eexists _, _. split; [reflexivity|]. split.
      + split; [exact G2|]. split; [exact T2|]. intro E. apply andb_prop in E. destruct E as [E1 E2]. apply negb_true_iff in E2.
        destruct (O1 E1) as [[F1 [F2 _]] L]. split; [unfold filled; pj; rewrite Q1, Q2, Q5, Q6; eauto 10|]. pj. rewrite Q1, Q3. split; [exact L|]. apply not_fgt_fle; auto. apply HP.
      + intro E. apply negb_false_iff in E. right. pj. rewrite Q3. exact E.
  Qed.

  Lemma df_reach allowed s ok mus : reach fpow P nx md mc fill dbg DualFirst allowed s ok mus -> InvD s ok.
  Proof.
    induction 1 as [|s ok mus o b s' R IH HA HM HC].
    - split; [apply (Inv_new fpow P nx md mc fill)|]. split; [unfold tame; pj; repeat split; auto; discriminate|discriminate].
    - destruct o as [|m| | |]; cbn [call initial_deltas wrong_inertia singularity] in HC.
      + injection HC as <- <-. destruct IH as [G [[A [B [C [D [E [F K]]]]]] _]]. split; [exact G|]. split; [unfold tame; pj; auto 10|discriminate].
      + injection HC as <- <-. destruct IH as [[G1 [G2 _]] [T O]]. split; [split; [exact G1|split; [exact G2|exact (HM m eq_refl)]]|]. split; [exact T|exact O].
      + destruct (df_initial_runs s ok IH) as [x [X1 X2]]. rewrite X1 in HC. injection HC as <- <-. exact X2.
      + destruct (df_wrong_runs s ok IH) as [y [x [X1 [X2 _]]]]. rewrite X1 in HC. injection HC as <- <-. exact X2.
      + destruct (df_wrong_runs s ok IH) as [y [x [X1 [X2 _]]]]. rewrite X1 in HC. injection HC as <- <-. exact X2.
  Qed.
End D.
