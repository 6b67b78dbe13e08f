(** Lemmas for C11, C12. *)
From Flocq Require Import Core BinarySingleNaN.
From Coq Require Import List Bool ZArith Lia Reals Lra.
From Verif Require Import FloatBase FloatFacts FloatBridge MuModel RegModel RegSpec.
Import ListNotations.

Lemma posfin_nonneg x : posfin x -> nonneg x.
Proof. intros [H K]. split; auto. destruct x as [s|s| |s m e]; try tauto. destruct s; tauto. Qed.
Lemma nonneg_nn x : nonneg x -> is_nan x = false.
Proof. intros [_ H]. destruct x; auto; tauto. Qed.
Lemma nonneg_zero : nonneg f_zero. Proof. split; reflexivity. Qed.
Lemma feq_refl x : is_nan x = false -> feq x x = true.
Proof.
  destruct x as [s|s| |s m e]; intro H; try discriminate; try (destruct s; reflexivity); try reflexivity.
  unfold feq, SFeqb, SFcompare. destruct s; rewrite Z.compare_refl, Pcompare_refl; reflexivity.
Qed.
Lemma feq_zero x : nonneg x -> feq x f_zero = true -> x = f_zero.
Proof. intros [_ H] E. destruct x as [s|s| |s m e]; simpl in H; subst; try tauto; try reflexivity; discriminate. Qed.
Lemma nz_zero x : nonneg x -> feq x f_zero = false -> fgt x f_zero = true.
Proof. intros [_ H] E. destruct x as [s|s| |s m e]; simpl in H; subst; try tauto; try reflexivity; discriminate. Qed.

Lemma fmul_nonneg x y : posfin x -> nonneg y -> nonneg (fmul x y).
Proof.
  intros [Vx Fx] [Vy Ny]. split; [apply vb_fmul; auto|].
  destruct x as [s|s| |s m e]; try tauto. destruct s; try tauto.
  destruct y as [s|s| |s m' e']; simpl in Ny; subst; try tauto; try reflexivity.
  set (X := S754_finite false m e) in *. set (Y := S754_finite false m' e') in *.
  rewrite <- (B2SF_toB X Vx), <- (B2SF_toB Y Vy), fmul_B.
  pose proof (Bmult_correct prec emax Hprec53 Hmax53 mode_NE (toB X Vx) (toB Y Vy)) as C.
  destruct (Rlt_bool _ _).
  - destruct C as [_ [C2 C3]].
    assert (F : is_finite (Bmult mode_NE (toB X Vx) (toB Y Vy)) = true) by (rewrite C2, !fin_toB; reflexivity). clear C2.
    destruct (Bmult mode_NE (toB X Vx) (toB Y Vy)) as [s|s| |s mm ee Hb]; try discriminate; exact (C3 eq_refl).
  - rewrite C. reflexivity.
Qed.

Lemma fmax_nonneg a b : nonneg a -> nonneg b -> nonneg (fmax a b).
Proof. intros A B. unfold fmax. destruct (is_nan a); auto. destruct (is_nan b); auto. destruct (flt a b); auto. Qed.
Lemma not_fgt_fle a b : nonneg a -> posfin b -> fgt a b = false -> fle a b = true.
Proof.
  intros A B E. pose proof (flt_not_fge b a (nonneg_nn _ (posfin_nonneg _ B)) (nonneg_nn _ A)) as H.
  unfold fgt in E. unfold flt in H. rewrite E in H. unfold fge in H. destruct (SFleb a b) eqn:F; auto. discriminate.
Qed.
Lemma posfin_em20 : posfin f_em20. Proof. split; reflexivity. Qed.
Lemma posfin_10 : posfin f_10. Proof. split; reflexivity. Qed.

(** projections of updated states *)
Ltac pj := cbn [wx wd cc cd lwx lwd lcc lcd vwx vwd vcc vcd hess jac degit test mu cnt
                set_w set_c set_lw set_lc set_v set_deg set_test set_mu set_curr_vec save_last reset_test fst snd] in *.

Section P.
  Variables (fpow : b64 -> b64 -> b64) (P : reg_params) (nx md mc : nat) (fill : nat -> nat -> b64 -> list b64) (dbg : bool).
  Hypothesis HP : params_ok P.
  Hypothesis Hpow : pow_ok fpow P.

  Lemma increase_nonneg first floor plus cur last : nonneg first -> nonneg floor -> posfin plus -> nonneg cur -> nonneg last ->
    nonneg (increase P first floor plus cur last).
  Proof.
    destruct HP as [H1 [H2 [H3 [H4 [H5 [H6 H7]]]]]]. intros A B C D E. unfold increase.
    destruct (feq cur f_zero); [destruct (feq last f_zero); auto; apply fmax_nonneg; auto|].
    - assert (G : fmul last (rp_kminus P) = fmul (rp_kminus P) last).
      { destruct E as [Vl El]. destruct H4 as [Vk Fk]. unfold fmul. destruct last as [s|s| |s m e]; simpl in El; subst; try tauto;
        destruct (rp_kminus P) as [s'|s'| |s' m' e']; try tauto; destruct s'; try tauto; try reflexivity.
        cbn [SFmul]. rewrite Pos.mul_comm, Z.add_comm. reflexivity. }
      rewrite G. apply fmul_nonneg; auto.
    - destruct (_ || _); apply fmul_nonneg; auto.
  Qed.
  Lemma delta_c_nonneg m : posfin m -> nonneg (delta_c fpow P m).
  Proof. intro H. unfold delta_c. apply fmul_nonneg; [apply HP|]. apply Hpow. exact H. Qed.

  Definition good (s : reg) : Prop :=
    (nonneg (wx s) /\ nonneg (wd s) /\ nonneg (cc s) /\ nonneg (cd s)) /\
    (nonneg (lwx s) /\ nonneg (lwd s) /\ nonneg (lcc s) /\ nonneg (lcd s)) /\ posfin (mu s).

  Lemma chk_some {A} b (k : option A) r : chk dbg b k = Some r -> k = Some r.
  Proof. unfold chk. destruct (dbg && negb b); auto. discriminate. Qed.
  Lemma chk_true {A} (k : option A) : chk dbg true k = k.
  Proof. unfold chk. rewrite andb_false_r. reflexivity. Qed.

  Definition ppw (s : reg) : b64 := increase P (rp_w0 P) (rp_wmin P) (rp_kplus P) (wx s) (lwx s).
  Definition pp_state (s : reg) : reg :=
    let s1 := set_curr_vec nx md mc fill PrimalUpdate (set_w s (ppw s) (ppw s)) in
    if fgt (ppw s) (rp_wmax P) then set_lw s1 f_zero f_zero else s1.
  Lemma primal_perturb_spec s b s' : primal_perturb P nx md mc fill dbg s = Some (b, s') ->
    b = negb (fgt (ppw s) (rp_wmax P)) /\ s' = pp_state s.
  Proof.
    unfold primal_perturb, pp_state. intro H. apply chk_some in H. apply chk_some in H. pj. fold (ppw s) in H.
    destruct (fgt (ppw s) (rp_wmax P)); injection H as <- <-; auto.
  Qed.
  Lemma ppw_nonneg s : good s -> nonneg (ppw s).
  Proof. intros [[A _] [[B _] _]]. destruct HP as [H1 [H2 [H3 [H4 [H5 [H6 H7]]]]]]. apply increase_nonneg; auto. Qed.
  Lemma pp_state_good s : good s -> good (pp_state s).
  Proof.
    intro G. pose proof (ppw_nonneg s G) as W. unfold pp_state. destruct G as [[A1 [A2 [A3 A4]]] [[B1 [B2 [B3 B4]]] M]].
    destruct (fgt _ _); unfold good; pj; auto 10 using nonneg_zero.
  Qed.
  Lemma pp_state_proj s : wx (pp_state s) = ppw s /\ wd (pp_state s) = ppw s /\ cc (pp_state s) = cc s /\ cd (pp_state s) = cd s /\
    mu (pp_state s) = mu s /\ hess (pp_state s) = hess s /\ jac (pp_state s) = jac s /\ test (pp_state s) = test s /\
    (exists k, vwx (pp_state s) = fill k nx (ppw s)) /\ (exists k, vwd (pp_state s) = fill k md (ppw s)) /\
    vcc (pp_state s) = vcc s /\ vcd (pp_state s) = vcd s /\ lcc (pp_state s) = lcc s /\ lcd (pp_state s) = lcd s.
  Proof. unfold pp_state. destruct (fgt _ _); pj; repeat split; eauto. Qed.

  Lemma upd_proj s : let s' := update_degeneracy s in
    wx s' = wx s /\ wd s' = wd s /\ cc s' = cc s /\ cd s' = cd s /\ lwx s' = lwx s /\ lwd s' = lwd s /\ lcc s' = lcc s /\ lcd s' = lcd s /\
    vwx s' = vwx s /\ vwd s' = vwd s /\ vcc s' = vcc s /\ vcd s' = vcd s /\ mu s' = mu s /\ test s' = test s.
  Proof.
    unfold update_degeneracy. destruct (test s) eqn:T; cbv zeta;
    repeat match goal with |- context [if ?c then _ else _] => destruct c end; pj; rewrite ?T; auto 20.
  Qed.
  Lemma upd_both s : hess s = Degenerate -> jac s = Degenerate -> hess (update_degeneracy s) = Degenerate /\ jac (update_degeneracy s) = Degenerate.
  Proof.
    intros H J. unfold update_degeneracy. rewrite H, J. destruct (test s); cbn [degen_eqb]; pj; auto.
    destruct (Nat.leb _ _); pj; auto.
  Qed.
  Lemma upd_good s : good s -> good (update_degeneracy s).
  Proof. intro G. destruct (upd_proj s) as [A [B [C [D [E [F [G' [H [I [J [K [L [M N]]]]]]]]]]]]]. unfold good in *. rewrite A, B, C, D, E, F, G', H, M. auto. Qed.
  Lemma save_good s : good s -> good (save_last s).
  Proof.
    intros [[A1 [A2 [A3 A4]]] [[B1 [B2 [B3 B4]]] M]]. unfold good. pj.
    split; [do 3 (split; [assumption|]); assumption|]. split; [|assumption].
    do 3 (split; [destruct (fgt _ _); assumption|]). destruct (fgt _ _); assumption.
  Qed.

  Definition bothdeg (s : reg) : Prop := hess s = Degenerate /\ jac s = Degenerate.
  Definition cin (mus : list b64) (s : reg) : Prop := cd s = cc s /\ (cc s = f_zero \/ exists m, In m mus /\ cc s = delta_c fpow P m).
  Definition Inv (s : reg) (ok : bool) (mus : list b64) : Prop :=
    good s /\ In (mu s) mus /\ cin mus s /\ (bothdeg s \/ wd s = wx s) /\
    (ok = true -> filled nx md mc fill s /\ (bothdeg s \/ fle (wx s) (rp_wmax P) = true)).

  Lemma cin_mu mus s : In (mu s) mus -> cin mus (set_c s (delta_c fpow P (mu s)) (delta_c fpow P (mu s))).
  Proof. intro H. split; pj; auto. right. eauto. Qed.
  Lemma fle_zero_max : fle f_zero (rp_wmax P) = true.
  Proof. destruct HP as [_ [[V H] _]]. destruct (rp_wmax P) as [s|s| |s m e]; try tauto. destruct s; [tauto|reflexivity]. Qed.
  Lemma deg_eqb a b : degen_eqb a b = true <-> a = b.
  Proof. destruct a, b; simpl; split; auto; discriminate. Qed.

  Lemma pf_initial_inv s ok mus b s' : Inv s ok mus -> pf_initial fpow P nx md mc fill dbg s = Some (b, s') -> Inv s' b mus.
  Proof.
    intros [G [M [C [W _]]]] H. unfold pf_initial in H.
    set (s1 := reset_test (save_last (update_degeneracy s))) in *.
    assert (G1 : good s1). { pose proof (save_good _ (upd_good s G)) as X. unfold good in *. exact X. }
    assert (M1 : In (mu s1) mus). { destruct (upd_proj s) as [_ [_ [_ [_ [_ [_ [_ [_ [_ [_ [_ [_ [E _]]]]]]]]]]]]]. unfold s1. pj. rewrite E. exact M. }
    assert (PM : posfin (mu s1)) by apply G1.
    cbv zeta in H. set (t := if degen_eqb (jac s1) Degenerate then delta_c fpow P (mu s1) else f_zero) in *.
    assert (Nt : nonneg t) by (unfold t; destruct (degen_eqb _ _); [apply delta_c_nonneg; auto|apply nonneg_zero]).
    destruct (degen_eqb (hess (set_c s1 t t)) Degenerate) eqn:HD.
    - destruct (primal_perturb _ _ _ _ _ _ _) as [[b2 s2]|] eqn:PP; [|discriminate].
      apply primal_perturb_spec in PP. destruct PP as [-> ->]. set (s3 := set_w (set_c s1 t t) f_zero f_zero) in *.
      assert (G3 : good s3) by (destruct G1 as [_ [X Y]]; unfold good, s3; pj; auto 10 using nonneg_zero).
      pose proof (pp_state_good s3 G3) as G4. pose proof (pp_state_proj s3) as PJ.
      destruct PJ as [P1 [P2 [P3 [P4 [P5 [P6 [P7 [P8 [P9 [P10 [P11 [P12 [P13 P14]]]]]]]]]]]]].
      assert (CT : t = f_zero \/ exists m, In m mus /\ t = delta_c fpow P m) by (unfold t; destruct (degen_eqb _ _); eauto).
      destruct (fgt (ppw s3) (rp_wmax P)) eqn:GT; cbn [negb] in H; injection H as <- <-.
      + split; [exact G4|]. split; [rewrite P5; exact M1|]. split; [|split; [|discriminate]].
        * unfold cin. rewrite P3, P4. unfold s3; pj. auto.
        * right. rewrite P1, P2. auto.
      + destruct G4 as [_ [X Y]]. pj. assert (HD' : hess s1 = Degenerate) by (apply deg_eqb; exact HD).
        assert (BW : bothdeg (set_curr_vec nx md mc fill PDUpdate (set_w (pp_state s3) t f_zero)) \/ t = f_zero).
        { unfold t. destruct (degen_eqb (jac s1) Degenerate) eqn:J; auto. left. split; pj; [rewrite P6|rewrite P7]; unfold s3; pj; auto. apply deg_eqb; auto. }
        assert (N34 : nonneg (cc (pp_state s3)) /\ nonneg (cd (pp_state s3))) by (rewrite P3, P4; unfold s3; pj; auto).
        split; [unfold good; pj; intuition auto using nonneg_zero|]. split; [pj; rewrite P5; exact M1|].
        split; [unfold cin; pj; rewrite P3, P4; unfold s3; pj; auto|]. split; [destruct BW as [BW|BW]; [left; exact BW|right; pj; auto]|].
        intros _. split; [unfold filled; pj; eauto 10|]. destruct BW as [BW|BW]; [left; exact BW|right]. pj. rewrite BW. apply fle_zero_max.
    - injection H as <- <-. pj. assert (CT : t = f_zero \/ exists m, In m mus /\ t = delta_c fpow P m) by (unfold t; destruct (degen_eqb _ _); eauto).
      destruct G1 as [_ [X Y]]. split; [unfold good; pj; auto 10 using nonneg_zero|]. split; [exact M1|]. split; [unfold cin; pj; auto|]. split; [right; pj; auto|].
      intros _. split; [unfold filled; pj; eauto 10|]. right. pj. apply fle_zero_max.
  Qed.

  (** facts about a state after primal_perturb, when called in a state satisfying the invariant *)
  Lemma pp_inv s ok mus b s' : Inv s ok mus -> primal_perturb P nx md mc fill dbg s = Some (b, s') ->
    Inv s' (ok && b) mus /\ wd s' = wx s' /\ (b = true -> fle (wx s') (rp_wmax P) = true) /\ (b = false -> fgt (wx s') (rp_wmax P) = true) /\
    cc s' = cc s /\ mu s' = mu s /\ hess s' = hess s /\ jac s' = jac s.
  Proof.
    intros [G [M [C [W O]]]] H. apply primal_perturb_spec in H. destruct H as [-> ->].
    pose proof (pp_state_good s G) as G4. pose proof (ppw_nonneg s G) as NW.
    destruct (pp_state_proj s) as [P1 [P2 [P3 [P4 [P5 [P6 [P7 [P8 [P9 [P10 [P11 [P12 [P13 P14]]]]]]]]]]]]].
    assert (L : negb (fgt (ppw s) (rp_wmax P)) = true -> fle (wx (pp_state s)) (rp_wmax P) = true).
    { intro E. apply negb_true_iff in E. rewrite P1. apply not_fgt_fle; auto. apply HP. }
    split; [|split; [congruence|split; [exact L|split; [intro E; apply negb_false_iff in E; rewrite P1; auto|auto]]]].
    split; [exact G4|]. split; [rewrite P5; exact M|]. split; [unfold cin; rewrite P3, P4; exact C|]. split; [right; congruence|].
    intro E. apply andb_prop in E. destruct E as [E1 E2]. destruct (O E1) as [[F1 [F2 [F3 F4]]] _]. split; [|auto].
    unfold filled. rewrite P1, P2, P3, P4, P11, P12. auto.
  Qed.
  Lemma filled_pd s : filled nx md mc fill (set_curr_vec nx md mc fill PDUpdate s).
  Proof. unfold filled. pj. repeat split; eauto. Qed.

  Lemma Inv_upd s ok mus : Inv s ok mus -> Inv (update_degeneracy s) ok mus.
  Proof.
    intros [G [M [C [W O]]]]. destruct (upd_proj s) as [E1 [E2 [E3 [E4 [E5 [E6 [E7 [E8 [E9 [E10 [E11 [E12 [E13 E14]]]]]]]]]]]]].
    assert (B : bothdeg s -> bothdeg (update_degeneracy s)) by (intros [X Y]; apply upd_both; auto).
    split; [apply upd_good; auto|]. split; [rewrite E13; auto|]. split; [unfold cin in *; rewrite E3, E4; auto|]. split; [rewrite E1, E2; tauto|].
    intro K. destruct (O K) as [F L]. split; [|rewrite E1; tauto]. unfold filled in *. rewrite E1, E2, E3, E4, E9, E10, E11, E12. exact F.
  Qed.

  Lemma pf_wrong_inv s ok mus b s' : Inv s ok mus -> pf_wrong_inertia fpow P nx md mc fill dbg s = Some (b, s') ->
    Inv s' (ok && b) mus /\ (b = false -> fgt (wx s') (rp_wmax P) = true).
  Proof.
    intros I H. unfold pf_wrong_inertia in H. apply Inv_upd in I. set (s1 := update_degeneracy s) in *. cbv zeta in H.
    apply chk_some in H. apply chk_some in H.
    destruct (primal_perturb P nx md mc fill dbg s1) as [[r s2]|] eqn:PP; [|discriminate].
    destruct (pp_inv _ _ _ _ _ I PP) as [I2 [W2 [L2 [F2 _]]]].
    destruct (negb r && feq (cc s2) f_zero) eqn:C.
    - set (dc := delta_c fpow P (mu s2)) in *. set (s3 := set_test (set_c (set_w s2 f_zero f_zero) dc dc) NoTest) in *.
      set (s4 := if degen_eqb (hess s3) Degenerate then set_deg s3 NotEstablished (jac s3) (degit s3) else s3) in *.
      assert (I4 : Inv s4 false mus).
      { destruct I2 as [G [M [CI [W O]]]]. assert (N : nonneg dc) by (apply delta_c_nonneg; apply G).
        destruct G as [_ [X Y]].
        assert (IS3 : Inv s3 false mus).
        { unfold s3. split; [unfold good; pj; auto 10 using nonneg_zero|]. split; [exact M|]. split; [apply (cin_mu mus s2 M)|]. split; [right; pj; auto|discriminate]. }
        unfold s4. destruct (degen_eqb (hess s3) Degenerate); [|exact IS3].
        destruct IS3 as [G3 [M3 [C3 [W3 O3]]]]. split; [exact G3|]. split; [exact M3|]. split; [exact C3|]. split; [right; unfold s3; pj; auto|discriminate]. }
      destruct (primal_perturb P nx md mc fill dbg s4) as [[r2 s5]|] eqn:PP2; [|discriminate]. injection H as <- <-.
      destruct (pp_inv _ _ _ _ _ I4 PP2) as [I5 [W5 [L5 [F5 _]]]]. destruct I5 as [G5 [M5 [C5 [_ _]]]].
      split; [|pj; exact F5]. split; [exact G5|]. split; [exact M5|]. split; [exact C5|]. split; [right; pj; exact W5|].
      intro E. apply andb_prop in E. split; [apply filled_pd|]. right. pj. apply L5. tauto.
    - injection H as <- <-. destruct I2 as [G [M [CI [W O]]]]. split; [|pj; exact F2].
      split; [exact G|]. split; [exact M|]. split; [exact CI|]. split; [right; pj; exact W2|].
      intro E. destruct (O E) as [[X1 [X2 [X3 X4]]] _]. split; [|right; pj; apply L2; apply andb_prop in E; tauto].
      unfold filled; pj. eauto 10.
  Qed.

  Lemma primal_then_inv s ok mus post t b s' : Inv s ok mus -> primal_then P nx md mc fill dbg s post t = Some (b, s') ->
    Inv s' (ok && b) mus /\ wd s' = wx s' /\ (b = true -> fle (wx s') (rp_wmax P) = true) /\ (b = false -> fgt (wx s') (rp_wmax P) = true).
  Proof.
    intros I H. unfold primal_then in H. destruct (primal_perturb P nx md mc fill dbg s) as [[r s2]|] eqn:PP; [|discriminate].
    destruct (pp_inv _ _ _ _ _ I PP) as [I2 [W2 [L2 [F2 _]]]]. destruct r.
    - apply chk_some in H. injection H as <- <-. split; [exact I2|]. pj. auto.
    - injection H as <- <-. auto.
  Qed.
  (** changing the dual value: the invariant without the vectors *)
  Lemma Inv_c s ok mus t : Inv s ok mus -> t = f_zero \/ t = delta_c fpow P (mu s) -> Inv (set_c s t t) false mus.
  Proof.
    intros [G [M [C [W O]]]] T. assert (N : nonneg t) by (destruct T as [->| ->]; [apply nonneg_zero|apply delta_c_nonneg; apply G]).
    destruct G as [[X1 [X2 _]] [Y Z]]. split; [unfold good; pj; auto 10|]. split; [exact M|].
    split; [unfold cin; pj; split; auto; destruct T; subst; eauto|]. split; [exact W|discriminate].
  Qed.
  Lemma Inv_test s ok mus t : Inv s ok mus -> Inv (set_test s t) ok mus.
  Proof. intro I. exact I. Qed.

  (** finish: all vectors are refilled *)
  Lemma Inv_pd s mus ok : Inv s false mus -> (ok = true -> bothdeg s \/ fle (wx s) (rp_wmax P) = true) ->
    Inv (set_curr_vec nx md mc fill PDUpdate s) ok mus.
  Proof. intros [G [M [C [W O]]]] L. split; [exact G|]. split; [exact M|]. split; [exact C|]. split; [exact W|]. intro E. split; [apply filled_pd|]. exact (L E). Qed.
  Lemma Inv_weak s ok mus : Inv s ok mus -> Inv s false mus.
  Proof. intros [G [M [C [W O]]]]. repeat (split; [assumption|]). discriminate. Qed.

  Lemma pf_sing_inv s ok mus b s' : Inv s ok mus -> pf_singularity fpow P nx md mc fill dbg s = Some (b, s') ->
    Inv s' (ok && b) mus /\ (b = false -> fgt (wx s') (rp_wmax P) = true).
  Proof.
    intros I H. unfold pf_singularity in H. apply chk_some in H. apply chk_some in H. cbv zeta in H.
    match type of H with match ?r with _ => _ end = _ => destruct r as [[r1 s1]|] eqn:R; [|discriminate] end.
    injection H as <- <-.
    assert (K : Inv s1 false mus /\ (ok && r1 = true -> bothdeg s1 \/ fle (wx s1) (rp_wmax P) = true) /\ (r1 = false -> fgt (wx s1) (rp_wmax P) = true)).
    { set (dc := delta_c fpow P (mu s)) in *.
      assert (OKL : ok = true -> bothdeg s \/ fle (wx s) (rp_wmax P) = true) by (destruct I as [_ [_ [_ [_ O]]]]; intro E; apply O; auto).
      assert (PT : forall s0 post t, Inv s0 false mus -> primal_then P nx md mc fill dbg s0 post t = Some (r1, s1) ->
              Inv s1 false mus /\ (ok && r1 = true -> bothdeg s1 \/ fle (wx s1) (rp_wmax P) = true) /\ (r1 = false -> fgt (wx s1) (rp_wmax P) = true)).
      { intros s0 post t I0 X. destruct (primal_then_inv _ _ _ _ _ _ _ I0 X) as [I1 [W1 [L1 F1]]]. cbn [andb] in I1. split; [exact I1|]. split; [|exact F1].
        intro E. right. apply L1. apply andb_prop in E. tauto. }
      assert (SC : Inv (set_c s dc dc) false mus) by (apply (Inv_c _ _ _ _ I); auto).
      destruct (degen_eqb (hess s) NotEstablished || degen_eqb (jac s) NotEstablished).
      - destruct (test s).
        + apply chk_some in R. injection R as <- <-. split; [apply (Inv_weak _ _ _ I)|]. rewrite andb_true_r. split; [exact OKL|discriminate].
        + destruct (degen_eqb (jac s) NotEstablished).
          * injection R as <- <-. split; [apply Inv_test; exact SC|]. rewrite andb_true_r. split; [exact OKL|discriminate].
          * apply chk_some in R. apply (PT _ _ _ (Inv_weak _ _ _ I) R).
        + apply chk_some in R. apply chk_some in R. refine (PT _ _ _ _ R). apply (Inv_c _ _ _ _ I). auto.
        + apply chk_some in R. apply (PT _ _ _ SC R).
        + apply (PT _ _ _ (Inv_weak _ _ _ I) R).
      - destruct (fgt (cc s) f_zero).
        + apply (PT _ _ _ (Inv_weak _ _ _ I) R).
        + injection R as <- <-. split; [exact SC|]. rewrite andb_true_r. split; [exact OKL|discriminate]. }
    destruct K as [K1 [K2 K3]]. split; [|pj; exact K3]. apply Inv_pd; auto.
  Qed.

  Lemma Inv_new : Inv (initialize nx md mc reg_new) false [mu reg_new].
  Proof.
    split; [unfold good; pj; repeat split|]. split; [left; reflexivity|]. split; [split; [reflexivity|left; reflexivity]|]. split; [right; reflexivity|discriminate].
  Qed.
  Lemma pf_reach allowed s ok mus : reach fpow P nx md mc fill dbg PrimalFirst allowed s ok mus -> Inv s ok mus.
  Proof.
    induction 1 as [|s ok mus o b s' R IH HA HM HC]; [apply Inv_new|]. destruct o as [|m| | |]; cbn [call initial_deltas wrong_inertia singularity] in HC.
    - injection HC as <- <-. destruct IH as [G [M [C [W O]]]]. split; [exact G|]. split; [exact M|]. split; [exact C|]. split; [exact W|discriminate].
    - injection HC as <- <-. destruct IH as [[G1 [G2 G3]] [M [C [W O]]]]. split; [split; [exact G1|split; [exact G2|exact (HM m eq_refl)]]|].
      split; [left; reflexivity|]. split; [destruct C as [C1 [C2|[x [C2 C3]]]]; split; auto; right; exists x; split; [right; auto|auto]|]. split; [exact W|exact O].
    - exact (pf_initial_inv _ _ _ _ _ IH HC).
    - exact (proj1 (pf_wrong_inv _ _ _ _ _ IH HC)).
    - exact (proj1 (pf_sing_inv _ _ _ _ _ IH HC)).
  Qed.
End P.
