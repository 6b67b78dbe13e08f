From Coq Require Import List Bool ZArith Lia.
From Verif Require Import FloatBase FilterModel FilterSpec FilterProofs LineSearchModel RunModel
  LineSearchSpec LineSearchProofs RunProofs.
Import ListNotations.

Section B.
  Variable fpow : b64 -> b64 -> b64.
  Variable P : run_params.
  Variable lf : nat.

  Fixpoint jend (j : bool) (tr : list event) : bool :=
    match tr with
    | [] => j
    | EvStep :: r => jend false r
    | EvAccept _ _ _ _ :: r => jend true r
    | EvFR true :: r => jend true r
    | EvUntested :: r => jend true r
    | _ :: r => jend j r
    end.

  Lemma st_app fq : forall a b j, steps_tested fq j (a ++ b) <-> steps_tested fq j a /\ steps_tested fq (jend j a) b.
  Proof.
    induction a as [|x a IH]; intros b j; simpl; [tauto|].
    destruct x as [| | | |[|]| |]; simpl; rewrite IH; tauto.
  Qed.
  Lemma jend_app : forall a b j, jend j (a ++ b) = jend (jend j a) b.
  Proof.
    induction a as [|x a IH]; intros b j; simpl; auto.
    destruct x as [| | | |[|]| |]; simpl; apply IH.
  Qed.

  Lemma st_resets fq j n : steps_tested fq j (repeat EvReset n) /\ jend j (repeat EvReset n) = j.
  Proof. induction n; simpl; auto. Qed.

  Lemma head_st fq j iw st r ev : head P iw st = (r, ev) -> steps_tested fq j ev /\ jend j ev = j.
  Proof.
    unfold head.
    destruct (iw_errs iw) as [e|]; [|intros H; inversion H; subst; simpl; auto].
    destruct (iw_cb iw); cbn [negb]; [|intros H; inversion H; subst; simpl; auto].
    destruct (check_termination _ _ _ _ _) as [[s|] n1]; [intros H; inversion H; subst; simpl; auto|].
    destruct (iw_nmu iw) as [|k]; [intros H; inversion H; subst; simpl; auto|].
    destruct (iw_mu_err iw); intros H; inversion H; subst; simpl; apply st_resets.
  Qed.

  Lemma apply_fr_false within F W s2 : apply_fr within F W = Some (false, s2) ->
    exists s, s2 = Some s /\ is_pending s = false.
  Proof.
    unfold apply_fr. destruct within; simpl.
    - destruct (fr_force_ok W); [destruct (fr_eval_ok W)|]; intros H; inversion H; subst; eauto.
    - destruct (soft_fr F W) as [[|] [|]]; try discriminate;
        (destruct (fr_sub W); simpl; try (destruct (fr_eval_ok W)); intros H; inversion H; subst; eauto).
  Qed.

  Definition no_refact (pw : pass_world) : Prop := pw_dir pw <> DirRefactFail.

  Lemma newton_pass_st fq pw iter s F safe tv ufr r ev j :
    newton_pass fpow P lf fq pw iter s F safe tv ufr = (r, ev) ->
    no_refact pw ->
    steps_tested fq j ev /\
    match r with
    | PReturn _ => True
    | PBreak s' _ _ _ _ => is_pending s' = true -> jend j ev = true
    | PContinue s' _ safe' _ _ =>
        (safe' = true \/ is_pending s' = false) /\
        (safe = true \/ is_pending s = false -> is_pending s' = false)
    end.
  Proof.
    unfold newton_pass, no_refact. intros H Hn. revert H.
    Ltac tq := solve [intros H; inversion H; subst; clear H; simpl; intuition (auto; congruence)].
    destruct (pw_kkt pw); cbn [negb]; [|destruct safe, fq; tq].
    destruct (pw_dir pw); [|destruct safe, fq; tq|congruence].
    destruct (line_search fpow (rp_ls P) lf F (pw_ls pw)) as [st pt tv0 a g c sc|tv0|tv0| | |] eqn:Hls;
      try tq.
    - destruct (force_resto P && _ && _).
      + destruct (apply_fr _ _ _) as [[[|] s2]|] eqn:Hfr; try tq.
        apply apply_fr_false in Hfr. destruct Hfr as (s3 & -> & Hp). tq.
      + destruct (filter_augment _ _ _ _ _) as [F' r0] eqn:Hau. destruct r0; tq.
    - destruct (force_resto P && _ && _).
      + destruct (apply_fr _ _ _) as [[[|] s2]|] eqn:Hfr; try tq.
        apply apply_fr_false in Hfr. destruct Hfr as (s3 & -> & Hp). tq.
      + destruct safe; [|destruct fq; tq].
        destruct (apply_fr _ _ _) as [[[|] s2]|] eqn:Hfr; try tq.
        apply apply_fr_false in Hfr. destruct Hfr as (s3 & -> & Hp). tq.
    - destruct (force_resto P && _ && _).
      + destruct (apply_fr _ _ _) as [[[|] s2]|] eqn:Hfr; try tq.
        apply apply_fr_false in Hfr. destruct Hfr as (s3 & -> & Hp). tq.
      + destruct safe; [|destruct fq; tq].
        destruct (apply_fr _ _ _) as [[[|] s2]|] eqn:Hfr; try tq.
        apply apply_fr_false in Hfr. destruct Hfr as (s3 & -> & Hp). tq.
  Qed.

  Lemma after_step_st fq j iw s F safe tv ufr iter n e0 r ev :
    after_step iw s F safe tv ufr iter n e0 = (r, ev) ->
    (is_pending s = true -> j = true) ->
    steps_tested fq j ev /\ match r with inl _ => jend j ev = false | inr _ => True end.
  Proof.
    unfold after_step. destruct (is_pending s); cbn [negb].
    2:{ intros H _; inversion H; subst; simpl; auto. }
    intros H Hj. specialize (Hj eq_refl). subst j. revert H.
    destruct ufr; [intros H; inversion H; subst; simpl; auto|].
    destruct tv; [|intros H; inversion H; subst; simpl; auto].
    destruct (fge _ _); [|intros H; inversion H; subst; simpl; auto].
    destruct (iw_deriv iw); intros H; inversion H; subst; simpl; auto.
  Qed.

  Definition no_refact_iw (iw : iter_world) : Prop := no_refact (iw_pass1 iw) /\ no_refact (iw_pass2 iw).

  Lemma newton_iter_st m iw st r ev :
    no_refact_iw iw -> newton_iter fpow P lf m iw st = (r, ev) ->
    steps_tested (is_fq m) false ev /\ match r with inl _ => jend false ev = false | inr _ => True end.
  Proof.
    intros [N1 N2]. unfold newton_iter.
    destruct (head P iw st) as [[[[F n'] e0]|o] ev0] eqn:Hh;
      pose proof (head_st (is_fq m) false _ _ _ _ Hh) as [A0 J0].
    2:{ intros H; inversion H; subst. auto. }
    destruct (newton_pass _ _ _ _ (iw_pass1 iw) _ _ _ _ _ _) as [p1 ev1] eqn:H1.
    destruct (newton_pass_st _ _ _ _ _ _ _ _ _ _ false H1 N1) as (A1 & B1).
    assert (A01 : steps_tested (is_fq m) false (ev0 ++ ev1)).
    { apply st_app. split; auto. rewrite J0. exact A1. }
    destruct p1 as [o|s F1 safe1 tv ufr|s F1 safe1 tv ufr].
    - intros H; inversion H; subst. auto.
    - destruct (newton_pass _ _ _ _ (iw_pass2 iw) _ _ _ _ _ _) as [p2 ev2] eqn:H2.
      destruct (newton_pass_st _ _ _ _ _ _ _ _ _ _ (jend false ev1) H2 N2) as (A2 & B2).
      assert (A012 : steps_tested (is_fq m) false (ev0 ++ ev1 ++ ev2)).
      { rewrite app_assoc. apply st_app. split; auto. rewrite jend_app, J0. exact A2. }
      destruct p2 as [o|s2 F2 safe2 tv2 ufr2|s2 F2 safe2 tv2 ufr2].
      + intros H; inversion H; subst. auto.
      + destruct (after_step _ _ _ _ _ _ _ _ _) as [r3 ev3] eqn:H3.
        intros H; inversion H; subst.
        destruct B1 as [B1 _]. destruct B2 as [_ B2]. specialize (B2 B1).
        eapply (after_step_st (is_fq m) (jend false (ev0 ++ ev1 ++ ev2))) in H3;
          [|intros; congruence].
        rewrite (st_app _ (ev0 ++ ev1 ++ ev2)), (jend_app (ev0 ++ ev1 ++ ev2)). tauto.
      + destruct (after_step _ _ _ _ _ _ _ _ _) as [r3 ev3] eqn:H3.
        intros H; inversion H; subst.
        eapply (after_step_st (is_fq m) (jend false (ev0 ++ ev1 ++ ev2))) in H3;
          [|rewrite !jend_app, J0; exact B2].
        rewrite (st_app _ (ev0 ++ ev1 ++ ev2)), (jend_app (ev0 ++ ev1 ++ ev2)). tauto.
    - destruct (after_step _ _ _ _ _ _ _ _ _) as [r3 ev3] eqn:H3.
      intros H; inversion H; subst.
      eapply (after_step_st (is_fq m) (jend false (ev0 ++ ev1))) in H3;
        [|rewrite !jend_app, J0; exact B1].
      rewrite (st_app _ (ev0 ++ ev1)), (jend_app (ev0 ++ ev1)). tauto.
  Qed.

  Lemma qn_iter_st iw st r ev :
    qn_iter fpow P lf iw st = (r, ev) ->
    steps_tested false false ev /\ match r with inl _ => jend false ev = false | inr _ => True end.
  Proof.
    unfold qn_iter.
    destruct (head P iw st) as [[[[F n'] e0]|o] ev0] eqn:Hh;
      pose proof (head_st false false _ _ _ _ Hh) as [A0 J0].
    2:{ intros H; inversion H; subst. auto. }
    assert (Hplain : forall o evx, steps_tested false false evx ->
      (inr o : run_st + run_out, ev0 ++ evx) = (r, ev) ->
      steps_tested false false ev /\ match r with inl _ => jend false ev = false | inr _ => True end).
    { intros o evx Hx H; inversion H; subst. split; auto. apply st_app. rewrite J0. auto. }
    assert (Hpl0 : forall o, (inr o : run_st + run_out, ev0) = (r, ev) ->
      steps_tested false false ev /\ match r with inl _ => jend false ev = false | inr _ => True end).
    { intros o H. apply (Hplain o []); simpl; auto. rewrite app_nil_r. exact H. }
    assert (Hfin : forall s F tv ufr r3 ev3 evx, steps_tested false false evx ->
      (is_pending s = true -> jend false evx = true) ->
      after_step iw s F true tv ufr (r_iter st) n' e0 = (r3, ev3) ->
      (r3, ev0 ++ evx ++ ev3) = (r, ev) ->
      steps_tested false false ev /\ match r with inl _ => jend false ev = false | inr _ => True end).
    { intros s F0 tv ufr r3 ev3 evx Hx Hj H3 H. inversion H; subst.
      eapply (after_step_st false (jend false evx)) in H3; [|exact Hj].
      rewrite (st_app _ ev0), (jend_app ev0), J0, (st_app _ evx), (jend_app evx). tauto. }
    destruct (pw_kkt _); cbn [negb]; [|apply Hpl0].
    destruct (pw_dir _); [|apply Hpl0..].
    destruct (line_search fpow (rp_ls P) lf F (pw_ls (iw_pass1 iw))) as [s1 pt tv0 a g c sc|tv0|tv0| | |] eqn:Hls;
      try apply Hpl0.
    - destruct (force_resto P && _ && _).
      + destruct (apply_fr _ _ _) as [[[|] s2]|] eqn:Hfr; [..|apply Hplain; simpl; auto].
        * destruct (after_step _ _ _ _ _ _ _ _ _) as [r3 ev3] eqn:H3.
          eapply (Hfin _ _ _ _ _ _ [EvFR _]); eauto; simpl; auto.
        * apply apply_fr_false in Hfr. destruct Hfr as (s3 & -> & Hp).
          destruct (after_step _ _ _ _ _ _ _ _ _) as [r3 ev3] eqn:H3.
          eapply (Hfin _ _ _ _ _ _ [EvFR _]); eauto; simpl; auto; congruence.
      + destruct (filter_augment _ _ _ _ _) as [F' r0] eqn:Hau.
        destruct (after_step _ _ _ _ _ _ _ _ _) as [r3 ev3] eqn:H3.
        eapply (Hfin _ _ _ _ _ _ (_ :: _)); eauto; destruct r0; simpl; auto.
    - destruct (force_resto P && _ && _).
      + destruct (apply_fr _ _ _) as [[[|] s2]|] eqn:Hfr; [..|apply Hplain; simpl; auto].
        * destruct (after_step _ _ _ _ _ _ _ _ _) as [r3 ev3] eqn:H3.
          eapply (Hfin _ _ _ _ _ _ [EvFR _]); eauto; simpl; auto.
        * apply apply_fr_false in Hfr. destruct Hfr as (s3 & -> & Hp).
          destruct (after_step _ _ _ _ _ _ _ _ _) as [r3 ev3] eqn:H3.
          eapply (Hfin _ _ _ _ _ _ [EvFR _]); eauto; simpl; auto; congruence.
      + destruct (apply_fr _ _ _) as [[[|] s2]|] eqn:Hfr; apply Hplain; simpl; auto.
    - destruct (force_resto P && _ && _).
      + destruct (apply_fr _ _ _) as [[[|] s2]|] eqn:Hfr; [..|apply Hplain; simpl; auto].
        * destruct (after_step _ _ _ _ _ _ _ _ _) as [r3 ev3] eqn:H3.
          eapply (Hfin _ _ _ _ _ _ [EvFR _]); eauto; simpl; auto.
        * apply apply_fr_false in Hfr. destruct Hfr as (s3 & -> & Hp).
          destruct (after_step _ _ _ _ _ _ _ _ _) as [r3 ev3] eqn:H3.
          eapply (Hfin _ _ _ _ _ _ [EvFR _]); eauto; simpl; auto; congruence.
      + destruct (apply_fr _ _ _) as [[[|] s2]|] eqn:Hfr; apply Hplain; simpl; auto.
  Qed.

  Lemma run_st_tested fq body W :
    (forall k st r ev, body (W k) st = (r, ev) ->
      steps_tested fq false ev /\ match r with inl _ => jend false ev = false | inr _ => True end) ->
    forall fuel safe o tr, run_loop body fuel W 0 (run_init safe) = (o, tr) -> steps_tested fq false tr.
  Proof.
    intros Hb fuel safe o tr H.
    set (I := fun (st : run_st) h => steps_tested fq false h /\ jend false h = false).
    destruct (run_loop_inv body I W) with (fuel := fuel) (k := 0%nat)
      (st := run_init safe) (h := @nil event) (o := o) (tr := tr)
      as [(k' & st' & h' & ev & HI & Hbo & E)|(-> & st' & HI)]; auto.
    - intros k st st' h ev [A B] HB. apply Hb in HB. destruct HB as [C D]. unfold I.
      rewrite st_app, jend_app, B. auto.
    - split; simpl; auto.
    - simpl in E. subst tr. destruct HI as [A B]. apply Hb in Hbo. rewrite st_app, B. tauto.
    - exact (proj1 HI).
  Qed.

  (* a point at tolerance is never passed over *)
  Lemma check_tol e e0 iter n : AtTolerance P e ->
    check_termination P e e0 iter n = (Some Solve_Success, n).
  Proof.
    intros (H1 & H2 & H3 & H4). unfold check_termination. rewrite H1, H2, H3, H4. reflexivity.
  Qed.

  Lemma head_cont_nottol iw st x ev : head P iw st = (inl x, ev) ->
    exists e, checks ev = [e] /\ ~ AtTolerance P e.
  Proof.
    intros H. destruct x as [[F n'] e0].
    destruct (head_cont _ _ _ _ _ _ _ H) as (e & He & Hc & _ & _). exists e. split; auto.
    intros Ht. unfold head in H. rewrite He in H. destruct (iw_cb iw); [|discriminate]. simpl in H.
    rewrite (check_tol _ _ _ _ Ht) in H. discriminate.
  Qed.

  Lemma run_tol body np : body_head P body -> body_mid P np body ->
    forall W fuel safe o tr, run_loop body fuel W 0 (run_init safe) = (o, tr) ->
    forall e, In e (checks tr) -> AtTolerance P e -> o = RDone Solve_Success.
  Proof.
    intros Hh Hm W fuel safe o tr H e Hin Ht.
    set (I := fun (st : run_st) h => forall e, In e (checks h) -> ~ AtTolerance P e).
    destruct (run_loop_inv body I W) with (fuel := fuel) (k := 0%nat)
      (st := run_init safe) (h := @nil event) (o := o) (tr := tr)
      as [(k' & st' & h' & ev & HI & Hbo & E)|(-> & st' & HI)]; auto.
    - intros k st st' h ev A HB. intros e1. rewrite checks_app, in_app_iff.
      intros [H1|H1]; [apply A; auto|].
      destruct (head P (W k) st) as [[[[F n'] e0]|o'] ev0] eqn:Eh;
        [|rewrite (Hh _ _ _ _ Eh) in HB; discriminate].
      destruct (Hm _ _ _ _ _ _ _ _ Eh HB) as (C & _).
      destruct (head_cont_nottol _ _ _ _ Eh) as (e2 & Hc & Hn). rewrite C, Hc in H1.
      destruct H1 as [<-|[]]. exact Hn.
    - intros e1 [].
    - simpl in E. subst tr. rewrite checks_app, in_app_iff in Hin.
      destruct Hin as [Hin|Hin]; [exfalso; eapply HI; eauto|].
      destruct (head P (W k') st') as [[[[F n'] e0]|o'] ev0] eqn:Eh.
      + destruct (Hm _ _ _ _ _ _ _ _ Eh Hbo) as (C & _).
        destruct (head_cont_nottol _ _ _ _ Eh) as (e2 & Hc & Hn). rewrite C, Hc in Hin.
        destruct Hin as [<-|[]]. contradiction.
      + rewrite (Hh _ _ _ _ Eh) in Hbo. inversion Hbo; subst o' ev0. clear Hbo.
        unfold head in Eh. destruct (iw_errs (W k')) as [e1|] eqn:He;
          [|inversion Eh; subst; destruct Hin].
        destruct (iw_cb (W k')); simpl in Eh; [|inversion Eh; subst; destruct Hin].
        destruct (check_termination _ _ _ _ _) as [[s|] n1] eqn:Hc.
        * inversion Eh; subst. destruct Hin as [<-|[]]. rewrite (check_tol _ _ _ _ Ht) in Hc.
          inversion Hc. reflexivity.
        * destruct (iw_nmu (W k')); [discriminate|]. destruct (iw_mu_err (W k')); [|discriminate].
          inversion Eh; subst. simpl in Hin.
          assert (checks (repeat EvReset n) = []) by (clear; induction n; simpl; auto).
          rewrite H0 in Hin. destruct Hin as [<-|[]]. rewrite (check_tol _ _ _ _ Ht) in Hc. discriminate.
    - exfalso. simpl in HI. eapply HI; eauto.
  Qed.

  (* the iteration-limit status is exact *)
  Lemma run_maxiter body np : body_ok fpow P body -> body_head P body -> body_mid P np body ->
    (0 <= max_it P)%Z ->
    forall W fuel safe tr, run_loop body fuel W 0 (run_init safe) = (RDone Max_Iter_Exceeded, tr) ->
    Z.of_nat (steps tr) = max_it P.
  Proof.
    intros Hb Hh Hm Hpos W fuel safe tr H.
    destruct (run_loop_inv body (Inv7 fpow P) W) with (fuel := fuel) (k := 0%nat)
      (st := run_init safe) (h := @nil event) (o := RDone Max_Iter_Exceeded) (tr := tr)
      as [(k' & st' & h' & ev & HI & Hbo & E)|(HF & _)]; [| |exact H| |discriminate].
    - intros kk st st' h ev (HI & H1 & H2) HB. destruct (Hb (W kk) st h _ _ HI HB) as (A & B & C & D & E).
      pose proof (body_inl_iter _ _ _ _ _ _ Hh HB).
      repeat split; auto.
      + rewrite E, steps_app, D. lia.
      + rewrite E. lia.
    - repeat split; auto. simpl. lia.
    - simpl in E. subst tr. destruct HI as (HI & H1 & H2).
      destruct (head P (W k') st') as [[[[F n'] e0]|o'] ev0] eqn:Eh.
      + destruct (Hm _ _ _ _ _ _ _ _ Eh Hbo) as (_ & M & _). discriminate.
      + rewrite (Hh _ _ _ _ Eh) in Hbo. inversion Hbo; subst o' ev0. clear Hbo.
        destruct (head_end _ _ _ _ _ Eh) as [_ Hs].
        assert (max_it P <= r_iter st')%Z.
        { unfold head in Eh. destruct (iw_errs (W k')) as [e1|] eqn:He; [|discriminate].
          destruct (iw_cb (W k')); simpl in Eh; [|discriminate].
          destruct (check_termination _ _ _ _ _) as [[s|] n1] eqn:Hc.
          - inversion Eh; subst. apply (check_some fpow) in Hc.
            destruct Hc as [[Hc _]|[[_ Hc]|[[Hc _]|[Hc _]]]]; try discriminate Hc. exact Hc.
          - destruct (iw_nmu (W k')); [discriminate|]. destruct (iw_mu_err (W k')); discriminate. }
        rewrite steps_app, Hs. lia.
  Qed.

  (* the model's fuel is not observable *)
  Lemma newton_pass_fuel fq pw iter s F safe tv ufr ev :
    newton_pass fpow P lf fq pw iter s F safe tv ufr = (PReturn RFuel, ev) ->
    line_search fpow (rp_ls P) lf F (pw_ls pw) = LSFuel.
  Proof.
    unfold newton_pass.
    destruct (pw_kkt pw); cbn [negb]; [|destruct (safe || fq); discriminate].
    destruct (pw_dir pw); [|destruct (safe || fq); discriminate..].
    destruct (line_search fpow (rp_ls P) lf F (pw_ls pw)) as [st pt tv0 a g c sc|tv0|tv0| | |] eqn:Hls;
      auto; try discriminate.
    - destruct (force_resto P && _ && _).
      + destruct (apply_fr _ _ _) as [[[|] s2]|] eqn:Hfr; discriminate.
      + destruct (filter_augment _ _ _ _ _) as [F' r0] eqn:Hau. discriminate.
    - destruct (force_resto P && _ && _).
      + destruct (apply_fr _ _ _) as [[[|] s2]|] eqn:Hfr; discriminate.
      + destruct safe; [|destruct fq; discriminate].
        destruct (apply_fr _ _ _) as [[[|] s2]|] eqn:Hfr; discriminate.
    - destruct (force_resto P && _ && _).
      + destruct (apply_fr _ _ _) as [[[|] s2]|] eqn:Hfr; discriminate.
      + destruct safe; [|destruct fq; discriminate].
        destruct (apply_fr _ _ _) as [[[|] s2]|] eqn:Hfr; discriminate.
  Qed.

  Lemma after_step_fuel iw s F safe tv ufr iter n e0 ev :
    after_step iw s F safe tv ufr iter n e0 <> (inr RFuel, ev).
  Proof.
    unfold after_step. destruct (is_pending s); cbn [negb]; [|congruence].
    destruct ufr; [congruence|]. destruct tv; [|congruence].
    destruct (fge _ _); [|congruence]. destruct (iw_deriv iw); congruence.
  Qed.

  Lemma head_fuel iw st ev : head P iw st <> (inr RFuel, ev).
  Proof.
    unfold head. destruct (iw_errs iw); [|congruence]. destruct (iw_cb iw); simpl; [|congruence].
    destruct (check_termination _ _ _ _ _) as [[s|] n1]; [congruence|].
    destruct (iw_nmu iw); [congruence|]. destruct (iw_mu_err iw); congruence.
  Qed.

  Definition ls_ends (iw : iter_world) : Prop :=
    forall F, line_search fpow (rp_ls P) lf F (pw_ls (iw_pass1 iw)) <> LSFuel /\
              line_search fpow (rp_ls P) lf F (pw_ls (iw_pass2 iw)) <> LSFuel.

  Lemma newton_iter_fuel m iw st ev : ls_ends iw -> newton_iter fpow P lf m iw st <> (inr RFuel, ev).
  Proof.
    intros HL. unfold newton_iter.
    destruct (head P iw st) as [[[[F n'] e0]|o] ev0] eqn:Hh.
    2:{ intros H; inversion H; subst. eapply head_fuel; eauto. }
    destruct (newton_pass _ _ _ _ (iw_pass1 iw) _ _ _ _ _ _) as [p1 ev1] eqn:H1.
    destruct p1 as [o|s F1 safe1 tv ufr|s F1 safe1 tv ufr].
    - intros H; inversion H; subst. apply newton_pass_fuel in H1. exact (proj1 (HL F) H1).
    - destruct (newton_pass _ _ _ _ (iw_pass2 iw) _ _ _ _ _ _) as [p2 ev2] eqn:H2.
      destruct p2 as [o|s2 F2 safe2 tv2 ufr2|s2 F2 safe2 tv2 ufr2].
      + intros H; inversion H; subst. apply newton_pass_fuel in H2. exact (proj2 (HL F1) H2).
      + destruct (after_step _ _ _ _ _ _ _ _ _) as [r3 ev3] eqn:H3.
        intros H; inversion H; subst. eapply after_step_fuel; eauto.
      + destruct (after_step _ _ _ _ _ _ _ _ _) as [r3 ev3] eqn:H3.
        intros H; inversion H; subst. eapply after_step_fuel; eauto.
    - destruct (after_step _ _ _ _ _ _ _ _ _) as [r3 ev3] eqn:H3.
      intros H; inversion H; subst. eapply after_step_fuel; eauto.
  Qed.

  Lemma qn_iter_fuel iw st ev : ls_ends iw -> qn_iter fpow P lf iw st <> (inr RFuel, ev).
  Proof.
    intros HL. unfold qn_iter.
    destruct (head P iw st) as [[[[F n'] e0]|o] ev0] eqn:Hh.
    2:{ intros H; inversion H; subst. eapply head_fuel; eauto. }
    destruct (pw_kkt _); cbn [negb]; [|congruence].
    destruct (pw_dir _); [|congruence..].
    destruct (line_search fpow (rp_ls P) lf F (pw_ls (iw_pass1 iw))) as [s1 pt tv0 a g c sc|tv0|tv0| | |] eqn:Hls;
      try congruence.
    - destruct (force_resto P && _ && _).
      + destruct (apply_fr _ _ _) as [[[|] s2]|] eqn:Hfr; [..|congruence].
        all: destruct (after_step _ _ _ _ _ _ _ _ _) as [r3 ev3] eqn:H3;
          intros H; inversion H; subst; eapply after_step_fuel; eauto.
      + destruct (filter_augment _ _ _ _ _) as [F' r0] eqn:Hau.
        destruct (after_step _ _ _ _ _ _ _ _ _) as [r3 ev3] eqn:H3;
          intros H; inversion H; subst; eapply after_step_fuel; eauto.
    - destruct (force_resto P && _ && _).
      + destruct (apply_fr _ _ _) as [[[|] s2]|] eqn:Hfr; [..|congruence].
        all: destruct (after_step _ _ _ _ _ _ _ _ _) as [r3 ev3] eqn:H3;
          intros H; inversion H; subst; eapply after_step_fuel; eauto.
      + destruct (apply_fr _ _ _) as [[[|] s2]|] eqn:Hfr; congruence.
    - destruct (force_resto P && _ && _).
      + destruct (apply_fr _ _ _) as [[[|] s2]|] eqn:Hfr; [..|congruence].
        all: destruct (after_step _ _ _ _ _ _ _ _ _) as [r3 ev3] eqn:H3;
          intros H; inversion H; subst; eapply after_step_fuel; eauto.
      + destruct (apply_fr _ _ _) as [[[|] s2]|] eqn:Hfr; congruence.
    - specialize (HL F). tauto.
  Qed.

  Lemma run_ends body W : body_head P body ->
    (forall iw st st' ev, body iw st = (inl st', ev) -> r_iter st' = (r_iter st + 1)%Z) ->
    (forall k st ev, body (W k) st <> (inr RFuel, ev)) ->
    forall fuel safe o tr, (Z.of_nat fuel > Z.max 0 (max_it P))%Z ->
    run_loop body fuel W 0 (run_init safe) = (o, tr) -> o <> RFuel.
  Proof.
    intros Hh Hs Hf fuel safe o tr Hfu H ->.
    destruct (run_no_fuel P body Hh Hs fuel W 0 (run_init safe) RFuel tr) as (k & st & ev & E); auto.
    { simpl. lia. }
    eapply Hf; eauto.
  Qed.

  Lemma newton_iter_incr m iw st st' ev :
    newton_iter fpow P lf m iw st = (inl st', ev) -> r_iter st' = (r_iter st + 1)%Z.
  Proof.
    unfold newton_iter.
    destruct (head P iw st) as [[[[F n'] e0]|o] ev0] eqn:Hh; [|discriminate].
    destruct (newton_pass _ _ _ _ (iw_pass1 iw) _ _ _ _ _ _) as [p1 ev1] eqn:H1.
    destruct p1 as [o|s F1 safe1 tv ufr|s F1 safe1 tv ufr]; [discriminate| |].
    - destruct (newton_pass _ _ _ _ (iw_pass2 iw) _ _ _ _ _ _) as [p2 ev2] eqn:H2.
      destruct p2 as [o|s2 F2 safe2 tv2 ufr2|s2 F2 safe2 tv2 ufr2]; [discriminate| |];
      destruct (after_step _ _ _ _ _ _ _ _ _) as [r3 ev3] eqn:H3;
        intros H; inversion H; subst; apply (after_step_ok P) in H3; tauto.
    - destruct (after_step _ _ _ _ _ _ _ _ _) as [r3 ev3] eqn:H3;
        intros H; inversion H; subst; apply (after_step_ok P) in H3; tauto.
  Qed.

  Lemma qn_iter_incr iw st st' ev :
    qn_iter fpow P lf iw st = (inl st', ev) -> r_iter st' = (r_iter st + 1)%Z.
  Proof.
    unfold qn_iter.
    destruct (head P iw st) as [[[[F n'] e0]|o] ev0] eqn:Hh; [|discriminate].
    destruct (pw_kkt _); cbn [negb]; [|congruence].
    destruct (pw_dir _); [|congruence..].
    destruct (line_search fpow (rp_ls P) lf F (pw_ls (iw_pass1 iw))) as [s1 pt tv0 a g c sc|tv0|tv0| | |] eqn:Hls;
      try congruence.
    - destruct (force_resto P && _ && _).
      + destruct (apply_fr _ _ _) as [[[|] s2]|] eqn:Hfr; [..|congruence].
        all: destruct (after_step _ _ _ _ _ _ _ _ _) as [r3 ev3] eqn:H3;
          intros H; inversion H; subst; apply (after_step_ok P) in H3; tauto.
      + destruct (filter_augment _ _ _ _ _) as [F' r0] eqn:Hau.
        destruct (after_step _ _ _ _ _ _ _ _ _) as [r3 ev3] eqn:H3;
          intros H; inversion H; subst; apply (after_step_ok P) in H3; tauto.
    - destruct (force_resto P && _ && _).
      + destruct (apply_fr _ _ _) as [[[|] s2]|] eqn:Hfr; [..|congruence].
        all: destruct (after_step _ _ _ _ _ _ _ _ _) as [r3 ev3] eqn:H3;
          intros H; inversion H; subst; apply (after_step_ok P) in H3; tauto.
      + destruct (apply_fr _ _ _) as [[[|] s2]|] eqn:Hfr; congruence.
    - destruct (force_resto P && _ && _).
      + destruct (apply_fr _ _ _) as [[[|] s2]|] eqn:Hfr; [..|congruence].
        all: destruct (after_step _ _ _ _ _ _ _ _ _) as [r3 ev3] eqn:H3;
          intros H; inversion H; subst; apply (after_step_ok P) in H3; tauto.
      + destruct (apply_fr _ _ _) as [[[|] s2]|] eqn:Hfr; congruence.
  Qed.
End B.
