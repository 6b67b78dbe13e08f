From Coq Require Import List Bool ZArith Lia.
From Verif Require Import FloatBase FilterModel FilterSpec FilterProofs LineSearchModel RunModel
  LineSearchSpec LineSearchProofs.
Import ListNotations.

(* ---------- generic ---------- *)

Lemma run_loop_inv body (I : run_st -> list event -> Prop) :
  forall W,
  (forall k st st' h ev, I st h -> body (W k) st = (inl st', ev) -> I st' (h ++ ev)) ->
  forall fuel k st h o tr, I st h -> run_loop body fuel W k st = (o, tr) ->
    (exists k' st' h' ev, I st' h' /\ body (W k') st' = (inr o, ev) /\ h ++ tr = h' ++ ev) \/
    (o = RFuel /\ exists st', I st' (h ++ tr)).
Proof.
  intros W Hs. induction fuel as [|fuel IH]; intros k st h o tr HI; simpl.
  - intros H; inversion H; subst. right. split; auto. exists st. rewrite app_nil_r. exact HI.
  - destruct (body (W k) st) as [[st'|o'] ev] eqn:Hb.
    + destruct (run_loop body fuel W (S k) st') as [o2 ev2] eqn:Hr.
      intros H; inversion H; subst.
      specialize (IH (S k) st' (h ++ ev) o ev2 (Hs _ _ _ _ _ HI Hb) Hr).
      rewrite <- app_assoc in IH. exact IH.
    + intros H; inversion H; subst. left. exists k, st, h, tr. auto.
Qed.

Lemma ops_of_app t a b : ops_of t (a ++ b) = ops_of t a ++ ops_of t b.
Proof.
  induction a as [|x a IH]; [reflexivity|]. simpl. destruct x as [| | |[? ?]| | |]; simpl; rewrite ?IH; reflexivity.
Qed.

Lemma checks_app a b : checks (a ++ b) = checks a ++ checks b.
Proof. induction a as [|[] a IH]; simpl; rewrite ?IH; reflexivity. Qed.

Lemma steps_app a b : steps (a ++ b) = (steps a + steps b)%nat.
Proof. induction a as [|[] a IH]; simpl; rewrite ?IH; reflexivity. Qed.

Lemma ops_resets t n : ops_of t (repeat EvReset n) = repeat (FReinit t) n.
Proof. induction n; simpl; congruence. Qed.

Lemma filter_run_app a b : filter_run (a ++ b) = fold_left filter_step b (filter_run a).
Proof. unfold filter_run. apply fold_left_app. Qed.

Section A.
  Variable fpow : b64 -> b64 -> b64.
  Variable P : run_params.
  Variable lf : nat.
  Let L := rp_ls P.
  Let tm := theta_max P.

  Definition claim (h : list event) (st : Z) (pt : point) (w : ls_world) : Prop :=
    Justified fpow L w st pt /\
    (forall e, on_record (ops_of tm h) e -> ~ no_better (fst pt) (snd pt) e).

  Fixpoint acc_ok (h tr : list event) : Prop :=
    match tr with
    | [] => True
    | x :: r => match x with EvAccept st pt w sc => claim h st pt w | _ => True end
                /\ acc_ok (h ++ [x]) r
    end.

  Lemma acc_ok_app h a b : acc_ok h (a ++ b) <-> acc_ok h a /\ acc_ok (h ++ a) b.
  Proof.
    revert h. induction a as [|x a IH]; intros h; simpl.
    - rewrite app_nil_r. tauto.
    - rewrite IH, <- app_assoc. simpl. tauto.
  Qed.

  Definition is_acc (x : event) : bool := match x with EvAccept _ _ _ _ => true | _ => false end.

  Lemma acc_ok_none h tr : existsb is_acc tr = false -> acc_ok h tr.
  Proof.
    revert h. induction tr as [|x tr IH]; intros h; simpl; auto.
    destruct x; simpl; try discriminate; auto.
  Qed.

  (* every non-SOC acceptance is immediately recorded or of f-type *)
  Definition ftype (w : ls_world) (pt : point) : Prop :=
    exists k, Switching fpow L (halved (w_alpha0 w) k) (w_gdir w) (w_theta w) /\
              Armijo L (halved (w_alpha0 w) k) (w_gdir w) (w_phi w) (snd pt).

  Fixpoint rec_ok (tr : list event) : Prop :=
    match tr with
    | [] => True
    | x :: r => match x with
                | EvAccept st pt w false => (exists r', r = EvRecord pt :: r') \/ ftype w pt
                | _ => True end
                /\ rec_ok r
    end.

  Lemma rec_ok_app a b : rec_ok a -> rec_ok b -> rec_ok (a ++ b).
  Proof.
    induction a as [|x a IH]; simpl; auto. intros [H1 H2] Hb. split; auto.
    destruct x as [| |? ? ? []| | | |]; auto. destruct H1 as [[r' ->]|]; auto. left. simpl. eauto.
  Qed.
  Lemma rec_ok_none tr : existsb is_acc tr = false -> rec_ok tr.
  Proof. induction tr as [|x tr IH]; simpl; auto. destruct x; simpl; try discriminate; auto. Qed.

  (* filter contents track the trace *)
  Definition tracks (F : filter_st) (h : list event) : Prop := F = filter_run (ops_of tm h).

  Lemma tracks_app_nop F h ev : tracks F h -> ops_of tm ev = [] -> tracks F (h ++ ev).
  Proof. unfold tracks. intros -> H. rewrite ops_of_app, H, app_nil_r. reflexivity. Qed.

  Lemma mu_resets_fold n F : mu_resets P n F = fold_left filter_step (repeat (FReinit tm) n) F.
  Proof. revert F. induction n; intros F; simpl; auto. Qed.

  Lemma head_ok iw st h F n' e0 ev :
    tracks (r_F st) h -> head P iw st = (inl (F, n', e0), ev) ->
    tracks F (h ++ ev) /\ existsb is_acc ev = false /\ steps ev = 0%nat.
  Proof.
    unfold head. intros HT.
    destruct (iw_errs iw) as [e|]; [|discriminate].
    destruct (iw_cb iw); simpl; [|discriminate].
    destruct (check_termination _ _ _ _ _) as [[s|] n1] eqn:Hc; [discriminate|].
    destruct (iw_nmu iw) as [|k] eqn:Hn.
    - intros H; inversion H; subst. split; [|split; reflexivity]. apply tracks_app_nop; auto.
    - destruct (iw_mu_err iw); [discriminate|]. intros H; inversion H; subst. split; [|split].
      + unfold tracks in *. rewrite HT, ops_of_app, filter_run_app.
        simpl. rewrite ops_resets, mu_resets_fold. reflexivity.
      + simpl. clear. induction k; simpl; auto.
      + simpl. clear. induction k; simpl; auto.
  Qed.

  Lemma head_end iw st o ev :
    head P iw st = (inr o, ev) -> existsb is_acc ev = false /\ steps ev = 0%nat.
  Proof.
    unfold head.
    destruct (iw_errs iw) as [e|]; [|intros H; inversion H; subst; auto].
    destruct (iw_cb iw); simpl; [|intros H; inversion H; subst; auto].
    destruct (check_termination _ _ _ _ _) as [[s|] n1] eqn:Hc; [intros H; inversion H; subst; auto|].
    destruct (iw_nmu iw) as [|k] eqn:Hn; [discriminate|].
    destruct (iw_mu_err iw); [|discriminate]. intros H; inversion H; subst. simpl.
    clear. induction k; simpl; auto.
  Qed.

  Lemma not_contains_claim F h st pt w k :
    tracks F h -> good fpow L F w st pt (halved (w_alpha0 w) k) -> claim h st pt w.
  Proof.
    intros HT Hg. split; [eapply good_justified; eauto|].
    intros e He Hn. destruct Hg as [Hc _].
    assert (filter_contains (filter_run (ops_of tm h)) (fst pt) (snd pt) = true)
      by (apply filter_rejects_iff; eauto).
    unfold tracks in HT. congruence.
  Qed.

  Definition pass_tracks (r : pass_out) (h : list event) : Prop :=
    match r with
    | PReturn _ => True
    | PContinue _ F _ _ _ | PBreak _ F _ _ _ => tracks F h
    end.

  Lemma accept_event F h w st pt tv a g c sc F' r :
    tracks F h ->
    line_search fpow L lf F w = LSAccept st pt tv a g c sc ->
    filter_augment fpow L F w (LSAccept st pt tv a g c sc) = (F', r) ->
    let ev := EvAccept st pt w sc :: match r with Some q => [EvRecord q] | None => [] end in
    acc_ok h ev /\ rec_ok ev /\ tracks F' (h ++ ev) /\ steps ev = 0%nat.
  Proof.
    intros HT Hls Hau ev.
    destruct (line_search_good _ _ _ _ _ _ _ _ _ _ _ _ Hls) as (k & Hg & Hc & Hs).
    split; [|split; [|split]].
    - subst ev. simpl. split; [eapply not_contains_claim; eauto|]. destruct r; simpl; auto.
    - subst ev. simpl. split; [|destruct r; simpl; auto].
      destruct sc; auto.
      destruct (augment_record _ _ _ _ _ _ _ _ _ _ _ _ _ Hls Hau) as [->|Hf]; [left; eauto|right; exact Hf].
    - apply augment_filter in Hau. unfold tracks in *. subst F' ev F.
      rewrite ops_of_app, filter_run_app. destruct r as [[t p]|]; reflexivity.
    - subst ev. destruct r; reflexivity.
  Qed.

  Lemma newton_pass_ok fq pw iter s F safe tv ufr h r ev :
    tracks F h ->
    newton_pass fpow P lf fq pw iter s F safe tv ufr = (r, ev) ->
    acc_ok h ev /\ rec_ok ev /\ pass_tracks r (h ++ ev) /\ steps ev = 0%nat.
  Proof.
    intros HT. unfold newton_pass.
    assert (Hnop : forall ev, ops_of tm ev = [] -> tracks F (h ++ ev))
      by (intros; apply tracks_app_nop; auto).
    Ltac triv Hnop := intros H; inversion H; subst; clear H;
      split; [apply acc_ok_none; reflexivity|split; [apply rec_ok_none; reflexivity|
        split; [simpl; auto|reflexivity]]].
    destruct (pw_kkt pw); simpl; [|destruct (safe || fq); triv Hnop].
    destruct (pw_dir pw); [|destruct (safe || fq); triv Hnop..].
    destruct (line_search fpow (rp_ls P) lf F (pw_ls pw)) as [st pt tv0 a g c sc|tv0|tv0| | |] eqn:Hls;
      try (triv Hnop).
    - destruct (force_resto P && _ && _).
      + destruct (apply_fr _ _ _) as [[[|] s2]|]; triv Hnop.
      + destruct (filter_augment _ _ _ _ _) as [F' r0] eqn:Hau. intros H; inversion H; subst; clear H.
        destruct (accept_event F h (pw_ls pw) st pt tv0 a g c sc F' r0 HT Hls Hau) as (A & B & C & D).
        simpl pass_tracks. auto.
    - destruct (force_resto P && _ && _).
      + destruct (apply_fr _ _ _) as [[[|] s2]|]; triv Hnop.
      + destruct safe; [destruct (apply_fr _ _ _) as [[[|] s2]|]; triv Hnop|destruct fq; triv Hnop].
    - destruct (force_resto P && _ && _).
      + destruct (apply_fr _ _ _) as [[[|] s2]|]; triv Hnop.
      + destruct safe; [destruct (apply_fr _ _ _) as [[[|] s2]|]; triv Hnop|destruct fq; triv Hnop].
  Qed.

  Lemma after_step_ok iw s F safe tv ufr iter n e0 r ev :
    after_step iw s F safe tv ufr iter n e0 = (r, ev) ->
    existsb is_acc ev = false /\ ops_of tm ev = [] /\ (steps ev <= 1)%nat /\
    match r with inl st' => r_F st' = F /\ r_iter st' = (iter + 1)%Z /\ r_naccep st' = n /\
                            r_e0 st' = e0 /\ steps ev = 1%nat
            | inr o => o <> RFuel /\ o <> RDone NlpSolve_Pending end.
  Proof.
    unfold after_step. destruct s; simpl;
      try (intros H; inversion H; subst; repeat split; auto; discriminate).
    destruct ufr; [intros H; inversion H; subst; simpl; auto 10|].
    destruct tv; [|intros H; inversion H; subst; repeat split; auto; discriminate].
    destruct (fge _ _); [|intros H; inversion H; subst; repeat split; auto; discriminate].
    destruct (iw_deriv iw); intros H; inversion H; subst; simpl; repeat split; auto; discriminate.
  Qed.

  (* one full loop pass *)
  Definition Inv (st : run_st) (h : list event) : Prop :=
    tracks (r_F st) h /\ acc_ok [] h /\ rec_ok h.

  Definition body_ok (body : iter_world -> run_st -> (run_st + run_out) * list event) : Prop :=
    forall iw st h r ev, Inv st h -> body iw st = (r, ev) ->
      acc_ok [] (h ++ ev) /\ rec_ok (h ++ ev) /\
      match r with inl st' => tracks (r_F st') (h ++ ev) /\ steps ev = 1%nat /\
                              r_iter st' = (r_iter st + 1)%Z
              | inr _ => (steps ev <= 1)%nat end.

  Lemma fin_ok iw s F safe tv ufr iter n e0 h ev r ev2 :
    tracks F (h ++ ev) -> acc_ok [] (h ++ ev) -> rec_ok (h ++ ev) -> steps ev = 0%nat ->
    after_step iw s F safe tv ufr iter n e0 = (r, ev2) ->
    acc_ok [] (h ++ ev ++ ev2) /\ rec_ok (h ++ ev ++ ev2) /\
    match r with inl st' => tracks (r_F st') (h ++ ev ++ ev2) /\ steps (ev ++ ev2) = 1%nat /\
                            r_iter st' = (iter + 1)%Z
            | inr _ => (steps (ev ++ ev2) <= 1)%nat end.
  Proof.
    intros HT Ha Hr Hs H. destruct (after_step_ok _ _ _ _ _ _ _ _ _ _ _ H) as (A & B & C & D).
    rewrite !app_assoc. split; [apply acc_ok_app; split; [exact Ha|apply acc_ok_none; exact A]|].
    split; [apply rec_ok_app; [exact Hr|apply rec_ok_none; exact A]|].
    rewrite steps_app, Hs. simpl. destruct r; [|exact C].
    destruct D as (E1 & E2 & _ & _ & E3). rewrite E1. split; [|auto]. apply tracks_app_nop; auto.
  Qed.

  Lemma newton_iter_ok m : body_ok (newton_iter fpow P lf m).
  Proof.
    intros iw st h r ev (HT & Ha & Hr). unfold newton_iter.
    destruct (head P iw st) as [[[[F n'] e0]|o] ev0] eqn:Hh.
    2:{ intros H; inversion H; subst. destruct (head_end _ _ _ _ Hh) as [A B].
        split; [apply acc_ok_app; split; auto; apply acc_ok_none; auto|].
        split; [apply rec_ok_app; auto; apply rec_ok_none; auto|]. rewrite B; auto. }
    destruct (head_ok _ _ _ _ _ _ _ HT Hh) as (T0 & A0 & S0).
    assert (Ha0 : acc_ok [] (h ++ ev0)) by (apply acc_ok_app; split; auto; apply acc_ok_none; auto).
    assert (Hr0 : rec_ok (h ++ ev0)) by (apply rec_ok_app; auto; apply rec_ok_none; auto).
    destruct (newton_pass _ _ _ _ (iw_pass1 iw) _ _ _ _ _ _) as [p1 ev1] eqn:H1.
    destruct (newton_pass_ok _ _ _ _ _ _ _ _ (h ++ ev0) _ _ T0 H1) as (A1 & R1 & T1 & S1).
    assert (Ha1 : acc_ok [] (h ++ ev0 ++ ev1)).
    { rewrite app_assoc. apply acc_ok_app. split; auto. }
    assert (Hr1 : rec_ok (h ++ ev0 ++ ev1)).
    { rewrite app_assoc. apply rec_ok_app; auto. }
    rewrite <- app_assoc in T1.
    assert (S01 : steps (ev0 ++ ev1) = 0%nat) by (rewrite steps_app; lia).
    destruct p1 as [o|s F1 safe1 tv ufr|s F1 safe1 tv ufr].
    - intros H; inversion H; subst. rewrite S01. auto.
    - destruct (newton_pass _ _ _ _ (iw_pass2 iw) _ _ _ _ _ _) as [p2 ev2] eqn:H2.
      destruct (newton_pass_ok _ _ _ _ _ _ _ _ (h ++ ev0 ++ ev1) _ _ T1 H2) as (A2 & R2 & T2 & S2).
      assert (Ha2 : acc_ok [] (h ++ ev0 ++ ev1 ++ ev2)).
      { rewrite (app_assoc ev0), app_assoc. apply acc_ok_app. split; auto. }
      assert (Hr2 : rec_ok (h ++ ev0 ++ ev1 ++ ev2)).
      { rewrite (app_assoc ev0), app_assoc. apply rec_ok_app; auto. }
      replace ((h ++ ev0 ++ ev1) ++ ev2) with (h ++ ev0 ++ ev1 ++ ev2) in T2
        by (rewrite !app_assoc; reflexivity).
      assert (S012 : steps (ev0 ++ ev1 ++ ev2) = 0%nat) by (rewrite !steps_app; lia).
      destruct p2 as [o|s2 F2 safe2 tv2 ufr2|s2 F2 safe2 tv2 ufr2].
      + intros H; inversion H; subst. rewrite S012. auto.
      + destruct (after_step _ _ _ _ _ _ _ _ _) as [r3 ev3] eqn:H3.
        intros H; inversion H; subst. eapply fin_ok; eauto.
      + destruct (after_step _ _ _ _ _ _ _ _ _) as [r3 ev3] eqn:H3.
        intros H; inversion H; subst. eapply fin_ok; eauto.
    - destruct (after_step _ _ _ _ _ _ _ _ _) as [r3 ev3] eqn:H3.
      intros H; inversion H; subst. eapply fin_ok; eauto.
  Qed.

  Lemma qn_iter_ok : body_ok (qn_iter fpow P lf).
  Proof.
    intros iw st h r ev (HT & Ha & Hr). unfold qn_iter.
    destruct (head P iw st) as [[[[F n'] e0]|o] ev0] eqn:Hh.
    2:{ intros H; inversion H; subst. destruct (head_end _ _ _ _ Hh) as [A B].
        split; [apply acc_ok_app; split; auto; apply acc_ok_none; auto|].
        split; [apply rec_ok_app; auto; apply rec_ok_none; auto|]. rewrite B; auto. }
    destruct (head_ok _ _ _ _ _ _ _ HT Hh) as (T0 & A0 & S0).
    assert (Ha0 : acc_ok [] (h ++ ev0)) by (apply acc_ok_app; split; auto; apply acc_ok_none; auto).
    assert (Hr0 : rec_ok (h ++ ev0)) by (apply rec_ok_app; auto; apply rec_ok_none; auto).
    assert (Hfr : forall b, acc_ok [] (h ++ ev0 ++ [EvFR b]) /\ rec_ok (h ++ ev0 ++ [EvFR b]) /\
                  steps (ev0 ++ [EvFR b]) = 0%nat /\ tracks F (h ++ ev0 ++ [EvFR b])).
    { intros b. rewrite !app_assoc. split; [apply acc_ok_app; split; auto; simpl; auto|].
      split; [apply rec_ok_app; auto; simpl; auto|]. split; [rewrite steps_app; simpl; lia|].
      apply tracks_app_nop; auto. }
    assert (Hplain : forall o, (inr o : run_st + run_out, ev0) = (r, ev) ->
      acc_ok [] (h ++ ev) /\ rec_ok (h ++ ev) /\
      match r with inl st' => tracks (r_F st') (h ++ ev) /\ steps ev = 1%nat /\ r_iter st' = (r_iter st + 1)%Z
              | inr _ => (steps ev <= 1)%nat end).
    { intros o H; inversion H; subst. rewrite S0. auto. }
    assert (HplainF : forall o b, (inr o : run_st + run_out, ev0 ++ [EvFR b]) = (r, ev) ->
      acc_ok [] (h ++ ev) /\ rec_ok (h ++ ev) /\
      match r with inl st' => tracks (r_F st') (h ++ ev) /\ steps ev = 1%nat /\ r_iter st' = (r_iter st + 1)%Z
              | inr _ => (steps ev <= 1)%nat end).
    { intros o b H; inversion H; subst. destruct (Hfr b) as (Fa & Fr & Fs & Ft). rewrite Fs. auto. }
    assert (HfinF : forall b s tv ufr r3 ev3, after_step iw s F true tv ufr (r_iter st) n' e0 = (r3, ev3) ->
      (r3, ev0 ++ EvFR b :: ev3) = (r, ev) ->
      acc_ok [] (h ++ ev) /\ rec_ok (h ++ ev) /\
      match r with inl st' => tracks (r_F st') (h ++ ev) /\ steps ev = 1%nat /\ r_iter st' = (r_iter st + 1)%Z
              | inr _ => (steps ev <= 1)%nat end).
    { intros b s tv ufr r3 ev3 H3 H. inversion H; subst. destruct (Hfr b) as (Fa & Fr & Fs & Ft).
      replace (ev0 ++ EvFR b :: ev3) with ((ev0 ++ [EvFR b]) ++ ev3) by (rewrite <- app_assoc; reflexivity).
      eapply fin_ok; eauto. }
    destruct (pw_kkt _); cbn [negb]; [|apply Hplain].
    destruct (pw_dir _); [|apply Hplain..].
    destruct (line_search fpow (rp_ls P) lf F (pw_ls (iw_pass1 iw))) as [s1 pt tv0 a g c sc|tv0|tv0| | |] eqn:Hls;
      try apply Hplain.
    - destruct (force_resto P && _ && _).
      + destruct (apply_fr _ _ _) as [[[|] s2]|]; [..|apply HplainF].
        * destruct (after_step _ _ _ _ _ _ _ _ _) as [r3 ev3] eqn:H3. eapply HfinF; eauto.
        * destruct (after_step _ _ _ _ _ _ _ _ _) as [r3 ev3] eqn:H3. eapply HfinF; eauto.
      + destruct (filter_augment _ _ _ _ _) as [F' r0] eqn:Hau.
        destruct (after_step _ _ _ _ _ _ _ _ _) as [r3 ev3] eqn:H3.
        destruct (accept_event F _ (pw_ls (iw_pass1 iw)) s1 pt tv0 a g c sc F' r0 T0 Hls Hau) as (A & B & C & D).
        intros H; inversion H; subst.
        match goal with |- context [ev0 ++ EvAccept s1 pt ?w sc :: ?x ++ ev3] =>
          replace (ev0 ++ EvAccept s1 pt w sc :: x ++ ev3)
            with ((ev0 ++ (EvAccept s1 pt w sc :: x)) ++ ev3) by (rewrite <- app_assoc; reflexivity);
          set (evx := EvAccept s1 pt w sc :: x) in * end.
        eapply fin_ok; eauto.
        * rewrite app_assoc. exact C.
        * rewrite app_assoc. apply acc_ok_app. auto.
        * rewrite app_assoc. apply rec_ok_app; auto.
        * rewrite steps_app. lia.
    - destruct (force_resto P && _ && _).
      + destruct (apply_fr _ _ _) as [[[|] s2]|]; [..|apply HplainF];
          destruct (after_step _ _ _ _ _ _ _ _ _) as [r3 ev3] eqn:H3; eapply HfinF; eauto.
      + destruct (apply_fr _ _ _) as [[[|] s2]|]; apply HplainF.
    - destruct (force_resto P && _ && _).
      + destruct (apply_fr _ _ _) as [[[|] s2]|]; [..|apply HplainF];
          destruct (after_step _ _ _ _ _ _ _ _ _) as [r3 ev3] eqn:H3; eapply HfinF; eauto.
      + destruct (apply_fr _ _ _) as [[[|] s2]|]; apply HplainF.
  Qed.

  Lemma run_trace_ok body : body_ok body ->
    forall fuel W safe o tr, run_loop body fuel W 0 (run_init safe) = (o, tr) ->
    acc_ok [] tr /\ rec_ok tr.
  Proof.
    intros Hb fuel W safe o tr H.
    destruct (run_loop_inv body Inv) with (fuel := fuel) (W := W) (k := 0%nat)
      (st := run_init safe) (h := @nil event) (o := o) (tr := tr)
      as [(k' & st' & h' & ev & HI & Hbo & E)|(-> & st' & HI)]; auto.
    - intros kk st st' h ev HI HB. destruct (Hb (W kk) st h _ _ HI HB) as (A & B & C & _).
      repeat split; auto.
    - repeat split; auto.
    - simpl in E. subst tr. destruct (Hb _ _ _ _ _ HI Hbo) as (A & B & _). auto.
    - simpl in HI. destruct HI as (_ & A & B). auto.
  Qed.

  Lemma acc_ok_split pre st pt w sc post :
    acc_ok [] (pre ++ EvAccept st pt w sc :: post) -> claim pre st pt w.
  Proof. intros H. apply acc_ok_app in H. destruct H as [_ [H _]]. exact H. Qed.

  Lemma rec_ok_split pre st pt w post :
    rec_ok (pre ++ EvAccept st pt w false :: post) ->
    (exists post', post = EvRecord pt :: post') \/ ftype w pt.
  Proof. induction pre; simpl; intros [H1 H2]; auto. Qed.

  (* ---------- iteration limit ---------- *)
  Definition Inv7 (st : run_st) (h : list event) : Prop :=
    Inv st h /\ r_iter st = Z.of_nat (steps h) /\ (r_iter st <= Z.max 0 (max_it P))%Z.

  Lemma head_cont_iter iw st x ev : head P iw st = (inl x, ev) -> (r_iter st < max_it P)%Z.
  Proof.
    unfold head. destruct (iw_errs iw) as [e|]; [|discriminate].
    destruct (iw_cb iw); simpl; [|discriminate].
    destruct (check_termination _ _ _ _ _) as [[s|] n1] eqn:Hc; [discriminate|]. intros _.
    unfold check_termination in Hc. destruct (_ && _); [discriminate|].
    destruct (Z.leb_spec (max_it P) (r_iter st)); [discriminate|]. lia.
  Qed.

  Definition body_head (body : iter_world -> run_st -> (run_st + run_out) * list event) : Prop :=
    forall iw st o ev, head P iw st = (inr o, ev) -> body iw st = (inr o, ev).

  Lemma newton_head m : body_head (newton_iter fpow P lf m).
  Proof. intros iw st o ev H. unfold newton_iter. rewrite H. reflexivity. Qed.
  Lemma qn_head : body_head (qn_iter fpow P lf).
  Proof. intros iw st o ev H. unfold qn_iter. rewrite H. reflexivity. Qed.

  Lemma body_inl_iter body iw st st' ev : body_head body ->
    body iw st = (inl st', ev) -> (r_iter st < max_it P)%Z.
  Proof.
    intros Hh H. destruct (head P iw st) as [[x|o] ev0] eqn:E.
    - eapply head_cont_iter; eauto.
    - rewrite (Hh _ _ _ _ E) in H. discriminate.
  Qed.

  Lemma run_steps body : body_ok body -> body_head body ->
    (forall iw st ev o, body iw st = (inr o, ev) -> steps ev = 1%nat -> (r_iter st < max_it P)%Z) ->
    forall fuel W safe o tr, run_loop body fuel W 0 (run_init safe) = (o, tr) ->
    (Z.of_nat (steps tr) <= Z.max 0 (max_it P))%Z.
  Proof.
    intros Hb Hh Hlast fuel W safe o tr H.
    destruct (run_loop_inv body Inv7) with (fuel := fuel) (W := W) (k := 0%nat)
      (st := run_init safe) (h := @nil event) (o := o) (tr := tr)
      as [(k' & st' & h' & ev & HI & Hbo & E)|(-> & st' & HI)]; auto.
    - intros kk st st' h ev (HI & H1 & H2) HB. destruct (Hb (W kk) st h _ _ HI HB) as (A & B & C & D & E).
      pose proof (body_inl_iter _ _ _ _ _ Hh HB).
      repeat split; auto.
      + rewrite E, steps_app, D. lia.
      + rewrite E. lia.
    - repeat split; auto. simpl. lia.
    - simpl in E. subst tr. destruct HI as (HI & H1 & H2).
      destruct (Hb _ _ _ _ _ HI Hbo) as (_ & _ & C).
      rewrite steps_app. destruct (steps ev) as [|[|n]] eqn:Es; [lia| |lia].
      specialize (Hlast _ _ _ _ Hbo Es). lia.
    - simpl in HI. destruct HI as (_ & H1 & H2). rewrite <- H1. exact H2.
  Qed.

  Lemma last_step_iter body : body_head body ->
    forall iw st ev o, body iw st = (inr o, ev) -> steps ev = 1%nat -> (r_iter st < max_it P)%Z.
  Proof.
    intros Hh iw st ev o H Hs. destruct (head P iw st) as [[x|o'] ev0] eqn:E.
    - eapply head_cont_iter; eauto.
    - rewrite (Hh _ _ _ _ E) in H. inversion H; subst.
      destruct (head_end _ _ _ _ E) as [_ H0]. lia.
  Qed.

  (* the main loop needs at most max_it + 1 passes *)
  Lemma run_no_fuel body : body_head body ->
    (forall iw st st' ev, body iw st = (inl st', ev) -> r_iter st' = (r_iter st + 1)%Z) ->
    forall fuel W k st o tr,
    (Z.of_nat fuel > Z.max 0 (max_it P - r_iter st))%Z ->
    run_loop body fuel W k st = (o, tr) -> o = RFuel ->
    exists k' st' ev, body (W k') st' = (inr RFuel, ev).
  Proof.
    intros Hh Hstep. induction fuel as [|fuel IH]; intros W k st o tr Hf; simpl; [lia|].
    destruct (body (W k) st) as [[st'|o'] ev] eqn:Hb.
    - destruct (run_loop body fuel W (S k) st') as [o2 ev2] eqn:Hr. intros H ->. inversion H; subst.
      pose proof (body_inl_iter _ _ _ _ _ Hh Hb). pose proof (Hstep _ _ _ _ Hb).
      eapply IH; [|exact Hr|reflexivity]. lia.
    - intros H ->. inversion H; subst. eauto.
  Qed.

  (* ---------- termination statuses ---------- *)
  Definition mid (s : status) : bool :=
    match s with
    | Solve_Success | Solve_Success_RelTol | Solve_Acceptable_Level | Max_Iter_Exceeded
    | User_Stopped => false
    | _ => true
    end.

  Definition mid_out (o : run_out) : Prop := match o with RDone s => mid s = true | _ => True end.

  Lemma apply_fr_mid within F W b s : apply_fr within F W = Some (b, Some s) -> mid s = true.
  Proof.
    unfold apply_fr. destruct within; simpl.
    - destruct (fr_force_ok W); [destruct (fr_eval_ok W)|]; intros H; inversion H; subst; reflexivity.
    - destruct (soft_fr F W) as [[|] [|]]; try (intros H; inversion H; subst; reflexivity);
        (destruct (fr_sub W); simpl;
         try (destruct (fr_eval_ok W)); intros H; inversion H; subst; reflexivity).
  Qed.

  Lemma mid_fr within F W b s2 s : apply_fr within F W = Some (b, s2) -> mid s = true ->
    mid (match s2 with Some x => x | None => s end) = true.
  Proof. intros H Hs. destruct s2; auto. eapply apply_fr_mid; eauto. Qed.

  Definition pass_mid (r : pass_out) : Prop :=
    match r with
    | PReturn o => mid_out o /\ o <> RDone NlpSolve_Pending
    | PContinue s _ _ _ _ | PBreak s _ _ _ _ => mid s = true
    end.

  Lemma newton_pass_mid fq pw iter s F safe tv ufr r ev :
    mid s = true ->
    newton_pass fpow P lf fq pw iter s F safe tv ufr = (r, ev) -> pass_mid r /\ checks ev = [].
  Proof.
    intros Hs. unfold newton_pass.
    Ltac tm := solve [intros H; inversion H; subst; clear H; simpl; auto;
               (split; [split; [auto|discriminate]|reflexivity])].
    destruct (pw_kkt pw); cbn [negb]; [|destruct (safe || fq); tm].
    destruct (pw_dir pw); [|destruct (safe || fq); tm..].
    destruct (line_search fpow (rp_ls P) lf F (pw_ls pw)) as [st pt tv0 a g c sc|tv0|tv0| | |] eqn:Hls;
      try tm.
    - destruct (force_resto P && _ && _).
      + destruct (apply_fr _ _ _) as [[[|] s2]|] eqn:Hfr; try tm.
        intros H; inversion H; subst; clear H. split; auto. simpl. eapply mid_fr; eauto.
      + destruct (filter_augment _ _ _ _ _) as [F' r0] eqn:Hau. intros H; inversion H; subst.
        split; auto. destruct r0; reflexivity.
    - assert (Hs' : mid (if safe then Steplength_Too_Small else s) = true) by (destruct safe; auto).
      destruct (force_resto P && _ && _).
      + destruct (apply_fr _ _ _) as [[[|] s2]|] eqn:Hfr; try tm.
        intros H; inversion H; subst; clear H. split; auto. simpl. eapply mid_fr; eauto.
      + destruct safe; [|destruct fq; tm].
        destruct (apply_fr _ _ _) as [[[|] s2]|] eqn:Hfr; try tm.
        intros H; inversion H; subst; clear H. split; auto. simpl. eapply mid_fr; eauto.
    - destruct (force_resto P && _ && _).
      + destruct (apply_fr _ _ _) as [[[|] s2]|] eqn:Hfr; try tm.
        intros H; inversion H; subst; clear H. split; auto. simpl. eapply mid_fr; eauto.
      + destruct safe; [|destruct fq; tm].
        destruct (apply_fr _ _ _) as [[[|] s2]|] eqn:Hfr; try tm.
        intros H; inversion H; subst; clear H. split; auto. simpl. eapply mid_fr; eauto.
  Qed.

  Lemma after_step_mid iw s F safe tv ufr iter n e0 r ev :
    mid s = true -> after_step iw s F safe tv ufr iter n e0 = (r, ev) ->
    checks ev = [] /\
    match r with inl st' => r_naccep st' = n /\ r_e0 st' = e0
               | inr o => mid_out o /\ o <> RDone NlpSolve_Pending end.
  Proof.
    intros Hs. unfold after_step. destruct (is_pending s) eqn:Hp; cbn [negb].
    2:{ intros H; inversion H; subst. repeat split; auto. intros E. inversion E; subst. discriminate. }
    destruct ufr; [intros H; inversion H; subst; auto|].
    destruct tv; [|intros H; inversion H; subst; simpl; repeat split; auto; discriminate].
    destruct (fge _ _); [|intros H; inversion H; subst; simpl; repeat split; auto; discriminate].
    destruct (iw_deriv iw); intros H; inversion H; subst; simpl; repeat split; auto; discriminate.
  Qed.

  Definition body_mid (nopend : bool) (body : iter_world -> run_st -> (run_st + run_out) * list event) : Prop :=
    forall iw st F n' e0 ev0 r ev,
      head P iw st = (inl (F, n', e0), ev0) -> body iw st = (r, ev) ->
      checks ev = checks ev0 /\
      match r with inl st' => r_naccep st' = n' /\ r_e0 st' = e0
                 | inr o => mid_out o /\ (nopend = true -> o <> RDone NlpSolve_Pending) end.

  Lemma newton_iter_mid m : body_mid true (newton_iter fpow P lf m).
  Proof.
    intros iw st F n' e0 ev0 r ev Hh. unfold newton_iter. rewrite Hh.
    destruct (newton_pass _ _ _ _ (iw_pass1 iw) _ _ _ _ _ _) as [p1 ev1] eqn:H1.
    destruct (newton_pass_mid _ _ _ _ _ _ _ _ _ _ (eq_refl : mid NlpSolve_Pending = true) H1) as (M1 & C1).
    destruct p1 as [o|s F1 safe1 tv ufr|s F1 safe1 tv ufr].
    - intros H; inversion H; subst. destruct M1. rewrite checks_app, C1, app_nil_r. auto.
    - destruct (newton_pass _ _ _ _ (iw_pass2 iw) _ _ _ _ _ _) as [p2 ev2] eqn:H2.
      destruct (newton_pass_mid _ _ _ _ _ _ _ _ _ _ M1 H2) as (M2 & C2).
      destruct p2 as [o|s2 F2 safe2 tv2 ufr2|s2 F2 safe2 tv2 ufr2].
      + intros H; inversion H; subst. destruct M2. rewrite !checks_app, C1, C2, app_nil_r. auto.
      + destruct (after_step _ _ _ _ _ _ _ _ _) as [r3 ev3] eqn:H3.
        intros H; inversion H; subst. destruct (after_step_mid _ _ _ _ _ _ _ _ _ _ _ M2 H3) as (C3 & M3).
        rewrite !checks_app, C1, C2, C3, !app_nil_r. split; auto. destruct r; auto. tauto.
      + destruct (after_step _ _ _ _ _ _ _ _ _) as [r3 ev3] eqn:H3.
        intros H; inversion H; subst. destruct (after_step_mid _ _ _ _ _ _ _ _ _ _ _ M2 H3) as (C3 & M3).
        rewrite !checks_app, C1, C2, C3, !app_nil_r. split; auto. destruct r; auto. tauto.
    - destruct (after_step _ _ _ _ _ _ _ _ _) as [r3 ev3] eqn:H3.
      intros H; inversion H; subst. destruct (after_step_mid _ _ _ _ _ _ _ _ _ _ _ M1 H3) as (C3 & M3).
      rewrite !checks_app, C1, C3, !app_nil_r. split; auto. destruct r; auto. tauto.
  Qed.

  Lemma qn_iter_mid : body_mid false (qn_iter fpow P lf).
  Proof.
    intros iw st F n' e0 ev0 r ev Hh. unfold qn_iter. rewrite Hh.
    assert (Hplain : forall o, mid_out o -> (inr o : run_st + run_out, ev0) = (r, ev) ->
      checks ev = checks ev0 /\
      match r with inl st' => r_naccep st' = n' /\ r_e0 st' = e0
                 | inr o => mid_out o /\ (false = true -> o <> RDone NlpSolve_Pending) end).
    { intros o Ho H; inversion H; subst. repeat split; auto. discriminate. }
    assert (HplainF : forall o b, mid_out o -> (inr o : run_st + run_out, ev0 ++ [EvFR b]) = (r, ev) ->
      checks ev = checks ev0 /\
      match r with inl st' => r_naccep st' = n' /\ r_e0 st' = e0
                 | inr o => mid_out o /\ (false = true -> o <> RDone NlpSolve_Pending) end).
    { intros o b Ho H; inversion H; subst. rewrite checks_app, app_nil_r. repeat split; auto. discriminate. }
    assert (Hfin : forall s F tv ufr r3 ev3 evx, mid s = true -> checks evx = [] ->
      after_step iw s F true tv ufr (r_iter st) n' e0 = (r3, ev3) ->
      (r3, ev0 ++ evx ++ ev3) = (r, ev) ->
      checks ev = checks ev0 /\
      match r with inl st' => r_naccep st' = n' /\ r_e0 st' = e0
                 | inr o => mid_out o /\ (false = true -> o <> RDone NlpSolve_Pending) end).
    { intros s F0 tv ufr r3 ev3 evx Hs Hx H3 H. inversion H; subst.
      destruct (after_step_mid _ _ _ _ _ _ _ _ _ _ _ Hs H3) as (C3 & M3).
      rewrite !checks_app, Hx, C3, !app_nil_r. split; auto. destruct r; auto. tauto. }
    destruct (pw_kkt _); cbn [negb]; [|apply Hplain; reflexivity].
    destruct (pw_dir _); [|apply Hplain; reflexivity..].
    destruct (line_search fpow (rp_ls P) lf F (pw_ls (iw_pass1 iw))) as [s1 pt tv0 a g c sc|tv0|tv0| | |] eqn:Hls;
      try (apply Hplain; exact I || reflexivity).
    - destruct (force_resto P && _ && _).
      + destruct (apply_fr _ _ _) as [[[|] s2]|] eqn:Hfr; [..|apply HplainF; exact I].
        * destruct (after_step _ _ _ _ _ _ _ _ _) as [r3 ev3] eqn:H3.
          eapply (Hfin _ _ _ _ _ _ [EvFR _]); eauto; reflexivity.
        * destruct (after_step _ _ _ _ _ _ _ _ _) as [r3 ev3] eqn:H3.
          eapply (Hfin _ _ _ _ _ _ [EvFR _]); eauto. eapply mid_fr; eauto.
      + destruct (filter_augment _ _ _ _ _) as [F' r0] eqn:Hau.
        destruct (after_step _ _ _ _ _ _ _ _ _) as [r3 ev3] eqn:H3.
        eapply (Hfin _ _ _ _ _ _ (_ :: _)); eauto; destruct r0; reflexivity.
    - destruct (force_resto P && _ && _).
      + destruct (apply_fr _ _ _) as [[[|] s2]|] eqn:Hfr; [..|apply HplainF; exact I].
        * destruct (after_step _ _ _ _ _ _ _ _ _) as [r3 ev3] eqn:H3.
          eapply (Hfin _ _ _ _ _ _ [EvFR _]); eauto; reflexivity.
        * destruct (after_step _ _ _ _ _ _ _ _ _) as [r3 ev3] eqn:H3.
          eapply (Hfin _ _ _ _ _ _ [EvFR _]); eauto. eapply mid_fr; eauto.
      + destruct (apply_fr _ _ _) as [[[|] s2]|] eqn:Hfr; apply HplainF; try exact I; try reflexivity.
        eapply mid_fr; eauto.
    - destruct (force_resto P && _ && _).
      + destruct (apply_fr _ _ _) as [[[|] s2]|] eqn:Hfr; [..|apply HplainF; exact I].
        * destruct (after_step _ _ _ _ _ _ _ _ _) as [r3 ev3] eqn:H3.
          eapply (Hfin _ _ _ _ _ _ [EvFR _]); eauto; reflexivity.
        * destruct (after_step _ _ _ _ _ _ _ _ _) as [r3 ev3] eqn:H3.
          eapply (Hfin _ _ _ _ _ _ [EvFR _]); eauto. eapply mid_fr; eauto.
      + destruct (apply_fr _ _ _) as [[[|] s2]|] eqn:Hfr; apply HplainF; try exact I; try reflexivity.
        eapply mid_fr; eauto.
  Qed.

  (* what the head does with the counters *)
  Definition acceptable (e : errs) : Prop := fle (e_nlp e) (eps_accep P) = true.

  Lemma check_some e e0 iter n s n' :
    check_termination P e e0 iter n = (Some s, n') ->
    (s = Solve_Success /\ AtTolerance P e) \/
    (s = Max_Iter_Exceeded /\ (max_it P <= iter)%Z) \/
    (s = Solve_Success_RelTol /\
     let '(o0, f0, c0) := e0 in
     fgt (eps_rtol P) f_zero = true /\ fle (e_optim e) (fmul (eps_rtol P) o0) = true /\
     fle (e_feas e) (fmul (eps_rtol P) f0) = true /\
     fle (e_complem e) (fmul (std_max (eps_rtol P) f_1em6) (std_min f_one c0)) = true) \/
    (s = Solve_Acceptable_Level /\ (accep_n P <= n')%Z /\
     n' = if fle (e_nlp e) (eps_accep P) then (n + 1)%Z else 0%Z).
  Proof.
    unfold check_termination.
    destruct (_ && _ && _ && _) eqn:H1.
    - intros H; inversion H; subst. left. split; auto.
      rewrite !andb_true_iff in H1. unfold AtTolerance. tauto.
    - destruct (Z.leb_spec (max_it P) iter).
      + intros H2; inversion H2; subst. auto.
      + destruct e0 as [[o0 f0] c0]. destruct (fgt (eps_rtol P) f_zero && _) eqn:H3.
        * intros H4; inversion H4; subst. right; right; left. split; auto.
          rewrite !andb_true_iff in H3. tauto.
        * destruct (Z.leb_spec (accep_n P) (if fle (e_nlp e) (eps_accep P) then (n + 1)%Z else 0%Z));
            [|discriminate].
          intros H4; inversion H4; subst. right; right; right. auto.
  Qed.

  Lemma check_none e e0 iter n n' :
    check_termination P e e0 iter n = (None, n') ->
    n' = if fle (e_nlp e) (eps_accep P) then (n + 1)%Z else 0%Z.
  Proof.
    unfold check_termination. destruct (_ && _ && _ && _); [discriminate|].
    destruct (_ <=? _)%Z; [discriminate|]. destruct e0 as [[o0 f0] c0].
    destruct (_ && _); [discriminate|]. destruct (accep_n P <=? _)%Z; [discriminate|].
    intros H; inversion H; reflexivity.
  Qed.

  Lemma head_cont iw st F n' e0 ev : head P iw st = (inl (F, n', e0), ev) ->
    exists e, iw_errs iw = Some e /\ checks ev = [e] /\ e0 = upd_errs0 (r_e0 st) e /\
      n' = if fle (e_nlp e) (eps_accep P) then (r_naccep st + 1)%Z else 0%Z.
  Proof.
    unfold head. destruct (iw_errs iw) as [e|]; [|discriminate].
    destruct (iw_cb iw); simpl; [|discriminate].
    destruct (check_termination _ _ _ _ _) as [[s|] n1] eqn:Hc; [discriminate|].
    apply check_none in Hc.
    destruct (iw_nmu iw) as [|k].
    - intros H; inversion H; subst. eauto 10.
    - destruct (iw_mu_err iw); [discriminate|]. intros H; inversion H; subst.
      exists e. repeat split; auto. simpl. f_equal. clear. induction k; simpl; auto.
  Qed.

  Definition suffix_acc (n : Z) (l : list errs) : Prop :=
    exists pre suf, l = pre ++ suf /\ Z.of_nat (length suf) = n /\ Forall acceptable suf.

  Definition start_errs (h : list event) (e0 : errs0) : Prop :=
    match checks h with
    | [] => e0 = (fofZ (-1), fofZ (-1), fofZ (-1))
    | e1 :: _ => e0 = (e_optim e1, e_feas e1, e_complem e1) /\ flt (e_optim e1) f_zero = false
    end.

  Definition Inv6 (st : run_st) (h : list event) : Prop :=
    suffix_acc (r_naccep st) (checks h) /\ start_errs h (r_e0 st).

  Lemma suffix_snoc n l e : suffix_acc n l ->
    suffix_acc (if fle (e_nlp e) (eps_accep P) then (n + 1)%Z else 0%Z) (l ++ [e]).
  Proof.
    intros (pre & suf & -> & Hl & Hf). destruct (fle _ _) eqn:He.
    - exists pre, (suf ++ [e]). split; [rewrite app_assoc; reflexivity|].
      split; [rewrite app_length; simpl; lia|]. apply Forall_app. split; auto.
    - exists ((pre ++ suf) ++ [e]), []. rewrite app_nil_r. auto.
  Qed.

  Lemma start_snoc h e0 e ev : flt (e_optim e) f_zero = false -> checks ev = [e] ->
    start_errs h e0 -> start_errs (h ++ ev) (upd_errs0 e0 e).
  Proof.
    intros Hn Hev. unfold start_errs. rewrite checks_app, Hev.
    destruct (checks h) as [|e1 l].
    - intros ->. simpl. auto.
    - intros [-> Hne]. simpl. rewrite Hne. auto.
  Qed.

  Lemma run_final body np : body_head body -> body_mid np body ->
    forall W, (forall k e, iw_errs (W k) = Some e -> flt (e_optim e) f_zero = false) ->
    forall fuel safe o tr, run_loop body fuel W 0 (run_init safe) = (o, tr) ->
    match o with
    | RDone Solve_Success => exists pre e, tr = pre ++ [EvCheck e] /\ AtTolerance P e
    | RDone Solve_Success_RelTol => exists e1 l pre e, e1 :: l = checks tr /\ tr = pre ++ [EvCheck e] /\
                                       AtRelTolerance P e1 e
    | RDone Solve_Acceptable_Level =>
        (exists pre e, tr = pre ++ [EvCheck e]) /\
        exists pre suf, checks tr = pre ++ suf /\ Forall acceptable suf /\
                        (accep_n P <= Z.of_nat (length suf))%Z
    | RDone NlpSolve_Pending => np = false
    | _ => True
    end.
  Proof.
    intros Hh Hm W HW fuel safe o tr H.
    destruct (run_loop_inv body Inv6 W) with (fuel := fuel) (k := 0%nat)
      (st := run_init safe) (h := @nil event) (o := o) (tr := tr)
      as [(k' & st' & h' & ev & HI & Hbo & E)|(-> & st' & HI)]; auto.
    - intros k st st' h ev [I1 I2] HB.
      destruct (head P (W k) st) as [[[[F n'] e0]|o'] ev0] eqn:Eh;
        [|rewrite (Hh _ _ _ _ Eh) in HB; discriminate].
      unfold Inv6. destruct (Hm _ _ _ _ _ _ _ _ Eh HB) as (C & -> & ->).
      destruct (head_cont _ _ _ _ _ _ Eh) as (e & He & Hc & -> & ->).
      split.
      + rewrite checks_app, C, Hc. apply suffix_snoc; auto.
      + apply start_snoc; auto; [eapply HW; eauto|congruence].
    - split; [exists [], []; auto|reflexivity].
    - simpl in E. subst tr. destruct HI as [I1 I2].
      destruct (head P (W k') st') as [[[[F n'] e0]|o'] ev0] eqn:Eh.
      + destruct (Hm _ _ _ _ _ _ _ _ Eh Hbo) as (C & M & Hnp).
        destruct o as [[]| | |]; try exact I; try discriminate.
        destruct np; auto. exfalso. apply Hnp; auto.
      + rewrite (Hh _ _ _ _ Eh) in Hbo. inversion Hbo; subst o' ev0. clear Hbo.
        unfold head in Eh. destruct (iw_errs (W k')) as [e|] eqn:He;
          [|inversion Eh; subst; exact I].
        destruct (iw_cb (W k')); simpl in Eh; [|inversion Eh; subst; exact I].
        destruct (check_termination _ _ _ _ _) as [[s|] n1] eqn:Hc.
        2:{ destruct (iw_nmu (W k')); [discriminate|]. destruct (iw_mu_err (W k')); [|discriminate].
            inversion Eh; subst; exact I. }
        inversion Eh; subst o ev. apply check_some in Hc.
        destruct Hc as [[-> Ht]|[[-> Ht]|[[-> Ht]|[-> Ht]]]]; [| exact I | |].
        * exists h', e. auto.
        * pose proof (start_snoc h' _ e [EvCheck e] (HW _ _ He) eq_refl I2) as Hst.
          unfold start_errs in Hst. destruct (checks (h' ++ [EvCheck e])) as [|e1 l] eqn:Ec.
          { rewrite checks_app in Ec. destruct (checks h'); discriminate. }
          destruct Hst as [Hst _]. rewrite Hst in Ht. exists e1, l, h', e. auto.
        * split; [eauto|]. destruct Ht as [Hle Hn]. pose proof (suffix_snoc _ _ e I1) as (pre & suf & Hl & Hlen & Hf).
          exists pre, suf. rewrite checks_app. split; auto. split; auto. rewrite Hlen, <- Hn. exact Hle.
  Qed.
End A.
