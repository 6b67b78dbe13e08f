(** Progress of the exchange: a measure that every step except an unsuccessful poll decreases. *)
From Coq Require Import List Bool Arith Lia Permutation.
From Verif Require Import PdModel PdSpec PdProofs.
Import ListNotations.

Section Q.
Variables (S_ W : nat).
Hypothesis HW : 1 <= W.
Hypothesis HS : W <= S_.
(** weights: what remains to be done for a message, an evaluation, a result *)
Fixpoint msgw (l : list (option nat)) : nat := match l with [] => 0 | Some _ :: l => 3 + msgw l | None :: l => 1 + msgw l end.
Definition wt (w : wk) : nat := msgw (w_in w) + (match w_st w with Busy _ => 2 | _ => 0 end) + length (w_out w).
Fixpoint sumw (l : list wk) : nat := match l with [] => 0 | w :: l => wt w + sumw l end.
Definition phw (p : phase) : nat :=
  match p with
  | Sending k => (W - k + 1) + (W + 1) + 1 + (W + 1) + W + (W + 1)
  | Posting k => (W - k + 1) + 1 + (W + 1) + W + (W + 1)
  | Scanning _ => 1 + (W + 1) + W + (W + 1)
  | Stopping k => (W - k + 1) + (W - k) + (W + 1)
  | Draining k => W - k + 1
  | _ => 0
  end.
Definition phi (s : st) : nat := 3 * (S_ - length (s_sent s)) + sumw (s_ws s) + phw (s_ph s).
Lemma sumw_app : forall a b, sumw (a ++ b) = sumw a + sumw b.
Proof. induction a; intros; simpl; [reflexivity|rewrite IHa; lia]. Qed.
Lemma sumw_upd : forall ws k w w', nth_error ws k = Some w -> sumw (upd k w' ws) + wt w = sumw ws + wt w'.
Proof. intros ws k w w' N. destruct (upd_split _ _ _ N) as (a & b & -> & L & U). rewrite U, !sumw_app. cbn [sumw]. lia. Qed.
Lemma msgw_app : forall a b, msgw (a ++ b) = msgw a + msgw b.
Proof. induction a as [|[x|] a IH]; intros; simpl; auto; rewrite IH; lia. Qed.
Lemma phi_init : phi (init W) = 3 * S_ + 5 * W + 5.
Proof.
  unfold phi, init. cbn [s_ph s_ws s_sent length phw].
  assert (X : forall n, sumw (repeat wk0 n) = 0) by (induction n; simpl; auto). rewrite X. lia.
Qed.
Lemma app_neq : forall {A} (l : list A) x, l ++ [x] <> l.
Proof. intros A l x E. apply (f_equal (@length A)) in E. rewrite app_length in E. cbn in E. lia. Qed.

Lemma step_phi : forall l s s', inv S_ W s -> step S_ W l s = Some s' ->
  (poll l s s' /\ phi s' = phi s) \/ (~ poll l s s' /\ phi s = S (phi s')).
Proof.
  intros l s s' I H. destruct l as [b|k|k]; cbn [step] in H.
  - unfold master in H. destruct (s_ph s) as [k|k|r|k|k| |] eqn:EP; try discriminate.
    + right. split; [unfold poll; rewrite EP; auto|].
      replace (S_ <? W) with false in H by (symmetry; apply Nat.ltb_ge; lia).
      pose proof (i_glob S_ W s I) as G. unfold glob in G. rewrite EP in G. destruct G as (G1 & G2 & G3 & G4 & G5).
      destruct (nth_error (s_ws s) k) as [w|] eqn:N; injection H as <-; unfold phi; cbn [s_ph s_ws s_sent]; rewrite EP.
      * assert (KW : k < W) by (rewrite <- (i_len S_ W s I); apply nth_error_Some; congruence).
        match goal with |- context [upd k ?w' _] => pose proof (sumw_upd _ _ _ w' N) as Q end.
        unfold wt at 2 in Q. cbn [w_in w_st w_out] in Q. rewrite msgw_app in Q. cbn [msgw] in Q. unfold wt in Q.
        rewrite app_length. cbn [length phw]. lia.
      * apply nth_error_None in N. rewrite (i_len S_ W s I) in N. cbn [phw]. lia.
    + right. split; [unfold poll; rewrite EP; auto|].
      pose proof (i_glob S_ W s I) as G. unfold glob in G. rewrite EP in G. destruct G as (G1 & G2 & G3 & G4 & G5).
      destruct (nth_error (s_ws s) k) as [w|] eqn:N.
      * assert (KW : k < W) by (rewrite <- (i_len S_ W s I); apply nth_error_Some; congruence).
        pose proof (i_ok S_ W s I k w N) as O. rewrite EP in O. cbn [ok] in O. rewrite Nat.ltb_irrefl in O. destruct O as (O1 & O2 & O3).
        rewrite O2 in H. injection H as <-. unfold phi; cbn [s_ph s_ws s_sent]; rewrite EP.
        match goal with |- context [upd k ?w' _] => pose proof (sumw_upd _ _ _ w' N) as Q end.
        unfold wt in Q. cbn [w_in w_st w_out] in Q. cbn [phw]. lia.
      * injection H as <-. apply nth_error_None in N. rewrite (i_len S_ W s I) in N.
        replace (s_idx s <=? S_) with true by (symmetry; apply Nat.leb_le; lia). cbn [orb].
        unfold phi; cbn [s_ph s_ws s_sent]; rewrite EP. cbn [phw]. lia.
    + pose proof (i_glob S_ W s I) as G. unfold glob in G. rewrite EP in G. destruct G as (G1 & G2 & G3 & G4).
      destruct (nth_error (s_ws s) r) as [w|] eqn:N.
      * assert (RW : r < W) by (rewrite <- (i_len S_ W s I); apply nth_error_Some; congruence).
        pose proof (i_ok S_ W s I r w N) as O. rewrite EP in O. cbn [ok] in O.
        destruct (w_fin w) eqn:EF.
        -- destruct O as (O1 & O2). unfold test in H. rewrite O2 in H. cbn [andb] in H. rewrite EF in H. cbn [negb] in H.
           injection H as <-. rewrite (upd_same _ _ _ N). left. unfold poll, phi. rewrite EP. cbn. auto.
        -- destruct O as (O1 & O2). unfold test in H. rewrite O2 in H.
           assert (SAME : Some (St (Scanning (S r)) (s_idx s) (s_last s) (upd r w (s_ws s)) (s_acc s) (s_sent s)) = Some s' ->
               poll (M b) s s' /\ phi s' = phi s).
           { intros Q. injection Q as <-. rewrite (upd_same _ _ _ N). unfold poll, phi. rewrite EP. cbn. auto. }
           destruct (w_out w) as [|i o] eqn:EO; [left; exact (SAME H)|]. destruct b; [|left; exact (SAME H)]. clear SAME. right.
           inversion O1; subst; cbn in EO, O2, EF; try discriminate. injection EO as <- <-. subst.
           cbn [andb negb w_fin w_buf w_in w_req w_st w_out w_log] in H.
           destruct (s_idx s <? S_) eqn:EI.
           ++ apply Nat.ltb_lt in EI. destruct (G3 ltac:(lia)) as (L1 & L2 & L3). injection H as <-.
              split; [unfold poll; rewrite EP; cbn; apply app_neq|].
              unfold phi; cbn [s_ph s_ws s_sent]; rewrite EP.
              match goal with |- context [upd r ?w' _] => pose proof (sumw_upd _ _ _ w' N) as Q end.
              unfold wt in Q. cbn [w_in w_st w_out msgw length] in Q. rewrite app_length. cbn [phw length]. lia.
           ++ injection H as <-. split; [unfold poll; rewrite EP; cbn; apply app_neq|].
              unfold phi; cbn [s_ph s_ws s_sent]; rewrite EP.
              match goal with |- context [upd r ?w' _] => pose proof (sumw_upd _ _ _ w' N) as Q end.
              unfold wt in Q. cbn [w_in w_st w_out msgw length] in Q. cbn [phw length]. lia.
      * injection H as <-. unfold pass_end, poll, phi. rewrite EP. cbn [s_ph s_ws s_sent s_acc].
        destruct ((s_idx s <=? S_) || _); [left; split; reflexivity|right]. cbn [phw]. split; [auto|lia].
    + right. split; [unfold poll; rewrite EP; auto|].
      destruct (nth_error (s_ws s) k) as [w|] eqn:N.
      * assert (KW : k < W) by (rewrite <- (i_len S_ W s I); apply nth_error_Some; congruence).
        pose proof (i_ok S_ W s I k w N) as O. rewrite EP in O. cbn [ok] in O. rewrite Nat.ltb_irrefl in O. destruct O as (O1 & O2 & O3).
        inversion O1; subst. cbn in O2, O3, H. subst. injection H as <-.
        unfold phi; cbn [s_ph s_ws s_sent]; rewrite EP.
        match goal with |- context [upd k ?w' _] => pose proof (sumw_upd _ _ _ w' N) as Q end.
        unfold wt in Q. cbn [w_in w_st w_out msgw length] in Q. cbn [phw length]. lia.
      * injection H as <-. apply nth_error_None in N. rewrite (i_len S_ W s I) in N.
        unfold phi; cbn [s_ph s_ws s_sent]; rewrite EP. cbn [phw]. lia.
    + right. split; [unfold poll; rewrite EP; auto|].
      destruct (nth_error (s_ws s) k) as [w|] eqn:N.
      * assert (KW : k < W) by (rewrite <- (i_len S_ W s I); apply nth_error_Some; congruence).
        pose proof (i_ok S_ W s I k w N) as O. rewrite EP in O. cbn [ok] in O. rewrite Nat.ltb_irrefl in O. destruct O as (O1 & O2 & O3).
        inversion O1; subst; cbn in O2, O3, H; subst; try discriminate. injection H as <-.
        rewrite (upd_same _ _ _ N). unfold phi; cbn [s_ph s_ws s_sent]; rewrite EP. cbn [phw]. lia.
      * assert (EX : existsb w_req (s_ws s) = false).
        { destruct (existsb w_req (s_ws s)) eqn:EX; auto. exfalso. apply existsb_exists in EX. destruct EX as (v & Hv & R).
          apply In_nth_error in Hv. destruct Hv as (j & Nj). pose proof (i_ok S_ W s I j v Nj) as O. rewrite EP in O. cbn [ok] in O. destruct O as (_ & O & _). congruence. }
        rewrite EX in H. injection H as <-. unfold phi; cbn [s_ph s_ws s_sent]; rewrite EP. cbn [phw]. 
        apply nth_error_None in N. rewrite (i_len S_ W s I) in N. lia.
  - right. split; [unfold poll; auto|].
    destruct (nth_error (s_ws s) k) as [w|] eqn:N; [|discriminate]. destruct (take w) as [w'|] eqn:T; [|discriminate].
    injection H as <-. unfold phi; cbn [s_ph s_ws s_sent]. pose proof (sumw_upd _ _ _ w' N) as Q.
    assert (X : wt w = S (wt w')); [|lia].
    pose proof (step_inv S_ W HW HS (Take k) s (St (s_ph s) (s_idx s) (s_last s) (upd k w' (s_ws s)) (s_acc s) (s_sent s)) I) as SI.
    cbn [step] in SI. rewrite N, T in SI. specialize (SI eq_refl).
    pose proof (i_ok S_ W _ SI k w' (upd_nth_eq _ _ _ _ N)) as O. cbn [s_ph] in O.
    unfold take in T. unfold wt. destruct w as [inb stt outb lg rq bf fn]. cbn [w_st w_in w_out] in *.
    destruct stt as [| |ib| |]; destruct inb as [|[i|] q]; try discriminate; injection T as <-; cbn [w_st w_in w_out msgw]; try lia.
  - right. split; [unfold poll; auto|].
    destruct (nth_error (s_ws s) k) as [w|] eqn:N; [|discriminate]. destruct (eval w) as [w'|] eqn:T; [|discriminate].
    injection H as <-. unfold phi; cbn [s_ph s_ws s_sent]. pose proof (sumw_upd _ _ _ w' N) as Q.
    assert (X : wt w = S (wt w')); [|lia].
    unfold eval in T. unfold wt. destruct w as [inb stt outb lg rq bf fn]. cbn [w_st w_in w_out] in *.
    destruct stt; try discriminate; destruct outb; try discriminate; injection T as <-; cbn [w_st w_in w_out msgw length]; try lia.
Qed.

Lemma runs_phi : forall s n s', runs S_ W s n s' -> inv S_ W s -> n + phi s' = phi s.
Proof.
  induction 1; intros I; auto.
  - destruct (step_phi _ _ _ I H) as [(P & E)|(P & E)]; [|contradiction].
    rewrite <- E. apply IHruns. eapply step_inv; eauto.
  - destruct (step_phi _ _ _ I H) as [(P & E)|(P & E)]; [contradiction|].
    rewrite E. cbn. f_equal. apply IHruns. eapply step_inv; eauto.
Qed.
Lemma poll_dec : forall l s s', poll l s s' \/ ~ poll l s s'.
Proof.
  intros l s s'. unfold poll. destruct l; auto. destruct (s_ph s); auto. destruct (s_ph s'); auto.
  destruct (list_eq_dec (fun a b : option nat => ltac:(decide equality; apply Nat.eq_dec) : {a = b} + {a <> b}) (s_acc s') (s_acc s)); auto.
Qed.
Lemma exec_runs : forall ls s s', exec S_ W ls s = Some s' -> exists n, runs S_ W s n s' /\ n <= length ls.
Proof.
  induction ls as [|l ls IH]; intros s s' H; simpl in H.
  - injection H as <-. exists 0. split; [constructor|auto].
  - destruct (step S_ W l s) as [s1|] eqn:E; [|discriminate]. destruct (IH s1 s' H) as (n & R & L).
    destruct (poll_dec l s s1) as [P|P].
    + exists n. split; [eapply runs_poll; eauto|simpl; lia].
    + exists (S n). split; [eapply runs_work; eauto|simpl; lia].
Qed.

Lemma exec_app : forall a b s, exec S_ W (a ++ b) s = match exec S_ W a s with Some s1 => exec S_ W b s1 | None => None end.
Proof. induction a as [|l a IH]; intros; simpl; auto. destruct (step S_ W l s); auto. Qed.

Definition ready (w : wk) : bool := match take w, eval w with None, None => false | _, _ => true end.
(** polling up to an unfinished worker with a result *)
Lemma scan_to : forall d s r, inv S_ W s -> s_ph s = Scanning r -> W - r <= d ->
  existsb ready (s_ws s) = false ->
  (exists j w, r <= j /\ nth_error (s_ws s) j = Some w /\ w_fin w = false) ->
  exists ls s', exec S_ W ls s = Some s' /\ phi s' < phi s.
Proof.
  induction d; intros s r I EP D NR (j & w & RJ & NJ & FJ).
  - assert (j < W) by (rewrite <- (i_len S_ W s I); apply nth_error_Some; congruence). lia.
  - assert (JW : j < W) by (rewrite <- (i_len S_ W s I); apply nth_error_Some; congruence).
    destruct (nth_error (s_ws s) r) as [v|] eqn:N.
    2:{ apply nth_error_None in N. rewrite (i_len S_ W s I) in N. lia. }
    pose proof (i_ok S_ W s I r v N) as O. rewrite EP in O. cbn [ok] in O.
    destruct (w_fin v) eqn:EF.
    + (* poll on *)
      destruct O as (O1 & O2).
      set (s1 := St (Scanning (S r)) (s_idx s) (s_last s) (s_ws s) (s_acc s) (s_sent s)).
      assert (E1 : step S_ W (M true) s = Some s1).
      { cbn [step]. unfold master. rewrite EP, N. unfold test. rewrite O2. cbn [andb]. rewrite EF. cbn [negb].
        rewrite (upd_same _ _ _ N). reflexivity. }
      assert (I1 : inv S_ W s1) by (eapply step_inv; eauto).
      destruct (IHd s1 (S r) I1 eq_refl ltac:(lia) NR) as (ls & s' & E2 & P).
      { exists j, w. repeat split; auto. destruct (Nat.eq_dec j r) as [->|]; [congruence|lia]. }
      exists (M true :: ls), s'. cbn [exec]. rewrite E1. split; auto.
      assert (phi s1 = phi s) by (unfold phi; rewrite EP; reflexivity). lia.
    + destruct O as (O1 & O2).
      assert (RV : ready v = false).
      { destruct (ready v) eqn:R; auto. rewrite <- NR. symmetry. apply existsb_exists. exists v. split; auto. eapply nth_error_In; eauto. }
      assert (OUT : exists i lg rq bf fn, v = Wk [] Idle [i] lg rq bf fn).
      { inversion O1; subst; [destruct H as [->| ->]; discriminate RV|discriminate RV|eauto 10]. }
      destruct OUT as (i & lg & rq & bf & fn & ->). cbn in EF, O2. subst.
      destruct (master S_ W true s) as [s'|] eqn:E.
      * exists [M true], s'. cbn [exec step]. rewrite E. split; auto.
        destruct (step_phi (M true) s s' I E) as [(P & _)|(_ & P)]; [|lia]. exfalso.
        unfold master in E. rewrite EP, N in E. unfold test in E. cbn [w_req w_out w_fin w_in w_st w_log w_buf andb negb] in E.
        unfold poll in P. rewrite EP in P.
        destruct (s_idx s <? S_); injection E as <-; cbn in P; eapply app_neq; eauto.
      * exfalso. unfold master in E. rewrite EP, N in E. unfold test in E. cbn [w_req w_out w_fin w_in w_st w_log w_buf andb negb] in E.
        destruct (s_idx s <? S_); discriminate.
Qed.
(** polling to the end of the pass *)
Lemma scan_end : forall d s r, inv S_ W s -> s_ph s = Scanning r -> W - r <= d ->
  (forall j w, r <= j -> nth_error (s_ws s) j = Some w -> w_fin w = true) ->
  exists ls, exec S_ W ls s = Some (St (Scanning W) (s_idx s) (s_last s) (s_ws s) (s_acc s) (s_sent s)).
Proof.
  induction d; intros s r I EP D F.
  - pose proof (i_glob S_ W s I) as G. unfold glob in G. rewrite EP in G. assert (r = W) by lia. subst r.
    exists []. cbn. f_equal. destruct s; cbn in *. congruence.
  - destruct (nth_error (s_ws s) r) as [v|] eqn:N.
    + pose proof (F r v (Nat.le_refl r) N) as EF. pose proof (i_ok S_ W s I r v N) as O. rewrite EP in O. cbn [ok] in O. rewrite EF in O. destruct O as (O1 & O2).
      set (s1 := St (Scanning (S r)) (s_idx s) (s_last s) (s_ws s) (s_acc s) (s_sent s)).
      assert (E1 : step S_ W (M true) s = Some s1).
      { cbn [step]. unfold master. rewrite EP, N. unfold test. rewrite O2. cbn [andb]. rewrite EF. cbn [negb].
        rewrite (upd_same _ _ _ N). reflexivity. }
      assert (I1 : inv S_ W s1) by (eapply step_inv; eauto).
      destruct (IHd s1 (S r) I1 eq_refl ltac:(lia)) as (ls & E2).
      { intros j w J. apply F. lia. }
      exists (M true :: ls). cbn [exec]. rewrite E1. exact E2.
    + apply nth_error_None in N. rewrite (i_len S_ W s I) in N.
      pose proof (i_glob S_ W s I) as G. unfold glob in G. rewrite EP in G. assert (r = W) by lia. subst r.
      exists []. cbn. f_equal. destruct s; cbn in *. congruence.
Qed.

Lemma one_step : forall l s s', inv S_ W s -> step S_ W l s = Some s' -> ~ poll l s s' ->
  exists ls s', exec S_ W ls s = Some s' /\ phi s' < phi s.
Proof.
  intros l s s' I E P. exists [l], s'. cbn [exec]. rewrite E. split; auto.
  destruct (step_phi _ _ _ I E) as [(Q & _)|(_ & Q)]; [contradiction|lia].
Qed.
Lemma progress : forall s, inv S_ W s -> s_ph s <> Finished -> exists ls s', exec S_ W ls s = Some s' /\ phi s' < phi s.
Proof.
  intros s I NF. destruct (s_ph s) as [k|k|r|k|k| |] eqn:EP; try congruence.
  - destruct (master S_ W true s) as [s'|] eqn:E.
    + apply (one_step (M true) s s' I E). unfold poll. rewrite EP. auto.
    + exfalso. unfold master in E. rewrite EP in E. destruct (S_ <? W); [discriminate|]. destruct (nth_error (s_ws s) k); discriminate.
  - destruct (master S_ W true s) as [s'|] eqn:E.
    + apply (one_step (M true) s s' I E). unfold poll. rewrite EP. auto.
    + exfalso. unfold master in E. rewrite EP in E. destruct (nth_error (s_ws s) k) as [w|]; [destruct (w_req w)|]; discriminate.
  - destruct (existsb ready (s_ws s)) eqn:ER.
    + apply existsb_exists in ER. destruct ER as (w & Hw & R). apply In_nth_error in Hw. destruct Hw as (j & Nj).
      unfold ready in R. destruct (take w) as [w'|] eqn:T.
      * eapply (one_step (Take j) s); [auto|cbn [step]; rewrite Nj, T; reflexivity|cbn; auto].
      * destruct (eval w) as [w'|] eqn:V; [|discriminate].
        eapply (one_step (Eval j) s); [auto|cbn [step]; rewrite Nj, V; reflexivity|cbn; auto].
    + destruct (existsb (fun w => negb (w_fin w)) (skipn r (s_ws s))) eqn:EU.
      * apply existsb_exists in EU. destruct EU as (w & Hw & F). apply In_nth_error in Hw. destruct Hw as (j & Nj).
        apply negb_true_iff in F. eapply (scan_to (W - r) s r); eauto. exists (r + j), w. repeat split; auto; try lia.
        rewrite <- Nj. clear. revert r; generalize (s_ws s); induction l; intros [|r]; simpl; auto. now destruct j.
      * assert (AF : forall j w, r <= j -> nth_error (s_ws s) j = Some w -> w_fin w = true).
        { intros j w J Nj. destruct (w_fin w) eqn:F; auto. rewrite <- EU. apply existsb_exists. exists w. rewrite F. split; auto.
          apply nth_error_In with (n := j - r). rewrite <- Nj. replace (nth_error (s_ws s) j) with (nth_error (s_ws s) (r + (j - r))) by (f_equal; lia).
          clear. generalize (j - r). intros m. revert r m; generalize (s_ws s); induction l; intros [|r] m; simpl; auto. now destruct m. }
        destruct (scan_end (W - r) s r I EP (Nat.le_refl _) AF) as (ls & E1).
        set (s1 := St (Scanning W) (s_idx s) (s_last s) (s_ws s) (s_acc s) (s_sent s)) in *.
        assert (I1 : inv S_ W s1) by (eapply exec_inv; eauto).
        assert (P1 : phi s1 = phi s) by (unfold phi; rewrite EP; reflexivity).
        assert (E2 : step S_ W (M true) s1 = Some (pass_end S_ s1)).
        { cbn [step]. unfold master. cbn [s_ph s1]. rewrite (proj2 (nth_error_None (s_ws s1) W)); [reflexivity|].
          cbn. rewrite (i_len S_ W s I). lia. }
        assert (I2 : inv S_ W (pass_end S_ s1)) by (eapply step_inv; eauto).
        destruct (step_phi _ _ _ I1 E2) as [(PL & P2)|(_ & P2)].
        -- (* another pass: someone is unfinished *)
           pose proof (i_glob S_ W s1 I1) as G. unfold glob in G. cbn [s1 s_ph s_idx s_last s_sent s_ws] in G. destruct G as (_ & G2 & G3 & G4).
           assert (EX : exists w, In w (s_ws s) /\ w_fin w = false).
           { destruct (le_lt_dec (s_idx s) S_) as [LE|GT].
             - destruct (G3 LE) as (_ & _ & L3). pose proof (i_len S_ W s I) as LW. destruct (s_ws s) as [|w q]; [cbn in LW; lia|].
               exists w. split; [now left|apply L3; now left].
             - destruct (G4 GT) as (L1 & _). unfold poll, pass_end in PL. cbn [s1 s_ph s_last s_idx s_ws] in PL. rewrite L1 in PL.
               replace (s_idx s <=? S_) with false in PL by (symmetry; apply Nat.leb_gt; lia). cbn [orb] in PL.
               destruct (existsb (fun w => negb (w_fin w)) (s_ws s)) eqn:EX; [|contradiction].
               apply existsb_exists in EX. destruct EX as (w & Hw & F). exists w. split; auto. now apply negb_true_iff in F. }
           assert (PH : s_ph (pass_end S_ s1) = Scanning 0).
           { unfold poll in PL. cbn [s1 s_ph] in PL. unfold pass_end in PL |- *. cbn [s_ph] in *. destruct ((s_idx s1 <=? S_) || _); [reflexivity|contradiction]. }
           destruct EX as (w & Hw & F). apply In_nth_error in Hw. destruct Hw as (j & Nj).
           destruct (scan_to W (pass_end S_ s1) 0 I2 PH ltac:(lia) ER) as (ls2 & s' & E3 & P3).
           { exists j, w. repeat split; auto; lia. }
           exists (ls ++ M true :: ls2), s'. rewrite exec_app, E1. cbn [exec]. rewrite E2. split; [exact E3|lia].
        -- exists (ls ++ [M true]), (pass_end S_ s1). rewrite exec_app, E1. cbn [exec]. rewrite E2. split; [reflexivity|lia].
  - destruct (master S_ W true s) as [s'|] eqn:E.
    + apply (one_step (M true) s s' I E). unfold poll. rewrite EP. auto.
    + exfalso. unfold master in E. rewrite EP in E. destruct (nth_error (s_ws s) k) as [w|] eqn:N; [|discriminate].
      pose proof (i_ok S_ W s I k w N) as O. rewrite EP in O. cbn [ok] in O. rewrite Nat.ltb_irrefl in O. destruct O as (O1 & _).
      inversion O1; subst. discriminate.
  - destruct (master S_ W true s) as [s'|] eqn:E.
    + apply (one_step (M true) s s' I E). unfold poll. rewrite EP. auto.
    + unfold master in E. rewrite EP in E. destruct (nth_error (s_ws s) k) as [w|] eqn:N.
      * pose proof (i_ok S_ W s I k w N) as O. rewrite EP in O. cbn [ok] in O. rewrite Nat.ltb_irrefl in O. destruct O as (O1 & O2 & _).
        inversion O1; subst; cbn in E, O2; [|rewrite O2 in E; discriminate].
        eapply (one_step (Take k) s); [auto|cbn [step]; rewrite N; reflexivity|cbn; auto].
      * exfalso. destruct (existsb w_req (s_ws s)); discriminate.
  - exfalso. pose proof (i_glob S_ W s I) as G. unfold glob in G. rewrite EP in G. exact G.
Qed.
Lemma can_finish : forall n s, phi s <= n -> inv S_ W s -> exists ls s', exec S_ W ls s = Some s' /\ s_ph s' = Finished.
Proof.
  induction n; intros s L I.
  - destruct (s_ph s) eqn:EP; try (unfold phi in L; rewrite EP in L; cbn in L; lia).
    + exists [], s. auto.
    + exfalso. pose proof (i_glob S_ W s I) as G. unfold glob in G. rewrite EP in G. exact G.
  - assert (D : s_ph s = Finished \/ s_ph s <> Finished) by (destruct (s_ph s); auto; right; discriminate).
    destruct D as [D|D]; [exists [], s; auto|].
    destruct (progress s I D) as (ls & s1 & E1 & P1). destruct (IHn s1) as (ls2 & s2 & E2 & F); [lia|eapply exec_inv; eauto|].
    exists (ls ++ ls2), s2. rewrite exec_app, E1. auto.
Qed.
End Q.
