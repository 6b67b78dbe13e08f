(** Whole-run statements about both solvers, assembled from RunProofs and RunProofs2. *)
From Coq Require Import List Bool ZArith Lia.
From Verif Require Import FloatBase FilterModel FilterSpec FilterProofs LineSearchModel RunModel
     LineSearchSpec FloatBridge LineSearchProofs RunProofs RunProofs2 RunExamples.
Import ListNotations.

(** a run of either solver: [solver] = [None] quasi-Newton, [Some m] Newton with linear-solver mode m *)
Lemma any_run_cases fpow P lf sv fuel W o tr :
  any_run fpow P lf sv fuel W = (o, tr) ->
  (exists body safe np, body_ok fpow P body /\ body_head P body /\ body_mid P np body /\
     (np = true \/ sv = None) /\
     run_loop body fuel W 0 (run_init safe) = (o, tr)).
Proof.
  destruct sv as [m|]; simpl; intros H.
  - do 3 eexists. split; [apply newton_iter_ok|]. split; [apply newton_head|].
    split; [apply newton_iter_mid|]. split; [auto|exact H].
  - do 3 eexists. split; [apply qn_iter_ok|]. split; [apply qn_head|].
    split; [apply qn_iter_mid|]. split; [auto|exact H].
Qed.

Lemma run_accepts fpow P lf sv fuel W o tr pre st pt w sc post :
  any_run fpow P lf sv fuel W = (o, tr) -> tr = pre ++ EvAccept st pt w sc :: post ->
  Justified fpow (rp_ls P) w st pt /\
  (forall e, on_record (ops_of (theta_max P) pre) e -> ~ no_better (fst pt) (snd pt) e).
Proof.
  intros H E. destruct (any_run_cases _ _ _ _ _ _ _ _ H) as (b & s & np & B1 & B2 & B3 & _ & R).
  destruct (run_trace_ok _ _ _ B1 _ _ _ _ _ R) as [A _]. subst tr.
  exact (acc_ok_split _ _ _ _ _ _ _ _ A).
Qed.

Lemma run_records fpow P lf sv fuel W o tr pre st pt w post :
  any_run fpow P lf sv fuel W = (o, tr) -> tr = pre ++ EvAccept st pt w false :: post ->
  (exists post', post = EvRecord pt :: post') \/
  (exists k, Switching fpow (rp_ls P) (halved (w_alpha0 w) k) (w_gdir w) (w_theta w) /\
             Armijo (rp_ls P) (halved (w_alpha0 w) k) (w_gdir w) (w_phi w) (snd pt)).
Proof.
  intros H E. destruct (any_run_cases _ _ _ _ _ _ _ _ H) as (b & s & np & B1 & B2 & B3 & _ & R).
  destruct (run_trace_ok _ _ _ B1 _ _ _ _ _ R) as [_ A]. subst tr.
  exact (rec_ok_split _ _ _ _ _ _ _ A).
Qed.

Lemma run_tested fpow P lf sv fuel W o tr :
  (forall k, no_refactorization_limit (W k)) ->
  any_run fpow P lf sv fuel W = (o, tr) ->
  steps_tested (match sv with Some Forcequick => true | _ => false end) false tr.
Proof.
  intros HW H. destruct sv as [m|]; simpl in H.
  - replace (match m with Forcequick => true | _ => false end) with (is_fq m) by (destruct m; reflexivity).
    refine (run_st_tested (is_fq m) _ W _ _ _ _ _ H).
    intros k st r ev E. eapply newton_iter_st; eauto. exact (HW k).
  - refine (run_st_tested false _ W _ _ _ _ _ H).
    intros k st r ev E. eapply qn_iter_st; eauto.
Qed.

Lemma run_verdict fpow P lf sv fuel W o tr :
  (forall k e, iw_errs (W k) = Some e -> flt (e_optim e) f_zero = false) ->
  any_run fpow P lf sv fuel W = (o, tr) ->
  match o with
  | RDone Solve_Success => exists pre e, tr = pre ++ [EvCheck e] /\ AtTolerance P e
  | RDone Solve_Success_RelTol => exists e1 l pre e, e1 :: l = checks tr /\ tr = pre ++ [EvCheck e] /\
                                     AtRelTolerance P e1 e
  | RDone Solve_Acceptable_Level =>
      (exists pre e, tr = pre ++ [EvCheck e]) /\
      exists pre suf, checks tr = pre ++ suf /\
        Forall (fun e => fle (e_nlp e) (eps_accep P) = true) suf /\
        (accep_n P <= Z.of_nat (length suf))%Z
  | RDone NlpSolve_Pending => sv = None
  | _ => True
  end.
Proof.
  intros HW H. destruct (any_run_cases _ _ _ _ _ _ _ _ H) as (b & s & np & B1 & B2 & B3 & N & R).
  pose proof (run_final fpow P b np B2 B3 W HW _ _ _ _ R) as F.
  destruct o as [[]| | |]; auto. destruct N; [congruence|auto].
Qed.

Lemma run_stops_at_tol fpow P lf sv fuel W o tr e :
  any_run fpow P lf sv fuel W = (o, tr) -> In e (checks tr) -> AtTolerance P e ->
  o = RDone Solve_Success.
Proof.
  intros H. destruct (any_run_cases _ _ _ _ _ _ _ _ H) as (b & s & np & B1 & B2 & B3 & N & R).
  intros H1 H2. eapply (run_tol P); eauto.
Qed.

Lemma run_le_maxiter fpow P lf sv fuel W o tr :
  any_run fpow P lf sv fuel W = (o, tr) -> (Z.of_nat (steps tr) <= Z.max 0 (max_it P))%Z.
Proof.
  intros H. destruct (any_run_cases _ _ _ _ _ _ _ _ H) as (b & s & np & B1 & B2 & B3 & N & R).
  eapply run_steps; eauto. apply last_step_iter; auto.
Qed.

Lemma run_eq_maxiter fpow P lf sv fuel W tr :
  (0 <= max_it P)%Z ->
  any_run fpow P lf sv fuel W = (RDone Max_Iter_Exceeded, tr) -> Z.of_nat (steps tr) = max_it P.
Proof.
  intros H0 H. destruct (any_run_cases _ _ _ _ _ _ _ _ H) as (b & s & np & B1 & B2 & B3 & N & R).
  eapply (run_maxiter fpow P); eauto.
Qed.

(** 1076 unrollings of every backtracking loop and max_iter+1 of the main loop are enough *)
Lemma run_halts fpow P sv fuel W o tr :
  fgt (min_step (rp_ls P)) f_zero = true ->
  (forall k pw, pw = iw_pass1 (W k) \/ pw = iw_pass2 (W k) -> unit_step (w_alpha0 (pw_ls pw))) ->
  (Z.of_nat fuel > Z.max 0 (max_it P))%Z ->
  any_run fpow P 1076 sv fuel W = (o, tr) -> o <> RFuel.
Proof.
  intros Hm HW Hf H.
  assert (HL : forall k, ls_ends fpow P 1076 (W k)).
  { intros k F. destruct (HW k _ (or_introl eq_refl)) as (A & B & C).
    destruct (HW k _ (or_intror eq_refl)) as (A' & B' & C').
    split; apply line_search_terminates_b64; auto. }
  destruct sv as [m|]; simpl in H.
  - eapply (run_ends P (newton_iter fpow P 1076 m) W); eauto.
    + apply newton_head. 
    + intros. eapply newton_iter_incr; eauto.
    + intros. apply newton_iter_fuel. apply HL.
  - eapply (run_ends P (qn_iter fpow P 1076) W); eauto.
    + apply qn_head.
    + intros. eapply qn_iter_incr; eauto.
    + intros. apply qn_iter_fuel. apply HL.
Qed.

(** the acceptance test, completely *)
Lemma accept_iff fpow P F th ph g tht pht alpha :
  (exists st rej c, accept fpow P F th ph g tht pht alpha None = (st, rej, c) /\ (0 < st)%Z) <->
  filter_contains F tht pht = false /\
  (if fge th (theta_min P) then Progress P th ph tht pht
   else (Switching fpow P alpha g th /\ Armijo P alpha g ph pht) \/
        (~ Switching fpow P alpha g th /\ Progress P th ph tht pht)).
Proof.
  unfold accept. simpl get_g.
  pose proof (suff_dec_iff P th ph tht pht) as Hs.
  pose proof (switching_iff fpow P alpha g th) as Hw.
  assert (Ha : armijo P alpha g ph pht = true <-> Armijo P alpha g ph pht) by reflexivity.
  destruct (fge th (theta_min P));
    [|destruct (switching fpow P alpha g th);
      [destruct (armijo P alpha g ph pht)|]];
    try destruct (suff_dec P th ph tht pht);
    destruct (filter_contains F tht pht);
    (split; [intros (st & rej & c & E & L); inversion E; subst; clear E; try lia; intuition congruence
            |intros (H1 & H2); try discriminate; try solve [do 3 eexists; split; [reflexivity|lia]];
             exfalso; intuition congruence]).
Qed.

(** backtracking that is rejected at every step length and never falls below the minimal step *)
Lemma ls_forever fpow P F W t p (Orb : b64 -> Prop) :
  disable_ls P = false -> fge (w_theta W) (theta_min P) = true ->
  (forall k, w_trial W k = Some (t, p)) -> suff_dec P (w_theta W) (w_phi W) t p = false ->
  (forall a, Orb a -> flt a (min_step P) = false /\ Orb (fmul a f_half)) ->
  forall fuel k a tv c, Orb a -> ls_loop fpow P fuel F W false k a tv c = LSFuel.
Proof.
  intros Hd Hfar Ht Hs Horb. induction fuel as [|fuel IH]; intros k a tv c Ha; [reflexivity|].
  cbn [ls_loop]. destruct (Horb a Ha) as [-> Hn]. cbn [negb andb].
  rewrite Ht, Hd. unfold accept. rewrite Hfar, Hs. cbn. apply IH. exact Hn.
Qed.

Lemma line_search_forever fpow P F W t p (Orb : b64 -> Prop) :
  disable_ls P = false -> fge (w_theta W) (theta_min P) = true ->
  (forall k, w_trial W k = Some (t, p)) -> suff_dec P (w_theta W) (w_phi W) t p = false ->
  (forall a, Orb a -> flt a (min_step P) = false /\ Orb (fmul a f_half)) ->
  Orb (w_alpha0 W) -> soc fpow P F W (w_alpha0 W) t = SocNone ->
  forall fuel, line_search fpow P fuel F W = LSFuel.
Proof.
  intros Hd Hfar Ht Hs Horb Ha Hsoc [|fuel]; [reflexivity|].
  unfold line_search. cbn [ls_loop negb andb].
  rewrite Ht, Hd. unfold accept. rewrite Hfar, Hs. cbn [Z.ltb Z.compare fst snd].
  rewrite Hsoc. destruct (fle (w_theta W) t); apply ls_forever with (t := t) (p := p) (Orb := Orb); auto; apply Horb; auto.
Qed.

Lemma forever_min0 : forall fuel, line_search xpow xls_min0 fuel [] xW_reject = LSFuel.
Proof.
  apply line_search_forever with (t := fofZ 2) (p := fofZ 1) (Orb := fun a => nneg a = true);
    try reflexivity.
  intros a Ha. split; [apply (nneg_not_lt0 a Ha)|apply nneg_halve; auto].
Qed.

Lemma forever_nan : forall fuel, line_search xpow xls_nosoc fuel [] xW_nan = LSFuel.
Proof.
  apply line_search_forever with (t := fofZ 2) (p := fofZ 1) (Orb := fun a => a = S754_nan);
    try reflexivity.
  intros a ->. split; reflexivity.
Qed.

(** with accept_every_trial_step no step is ever taken from the line search *)
Lemma ls_disabled_never fpow P F W : disable_ls P = true ->
  forall fuel ini k a tv c, match ls_loop fpow P fuel F W ini k a tv c with LSAccept _ _ _ _ _ _ _ => False | _ => True end.
Proof.
  intros Hd fuel ini k a tv c. destruct fuel; simpl; auto. destruct (_ && _); auto.
  destruct (w_trial W k) as [[? ?]|]; auto. rewrite Hd. exact I.
Qed.

Lemma acc_app a b : existsb is_acc (a ++ b) = existsb is_acc a || existsb is_acc b.
Proof. apply existsb_app. Qed.

Lemma after_step_acc iw s F safe tv ufr iter n e0 r ev :
  after_step iw s F safe tv ufr iter n e0 = (r, ev) -> existsb is_acc ev = false.
Proof. intros H. apply (after_step_ok (mk_run_params xls f_one f_one f_one f_one f_one f_one 0 0 f_one false false)) in H. tauto. Qed.

Lemma newton_pass_disabled fpow P lf fq pw iter s F safe tv ufr r ev :
  disable_ls (rp_ls P) = true ->
  newton_pass fpow P lf fq pw iter s F safe tv ufr = (r, ev) -> existsb is_acc ev = false.
Proof.
  intros Hd. unfold newton_pass.
  pose proof (ls_disabled_never fpow (rp_ls P) F (pw_ls pw) Hd lf true 0 (w_alpha0 (pw_ls pw)) (fofZ (-1)) None) as HL.
  fold (line_search fpow (rp_ls P) lf F (pw_ls pw)) in HL.
  destruct (line_search fpow (rp_ls P) lf F (pw_ls pw)); try contradiction;
  repeat match goal with
         | |- context [if ?b then _ else _] => destruct b
         | |- context [match pw_dir pw with _ => _ end] => destruct (pw_dir pw)
         | |- context [match apply_fr ?a ?b ?c with _ => _ end] => destruct (apply_fr a b c) as [[[|] ?]|]
         end; intros H; inversion H; subst; reflexivity.
Qed.

Lemma head_acc P iw st r ev : head P iw st = (r, ev) -> existsb is_acc ev = false.
Proof.
  unfold head. destruct (iw_errs iw); [|intros H; inversion H; reflexivity].
  destruct (iw_cb iw); cbn [negb]; [|intros H; inversion H; reflexivity].
  destruct (check_termination _ _ _ _ _) as [[?|] ?]; [intros H; inversion H; reflexivity|].
  assert (R : forall n, existsb is_acc (repeat EvReset n) = false) by (induction n; auto).
  destruct (iw_nmu iw); [intros H; inversion H; reflexivity|].
  destruct (iw_mu_err iw); intros H; inversion H; simpl; apply R.
Qed.

Lemma newton_iter_disabled fpow P lf m iw st r ev :
  disable_ls (rp_ls P) = true ->
  newton_iter fpow P lf m iw st = (r, ev) -> existsb is_acc ev = false.
Proof.
  intros Hd. unfold newton_iter.
  destruct (head P iw st) as [[[[F n'] e0]|o] ev0] eqn:Hh; apply head_acc in Hh;
    [|intros H; inversion H; subst; auto].
  destruct (newton_pass _ _ _ _ (iw_pass1 iw) _ _ _ _ _ _) as [p1 ev1] eqn:H1.
  apply newton_pass_disabled in H1; auto.
  destruct p1.
  - intros H; inversion H; subst. rewrite acc_app, Hh, H1. reflexivity.
  - destruct (newton_pass _ _ _ _ (iw_pass2 iw) _ _ _ _ _ _) as [p2 ev2] eqn:H2.
    apply newton_pass_disabled in H2; auto.
    destruct p2; [intros H; inversion H; subst; rewrite !acc_app, Hh, H1, H2; reflexivity| |];
      (destruct (after_step _ _ _ _ _ _ _ _ _) as [r3 ev3] eqn:H3; apply after_step_acc in H3;
       intros H; inversion H; subst; rewrite !acc_app, Hh, H1, H2, H3; reflexivity).
  - destruct (after_step _ _ _ _ _ _ _ _ _) as [r3 ev3] eqn:H3; apply after_step_acc in H3.
    intros H; inversion H; subst; rewrite !acc_app, Hh, H1, H3; reflexivity.
Qed.

Lemma qn_iter_disabled fpow P lf iw st r ev :
  disable_ls (rp_ls P) = true ->
  qn_iter fpow P lf iw st = (r, ev) -> existsb is_acc ev = false.
Proof.
  intros Hd. unfold qn_iter.
  destruct (head P iw st) as [[[[F n'] e0]|o] ev0] eqn:Hh; apply head_acc in Hh;
    [|intros H; inversion H; subst; auto].
  set (pw := iw_pass1 iw).
  pose proof (ls_disabled_never fpow (rp_ls P) F (pw_ls pw) Hd lf true 0 (w_alpha0 (pw_ls pw)) (fofZ (-1)) None) as HL.
  fold (line_search fpow (rp_ls P) lf F (pw_ls pw)) in HL.
  destruct (line_search fpow (rp_ls P) lf F (pw_ls pw)); try contradiction;
  repeat match goal with
         | |- context [if ?b then _ else _] => destruct b
         | |- context [match pw_dir pw with _ => _ end] => destruct (pw_dir pw)
         | |- context [match apply_fr ?a ?b ?c with _ => _ end] => destruct (apply_fr a b c) as [[[|] ?]|]
         end;
  try (destruct (after_step _ _ _ _ _ _ _ _ _) as [r3 ev3] eqn:H3; apply after_step_acc in H3);
  intros H; inversion H; subst; rewrite ?acc_app, ?Hh; simpl; auto.
Qed.

Lemma run_disabled fpow P lf sv fuel W o tr :
  disable_ls (rp_ls P) = true -> any_run fpow P lf sv fuel W = (o, tr) ->
  forall st pt w sc, ~ In (EvAccept st pt w sc) tr.
Proof.
  intros Hd H st pt w sc Hin.
  assert (E : existsb is_acc tr = false).
  { assert (HH : exists body s, (forall k x r ev, body (W k) x = (r, ev) -> existsb is_acc ev = false) /\
              run_loop body fuel W 0 (run_init s) = (o, tr)).
    { destruct sv; simpl in H; do 2 eexists; (split; [|exact H]); intros;
        [eapply newton_iter_disabled|eapply qn_iter_disabled]; eauto. }
    destruct HH as (body & s & Hb & R).
    destruct (run_loop_inv body (fun _ h => existsb is_acc h = false) W) with (fuel := fuel) (k := 0%nat)
      (st := run_init s) (h := @nil event) (o := o) (tr := tr)
      as [(k' & st' & h' & ev & HI & Hbo & E)|(-> & st' & HI)]; auto.
    - intros k x x' h ev A B. rewrite acc_app, A. simpl. eauto.
    - simpl in E. subst tr. rewrite acc_app, HI. simpl. eauto. }
  assert (existsb is_acc tr = true) by (apply existsb_exists; eexists; split; eauto).
  congruence.
Qed.

Lemma ls_terminates_unit fpow P F W :
  fgt (min_step P) f_zero = true -> unit_step (w_alpha0 W) ->
  line_search fpow P 1076 F W <> LSFuel.
Proof. intros H (A & B & C). apply line_search_terminates_b64; auto. Qed.

Lemma ls_bound fpow P F W j fuel :
  (1 <= j)%nat -> (j < fuel)%nat -> flt (halved (w_alpha0 W) j) (min_step P) = true ->
  line_search fpow P fuel F W <> LSFuel /\
  line_search fpow P fuel F W = line_search fpow P (S j) F W.
Proof.
  intros H1 H2 H3. split; [eapply line_search_terminates; eauto|].
  apply ls_loop_mono; [lia|].
  apply (line_search_terminates fpow P W F j (S j)); auto.
Qed.

Lemma ls_never_ends :
  (exists P W, min_step P = f_zero /\ unit_step (w_alpha0 W) /\
     forall fuel, line_search xpow P fuel [] W = LSFuel) /\
  (exists P W, fgt (min_step P) f_zero = true /\ w_alpha0 W = S754_nan /\
     forall fuel, line_search xpow P fuel [] W = LSFuel).
Proof.
  split.
  - exists xls_min0, xW_reject. split; [reflexivity|]. split; [repeat split|]. exact forever_min0.
  - exists xls_nosoc, xW_nan. split; [reflexivity|]. split; [reflexivity|]. exact forever_nan.
Qed.

Lemma newton_not_pending fpow P lf m fuel W tr :
  any_run fpow P lf (Some m) fuel W <> (RDone NlpSolve_Pending, tr).
Proof.
  intros H. simpl in H. unfold run_newton in H.
  set (body := newton_iter fpow P lf m) in *.
  destruct (run_loop_inv body (fun _ _ => True) W) with (fuel := fuel) (k := 0%nat)
      (st := run_init (match m with Stable => true | _ => false end)) (h := @nil event) (o := RDone NlpSolve_Pending) (tr := tr)
      as [(k' & st' & h' & ev & HI & Hbo & E)|(E & _)]; auto; [|discriminate].
  destruct (head P (W k') st') as [[[[F n'] e0]|o'] ev0] eqn:Eh.
  - destruct (newton_iter_mid fpow P lf m _ _ _ _ _ _ _ _ Eh Hbo) as (_ & _ & N). apply N; auto.
  - unfold body in Hbo. rewrite (newton_head fpow P lf m _ _ _ _ Eh) in Hbo. inversion Hbo; subst.
    unfold head in Eh. destruct (iw_errs (W k')); [|discriminate].
    destruct (iw_cb (W k')); simpl in Eh; [|discriminate].
    destruct (check_termination _ _ _ _ _) as [[s|] n1] eqn:Hc.
    + inversion Eh; subst. unfold check_termination in Hc.
      destruct (_ && _ && _ && _); [discriminate|]. destruct (_ <=? _)%Z; [discriminate|].
      destruct (upd_errs0 _ _) as [[? ?] ?]. destruct (_ && _); [discriminate|].
      destruct (_ <=? _)%Z; discriminate.
    + destruct (iw_nmu (W k')); [discriminate|]. destruct (iw_mu_err (W k')); discriminate.
Qed.
