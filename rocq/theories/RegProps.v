(** C11, C12, C49: regularisation of the KKT system and the factorisation dialogue. *)
From Coq Require Import List Bool ZArith Lia.
From Verif Require Import FloatBase FloatFacts FloatBridge MuModel RegModel RegSpec RegProofs RegProofs2 RegProofs3.
Import ListNotations.

(** the data of the examples: default options, one variable, one inequality, one equality,
    constant vectors, mu^0.25 = 0.01 *)
Definition pow1 (_ _ : b64) : b64 := S754_finite false 5764607523034235 (-59).
Definition fill1 (_ n : nat) (d : b64) : list b64 := repeat d n.
Lemma default_ok : params_ok default_params.
Proof. unfold params_ok, nonneg, posfin. repeat split. Qed.
Lemma pow1_ok : pow_ok pow1 default_params.
Proof. intros m _. split; reflexivity. Qed.

(** a history of calls *)
Definition hist_from (dbg : bool) (v : variant) (P : reg_params) (ops : list op) (r : option (list bool * reg)) : option (list bool * reg) :=
  fold_left (fun r o => match r with None => None | Some (l, s) =>
       match call pow1 P 1 1 1 fill1 dbg v o s with None => None | Some (b, s') => Some (l ++ [b], s') end end)
    ops r.
Definition hist (dbg : bool) (v : variant) (P : reg_params) (ops : list op) : option (list bool * reg) :=
  hist_from dbg v P ops (Some ([], initialize 1 1 1 reg_new)).

(** * C12: primal-first calculator *)
Theorem C12_primal_first_partial : forall fpow P nx md mc fill dbg allowed s mus,
  params_ok P -> pow_ok fpow P ->
  reach fpow P nx md mc fill dbg PrimalFirst allowed s true mus ->
  nonneg (wx s) /\ nonneg (cc s) /\ cd s = cc s /\
  (cc s = f_zero \/ exists m, In m mus /\ cc s = fmul (rp_cbar P) (fpow m (rp_kc P))) /\
  filled nx md mc fill s /\
  (hess s = Degenerate /\ jac s = Degenerate \/ wd s = wx s /\ fle (wx s) (rp_wmax P) = true).
Proof.
  intros fpow P nx md mc fill dbg al s mus HP Hw R. destruct (pf_reach _ _ _ _ _ _ _ HP Hw _ _ _ _ R) as [G [M [[C1 C2] [W O]]]].
  destruct (O eq_refl) as [F L]. split; [apply G|]. split; [apply G|]. split; [exact C1|]. split; [exact C2|]. split; [exact F|].
  unfold bothdeg in *. tauto.
Qed.
Print Assumptions C12_primal_first_partial.
Example C12_case : option_map (fun r => (fst r, vwx (snd r), vwd (snd r), vcc (snd r), vcd (snd r)))
    (hist true PrimalFirst default_params [OMu f_one; OInitial; OSing; OSing; OSing; OWrong]) =
  Some ([true; true; true; true; true; true],
        [S754_finite false 4503599627370496 (-52)], [S754_finite false 4503599627370496 (-52)],
        [S754_finite false 7737125245533627 (-86)], [S754_finite false 7737125245533627 (-86)]).
Proof. vm_compute. reflexivity. Qed.

(** the same value is not always used for variables and slacks: after three iterations that needed
    both regularisations, the next system gets delta_c on the variables and 0 on the slacks *)
Definition deg_history : list op :=
  [OMu f_one; OInitial; OSing; OSing; OSing; OInitial; OSing; OSing; OSing; OInitial; OSing; OSing; OSing; OInitial].
Lemma hist_reach dbg v P : forall ops l0 s0 ok0 mus0 l s, Forall (fun o => forall m, o = OMu m -> posfin m) ops ->
  reach pow1 P 1 1 1 fill1 dbg v all_ops s0 ok0 mus0 ->
  hist_from dbg v P ops (Some (l0, s0)) = Some (l, s) -> exists ok mus, reach pow1 P 1 1 1 fill1 dbg v all_ops s ok mus /\
    (forall b, last ops OInitialize = OInitial -> last l false = b -> ok = b).
Proof.
  induction ops as [|o ops IH]; intros l0 s0 ok0 mus0 l s F R H.
  - injection H as <- <-. exists ok0, mus0. split; auto. intros b E. discriminate.
  - unfold hist_from in H. cbn [fold_left] in H. destruct (call pow1 P 1 1 1 fill1 dbg v o s0) as [[b s1]|] eqn:C.
    2:{ exfalso. revert H. clear. induction ops; simpl; auto; discriminate. }
    inversion F as [|? ? F1 F2]; subst. pose proof (reach_step _ _ _ _ _ _ _ _ _ _ _ _ _ _ _ R I F1 C) as R1.
    destruct ops as [|o2 ops].
    + injection H as <- <-. eexists _, _. split; [exact R1|]. intros b' E E2. simpl in E. subst o. rewrite last_last in E2. auto.
    + destruct (IH _ _ _ _ _ _ F2 R1 H) as [ok [mus [R2 L]]]. exists ok, mus. split; [exact R2|]. intros b' E. apply L. exact E.
Qed.
Lemma deg_history_end : exists l s, hist_from true PrimalFirst default_params deg_history (Some ([], initialize 1 1 1 reg_new)) = Some (l, s) /\ last l false = true /\
  vwd s = [f_zero] /\ vwx s <> vwd s.
Proof. eexists _, _. split; [vm_compute; reflexivity|]. split; [reflexivity|]. split; [reflexivity|discriminate]. Qed.
Lemma deg_history_ok : Forall (fun o => forall m, o = OMu m -> posfin m) deg_history.
Proof. unfold deg_history. repeat (constructor; [intros m X; try discriminate X; injection X as <-; split; reflexivity|]). constructor. Qed.
Theorem C12_slack_regularisation_refuted : exists s mus,
  reach pow1 default_params 1 1 1 fill1 true PrimalFirst all_ops s true mus /\
  vwd s = [f_zero] /\ vwx s <> vwd s.
Proof.
  destruct deg_history_end as [l [s [E [LL V]]]].
  destruct (hist_reach true PrimalFirst default_params deg_history [] (initialize 1 1 1 reg_new) false [mu reg_new] l s deg_history_ok
              (reach_new pow1 default_params 1 1 1 fill1 true PrimalFirst all_ops) E) as [ok [mus [R L]]].
  rewrite (L true eq_refl LL) in R. exists s, mus. auto.
Qed.
Print Assumptions C12_slack_regularisation_refuted.

(** * C12: dual-first calculator *)
Theorem C12_dual_first : forall fpow P nx md mc fill dbg allowed s mus,
  params_ok P -> pow_ok fpow P ->
  reach fpow P nx md mc fill dbg DualFirst allowed s true mus ->
  nonneg (wx s) /\ nonneg (cc s) /\ wd s = wx s /\ cd s = cc s /\
  fle (wx s) (rp_wmax P) = true /\ fle (cc s) (rp_wmax P) = true /\ filled nx md mc fill s.
Proof.
  intros fpow P nx md mc fill dbg al s mus HP Hw R. destruct (df_reach _ _ _ _ _ _ _ HP Hw _ _ _ _ R) as [G [T O]].
  destruct (O eq_refl) as [F [L1 L2]]. split; [apply G|]. split; [apply G|]. split; [apply T|]. split; [apply T|]. auto.
Qed.
Print Assumptions C12_dual_first.
Example C12_case_dual : option_map (fun r => (fst r, vwx (snd r), vwd (snd r), vcc (snd r), vcd (snd r)))
    (hist true DualFirst default_params [OMu f_one; OInitial; OSing; OWrong]) =
  Some ([true; true; true; true], [f_zero], [f_zero],
        [S754_finite false 6044629098073146 (-79)], [S754_finite false 6044629098073146 (-79)]).
Proof. vm_compute. reflexivity. Qed.

(** * C11: the dialogue ends *)
Theorem C11_factorize_ends : forall fpow P nx md mc fill dbg a v req answer s ok mus fuel o,
  params_ok P -> pow_ok fpow P ->
  reach fpow P nx md mc fill dbg v all_ops s ok mus -> 12 <= fuel ->
  factorize fpow P nx md mc fill dbg fuel a v req answer s = Some o ->
  exists b s' tries, o = Some (b, s', tries) /\ length tries <= 11 /\
    map snd tries = map answer (seq 0 (length tries)) /\
    Forall (fun x => reach fpow P nx md mc fill dbg v all_ops (fst x) true mus) tries /\
    (b = false -> length tries = 11 \/ over P v s').
Proof.
  intros fpow P nx md mc fill dbg a v req answer s ok mus fuel o HP Hw R F H. unfold factorize in H.
  destruct (initial_deltas fpow P nx md mc fill dbg v s) as [[b s1]|] eqn:C; [|discriminate].
  pose proof (reach_step _ _ _ _ _ _ _ _ _ _ _ _ OInitial _ _ R I ltac:(discriminate) C) as R1. cbn iota in R1. destruct b.
  - destruct (fact_loop_spec fpow P nx md mc fill dbg HP Hw a v req answer mus fuel 0 s1 R1 ltac:(lia) ltac:(lia) o H) as [b [s' [l [-> [L [FR [SN [HT HF]]]]]]]].
    exists b, s', l. split; [reflexivity|]. split; [exact L|]. split; [exact SN|]. split; [exact FR|]. intro E. apply (HF E).
  - injection H as <-. exists false, s1, []. split; [reflexivity|]. simpl. split; [lia|]. split; [reflexivity|]. split; [constructor|]. intros _. right.
    destruct v; cbn [initial_deltas] in C.
    + apply pf_reach in R; auto. unfold pf_initial in C. cbv zeta in C. destruct (degen_eqb _ _) in C; [|discriminate].
      match type of C with match primal_perturb _ _ _ _ _ _ ?x with _ => _ end = _ => destruct (primal_perturb P nx md mc fill dbg x) as [[b2 s2]|] eqn:PP; [|discriminate] end.
      destruct b2; [discriminate|]. injection C as <-. apply primal_perturb_spec in PP. destruct PP as [E ->]. left.
      match goal with |- fgt (wx (pp_state _ _ _ _ _ ?x)) _ = true => destruct (pp_state_proj P nx md mc fill x) as [-> _] end.
      symmetry in E. apply negb_false_iff in E. exact E.
    + apply df_reach in R; auto. destruct (df_initial_runs fpow P nx md mc fill dbg HP s ok R) as [x [X _]]. rewrite X in C. discriminate.
Qed.
Print Assumptions C11_factorize_ends.
(** required inertia 2; the solver answers 3, -1, 2 *)
Definition ans1 (k : nat) : Z := match k with 0 => 3%Z | 1 => (-1)%Z | _ => 2%Z end.
Example C11_case : match factorize pow1 default_params 1 1 1 fill1 true 12 InertiaCheck PrimalFirst 2 ans1 (initialize 1 1 1 reg_new) with
  | Some (Some (b, s, l)) => (b, length l, vwx s, vcc s) = (true, 3, [S754_finite false 7378697629483821 (-66)], [S754_finite false 7737125245533627 (-86)])
  | _ => False end.
Proof. vm_compute. reflexivity. Qed.
Example C11_case_limit : match factorize pow1 default_params 1 1 1 fill1 true 12 InertiaCheck PrimalFirst 2 (fun _ => 3%Z) (initialize 1 1 1 reg_new) with
  | Some (Some (b, s, l)) => (b, length l) = (false, 11) | _ => False end.
Proof. vm_compute. reflexivity. Qed.

(** every retry after wrong inertia strictly increases the primal regularisation, or switches the
    dual one on after the primal one passed its maximum *)
Theorem C11_retry_grows : forall fpow P nx md mc fill dbg allowed s ok mus s',
  params_ok P -> pow_ok fpow P -> fle (fofZ 2) (rp_kplus P) = true -> fle (fofZ 2) (rp_kplusbar P) = true -> posfin (rp_w0 P) -> posfin (rp_wmin P) ->
  reach fpow P nx md mc fill dbg PrimalFirst allowed s ok mus ->
  wx s <> S754_infinity false ->
  wrong_inertia fpow P nx md mc fill dbg PrimalFirst s = Some (true, s') ->
  flt (wx s) (wx s') = true /\ cc s' = cc s \/
  cc s = f_zero /\ cc s' = fmul (rp_cbar P) (fpow (mu s) (rp_kc P)).
Proof.
  intros fpow P nx md mc fill dbg al s ok mus s' HP Hw K1 K2 W0 WM R NI H. apply pf_reach in R; auto.
  destruct (pf_wrong_grows _ _ _ _ _ _ _ _ _ _ _ R H) as [[E1 E2]|[E1 [E2 _]]]; [left|right; auto].
  split; [|exact E2]. rewrite E1. destruct R as [G _].
  assert (C : posfin (wx s) \/ wx s = f_zero).
  { destruct G as [[[V N] _] _]. destruct (wx s) as [z|z| |z m e]; simpl in N; subst; auto; try congruence; try tauto. left; split; auto. }
  destruct C as [C|C]; [apply (ppw_grows_strict P HP); auto|].
  unfold ppw, increase. rewrite C. change (feq f_zero f_zero) with true. cbn iota. destruct G as [_ [[[VL NL] _] _]].
  assert (POS : forall x, posfin x -> flt f_zero x = true).
  { intros x [_ F]. destruct x as [z|z| |z m e]; try (exfalso; exact F). destruct z; [exfalso; exact F|reflexivity]. }
  destruct (feq (lwx s) f_zero); [apply POS; exact W0|].
  unfold fmax. assert (X : is_nan (rp_wmin P) = false) by (apply nonneg_nn, posfin_nonneg; exact WM). rewrite X.
  destruct (is_nan (fmul (lwx s) (rp_kminus P))) eqn:Y; [apply POS; exact WM|].
  destruct (flt (rp_wmin P) (fmul (lwx s) (rp_kminus P))) eqn:Z; [|apply POS; exact WM].
  destruct WM as [_ F]. destruct (rp_wmin P) as [z|z| |z m e]; try (exfalso; exact F). destruct z; [exfalso; exact F|].
  destruct (fmul (lwx s) (rp_kminus P)) as [z|z| |z m' e']; try discriminate; destruct z; try discriminate; reflexivity.
Qed.
Print Assumptions C11_retry_grows.
Example C11_case_grows : match hist true PrimalFirst default_params [OMu f_one; OInitial; OWrong], hist true PrimalFirst default_params [OMu f_one; OInitial; OWrong; OWrong] with
  | Some (_, s), Some (_, s') => flt (wx s) (wx s') = true /\ cc s' = cc s | _, _ => False end.
Proof. vm_compute. auto. Qed.

(** the admitted option value delta_0_bar = 0: the retry factorises the very same matrix again *)
Theorem C11_retry_changes_matrix_refuted :
  let P := RP f_em20 f_1e20 f_zero (rp_kminus default_params) (rp_kplusbar default_params) (rp_kplus default_params) (rp_cbar default_params) (rp_kc default_params) in
  params_ok P /\ exists s s', hist true PrimalFirst P [OMu f_one; OInitial] = Some ([true; true], s) /\
    wrong_inertia pow1 P 1 1 1 fill1 true PrimalFirst s = Some (true, s') /\
    vwx s' = vwx s /\ vwd s' = vwd s /\ vcc s' = vcc s /\ vcd s' = vcd s.
Proof.
  cbv zeta. split; [unfold params_ok, nonneg, posfin; repeat split|]. eexists _, _. split; [vm_compute; reflexivity|]. split; [vm_compute; reflexivity|]. repeat split.
Qed.
Print Assumptions C11_retry_changes_matrix_refuted.

(** no assertion of the calculators can fail: always for dual-first, for primal-first as long as the
    solver never reports a singular matrix *)
Theorem C11_no_abort_partial : forall fpow P nx md mc fill dbg v s ok mus o,
  params_ok P -> pow_ok fpow P ->
  reach fpow P nx md mc fill dbg v (fun o => v = DualFirst \/ o <> OSing) s ok mus -> v = DualFirst \/ o <> OSing ->
  call fpow P nx md mc fill dbg v o s <> None.
Proof.
  intros fpow P nx md mc fill dbg v s ok mus o HP Hw R A. destruct v.
  - assert (R' : reach fpow P nx md mc fill dbg PrimalFirst (fun o => o <> OSing) s ok mus).
    { clear A. induction R as [|s0 ok0 mus0 o0 b s1 R IH HA HM HC]; [constructor|]. apply (reach_step _ _ _ _ _ _ _ _ _ _ _ _ _ _ _ IH); auto. destruct HA; [discriminate|auto]. }
    pose proof (pf_no_sing_tame _ _ _ _ _ _ _ HP Hw _ _ _ R') as T. destruct (pf_reach _ _ _ _ _ _ _ HP Hw _ _ _ _ R) as [G _].
    destruct o as [|m| | |]; cbn [call initial_deltas wrong_inertia]; try discriminate.
    + destruct (pf_initial_runs fpow P nx md mc fill dbg s G T) as [x [-> _]]. discriminate.
    + destruct (pf_wrong_runs fpow P nx md mc fill dbg HP Hw s G T) as [b [x [-> _]]]. discriminate.
    + destruct A as [A|A]; [discriminate|congruence].
  - pose proof (df_reach _ _ _ _ _ _ _ HP Hw _ _ _ _ R) as IV.
    destruct o as [|m| | |]; cbn [call initial_deltas wrong_inertia singularity]; try discriminate.
    + destruct (df_initial_runs fpow P nx md mc fill dbg HP s ok IV) as [x [-> _]]. discriminate.
    + destruct (df_wrong_runs fpow P nx md mc fill dbg HP Hw s ok IV) as [b [x [-> _]]]. discriminate.
    + destruct (df_wrong_runs fpow P nx md mc fill dbg HP Hw s ok IV) as [b [x [-> _]]]. discriminate.
Qed.
Print Assumptions C11_no_abort_partial.
Example C11_case_no_abort : hist true DualFirst default_params [OMu f_one; OInitial; OSing; OWrong; OSing; OInitial; OWrong] <> None /\
  hist true PrimalFirst default_params [OMu f_one; OInitial; OWrong; OWrong; OInitial; OWrong] <> None.
Proof. split; vm_compute; discriminate. Qed.

(** default options, answers singular, wrong inertia, singular: the program aborts *)
Theorem C11_abort_refuted :
  factorize pow1 default_params 1 1 1 fill1 true 12 InertiaCheck PrimalFirst 2
    (fun k => match k with 0 => (-1)%Z | 1 => 3%Z | _ => (-1)%Z end) (initialize 1 1 1 reg_new) = None.
Proof. vm_compute. reflexivity. Qed.
Print Assumptions C11_abort_refuted.

(** * C49: a factorisation reported as good is one the acceptor accepts *)
Theorem C49_factorize_truthful : forall fpow P nx md mc fill dbg a v req answer s ok mus fuel s' tries,
  params_ok P -> pow_ok fpow P ->
  reach fpow P nx md mc fill dbg v all_ops s ok mus -> 12 <= fuel ->
  factorize fpow P nx md mc fill dbg fuel a v req answer s = Some (Some (true, s', tries)) ->
  exists n, tries <> [] /\ length tries = S n /\ map snd tries = map answer (seq 0 (S n)) /\
    fst (last tries (s', 0%Z)) = s' /\
    usable a req (answer n) = true /\ (forall k, k < n -> usable a req (answer k) = false).
Proof.
  intros fpow P nx md mc fill dbg a v req answer s ok mus fuel s' tries HP Hw R F H. unfold factorize in H.
  destruct (initial_deltas fpow P nx md mc fill dbg v s) as [[b s1]|] eqn:C; [|discriminate].
  pose proof (reach_step _ _ _ _ _ _ _ _ _ _ _ _ OInitial _ _ R I ltac:(discriminate) C) as R1. cbn iota in R1. destruct b; [|discriminate].
  destruct (fact_loop_spec fpow P nx md mc fill dbg HP Hw a v req answer mus fuel 0 s1 R1 ltac:(lia) ltac:(lia) _ H) as [b [s2 [l [E [L [FR [SN [HT HF]]]]]]]].
  injection E as <- <- <-. destruct (HT eq_refl) as [l0 [ans [-> [U FU]]]]. rewrite app_length in *. simpl (length [_]) in *. rewrite Nat.add_1_r in *.
  exists (length l0). split; [destruct l0; discriminate|]. split; [reflexivity|]. split; [exact SN|]. split; [rewrite last_last; reflexivity|].
  rewrite seq_S, !map_app in SN. simpl in SN. apply app_inj_tail in SN. destruct SN as [S1 <-]. split; [exact U|].
  intros k Hk. assert (X : In (answer k) (map snd l0)) by (rewrite S1; apply in_map, in_seq; lia).
  apply in_map_iff in X. destruct X as [x [<- X]]. rewrite Forall_forall in FU. apply FU. exact X.
Qed.
Print Assumptions C49_factorize_truthful.

(** the inertia-free path: true with fewer than twelve factorisations means the last one worked *)
Theorem C49_inertia_free_partial : forall fpow P nx md mc fill dbg v req answer s fuel s' tries,
  12 <= fuel ->
  factorize_inertia_free fpow P nx md mc fill dbg fuel InertiaFree v req answer s = Some (Some (true, s', tries)) ->
  exists n, length tries = S n /\ n <= 11 /\ map snd tries = map answer (seq 0 (S n)) /\ (n = 11 \/ (0 <= answer n)%Z).
Proof.
  intros fpow P nx md mc fill dbg v req answer s fuel s' tries F H. unfold factorize_inertia_free in H.
  destruct (require_refact _ _ _ _ _ _ _ InertiaFree v req 1 true s) as [[r s1]|]; [|discriminate].
  destruct (free_loop _ _ _ _ _ _ _ fuel InertiaFree v req answer 0 (answer 0) s1) as [o|] eqn:FL; [|discriminate].
  destruct (free_loop_spec fpow P nx md mc fill dbg v req answer fuel 0 s1 ltac:(lia) ltac:(lia) o FL) as [b [s2 [l [-> [L [SN HT]]]]]].
  injection H as -> <- <-. exists (length l). split; [reflexivity|]. split; [exact L|]. split; [simpl; rewrite SN; reflexivity|]. exact (HT eq_refl).
Qed.
Print Assumptions C49_inertia_free_partial.
Example C49_case : match hist true PrimalFirst default_params [OMu f_one; OInitial] with
  | Some (_, s) => match factorize_inertia_free pow1 default_params 1 1 1 fill1 true 12 InertiaFree PrimalFirst 2 (fun k => match k with 0 => (-1)%Z | _ => 0%Z end) s with
                   | Some (Some (b, s', l)) => (b, length l) = (true, 2) | _ => False end
  | None => False end.
Proof. vm_compute. reflexivity. Qed.

(** success is reported although all twelve factorisations found a singular matrix *)
Theorem C49_inertia_free_refuted : exists s s' tries,
  hist true PrimalFirst default_params [OMu f_one; OInitial] = Some ([true; true], s) /\
  factorize_inertia_free pow1 default_params 1 1 1 fill1 true 12 InertiaFree PrimalFirst 2 (fun _ => (-1)%Z) s = Some (Some (true, s', tries)) /\
  Forall (fun x => snd x = (-1)%Z) tries /\ length tries = 12.
Proof.
  eexists _, _, _. split; [vm_compute; reflexivity|]. split; [vm_compute; reflexivity|]. split; [repeat constructor|reflexivity].
Qed.
Print Assumptions C49_inertia_free_refuted.
