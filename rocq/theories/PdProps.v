(** Theorems about the primal decomposition: C30, C31, C52. *)
From Coq Require Import List Bool Arith Lia ZArith Permutation.
From Verif Require Import RingKit FloatBase PdModel PdSpec PdProofs PdProofs2 PdProofs3 PdAlgModel PdAlgSpec PdAlgProofs.
Import ListNotations.

(** *** C30: every recourse term is evaluated exactly once, under every schedule *)
Theorem C30_exactly_once S_ W ls s : 1 <= W -> W <= S_ -> exec S_ W ls (init W) = Some s -> left_loop s ->
  sent_idx s = seq 0 S_ /\ each_once S_ (evaluated s) /\ Permutation (s_acc s) (map Some (seq 0 S_)) /\
  (forall k w, nth_error (s_ws s) k = Some w -> w_log w = to_worker k (s_sent s)).
Proof.
  intros HW HS E L. assert (I : inv S_ W s) by (eapply exec_inv; eauto using inv_init).
  pose proof (exec_route S_ W HW HS ls _ _ (inv_init S_ W) (route_init W) E) as R.
  assert (LS : length (s_sent s) = S_ /\ forall w, In w (s_ws s) -> quiet w \/ told w \/ ended w).
  { pose proof (i_glob S_ W s I) as G. unfold glob in G. unfold left_loop in L.
    assert (O := i_ok S_ W s I). destruct (s_ph s); try contradiction.
    all: split; [tauto|]; intros w Hw; apply In_nth_error in Hw; destruct Hw as (j & Nj); specialize (O j w Nj); cbn [ok] in O;
      try (destruct (j <? _)); tauto. }
  destruct LS as (LS & Q).
  assert (T0 : flat_map tok (s_ws s) = []).
  { clear - Q. induction (s_ws s) as [|w l IH]; cbn; auto. rewrite IH by (intros; apply Q; now right).
    destruct (Q w (or_introl eq_refl)) as [X|[X|X]]; inversion X; reflexivity. }
  assert (P0 : flat_map pend (s_ws s) = []).
  { clear - Q. induction (s_ws s) as [|w l IH]; cbn; auto. rewrite IH by (intros; apply Q; now right).
    destruct (Q w (or_introl eq_refl)) as [X|[X|X]]; inversion X; reflexivity. }
  split; [unfold sent_idx; rewrite (i_sent S_ W s I), LS; reflexivity|].
  split; [unfold each_once, evaluated; pose proof (i_log S_ W s I) as X; rewrite P0, app_nil_r, LS in X; exact X|].
  split; [pose proof (i_tok S_ W s I) as X; rewrite T0, app_nil_r, LS in X; exact X|].
  intros k w N. rewrite (R k w N). destruct (Q w (nth_error_In _ _ N)) as [X|[X|X]]; inversion X; cbn; now rewrite app_nil_r.
Qed.
(** 2 workers, 3 terms; worker 1 answers first and gets the third term *)
Definition got (o : option st) : st := match o with Some s => s | None => init 0 end.
Definition ex_sched : list label :=
  [M true; M true; M true; M true; M true; M true; Take 1; Eval 1; M true; Take 0; M true; M true; Take 1; Eval 0; M true; M false; M true; M true; Eval 1; M true; M true].
Example C30_case : exists s, exec 3 2 ex_sched (init 2) = Some s /\ left_loop s /\ s_acc s = [Some 1; Some 0; Some 2] /\ s_sent s = [(0, 0); (1, 1); (1, 2)].
Proof. exists (got (exec 3 2 ex_sched (init 2))). vm_compute. repeat split. Qed.

(** at every moment: no assertion failed, no worker was given an end signal as an index, no result was
    taken twice, every result taken was one that had been sent, and what was sent was in order *)
Theorem C30_always S_ W ls s : 1 <= W -> W <= S_ -> exec S_ W ls (init W) = Some s ->
  s_ph s <> Aborted /\ (forall w, In w (s_ws s) -> w_st w <> Broken) /\ NoDup (s_acc s) /\
  (forall r, In r (s_acc s) -> exists i, r = Some i /\ In i (evaluated s) /\ In i (sent_idx s)) /\
  sent_idx s = seq 0 (length (s_sent s)) /\ length (s_sent s) <= S_ /\ NoDup (evaluated s).
Proof.
  intros HW HS E. assert (I : inv S_ W s) by (eapply exec_inv; eauto using inv_init).
  assert (NA : s_ph s <> Aborted).
  { intros X. pose proof (i_glob S_ W s I) as G. unfold glob in G. rewrite X in G. exact G. }
  pose proof (i_tok S_ W s I) as T. pose proof (i_log S_ W s I) as Lg.
  assert (ND : NoDup (map Some (seq 0 (length (s_sent s))))).
  { apply FinFun.Injective_map_NoDup; [intros a b H; congruence|apply seq_NoDup]. }
  assert (NT : NoDup (s_acc s ++ map Some (flat_map tok (s_ws s)))) by (eapply Permutation_NoDup; [symmetry; exact T|exact ND]).
  assert (NL : NoDup (flat_map w_log (s_ws s) ++ flat_map pend (s_ws s))) by (eapply Permutation_NoDup; [symmetry; exact Lg|apply seq_NoDup]).
  assert (NDl : forall (A : Type) (l m : list A), NoDup (l ++ m) -> NoDup l).
  { intros A l m. induction l; intros H; constructor; inversion H; subst; auto. intros X. apply H2. apply in_or_app. auto. }
  split; [exact NA|]. split.
  { intros w Hw. apply In_nth_error in Hw. destruct Hw as (j & Nj). pose proof (i_ok S_ W s I j w Nj) as O.
    assert (X : carrying w \/ quiet w \/ told w \/ ended w \/ w = wk0).
    { destruct (s_ph s); cbn [ok] in O; try (destruct (j <? _)); try (destruct (w_fin w)); try contradiction; intuition. }
    destruct X as [X|[X|[X|[X|X]]]]; inversion X; subst; cbn; try discriminate. destruct H as [->| ->]; discriminate. }
  split; [eauto|]. split.
  { intros r Hr. assert (X : In r (map Some (seq 0 (length (s_sent s))))) by (rewrite <- T; apply in_or_app; auto).
    apply in_map_iff in X. destruct X as (i & <- & Hi). exists i. split; auto. split; [|unfold sent_idx; rewrite (i_sent S_ W s I); exact Hi].
    rewrite <- Lg in Hi. apply in_app_or in Hi. destruct Hi as [Hi|Hi]; auto. exfalso.
    (* an index still pending is still a token *)
    assert (Y : In (Some i) (map Some (flat_map tok (s_ws s)))).
    { apply in_map. apply in_flat_map in Hi. destruct Hi as (w & Hw & Hp). apply in_flat_map. exists w. split; auto. unfold tok. apply in_or_app. auto. }
    clear - NT Hr Y. induction (s_acc s) as [|a l IH]; [contradiction|]. inversion NT; subst. destruct Hr as [->|Hr]; [|auto].
    apply H1. apply in_or_app. auto. }
  split; [apply (i_sent S_ W s I)|]. split; [|eauto].
  pose proof (i_glob S_ W s I) as G. unfold glob in G. destruct (s_ph s); try lia; try contradiction.
Qed.
Example C30_always_case : exists s, exec 3 2 (firstn 14 ex_sched) (init 2) = Some s /\ s_acc s = [Some 1] /\ evaluated s = [0; 1] /\ sent_idx s = [0; 1; 2] /\ ~ left_loop s.
Proof. exists (got (exec 3 2 (firstn 14 ex_sched) (init 2))). vm_compute. repeat split. auto. Qed.

(** at the end of the iteration every worker left its loop and no message or request is pending *)
Theorem C30_all_stopped S_ W ls s : 1 <= W -> W <= S_ -> exec S_ W ls (init W) = Some s -> s_ph s = Finished ->
  length (s_ws s) = W /\ Forall at_rest (s_ws s).
Proof.
  intros HW HS E F. assert (I : inv S_ W s) by (eapply exec_inv; eauto using inv_init).
  split; [apply (i_len S_ W s I)|]. apply Forall_forall. intros w Hw. apply In_nth_error in Hw. destruct Hw as (j & Nj).
  pose proof (i_ok S_ W s I j w Nj) as O. rewrite F in O. cbn [ok] in O. destruct O as (O1 & O2). inversion O1; subst. repeat split; auto.
Qed.
(** and from every state that can be reached the end can be reached: no deadlock *)
Theorem C30_can_finish S_ W ls s : 1 <= W -> W <= S_ -> exec S_ W ls (init W) = Some s ->
  exists ls' s', exec S_ W ls' s = Some s' /\ s_ph s' = Finished.
Proof. intros HW HS E. eapply can_finish; eauto. eapply exec_inv; eauto using inv_init. Qed.
(** an execution makes a bounded number of steps apart from unsuccessful polls *)
Theorem C30_work_bound S_ W n s : 1 <= W -> W <= S_ -> runs S_ W (init W) n s -> n <= 3 * S_ + 5 * W + 5.
Proof. intros HW HS R. pose proof (runs_phi S_ W HW HS _ _ _ R (inv_init S_ W)) as X. rewrite (phi_init S_ W HW HS) in X. lia. Qed.
Definition ex_end : list label := ex_sched ++ [M true; M true; M true; Take 0; M true; Take 1; M true; M true].
Example C30_end_case : exists s, exec 3 2 ex_end (init 2) = Some s /\ s_ph s = Finished /\ map w_log (s_ws s) = [[0]; [1; 2]].
Proof. exists (got (exec 3 2 ex_end (init 2))). vm_compute. repeat split. Qed.
Example C30_bound_case : exists n s, runs 3 2 (init 2) n s /\ s_ph s = Finished.
Proof.
  destruct C30_end_case as (s & E & F & _). destruct (exec_runs 3 2 ltac:(lia) ltac:(lia) ex_end (init 2) s E) as (n & R & _). exists n, s. auto.
Qed.

(** the value and gradient the master computes are the sums over all terms, whatever the schedule: the
    sum over the results it received (run) and over what the workers added up (run_local) *)
Theorem C30_sum (K : cfield) (f : nat -> K) (junk : K) S_ W ls s : 1 <= W -> W <= S_ -> exec S_ W ls (init W) = Some s -> left_loop s ->
  lsum (map (fun r => match r with Some i => f i | None => junk end) (s_acc s)) = sumn S_ f /\
  lsum (map (fun w => lsum (map f (w_log w))) (s_ws s)) = sumn S_ f.
Proof.
  intros HW HS E L. destruct (C30_exactly_once S_ W ls s HW HS E L) as (_ & P & Q & _). split.
  - rewrite (lsum_perm K _ _ (Permutation_map _ Q)). rewrite map_map. reflexivity.
  - rewrite <- lsum_flat. apply lsum_perm. apply Permutation_map. exact P.
Qed.
(** with more workers than terms the iteration aborts *)
Theorem C30_too_many_workers S_ W b : S_ < W -> exists s, exec S_ W [M b] (init W) = Some s /\ s_ph s = Aborted.
Proof. intros H. cbn [exec step]. unfold master. cbn [s_ph init]. replace (S_ <? W) with true by (symmetry; apply Nat.ltb_lt; lia). eexists. split; reflexivity. Qed.
Example C30_too_many_case : 1 < 2 /\ exists s, exec 1 2 [M true] (init 2) = Some s /\ s_ph s = Aborted.
Proof. split; [lia|]. apply C30_too_many_workers. lia. Qed.

(** *** C31: curvature and ratio stay in their intervals *)
Theorem C31_history_partial dot nrm os h h' l : hrun dot nrm os h = Some (h', l) ->
  fle (h_amin h) (h_amax h) = true -> fle (h_rmin h) (h_rmax h) = true ->
  length l = length os /\ forall k o hk r, nth_error os k = Some o -> nth_error l k = Some (hk, r) ->
    (match o with OBB | OF _ | OTr => exists a, r = Some a /\ within (h_amin h) (h_amax h) a | _ => r = None end) /\
    (match o with ORatio0 | ORatio _ _ => within (h_rmin h) (h_rmax h) (h_ratio hk) | _ => True end) /\
    (within (h_rmin h) (h_rmax h) (h_ratio h) -> within (h_rmin h) (h_rmax h) (h_ratio hk)) /\
    (within (h_amin h) (h_amax h) (h_alpha h) -> within (h_amin h) (h_amax h) (h_alpha hk)).
Proof. intros H A B. apply (hrun_out dot nrm os h h' l H A B). Qed.
Definition ex_dot (a b : list b64) : b64 := fold_left (fun s p => fadd s (fmul (fst p) (snd p))) (combine a b) f_zero.
Definition ex_nrm (a : list b64) : b64 := SFsqrt 53 1024 (ex_dot a a).
Definition got_h (o : option (ha * list (ha * option b64))) : ha * list (ha * option b64) := match o with Some p => p | None => (ha_new 0 f_one, []) end.
Definition ex_ops := [OInit f_one [f_one] [f_two]; OF [f_two]; OUpdate [f_two] [S754_nan] f_half; ORatio f_one f_two; OF [S754_infinity false]; OTr; OBB].
Example C31_history_case : exists h' l, hrun ex_dot ex_nrm ex_ops (ha_new 1 f_one) = Some (h', l) /\
  fle (h_amin (ha_new 1 f_one)) (h_amax (ha_new 1 f_one)) = true /\ fle (h_rmin (ha_new 1 f_one)) (h_rmax (ha_new 1 f_one)) = true /\
  map snd l = [None; Some f_two; None; None; Some f_1e6; Some f_1e6; Some f_em5].
Proof.
  exists (fst (got_h (hrun ex_dot ex_nrm ex_ops (ha_new 1 f_one)))), (snd (got_h (hrun ex_dot ex_nrm ex_ops (ha_new 1 f_one)))).
  vm_compute. repeat split.
Qed.
(** the whole run, from the bounds that the constructor accepted *)
Theorem C31_run_partial dot nrm n ratio amin amax ps r b0 base cv :
  ctor_bounds amin amax = Some b0 ->
  passes dot nrm 0 ps (set_bounds (fst b0) (snd b0) (ha_new n ratio), base, cv) = Some r ->
  length r = length ps /\ forall k hk a, nth_error r k = Some (hk, a) ->
    within amin amax a /\ (1 <= k \/ within f_half f_five ratio -> within f_half f_five (h_ratio hk)).
Proof.
  intros C P. unfold ctor_bounds in C. destruct (fgt amax amin) eqn:E; [|discriminate]. injection C as <-. cbn [fst snd] in P.
  assert (LE : fle amin amax = true).
  { unfold fgt, flt in E. unfold fle. unfold SFltb, SFleb in *. destruct (SFcompare amin amax) as [[| |]|]; auto; discriminate. }
  destruct (passes_out dot nrm ps 0 _ base cv r P) as (L & Q); [exact LE|reflexivity|].
  split; [exact L|]. intros k hk a N. destruct (Q k hk a N) as (Q1 & Q2 & Q3 & Q4). cbn in Q1, Q3, Q4.
  split; [exact Q1|]. intros [K|K]; [apply Q3; lia|]. destruct k; [rewrite Q4 by reflexivity; exact K|apply Q3; lia].
Qed.
Definition ex_ps := [(f_one, f_two, [f_one], [f_two]); (f_half, f_two, [f_two], [f_one]); (f_quarter, f_one, [f_five], [S754_nan])].
Example C31_run_case : exists b0 r, ctor_bounds f_em5 f_1e6 = Some b0 /\
  passes ex_dot ex_nrm 0 ex_ps (set_bounds (fst b0) (snd b0) (ha_new 1 f_one), f_one, f_1e20) = Some r /\ length r = 3.
Proof. eexists. eexists. split; [vm_compute; reflexivity|]. split; [vm_compute; reflexivity|reflexivity]. Qed.
(** an initial ratio that set_initial_alpha_ratio accepts (those in [0,10)) is used as it is in the first iteration *)
Theorem C31_ratio_refuted : (forall a b, set_initial_ratio a = Some b <-> b = a /\ fle f_zero a = true /\ flt a (fofZ 10) = true) /\
  exists dot nrm n ratio ps r hk a,
  set_initial_ratio ratio = Some ratio /\
  passes dot nrm 0 ps (set_bounds f_em5 f_1e6 (ha_new n ratio), f_one, f_1e20) = Some r /\ nth_error r 0 = Some (hk, a) /\
  ~ within f_half f_five (h_ratio hk).
Proof.
  split.
  { intros a b. unfold set_initial_ratio. change (fge a f_zero) with (fle f_zero a).
    destruct (fle f_zero a), (flt a (fofZ 10)); cbn [andb]; split; try discriminate; try (intros (_ & ? & ?); discriminate).
    - intro H. injection H as <-. auto.
    - intros (-> & _). reflexivity. }
  exists ex_dot, ex_nrm, 1, (fofZ 7), [(f_one, f_two, [f_one], [f_two])]. eexists. eexists. eexists.
  split; [vm_compute; reflexivity|]. split; [vm_compute; reflexivity|]. split; [reflexivity|]. intros (_ & H). vm_compute in H. discriminate.
Qed.
(** set_alpha_min and set_alpha_max after construction are not checked: the curvature can be below alpha_min *)
Theorem C31_bounds_refuted : exists dot nrm n amin amax ps r hk a,
  passes dot nrm 0 ps (set_bounds amin amax (ha_new n f_one), f_one, f_1e20) = Some r /\ nth_error r 0 = Some (hk, a) /\
  is_nan amin = false /\ is_nan amax = false /\ flt a amin = true.
Proof.
  exists ex_dot, ex_nrm, 1, f_1e6, f_one, [(f_one, f_two, [f_one], [f_two])]. eexists. eexists. eexists.
  split; [vm_compute; reflexivity|]. split; [reflexivity|]. vm_compute. auto.
Qed.

(** *** C52: when the outer loop ends *)
Theorem C52_stops_first tol at_ mx A cs : 1 <= A -> 1 <= mx -> mx <= length cs ->
  exists k, outer tol at_ mx A 0 0 cs = Some (S k) /\ stop_at tol at_ mx A cs k /\ forall j, j < k -> ~ stop_at tol at_ mx A cs j.
Proof.
  intros HA HM L. destruct (outer_spec tol at_ mx A HA cs [] 0) as (k & K1 & K2 & K3 & K4); cbn; auto; try lia.
  - unfold cnt. cbn. repeat split; intros; lia.
  - exists k. split; [exact K1|]. split; [exact K3|]. intros j J. apply K4; cbn; lia.
Qed.
Example C52_case : 1 <= 2 /\ 1 <= 5 /\ 5 <= length [f_one; f_em5; S754_nan; f_em5; f_em5] /\
  outer S754_nan f_em5 5 2 0 0 [f_one; f_em5; S754_nan; f_em5; f_em5] = Some 5 /\
  outer f_quarter f_em5 5 2 0 0 [f_one; f_em5; S754_nan; f_em5; f_em5] = Some 2.
Proof. cbn [length]. repeat split; lia. Qed.
(** what is reported does not tell whether the tolerance was met: without ranks, and on every rank but the
    master's, it is always success *)
Theorem C52_status_refuted : exists tol at_ mx A cs n c,
  1 <= A /\ 1 <= mx /\ outer tol at_ mx A 0 0 cs = Some n /\ nth_error cs (n - 1) = Some c /\ flt c tol = false /\ fle c at_ = false /\
  (forall m, reported false m = Solve_Success) /\ (forall d, reported d false = Solve_Success).
Proof. exists f_em5, f_em5, 2, 25, [f_one; f_two], 2, f_two. repeat split; try lia. intros [|]; reflexivity. Qed.

Print Assumptions C30_exactly_once.
Print Assumptions C30_always.
Print Assumptions C30_all_stopped.
Print Assumptions C30_can_finish.
Print Assumptions C30_work_bound.
Print Assumptions C30_sum.
Print Assumptions C30_too_many_workers.
Print Assumptions C31_history_partial.
Print Assumptions C31_run_partial.
Print Assumptions C31_ratio_refuted.
Print Assumptions C31_bounds_refuted.
Print Assumptions C52_stops_first.
Print Assumptions C52_status_refuted.
