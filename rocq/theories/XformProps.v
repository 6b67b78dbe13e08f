(** C18, C19: removal of fixed variables and relaxation of bounds. *)
From Flocq Require Import Core BinarySingleNaN.
From Coq Require Import List Bool Arith ZArith Lia.
From Verif Require Import FloatBase FloatFacts FloatBridge MuModel PackSpec PackProofs NlpModel NlpSpec NlpProofs RegSpec RegProofs RegProofs3
  XformModel XformSpec XformProofs XformProofs2 RelaxProofs.
Import ListNotations.

(** C18: for every sequence of evaluation requests in which [new_x = false] is only passed when the
    point is unchanged, the user's callbacks are called at the full-length point that holds the
    fixed values and the solver's components in order, and the solver receives the matching
    subvector and columns.  What is missing of the full claim: the set-up must have succeeded
    (see [C18_setup_refuted]) and the one-call Jacobian is not covered. *)
Theorem C18_evaluations_partial tol xs buf R uf ugrad ujac ustart qs :
  mk_remover tol xs (b_fix (process_bounds tol xs)) buf = Some R ->
  (forall p, length p = length xs -> length (ugrad p) = length xs) ->
  (forall m p, length p = length xs -> length (ujac m p) = m * length xs) ->
  length ustart = length xs ->
  forall nfree, free_in tol xs nfree -> well_flagged nfree None qs ->
  exists mask answers, keeps tol xs mask /\ marks mask = nfree /\
    eval_seq uf ugrad ujac ustart R qs = Some answers /\
    Forall2 (good_answer uf ugrad ujac ustart mask (map fst xs)) qs answers.
Proof.
  intros HR HG HJ HS nfree HF W. destruct (mk_remover_spec _ _ _ _ HR) as [-> HM].
  assert (LM : length (mask_of tol xs) = length xs) by apply map_length.
  assert (EN : marks (mask_of tol xs) = nfree).
  { pose proof (counts_fun _ _ _ _ HF (free_count tol xs)). lia. }
  exists (mask_of tol xs). rewrite <- EN in W.
  destruct (seq_spec uf ugrad ujac ustart (mask_of tol xs) (map fst xs) (length (filter (fixp tol) xs))) with (qs := qs) (buf := buf) (prev := @None (list b64))
    as (l & L1 & L2).
  - rewrite LM. exact HM.
  - rewrite LM. apply map_length.
  - rewrite LM. exact HG.
  - rewrite LM. exact HJ.
  - rewrite LM. exact HS.
  - discriminate.
  - exact W.
  - exists l. split; [apply mask_keeps; auto|]. auto.
Qed.
Print Assumptions C18_evaluations_partial.
(** x1 fixed at 5; the user's f is the first component plus twice the second (x1) *)
Definition xf : list (b64 * b64) := [(fofZ 0, fofZ 9); (fofZ 5, fofZ 5); (fofZ (-1), fofZ 9)].
Definition uf1 (p : list b64) : b64 := match p with [a; b; c] => fadd a (fadd b b) | _ => f_zero end.
Definition ug1 (p : list b64) : list b64 := match p with [a; b; c] => [fofZ 1; fofZ 2; c] | _ => [] end.
Example C18_evaluations_case : exists R,
  mk_remover f_zero xf (b_fix (process_bounds f_zero xf)) [] = Some R /\
  free_in f_zero xf 2 /\
  well_flagged 2 None [EvalObj [fofZ 3; fofZ 4] true; EvalGrad [fofZ 3; fofZ 4] false [fofZ 0; fofZ 0]] /\
  eval_seq uf1 ug1 (fun _ _ => []) [] R [EvalObj [fofZ 3; fofZ 4] true; EvalGrad [fofZ 3; fofZ 4] false [fofZ 0; fofZ 0]]
   = Some [ObjAt [fofZ 3; fofZ 5; fofZ 4] (fofZ 13); GradAt [fofZ 3; fofZ 5; fofZ 4] [fofZ 1; fofZ 4]].
Proof.
  eexists. split; [vm_compute; reflexivity|]. split.
  { unfold free_in, xf, fixed_pair. apply counts_yes; [intros [_ H]; vm_compute in H; discriminate|].
    apply counts_no; [intro H; apply H; split; reflexivity|]. apply counts_yes; [intros [_ H]; vm_compute in H; discriminate|]. apply counts_nil. }
  split.
  { cbn. repeat (split; [reflexivity || (intro; reflexivity) || discriminate|]). exact I. }
  vm_compute. reflexivity.
Qed.

(** the set-up succeeds exactly when every pair of bounds within tolerance has an upper bound that
    counts as finite, in particular whenever no bound is +infinity and the lower bounds are below 1e20 *)
Theorem C18_setup tol xs buf :
  (exists R, mk_remover tol xs (b_fix (process_bounds tol xs)) buf = Some R) <->
  (forall l u, In (l, u) xs -> fle (fabs (fsub l u)) (fmul tol (fmax f_one (fabs u))) = true -> finite_upp u).
Proof.
  assert (G : mk_remover tol xs (b_fix (process_bounds tol xs)) buf =
    (if marks (mask_of tol xs) + length (filter (fixp tol) xs) =? length xs
     then Some (Remover (ranks 0 (mask_of tol xs)) (map fst xs) (length (filter (fixp tol) xs)) buf) else None)).
  { unfold mk_remover, process_bounds. rewrite bounds_loop, map_loop_spec. cbn [b_fix bnds0]. rewrite !Nat.add_0_l. reflexivity. }
  rewrite G. split.
  - intros [R H] l u Hin HC. destruct (_ =? _) eqn:E; [|discriminate]. apply Nat.eqb_eq in E.
    pose proof (agree tol xs E (l, u) Hin) as A. unfold fixp in A. cbn [fst snd] in A. unfold close_bnds in A.
    rewrite HC in A. rewrite andb_true_r in A. symmetry in A. exact A.
  - intro H. replace (_ =? _) with true; [eauto|]. symmetry. apply Nat.eqb_eq.
    clear G. induction xs as [|[l u] xs IH]; [reflexivity|].
    assert (IH' := IH (fun l u Hin => H l u (or_intror Hin))). specialize (H l u (or_introl eq_refl)).
    unfold mask_of in *. cbn [map filter]. unfold fixp at 1. cbn [fst snd]. unfold close_bnds at 1.
    fold (close_bnds tol l u). unfold close_bnds in *.
    destruct (fle (fabs (fsub l u)) (fmul tol (fmax f_one (fabs u)))) eqn:C.
    + specialize (H eq_refl). unfold finite_upp in H. unfold has_upp at 1. rewrite H. simpl in *. lia.
    + rewrite andb_false_r. simpl in *. lia.
Qed.
Print Assumptions C18_setup.
Example C18_setup_case : (forall l u, In (l, u) xf -> fle (fabs (fsub l u)) (fmul f_zero (fmax f_one (fabs u))) = true -> finite_upp u).
Proof. intros l u [H|[H|[H|[]]]] _; injection H as <- <-; reflexivity. Qed.
(** a free variable whose upper bound is given as +infinity is taken for a fixed one: next to any
    fixed variable the set-up fails its assertion *)
Theorem C18_setup_refuted : exists tol xs, fle tol (fofZ 1) = true /\ 0 < b_fix (process_bounds tol xs) /\
  (forall l u, In (l, u) xs -> fle l u = true) /\
  forall buf, mk_remover tol xs (b_fix (process_bounds tol xs)) buf = None.
Proof.
  exists (fdiv f_one (fofZ 1024)), [(fofZ 1, fofZ 1); (fofZ 0, S754_infinity false)].
  split; [reflexivity|]. split; [vm_compute; lia|]. split.
  { intros l u [H|[H|[]]]; injection H as <- <-; reflexivity. }
  intro buf. vm_compute. reflexivity.
Qed.
Print Assumptions C18_setup_refuted.

(** C18: expanding and reducing are inverse to each other: the reduced point of the expanded point is
    the point, and a full point that holds the fixed values is the expansion of its reduction *)
Theorem C18_reduce_after_expand tol xs buf R x junk nfree :
  mk_remover tol xs (b_fix (process_bounds tol xs)) buf = Some R ->
  free_in tol xs nfree -> length x = nfree -> length junk = nfree ->
  exists p, expand (r_map R) (r_xl R) x = Some p /\ length p = length xs /\ reduce (r_map R) p junk = Some x.
Proof.
  intros HR HF Hx Hj. destruct (mk_remover_spec _ _ _ _ HR) as [-> HM]. cbn [r_map r_xl].
  assert (LM : length (mask_of tol xs) = length xs) by apply map_length.
  assert (EN : marks (mask_of tol xs) = nfree).
  { pose proof (counts_fun _ _ _ _ HF (free_count tol xs)). lia. }
  destruct (full_expand (map fst xs) (mask_of tol xs) (map fst xs) _ (eq_trans HM (eq_sym LM)) (eq_trans (map_length _ _) (eq_sym LM)) (eq_trans (map_length _ _) (eq_sym LM))) with (x := x) as (p & P1 & P2 & P3 & P4); try (rewrite ?map_length; lia).
  exists p. split; auto. split; [lia|]. rewrite reduce_spec; [|auto|lia]. rewrite P3. reflexivity.
Qed.
Print Assumptions C18_reduce_after_expand.
Theorem C18_expand_after_reduce tol xs buf R p junk nfree :
  mk_remover tol xs (b_fix (process_bounds tol xs)) buf = Some R ->
  free_in tol xs nfree -> length junk = nfree -> length p = length xs ->
  (forall i l u, nth_error xs i = Some (l, u) -> fixed_pair tol l u -> nth_error p i = Some l) ->
  exists x, reduce (r_map R) p junk = Some x /\ expand (r_map R) (r_xl R) x = Some p.
Proof.
  intros HR HF Hj Hp HV. destruct (mk_remover_spec _ _ _ _ HR) as [-> HM]. cbn [r_map r_xl].
  assert (LM : length (mask_of tol xs) = length xs) by apply map_length.
  assert (EN : marks (mask_of tol xs) = nfree).
  { pose proof (counts_fun _ _ _ _ HF (free_count tol xs)). lia. }
  exists (picked p (mask_of tol xs)). split; [apply reduce_spec; lia|].
  destruct (full_expand (map fst xs) (mask_of tol xs) (map fst xs) _ (eq_trans HM (eq_sym LM)) (eq_trans (map_length _ _) (eq_sym LM)) (eq_trans (map_length _ _) (eq_sym LM))) with (x := picked p (mask_of tol xs)) as (p' & P1 & P2 & P3 & P4); try (rewrite ?map_length; lia).
  { apply picked_len; lia. }
  rewrite P1. f_equal. apply (picked_expand_unique (mask_of tol xs)); try lia; auto.
  rewrite P4. destruct (mask_keeps tol xs HM) as [_ K].
  clear - HV K LM Hp. revert p Hp HV. set (mk := mask_of tol xs) in *. clearbody mk. revert mk LM K.
  induction xs as [|[l u] xs IH]; intros [|b mk] LM K [|v p] Hp HV; try discriminate; [reflexivity|].
  cbn [map fst]. pose proof (K 0 l u eq_refl) as K0. cbn in K0.
  assert (IHs : picked (map fst xs) (map negb mk) = picked p (map negb mk)).
  { apply IH; [simpl in LM; lia|intros i; exact (K (S i))|simpl in Hp; lia|intros i; exact (HV (S i))]. }
  destruct b; cbn [map negb picked]; [exact IHs|].
  f_equal; [|exact IHs]. assert (FP : fixed_pair tol l u) by (apply K0; reflexivity).
  pose proof (HV 0 l u eq_refl FP) as E. cbn in E. congruence.
Qed.
Print Assumptions C18_expand_after_reduce.
Example C18_reduce_case : exists R, mk_remover f_zero xf (b_fix (process_bounds f_zero xf)) [] = Some R /\
  expand (r_map R) (r_xl R) [fofZ 3; fofZ 4] = Some [fofZ 3; fofZ 5; fofZ 4] /\
  reduce (r_map R) [fofZ 3; fofZ 5; fofZ 4] [fofZ 0; fofZ 0] = Some [fofZ 3; fofZ 4].
Proof. eexists. split; [vm_compute; reflexivity|]. vm_compute. auto. Qed.

(** C18: the distribution of the reduced variables over the ranks: rank [r] starts after the unfixed
    variables of the ranks before it *)
Theorem C18_distribution tol (rks : list (list (b64 * b64))) fs :
  length fs = S (length rks) ->
  (forall r, r <= length rks -> nth_error fs r = Some (Z.of_nat (length (concat (firstn r rks))))) ->
  exists d, rs_distrib fs (map (fun xs => Z.of_nat (b_fix (process_bounds tol xs))) rks) = Some d /\
    length d = length fs /\
    forall r, r <= length rks -> exists n, nth_error d r = Some (Z.of_nat n) /\ free_in tol (concat (firstn r rks)) n.
Proof. apply distrib_spec. Qed.
Print Assumptions C18_distribution.
Example C18_distribution_case : rs_distrib [0; 3; 3; 6]%Z (map (fun xs => Z.of_nat (b_fix (process_bounds f_zero xs))) [xf; []; xf]) = Some [0; 2; 2; 4]%Z.
Proof. vm_compute. reflexivity. Qed.

(** C19: relaxing fixed variables: the new interval contains the old one *)
Theorem C19_fixed_contains tol pert l u : posfin pert ->
  vb l = true -> vb u = true -> is_nan l = false -> is_nan u = false ->
  l <> S754_infinity false -> u <> S754_infinity true ->
  contains (fixed_relax1 tol pert (l, u)) (l, u).
Proof. intros. apply fixed_relax_contains; auto. unfold sane. tauto. Qed.
Print Assumptions C19_fixed_contains.
(** and, for the option ranges (tolerance at most 1, perturbation at least 2^-50), strictly for every
    variable with finite bounds that counts as fixed *)
Theorem C19_fixed_strict tol pert l u : posfin tol -> fle tol f_one = true -> posfin pert -> fle f_em50 pert = true ->
  vb l = true -> vb u = true -> finite l = true -> fixed_pair tol l u -> u <> S754_infinity true ->
  contains_strictly (fixed_relax1 tol pert (l, u)) (l, u).
Proof.
  intros Pt Ht Pp Hp Vl Vu Fl [F1 F2] Iu.
  assert (Fu : finite u = true).
  { destruct u as [s|s| |s m e]; auto; try destruct s; try discriminate. congruence. }
  apply fixed_relax_strict; cbn [fst snd]; auto.
  - repeat split; cbn [fst snd]; auto; try (apply fin_nn; auto).
    + intros ->; discriminate.
  - rewrite <- F2. f_equal. apply fabs_sub_comm.
Qed.
Print Assumptions C19_fixed_strict.
(** the ranges of options fixed_var_tolerance and fixed_var_perturb: 1e-14 is above 2^-50 *)
Example C19_fixed_case :
  let pert := fdiv f_one (fofZ 100000000000000) in
  let tol := fdiv f_one (fofZ 1000000000000000) in
  posfin tol /\ fle tol f_one = true /\ posfin pert /\ fle f_em50 pert = true /\ fixed_pair tol (fofZ 5) (fofZ 5) /\
  contains_strictly (fixed_relax1 tol pert (fofZ 5, fofZ 5)) (fofZ 5, fofZ 5).
Proof. vm_compute. repeat split. Qed.
(** a variable that is not fixed but has an infinite upper bound loses its lower bound *)
Theorem C19_fixed_only_refuted : exists tol pert l u, posfin tol /\ fle tol f_one = true /\ posfin pert /\
  finite_low l /\ ~ fixed_pair tol l u /\ ~ finite_low (fst (fixed_relax1 tol pert (l, u))).
Proof.
  exists (fdiv f_one (fofZ 1024)), (fdiv f_one (fofZ 1024)), (fofZ 0), (S754_infinity false).
  split; [split; [reflexivity|exact I]|]. split; [reflexivity|]. split; [split; [reflexivity|exact I]|].
  split; [reflexivity|]. split; [intros [H _]; vm_compute in H; discriminate|]. intro H. vm_compute in H. discriminate.
Qed.
Print Assumptions C19_fixed_only_refuted.
(** apart from infinite bounds only fixed variables are touched *)
Theorem C19_fixed_only tol pert l u : fixed_relax1 tol pert (l, u) <> (l, u) -> finite_upp u -> fixed_pair tol l u.
Proof.
  intros H F. split; auto. unfold fixed_relax1 in H.
  rewrite fabs_sub_comm. destruct (fle (fabs (fsub u l)) (fmul tol (fmax f_one (fabs u)))); congruence.
Qed.
Print Assumptions C19_fixed_only.
Example C19_fixed_only_case : fixed_relax1 f_zero f_one (fofZ 5, fofZ 5) <> (fofZ 5, fofZ 5) /\ finite_upp (fofZ 5) /\
  fixed_relax1 f_zero f_one (fofZ 4, fofZ 5) = (fofZ 4, fofZ 5).
Proof. split; [discriminate|]. vm_compute. auto. Qed.

(** C19: bound relaxation: the new interval contains the old one *)
Theorem C19_bounds_contains p l u : posfin p ->
  vb l = true -> vb u = true -> is_nan l = false -> is_nan u = false ->
  l <> S754_infinity false -> u <> S754_infinity true ->
  contains (bounds_relax1 p (l, u)) (l, u).
Proof. intros. apply bounds_relax_contains; auto. unfold sane. tauto. Qed.
Print Assumptions C19_bounds_contains.
(** strictly for factors of at least 2^-52 *)
Theorem C19_bounds_strict_partial p l u : posfin p -> fle f_em52 p = true ->
  vb l = true -> vb u = true -> finite l = true -> finite u = true ->
  contains_strictly (bounds_relax1 p (l, u)) (l, u).
Proof.
  intros Pp Hp Vl Vu Fl Fu. assert (S : sane (l, u)).
  { repeat split; cbn [fst snd]; auto; try (apply fin_nn; auto); intros ->; discriminate. }
  destruct (bounds_relax_strict p (l, u) Pp Hp S). split; auto.
Qed.
Print Assumptions C19_bounds_strict_partial.
Example C19_bounds_case : let p := fdiv f_one (fofZ 100000000) in posfin p /\ fle f_em52 p = true /\
  contains_strictly (bounds_relax1 p (fofZ (-3), fofZ 12345)) (fofZ (-3), fofZ 12345).
Proof. vm_compute. repeat split. Qed.
(** a smaller positive factor, which the option accepts, leaves a fixed pair without interior *)
Theorem C19_bounds_strict_refuted : exists p l u, posfin p /\ fle p (fofZ 1) = true /\ finite l = true /\ finite u = true /\
  bounds_relax1 p (l, u) = (l, u) /\ fle u l = true.
Proof.
  exists (fdiv f_one (fofZ 100000000000000000000)), (fofZ 3), (fofZ 3). vm_compute. repeat split.
Qed.
Print Assumptions C19_bounds_strict_refuted.

(** C19: a bound the interface treats as absent stays absent *)
Theorem C19_absent_stays_absent p l u : posfin p ->
  vb l = true -> vb u = true -> is_nan l = false -> is_nan u = false ->
  l <> S754_infinity false -> u <> S754_infinity true ->
  (~ finite_low l -> ~ finite_low (fst (bounds_relax1 p (l, u)))) /\
  (~ finite_upp u -> ~ finite_upp (snd (bounds_relax1 p (l, u)))).
Proof.
  intros Pp Vl Vu Nl Nu Il Iu. destruct (C19_bounds_contains p l u Pp Vl Vu Nl Nu Il Iu) as [H1 H2]. cbn [fst snd] in *.
  unfold finite_low, finite_upp. split; intros H K; apply H.
  - eapply flt_fle_trans; eauto.
  - eapply fle_flt_trans; eauto.
Qed.
Print Assumptions C19_absent_stays_absent.
Example C19_absent_case : posfin f_one /\ ~ finite_low f_m1e20 /\ fst (bounds_relax1 f_one (f_m1e20, fofZ 0)) = fmul (fofZ 2) f_m1e20.
Proof. split; [split; [reflexivity|exact I]|]. split; [intro H; vm_compute in H; discriminate|]. vm_compute. reflexivity. Qed.

(** C19: after initialisation every variable the solver sees has an interval that contains the user's *)
Theorem C19_after_initialisation o tol pert brp xs buf v :
  finalize_bounds o tol pert brp xs buf = Some v ->
  posfin pert -> posfin brp \/ fgt brp f_zero = false ->
  (forall l u, In (l, u) xs -> vb l = true /\ vb u = true /\ is_nan l = false /\ is_nan u = false /\
     l <> S754_infinity false /\ u <> S754_infinity true) ->
  (forall l u, In (l, u) xs -> fixed_pair tol l u -> finite_low l) ->
  exists mask, length mask = length xs /\ (o <> FxRemove -> marks mask = length xs) /\
    Forall2 contains (v_xs v) (picked xs mask).
Proof.
  intros H Pp Pb HS HL. destruct (finalize_spec o tol pert brp xs buf v H) as (mask & M1 & (_ & M2) & _ & _ & _ & _ & _ & _ & f & F1 & F2).
  { intros [l u] Hin HF. apply lowp_ok. apply fixp_ok in HF. cbn [fst snd] in *. eauto. }
  exists mask. split; auto. split. { intro N. rewrite (M2 N). auto. }
  rewrite F2.
  assert (HI : forall e, In e (picked xs mask) -> In e xs).
  { clear. revert mask. induction xs as [|a xs IH]; intros [|b mask] e; cbn [picked]; try (intros []).
    destruct b; cbn [In]; intro H; [destruct H; [auto|right; eauto]|right; eauto]. }
  assert (G : forall e, In e (picked xs mask) -> contains (f e) e).
  { intros [l u] Hin. apply HI in Hin. destruct (HS l u Hin) as (V1 & V2 & N1 & N2 & I1 & I2).
    destruct (F1 (l, u)) as [E|[E|[EG E]]]; rewrite E.
    - split; apply fle_refl; auto.
    - apply C19_fixed_contains; auto.
    - destruct Pb as [Pb|Pb]; [|congruence]. apply C19_bounds_contains; auto. }
  clear - G. induction (picked xs mask) as [|e l IH]; cbn [map]; constructor.
  - apply G. left. reflexivity.
  - apply IH. intros e' H. apply G. right. exact H.
Qed.
Print Assumptions C19_after_initialisation.
Example C19_after_initialisation_case : exists v, finalize_bounds FxRelax f_zero f_one f_zero xf [] = Some v /\
  v_xs v = [(fofZ 0, fofZ 9); (fofZ 0, fofZ 10); (fofZ (-1), fofZ 9)] /\ posfin f_one /\ fgt f_zero f_zero = false /\
  (forall l u, In (l, u) xf -> fixed_pair f_zero l u -> finite_low l).
Proof.
  eexists. split; [vm_compute; reflexivity|]. split; [reflexivity|]. split; [split; [reflexivity|exact I]|]. split; [reflexivity|].
  intros l u [H|[H|[H|[]]]] _; injection H as <- <-; reflexivity.
Qed.

(** C19: the inequality-only formulation turns an equality into a two-sided constraint that strictly
    contains it *)
Theorem C19_ineq_only {k} rf (g : list (b64 * b64 * k)) i l u t :
  posfin rf -> fle f_em52 rf = true -> nth_error g i = Some (l, u, t) ->
  vb l = true -> vb u = true -> finite l = true -> finite u = true -> feq l u = true ->
  exists l' u', nth_error (s_dl (c_sp (fst (process_constraints_ineq rf g)))) i = Some l' /\
    nth_error (s_du (c_sp (fst (process_constraints_ineq rf g)))) i = Some u' /\
    contains_strictly (l', u') (l, u).
Proof.
  intros Pr Hr Hi Vl Vu Fl Fu E. unfold process_constraints_ineq. cbn [fst c_sp s_dl s_du].
  pose proof (map_nth_error (ineq_only1 rf) _ _ Hi) as H1.
  do 2 eexists. split; [exact (map_nth_error fst _ _ H1)|]. split; [exact (map_nth_error snd _ _ H1)|].
  apply ineq_relax_strict; auto.
Qed.
Print Assumptions C19_ineq_only.
(** eq_relax_factor's default is 1e-8 *)
Example C19_ineq_only_case : let rf := fdiv f_one (fofZ 100000000) in posfin rf /\ fle f_em52 rf = true /\
  feq (fofZ 7) (fofZ 7) = true /\
  contains_strictly (hd f_zero (s_dl (c_sp (fst (process_constraints_ineq rf [(fofZ 7, fofZ 7, 0)])))), hd f_zero (s_du (c_sp (fst (process_constraints_ineq rf [(fofZ 7, fofZ 7, 0)]))))) (fofZ 7, fofZ 7).
Proof. vm_compute. repeat split. Qed.
