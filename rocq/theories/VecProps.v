(** C08, C09, C10, C40: vector kernels of the interior point method. *)
From Coq Require Import List Bool QArith Qabs Qminmax ZArith Lqa.
From Verif Require Import FloatBase VecModel VecSpec VecProofs.
Import ListNotations.
Open Scope Q_scope.

(** C08: the kernel returns the largest step in (0,1] that keeps the fraction [1-tau] of every
    bounded entry; entries without bound do not matter *)
Theorem C08_kernel_largest_step : forall (x d ix : list Q) tau a,
  0 < tau -> tau < 1 -> interior x ix -> ftb_w_pattern Qar x d tau ix = Some a ->
  largest_in_unit (fun a => keeps_fraction tau a x d ix) a.
Proof. exact ftb_correct. Qed.
Print Assumptions C08_kernel_largest_step.

(** C08 on a communicator: both step lengths of the iterate, over all ranks and all eight
    sign-constrained vectors *)
Theorem C08_iterate_largest_step : forall (tau : Q) ranks ap ad,
  0 < tau -> tau < 1 ->
  (forall t, In t (flat_map prim_triples ranks ++ flat_map dual_triples ranks) -> t_interior t) ->
  ftb_all Qar (10 : Q) tau ranks = Some (ap, ad) ->
  largest_in_unit (fun a => forall t, In t (flat_map prim_triples ranks) -> t_keeps tau a t) ap /\
  largest_in_unit (fun a => forall t, In t (flat_map dual_triples ranks) -> t_keeps tau a t) ad.
Proof. exact ftb_all_correct. Qed.
Print Assumptions C08_iterate_largest_step.

(** the new point is strictly interior *)
Theorem C08_stays_interior : forall tau a x d ix,
  tau < 1 -> interior x ix -> keeps_fraction tau a x d ix ->
  forall i xi di pi, nth_error x i = Some xi -> nth_error d i = Some di -> nth_error ix i = Some pi ->
    ~ pi == 0 -> 0 < xi + a * di.
Proof.
  intros tau a x d ix Ht Hi Hk i xi di pi H1 H2 H3 Hp.
  specialize (Hi i xi pi H1 H3 Hp). specialize (Hk i xi di pi H1 H2 H3 Hp). nra.
Qed.
Print Assumptions C08_stays_interior.

(** the slacks the solver recomputes from the trial point keep the fraction too, when the slack
    direction is the one implied by the primal direction *)
Theorem C08_recomputed_slacks : forall tau a x dx b sel : Q,
  indicator sel ->
  let s := lower_slack1 Qar x b sel in let s' := lower_slack1 Qar (x + a * dx) b sel in
  let u := upper_slack1 Qar x b sel in let u' := upper_slack1 Qar (x + a * dx) b sel in
  ((1 - tau) * s <= s + a * dx -> sel == 1 -> (1 - tau) * s <= s') /\
  ((1 - tau) * u <= u + a * (- dx) -> sel == 1 -> (1 - tau) * u <= u') /\
  (sel == 0 -> s' == 0 /\ u' == 0).
Proof.
  intros tau a x dx b sel [Z|Z]; unfold lower_slack1, upper_slack1;
  cbn [Qar aeq azero aone aopp aadd amul]; cbv zeta.
  - rewrite (proj2 (Qeqb_true sel 0) Z). split; [intros; lra|split; [intros; lra|intros; split; reflexivity]].
  - assert (E : Qeq_bool sel 0 = false) by (apply Qeqb_false; lra). rewrite E.
    split; [intros; nra|split; [intros; nra|intros; lra]].
Qed.
Print Assumptions C08_recomputed_slacks.

Example C08_case : exists ap ad,
  ftb_all Qar (10 : Q) (99 # 100)
    [ (@Cone Qar [1; 2] [0; 1] [3] [0] [1; 1] [0; 1] [1] [0],
       @Cone Qar [-4; 1] [-7; -1] [-3] [0] [-2; 0] [-9; 1] [1] [0],
       @Pats Qar [1; 1] [0; 1] [1] [0]);
      (@Cone Qar [5] [0] [3] [0] [1 # 10] [0] [1] [0],
       @Cone Qar [-40] [1] [-3] [0] [-2] [3] [1] [0],
       @Pats Qar [1] [0] [1] [0]) ] = Some (ap, ad) /\ ap == 99 # 800 /\ ad == 99 # 2000.
Proof. vm_compute. eauto. Qed.

(** In binary64 the step can be exactly zero: positivity is lost to underflow *)
Theorem C08_binary64_zero_step_refuted :
  exists x d tau, flt f_zero x = true /\ flt f_zero tau = true /\ flt tau f_one = true /\
    is_nan d = false /\
    ftb_w_pattern Far [x] [d] tau [f_one] = Some f_zero.
Proof.
  exists (S754_finite false 1 (-1074)), (S754_finite true 4503599627370496 (-50)), (S754_finite false 8917127262193582 (-53)).
  vm_compute. repeat split; reflexivity.
Qed.
Print Assumptions C08_binary64_zero_step_refuted.

(** C09 *)
Theorem C09_duals_confined : forall (z x ix : list Q) (mu kappa : Q) (z' : list Q),
  0 < mu -> 1 <= kappa -> interior x ix -> adjust_duals Qar z x ix mu kappa = Some z' ->
  length z' = length z /\
  forall i zi xi pi zi', nth_error z i = Some zi -> nth_error x i = Some xi -> nth_error ix i = Some pi ->
    nth_error z' i = Some zi' ->
    (pi == 1 -> mu / kappa <= xi * zi' <= kappa * mu) /\
    (pi == 1 -> mu / kappa <= xi * zi <= kappa * mu -> zi' == zi) /\
    (pi == 0 -> zi' = zi).
Proof. exact duals_correct. Qed.
Print Assumptions C09_duals_confined.

Example C09_case : exists r, adjust_duals Qar [100; 1 # 1000; 2; 7] [1; 2; 1; 3] [1; 1; 1; 0] 1 10 = Some r /\
  Forall2 Qeq r [10; 1 # 20; 2; 7].
Proof. vm_compute. eexists; split; [reflexivity|]. repeat constructor. Qed.

(** C10 with the two conditions the exact claim needs: [kappa1] and the gap between the bounds
    are not below the tiny number 100*DBL_MIN the code subtracts *)
Theorem C10_projection_inside_partial : forall (k1 k2 : Q) (l : list bounded_var),
  Q_small < k1 -> 0 < k2 -> k2 < 1 # 2 ->
  (forall v, In v l -> has_lower v -> has_upper v -> lower v <= upper v ->
     Q_small < k2 * (upper v - lower v)) ->
  let '(xs, ok) := project_loop Qar k1 k2 (map to_bvar l) in
  length xs = length l /\
  (ok = false <-> exists v, In v l /\ inconsistent v) /\
  (ok = true -> Forall2 (fun v y => strictly_inside v y /\
                   (~ has_lower v -> ~ has_upper v -> y = start v) /\
                   (well_inside k1 Q_small v -> y == start v)) l xs).
Proof. exact project_correct. Qed.
Print Assumptions C10_projection_inside_partial.

Example C10_case :
  let '(xs, ok) := project_loop Qar (1 # 100) (1 # 100)
     (map to_bvar [(0, (1, 1), (2, 1)); (0, (5, 1), (0, 0)); (9, (0, 0), (3, 1));
                   (3 # 2, (1, 1), (2, 1)); (4, (0, 0), (0, 0))]) in
  ok = true /\ Qle_bool 1 (nth 0 xs 0) = true /\ nth 3 xs 0 == 3 # 2 /\ nth 4 xs 0 == 4 /\
  Qle_bool (nth 2 xs 0) 3 = true.
Proof. vm_compute. repeat split; reflexivity. Qed.

(** equal bounds: success is reported and the point is outside *)
Theorem C10_equal_bounds_refuted : exists x b k1 k2,
  Q_small < k1 /\ 0 < k2 /\ k2 < 1 # 2 /\
  match project_loop Qar k1 k2 [@Bvar Qar x b 1 b 1] with
  | ([y], ok) => ok = true /\ y < b
  | _ => False
  end.
Proof.
  exists 0, 1, (1 # 100), (1 # 100). repeat split.
Qed.
Print Assumptions C10_equal_bounds_refuted.

(** in binary64 the projected point can sit on the bound although lower < upper *)
Theorem C10_binary64_on_bound_refuted : exists x xl xu k1 k2,
  flt xl xu = true /\ flt f_zero k1 = true /\ flt f_zero k2 = true /\
  project_loop Far k1 k2 [@Bvar Far x xl f_one xu f_one] = ([xl], true).
Proof.
  exists f_zero, f_one, (S754_finite false 4503599627370497 (-52)),
         (S754_finite false 5764607523034235 (-59)), (S754_finite false 5764607523034235 (-59)).
  vm_compute. repeat split; reflexivity.
Qed.
Print Assumptions C10_binary64_on_bound_refuted.

(** C40 *)
Theorem C40_slacks_move_up_within_limits_partial : forall (eps sf mu : Q) (ranks : list (list slack_data)),
  0 < eps -> 0 < sf -> 0 < mu -> (forall r, In r ranks -> Forall slack_wf r) ->
  Forall2 (Forall2 (slack_moved (eps * Qmin 1 mu) sf mu)) ranks
          (fst (adjust_small_all Qar eps sf mu (map (map to_slk) ranks))).
Proof. exact adjust_all_correct. Qed.
Print Assumptions C40_slacks_move_up_within_limits_partial.

(** the returned number counts exactly the slacks that were too small, over all ranks *)
Theorem C40_count : forall (eps sf mu : Q) (ranks : list (list slack_data)),
  0 < eps -> 0 < sf -> 0 < mu -> (forall r, In r ranks -> Forall slack_wf r) ->
  snd (adjust_small_all Qar eps sf mu (map (map to_slk) ranks)) =
  length (filter (is_small (eps * Qmin 1 mu)) (concat ranks)).
Proof. exact adjust_all_count. Qed.
Print Assumptions C40_count.

(** the bound is moved to match the new slack, by the same amount, and unbounded entries keep theirs *)
Theorem C40_bound_follows_slack : forall x b s' sel : Q, indicator sel ->
  let bl := adjust_lower1 Qar b x s' sel in let bu := adjust_upper1 Qar b x s' sel in
  (sel == 1 -> lower_slack1 Qar x bl sel == s' /\ b - bl == s' - lower_slack1 Qar x b sel /\
               upper_slack1 Qar x bu sel == s' /\ bu - b == s' - upper_slack1 Qar x b sel) /\
  (sel == 0 -> bl = b /\ bu = b).
Proof.
  intros x b s' sel [Z|Z]; unfold lower_slack1, upper_slack1, adjust_lower1, adjust_upper1;
  cbn [Qar aeq azero aone aopp aadd amul]; cbv zeta.
  - assert (E : Qeq_bool sel 1 = false) by (apply Qeqb_false; lra). rewrite E.
    split; [intros; lra|auto].
  - assert (E : Qeq_bool sel 0 = false) by (apply Qeqb_false; lra).
    rewrite E, (proj2 (Qeqb_true sel 1) Z).
    split; [intros _; split; [ring|split; [ring|split; ring]]|intros; lra].
Qed.
Print Assumptions C40_bound_follows_slack.

Example C40_case :
  let r := adjust_small_all Qar (1 # 2 ^ 52) (1 # 2 ^ 39) (1 # 100)
     [ [@Slk Qar 0 3 1 1; @Slk Qar 1 3 1 1]; [@Slk Qar 0 3 1 0; @Slk Qar 0 0 (1 # 2) 1] ] in
  snd r = 2%nat /\
  Forall2 (Forall2 Qeq) (fst r) [[3 # 2 ^ 39; 1]; [0; 1 # 2 ^ 39]].
Proof. vm_compute. split; [reflexivity|]. repeat constructor. Qed.
