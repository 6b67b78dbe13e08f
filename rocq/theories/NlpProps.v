(** C16, C17: splitting the constraints and classifying the bounds. *)
From Coq Require Import List Bool Arith ZArith Lia Permutation.
From Verif Require Import FloatBase MuModel PackModel PackSpec PackProofs NlpModel NlpSpec NlpProofs XformModel XformSpec XformProofs XformProofs2.
Import ListNotations.

(** C16: every constraint list is split; each constraint goes to exactly one block, to the equality
    block iff its bounds coincide, in the user's order, with its own right-hand side / bounds / tag *)
Theorem C16_split {k} (g : list (b64 * b64 * k)) :
  exists r, process_constraints g = Some r /\
    complementary (s_eqm (c_sp r)) (s_inm (c_sp r)) (length g) /\
    increasing (s_eqm (c_sp r)) /\ increasing (s_inm (c_sp r)) /\
    (forall i, In i (s_eqm (c_sp r)) <-> is_equality g i) /\
    c_neq r = length (s_eqm (c_sp r)) /\ c_nin r = length (s_inm (c_sp r)) /\
    follows g (s_eqm (c_sp r)) (fun e => fst (fst e)) (s_rhs (c_sp r)) /\
    follows g (s_eqm (c_sp r)) snd (s_eqt (c_sp r)) /\
    follows g (s_inm (c_sp r)) (fun e => fst (fst e)) (s_dl (c_sp r)) /\
    follows g (s_inm (c_sp r)) (fun e => snd (fst e)) (s_du (c_sp r)) /\
    follows g (s_inm (c_sp r)) snd (s_int (c_sp r)).
Proof.
  rewrite process_spec. eexists. split; [reflexivity|]. cbn [c_sp c_neq c_nin s_rhs s_eqt s_eqm s_dl s_du s_int s_inm].
  rewrite <- !filt_t, <- !filt_f.
  split; [exact (pos_compl g 0)|]. split; [apply pos_incr|]. split; [apply pos_incr|]. split.
  { intro i. rewrite pos_in, Nat.sub_0_r. split.
    - intros ([[l u] t] & _ & H1 & H2). exists l, u, t. auto.
    - intros (l & u & t & H1 & H2). exists (l, u, t). split; [lia|auto]. }
  rewrite !pos_len. split; [reflexivity|]. split; [reflexivity|].
  split; [apply (pos_follows true lo g g 0); intro; rewrite Nat.add_0_l; reflexivity|].
  split; [apply (pos_follows true snd g g 0); intro; rewrite Nat.add_0_l; reflexivity|].
  split; [apply (pos_follows false lo g g 0); intro; rewrite Nat.add_0_l; reflexivity|].
  split; [apply (pos_follows false up g g 0); intro; rewrite Nat.add_0_l; reflexivity|].
  apply (pos_follows false snd g g 0); intro; rewrite Nat.add_0_l; reflexivity.
Qed.
Print Assumptions C16_split.
(** three constraints: an equality, an inequality and an equality again *)
Definition g3 : list (b64 * b64 * nat) := [(fofZ 2, fofZ 2, 10); (fofZ 0, fofZ 5, 11); (fofZ 7, fofZ 7, 12)].
Example C16_split_case : exists r, process_constraints g3 = Some r /\ s_eqm (c_sp r) = [0; 2] /\ s_inm (c_sp r) = [1] /\
  s_rhs (c_sp r) = [fofZ 2; fofZ 7] /\ s_du (c_sp r) = [fofZ 5] /\ s_eqt (c_sp r) = [10; 12].
Proof. eexists. split; [vm_compute; reflexivity|]. repeat split. Qed.

(** C16: through the stored maps, splitting the user's vector into blocks and merging them gives
    the vector back, and merging blocks and splitting gives the blocks back; [buf]s are whatever the
    receiving vectors held before *)
Theorem C16_recombine {k A} (g : list (b64 * b64 * k)) (v bufc bufd bufv : list A) r :
  process_constraints g = Some r -> length v = length g ->
  length bufc = c_neq r -> length bufd = c_nin r -> length bufv = length g ->
  exists c d, PackModel.split v bufc (s_eqm (c_sp r)) bufd (s_inm (c_sp r)) = Some (c, d) /\
    length c = c_neq r /\ length d = c_nin r /\
    (forall j i, nth_error (s_eqm (c_sp r)) j = Some i -> nth_error c j = nth_error v i) /\
    (forall j i, nth_error (s_inm (c_sp r)) j = Some i -> nth_error d j = nth_error v i) /\
    merge bufv c (s_eqm (c_sp r)) d (s_inm (c_sp r)) = Some v.
Proof.
  intros HP Hv Hc Hd Hb. destruct (C16_split g) as (r' & E & CP & _ & _ & _ & N1 & N2 & _).
  assert (r' = r) by congruence. subst r'. clear E.
  rewrite <- Hv in CP. destruct (compl_facts _ _ _ CP) as (_ & _ & B1 & B2 & _ & _ & LN).
  assert (G : forall idx : list nat, (forall i, In i idx -> i < length v) -> exists l, gather v idx = Some l).
  { induction idx as [|i idx IH]; intro H; [exists []; reflexivity|]. cbn [gather].
    destruct (nth_error v i) eqn:Ei; [|apply nth_error_None in Ei; specialize (H i (or_introl eq_refl)); lia].
    destruct IH as [l Hl]; [intros; apply H; right; auto|]. rewrite Hl. eauto. }
  destruct (G _ B1) as [c Gc]. destruct (G _ B2) as [d Gd].
  assert (S : PackModel.split v bufc (s_eqm (c_sp r)) bufd (s_inm (c_sp r)) = Some (c, d)).
  { unfold PackModel.split. rewrite Hc, Hd, N1, N2, !Nat.eqb_refl, LN, Nat.eqb_refl, Gc, Gd. reflexivity. }
  exists c, d. split; auto.
  apply gather_spec in Gc as [L1 M1]. apply gather_spec in Gd as [L2 M2].
  split; [lia|]. split; [lia|]. split; [|split].
  - intros j i H. destruct (M1 j i H) as (a & A1 & A2). congruence.
  - intros j i H. destruct (M2 j i H) as (a & A1 & A2). congruence.
  - apply (merge_split A v bufc bufd c d bufv _ _ CP); try lia. exact S.
Qed.
Print Assumptions C16_recombine.
Theorem C16_recombine_back {k A} (g : list (b64 * b64 * k)) (c d bufc bufd bufv : list A) r :
  process_constraints g = Some r -> length c = c_neq r -> length d = c_nin r ->
  length bufc = c_neq r -> length bufd = c_nin r -> length bufv = length g ->
  exists v, merge bufv c (s_eqm (c_sp r)) d (s_inm (c_sp r)) = Some v /\ length v = length g /\
    PackModel.split v bufc (s_eqm (c_sp r)) bufd (s_inm (c_sp r)) = Some (c, d).
Proof.
  intros HP Hc Hd Hbc Hbd Hb. destruct (C16_split g) as (r' & E & CP & _ & _ & _ & N1 & N2 & _).
  assert (r' = r) by congruence. subst r'. clear E. rewrite <- Hb in CP.
  destruct (merge_spec A bufv c d _ _ CP) as (v & V1 & V2 & _); try lia.
  exists v. split; auto. split; [lia|]. apply (split_merge A bufv c d bufc bufd _ _ v CP); try lia. exact V1.
Qed.
Print Assumptions C16_recombine_back.
Example C16_recombine_case : exists r, process_constraints g3 = Some r /\
  PackModel.split [100; 200; 300] [0; 0] (s_eqm (c_sp r)) [0] (s_inm (c_sp r)) = Some ([100; 300], [200]) /\
  merge [0; 0; 0] [100; 300] (s_eqm (c_sp r)) [200] (s_inm (c_sp r)) = Some [100; 200; 300].
Proof. eexists. split; [vm_compute; reflexivity|]. vm_compute. auto. Qed.

(** C16 for the inequality-only formulation: nothing is dropped or reordered, constraints with
    different bounds keep them *)
Theorem C16_ineq_only {k} (rf : b64) (g : list (b64 * b64 * k)) :
  let r := process_constraints_ineq rf g in
  c_neq (fst r) = 0 /\ c_nin (fst r) = length g /\ s_eqm (c_sp (fst r)) = [] /\
  s_inm (c_sp (fst r)) = seq 0 (length g) /\
  (forall i l u t, nth_error g i = Some (l, u, t) ->
     nth_error (s_int (c_sp (fst r))) i = Some t /\
     (feq l u = false -> nth_error (s_dl (c_sp (fst r))) i = Some l /\ nth_error (s_du (c_sp (fst r))) i = Some u)) /\
  counts (fun e => feq (fst (fst e)) (snd (fst e)) = true) g (snd r).
Proof.
  cbn zeta. unfold process_constraints_ineq. cbn [fst snd c_neq c_nin c_sp s_eqm s_inm s_int s_dl s_du].
  do 4 (split; [reflexivity|]). split.
  - intros i l u t H. split; [exact (map_nth_error snd _ _ H)|]. intro E.
    pose proof (map_nth_error (ineq_only1 rf) _ _ H) as H1. unfold ineq_only1 at 2 in H1. rewrite E in H1.
    split; [exact (map_nth_error fst _ _ H1)|exact (map_nth_error snd _ _ H1)].
  - apply counts_filter. intros [[l u] t]. reflexivity.
Qed.
Print Assumptions C16_ineq_only.
Example C16_ineq_only_case : snd (process_constraints_ineq f_zero g3) = 2 /\
  nth_error (s_du (c_sp (fst (process_constraints_ineq f_zero g3)))) 1 = Some (fofZ 5).
Proof. vm_compute. auto. Qed.

(** C17: the indicator vectors and the four counters of one rank's variables *)
Theorem C17_variables tol xs :
  let s := process_bounds tol xs in
  marks_exactly (fun e => finite_low (fst e)) xs (b_ixl s) /\
  marks_exactly (fun e => finite_upp (snd e)) xs (b_ixu s) /\
  counts (fun e => finite_low (fst e)) xs (b_low s) /\
  counts (fun e => finite_upp (snd e)) xs (b_upp s) /\
  counts (fun e => finite_low (fst e) /\ finite_upp (snd e)) xs (b_lu s) /\
  counts (fun e => fixed_pair tol (fst e) (snd e)) xs (b_fix s).
Proof.
  cbn zeta. unfold process_bounds. rewrite bounds_loop. cbn [b_ixl b_ixu b_low b_upp b_lu b_fix bnds0 app]. rewrite !Nat.add_0_l.
  split; [apply (marks_map _ lowp); apply lowp_ok|]. split; [apply (marks_map _ uppp); apply uppp_ok|].
  split; [apply counts_filter; apply lowp_ok|]. split; [apply counts_filter; apply uppp_ok|].
  split; [apply (counts_filter _ (fun e => lowp e && uppp e)); apply lup_ok|]. apply counts_filter, fixp_ok.
Qed.
Print Assumptions C17_variables.
Definition xs4 : list (b64 * b64) := [(fofZ 0, f_1e20); (fofZ 1, fofZ 1); (f_m1e20, fofZ 4); (fofZ (-3), fofZ 3)].
Example C17_variables_case : let s := process_bounds (fofZ 0) xs4 in
  (b_low s, b_upp s, b_lu s, b_fix s) = (3, 3, 2, 1) /\ b_ixl s = [f_one; f_one; f_zero; f_one].
Proof. vm_compute. auto. Qed.

(** C17: however the variables are distributed over ranks, the summed counters count all variables *)
Theorem C17_ranks tol (parts : list (list (b64 * b64))) (xs : list (b64 * b64)) :
  concat parts = xs ->
  exists low upp both fixed, all_ranks tol parts = (low, upp, both, fixed) /\
    counts (fun e => finite_low (fst e)) xs low /\ counts (fun e => finite_upp (snd e)) xs upp /\
    counts (fun e => finite_low (fst e) /\ finite_upp (snd e)) xs both /\
    counts (fun e => fixed_pair tol (fst e) (snd e)) xs fixed.
Proof.
  intros <-. do 4 eexists. split; [apply all_ranks_spec|].
  split; [apply counts_filter; apply lowp_ok|]. split; [apply counts_filter; apply uppp_ok|].
  split; [apply (counts_filter _ (fun e => lowp e && uppp e)); apply lup_ok|]. apply counts_filter, fixp_ok.
Qed.
Print Assumptions C17_ranks.
Example C17_ranks_case : all_ranks (fofZ 0) [firstn 1 xs4; []; skipn 1 xs4] = (3, 3, 2, 1).
Proof. vm_compute. reflexivity. Qed.

(** C17: the inequality constraints *)
Theorem C17_inequalities {k} (g : list (b64 * b64 * k)) r : process_constraints g = Some r ->
  let ds := combine (s_dl (c_sp r)) (s_du (c_sp r)) in
  length ds = c_nin r /\
  marks_exactly (fun e => finite_low (fst e)) ds (b_ixl (c_ind r)) /\
  marks_exactly (fun e => finite_upp (snd e)) ds (b_ixu (c_ind r)) /\
  counts (fun e => finite_low (fst e)) ds (b_low (c_ind r)) /\
  counts (fun e => finite_upp (snd e)) ds (b_upp (c_ind r)) /\
  counts (fun e => finite_low (fst e) /\ finite_upp (snd e)) ds (b_lu (c_ind r)).
Proof.
  rewrite process_spec. intro H. injection H as <-. cbn [c_sp c_ind c_nin s_dl s_du]. cbn zeta.
  rewrite !combine_map, map_length. split; [reflexivity|].
  set (xs := map (fun a => (lo a, up a)) (filter ne g)). rewrite ineq_loop. cbn [b_ixl b_ixu b_low b_upp b_lu b_fix bnds0 app]. rewrite !Nat.add_0_l.
  split; [apply (marks_map _ lowp); apply lowp_ok|]. split; [apply (marks_map _ uppp); apply uppp_ok|].
  split; [apply counts_filter; apply lowp_ok|]. split; [apply counts_filter; apply uppp_ok|].
  apply (counts_filter _ (fun e => lowp e && uppp e)); apply lup_ok.
Qed.
Print Assumptions C17_inequalities.
Example C17_inequalities_case : exists r, process_constraints ((f_m1e20, fofZ 1, 13) :: g3) = Some r /\
  (b_low (c_ind r), b_upp (c_ind r), b_lu (c_ind r)) = (1, 2, 1) /\ b_ixl (c_ind r) = [f_zero; f_one].
Proof. eexists. split; [vm_compute; reflexivity|]. vm_compute. auto. Qed.

(** C17 after initialisation (removal or relaxation applied): the counters still equal the number of
    marks in the indicator vectors the solver uses, provided every fixed variable has a finite lower
    bound *)
Theorem C17_after_initialisation o tol pert brp xs buf v :
  finalize_bounds o tol pert brp xs buf = Some v ->
  (forall l u, In (l, u) xs -> fixed_pair tol l u -> finite_low l) ->
  length (v_ixl v) = length (v_xs v) /\ length (v_ixu v) = length (v_xs v) /\
  exists low upp both, v_low v = Z.of_nat low /\ v_upp v = Z.of_nat upp /\ v_lu v = Z.of_nat both /\
    counts (fun a => a = f_one) (v_ixl v) low /\ counts (fun a => a = f_one) (v_ixu v) upp /\
    counts (fun p => fst p = f_one /\ snd p = f_one) (combine (v_ixl v) (v_ixu v)) both.
Proof.
  intros H HL. destruct (finalize_spec o tol pert brp xs buf v H) as (mask & M1 & _ & M2 & M3 & M4 & M5 & M6 & M7 & _).
  { intros [l u] Hin HF. apply lowp_ok. apply fixp_ok in HF. cbn [fst snd] in *. eauto. }
  rewrite M3, M4, !picked_map, !map_length, M2.
  assert (LP : length (picked xs mask) = marks mask) by (apply picked_len; auto).
  split; [auto|]. split; [auto|].
  do 3 eexists. split; [eassumption|]. split; [eassumption|]. split; [eassumption|].
  split; [apply count_ind|]. split; [apply count_ind|]. apply count_ind2.
Qed.
Print Assumptions C17_after_initialisation.
Example C17_after_initialisation_case : exists v, finalize_bounds FxRemove (fofZ 0) (fofZ 0) (fofZ 0) xs4 [] = Some v /\
  v_xs v = [(fofZ 0, f_1e20); (f_m1e20, fofZ 4); (fofZ (-3), fofZ 3)] /\ v_ixl v = [f_one; f_zero; f_one] /\
  (v_low v, v_upp v, v_lu v) = (2, 2, 1)%Z.
Proof. eexists. split; [vm_compute; reflexivity|]. vm_compute. auto. Qed.
(** without that proviso the counter is wrong: a variable fixed at -1e21 is subtracted although it
    had not been counted *)
Theorem C17_after_initialisation_refuted : exists tol xs v n,
  finalize_bounds FxRemove tol (fofZ 0) (fofZ 0) xs [] = Some v /\
  counts (fun a => a = f_one) (v_ixl v) n /\ (v_low v <> Z.of_nat n).
Proof.
  exists (fofZ 0), [(fofZ (-1000000000000000000000), fofZ (-1000000000000000000000)); (fofZ 0, fofZ 1); (fofZ 0, fofZ 1)].
  eexists. exists 2. split; [vm_compute; reflexivity|]. cbn [v_ixl v_low]. split; [|discriminate].
  apply counts_yes; [reflexivity|]. apply counts_yes; [reflexivity|]. apply counts_nil.
Qed.
Print Assumptions C17_after_initialisation_refuted.
