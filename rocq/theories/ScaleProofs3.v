(** Proofs about scaling, continued: triplet Jacobians and the choice of the factors. *)
From Coq Require Import List Bool Arith Lia Ring Field Permutation Sorted QArith Qcanon.
From Verif Require Import RingKit PackModel PackSpec PackProofs SparseModel SparseSpec ScaleModel FactorModel ScaleSpec ScaleProofs ScaleProofs2.
From Verif Require SparseProofs3 SparseProofs4.
Import ListNotations.
Close Scope Qc_scope. Close Scope Q_scope. Open Scope nat_scope.

Section Pr.
Variable K : cfield.
Add Field kf3 : (fth K).

Lemma div_cancel (a f : K) : a <> f0 -> (a *! f) /! a = f.
Proof. intro H. field. auto. Qed.
Lemma wf_pattern (A B : trip K) : wf A -> t_m B = t_m A -> t_n B = t_n A ->
  map (fun e => (row e, col e)) (t_ent B) = map (fun e => (row e, col e)) (t_ent A) -> wf B.
Proof.
  intros HA H1 H2 HP e He. apply (in_map (fun e => (row e, col e))) in He. rewrite HP in He.
  apply in_map_iff in He as (e' & E & H'). injection E as E1 E2. specialize (HA e' H'). lia.
Qed.
Lemma ch_sparse_spec pick ch : forall A, wf A -> sizes K pick (t_m A) ch ->
  exists r, ch_to_sparse K pick ch A = Some r /\ t_m r = t_m A /\ t_n r = t_n A /\
    forall i j, mat (t_ent r) i j = rowfac K pick ch i *! mat (t_ent A) i j.
Proof.
  unfold ch_to_sparse. induction ch as [|[s|] ch IH]; intros A HW H; simpl.
  - exists A. do 3 (split; [reflexivity|]). intros. ring.
  - destruct (SparseProofs4.scale_row_spec K A (pick s) false HW) as (r & E & R1 & R2 & R3 & R4).
    { apply H. left. auto. }
    rewrite E. destruct (IH r) as (r2 & E2 & Q1 & Q2 & Q3).
    + apply (wf_pattern A); auto.
    + rewrite R1. intros t Ht. apply H. right. auto.
    + exists r2. split; auto. split; [lia|]. split; [lia|]. intros i j. rewrite Q3, R4. ring.
  - destruct (IH A) as (r2 & E2 & Q); [auto|intros t Ht; apply H; right; auto|]. exists r2. auto.
Qed.
Lemma sparse_two_spec eqm inm (P : nlp K) ss Jc Jd : built eqm inm P ss -> wf Jc -> wf Jd ->
  t_m Jc = length eqm -> t_m Jd = length inm ->
  exists a b, sparse_jac_two P Jc Jd = Some (a, b) /\
    (forall i j, mat (t_ent a) i j = rowfac K s_c (n_chain P) i *! mat (t_ent Jc) i j) /\
    (forall i j, mat (t_ent b) i j = rowfac K s_d (n_chain P) i *! mat (t_ent Jd) i j).
Proof.
  intros HB W1 W2 M1 M2. pose proof (built_ok _ _ _ _ _ HB) as (S1 & S2 & _).
  destruct (ch_sparse_spec s_c (n_chain P) Jc W1) as (a & A1 & _ & _ & A2); [rewrite M1; auto|].
  destruct (ch_sparse_spec s_d (n_chain P) Jd W2) as (b & B1 & _ & _ & B2); [rewrite M2; auto|].
  exists a, b. unfold sparse_jac_two. rewrite A1, B1. auto.
Qed.
Definition row_count (J : trip K) (idx : list nat) : nat :=
  length (flat_map (fun i => filter (fun e => row e =? i) (t_ent J)) idx).
Lemma copy_rows_ok (this src : trip K) idxs : wf src -> row_sorted (t_ent src) -> StronglySorted lt idxs ->
  (forall i, In i idxs -> i < t_m src) -> t_m this = length idxs -> t_n this = t_n src ->
  length (t_ent this) = row_count src idxs ->
  exists r, copy_rows_from K this src idxs = Some r /\ t_m r = length idxs /\ t_n r = t_n src /\ wf r /\
    length (t_ent r) = length (t_ent this) /\
    forall i j, i < length idxs -> mat (t_ent r) i j = mat (t_ent src) (nth i idxs 0) j.
Proof.
  intros HW H1 H2 H3 H4 H5 H6.
  destruct (SparseProofs3.copy_rows_from_spec K this src idxs) as [r [E1 [E2 [E3 [E4 [E5 E6]]]]]]; auto.
  - rewrite H6. unfold row_count. clear. unfold SparseProofs3.rows_block. generalize 0 as s.
    induction idxs as [|i l IH]; intro s; auto.
    simpl. rewrite !app_length. rewrite (IH (S s)). unfold row_as. rewrite map_length. reflexivity.
  - exists r. split; auto. split; [lia|]. split; [lia|]. split; [|auto].
    intros e He. rewrite E5 in He. apply in_flat_map in He as (k & Hk & He). apply in_seq in Hk.
    unfold row_as in He. apply in_map_iff in He as (e' & Ee & He'). apply filter_In in He' as (He' & _).
    specialize (HW e' He'). rewrite <- Ee. unfold row, col. simpl. destruct e' as [[r0 c0] v0]. unfold row, col in HW. simpl in *. lia.
Qed.
Lemma sparse_one_two eqm inm (P : nlp K) ss Jc0 Jd0 J Jc Jd :
  built eqm inm P ss -> complementary eqm inm (t_m J) -> StronglySorted lt eqm -> StronglySorted lt inm ->
  wf J -> row_sorted (t_ent J) ->
  t_m Jc0 = length eqm -> t_n Jc0 = t_n J -> length (t_ent Jc0) = row_count J eqm ->
  t_m Jd0 = length inm -> t_n Jd0 = t_n J -> length (t_ent Jd0) = row_count J inm ->
  length (t_ent J) = length (t_ent Jc0) + length (t_ent Jd0) ->
  wf Jc -> wf Jd -> t_m Jc = length eqm -> t_m Jd = length inm ->
  (forall k j, k < length eqm -> mat (t_ent Jc) k j = mat (t_ent J) (nth k eqm 0) j) ->
  (forall k j, k < length inm -> mat (t_ent Jd) k j = mat (t_ent J) (nth k inm 0) j) ->
  exists a b a2 b2, sparse_jac_one P Jc0 Jd0 J = Some (a, b) /\ sparse_jac_two P Jc Jd = Some (a2, b2) /\
    (forall k j, k < length eqm -> mat (t_ent a) k j = mat (t_ent a2) k j /\
        mat (t_ent a) k j = rowfac K s_c (n_chain P) k *! mat (t_ent J) (nth k eqm 0) j) /\
    (forall k j, k < length inm -> mat (t_ent b) k j = mat (t_ent b2) k j /\
        mat (t_ent b) k j = rowfac K s_d (n_chain P) k *! mat (t_ent J) (nth k inm 0) j).
Proof.
  intros HB HC O1 O2 HW HR C1 C2 C3 D1 D2 D3 HN WC WD M1 M2 V1 V2.
  pose proof (built_inv _ _ _ _ _ HB) as (E1 & E2 & _).
  destruct (compl_facts _ _ _ HC) as (_ & _ & B1 & B2 & _ & _ & LN).
  destruct (copy_rows_ok Jc0 J eqm) as (rc & RC & RC1 & RC2 & RC3 & RC4 & RC5); auto.
  destruct (copy_rows_ok Jd0 J inm) as (rd & RD & RD1 & RD2 & RD3 & RD4 & RD5); auto.
  destruct (sparse_two_spec _ _ _ _ rc rd HB RC3 RD3 RC1 RD1) as (a & b & T & A & B).
  destruct (sparse_two_spec _ _ _ _ Jc Jd HB WC WD M1 M2) as (a2 & b2 & T2 & A2 & B2').
  exists a, b, a2, b2. unfold sparse_jac_one. rewrite E1, E2, HN, Nat.eqb_refl, RC, RD. split; auto. split; auto.
  split; intros k j Hk.
  - rewrite A, A2, RC5, V1 by auto. auto.
  - rewrite B, B2', RD5, V2 by auto. auto.
Qed.

Lemma dense_one_inv eqm inm (P : nlp K) ss J : built eqm inm P ss -> complementary eqm inm (length J) ->
  ss = [] -> exists Jc Jd, gather J eqm = Some Jc /\ gather J inm = Some Jd /\
    dense_jac_one P J = dense_jac_two P Jc Jd /\ dense_jac_one P J <> None.
Proof.
  intros HB HC ->. destruct (dense_two_spec _ _ _ _ _ _ HB HC) as (Jc & Jd & a & b & G1 & G2 & T & _).
  pose proof (built_inv _ _ _ _ _ HB) as (E1 & E2 & E3 & _).
  destruct (compl_facts _ _ _ HC) as (_ & _ & B1 & B2 & _ & _ & LN).
  exists Jc, Jd. split; auto. split; auto.
  assert (E : dense_jac_one P J = dense_jac_two P Jc Jd).
  { unfold dense_jac_one, d_copy_rows. rewrite E1, E2, G1, G2.
    replace (length eqm <=? length J) with true by (symmetry; apply Nat.leb_le; lia).
    replace (length inm <=? length J) with true by (symmetry; apply Nat.leb_le; lia).
    assert (OT : forall t, In t (n_chain P) -> t = TOther).
    { intros [s|] Ht; auto. apply in_scalings in Ht. rewrite E3 in Ht. destruct Ht. }
    assert (Z : forall pick inv ch M, (forall t, In t ch -> t = TOther) -> ofold (t_dense K pick inv) ch M = Some M).
    { clear. intros pick inv ch M. induction ch as [|t ch IH]; intro H; auto. simpl. rewrite (H t) by (left; auto). simpl.
      apply IH. intros; apply H; right; auto. }
    unfold dense_jac_two, ch_to_dense, ch_inv_dense. rewrite !Z; auto; intros t Ht; apply OT; auto; apply in_rev; auto. }
  split; auto. rewrite E, T. discriminate.
Qed.
Lemma callback_obj eqm inm (P : nlp K) ss y c d f :
  built eqm inm P ss -> length ss <= 1 -> complementary eqm inm (length eqm + length inm) ->
  length (y_c y) = length eqm -> length (y_d y) = length inm -> length c = length eqm -> length d = length inm ->
  exists r y' c' d', callback_solution P y c d (eval_f P f) = Some (r, y', c', d') /\ r_obj r = f.
Proof.
  intros HB HL HC L1 L2 L3 L4.
  destruct (callback_runs K eqm inm P ss y c d (eval_f P f) HB HC L1 L2 L3 L4)
    as (r & yc & yd & zl & zu & c' & d' & E & R & _).
  exists r, (Duals yc yd zl zu), c', d'. split; [exact E|]. rewrite R.
  rewrite (hess_single K eqm inm P ss HB HL). unfold eval_f. rewrite ch_obj. apply div_cancel.
  destruct (built_inv K eqm inm P ss HB) as (_ & _ & E3 & _ & U).
  rewrite objfac_scalings, E3. destruct ss as [|s [|? ?]]; simpl in HL; try lia; simpl.
  - apply one_nz.
  - apply mul_nz; [|apply one_nz]. destruct (U s) as ((U1 & _) & _); [|exact U1]. apply in_scalings. rewrite E3. left. auto.
Qed.
(** reported multipliers when nothing is scaled *)
Lemma getter_plain eqm inm (P : nlp K) y g J zl zu lam P' j :
  built eqm inm P [] -> complementary eqm inm (length J) ->
  length (y_c y) = length eqm -> length (y_d y) = length inm ->
  get_dual_solutions P y = Some (zl, zu, lam, P') ->
  at_ g j +! sumn (length eqm) (fun k => rowat J (nth k eqm 0) j *! at_ (y_c y) k)
    +! sumn (length inm) (fun k => rowat J (nth k inm 0) j *! at_ (y_d y) k) -! at_ (z_l y) j +! at_ (z_u y) j = f0 ->
  resid (length J) g (rowat J) lam zl zu j = f0.
Proof.
  intros HB HC L1 L2 H HS. pose proof (built_inv _ _ _ _ _ HB) as (E1 & E2 & _ & E4 & _). simpl in E4.
  unfold get_dual_solutions in H. rewrite E4, E1, E2 in H.
  destruct (merge _ _ _ _ _) as [l|] eqn:EM; try discriminate. injection H as <- <- <- <-.
  pose proof HC as HC0. destruct (compl_facts _ _ _ HC) as (_ & _ & _ & _ & _ & _ & LN).
  assert (Lb : length (map (fun _ => f0 : K) (eqm ++ inm)) = length J) by (rewrite map_length, app_length; lia).
  rewrite <- Lb in HC. destruct (merge_at _ _ _ _ _ _ _ HC L1 L2 EM) as (M1 & M2 & M3).
  unfold resid. rewrite (sum_split K eqm inm (length J) _ HC0).
  rewrite (sumn_ext K (length eqm) _ (fun k => rowat J (nth k eqm 0) j *! at_ (y_c y) k)) by (intros k Hk; rewrite M2 by auto; auto).
  rewrite (sumn_ext K (length inm) _ (fun k => rowat J (nth k inm 0) j *! at_ (y_d y) k)) by (intros k Hk; rewrite M3 by auto; auto).
  rewrite <- HS. ring.
Qed.
Lemma getter_ignores eqm inm (P : nlp K) ss y y' : built eqm inm P ss -> ss <> [] ->
  z_l y = z_l y' -> z_u y = z_u y' -> get_dual_solutions P y = get_dual_solutions P y'.
Proof.
  intros HB HN E1 E2. apply built_inv in HB as (_ & _ & _ & E4 & _). unfold get_dual_solutions.
  destruct (n_last P); [rewrite E1, E2; reflexivity|].
  destruct ss as [|s ss]; [congruence|]. exfalso. symmetry in E4. simpl in E4. apply nth_error_None in E4. simpl in E4. lia.
Qed.
Lemma minus_mul_one (x a b : K) : a = f1 -> b = x -> x -! a *! b = f0.
Proof. intros -> ->. ring. Qed.
End Pr.

(** * the choice of the factors *)
Section Factors.
Local Open Scope Qc_scope.
Lemma qlt_true a b : qlt a b = true <-> a < b.
Proof.
  unfold qlt. destruct (Qle_bool (this b) (this a)) eqn:E; simpl; split; intro H; try discriminate; auto.
  - apply Qle_bool_iff in E. exfalso. apply (Qclt_not_le a b); auto.
  - apply Qcnot_le_lt. intro F. apply Qle_bool_iff in F. congruence.
Qed.
Lemma qlt_false a b : qlt a b = false <-> b <= a.
Proof.
  unfold qlt. destruct (Qle_bool (this b) (this a)) eqn:E; simpl; split; intro H; try discriminate; auto.
  - apply Qle_bool_iff. auto.
  - apply Qle_bool_iff in H. congruence.
Qed.
Lemma qeqb_true a b : qeqb a b = true <-> a = b.
Proof.
  unfold qeqb. split; intro H.
  - apply Qc_is_canon. apply Qeq_bool_iff. auto.
  - subst. apply Qeq_bool_iff. reflexivity.
Qed.
Lemma qabs_bound a : a <= qabs a /\ - a <= qabs a /\ 0 <= qabs a.
Proof.
  unfold qabs. destruct (qlt a (Q2Qc 0)) eqn:E.
  - apply qlt_true in E. assert (H : 0 <= - a).
    { apply Qcle_minus_iff. replace (- a + - 0) with (0 + - a) by ring. apply (proj1 (Qcle_minus_iff a 0)). apply Qclt_le_weak; auto. }
    split; [|split; auto; apply Qcle_refl]. apply Qcle_trans with 0; auto. apply Qclt_le_weak. auto.
  - apply qlt_false in E. split; [apply Qcle_refl|]. split; auto.
    apply Qcle_trans with 0; auto. apply Qcle_minus_iff. replace (0 + - - a) with a by ring. auto.
Qed.
Lemma fold_max v : forall s, let r := fold_left (fun nrm y => if qlt nrm (qabs y) then qabs y else nrm) v s in
  s <= r /\ forall y, In y v -> qabs y <= r.
Proof.
  induction v as [|x v IH]; intro s; simpl.
  - split; [apply Qcle_refl|]. intros y [].
  - destruct (IH (if qlt s (qabs x) then qabs x else s)) as [H1 H2].
    set (t := if qlt s (qabs x) then qabs x else s) in *.
    assert (Hs : s <= t /\ qabs x <= t).
    { unfold t. destruct (qlt s (qabs x)) eqn:E.
      - apply qlt_true in E. split; [apply Qclt_le_weak; auto|apply Qcle_refl].
      - apply qlt_false in E. split; [apply Qcle_refl|auto]. }
    destruct Hs as [Hs1 Hs2]. split; [apply Qcle_trans with t; auto|].
    intros y [<-|Hy]; [apply Qcle_trans with t; auto|auto].
Qed.
Lemma infnorm_spec v y : In y v -> qabs y <= infnorm v.
Proof.
  destruct v as [|x v]; [intros []|]. unfold infnorm. destruct (fold_max v (qabs x)) as [H1 H2].
  intros [<-|H]; auto.
Qed.
Lemma max_abs_spec v y : In y v -> qabs y <= max_abs v.
Proof. intro H. apply fold_max. auto. Qed.
Lemma max_abs_nonneg v : 0 <= max_abs v.
Proof. apply (fold_max v 0). Qed.
Lemma infnorm_pos v : (forall y, In y v -> 0 <= y) -> forall y, In y v -> y <= infnorm v.
Proof. intros _ y Hy. apply Qcle_trans with (qabs y); [apply qabs_bound|apply infnorm_spec; auto]. Qed.

Lemma inv_pos t : 0 < t -> 0 < 1 / t.
Proof.
  intro H. assert (Ht : t <> 0) by (intro E; rewrite E in H; apply (Qclt_not_eq _ _ H); auto).
  destruct (Qclt_le_dec 0 (1 / t)) as [|H']; auto. exfalso.
  assert (Q : (1 / t) * t <= 0 * t) by (apply Qcmult_le_compat_r; auto; apply Qclt_le_weak; auto).
  replace ((1 / t) * t) with 1 in Q by (field; auto). replace (0 * t) with 0 in Q by ring.
  apply Q. reflexivity.
Qed.
Lemma pos_nz t : 0 < t -> t <> 0.
Proof. intros H E. rewrite E in H. apply (Qclt_not_eq _ _ H). auto. Qed.
(** dividing by [t >= y/M] brings everything bounded by [y] down to [M] *)
Lemma cap M t x : 0 < t -> x <= M * t -> (1 / t) * x <= M.
Proof.
  intros Ht H. apply Qcmult_lt_0_le_reg_r with t; auto.
  replace (1 / t * x * t) with x by (field; apply pos_nz; auto). auto.
Qed.
Lemma cap2 M n x : 0 < n -> 0 <= M -> qabs x <= n -> - M <= M / n * x /\ M / n * x <= M.
Proof.
  intros Hn HM Hx. assert (Hnz := pos_nz n Hn). destruct (qabs_bound x) as (B1 & B2 & _).
  assert (U : forall z, z <= n -> M / n * z <= M).
  { intros z Hz. replace (M / n * z) with (1 / n * (M * z)) by (field; auto). apply cap; auto.
    rewrite (Qcmult_comm M z), (Qcmult_comm M n). apply Qcmult_le_compat_r; auto. }
  split; [|apply U; apply Qcle_trans with (qabs x); auto].
  apply Qcle_minus_iff. replace (M / n * x + - - M) with (M + - (M / n * - x)) by (field; auto).
  apply (proj1 (Qcle_minus_iff (M / n * - x) M)). apply U. apply Qcle_trans with (qabs x); auto.
Qed.
Lemma cap1 M x n : n <= M -> qabs x <= n -> - M <= 1 * x /\ 1 * x <= M.
Proof.
  intros Hn Hx. destruct (qabs_bound x) as (B1 & B2 & _).
  assert (U : forall z, z <= qabs x -> z <= M) by (intros z Hz; apply Qcle_trans with (qabs x); auto; apply Qcle_trans with n; auto).
  replace (1 * x) with x by ring. split; [|auto]. apply Qcle_minus_iff. replace (x + - - M) with (M + - - x) by ring.
  apply (proj1 (Qcle_minus_iff (- x) M)). auto.
Qed.

Lemma obj_factor_spec o g : 0 < max_grad o -> 0 <= max_obj_grad o -> 0 <= min_grad o ->
  0 < obj_factor o g /\
  (obj_factor o g = min_grad o \/
   forall x, In x g -> let M := if qlt 0 (max_obj_grad o) then max_obj_grad o else max_grad o in
     - M <= obj_factor o g * x /\ obj_factor o g * x <= M) /\
  (max_obj_grad o = 0 -> min_grad o <= 1 -> obj_factor o g <= 1).
Proof.
  intros H1 H2 H3. unfold obj_factor.
  set (n := infnorm g). set (s := if qeqb (max_obj_grad o) q0 then _ else _).
  assert (HS : 0 < s /\ (forall x, In x g -> let M := if qlt 0 (max_obj_grad o) then max_obj_grad o else max_grad o in
     - M <= s * x /\ s * x <= M) /\ (max_obj_grad o = 0 -> s <= 1)).
  { unfold s. destruct (qeqb (max_obj_grad o) q0) eqn:E0.
    - apply qeqb_true in E0. rewrite E0. replace (qlt 0 q0) with false by reflexivity.
      destruct (qlt (max_grad o) n) eqn:En.
      + apply qlt_true in En. assert (Hn : 0 < n) by (apply Qclt_trans with (max_grad o); auto).
        split; [|split].
        * replace (max_grad o / n) with (1 / (n / max_grad o)) by (field; split; apply pos_nz; auto).
          apply inv_pos. replace 0 with (0 * (1 / max_grad o)) by ring.
          replace (n / max_grad o) with (n * (1 / max_grad o)) by (field; apply pos_nz; auto).
          apply Qcmult_lt_compat_r; auto. apply inv_pos. auto.
        * intros x Hx. apply cap2; auto; [apply Qclt_le_weak; auto|apply infnorm_spec; auto].
        * intros _. replace (max_grad o / n) with (1 / n * max_grad o) by (field; apply pos_nz; auto).
          apply cap; auto. replace (1 * n) with n by ring. apply Qclt_le_weak. auto.
      + apply qlt_false in En. split; [reflexivity|]. split.
        * intros x Hx. apply (cap1 _ _ n); auto. apply infnorm_spec. auto.
        * intros _. apply Qcle_refl.
    - assert (Hp : 0 < max_obj_grad o).
      { destruct (Qcle_lt_or_eq _ _ H2) as [|E]; auto. exfalso. assert (qeqb (max_obj_grad o) q0 = true) by (apply qeqb_true; auto). congruence. }
      replace (qlt 0 (max_obj_grad o)) with true by (symmetry; apply qlt_true; auto).
      destruct (qlt q0 n) eqn:En.
      + apply qlt_true in En. split; [|split].
        * replace (max_obj_grad o / n) with (max_obj_grad o * (1 / n)) by (field; apply pos_nz; auto).
          replace 0 with (0 * (1 / n)) by ring. apply Qcmult_lt_compat_r; auto. apply inv_pos. auto.
        * intros x Hx. apply cap2; auto. apply infnorm_spec. auto.
        * intro E. rewrite E in Hp. exfalso. apply (Qclt_not_eq _ _ Hp). auto.
      + apply qlt_false in En. split; [reflexivity|]. split.
        * intros x Hx. apply (cap1 _ _ n); [|apply infnorm_spec; auto]. apply Qcle_trans with 0; auto.
        * intro E. rewrite E in Hp. exfalso. apply (Qclt_not_eq _ _ Hp). auto. }
  destruct HS as (S1 & S2 & S3).
  destruct (qlt q0 (min_grad o) && qlt s (min_grad o)) eqn:E.
  - apply andb_true_iff in E as [E1 E2]. apply qlt_true in E1. auto.
  - auto.
Qed.

Lemma row_factors_len o r : length (row_factors o r) = length r.
Proof. unfold row_factors, invert, component_max. rewrite !map_length. auto. Qed.
Lemma row_factor_nth o r k y : nth_error r k = Some y ->
  nth_error (row_factors o r) k = Some (1 / (if qlt (1 / max_grad o * y) 1 then 1 else 1 / max_grad o * y)).
Proof.
  intro H. unfold row_factors, invert, component_max. rewrite !nth_error_map, H. reflexivity.
Qed.
Lemma row_factor_spec M y : 0 < M -> 0 <= y ->
  let f := 1 / (if qlt (1 / M * y) 1 then 1 else 1 / M * y) in
  0 < f /\ f <= 1 /\ (forall x, qabs x <= y -> - M <= f * x /\ f * x <= M) /\ (y <= M -> f = 1).
Proof.
  intros HM Hy. set (t := if qlt (1 / M * y) 1 then 1 else 1 / M * y).
  assert (Ht : 1 <= t /\ 1 / M * y <= t).
  { unfold t. destruct (qlt (1 / M * y) 1) eqn:E; [apply qlt_true in E|apply qlt_false in E].
    - split; [apply Qcle_refl|apply Qclt_le_weak; auto].
    - split; [auto|apply Qcle_refl]. }
  destruct Ht as [T1 T2]. assert (T0 : 0 < t) by (apply Qclt_le_trans with 1; auto; reflexivity).
  simpl. split; [apply inv_pos; auto|]. split.
  - replace (1 / t) with (1 / t * 1) by ring. apply cap; auto. replace (1 * t) with t by ring. auto.
  - split.
    + intros x Hx. destruct (qabs_bound x) as (B1 & B2 & _).
      assert (U : forall z, z <= y -> 1 / t * z <= M).
      { intros z Hz. apply cap; auto. apply Qcle_trans with y; auto.
        replace y with (1 / M * y * M) by (field; apply pos_nz; auto).
        rewrite (Qcmult_comm M t). apply Qcmult_le_compat_r; auto. apply Qclt_le_weak; auto. }
      split; [|apply U; apply Qcle_trans with (qabs x); auto].
      apply Qcle_minus_iff. replace (1 / t * x + - - M) with (M + - (1 / t * - x)) by ring.
      apply (proj1 (Qcle_minus_iff (1 / t * - x) M)). apply U. apply Qcle_trans with (qabs x); auto.
    + intro Hle. assert (t = 1); [|rewrite H; reflexivity]. unfold t.
      destruct (qlt (1 / M * y) 1) eqn:E; auto. apply qlt_false in E. apply Qcle_antisym; auto.
      apply cap; auto. replace (1 * M) with M by ring. auto.
Qed.

Lemma row_max_nth J k r : nth_error J k = Some r -> nth_error (row_max_abs J) k = Some (max_abs r).
Proof. intro H. unfold row_max_abs. rewrite nth_error_map, H. reflexivity. Qed.

Lemma block_factors_spec o J v : 0 < max_grad o -> 0 <= max_con_grad o -> 0 <= min_grad o ->
  block_factors o (row_max_abs J) = Some v ->
  length v = length J /\
  forall k f r, nth_error v k = Some f -> nth_error J k = Some r ->
    0 < f /\
    (f = min_grad o \/ forall x, In x r -> let M := if qlt 0 (max_con_grad o) then max_con_grad o else max_grad o in
       - M <= f * x /\ f * x <= M) /\
    (max_con_grad o = 0 -> min_grad o <= 1 -> f <= 1).
Proof.
  intros H1 H2 H3 H. unfold block_factors in H. set (R := row_max_abs J) in *.
  assert (LR : length R = length J) by (apply map_length).
  assert (PR : forall y, In y R -> 0 <= y).
  { intros y Hy. unfold R, row_max_abs in Hy. apply in_map_iff in Hy as (r & <- & _). apply max_abs_nonneg. }
  assert (HW : exists w, v = (if qlt q0 (min_grad o) then component_max (min_grad o) w else w) /\ length w = length J /\
    forall k f r, nth_error w k = Some f -> nth_error J k = Some r ->
      0 < f /\ (forall x, In x r -> let M := if qlt 0 (max_con_grad o) then max_con_grad o else max_grad o in
       - M <= f * x /\ f * x <= M) /\ (max_con_grad o = 0 -> f <= 1)).
  { destruct (qeqb (max_con_grad o) q0) eqn:E0.
    - apply qeqb_true in E0. rewrite E0. replace (qlt 0 q0) with false by reflexivity.
      destruct (qlt (max_grad o) (infnorm R)) eqn:En; injection H as <-; eexists; (split; [reflexivity|]).
      + split; [rewrite row_factors_len; auto|]. intros k f r Hf Hr. pose proof (row_max_nth _ _ _ Hr) as Hm. fold R in Hm.
        rewrite (row_factor_nth o R k _ Hm) in Hf. injection Hf as <-.
        destruct (row_factor_spec (max_grad o) (max_abs r) H1 (max_abs_nonneg r)) as (F1 & F2 & F3 & _).
        split; auto. split; [|auto]. intros x Hx. apply F3. apply max_abs_spec. auto.
      + split; [rewrite map_length; auto|]. intros k f r Hf Hr. rewrite nth_error_map in Hf.
        pose proof (row_max_nth _ _ _ Hr) as Hm. fold R in Hm. rewrite Hm in Hf. injection Hf as <-.
        split; [reflexivity|]. split; [|intros _; apply Qcle_refl]. intros x Hx.
        apply (cap1 _ _ (max_abs r)); [|apply max_abs_spec; auto]. apply qlt_false in En.
        apply Qcle_trans with (infnorm R); auto. apply infnorm_pos; auto. eapply nth_error_In; eauto.
    - assert (Hp : 0 < max_con_grad o).
      { destruct (Qcle_lt_or_eq _ _ H2) as [|E]; auto. exfalso. assert (qeqb (max_con_grad o) q0 = true) by (apply qeqb_true; auto). congruence. }
      replace (qlt 0 (max_con_grad o)) with true by (symmetry; apply qlt_true; auto).
      destruct R as [|y0 R'] eqn:ER.
      + injection H as <-. exists []. split; auto. simpl in LR. split; [simpl; auto|]. intros k f r Hf. destruct k; discriminate.
      + rewrite <- ER in *. destruct (qeqb (infnorm R) q0) eqn:En; try discriminate. injection H as <-. eexists. split; [reflexivity|].
        split; [rewrite map_length; auto|]. intros k f r Hf Hr. rewrite nth_error_map in Hf.
        assert (Hm : nth_error R k = Some (max_abs r)) by (exact (row_max_nth _ _ _ Hr)).
        rewrite Hm in Hf. injection Hf as <-.
        assert (Hn : 0 < infnorm R).
        { assert (Hge : 0 <= infnorm R) by (apply Qcle_trans with (max_abs r); [apply max_abs_nonneg|apply infnorm_pos; auto; eapply nth_error_In; eauto]).
          destruct (Qcle_lt_or_eq _ _ Hge) as [|E]; auto. exfalso. assert (qeqb (infnorm R) q0 = true) by (apply qeqb_true; auto). congruence. }
        split; [|split].
        * replace (max_con_grad o / infnorm R) with (max_con_grad o * (1 / infnorm R)) by (field; apply pos_nz; auto).
          replace 0 with (0 * (1 / infnorm R)) by ring. apply Qcmult_lt_compat_r; auto. apply inv_pos; auto.
        * intros x Hx. apply cap2; auto. apply Qcle_trans with (max_abs r); [apply max_abs_spec; auto|].
          apply infnorm_pos; auto. eapply nth_error_In; eauto.
        * intro E. rewrite E in Hp. exfalso. apply (Qclt_not_eq _ _ Hp). auto. }
  destruct HW as (w & -> & Lw & W). destruct (qlt q0 (min_grad o)) eqn:E.
  - split; [unfold component_max; rewrite map_length; auto|]. intros k f r Hf Hr. unfold component_max in Hf. rewrite nth_error_map in Hf.
    destruct (nth_error w k) as [f0|] eqn:Ew; try discriminate. injection Hf as <-. destruct (W k f0 r Ew Hr) as (W1 & W2 & W3).
    apply qlt_true in E. destruct (qlt f0 (min_grad o)) eqn:E2; auto.
  - split; auto. intros k f r Hf Hr. destruct (W k f r Hf Hr) as (W1 & W2 & W3). auto.
Qed.

Lemma row_factors_pos o r : 0 < max_grad o -> (forall y, In y r -> 0 <= y) -> forall f, In f (row_factors o r) -> 0 < f.
Proof.
  intros HM Hr f Hf. unfold row_factors, invert, component_max in Hf. rewrite !map_map in Hf.
  apply in_map_iff in Hf as (y & <- & Hy). apply (row_factor_spec (max_grad o) y HM (Hr y Hy)).
Qed.
Lemma row_max_pos J y : In y (row_max_abs J) -> 0 <= y.
Proof. unfold row_max_abs. intro H. apply in_map_iff in H as (r & <- & _). apply max_abs_nonneg. Qed.
End Factors.
Close Scope Qc_scope.

(** the new scaling is usable, and its factors for all constraints match those by kind when the
    lower limit on the factors does not bite *)
Lemma new_scaling_facts o g Jc Jd eqm inm s : (qle q0 (max_con_grad o)) -> qle q0 (max_obj_grad o) -> qle q0 (min_grad o) ->
  qlt q0 (max_grad o) = true -> complementary eqm inm (length Jc + length Jd) ->
  new_scaling o g Jc Jd eqm inm = Some s ->
  usable (length eqm + length inm) s /\ length (s_c s) = length eqm /\ length (s_d s) = length inm /\
  length Jc = length eqm /\ length Jd = length inm /\ s_obj s = obj_factor o g /\
  block_factors o (row_max_abs Jc) = Some (s_c s) /\ block_factors o (row_max_abs Jd) = Some (s_d s).
Proof.
  intros H1 H2 H3 H4 HC H. apply qlt_true in H4. unfold new_scaling in H.
  destruct (merge _ _ _ _ _) as [cd|] eqn:EM; try discriminate.
  destruct (block_factors o (row_max_abs Jc)) as [c|] eqn:E1; try discriminate.
  destruct (block_factors o (row_max_abs Jd)) as [d|] eqn:E2; try discriminate. injection H as <-. simpl.
  destruct (block_factors_spec o Jc c H4 H1 H3 E1) as (L1 & F1). destruct (block_factors_spec o Jd d H4 H1 H3 E2) as (L2 & F2).
  assert (LM : length Jc = length eqm /\ length Jd = length inm).
  { unfold merge in EM. rewrite !row_factors_len in EM. unfold row_max_abs in EM. rewrite !map_length in EM.
    destruct (length Jc =? length eqm) eqn:Q1; try discriminate. destruct (length Jd =? length inm) eqn:Q2; try discriminate.
    apply Nat.eqb_eq in Q1. apply Nat.eqb_eq in Q2. auto. }
  destruct LM as [M1 M2].
  assert (Lb : length (map (fun _ => q0) (Jc ++ Jd)) = length Jc + length Jd) by (rewrite map_length, app_length; auto).
  assert (LR : forall J, length (row_factors o (row_max_abs J)) = length J) by (intro J; rewrite row_factors_len; apply map_length).
  assert (HC0 := HC). rewrite <- Lb in HC.
  destruct (merge_spec Qc (map (fun _ => q0) (Jc ++ Jd)) (row_factors o (row_max_abs Jc)) (row_factors o (row_max_abs Jd)) eqm inm HC) as (cd' & R & L & P1 & P2); [rewrite LR; auto|rewrite LR; auto|].
  assert (cd' = cd) by congruence. subst cd'.
  destruct (compl_facts _ _ _ HC0) as (_ & _ & _ & _ & CV & _ & LN).
  assert (NZ : forall (J : list (list Qc)) v, length v = length J -> (forall k f r, nth_error v k = Some f -> nth_error J k = Some r -> Qclt (Q2Qc 0) f) -> forall a, In a v -> a <> Q2Qc 0).
  { intros J v L0 F a Ha. apply In_nth_error in Ha as (k & Hk). assert (k < length J) by (rewrite <- L0; apply nth_error_Some; congruence).
    destruct (nth_error J k) as [r|] eqn:Er; [|apply nth_error_None in Er; lia].
    apply pos_nz. exact (F k a r Hk Er). }
  split; [|split; [lia|split; [lia|split; [lia|split; [lia|auto]]]]].
  split; [apply pos_nz; apply obj_factor_spec; auto|].
  split; [apply (NZ Jc c L1); intros k f r A B; apply (F1 k f r A B)|].
  split; [apply (NZ Jd d L2); intros k f r A B; apply (F2 k f r A B)|]. split; [|simpl in *; lia].
  intros a Ha. apply In_nth_error in Ha as (i & Hi). assert (Hlt : i < length Jc + length Jd) by (rewrite <- Lb, <- L; apply nth_error_Some; simpl in *; congruence).
  destruct (CV i Hlt) as [Hin|Hin]; apply In_nth_error in Hin as (k & Hk).
  - simpl in Hi. rewrite (P1 k i Hk) in Hi. apply pos_nz. apply (row_factors_pos o (row_max_abs Jc)); auto; [apply row_max_pos|eapply nth_error_In; eauto].
  - simpl in Hi. rewrite (P2 k i Hk) in Hi. apply pos_nz. apply (row_factors_pos o (row_max_abs Jd)); auto; [apply row_max_pos|eapply nth_error_In; eauto].
Qed.

Lemma block_is_row o r v : qlt q0 (max_grad o) = true -> max_con_grad o = q0 -> (forall y, In y r -> qle q0 y) ->
  (forall f, In f (row_factors o r) -> qle (min_grad o) f) ->
  block_factors o r = Some v -> v = row_factors o r.
Proof.
  intros HM HC HP HMin H. apply qlt_true in HM. unfold block_factors in H. rewrite HC in H. change (qeqb q0 q0) with true in H.
  cbv iota in H.
  assert (CM : forall w, (forall f, In f w -> qle (min_grad o) f) -> component_max (min_grad o) w = w).
  { intros w Hw. unfold component_max. transitivity (map (fun x : Qc => x) w); [|apply map_id]. apply map_ext_in.
    intros x Hx. destruct (qlt x (min_grad o)) eqn:E; auto. apply qlt_true in E. exfalso. apply (Qclt_not_le _ _ E). apply Hw. auto. }
  destruct (qlt (max_grad o) (infnorm r)) eqn:E.
  - destruct (qlt q0 (min_grad o)); injection H as <-; auto.
  - apply qlt_false in E.
    assert (E1 : map (fun _ : Qc => q1) r = row_factors o r).
    { unfold row_factors, invert, component_max. rewrite !map_map. apply map_ext_in. intros y Hy. symmetry.
      apply (row_factor_spec (max_grad o) y HM (HP y Hy)). apply Qcle_trans with (infnorm r); auto.
      apply infnorm_pos; auto. }
    rewrite E1 in H. destruct (qlt q0 (min_grad o)); injection H as <-; auto.
Qed.

Lemma new_scaling_matching o g Jc Jd eqm inm s : qlt q0 (max_grad o) = true -> max_con_grad o = q0 ->
  complementary eqm inm (length Jc + length Jd) ->
  (forall f, In f (row_factors o (row_max_abs Jc) ++ row_factors o (row_max_abs Jd)) -> qle (min_grad o) f) ->
  new_scaling o g Jc Jd eqm inm = Some s -> matching eqm inm s.
Proof.
  intros H1 H2 HC HMin H. unfold new_scaling in H.
  destruct (merge _ _ _ _ _) as [cd|] eqn:EM; try discriminate.
  destruct (block_factors o (row_max_abs Jc)) as [c|] eqn:E1; try discriminate.
  destruct (block_factors o (row_max_abs Jd)) as [d|] eqn:E2; try discriminate. injection H as <-.
  apply block_is_row in E1; auto; [|apply row_max_pos|intros; apply HMin; apply in_or_app; auto].
  apply block_is_row in E2; auto; [|apply row_max_pos|intros; apply HMin; apply in_or_app; auto]. subst c d.
  assert (LR : forall J, length (row_factors o (row_max_abs J)) = length J) by (intro J; rewrite row_factors_len; apply map_length).
  assert (LM : length Jc = length eqm /\ length Jd = length inm).
  { unfold merge in EM. rewrite !LR in EM.
    destruct (length Jc =? length eqm) eqn:Q1; try discriminate. destruct (length Jd =? length inm) eqn:Q2; try discriminate.
    apply Nat.eqb_eq in Q1. apply Nat.eqb_eq in Q2. auto. }
  assert (Lb : length (map (fun _ => q0) (Jc ++ Jd)) = length Jc + length Jd) by (rewrite map_length, app_length; auto).
  rewrite <- Lb in HC.
  destruct (merge_spec Qc (map (fun _ => q0) (Jc ++ Jd)) (row_factors o (row_max_abs Jc)) (row_factors o (row_max_abs Jd)) eqm inm HC) as (cd' & R & L & P1 & P2); [rewrite LR; lia|rewrite LR; lia|].
  assert (cd' = cd) by congruence. subst cd'. split; auto.
Qed.

Lemma apply_scaling_built o P ss rhs dl du g Jc Jd P' b r l u eqm inm :
  qle q0 (max_con_grad o) -> qle q0 (max_obj_grad o) -> qle q0 (min_grad o) -> qlt q0 (max_grad o) = true ->
  built eqm inm P ss -> complementary eqm inm (length Jc + length Jd) ->
  length rhs = length eqm -> length dl = length inm -> length du = length inm ->
  apply_scaling o P rhs dl du g Jc Jd = Some (P', b, r, l, u) ->
  (b = false /\ P' = P /\ r = rhs /\ l = dl /\ u = du) \/
  (b = true /\ exists s, new_scaling o g Jc Jd eqm inm = Some s /\ built eqm inm P' (ss ++ [s]) /\
     cmult Qc_field rhs (s_c s) = Some r /\ cmult Qc_field dl (s_d s) = Some l /\ cmult Qc_field du (s_d s) = Some u).
Proof.
  intros H1 H2 H3 H4 HB HC L1 L2 L3 H. unfold apply_scaling in H.
  destruct (qlt (infnorm g) _ && qlt (max_abs_value Jc) _ && qlt (max_abs_value Jd) _).
  - left. injection H as <- <- <- <- <-. auto.
  - right. pose proof (built_inv _ _ _ _ _ HB) as (E1 & E2 & _). rewrite E1, E2 in H.
    destruct (new_scaling o g Jc Jd eqm inm) as [s|] eqn:EN; try discriminate.
    destruct (add_scaling P s rhs dl du) as [[[[P1 r1] l1] u1]|] eqn:EA; try discriminate.
    injection H as <- <- <- <- <-. split; auto. exists s. split; auto.
    destruct (new_scaling_facts o g Jc Jd eqm inm s H1 H2 H3 H4 HC EN) as (U & _).
    split; [exact (b_add Qc_field eqm inm P ss s rhs dl du _ _ _ _ HB U L1 L2 L3 EA)|]. unfold add_scaling in EA.
    destruct (cmult Qc_field rhs (s_c s)); try discriminate. destruct (cmult Qc_field dl (s_d s)); try discriminate.
    destruct (cmult Qc_field du (s_d s)); try discriminate. injection EA as _ <- <- <-. auto.
Qed.
