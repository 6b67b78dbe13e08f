(** Proofs for the per-iteration callbacks (C90). *)
From Coq Require Import List Bool Arith ZArith Lia Sorted Permutation QArith Qcanon.
From Verif Require Import RingKit PackModel PackSpec PackProofs SparseModel SparseSpec
  ScaleModel FactorModel ScaleSpec ScaleProofs ScaleProofs2 ScaleProofs3 IterCbModel.
Import ListNotations.
Close Scope Qc_scope. Close Scope Q_scope. Open Scope nat_scope.
Section Pr.
Variable K : cfield.

Lemma iterate_runs eqm inm (P : nlp K) ss x s y b c d obj lb :
  built eqm inm P ss -> complementary eqm inm (length b) ->
  length (y_c y) = length eqm -> length (y_d y) = length inm ->
  two_call P (two_user b) = Vals (c, d) ->
  exists r, callback_iterate P x s y c d obj lb = Some r /\
    i_obj r = fdiv obj (get_obj_scale P) /\ i_logbar r = lb /\ i_x r = x /\ i_zl r = z_l y /\
    i_zu r = z_u y /\ i_s r = s /\ length (i_cons r) = length b /\ length (i_lambda r) = length b /\
    (forall k, k < length eqm -> at_ (i_cons r) (nth k eqm 0) = rowfac K s_c (n_chain P) k *! at_ b (nth k eqm 0)) /\
    (forall k, k < length inm -> at_ (i_cons r) (nth k inm 0) = rowfac K s_d (n_chain P) k *! at_ b (nth k inm 0)) /\
    (forall k, k < length eqm -> at_ (i_lambda r) (nth k eqm 0) = at_ (y_c y) k) /\
    (forall k, k < length inm -> at_ (i_lambda r) (nth k inm 0) = at_ (y_d y) k).
Proof.
  intros HB HC L1 L2 HT.
  destruct (two_call_spec K eqm inm P ss b HB HC) as (c0 & d0 & T & _ & _ & _ & Lc & Ld & C1 & D1).
  rewrite T in HT. injection HT as -> ->.
  pose proof (built_inv _ _ _ _ _ HB) as (E1 & E2 & _).
  destruct (compl_facts _ _ _ HC) as (_ & _ & _ & _ & _ & _ & LN).
  assert (Lb : length (map (fun _ => f0 : K) (eqm ++ inm)) = length b) by (rewrite map_length, app_length; lia).
  unfold callback_iterate. rewrite E1, E2.
  rewrite (proj2 (Nat.eqb_eq (length c + length d) (length (eqm ++ inm)))) by (rewrite app_length; lia).
  rewrite (proj2 (Nat.eqb_eq (length (y_c y)) (length eqm))) by auto.
  rewrite (proj2 (Nat.eqb_eq (length (y_d y)) (length inm))) by auto. cbn [andb].
  pose proof HC as HC0. rewrite <- Lb in HC0.
  destruct (merge_spec K _ (y_c y) (y_d y) eqm inm HC0 L1 L2) as (lam & R1 & _).
  destruct (merge_spec K _ c d eqm inm HC0 Lc Ld) as (body & R2 & _).
  destruct (merge_at _ _ _ _ _ _ _ HC0 L1 L2 R1) as (A1 & A2 & A3).
  destruct (merge_at _ _ _ _ _ _ _ HC0 Lc Ld R2) as (B1 & B2 & B3).
  rewrite R1, R2. eexists. split; [reflexivity|]. cbn [i_obj i_logbar i_x i_zl i_zu i_s i_cons i_lambda].
  do 6 (split; [reflexivity|]). split; [lia|]. split; [lia|].
  split; [intros k Hk; rewrite B2 by auto; apply C1; auto|].
  split; [intros k Hk; rewrite B3 by auto; apply D1; auto|]. split; auto.
Qed.

Lemma rowfac_none pick (ch : list (trans K)) k : scalings K ch = [] -> rowfac K pick ch k = f1.
Proof. intro H. rewrite rowfac_scalings, H. reflexivity. Qed.

(** a list is determined by its values at the indices of the two sets *)
Lemma at_cover eqm inm (a b : list K) : complementary eqm inm (length b) -> length a = length b ->
  (forall k, k < length eqm -> at_ a (nth k eqm 0) = at_ b (nth k eqm 0)) ->
  (forall k, k < length inm -> at_ a (nth k inm 0) = at_ b (nth k inm 0)) -> a = b.
Proof.
  intros HC L H1 H2. apply at_ext; auto. intros i Hi.
  assert (I : In i (eqm ++ inm)). { apply Permutation_in with (seq 0 (length b)). 2: apply in_seq; lia. apply Permutation_sym, HC. }
  apply in_app_or in I as [I|I]; apply (In_nth _ _ 0) in I as (k & Hk & <-); auto.
Qed.
Add Field Kf : (fth K).

Lemma iterate_plain eqm inm (P : nlp K) x s y b c d f lb :
  built eqm inm P [] -> complementary eqm inm (length b) ->
  length (y_c y) = length eqm -> length (y_d y) = length inm ->
  two_call P (two_user b) = Vals (c, d) ->
  exists r, callback_iterate P x s y c d (eval_f P f) lb = Some r /\
    i_obj r = f /\ i_logbar r = lb /\ i_x r = x /\ i_zl r = z_l y /\ i_zu r = z_u y /\ i_s r = s /\ i_cons r = b /\
    length (i_lambda r) = length b /\
    (forall k, k < length eqm -> at_ (i_lambda r) (nth k eqm 0) = at_ (y_c y) k) /\
    (forall k, k < length inm -> at_ (i_lambda r) (nth k inm 0) = at_ (y_d y) k).
Proof.
  intros HB HC L1 L2 HT.
  destruct (iterate_runs eqm inm P [] x s y b c d (eval_f P f) lb HB HC L1 L2 HT)
    as (r & E & O & A & A1 & A2 & A3 & A4 & A5 & A6 & A7 & A8 & A9).
  pose proof (built_inv _ _ _ _ _ HB) as (_ & _ & E3 & _).
  exists r. split; [exact E|]. split.
  { rewrite O, (hess_single K eqm inm P [] HB) by (simpl; lia). unfold eval_f. rewrite ch_obj. apply div_cancel.
    rewrite objfac_scalings, E3. simpl. apply one_nz. }
  do 5 (split; [assumption|]). split; [|tauto].
  apply (at_cover eqm inm); auto.
  - intros k Hk. rewrite A7 by auto. rewrite rowfac_none by auto. ring.
  - intros k Hk. rewrite A8 by auto. rewrite rowfac_none by auto. ring.
Qed.

Lemma iterate_single eqm inm (P : nlp K) t x s y b c d f lb :
  built eqm inm P [t] -> complementary eqm inm (length b) ->
  length (y_c y) = length eqm -> length (y_d y) = length inm ->
  two_call P (two_user b) = Vals (c, d) ->
  exists r, callback_iterate P x s y c d (eval_f P f) lb = Some r /\ i_obj r = f /\
    length (i_cons r) = length b /\
    (forall k, k < length eqm -> at_ (i_cons r) (nth k eqm 0) = at_ (s_c t) k *! at_ b (nth k eqm 0)) /\
    (forall k, k < length inm -> at_ (i_cons r) (nth k inm 0) = at_ (s_d t) k *! at_ b (nth k inm 0)).
Proof.
  intros HB HC L1 L2 HT.
  destruct (iterate_runs eqm inm P [t] x s y b c d (eval_f P f) lb HB HC L1 L2 HT)
    as (r & E & O & A & A1 & A2 & A3 & A4 & A5 & A6 & A7 & A8 & A9).
  pose proof (built_inv _ _ _ _ _ HB) as (_ & _ & E3 & _ & U).
  exists r. split; [exact E|]. split.
  { rewrite O, (hess_single K eqm inm P [t] HB) by (simpl; lia). unfold eval_f. rewrite ch_obj. apply div_cancel.
    rewrite objfac_scalings, E3. simpl.
    assert (I : In (TScale t) (n_chain P)) by (apply in_scalings; rewrite E3; left; auto).
    destruct (U t I) as ((N & _) & _). intro Z. apply N. rewrite <- Z. ring. }
  split; [exact A5|]. split.
  - intros k Hk. rewrite A7 by auto. rewrite rowfac_scalings, E3. cbn. ring.
  - intros k Hk. rewrite A8 by auto. rewrite rowfac_scalings, E3. cbn. ring.
Qed.

(** without scaling the values are those the solution callback would be given at the same iterate *)
Lemma iterate_as_solution eqm inm (P : nlp K) x s y b c d obj lb :
  built eqm inm P [] -> complementary eqm inm (length b) ->
  length (y_c y) = length eqm -> length (y_d y) = length inm ->
  two_call P (two_user b) = Vals (c, d) ->
  exists r q, callback_iterate P x s y c d obj lb = Some r /\ callback_solution P y c d obj = Some (q, y, c, d) /\
    i_obj r = r_obj q /\ i_zl r = r_zl q /\ i_zu r = r_zu q /\ i_cons r = r_cons q /\ i_lambda r = r_lambda q.
Proof.
  intros HB HC L1 L2 HT.
  destruct (iterate_runs eqm inm P [] x s y b c d obj lb HB HC L1 L2 HT) as (r & E & _).
  exists r. revert E. unfold callback_iterate, callback_solution.
  pose proof (built_inv _ _ _ _ _ HB) as (_ & _ & _ & E4 & _). simpl in E4. rewrite E4.
  destruct (_ && _); [|discriminate].
  destruct (merge _ (y_c y) _ _ _) as [lam|]; [|discriminate].
  destruct (merge _ c _ _ _) as [bd|]; [|discriminate]. intros [= <-].
  eexists. split; [reflexivity|]. split; [destruct y; reflexivity|]. cbn. auto.
Qed.

Lemma full_host (mem : nat -> list K) a r : (forall n, length (mem n) = n) ->
  callback_full true mem a = Some r ->
  g_x r = g_x a /\ g_yc r = g_yc a /\ g_yd r = g_yd a /\ g_s r = g_s a /\
  g_zl r = g_vl a /\ g_zu r = g_vu a /\ g_vl r = mem (length (g_yd a)) /\ g_vu r = mem (length (g_yd a)) /\
  length (g_vl a) = length (g_x a) /\ length (g_vu a) = length (g_x a).
Proof.
  intros HM. unfold callback_full, to_host. rewrite !HM.
  repeat match goal with |- context[if ?b then _ else _] => destruct b eqn:?; try discriminate end.
  intros [= <-]. cbn. repeat match goal with H : (_ =? _) = true |- _ => apply Nat.eqb_eq in H end.
  repeat split; auto; congruence.
Qed.
End Pr.
