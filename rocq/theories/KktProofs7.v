(** The sparse reduced systems. *)
From Coq Require Import List Bool Arith Lia Ring Field Sorted.
From Verif Require Import RingKit.
From Verif Require Import PackModel SparseModel SparseSpec SparseProofs SparseProofs3.
From Verif Require Import KktModel KktModel2 KktSpec KktProofs KktProofs2 KktProofs3 KktProofs6.
Import ListNotations.

Section P.
Variable K : cfield.
Add Field kf : (fth K).
Notation vec := (nat -> K).
Notation entry := (entry K).
Variables (Q : sprob K) (it : iter K) (e : deltas K).
Hypothesis OK : sparse_ok K Q.
Let P := sp_prob K Q.
Let n := nx P.
Let q := neq P.
Let m := ni P.
Let H := t_ent (s_H Q).
Let Jc := t_ent (s_Jc Q).
Let Jd := t_ent (s_Jd Q).

Lemma WH x : In x H -> row x < n /\ col x < n.
Proof. destruct OK as (W & _ & _ & _ & _ & _ & E & _). intros X. destruct (W x X) as (A & B). rewrite E in A. split; [exact A|exact B]. Qed.
Lemma WJc x : In x Jc -> row x < q /\ col x < n.
Proof. destruct OK as (_ & W & _ & _ & _ & _ & _ & E & _). intros X. destruct (W x X) as (A & B). rewrite E in B. split; [exact A|exact B]. Qed.
Lemma WJd x : In x Jd -> row x < m /\ col x < n.
Proof. destruct OK as (_ & _ & W & _ & _ & _ & _ & _ & E & _). intros X. destruct (W x X) as (A & B). rewrite E in B. split; [exact A|exact B]. Qed.
Lemma sz : t_m (s_H Q) = n /\ t_n (s_H Q) = n /\ t_m (s_Jc Q) = q /\ t_n (s_Jc Q) = n /\ t_m (s_Jd Q) = m /\ t_n (s_Jd Q) = n.
Proof. destruct OK as (_ & _ & _ & _ & _ & _ & A & B & C & _). unfold n, q, m, P, sp_prob. cbn. repeat split; assumption. Qed.
(** rows of the Hessian block *)
Lemma rp_H s i : rp K s H i +! cp K s H i = if i <? n then mv K n (p_H P) s i else f0.
Proof.
  rewrite <- (symprod K n s H i WH). destruct (Nat.ltb_spec i n) as [L|L]; [reflexivity|].
  apply sumn_zero. intros j Hj. assert (Z : forall a b, n <= a \/ n <= b -> SparseSpec.mat H a b = f0).
  { intros a b AB. unfold SparseSpec.mat. apply lsum_zero. intros x X. destruct (WH x X). destruct (Nat.eqb_spec (row x) a), (Nat.eqb_spec (col x) b); cbn; try reflexivity; lia. }
  unfold symmat. destruct (Nat.eqb_spec i j); [lia|]. rewrite !Z by lia. ring.
Qed.
Lemma moved00 (l : list entry) : moved K 0 0 l = l.
Proof. unfold moved. rewrite <- (map_id l) at 2. apply map_ext. intros [[a b] v]. reflexivity. Qed.

Section XY.
Variable Ddi : vec.
Let N := n + q + m.
Let Z := length H + length Jc + length Jd + n + q + m.
Definition xy_ent : list entry :=
  moved K 0 0 H ++ moved K n 0 Jc ++ moved K (n + q) 0 Jd ++ diagb K 0 0 n (fun i => f1 *! (barrier_x K P it i +! e_wx e i)) ++
  diagb K n n q (fun i => fopp f1 *! e_cc e i) ++ diagb K (n + q) (n + q) m (fun i => fopp f1 *! Ddi i).
Lemma xy_mat M : slots_of K N Z M -> exists R, sp_xycyd_mat K Q it e Ddi M = Some R /\ t_ent R = xy_ent.
Proof.
  intros (A & B & C). destruct sz as (S1 & S2 & S3 & S4 & S5 & S6). destruct OK as (W1 & W2 & W3 & O1 & O2 & O3 & _).
  unfold sp_xycyd_mat. cbv zeta. fold P n q m H Jc Jd.
  pose proof (zero_filled K N Z M A B C) as F0.
  eapply (step_rows K N Z [] _ F0 (s_H Q) n 0 0); try assumption; try (unfold N, Z; cbn; fold H; lia). intros r1 F1. cbn [app] in F1. fold H in F1.
  eapply (step_rows K N Z _ _ F1 (s_Jc Q) q n); try assumption; try (rewrite ?moved_len; unfold N, Z; fold H Jc; lia). intros r2 F2. fold Jc in F2.
  eapply (step_rows K N Z _ _ F2 (s_Jd Q) m (n + q)); try assumption; try (rewrite ?app_length, ?moved_len; unfold N, Z; fold H Jc Jd; lia). intros r3 F3. fold Jd in F3.
  eapply (step_sub K N Z _ _ F3 0 n (fun i => barrier_x K P it i +! e_wx e i)); try (rewrite ?app_length, ?moved_len; unfold N, Z; lia). intros r4 F4.
  eapply (step_sub K N Z _ _ F4 n q (e_cc e)); try (rewrite ?app_length, ?moved_len, ?diagb_len; unfold N, Z; lia). intros r5 F5.
  apply obind_some. eapply (step_sub K N Z _ _ F5 (n + q) m Ddi); try (rewrite ?app_length, ?moved_len, ?diagb_len; unfold N, Z; lia). intros r6 F6.
  exists r6. split; [reflexivity|]. rewrite (filled_full K _ _ _ _ F6).
  - unfold xy_ent. rewrite <- !app_assoc. reflexivity.
  - rewrite ?app_length, ?moved_len, ?diagb_len. unfold Z. lia.
Qed.
Lemma xy_in x : In x xy_ent -> row x < N /\ col x < N.
Proof.
  unfold xy_ent, N. rewrite !in_app_iff. intros [X|[X|[X|[X|[X|X]]]]].
  - apply (moved_in K H n n WH) in X. lia.
  - apply (moved_in K Jc q n WJc) in X. lia.
  - apply (moved_in K Jd m n WJd) in X. lia.
  - apply diagb_in in X. lia.
  - apply diagb_in in X. lia.
  - apply diagb_in in X. lia.
Qed.
Lemma xy_solve_ok S R rx ryc ryd dx dyc dyd : exact_sym K S -> t_ent R = xy_ent -> (forall i, i < m -> e_cd e i = f0) ->
  sp_xycyd_solve K S P R rx ryc ryd = Some (dx, dyc, dyd) -> xycyd_sys K P it e Ddi rx ryc ryd dx dyc dyd.
Proof.
  intros EX ER ZC. unfold sp_xycyd_solve. fold n q m. fold N. destruct (S N _ _) as [s|] eqn:E; [|discriminate]. intros [= <- <- <-].
  assert (R' : forall i, i < N -> rp K s xy_ent i +! cp K s xy_ent i = KktModel.put K n rx (KktModel.put K q ryc ryd) i).
  { intros i Hi. rewrite <- (symprod K N s xy_ent i xy_in). rewrite <- ER. exact (EX _ _ _ _ E i Hi). }
  clear E. unfold xy_ent, N in R'. unfold xycyd_sys. fold n q m. unfold cut, tmv. cbn [Nat.add].
  assert (T : forall i, i < n + q + m ->
    (rp K s H i +! cp K s H i) +! (rp K s (moved K n 0 Jc) i +! cp K s (moved K n 0 Jc) i) +! (rp K s (moved K (n + q) 0 Jd) i +! cp K s (moved K (n + q) 0 Jd) i) +!
    rp K s (diagb K 0 0 n (fun i => f1 *! (barrier_x K P it i +! e_wx e i))) i +! rp K s (diagb K n n q (fun i => fopp f1 *! e_cc e i)) i +!
    rp K s (diagb K (n + q) (n + q) m (fun i => fopp f1 *! Ddi i)) i = KktModel.put K n rx (KktModel.put K q ryc ryd) i).
  { intros i Hi. rewrite <- (R' i Hi), moved00, !rp_app, !cp_app, !cp_diag. ring. }
  clear R'. split; [|split]; intros i Hi.
  - specialize (T i ltac:(lia)). rewrite put_l in T by lia. rewrite <- T. rewrite rp_H.
    rewrite (rp_moved K Jc q n WJc), (cp_moved K Jc q n WJc), (rp_moved K Jd m n WJd), (cp_moved K Jd m n WJd), !rp_diag by lia.
    bdec. rewrite Nat.sub_0_r. cbn [Nat.add]. rewrite barrier_x_eq.
    transitivity (mv K n (p_H P) s i +! (xdiag K P it i +! e_wx e i) *! s i +! sumn q (fun k => SparseSpec.mat Jc k i *! s (n + k)) +! sumn m (fun k => SparseSpec.mat Jd k i *! s (n + q + k))); [reflexivity|ring].
  - specialize (T (n + i) ltac:(lia)). rewrite put_r, put_l in T by lia. rewrite <- T. rewrite rp_H.
    rewrite (rp_moved K Jc q n WJc), (cp_moved K Jc q n WJc), (rp_moved K Jd m n WJd), (cp_moved K Jd m n WJd), !rp_diag by lia.
    bdec. replace (n + i - n) with i by lia. cbn [Nat.add]. unfold mv.
    transitivity (sumn n (fun j => SparseSpec.mat Jc i j *! s j) -! e_cc e i *! s (n + i)); [reflexivity|ring].
  - specialize (T (n + q + i) ltac:(lia)). rewrite put_rr in T. rewrite <- T. rewrite rp_H.
    rewrite (rp_moved K Jc q n WJc), (cp_moved K Jc q n WJc), (rp_moved K Jd m n WJd), (cp_moved K Jd m n WJd), !rp_diag by lia.
    bdec. replace (n + q + i - (n + q)) with i by lia. cbn [Nat.add]. unfold mv. rewrite (ZC i Hi).
    transitivity (sumn n (fun j => SparseSpec.mat Jd i j *! s j) -! (Ddi i +! f0) *! s (n + q + i)); [reflexivity|ring].
Qed.
End XY.

Section XD.
Let N := n + m + q + m.
Let Z := length H + length Jc + length Jd + m + n + m + q + m.
Definition xd_ent : list entry :=
  moved K 0 0 H ++ moved K (n + m) 0 Jc ++ moved K (n + m + q) 0 Jd ++ diagb K (n + m + q) n m (fun _ => fopp f1) ++
  diagb K 0 0 n (fun i => f1 *! (barrier_x K P it i +! e_wx e i)) ++ diagb K n n m (fun i => f1 *! (barrier_d K P it i +! e_wd e i)) ++
  diagb K (n + m) (n + m) q (fun i => fopp f1 *! e_cc e i) ++ diagb K (n + m + q) (n + m + q) m (fun i => fopp f1 *! e_cd e i).
Lemma xd_mat M : slots_of K N Z M -> exists R, sp_xdycyd_mat K Q it e M = Some R /\ t_ent R = xd_ent.
Proof.
  intros (A & B & C). destruct sz as (S1 & S2 & S3 & S4 & S5 & S6). destruct OK as (W1 & W2 & W3 & O1 & O2 & O3 & _).
  unfold sp_xdycyd_mat. cbv zeta. fold P n q m H Jc Jd.
  pose proof (zero_filled K N Z M A B C) as F0.
  eapply (step_rows K N Z [] _ F0 (s_H Q) n 0 0); try assumption; try (unfold N, Z; cbn; fold H; lia). intros r1 F1. cbn [app] in F1. fold H in F1.
  eapply (step_rows K N Z _ _ F1 (s_Jc Q) q (n + m)); try assumption; try (rewrite ?moved_len; unfold N, Z; fold H Jc; lia). intros r2 F2. fold Jc in F2.
  eapply (step_rows K N Z _ _ F2 (s_Jd Q) m (n + m + q)); try assumption; try (rewrite ?app_length, ?moved_len; unfold N, Z; fold H Jc Jd; lia). intros r3 F3. fold Jd in F3.
  eapply (step_diag K N Z _ _ F3 (fopp f1) (n + m + q) n); try (rewrite ?app_length, ?moved_len; unfold N, Z; lia). intros r4 F4.
  eapply (step_sub K N Z _ _ F4 0 n (fun i => barrier_x K P it i +! e_wx e i)); try (rewrite ?app_length, ?moved_len, ?diagb_len; unfold N, Z; lia). intros r5 F5.
  eapply (step_sub K N Z _ _ F5 n m (fun i => barrier_d K P it i +! e_wd e i)); try (rewrite ?app_length, ?moved_len, ?diagb_len; unfold N, Z; lia). intros r6 F6.
  eapply (step_sub K N Z _ _ F6 (n + m) q (e_cc e)); try (rewrite ?app_length, ?moved_len, ?diagb_len; unfold N, Z; lia). intros r7 F7.
  apply obind_some. eapply (step_sub K N Z _ _ F7 (n + m + q) m (e_cd e)); try (rewrite ?app_length, ?moved_len, ?diagb_len; unfold N, Z; lia). intros r8 F8.
  exists r8. split; [reflexivity|]. rewrite (filled_full K _ _ _ _ F8).
  - unfold xd_ent. rewrite <- !app_assoc. reflexivity.
  - rewrite ?app_length, ?moved_len, ?diagb_len. unfold Z. lia.
Qed.
Lemma xd_in x : In x xd_ent -> row x < N /\ col x < N.
Proof.
  unfold xd_ent, N. rewrite !in_app_iff. intros [X|[X|[X|[X|[X|[X|[X|X]]]]]]].
  - apply (moved_in K H n n WH) in X. lia.
  - apply (moved_in K Jc q n WJc) in X. lia.
  - apply (moved_in K Jd m n WJd) in X. lia.
  - apply diagb_in in X. lia.
  - apply diagb_in in X. lia.
  - apply diagb_in in X. lia.
  - apply diagb_in in X. lia.
  - apply diagb_in in X. lia.
Qed.
Lemma xd_solve_ok S R rx rd ryc ryd dx dd dyc dyd : exact_sym K S -> t_ent R = xd_ent ->
  sp_xdycyd_solve K S P R rx rd ryc ryd = Some (dx, dd, dyc, dyd) -> xdycyd_sys K P it e rx rd ryc ryd dx dd dyc dyd.
Proof.
  intros EX ER. unfold sp_xdycyd_solve. fold n q m. fold N. destruct (S N _ _) as [s|] eqn:E; [|discriminate]. intros [= <- <- <- <-].
  assert (R' : forall i, i < N -> rp K s xd_ent i +! cp K s xd_ent i = KktModel.put K n rx (KktModel.put K m rd (KktModel.put K q ryc ryd)) i).
  { intros i Hi. rewrite <- (symprod K N s xd_ent i xd_in). rewrite <- ER. exact (EX _ _ _ _ E i Hi). }
  clear E. unfold xd_ent, N in R'. unfold xdycyd_sys. fold n q m. unfold cut, tmv. cbn [Nat.add].
  assert (T : forall i, i < n + m + q + m ->
    (rp K s H i +! cp K s H i) +! (rp K s (moved K (n + m) 0 Jc) i +! cp K s (moved K (n + m) 0 Jc) i) +! (rp K s (moved K (n + m + q) 0 Jd) i +! cp K s (moved K (n + m + q) 0 Jd) i) +!
    (rp K s (diagb K (n + m + q) n m (fun _ => fopp f1)) i +! cp K s (diagb K (n + m + q) n m (fun _ => fopp f1)) i) +!
    rp K s (diagb K 0 0 n (fun i => f1 *! (barrier_x K P it i +! e_wx e i))) i +! rp K s (diagb K n n m (fun i => f1 *! (barrier_d K P it i +! e_wd e i))) i +!
    rp K s (diagb K (n + m) (n + m) q (fun i => fopp f1 *! e_cc e i)) i +! rp K s (diagb K (n + m + q) (n + m + q) m (fun i => fopp f1 *! e_cd e i)) i =
    KktModel.put K n rx (KktModel.put K m rd (KktModel.put K q ryc ryd)) i).
  { intros i Hi. rewrite <- (R' i Hi), moved00, !rp_app, !cp_app, !cp_diag. ring. }
  clear R'.
  split; [|split; [|split]]; intros i Hi.
  - specialize (T i ltac:(lia)). rewrite put_l in T by lia. rewrite <- T. rewrite rp_H.
    rewrite (rp_moved K Jc q n WJc), (cp_moved K Jc q n WJc), (rp_moved K Jd m n WJd), (cp_moved K Jd m n WJd), !rp_diag by lia.
    destruct (Nat.eq_dec m 0) as [M0|M0].
    + unfold diagb. rewrite M0. cbn [seq map]. unfold cp at 1. cbn [map lsum]. bdec. rewrite Nat.sub_0_r. cbn [Nat.add]. rewrite barrier_x_eq.
      transitivity (mv K n (p_H P) s i +! (xdiag K P it i +! e_wx e i) *! s i +! sumn q (fun k => SparseSpec.mat Jc k i *! s (n + 0 + k)) +! sumn 0 (fun k => SparseSpec.mat Jd k i *! s (n + 0 + q + k))); [reflexivity|ring].
    + rewrite cp_diag2 by lia. bdec. rewrite Nat.sub_0_r. cbn [Nat.add]. rewrite barrier_x_eq.
      transitivity (mv K n (p_H P) s i +! (xdiag K P it i +! e_wx e i) *! s i +! sumn q (fun k => SparseSpec.mat Jc k i *! s (n + m + k)) +! sumn m (fun k => SparseSpec.mat Jd k i *! s (n + m + q + k))); [reflexivity|ring].
  - specialize (T (n + i) ltac:(lia)). rewrite put_r, put_l in T by lia. rewrite <- T. rewrite rp_H.
    rewrite (rp_moved K Jc q n WJc), (cp_moved K Jc q n WJc), (rp_moved K Jd m n WJd), (cp_moved K Jd m n WJd), !rp_diag, cp_diag2 by lia.
    bdec. replace (n + i - n) with i by lia. rewrite <- (barrier_d_eq K P it e). ring.
  - specialize (T (n + m + i) ltac:(lia)). rewrite put_rr, put_l in T by lia. rewrite <- T. rewrite rp_H.
    rewrite (rp_moved K Jc q n WJc), (cp_moved K Jc q n WJc), (rp_moved K Jd m n WJd), (cp_moved K Jd m n WJd), !rp_diag by lia.
    assert (C0 : cp K s (diagb K (n + m + q) n m (fun _ => fopp f1)) (n + m + i) = f0).
    { destruct (Nat.eq_dec m 0) as [M0|M0]; [unfold diagb; rewrite M0; reflexivity|]. rewrite cp_diag2 by lia. bdec. reflexivity. }
    rewrite C0. bdec. replace (n + m + i - (n + m)) with i by lia. cbn [Nat.add]. unfold mv.
    transitivity (sumn n (fun j => SparseSpec.mat Jc i j *! s j) -! e_cc e i *! s (n + m + i)); [reflexivity|ring].
  - specialize (T (n + m + q + i) ltac:(lia)). rewrite <- (Nat.add_assoc (n + m) q i), put_rr, put_r, Nat.add_assoc in T by lia. rewrite <- T. rewrite rp_H.
    rewrite (rp_moved K Jc q n WJc), (cp_moved K Jc q n WJc), (rp_moved K Jd m n WJd), (cp_moved K Jd m n WJd), !rp_diag, cp_diag2 by lia.
    bdec. replace (n + m + q + i - (n + m + q)) with i by lia. cbn [Nat.add]. unfold mv.
    transitivity (sumn n (fun j => SparseSpec.mat Jd i j *! s j) -! s (n + i) -! e_cd e i *! s (n + m + q + i)); [reflexivity|ring].
Qed.
End XD.
End P.
