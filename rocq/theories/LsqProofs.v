(** Least-squares multipliers: proofs. *)
From Coq Require Import List Bool Arith Lia Ring Field Reals Lra Psatz.
From Verif Require Import RingKit.
From Verif Require Import PackModel SparseModel SparseSpec SparseProofs SparseProofs3.
From Verif Require Import KktModel KktModel2 KktSpec KktProofs KktProofs2 KktProofs3 KktProofs6.
From Verif Require Import InertiaModel InertiaProofs LsqModel LsqSpec.
Import ListNotations.
Close Scope R_scope.

Section P.
Variable K : cfield.
Add Field kf : (fth K).
Notation vec := (nat -> K).
Notation mat := (nat -> nat -> K).

(** the normal equations of an input *)
Definition resx (I : lsq_in K) (yc yd : vec) (i : nat) : K :=
  l_g I i +! sumn (l_me I) (fun k => l_Jc I k i *! yc k) +! sumn (l_mi I) (fun k => l_Jd I k i *! yd k) -! l_zl I i +! l_zu I i.
Definition normal (I : lsq_in K) (yc yd : vec) : Prop :=
  (forall k, k < l_me I -> sumn (l_n I) (fun i => l_Jc I k i *! resx I yc yd i) = f0) /\
  (forall k, k < l_mi I -> sumn (l_n I) (fun i => l_Jd I k i *! resx I yc yd i) +! yd k +! l_vl I k -! l_vu I k = f0).

Lemma times_trans_mv n m (A B : mat) (y : vec) i :
  sumn m (fun j => times_trans K n A B i j *! y j) = sumn n (fun k => A i k *! sumn m (fun j => B j k *! y j)).
Proof.
  unfold times_trans.
  rewrite (sumn_ext K m _ (fun j => sumn n (fun k => A i k *! (B j k *! y j)))).
  - rewrite (sumn_swap K). apply (sumn_ext K). intros k _. rewrite (sumn_scale K). reflexivity.
  - intros j _. rewrite (sumn_ext K n (fun k => A i k *! (B j k *! y j)) (fun k => y j *! (A i k *! B j k))) by (intros; ring). rewrite (sumn_scale K). ring.
Qed.
Lemma times_trans_sym n (A B : mat) i j : times_trans K n A B i j = times_trans K n B A j i.
Proof. apply (sumn_ext K). intros. ring. Qed.

(** * Dense *)
Lemma lsq_entries (I : lsq_in K) M0 i j : i <= j -> j < l_me I + l_mi I ->
  lsq_mat K I M0 i j =
  if j <? l_me I then times_trans K (l_n I) (l_Jc I) (l_Jc I) i j
  else if i <? l_me I then times_trans K (l_n I) (l_Jc I) (l_Jd I) i (j - l_me I)
  else times_trans K (l_n I) (l_Jd I) (l_Jd I) (i - l_me I) (j - l_me I) +! (if i =? j then f1 else f0).
Proof.
  intros L1 L2. unfold lsq_mat, copy_block, add_const_diag. rewrite ?Nat.sub_0_r.
  repeat match goal with |- context [?a <? ?b] => destruct (Nat.ltb_spec a b) | |- context [?a <=? ?b] => destruct (Nat.leb_spec a b) | |- context [?a =? ?b] => destruct (Nat.eqb_spec a b) end;
    cbn [andb]; try lia; try reflexivity; ring.
Qed.
(** the product of the system matrix with a vector *)
Lemma lsq_rows (I : lsq_in K) M0 (s : vec) :
  let M := lsq_mat K I M0 in let N := l_me I + l_mi I in
  let w := fun i => sumn (l_me I) (fun k => l_Jc I k i *! s k) +! sumn (l_mi I) (fun k => l_Jd I k i *! s (l_me I + k)) in
  (forall k, k < l_me I -> sumn N (fun j => (if k <=? j then M k j else M j k) *! s j) = sumn (l_n I) (fun i => l_Jc I k i *! w i)) /\
  (forall k, k < l_mi I -> sumn N (fun j => (if l_me I + k <=? j then M (l_me I + k) j else M j (l_me I + k)) *! s j) =
     sumn (l_n I) (fun i => l_Jd I k i *! w i) +! s (l_me I + k)).
Proof.
  cbv zeta. set (me := l_me I) in *. set (mi := l_mi I) in *. set (n := l_n I) in *.
  set (w := fun i => sumn me (fun k => l_Jc I k i *! s k) +! sumn mi (fun k => l_Jd I k i *! s (me + k))).
  assert (RX : forall (A : mat) k, sumn n (fun i => A k i *! w i) =
    sumn me (fun j => times_trans K n A (l_Jc I) k j *! s j) +! sumn mi (fun j => times_trans K n A (l_Jd I) k j *! s (me + j))).
  { intros A k. rewrite (times_trans_mv n me A (l_Jc I) s k), (times_trans_mv n mi A (l_Jd I) (fun j => s (me + j)) k).
    rewrite <- !(sumn_add K). apply (sumn_ext K). intros i _. unfold w. ring. }
  split; intros k Hk.
  - rewrite RX, (sumn_app K). f_equal; apply (sumn_ext K); intros j Hj; f_equal.
    + destruct (Nat.leb_spec k j).
      * rewrite lsq_entries by (fold me mi; lia). fold me n. destruct (Nat.ltb_spec j me); [reflexivity|lia].
      * rewrite lsq_entries by (fold me mi; lia). fold me n. destruct (Nat.ltb_spec k me); [apply times_trans_sym|lia].
    + destruct (Nat.leb_spec k (me + j)); [|lia].
      rewrite lsq_entries by (fold me mi; lia). fold me n. destruct (Nat.ltb_spec (me + j) me); [lia|]. destruct (Nat.ltb_spec k me); [|lia]. f_equal. lia.
  - rewrite RX, (sumn_app K).
    rewrite (sumn_ext K me _ (fun j => times_trans K n (l_Jd I) (l_Jc I) k j *! s j)).
    2:{ intros j Hj. f_equal. destruct (Nat.leb_spec (me + k) j); [lia|].
        rewrite lsq_entries by (fold me mi; lia). fold me n. destruct (Nat.ltb_spec (me + k) me); [lia|]. destruct (Nat.ltb_spec j me); [|lia].
        rewrite times_trans_sym. f_equal; lia. }
    rewrite (sumn_ext K mi _ (fun j => (times_trans K n (l_Jd I) (l_Jd I) k j +! (if k =? j then f1 else f0)) *! s (me + j))).
    2:{ intros j Hj. f_equal. destruct (Nat.leb_spec (me + k) (me + j)).
        - rewrite lsq_entries by (fold me mi; lia). fold me n. destruct (Nat.ltb_spec (me + j) me); [lia|]. destruct (Nat.ltb_spec (me + k) me); [lia|].
          f_equal; [f_equal; lia|]. destruct (Nat.eqb_spec (me + k) (me + j)), (Nat.eqb_spec k j); try lia; reflexivity.
        - rewrite lsq_entries by (fold me mi; lia). fold me n. destruct (Nat.ltb_spec (me + k) me); [lia|]. destruct (Nat.ltb_spec (me + j) me); [lia|].
          rewrite times_trans_sym. f_equal; [f_equal; lia|]. destruct (Nat.eqb_spec (me + j) (me + k)), (Nat.eqb_spec k j); try lia; reflexivity. }
    rewrite (sumn_diag K mi k f1 (times_trans K n (l_Jd I) (l_Jd I) k) (fun j => s (me + j)) Hk). ring.
Qed.
Lemma dense_normal (S : dsolver K) (I : lsq_in K) M0 yc yd yc' yd' : exact K S ->
  dense_lsq K S I M0 yc yd = (true, yc', yd') -> normal I yc' yd'.
Proof.
  intros EX. unfold dense_lsq. destruct (S _ _ _) as [s|] eqn:E; [|discriminate]. intros [= <- <-].
  pose proof (EX _ _ _ _ E) as H. clear E. destruct (lsq_rows I M0 s) as (R1 & R2). cbv zeta in R1, R2.
  set (me := l_me I) in *. set (mi := l_mi I) in *. set (n := l_n I) in *.
  set (w := fun i => sumn me (fun k => l_Jc I k i *! s k) +! sumn mi (fun k => l_Jd I k i *! s (me + k))) in *.
  assert (RX : forall (A : mat) k, sumn n (fun i => A k i *! resx I (cut K 0 s) (cut K me s) i) =
    mv K n A (fun i => l_g I i -! l_zl I i +! l_zu I i) k +! sumn n (fun i => A k i *! w i)).
  { intros A k. unfold mv. rewrite <- !(sumn_add K). apply (sumn_ext K). intros i _. unfold resx, cut, w. cbn [Nat.add]. fold me mi. ring. }
  split; fold me mi n; intros k Hk; rewrite RX; unfold w.
  - rewrite <- (R1 k Hk), (H k ltac:(lia)). unfold lsq_rhs. fold me. cbv zeta. rewrite put_l by exact Hk. fold n. ring.
  - transitivity (mv K n (l_Jd I) (fun i => l_g I i -! l_zl I i +! l_zu I i) k +! (sumn n (fun i => l_Jd I k i *! (sumn me (fun k => l_Jc I k i *! s k) +! sumn mi (fun k => l_Jd I k i *! s (me + k)))) +! s (me + k)) +! l_vl I k -! l_vu I k);
      [unfold cut; ring|].
    rewrite <- (R2 k Hk), (H (me + k) ltac:(lia)). unfold lsq_rhs. fold me. cbv zeta. rewrite put_r. fold n. ring.
Qed.

(** * Sparse *)
Section Sp.
Variable Q : lsq_sp K.
Let n := t_n (q_Jc Q).
Let m := t_m (q_Jd Q).
Let q := t_m (q_Jc Q).
Let Jc := t_ent (q_Jc Q).
Let Jd := t_ent (q_Jd Q).
Hypothesis W1 : wf (q_Jc Q).
Hypothesis W2 : wf (q_Jd Q).
Hypothesis O1 : row_sorted (t_ent (q_Jc Q)).
Hypothesis O2 : row_sorted (t_ent (q_Jd Q)).
Hypothesis SN : t_n (q_Jd Q) = n.
Definition as_in : lsq_in K :=
  LsqIn K n q m (q_g Q) (SparseSpec.mat Jc) (SparseSpec.mat Jd) (q_zl Q) (q_zu Q) (q_vl Q) (q_vu Q).
Let N := n + m + q + m.
Let Z := n + m + length Jc + length Jd + m + N.
Lemma WJc x : In x Jc -> row x < q /\ col x < n.
Proof. intros X. exact (W1 x X). Qed.
Lemma WJd x : In x Jd -> row x < m /\ col x < n.
Proof. intros X. destruct (W2 x X) as (A & B). rewrite SN in B. split; [exact A|exact B]. Qed.
Definition aug_ent : list (entry K) :=
  diagb K 0 0 (n + m) (fun _ => f1) ++ moved K (n + m) 0 Jc ++ moved K (n + m + q) 0 Jd ++ diagb K (n + m + q) n m (fun _ => fopp f1) ++ diagb K 0 0 N (fun _ => f0).
Lemma step_set N' Z' l M st cnt c : filled K N' Z' l M -> st + cnt <= N' -> length l + cnt <= Z' ->
  exists r, set_sub_diag_to K M st cnt c (length l) = Some r /\ filled K N' Z' (l ++ diagb K st st cnt (fun _ => c)) r.
Proof.
  intros F H1 H2. pose proof F as (A & B & C & D). destruct (set_sub_diag_spec K M st cnt c (length l)) as (r & E & E1 & E2 & E3); try lia.
  exists r. split; [exact E|]. eapply filled_slots; eauto. rewrite diagb_len. exact H2.
Qed.
Lemma aug_mat M : slots_of K N Z M -> exists R, lsq_aug_mat K Q M = Some R /\ t_ent R = aug_ent.
Proof.
  intros (A & B & C). unfold lsq_aug_mat. cbv zeta. fold n m q Jc Jd.
  pose proof (zero_filled K N Z M A B C) as F0.
  eapply (step_diag K N Z [] _ F0 f1 0 0); try (unfold N, Z; cbn [length]; lia). intros r1 F1. cbn [app] in F1.
  eapply (step_rows K N Z _ _ F1 (q_Jc Q) q (n + m)); try assumption; try reflexivity; try (rewrite ?diagb_len; unfold N, Z; fold n Jc; lia). intros r2 F2. fold Jc in F2.
  eapply (step_rows K N Z _ _ F2 (q_Jd Q) m (n + m + q)); try assumption; try reflexivity; try (rewrite ?app_length, ?moved_len, ?diagb_len, ?SN; unfold N, Z; fold n Jc Jd; lia). intros r3 F3. fold Jd in F3.
  eapply (step_diag K N Z _ _ F3 (fopp f1) (n + m + q) n); try (rewrite ?app_length, ?moved_len, ?diagb_len; unfold N, Z; lia). intros r4 F4.
  destruct (step_set N Z _ _ 0 N f0 F4) as (r5 & E5 & F5); try (rewrite ?app_length, ?moved_len, ?diagb_len; unfold Z; lia).
  rewrite ?app_length, ?moved_len, ?diagb_len in E5. fold N.
  exists r5. split.
  - rewrite <- E5. f_equal.
  - rewrite (filled_full K _ _ _ _ F5).
    + unfold aug_ent. rewrite <- !app_assoc. reflexivity.
    + rewrite ?app_length, ?moved_len, ?diagb_len. unfold Z. lia.
Qed.
Lemma aug_in x : In x aug_ent -> row x < N /\ col x < N.
Proof.
  unfold aug_ent, N. rewrite !in_app_iff. intros [X|[X|[X|[X|X]]]].
  - apply diagb_in in X. lia.
  - apply (moved_in K Jc q n WJc) in X. lia.
  - apply (moved_in K Jd m n WJd) in X. lia.
  - apply diagb_in in X. lia.
  - apply diagb_in in X. lia.
Qed.
Lemma aug_system s : (forall i, i < N -> sumn N (fun j => symmat aug_ent i j *! s j) = lsq_aug_rhs K Q i) ->
  normal as_in (cut K (n + m) s) (cut K (n + m + q) s) /\
  (forall i, i < n -> resx as_in (cut K (n + m) s) (cut K (n + m + q) s) i = fopp (s i)) /\
  (forall k, k < m -> s (n + k) -! s (n + m + q + k) = q_vl Q k -! q_vu Q k).
Proof.
  intros E.
  assert (R' : forall i, i < N -> rp K s aug_ent i +! cp K s aug_ent i = lsq_aug_rhs K Q i).
  { intros i Hi. rewrite <- (symprod K N s aug_ent i aug_in). exact (E i Hi). }
  clear E. unfold lsq_aug_rhs in R'. cbv zeta in R'. fold n m in R'.
  set (rx := fun i => fopp (q_g Q i) +! q_zl Q i -! q_zu Q i) in *. set (rd := fun i => q_vl Q i -! q_vu Q i) in *.
  assert (T : forall i, i < N ->
    rp K s (diagb K 0 0 (n + m) (fun _ => f1)) i +! (rp K s (moved K (n + m) 0 Jc) i +! cp K s (moved K (n + m) 0 Jc) i) +!
    (rp K s (moved K (n + m + q) 0 Jd) i +! cp K s (moved K (n + m + q) 0 Jd) i) +!
    (rp K s (diagb K (n + m + q) n m (fun _ => fopp f1)) i +! cp K s (diagb K (n + m + q) n m (fun _ => fopp f1)) i) =
    KktModel.put K n rx (KktModel.put K m rd (fun _ => f0)) i).
  { intros i Hi. rewrite <- (R' i Hi). unfold aug_ent. rewrite !rp_app, !cp_app, !cp_diag.
    rewrite (rp_diag K s 0 0 N). destruct ((0 <=? i) && (i <? 0 + N)); ring. }
  clear R'.
  assert (X : forall i, i < n -> resx as_in (cut K (n + m) s) (cut K (n + m + q) s) i = fopp (s i)).
  { intros i Hi. specialize (T i ltac:(unfold N; lia)). rewrite put_l in T by lia.
    rewrite (rp_moved K Jc q n WJc), (cp_moved K Jc q n WJc), (rp_moved K Jd m n WJd), (cp_moved K Jd m n WJd), !rp_diag in T by lia.
    destruct (Nat.eq_dec m 0) as [E|E].
    - rewrite E in T. replace (diagb K (n + 0 + q) n 0 (fun _ => fopp f1)) with (@nil (entry K)) in T by reflexivity. unfold cp in T at 1. cbn [map lsum] in T.
      unfold resx, as_in, cut. cbn [l_g l_me l_mi l_Jc l_Jd l_zl l_zu]. rewrite E.
      destruct (Nat.leb_spec (n + 0) i); [lia|]. destruct (Nat.leb_spec (n + 0 + q) i); [lia|]. destruct (Nat.ltb_spec i n); [|lia].
      destruct (Nat.ltb_spec i (0 + (n + 0))); [|lia]. cbn [andb Nat.leb] in T. rewrite Nat.sub_0_r in T. cbn [Nat.add] in T.
      unfold rx in T.
      transitivity (fopp (s i) +! ((f1 *! s i +! (f0 +! sumn q (fun k => SparseSpec.mat Jc k i *! s (n + 0 + k))) +! (f0 +! sumn 0 (fun k => SparseSpec.mat Jd k i *! s (n + 0 + q + k))) +! (f0 +! f0)) -! (fopp (q_g Q i) +! q_zl Q i -! q_zu Q i))); [ring|].
      rewrite T. ring.
    - rewrite cp_diag2 in T by lia.
      destruct (Nat.leb_spec (n + m) i); [lia|]. destruct (Nat.leb_spec (n + m + q) i); [lia|]. destruct (Nat.leb_spec n i); [lia|]. destruct (Nat.ltb_spec i n); [|lia].
      destruct (Nat.ltb_spec i (0 + (n + m))); [|lia]. cbn [andb Nat.leb] in T. rewrite Nat.sub_0_r in T. cbn [Nat.add] in T.
      unfold resx, as_in, cut. cbn [l_g l_me l_mi l_Jc l_Jd l_zl l_zu]. unfold rx in T.
      transitivity (fopp (s i) +! ((f1 *! s i +! (f0 +! sumn q (fun k => SparseSpec.mat Jc k i *! s (n + m + k))) +! (f0 +! sumn m (fun k => SparseSpec.mat Jd k i *! s (n + m + q + k))) +! (f0 +! f0)) -! (fopp (q_g Q i) +! q_zl Q i -! q_zu Q i))); [ring|].
      rewrite T. ring. }
  assert (D : forall k, k < m -> s (n + k) -! s (n + m + q + k) = rd k).
  { intros k Hk. specialize (T (n + k) ltac:(unfold N; lia)). rewrite put_r, put_l in T by lia. rewrite <- T.
    rewrite (rp_moved K Jc q n WJc), (cp_moved K Jc q n WJc), (rp_moved K Jd m n WJd), (cp_moved K Jd m n WJd), !rp_diag, cp_diag2 by lia.
    bdec. replace (n + k - n) with k by lia. rewrite ?Nat.sub_0_r. cbn [Nat.add]. ring. }
  split; [|split; [exact X|exact D]].
  split; cbn [l_n l_me l_mi l_Jc l_Jd l_vl l_vu as_in]; intros k Hk.
  - rewrite (sumn_ext K n _ (fun i => fopp f1 *! (SparseSpec.mat Jc k i *! s i))) by (intros i Hi; rewrite (X i Hi); ring).
    rewrite (sumn_scale K). specialize (T (n + m + k) ltac:(unfold N; lia)). rewrite put_rr in T.
    rewrite (rp_moved K Jc q n WJc), (cp_moved K Jc q n WJc), (rp_moved K Jd m n WJd), (cp_moved K Jd m n WJd), !rp_diag in T by lia.
    assert (C0 : cp K s (diagb K (n + m + q) n m (fun _ => fopp f1)) (n + m + k) = f0).
    { destruct (Nat.eq_dec m 0) as [E|E]; [rewrite E; reflexivity|]. rewrite cp_diag2 by lia. bdec. reflexivity. }
    rewrite C0 in T. revert T. bdec. replace (n + m + k - (n + m)) with k by lia. cbn [Nat.add]. intro T.
    transitivity (fopp f1 *! (f0 +! (sumn n (fun j => SparseSpec.mat Jc k j *! s j) +! f0) +! (f0 +! f0) +! (f0 +! f0))); [ring|]. rewrite T. ring.
  - rewrite (sumn_ext K n _ (fun i => fopp f1 *! (SparseSpec.mat Jd k i *! s i))) by (intros i Hi; rewrite (X i Hi); ring).
    rewrite (sumn_scale K). specialize (T (n + m + (q + k)) ltac:(unfold N; lia)). rewrite put_rr in T.
    rewrite (rp_moved K Jc q n WJc), (cp_moved K Jc q n WJc), (rp_moved K Jd m n WJd), (cp_moved K Jd m n WJd), !rp_diag, cp_diag2 in T by lia.
    revert T. bdec. replace (n + m + (q + k) - (n + m + q)) with k by lia. cbn [Nat.add]. intro T.
    unfold cut. pose proof (D k Hk) as DK. unfold rd in DK.
    assert (TT : sumn n (fun j => SparseSpec.mat Jd k j *! s j) = s (n + k)).
    { transitivity ((f0 +! (f0 +! f0) +! (sumn n (fun j => SparseSpec.mat Jd k j *! s j) +! f0) +! (fopp f1 *! s (n + k) +! f0)) +! s (n + k)); [ring|]. rewrite T. ring. }
    rewrite TT. transitivity (fopp (s (n + k) -! s (n + m + q + k)) +! (q_vl Q k -! q_vu Q k)); [ring|]. rewrite DK. ring.
Qed.
Lemma aug_solve S s : exact_sym K S -> S N aug_ent (lsq_aug_rhs K Q) = Some s -> normal as_in (cut K (n + m) s) (cut K (n + m + q) s).
Proof. intros EX E. apply aug_system. exact (EX _ _ _ _ E). Qed.
End Sp.
End P.
