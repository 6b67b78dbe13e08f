(** Least-squares multipliers over the reals: the normal equations characterise the minimisers. *)
From Coq Require Import List Bool Arith Lia Reals Lra Psatz.
From Verif Require Import RingKit.
From Verif Require Import SparseModel SparseSpec KktModel KktModel2 KktSpec.
From Verif Require Import InertiaModel InertiaProofs LsqModel LsqSpec LsqProofs.
Import ListNotations.
Open Scope R_scope.

Lemma rsumn_nonneg n (f : nat -> R) : (forall i, (i < n)%nat -> 0 <= f i) -> 0 <= rsumn n f.
Proof. induction n as [|n IH]; intro H; [apply Rle_refl|]. rewrite rsumn_S. apply Rplus_le_le_0_compat; [apply IH|]; intros; apply H; lia. Qed.
Lemma rsumn_nonneg_zero n (f : nat -> R) : (forall i, (i < n)%nat -> 0 <= f i) -> rsumn n f = 0 -> forall i, (i < n)%nat -> f i = 0.
Proof.
  induction n as [|n IH]; intros H E i Hi; [lia|]. rewrite rsumn_S in E.
  assert (A : 0 <= rsumn n f) by (apply rsumn_nonneg; intros; apply H; lia). assert (B : 0 <= f n) by (apply H; lia).
  destruct (Nat.eq_dec i n) as [->|]; [lra|]. apply IH; [intros; apply H; lia|lra|lia].
Qed.

Section Q.
Variables (n me mi : nat) (g : nat -> R) (Jc Jd : nat -> nat -> R) (zl zu vl vu : nat -> R).
Notation LX := (lag_x me mi g Jc Jd zl zu).
Notation LD := (lag_d vl vu).
Notation OBJ := (dual_infeas n me mi g Jc Jd zl zu vl vu).
Definition stationary (yc yd : nat -> R) : Prop :=
  (forall k, (k < me)%nat -> rsumn n (fun i => Jc k i * LX yc yd i) = 0) /\
  (forall k, (k < mi)%nat -> rsumn n (fun i => Jd k i * LX yc yd i) = LD yd k).
(** change of the residuals along a change of the multipliers *)
Definition movx (dc dd : nat -> R) (i : nat) : R := rsumn me (fun k => Jc k i * dc k) + rsumn mi (fun k => Jd k i * dd k).
Lemma lag_x_move yc yd dc dd t i : LX (fun k => yc k + t * dc k) (fun k => yd k + t * dd k) i = LX yc yd i + t * movx dc dd i.
Proof.
  unfold lag_x, movx.
  rewrite (rsumn_ext me (fun k => Jc k i * (yc k + t * dc k)) (fun k => Jc k i * yc k + t * (Jc k i * dc k))) by (intros; ring).
  rewrite (rsumn_ext mi (fun k => Jd k i * (yd k + t * dd k)) (fun k => Jd k i * yd k + t * (Jd k i * dd k))) by (intros; ring).
  rewrite !rsumn_add, !rsumn_scale. ring.
Qed.
Lemma cross yc yd dc dd : rsumn n (fun i => LX yc yd i * movx dc dd i) - rsumn mi (fun k => LD yd k * dd k) =
  rsumn me (fun k => dc k * rsumn n (fun i => Jc k i * LX yc yd i)) + rsumn mi (fun k => dd k * (rsumn n (fun i => Jd k i * LX yc yd i) - LD yd k)).
Proof.
  rewrite (rsumn_ext mi (fun k => dd k * (rsumn n (fun i => Jd k i * LX yc yd i) - LD yd k))
    (fun k => dd k * rsumn n (fun i => Jd k i * LX yc yd i) + -1 * (LD yd k * dd k))) by (intros; ring).
  rewrite rsumn_add, rsumn_scale.
  rewrite (rsumn_ext me _ (fun k => rsumn n (fun i => dc k * (Jc k i * LX yc yd i)))) by (intros; rewrite rsumn_scale; reflexivity).
  rewrite (rsumn_ext mi (fun k => dd k * _) (fun k => rsumn n (fun i => dd k * (Jd k i * LX yc yd i)))) by (intros; rewrite rsumn_scale; reflexivity).
  rewrite (rsumn_swap me n), (rsumn_swap mi n).
  rewrite (rsumn_ext n (fun i => LX yc yd i * movx dc dd i)
    (fun i => rsumn me (fun k => dc k * (Jc k i * LX yc yd i)) + rsumn mi (fun k => dd k * (Jd k i * LX yc yd i)))).
  - rewrite rsumn_add. ring.
  - intros i _. unfold movx.
    rewrite (rsumn_ext me (fun k => dc k * _) (fun k => LX yc yd i * (Jc k i * dc k))) by (intros; ring).
    rewrite (rsumn_ext mi (fun k => dd k * _) (fun k => LX yc yd i * (Jd k i * dd k))) by (intros; ring).
    rewrite !rsumn_scale. ring.
Qed.
Lemma obj_move yc yd dc dd t : OBJ (fun k => yc k + t * dc k) (fun k => yd k + t * dd k) =
  OBJ yc yd + 2 * t * (rsumn n (fun i => LX yc yd i * movx dc dd i) - rsumn mi (fun k => LD yd k * dd k)) +
  t ^ 2 * (rsumn n (fun i => movx dc dd i ^ 2) + rsumn mi (fun k => dd k ^ 2)).
Proof.
  unfold dual_infeas.
  rewrite (rsumn_ext n _ (fun i => LX yc yd i ^ 2 + ((2 * t) * (LX yc yd i * movx dc dd i) + t ^ 2 * movx dc dd i ^ 2))) by (intros; rewrite lag_x_move; ring).
  rewrite (rsumn_ext mi _ (fun k => LD yd k ^ 2 + ((- (2 * t)) * (LD yd k * dd k) + t ^ 2 * dd k ^ 2))) by (intros; unfold lag_d; ring).
  rewrite !rsumn_add, !rsumn_scale. ring.
Qed.
Lemma stationary_cross yc yd dc dd : stationary yc yd -> rsumn n (fun i => LX yc yd i * movx dc dd i) - rsumn mi (fun k => LD yd k * dd k) = 0.
Proof.
  intros (A & B). rewrite cross, !rsumn_zero; [ring| |].
  - intros k Hk. rewrite (B k Hk). ring.
  - intros k Hk. rewrite (A k Hk). ring.
Qed.
Lemma obj_ext a b a' b' : (forall k, a k = a' k) -> (forall k, b k = b' k) -> OBJ a b = OBJ a' b'.
Proof.
  intros A B. unfold dual_infeas, lag_x, lag_d. f_equal; apply rsumn_ext; intros i _.
  - rewrite (rsumn_ext me _ (fun k => Jc k i * a' k)) by (intros; rewrite A; reflexivity).
    rewrite (rsumn_ext mi _ (fun k => Jd k i * b' k)) by (intros; rewrite B; reflexivity). reflexivity.
  - rewrite B. reflexivity.
Qed.
Lemma obj_diff yc yd yc' yd' : stationary yc yd ->
  OBJ yc' yd' = OBJ yc yd + (rsumn n (fun i => movx (fun k => yc' k - yc k) (fun k => yd' k - yd k) i ^ 2) + rsumn mi (fun k => (yd' k - yd k) ^ 2)).
Proof.
  intros S. pose proof (obj_move yc yd (fun k => yc' k - yc k) (fun k => yd' k - yd k) 1) as E.
  rewrite (stationary_cross _ _ _ _ S) in E. rewrite (obj_ext _ _ yc' yd') in E by (intros; ring). rewrite E. ring.
Qed.
Lemma stationary_min yc yd : stationary yc yd -> least_squares n me mi g Jc Jd zl zu vl vu yc yd.
Proof.
  intros S yc' yd'. rewrite (obj_diff yc yd yc' yd' S).
  assert (0 <= rsumn n (fun i => movx (fun k => yc' k - yc k) (fun k => yd' k - yd k) i ^ 2)) by (apply rsumn_nonneg; intros; apply pow2_ge_0).
  assert (0 <= rsumn mi (fun k => (yd' k - yd k) ^ 2)) by (apply rsumn_nonneg; intros; apply pow2_ge_0). lra.
Qed.
(** all minimisers have the same residual and the same inequality multipliers *)
Lemma min_unique yc yd yc' yd' : stationary yc yd -> least_squares n me mi g Jc Jd zl zu vl vu yc' yd' ->
  (forall i, (i < n)%nat -> LX yc' yd' i = LX yc yd i) /\ (forall k, (k < mi)%nat -> yd' k = yd k).
Proof.
  intros S M. pose proof (obj_diff yc yd yc' yd' S) as E. specialize (M yc yd).
  set (X := fun i => movx (fun k => yc' k - yc k) (fun k => yd' k - yd k) i ^ 2) in *.
  set (Y := fun k => (yd' k - yd k) ^ 2) in *.
  assert (PX : forall i, (i < n)%nat -> 0 <= X i) by (intros; apply pow2_ge_0).
  assert (PY : forall i, (i < mi)%nat -> 0 <= Y i) by (intros; apply pow2_ge_0).
  pose proof (rsumn_nonneg n X PX) as P1. pose proof (rsumn_nonneg mi Y PY) as P2.
  assert (E1 : rsumn n X = 0) by lra. assert (E2 : rsumn mi Y = 0) by lra. split.
  - intros i Hi. pose proof (rsumn_nonneg_zero n X PX E1 i Hi) as Z. unfold X in Z.
    assert (Z' : movx (fun k => yc' k - yc k) (fun k => yd' k - yd k) i = 0) by nra.
    pose proof (lag_x_move yc yd (fun k => yc' k - yc k) (fun k => yd' k - yd k) 1 i) as L. rewrite Z' in L.
    rewrite <- (Rplus_0_r (LX yc yd i)). replace 0 with (1 * 0) by ring. rewrite <- L. unfold lag_x.
    rewrite (rsumn_ext me (fun k => Jc k i * yc' k) (fun k => Jc k i * (yc k + 1 * (yc' k - yc k)))) by (intros; ring).
    rewrite (rsumn_ext mi (fun k => Jd k i * yd' k) (fun k => Jd k i * (yd k + 1 * (yd' k - yd k)))) by (intros; ring). reflexivity.
  - intros k Hk. pose proof (rsumn_nonneg_zero mi Y PY E2 k Hk) as Z. unfold Y in Z. nra.
Qed.
(** a minimiser satisfies the normal equations *)
Lemma min_stationary yc yd : least_squares n me mi g Jc Jd zl zu vl vu yc yd -> stationary yc yd.
Proof.
  intros M.
  assert (C : forall dc dd, rsumn n (fun i => LX yc yd i * movx dc dd i) - rsumn mi (fun k => LD yd k * dd k) = 0).
  { intros dc dd. set (c := _ - _). set (s := rsumn n (fun i => movx dc dd i ^ 2) + rsumn mi (fun k => dd k ^ 2)).
    assert (S0 : 0 <= s) by (apply Rplus_le_le_0_compat; apply rsumn_nonneg; intros; apply pow2_ge_0).
    assert (H : forall t, 0 <= 2 * t * c + t ^ 2 * s).
    { intro t. pose proof (M (fun k => yc k + t * dc k) (fun k => yd k + t * dd k)) as H. rewrite obj_move in H. fold c s in H. lra. }
    specialize (H (- c / (s + 1))). assert (P : 0 < s + 1) by lra.
    replace (2 * (- c / (s + 1)) * c + (- c / (s + 1)) ^ 2 * s) with (- (c ^ 2 * (s + 2)) / (s + 1) ^ 2) in H by (field; lra).
    assert (Q : 0 < (s + 1) ^ 2) by (apply pow_lt; lra).
    assert (c ^ 2 * (s + 2) <= 0). { apply (Rmult_le_compat_r _ _ _ (Rlt_le _ _ Q)) in H. unfold Rdiv in H. rewrite Rmult_assoc, Rinv_l, Rmult_1_r, Rmult_0_l in H by lra. lra. }
    assert (0 <= c ^ 2) by apply pow2_ge_0. assert (c ^ 2 = 0) by nra. nra. }
  split; intros k Hk.
  - pose proof (C (fun j => if Nat.eqb k j then 1 else 0) (fun _ => 0)) as E. rewrite cross in E.
    rewrite (rsumn_ext me _ (fun j => if Nat.eqb k j then rsumn n (fun i => Jc j i * LX yc yd i) else 0)) in E by (intros j _; destruct (Nat.eqb k j); ring).
    rewrite rsumn_pick in E by auto. rewrite (rsumn_zero mi) in E by (intros; ring). lra.
  - pose proof (C (fun _ => 0) (fun j => if Nat.eqb k j then 1 else 0)) as E. rewrite cross in E.
    rewrite (rsumn_ext mi _ (fun j => if Nat.eqb k j then rsumn n (fun i => Jd j i * LX yc yd i) - LD yd j else 0)) in E by (intros j _; destruct (Nat.eqb k j); ring).
    rewrite rsumn_pick in E by auto. rewrite (rsumn_zero me) in E by (intros; ring). lra.
Qed.
End Q.

(** * The code *)
Lemma normal_stationary n me mi g Jc Jd zl zu vl vu yc yd :
  normal R_field (LsqIn R_field n me mi g Jc Jd zl zu vl vu) yc yd -> stationary n me mi g Jc Jd zl zu vl vu yc yd.
Proof.
  intros (A & B). split; intros k Hk.
  - exact (A k Hk).
  - specialize (B k Hk). cbn [l_n l_Jd l_vl l_vu] in B. unfold lag_d.
    change (rsumn n (fun i => Jd k i * lag_x me mi g Jc Jd zl zu yc yd i) + yd k + vl k - vu k = 0) in B. lra.
Qed.
Lemma rinfnorm_le m v b : rinfnorm m v <= b -> bounded_by m v b.
Proof.
  unfold rinfnorm, bounded_by. intros H i Hi.
  assert (G : forall l a, fold_left (fun a i => Rmax a (Rabs (v i))) l a <= b -> a <= b /\ forall i, In i l -> Rabs (v i) <= b).
  { induction l as [|x l IH]; cbn [fold_left]; intros a L; [split; [auto|intros ? []]|].
    destruct (IH _ L) as (A & B). split; [eapply Rle_trans; [apply Rmax_l|exact A]|].
    intros j [<-|J]; [eapply Rle_trans; [apply Rmax_r|exact A]|auto]. }
  apply (proj2 (G _ _ H)). apply in_seq. lia.
Qed.
Section D.
Variables (n me mi : nat) (g : nat -> R) (Jc Jd : nat -> nat -> R) (zl zu vl vu : nat -> R) (M0 : nat -> nat -> R).
Let I := LsqIn R_field n me mi g Jc Jd zl zu vl vu.
Definition sysform (y : nat -> R) : R :=
  let M := lsq_mat R_field I M0 in
  rsumn (me + mi) (fun i => y i * rsumn (me + mi) (fun j => (if (i <=? j)%nat then M i j else M j i) * y j)).
Lemma rsumn_app a b (f : nat -> R) : @eq R (rsumn (a + b)%nat f) (rsumn a f + rsumn b (fun k => f (a + k)%nat)).
Proof. apply (KktProofs.sumn_app R_field). Qed.
Lemma sysform_eq y : sysform y = rsumn n (fun i => movx me mi Jc Jd y (fun k => y (me + k)%nat) i ^ 2) + rsumn mi (fun k => y (me + k)%nat ^ 2).
Proof.
  unfold sysform. cbv zeta. rewrite rsumn_app.
  pose proof (lsq_rows R_field I M0 y) as (R1 & R2). cbv zeta in R1, R2. cbn [I l_me l_mi l_n l_Jc l_Jd] in R1, R2.
  set (w := movx me mi Jc Jd y (fun k => y (me + k)%nat)).
  rewrite (rsumn_ext me _ (fun k => rsumn n (fun i => y k * (Jc k i * w i)))).
  2:{ intros k Hk. rewrite rsumn_scale. f_equal. exact (R1 k Hk). }
  rewrite (rsumn_ext mi _ (fun k => rsumn n (fun i => y (me + k)%nat * (Jd k i * w i)) + y (me + k)%nat ^ 2)).
  2:{ intros k Hk. rewrite rsumn_scale. transitivity (y (me + k)%nat * (rsumn n (fun i => Jd k i * w i) + y (me + k)%nat)); [f_equal; exact (R2 k Hk)|ring]. }
  rewrite rsumn_add, (rsumn_swap me n), (rsumn_swap mi n), <- Rplus_assoc, <- rsumn_add. f_equal. apply rsumn_ext. intros i _.
  transitivity (w i * (rsumn me (fun k => Jc k i * y k) + rsumn mi (fun k => Jd k i * y (me + k)%nat))); [|replace (rsumn me (fun k => Jc k i * y k) + rsumn mi (fun k => Jd k i * y (me + k)%nat)) with (w i) by reflexivity; ring]. rewrite Rmult_plus_distr_l, <- !rsumn_scale.
  f_equal; apply rsumn_ext; intros; ring.
Qed.
(** the system matrix is positive definite exactly when the equality Jacobian has independent rows *)
Lemma sysform_definite :
  (forall y, (exists i, (i < me + mi)%nat /\ y i <> 0) -> 0 < sysform y) <->
  independent me n Jc.
Proof.
  split.
  - intros D u H k Hk. destruct (Req_dec (u k) 0) as [|NZ]; auto. exfalso.
    specialize (D (fun i => if (i <? me)%nat then u i else 0)). rewrite sysform_eq in D.
    assert (MV : forall i, (i < n)%nat -> movx me mi Jc Jd (fun i => if (i <? me)%nat then u i else 0) (fun k => if (me + k <? me)%nat then u (me + k)%nat else 0) i = 0).
    { intros i Hi. unfold movx. rewrite (rsumn_zero mi).
      - rewrite (rsumn_ext me _ (fun k => Jc k i * u k)) by (intros j Hj; destruct (Nat.ltb_spec j me); [reflexivity|lia]). rewrite (H i Hi). ring.
      - intros j _. destruct (Nat.ltb_spec (me + j) me); [lia|ring]. }
    rewrite (rsumn_zero n) in D by (intros i Hi; rewrite (MV i Hi); ring).
    rewrite (rsumn_zero mi) in D by (intros j _; destruct (Nat.ltb_spec (me + j) me); [lia|ring]).
    assert (0 < 0 + 0); [|lra]. apply D. exists k. split; [lia|]. destruct (Nat.ltb_spec k me); [exact NZ|lia].
  - intros IND y (i & Hi & NZ). rewrite sysform_eq.
    set (X := fun i => movx me mi Jc Jd y (fun k => y (me + k)%nat) i ^ 2). set (Y := fun k => y (me + k)%nat ^ 2).
    assert (PX : forall i, (i < n)%nat -> 0 <= X i) by (intros; apply pow2_ge_0).
    assert (PY : forall i, (i < mi)%nat -> 0 <= Y i) by (intros; apply pow2_ge_0).
    pose proof (rsumn_nonneg n X PX) as P1. pose proof (rsumn_nonneg mi Y PY) as P2.
    destruct (Rle_lt_dec (rsumn n X + rsumn mi Y) 0) as [L|]; [|assumption]. exfalso. apply NZ.
    assert (E1 : rsumn n X = 0) by lra. assert (E2 : rsumn mi Y = 0) by lra.
    assert (ZD : forall k, (k < mi)%nat -> y (me + k)%nat = 0).
    { intros k Hk. pose proof (rsumn_nonneg_zero mi Y PY E2 k Hk) as Z. unfold Y in Z. nra. }
    destruct (Nat.lt_ge_cases i me) as [Li|Li].
    + apply (IND y); [|exact Li]. intros j Hj. pose proof (rsumn_nonneg_zero n X PX E1 j Hj) as Z. unfold X in Z.
      assert (Z' : movx me mi Jc Jd y (fun k => y (me + k)%nat) j = 0) by nra. unfold movx in Z'.
      rewrite (rsumn_zero mi) in Z' by (intros k Hk; rewrite (ZD k Hk); ring). lra.
    + replace i with (me + (i - me))%nat by lia. apply ZD. lia.
Qed.
Lemma dense_succeeds S yc yd : solves_definite (me + mi) S -> independent me n Jc -> exists yc' yd', dense_lsq R_field S I M0 yc yd = (true, yc', yd').
Proof.
  intros C IND. unfold dense_lsq. cbn [I l_me l_mi].
  destruct (S (me + mi)%nat (lsq_mat R_field I M0) (lsq_rhs R_field I)) as [y|] eqn:E; [eexists _, _; reflexivity|].
  exfalso. exact (C _ _ (proj2 sysform_definite IND) E).
Qed.
End D.
(** the augmented matrix is nonsingular when the equality Jacobian has independent rows *)
Lemma aug_nonsingular (Q : lsq_sp R_field) (x : nat -> R) :
  wf (q_Jc Q) -> wf (q_Jd Q) -> t_n (q_Jd Q) = t_n (q_Jc Q) -> independent (t_m (q_Jc Q)) (t_n (q_Jc Q)) (SparseSpec.mat (t_ent (q_Jc Q))) ->
  let N := (t_n (q_Jc Q) + t_m (q_Jd Q) + t_m (q_Jc Q) + t_m (q_Jd Q))%nat in
  (forall i, (i < N)%nat -> rsumn N (fun j => symmat (aug_ent R_field Q) i j * x j) = 0) -> forall i, (i < N)%nat -> x i = 0.
Proof.
  intros W1 W2 SN IND N H. set (n := t_n (q_Jc Q)) in *. set (m := t_m (q_Jd Q)) in *. set (q := t_m (q_Jc Q)) in *.
  set (z := fun _ : nat => 0). set (Q0 := LsqSp R_field z (q_Jc Q) (q_Jd Q) z z z z).
  destruct (aug_system R_field Q0 W1 W2 SN x) as (NE & X & D).
  { intros i Hi. change (lsq_aug_rhs R_field Q0 i) with (KktModel.put R_field n (fun _ => -0 + 0 - 0) (KktModel.put R_field m (fun _ => 0 - 0) z) i).
    change (rsumn N (fun j => symmat (aug_ent R_field Q) i j * x j) = KktModel.put R_field n (fun _ => -0 + 0 - 0) (KktModel.put R_field m (fun _ => 0 - 0) z) i).
    rewrite (H i Hi). unfold KktModel.put, z. destruct (i <? n)%nat; [|destruct (i - n <? m)%nat]; lra. }
  cbn [Q0 q_Jc q_Jd q_vl q_vu] in X, D. fold n m q in X, D.
  set (yc := cut R_field (n + m) x) in *. set (yd := cut R_field (n + m + q) x) in *.
  assert (ST : stationary n q m z (SparseSpec.mat (t_ent (q_Jc Q))) (SparseSpec.mat (t_ent (q_Jd Q))) z z z z yc yd) by (apply normal_stationary; exact NE).
  assert (M0 : least_squares n q m z (SparseSpec.mat (t_ent (q_Jc Q))) (SparseSpec.mat (t_ent (q_Jd Q))) z z z z z z).
  { intros a b. assert (E : dual_infeas n q m z (SparseSpec.mat (t_ent (q_Jc Q))) (SparseSpec.mat (t_ent (q_Jd Q))) z z z z z z = 0).
    { unfold dual_infeas. rewrite !rsumn_zero; [ring| |].
      - intros i _. unfold lag_d, z. ring.
      - intros i _. unfold lag_x, z. rewrite !rsumn_zero by (intros; ring). ring. }
    rewrite E. apply Rplus_le_le_0_compat; apply rsumn_nonneg; intros; apply pow2_ge_0. }
  destruct (min_unique _ _ _ _ _ _ _ _ _ _ _ _ _ _ ST M0) as (U1 & U2).
  assert (YD : forall k, (k < m)%nat -> yd k = 0) by (intros k Hk; rewrite <- (U2 k Hk); reflexivity).
  assert (LX : forall i, (i < n)%nat -> rsumn q (fun k => SparseSpec.mat (t_ent (q_Jc Q)) k i * yc k) = 0).
  { intros i Hi. specialize (U1 i Hi). unfold lag_x in U1. unfold z in U1. rewrite (rsumn_zero q (fun k => _ * 0)) in U1 by (intros; ring).
    rewrite (rsumn_zero m (fun k => _ * 0)) in U1 by (intros; ring). rewrite (rsumn_zero m) in U1 by (intros k Hk; rewrite (YD k Hk); ring). lra. }
  pose proof (IND yc LX) as YC.
  assert (X' : forall i, (i < n)%nat -> x i = 0).
  { intros i Hi. specialize (X i Hi). 
    change (lag_x q m z (SparseSpec.mat (t_ent (q_Jc Q))) (SparseSpec.mat (t_ent (q_Jd Q))) z z yc yd i = - x i) in X.
    rewrite <- (U1 i Hi) in X. unfold lag_x, z in X. rewrite !rsumn_zero in X by (intros; ring). lra. }
  intros i Hi. unfold N in Hi.
  destruct (Nat.lt_ge_cases i n); [auto|]. destruct (Nat.lt_ge_cases i (n + m)).
  - replace i with (n + (i - n))%nat by lia. specialize (D (i - n)%nat ltac:(lia)). specialize (YD (i - n)%nat ltac:(lia)). unfold yd, cut in YD.
    change (x (n + (i - n))%nat - x (n + m + q + (i - n))%nat = 0 - 0) in D. rewrite YD in D. lra.
  - destruct (Nat.lt_ge_cases i (n + m + q)).
    + replace i with (n + m + (i - (n + m)))%nat by lia. apply (YC (i - (n + m))%nat). lia.
    + replace i with (n + m + q + (i - (n + m + q)))%nat by lia. apply (YD (i - (n + m + q))%nat). lia.
Qed.
