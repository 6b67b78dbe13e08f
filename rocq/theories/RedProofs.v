From Coq Require Import List Bool QArith Qabs Qminmax ZArith Reals Lia Lra Lqa.
From Verif Require Import VecModel VecProofs RedModel RedSpec.
Import ListNotations.
Open Scope Q_scope.

Lemma fold_sum {A} (f : A -> Q) l : forall s, fold_left (fun s a => s + f a) l s == s + sumQ (map f l).
Proof.
  induction l as [|a l IH]; intro s; simpl; [ring|]. rewrite IH. ring.
Qed.
Lemma sumQ_app a b : sumQ (a ++ b) == sumQ a + sumQ b.
Proof. induction a as [|x a IH]; simpl; [ring|]. rewrite IH. ring. Qed.
Lemma mpi_sum_spec l : mpi_sum l == sumQ l.
Proof.
  unfold mpi_sum. pose proof (fold_sum (fun x => x) l 0) as H. rewrite map_id in H. rewrite H. ring.
Qed.
Lemma sum_ranks {A} (f : A -> Q) (loc : list A -> Q) (ranks : list (list A)) :
  (forall r, loc r == sumQ (map f r)) ->
  mpi_sum (map loc ranks) == sumQ (map f (concat ranks)).
Proof.
  intro H. rewrite mpi_sum_spec. induction ranks as [|r ranks IH]; simpl; [reflexivity|].
  rewrite map_app, sumQ_app, IH, H. reflexivity.
Qed.

Lemma dot_spec ranks d : dot_all ranks = Some d ->
  exists e, zip (concat (map fst ranks)) (concat (map snd ranks)) = Some e /\
            d == sumQ (map (fun p => fst p * snd p) e).
Proof.
  unfold dot_all. destruct (all_some _) as [l|] eqn:E; try discriminate. intro H. injection H as <-.
  apply all_some_map in E.
  assert (Z : zip (concat (map fst ranks)) (concat (map snd ranks)) = Some (concat l)).
  { induction E as [|[a b] e ranks l H E IH]; simpl; [reflexivity|].
    cbn [fst snd] in H. clear E. revert b e H IH. induction a as [|x a IHa]; intros [|y b] e H IH; simpl in H; try discriminate.
    - injection H as <-. simpl. auto.
    - destruct (zip a b) eqn:E2; try discriminate. injection H as <-. simpl.
      rewrite (IHa b l0 E2 IH). reflexivity. }
  exists (concat l). split; auto.
  apply (sum_ranks (fun p => fst p * snd p)). intro r. unfold dot_local.
  rewrite (fold_sum (fun p => fst p * snd p)). ring.
Qed.

Lemma one_spec ranks : one_all ranks == sumQ (map Qabs (concat ranks)).
Proof. apply sum_ranks. intro r. unfold one_local. rewrite (fold_sum Qabs). ring. Qed.
Lemma sum_spec ranks : sum_all ranks == sumQ (concat ranks).
Proof.
  unfold sum_all. rewrite (sum_ranks (fun x => x)); [rewrite map_id; reflexivity|].
  intro r. unfold sum_local. rewrite (fold_sum (fun x => x)). ring.
Qed.

(** maxima and minima *)
Lemma inf_local_spec x : is_max_abs x (inf_local x).
Proof.
  destruct x as [|a r]; simpl.
  - split; [lra|]. split; [intros v []|]. left; reflexivity.
  - assert (G : forall r m, 0 <= m -> let n := fold_left (fun n v => let aux := Qabs v in if Qltb n aux then aux else n) r m in
        m <= n /\ (forall v, In v r -> Qabs v <= n) /\ (n == m \/ exists v, In v r /\ Qabs v == n)).
    { clear. induction r as [|v r IH]; intros m Hm; simpl.
      - split; [lra|]. split; [intros v []|]. left; reflexivity.
      - set (m1 := if Qltb m (Qabs v) then Qabs v else m).
        assert (H1 : 0 <= m1 /\ m <= m1 /\ Qabs v <= m1 /\ (m1 == m \/ m1 == Qabs v)).
        { unfold m1. pose proof (Qabs_nonneg v). qif; repeat split; try lra; auto with *. }
        destruct H1 as (H1 & H2 & H3 & H4). destruct (IH m1 H1) as (I1 & I2 & I3). cbv zeta in I1, I2, I3. clearbody m1.
        split; [lra|]. split.
        + intros w [<-|Hw]; [lra|]. apply I2; auto.
        + destruct I3 as [I3|(w & Hw & I3)]; [|right; exists w; auto].
          destruct H4 as [H4|H4]; [left; eapply Qeq_trans; eauto|]. right. exists v. split; auto. apply Qeq_sym. eapply Qeq_trans; eauto. }
    destruct (G r (Qabs a) (Qabs_nonneg a)) as (G1 & G2 & G3). cbv zeta in G1, G2, G3.
    set (n := fold_left _ r _) in *. pose proof (Qabs_nonneg a).
    split; [lra|]. split.
    + intros v [<-|Hv]; auto.
    + right. destruct G3 as [G3|(v & Hv & G3)]; [exists a|exists v]; simpl; split; auto; lra.
Qed.
Lemma max_app x y a b : is_max_abs x a -> is_max_abs y b -> is_max_abs (x ++ y) (Qmax a b).
Proof.
  intros (A1 & A2 & A3) (B1 & B2 & B3). destruct (qmax_cases a b) as [[M M']|[M M']].
  - split; [lra|]. split.
    + intros v Hv. apply in_app_or in Hv as [Hv|Hv]; [specialize (A2 v Hv)|specialize (B2 v Hv)]; lra.
    + destruct B3 as [B3|(v & Hv & B3)]; [left; lra|right]. exists v. split; [apply in_or_app; auto|lra].
  - split; [lra|]. split.
    + intros v Hv. apply in_app_or in Hv as [Hv|Hv]; [specialize (A2 v Hv)|specialize (B2 v Hv)]; lra.
    + destruct A3 as [A3|(v & Hv & A3)]; [left; lra|right]. exists v. split; [apply in_or_app; auto|lra].
Qed.
Lemma inf_spec ranks m : inf_all ranks = Some m -> is_max_abs (concat ranks) m.
Proof.
  unfold inf_all. destruct ranks as [|r ranks]; simpl; try discriminate. intro H. injection H as <-.
  revert r. assert (G : forall ranks x a, is_max_abs x a -> is_max_abs (x ++ concat ranks) (fold_left Qmax (map inf_local ranks) a)).
  { clear. induction ranks as [|r ranks IH]; intros x a H; simpl; [rewrite app_nil_r; auto|].
    rewrite app_assoc. apply IH. apply max_app; auto. apply inf_local_spec. }
  intro r. apply G, inf_local_spec.
Qed.

Lemma min_local_spec x : is_min Q_maxv x (min_local x).
Proof.
  unfold min_local. generalize Q_maxv. intro top.
  assert (G : forall x r, r <= top -> forall y, is_min top y r ->
     is_min top (y ++ x) (fold_left (fun r v => if Qltb r v then r else v) x r)).
  { clear. induction x as [|v x IH]; intros r Hr y H; simpl; [rewrite app_nil_r; auto|].
    change (y ++ v :: x) with (y ++ [v] ++ x). rewrite app_assoc. apply IH.
    - qif; lra.
    - destruct H as (H1 & H2 & H3). qif.
      + split; [lra|]. split.
        * intros w Hw. apply in_app_or in Hw as [Hw|[<-|[]]]; auto. lra.
        * destruct H3 as [H3|(w & Hw & H3)]; [left; auto|right]. exists w. split; [apply in_or_app|]; auto.
      + split; [lra|]. split.
        * intros w Hw. apply in_app_or in Hw as [Hw|[<-|[]]]; [specialize (H2 w Hw); lra|lra].
        * right. exists v. split; [apply in_or_app; simpl; auto|reflexivity]. }
  apply (G x top) with (y := []); [lra|]. split; [lra|]. split; [intros v []|]. left; reflexivity.
Qed.
Lemma min_app top x y a b : is_min top x a -> is_min top y b -> is_min top (x ++ y) (Qmin a b).
Proof.
  intros (A1 & A2 & A3) (B1 & B2 & B3). destruct (qmin_cases a b) as [[M M']|[M M']].
  - split; [lra|]. split.
    + intros v Hv. apply in_app_or in Hv as [Hv|Hv]; [specialize (A2 v Hv)|specialize (B2 v Hv)]; lra.
    + destruct A3 as [A3|(v & Hv & A3)]; [left; lra|right]. exists v. split; [apply in_or_app; auto|lra].
  - split; [lra|]. split.
    + intros v Hv. apply in_app_or in Hv as [Hv|Hv]; [specialize (A2 v Hv)|specialize (B2 v Hv)]; lra.
    + destruct B3 as [B3|(v & Hv & B3)]; [left; lra|right]. exists v. split; [apply in_or_app; auto|lra].
Qed.
Lemma min_spec ranks m : min_all ranks = Some m -> is_min Q_maxv (concat ranks) m.
Proof.
  unfold min_all. destruct ranks as [|r ranks]; simpl; try discriminate. intro H. injection H as <-.
  assert (G : forall ranks x a, is_min Q_maxv x a -> is_min Q_maxv (x ++ concat ranks) (fold_left Qmin (map min_local ranks) a)).
  { clear. induction ranks as [|r ranks IH]; intros x a H; simpl; [rewrite app_nil_r; auto|].
    rewrite app_assoc. apply IH. apply min_app; auto. apply min_local_spec. }
  apply G, min_local_spec.
Qed.

(** logical tests *)
Lemma land_spec {A} (bad : A -> bool) (loc : list A -> bool) ranks :
  (forall r, loc r = negb (existsb bad r)) -> mpi_land (map loc ranks) = negb (existsb bad (concat ranks)).
Proof.
  intro H. unfold mpi_land.
  assert (G : forall b, fold_left andb (map loc ranks) b = b && negb (existsb bad (concat ranks))).
  { induction ranks as [|r ranks IH]; intro b; simpl; [destruct b; auto|].
    rewrite IH, H, existsb_app, negb_orb, andb_assoc. reflexivity. }
  rewrite G. reflexivity.
Qed.
Lemma all_true_iff {A} (bad : A -> bool) l : negb (existsb bad l) = true <-> forall x, In x l -> bad x = false.
Proof.
  rewrite negb_true_iff. split.
  - intros H x Hx. destruct (bad x) eqn:E; auto.
    assert (existsb bad l = true) by (apply existsb_exists; eauto). congruence.
  - intro H. destruct (existsb bad l) eqn:E; auto. apply existsb_exists in E as (x & Hx & Hb).
    rewrite (H x Hx) in Hb. discriminate.
Qed.

Lemma all_pos_spec ranks : all_pos_all ranks = true <-> forall v, In v (concat ranks) -> 0 < v.
Proof.
  unfold all_pos_all. rewrite (land_spec (fun v => Qle_bool v 0)).
  - rewrite all_true_iff. split; intros H v Hv; specialize (H v Hv); apply Qleb_false; auto.
  - induction r as [|v r IH]; simpl; auto. destruct (Qle_bool v 0); auto.
Qed.
Lemma all_pos_pat_spec ranks : all_pos_pat_all ranks = true <->
  forall v w, In (v, w) (concat ranks) -> ~ w == 0 -> 0 < v.
Proof.
  unfold all_pos_pat_all. rewrite (land_spec (fun p => negb (Qeq_bool (snd p) 0) && Qle_bool (fst p) 0)).
  - rewrite all_true_iff. split.
    + intros H v w Hv Hw. specialize (H _ Hv). cbn [fst snd] in H.
      rewrite (proj2 (Qeqb_false w 0) Hw) in H. simpl in H. apply Qleb_false; auto.
    + intros H [v w] Hv. cbn [fst snd]. destruct (Qeq_bool w 0) eqn:E; auto. simpl.
      apply Qleb_false. eapply H; eauto. apply Qeqb_false; auto.
  - induction r as [|[v w] r IH]; simpl; auto. destruct (_ && _); auto.
Qed.
Lemma matches_spec ranks : matches_all ranks = true <->
  forall v w, In (v, w) (concat ranks) -> w == 0 -> v == 0.
Proof.
  unfold matches_all. rewrite (land_spec (fun p => Qeq_bool (snd p) 0 && negb (Qeq_bool (fst p) 0))).
  - rewrite all_true_iff. split.
    + intros H v w Hv Hw. specialize (H _ Hv). cbn [fst snd] in H.
      rewrite (proj2 (Qeqb_true w 0) Hw) in H. simpl in H. apply negb_false_iff in H. apply Qeqb_true; auto.
    + intros H [v w] Hv. cbn [fst snd]. destruct (Qeq_bool w 0) eqn:E; auto. simpl.
      apply negb_false_iff, Qeqb_true. eapply H; eauto. apply Qeqb_true; auto.
  - induction r as [|[v w] r IH]; simpl; auto. destruct (_ && _); auto.
Qed.
Lemma is_zero_spec ranks : is_zero_all ranks = true <-> forall v, In v (concat ranks) -> v == 0.
Proof.
  unfold is_zero_all. rewrite (land_spec (fun v => negb (Qeq_bool v 0))).
  - rewrite all_true_iff. split; intros H v Hv; specialize (H v Hv).
    + apply Qeqb_true. apply negb_false_iff; auto.
    + apply negb_false_iff, Qeqb_true; auto.
  - induction r as [|v r IH]; simpl; auto. destruct (Qeq_bool v 0); simpl; auto.
Qed.

Lemma count_spec {A} (f : A -> bool) (ranks : list (list A)) :
  fold_left Nat.add (map (fun x => fold_left (fun n a => if f a then S n else n) x 0%nat) ranks) 0%nat
  = length (filter f (concat ranks)).
Proof.
  assert (L : forall x n, fold_left (fun n a => if f a then S n else n) x n = (n + length (filter f x))%nat).
  { induction x as [|a x IH]; intro n; simpl; [lia|]. rewrite IH. destruct (f a); simpl; lia. }
  assert (G : forall n, fold_left Nat.add (map (fun x => fold_left (fun n a => if f a then S n else n) x 0%nat) ranks) n
     = (n + length (filter f (concat ranks)))%nat).
  { induction ranks as [|r ranks IH]; intro n; simpl; [lia|].
    rewrite IH, L, filter_app, app_length. lia. }
  rewrite G. reflexivity.
Qed.

(** compensated summation *)
Lemma kahan_exact lg e : forall s c, c == 0 ->
  let r := fold_left (kahan_step lg) e (s, c) in
  snd r == 0 /\ fst r == s + sumQ (map (fun p => if Qeq_bool (snd p) 1 then lg (fst p) else 0) e).
Proof.
  induction e as [|[x w] e IH]; intros s c Hc.
  - simpl. split; auto. ring.
  - cbn [fold_left kahan_step map sumQ fst snd]. destruct (Qeq_bool w 1).
    + destruct (IH (s + (lg x - c)) (s + (lg x - c) - s - (lg x - c))) as [I1 I2]; [ring|].
      split; auto. rewrite I2, Hc. ring.
    + destruct (IH s c Hc) as [I1 I2]. split; auto. rewrite I2. ring.
Qed.
Lemma log_spec lg ranks : log_barrier_all lg ranks ==
  sumQ (map (fun p => if Qeq_bool (snd p) 1 then lg (fst p) else 0) (concat ranks)).
Proof.
  apply sum_ranks. intro r. unfold log_barrier_local.
  destruct (kahan_exact lg r 0 0) as [_ H]; [reflexivity|]. rewrite H. ring.
Qed.

Lemma damping_spec mu kd ranks : damping_all mu kd ranks ==
  kd * mu * sumQ (map (fun v => if Qeq_bool (fst (snd v)) 1 && Qeq_bool (snd (snd v)) 0 then fst v else 0) (concat ranks)).
Proof.
  set (f := fun v : Q * (Q * Q) => if Qeq_bool (fst (snd v)) 1 && Qeq_bool (snd (snd v)) 0 then fst v else 0).
  unfold damping_all. rewrite (sum_ranks (fun v => kd * mu * f v)).
  - generalize (concat ranks). induction l as [|v l IH]; simpl; [ring|]. rewrite IH. ring.
  - intro r. unfold damping_local.
    assert (G : forall r s, fold_left (fun t (v : Q * (Q * Q)) => if Qeq_bool (fst (snd v)) 1 && Qeq_bool (snd (snd v)) 0
                                    then (t + fst v)%Q else t) r s == s + sumQ (map f r)).
    { clear. induction r as [|v r IH]; intro s; simpl; [ring|]. rewrite IH. unfold f at 2.
      destruct (_ && _); ring. }
    rewrite G. clear G. induction r as [|v r IH]; simpl; [ring|]. rewrite <- IH. ring.
Qed.

(** two-norm *)
Lemma sumsq_nonneg l : (0 <= sumsq l)%R.
Proof. induction l as [|a l IH]; simpl; [Lra.lra|]. pose proof (Rle_0_sqr a). unfold Rsqr in *. Lra.lra. Qed.
Lemma sumsq_app a b : sumsq (a ++ b) = (sumsq a + sumsq b)%R.
Proof. induction a as [|x a IH]; simpl; [ring|]. rewrite IH. ring. Qed.
Lemma two_local_spec x : two_local x = sqrt (sumsq x).
Proof.
  unfold two_local. f_equal.
  assert (G : forall x s, fold_left (fun s v => (s + v * v)%R) x s = (s + sumsq x)%R).
  { clear. induction x as [|v x IH]; intro s; simpl; [ring|]. rewrite IH. ring. }
  rewrite G. ring.
Qed.
Lemma two_spec ranks : two_all ranks = sqrt (sumsq (concat ranks)).
Proof.
  unfold two_all. f_equal.
  assert (G : forall s, fold_left Rplus (map (fun r => (two_local r * two_local r)%R) ranks) s = (s + sumsq (concat ranks))%R).
  { induction ranks as [|r ranks IH]; intro s; simpl; [ring|].
    rewrite IH, sumsq_app, two_local_spec, sqrt_sqrt by apply sumsq_nonneg. ring. }
  rewrite G. ring.
Qed.
