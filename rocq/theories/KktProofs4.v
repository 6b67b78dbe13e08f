From Coq Require Import List Bool Arith Lia Ring Field.
From Verif Require Import RingKit.
From Verif Require Import KktModel KktModel2 KktSpec KktProofs KktProofs2 KktProofs3.
From Verif Require Import PackModel HessModel HessSpec HessAlgModel HessAlgSpec HessAlgProofs HessAlgProofs2.
Import ListNotations.

Section P.
Variable K : cfield.
Add Field kf : (fth K).
Notation vec := (nat -> K).
Notation mat := (nat -> nat -> K).

(** * The right-hand side *)
Lemma count_all n p i : (count n p <? n) = false -> i < n -> p i = true.
Proof.
  unfold count. intros H Hi. apply Nat.ltb_ge in H.
  assert (G : forall l, length l <= length (filter p l) -> forall x, In x l -> p x = true).
  { induction l as [|a l IH]; intros L x X; [destruct X|]. cbn in L. destruct (p a) eqn:E.
    - cbn in L. destruct X as [->|X]; [exact E|]. apply IH; [lia|exact X].
    - exfalso. assert (F : length (filter p l) <= length l).
      { clear. induction l as [|b l I]; cbn; [lia|]. destruct (p b); cbn; lia. }
      cbn in L. lia. }
  apply (G (seq 0 n)); [rewrite seq_length; exact H|apply in_seq; lia].
Qed.
Lemma count_none n p i : (0 <? count n p) = false -> i < n -> p i = false.
Proof. intros H Hi. destruct (p i) eqn:E; [|reflexivity]. rewrite (count_pos n p i Hi E) in H. discriminate. Qed.

Lemma violation_matches P v it r : kkt_violation K P v it r -> matches K P r.
Proof.
  intros (_ & _ & _ & _ & A & B & C & D). split; intros i H; split; intros E.
  - specialize (A i H). rewrite E in A. exact A.
  - specialize (B i H). rewrite E in B. exact B.
  - specialize (C i H). rewrite E in C. exact C.
  - specialize (D i H). rewrite E in D. exact D.
Qed.
Lemma resid_update_ok P v it old : matches K P old -> kkt_violation K P v it (resid_update K P v it old).
Proof.
  intros (M1 & M2). unfold kkt_violation, resid_update. cbn [r_x r_d r_yc r_yd r_xl r_xu r_dl r_du r_szl r_szu r_svl r_svu].
  unfold tmv, select. split; [|split; [|split; [|split; [|split; [|split; [|split]]]]]]; intros i H; try ring.
  - destruct (ixl P i) eqn:E.
    + rewrite (count_pos _ _ _ H E). destruct (count (nx P) (ixl P) <? nx P); rewrite ?E; split; ring.
    + destruct (0 <? count (nx P) (ixl P)); [|exact (proj1 (M1 i H) E)].
      destruct (count (nx P) (ixl P) <? nx P) eqn:C; [rewrite ?E; auto|]. rewrite (count_all _ _ _ C H) in E. discriminate.
  - destruct (ixu P i) eqn:E.
    + rewrite (count_pos _ _ _ H E). destruct (count (nx P) (ixu P) <? nx P); rewrite ?E; split; ring.
    + destruct (0 <? count (nx P) (ixu P)); [|exact (proj2 (M1 i H) E)].
      destruct (count (nx P) (ixu P) <? nx P) eqn:C; [rewrite ?E; auto|]. rewrite (count_all _ _ _ C H) in E. discriminate.
  - destruct (idl P i) eqn:E.
    + rewrite (count_pos _ _ _ H E). destruct (count (ni P) (idl P) <? ni P); rewrite ?E; split; ring.
    + destruct (0 <? count (ni P) (idl P)); [|exact (proj1 (M2 i H) E)].
      destruct (count (ni P) (idl P) <? ni P) eqn:C; [rewrite ?E; auto|]. rewrite (count_all _ _ _ C H) in E. discriminate.
  - destruct (idu P i) eqn:E.
    + rewrite (count_pos _ _ _ H E). destruct (count (ni P) (idu P) <? ni P); rewrite ?E; split; ring.
    + destruct (0 <? count (ni P) (idu P)); [|exact (proj2 (M2 i H) E)].
      destruct (count (ni P) (idu P) <? ni P) eqn:C; [rewrite ?E; auto|]. rewrite (count_all _ _ _ C H) in E. discriminate.
Qed.
Lemma resid0_matches P : matches K P (resid0 K).
Proof. split; intros; cbn; auto. Qed.
Lemma updates_match P us : forall r, matches K P r -> matches K P (fold_left (fun r u => resid_update K P (fst u) (snd u) r) us r).
Proof. induction us as [|u us IH]; intros r M; [exact M|]. apply IH. eapply violation_matches. apply resid_update_ok, M. Qed.

Lemma shift (a b c : K) : a +! b = f0 -> c = a -> c = fopp b.
Proof. intros H ->. replace a with (a +! b -! b) by ring. rewrite H. ring. Qed.
Lemma lands_ok P v it e r w : kkt_violation K P v it r -> newton K P it e r w ->
  (forall i, i < neq P -> e_cc e i = f0) -> (forall i, i < ni P -> e_cd e i = f0) -> lands K P v it w.
Proof.
  intros (_ & _ & V3 & V4 & V5 & V6 & V7 & V8) (_ & _ & N3 & N4 & N5 & N6 & N7 & N8) Zc Zd.
  split; [|split; [|split; [|split; [|split]]]]; intros i H.
  - pose proof (shift _ _ _ (V3 i H) (N3 i H)) as A. rewrite (Zc i H) in A.
    transitivity (v_c v i +! (sumn (nx P) (fun j => p_Jc P i j *! w_x w j) -! f0 *! w_yc w i)); [ring|rewrite A; ring].
  - pose proof (shift _ _ _ (V4 i H) (N4 i H)) as A. rewrite (Zd i H) in A.
    transitivity (v_d v i +! (sumn (nx P) (fun j => p_Jd P i j *! w_x w j) -! w_d w i -! f0 *! w_yd w i) +! w_d w i); [ring|rewrite A; ring].
  - intros E. specialize (V5 i H). specialize (N5 i H). rewrite E in *. pose proof (shift _ _ _ (proj1 V5) (proj1 N5)) as A.
    transitivity (w_x it i -! w_sxl it i -! (w_sxl w i -! w_x w i)); [ring|rewrite A; ring].
  - intros E. specialize (V6 i H). specialize (N6 i H). rewrite E in *. pose proof (shift _ _ _ (proj1 V6) (proj1 N6)) as A.
    transitivity (w_x it i +! w_sxu it i +! (w_sxu w i +! w_x w i)); [ring|rewrite A; ring].
  - intros E. specialize (V7 i H). specialize (N7 i H). rewrite E in *. pose proof (shift _ _ _ (proj1 V7) (proj1 N7)) as A.
    transitivity (w_d it i -! w_sdl it i -! (w_sdl w i -! w_d w i)); [ring|rewrite A; ring].
  - intros E. specialize (V8 i H). specialize (N8 i H). rewrite E in *. pose proof (shift _ _ _ (proj1 V8) (proj1 N8)) as A.
    transitivity (w_d it i +! w_sdu it i +! (w_sdu w i +! w_d w i)); [ring|rewrite A; ring].
Qed.

(** * Quasi-Newton *)
Section Bfgs.
Variable n : nat.
Notation B := (bfgs K n).
Notation inner := (inner K n).
Lemma bfgs_zero sigma ps p : p < n -> B sigma ps (fun _ => f0) p = f0.
Proof.
  intros Hp. pose proof (bfgs_lin K n sigma ps (fun _ => f0) f1 (fun _ => f0) p Hp) as A. cbv beta in A.
  pose proof (bfgs_ext K n sigma ps (fun _ => f0 -! f1 *! f0) (fun _ => f0) (fun q _ => ltac:(cbv beta; ring)) p Hp) as E. rewrite E in A.
  transitivity (B sigma ps (fun _ => f0) p -! f1 *! B sigma ps (fun _ => f0) p); [exact A|ring].
Qed.
Lemma matrix_of_ok sigma ps x i : i < n -> sumn n (fun j => matrix_of K (B sigma ps) i j *! x j) = B sigma ps x i.
Proof.
  intros Hi. assert (G : forall k, sumn k (fun j => matrix_of K (B sigma ps) i j *! x j) = B sigma ps (fun p => if p <? k then x p else f0) i).
  { induction k as [|k IH].
    - symmetry. exact (bfgs_zero sigma ps i Hi).
    - rewrite sumn_S, IH. unfold matrix_of. symmetry.
      rewrite (bfgs_ext K n sigma ps (fun p => if p <? S k then x p else f0)
        (fun p => (if p <? k then x p else f0) -! fopp (x k) *! (if p =? k then f1 else f0))); [|intros p _|exact Hi].
      + rewrite bfgs_lin by exact Hi. ring.
      + destruct (Nat.ltb_spec p (S k)), (Nat.ltb_spec p k), (Nat.eqb_spec p k); try lia; subst; ring. }
  rewrite G. apply bfgs_ext; [|exact Hi]. intros p Hp. rewrite (proj2 (Nat.ltb_lt p n) Hp). reflexivity.
Qed.

Variables (sigma : K) (Dx : vec) (ps : list (vec * vec)).
Definition A (x : vec) : vec := fun p => B sigma ps x p +! Dx p *! x p.
Lemma A_sym a b : inner a (A b) = inner (A a) b.
Proof.
  unfold A. rewrite inner_add, bfgs_sym. rewrite (inner_comm K n (fun p => B sigma ps a p +! Dx p *! a p) b), inner_add.
  f_equal; [apply inner_comm|]. apply sumn_ext. intros. ring.
Qed.
End Bfgs.

Section LowRank.
Variables (P : prob K) (it : iter K) (solveV : nat -> mat -> vec -> vec) (S : dsolver K) (sigma : K) (m : mem vec K) (old Wold : mat) (ps : list (vec * vec)).
Let n := nx P.
Let mm := neq P + ni P.
Let J := lr_jac K P.
Let Dx := barrier_x K P it.
Let e := no_deltas K.
Hypothesis HM : mem_of f0 (inner K n) (inner K n) ps m.
Hypothesis HD : defined K n sigma ps.
Hypothesis HN : forall p, p < n -> sigma +! Dx p <> f0.
Hypothesis HV : exactV K n solveV sigma (dhinv K sigma Dx) m old.
Hypothesis HH : p_H P = matrix_of K (bfgs K n sigma ps).
Notation inv r := (hsolve K n solveV sigma (dhinv K sigma Dx) m old r).
Notation inner := (inner K n).
Lemma inv_ok r : eqv K n (A n sigma Dx ps (inv r)) r.
Proof. exact (hsolve_ok K n solveV sigma Dx ps m old r HM HD HN HV). Qed.
Lemma pull (a x r : vec) : eqv K n (A n sigma Dx ps x) r -> inner a x = inner (inv a) r.
Proof.
  intros H. rewrite (inner_ext K n a (A n sigma Dx ps (inv a)) x x); [|intros p Hp; symmetry; apply inv_ok; exact Hp|intros p _; reflexivity].
  rewrite <- A_sym. apply inner_ext; [intros p _; reflexivity|exact H].
Qed.
Definition dg (i : nat) : K := if i <? neq P then f0 else dd_inv K P it e (i - neq P).
Lemma lr_entry i j : i < mm -> j < mm ->
  symu K (lr_mat K solveV P it sigma m old Wold) i j = inner (inv (J i)) (J j) +! (if i =? j then dg i else f0).
Proof.
  assert (G : forall i j, i < mm -> lr_mat K solveV P it sigma m old Wold i j = inner (inv (J i)) (J j) +! (if i =? j then dg i else f0)).
  { clear i j. intros i j Hi. unfold lr_mat, add_diag. fold n Dx J e.
    destruct (sym_times_ok K n solveV sigma Dx ps m old f0 Wold f1 J i j HM HD HN HV) as (u & U & ->).
    rewrite (pull (J i) u (J j) U). unfold dg. fold mm in Hi. unfold mm in Hi.
    destruct (Nat.eqb_spec i j), (Nat.leb_spec (neq P) i), (Nat.ltb_spec i (neq P)), (Nat.ltb_spec i (neq P + ni P)); cbn [andb]; try lia; ring. }
  intros Hi Hj. unfold symu. destruct (i <=? j); [apply G; exact Hi|]. rewrite G by exact Hj. f_equal.
  - rewrite inner_comm. rewrite (pull (J i) (inv (J j)) (J j)); [reflexivity|]. apply inv_ok.
  - destruct (Nat.eqb_spec i j), (Nat.eqb_spec j i); subst; try congruence; reflexivity.
Qed.
Lemma lr_solve_ok rx ryc ryd dx dyc dyd : exact K S ->
  lr_solve K solveV S P it sigma m old Wold rx ryc ryd = Some (dx, dyc, dyd) -> xycyd_sys K P it e (dd_inv K P it e) rx ryc ryd dx dyc dyd.
Proof.
  intros EX. unfold lr_solve. fold n mm Dx J. destruct (S mm _ _) as [s|] eqn:E; [|discriminate].
  set (res := fun j => rx j -! tmv K mm J s j). intros [= <- <- <-].
  assert (R := EX _ _ _ _ E). clear E. cbv beta in R. set (dx := inv res).
  assert (Q : forall i, i < mm -> inner (J i) dx -! dg i *! s i = KktModel.put K (neq P) ryc ryd i).
  { intros i Hi. specialize (R i Hi).
    rewrite (sumn_ext K mm _ (fun j => (inner (inv (J i)) (J j) +! (if i =? j then dg i else f0)) *! s j)) in R
      by (intros j Hj; exact (f_equal (fun a => a *! s j) (lr_entry i j Hi Hj))).
    rewrite (sumn_diag K mm i (dg i) (fun j => inner (inv (J i)) (J j)) s Hi) in R.
    assert (T : sumn mm (fun j => inner (inv (J i)) (J j) *! s j) = inner (inv (J i)) (tmv K mm J s)).
    { unfold tmv. rewrite (inner_sum K n (inv (J i)) mm (fun j p => J j p *! s j)). apply sumn_ext. intros j _.
      transitivity (s j *! inner (inv (J i)) (J j)); [ring|]. rewrite <- inner_scale. apply inner_ext; intros p _; ring. }
    rewrite T in R.
    assert (X : mv K n J (inv rx) i = inner (inv (J i)) rx).
    { exact (pull (J i) (inv rx) rx (inv_ok rx)). }
    rewrite X in R. rewrite (pull (J i) dx res (inv_ok res)). unfold res. rewrite inner_sub.
    transitivity (inner (inv (J i)) rx -! (inner (inv (J i)) (tmv K mm J s) +! dg i *! s i)); [ring|]. rewrite R. ring. }
  unfold xycyd_sys. fold n. unfold cut. cbn [Nat.add e no_deltas e_wx e_cc e_cd]. split; [|split]; intros i Hi.
  - pose proof (inv_ok res i Hi) as I. fold dx in I. unfold A in I. rewrite HH. unfold mv. rewrite (matrix_of_ok n sigma ps dx i Hi).
    rewrite <- (barrier_x_eq K P it i). fold Dx.
    transitivity (res i +! tmv K (neq P) (p_Jc P) (fun j => s j) i +! tmv K (ni P) (p_Jd P) (fun j => s (neq P + j)) i); [rewrite <- I; ring|].
    unfold res, tmv, mm. rewrite sumn_app.
    assert (J1 : sumn (neq P) (fun k => J k i *! s k) = sumn (neq P) (fun k => p_Jc P k i *! s k)).
    { apply sumn_ext. intros k Hk. unfold J, lr_jac. rewrite (proj2 (Nat.ltb_lt _ _) Hk). reflexivity. }
    assert (J2 : sumn (ni P) (fun k => J (neq P + k) i *! s (neq P + k)) = sumn (ni P) (fun k => p_Jd P k i *! s (neq P + k))).
    { apply sumn_ext. intros k Hk. unfold J, lr_jac. rewrite (proj2 (Nat.ltb_ge _ _)) by lia. replace (neq P + k - neq P) with k by lia. reflexivity. }
    rewrite J1, J2. ring.
  - specialize (Q i ltac:(unfold mm; lia)). unfold dg in Q. rewrite put_l in Q by exact Hi. rewrite (proj2 (Nat.ltb_lt _ _) Hi) in Q.
    rewrite <- Q. unfold mv, HessAlgSpec.inner, J, lr_jac. rewrite (proj2 (Nat.ltb_lt _ _) Hi). ring.
  - specialize (Q (neq P + i) ltac:(unfold mm; lia)). unfold dg in Q. rewrite put_r in Q.
    rewrite (proj2 (Nat.ltb_ge _ _)) in Q by lia. replace (neq P + i - neq P) with i in Q by lia.
    rewrite <- Q. unfold mv, HessAlgSpec.inner, J, lr_jac. rewrite (proj2 (Nat.ltb_ge (neq P + i) (neq P))) by lia. replace (neq P + i - neq P) with i by lia. ring.
Qed.
End LowRank.
End P.
