(** Proofs about KktModel: the assembled dense and mixed dense-sparse systems. *)
From Coq Require Import List Bool Arith Lia Ring Field.
From Verif Require Import RingKit KktModel KktSpec KktProofs.
Import ListNotations.

Section Pf.
Variable K : cfield.
Add Field kf : (fth K).
Notation vec := (nat -> K).
Notation mat := (nat -> nat -> K).

Lemma put_l n (a b : vec) i : i < n -> put K n a b i = a i.
Proof. intro H. unfold put. bdec. reflexivity. Qed.
Lemma put_r n (a b : vec) i : put K n a b (n + i) = b i.
Proof. unfold put. bdec. f_equal. lia. Qed.

Lemma put_rr n m (a b c : vec) i : put K n a (put K m b c) (n + m + i) = c i.
Proof. rewrite <- Nat.add_assoc, !put_r. reflexivity. Qed.
Lemma put_rrl n m k (a b c d : vec) i : i < k -> put K n a (put K m b (put K k c d)) (n + m + i) = c i.
Proof. intro H. rewrite put_rr, put_l by exact H. reflexivity. Qed.
Lemma put_rrr n m k (a b c d : vec) i : put K n a (put K m b (put K k c d)) (n + m + k + i) = d i.
Proof. replace (n + m + k + i) with (n + m + (k + i)) by lia. rewrite put_rr, put_r. reflexivity. Qed.

(* entries of the three assembly operations, by position *)
Lemma au_miss s n a (A M : mat) i j : i < s \/ s + n <= i \/ j < i \/ s + n <= j -> add_upper K s n a A M i j = M i j.
Proof. intros H. unfold add_upper. destruct (Nat.leb_spec s i), (Nat.ltb_spec i (s + n)), (Nat.leb_spec i j), (Nat.ltb_spec j (s + n)); cbn; try reflexivity; lia. Qed.
Lemma au_hit s n a (A M : mat) i j : s <= i /\ i <= j /\ j < s + n -> add_upper K s n a A M i j = M i j +! a *! A (i - s) (j - s).
Proof. intros H. unfold add_upper. bdec. reflexivity. Qed.
Lemma at_miss rs cs m n a (A M : mat) i j : i < rs \/ rs + n <= i \/ j < cs \/ cs + m <= j -> add_trans K rs cs m n a A M i j = M i j.
Proof. intros H. unfold add_trans. destruct (Nat.leb_spec rs i), (Nat.ltb_spec i (rs + n)), (Nat.leb_spec cs j), (Nat.ltb_spec j (cs + m)); cbn; try reflexivity; lia. Qed.
Lemma at_hit rs cs m n a (A M : mat) i j : rs <= i /\ i < rs + n /\ cs <= j /\ j < cs + m -> add_trans K rs cs m n a A M i j = M i j +! a *! A (j - cs) (i - rs).
Proof. intros H. unfold add_trans. bdec. reflexivity. Qed.
Lemma ad_miss s n a d (M : mat) i j : i <> j \/ i < s \/ s + n <= i -> add_diag K s n a d M i j = M i j.
Proof. intros H. unfold add_diag. destruct (Nat.eqb_spec i j), (Nat.leb_spec s i), (Nat.ltb_spec i (s + n)); cbn; try reflexivity; lia. Qed.
Lemma ad_hit s n a d (M : mat) i : s <= i /\ i < s + n -> add_diag K s n a d M i i = M i i +! a *! d (i - s).
Proof. intros H. unfold add_diag. bdec. reflexivity. Qed.
Ltac ent1 := first [ rewrite ad_miss by lia | rewrite ad_hit by lia | rewrite au_miss by lia | rewrite au_hit by lia | rewrite at_miss by lia | rewrite at_hit by lia ].
Ltac ent := unfold symu, add_mdm, add_mdn; cbv zeta; bdec; repeat ent1; bdec; unfold zero_mat.

Section Dense.
Variables (P : prob K) (it : iter K) (e : deltas K).
Hypothesis HS : symmetric K (nx P) (p_H P).
Let M := symu K (dense_xycyd_mat K P it e).
Let N := nx P + neq P + ni P.
Lemma de_xx i j : i < nx P -> j < nx P -> M i j = p_H P i j +! (if i =? j then xdiag K P it i +! e_wx e i else f0).
Proof.
  intros H H'. unfold M, dense_xycyd_mat, symu. cbv zeta.
  destruct (Nat.eqb_spec i j) as [->|E].
  - ent. rewrite !Nat.sub_0_r, barrier_x_eq. ring.
  - destruct (Nat.leb_spec i j); ent; rewrite !Nat.sub_0_r; [ring|]. rewrite (HS j i) by assumption. ring.
Qed.
Lemma de_xc i k : i < nx P -> k < neq P -> M i (nx P + k) = p_Jc P k i /\ M (nx P + k) i = p_Jc P k i.
Proof.
  intros H H'. unfold M, dense_xycyd_mat; split; ent; rewrite !Nat.sub_0_r; replace (nx P + k - nx P) with k by lia; ring.
Qed.
Lemma de_xd i k : i < nx P -> k < ni P -> M i (nx P + neq P + k) = p_Jd P k i /\ M (nx P + neq P + k) i = p_Jd P k i.
Proof.
  intros H H'. unfold M, dense_xycyd_mat; split; ent; rewrite !Nat.sub_0_r; replace (nx P + neq P + k - (nx P + neq P)) with k by lia; ring.
Qed.
Hypothesis HE : neq P = 0 \/ ((forall i, i < neq P -> e_cc e i = f0) /\ (forall i, i < ni P -> e_cd e i = f0)).
Lemma de_cc i k : i < neq P -> k < neq P -> M (nx P + i) (nx P + k) = (if i =? k then f0 -! e_cc e i else f0).
Proof.
  intros H H'. destruct HE as [Z|[Z1 Z2]]; [lia|]. unfold M, dense_xycyd_mat.
  destruct (Nat.eqb_spec i k) as [->|E].
  - rewrite (Z1 k H). unfold symu. cbv zeta.
    destruct (Nat.ltb_spec (nx P + k) (nx P + ni P)) as [L|L]; ent; [|ring].
    replace (nx P + k - nx P) with k by lia. rewrite (Z2 k) by lia. ring.
  - unfold symu. destruct (Nat.leb_spec (nx P + i) (nx P + k)); ent; ring.
Qed.
Lemma de_cd i k : i < neq P -> k < ni P -> M (nx P + i) (nx P + neq P + k) = f0 /\ M (nx P + neq P + k) (nx P + i) = f0.
Proof. intros H H'. unfold M, dense_xycyd_mat; split; ent; ring. Qed.
Lemma de_dd i k : i < ni P -> k < ni P -> M (nx P + neq P + i) (nx P + neq P + k) = (if i =? k then f0 -! (dd_inv K P it e i +! e_cd e i) else f0).
Proof.
  intros H H'. unfold M, dense_xycyd_mat.
  destruct (Nat.eqb_spec i k) as [->|E].
  - unfold symu. cbv zeta.
    destruct HE as [Z|[Z1 Z2]].
    + ent. replace (nx P + neq P + k - (nx P + neq P)) with k by lia. replace (nx P + neq P + k - nx P) with k by lia. ring.
    + rewrite (Z2 k H). destruct (Nat.ltb_spec (nx P + neq P + k) (nx P + ni P)) as [L|L]; ent.
      * rewrite (Z2 (nx P + neq P + k - nx P)) by lia. replace (nx P + neq P + k - (nx P + neq P)) with k by lia. ring.
      * replace (nx P + neq P + k - (nx P + neq P)) with k by lia. ring.
  - unfold symu. destruct (Nat.leb_spec (nx P + neq P + i) (nx P + neq P + k)); ent; ring.
Qed.
Lemma dense_xycyd_solve_ok S rx ryc ryd dx dyc dyd : exact K S ->
  dense_xycyd_solve K S P (dense_xycyd_mat K P it e) rx ryc ryd = Some (dx, dyc, dyd) -> xycyd_sys K P it e (dd_inv K P it e) rx ryc ryd dx dyc dyd.
Proof.
  intros EX. unfold dense_xycyd_solve. fold N. destruct (S N _ _) as [s|] eqn:E; [|discriminate]. intros [= <- <- <-].
  assert (R := EX _ _ _ _ E). clear E.
  assert (R' : forall i, i < N -> sumn N (fun j => M i j *! s j) = put K (nx P) rx (put K (neq P) ryc ryd) i) by exact R. clear R.
  unfold N in R'. unfold cut. cbn [Nat.add]. split; [|split]; intros i H.
  - specialize (R' i ltac:(lia)). rewrite put_l in R' by lia. rewrite <- R'. rewrite !sumn_app.
    rewrite (sumn_ext K (nx P) (fun j => M i j *! s j) (fun j => (p_H P i j +! (if i =? j then xdiag K P it i +! e_wx e i else f0)) *! s j))
      by (intros; rewrite de_xx by assumption; reflexivity).
    rewrite sumn_diag by exact H.
    rewrite (sumn_ext K (neq P) (fun j => M i (nx P + j) *! _) (fun k => p_Jc P k i *! s (nx P + k)))
      by (intros; rewrite (proj1 (de_xc _ _ H H0)); reflexivity).
    rewrite (sumn_ext K (ni P) (fun j => M i (nx P + neq P + j) *! _) (fun k => p_Jd P k i *! s (nx P + neq P + k)))
      by (intros; rewrite (proj1 (de_xd _ _ H H0)); reflexivity).
    reflexivity.
  - specialize (R' (nx P + i) ltac:(lia)). rewrite put_r, put_l in R' by lia. rewrite <- R'. rewrite !sumn_app.
    rewrite (sumn_ext K (nx P) (fun j => M (nx P + i) j *! s j) (fun j => p_Jc P i j *! s j))
      by (intros; rewrite (proj2 (de_xc _ _ H0 H)); reflexivity).
    rewrite (sumn_ext K (neq P) (fun j => M (nx P + i) (nx P + j) *! _) (fun k => (if i =? k then f0 -! e_cc e i else f0) *! s (nx P + k)))
      by (intros; rewrite de_cc by assumption; reflexivity).
    rewrite (sumn_diag0 K (neq P) i (f0 -! e_cc e i) (fun k => s (nx P + k)) H).
    rewrite (sumn_zero K (ni P)) by (intros; rewrite (proj1 (de_cd _ _ H H0)); ring).
    unfold mv. ring.
  - specialize (R' (nx P + neq P + i) ltac:(lia)). rewrite put_rr in R'. rewrite <- R'. rewrite !sumn_app.
    rewrite (sumn_ext K (nx P) (fun j => M (nx P + neq P + i) j *! s j) (fun j => p_Jd P i j *! s j))
      by (intros; rewrite (proj2 (de_xd _ _ H0 H)); reflexivity).
    rewrite (sumn_zero K (neq P)) by (intros; rewrite (proj2 (de_cd _ _ H0 H)); ring).
    rewrite (sumn_ext K (ni P) (fun j => M (nx P + neq P + i) (nx P + neq P + j) *! _) (fun k => (if i =? k then f0 -! (dd_inv K P it e i +! e_cd e i) else f0) *! s (nx P + neq P + k)))
      by (intros; rewrite de_dd by assumption; reflexivity).
    rewrite (sumn_diag0 K (ni P) i (f0 -! (dd_inv K P it e i +! e_cd e i)) (fun k => s (nx P + neq P + k)) H).
    unfold mv. ring.
Qed.
End Dense.

Section DenseXD.
Variables (P : prob K) (it : iter K) (e : deltas K).
Hypothesis HS : symmetric K (nx P) (p_H P).
Let M := symu K (dense_xdycyd_mat K P it e).
Let N := nx P + ni P + neq P + ni P.
Lemma dx_xx i j : i < nx P -> j < nx P -> M i j = p_H P i j +! (if i =? j then xdiag K P it i +! e_wx e i else f0).
Proof.
  intros H H'. unfold M, dense_xdycyd_mat, symu. cbv zeta.
  destruct (Nat.eqb_spec i j) as [->|E].
  - ent. rewrite !Nat.sub_0_r, barrier_x_eq. ring.
  - destruct (Nat.leb_spec i j); ent; rewrite !Nat.sub_0_r; [ring|]. rewrite (HS j i) by assumption. ring.
Qed.
Lemma dx_xd i k : i < nx P -> k < ni P -> M i (nx P + k) = f0 /\ M (nx P + k) i = f0.
Proof. intros H H'. unfold M, dense_xdycyd_mat; split; ent; ring. Qed.
Lemma dx_xc i k : i < nx P -> k < neq P -> M i (nx P + ni P + k) = p_Jc P k i /\ M (nx P + ni P + k) i = p_Jc P k i.
Proof.
  intros H H'. unfold M, dense_xdycyd_mat; split; ent; rewrite !Nat.sub_0_r; replace (nx P + ni P + k - (nx P + ni P)) with k by lia; ring.
Qed.
Lemma dx_xe i k : i < nx P -> k < ni P -> M i (nx P + ni P + neq P + k) = p_Jd P k i /\ M (nx P + ni P + neq P + k) i = p_Jd P k i.
Proof.
  intros H H'. unfold M, dense_xdycyd_mat; split; ent; rewrite !Nat.sub_0_r; replace (nx P + ni P + neq P + k - (nx P + ni P + neq P)) with k by lia; ring.
Qed.
Lemma dx_dd i k : i < ni P -> k < ni P -> M (nx P + i) (nx P + k) = (if i =? k then ddiag K P it e i else f0).
Proof.
  intros H H'. unfold M, dense_xdycyd_mat. destruct (Nat.eqb_spec i k) as [->|E].
  - ent. replace (nx P + k - nx P) with k by lia. rewrite <- barrier_d_eq. ring.
  - unfold symu. destruct (Nat.leb_spec (nx P + i) (nx P + k)); ent; ring.
Qed.
Lemma dx_dc i k : i < ni P -> k < neq P -> M (nx P + i) (nx P + ni P + k) = f0 /\ M (nx P + ni P + k) (nx P + i) = f0.
Proof. intros H H'. unfold M, dense_xdycyd_mat; split; ent; ring. Qed.
Lemma dx_de i k : i < ni P -> k < ni P -> M (nx P + i) (nx P + ni P + neq P + k) = (if i =? k then fopp f1 else f0) /\
  M (nx P + ni P + neq P + k) (nx P + i) = (if i =? k then fopp f1 else f0).
Proof.
  intros H H'. unfold M, dense_xdycyd_mat. destruct (Nat.eqb_spec i k) as [->|E]; split; ent; ring.
Qed.
Hypothesis HE : neq P = 0 \/ ((forall i, i < neq P -> e_cc e i = f0) /\ (forall i, i < ni P -> e_cd e i = f0)).
Lemma dx_cc i k : i < neq P -> k < neq P -> M (nx P + ni P + i) (nx P + ni P + k) = (if i =? k then f0 -! e_cc e i else f0).
Proof.
  intros H H'. destruct HE as [Z|[Z1 Z2]]; [lia|]. unfold M, dense_xdycyd_mat.
  destruct (Nat.eqb_spec i k) as [->|E].
  - rewrite (Z1 k H). unfold symu. cbv zeta.
    destruct (Nat.ltb_spec (nx P + ni P + k) (nx P + ni P + ni P)) as [L|L]; ent; [|ring].
    replace (nx P + ni P + k - (nx P + ni P)) with k by lia. rewrite (Z2 k) by lia. ring.
  - unfold symu. destruct (Nat.leb_spec (nx P + ni P + i) (nx P + ni P + k)); ent; ring.
Qed.
Lemma dx_ce i k : i < neq P -> k < ni P -> M (nx P + ni P + i) (nx P + ni P + neq P + k) = f0 /\ M (nx P + ni P + neq P + k) (nx P + ni P + i) = f0.
Proof. intros H H'. unfold M, dense_xdycyd_mat; split; ent; ring. Qed.
Lemma dx_ee i k : i < ni P -> k < ni P -> M (nx P + ni P + neq P + i) (nx P + ni P + neq P + k) = (if i =? k then f0 -! e_cd e i else f0).
Proof.
  intros H H'. unfold M, dense_xdycyd_mat.
  destruct (Nat.eqb_spec i k) as [->|E].
  - unfold symu. cbv zeta. destruct HE as [Z|[Z1 Z2]].
    + ent. replace (nx P + ni P + neq P + k - (nx P + ni P)) with k by lia. ring.
    + rewrite (Z2 k H). destruct (Nat.ltb_spec (nx P + ni P + neq P + k) (nx P + ni P + ni P)) as [L|L]; ent; [|ring].
      rewrite (Z2 (nx P + ni P + neq P + k - (nx P + ni P))) by lia. ring.
  - unfold symu. destruct (Nat.leb_spec (nx P + ni P + neq P + i) (nx P + ni P + neq P + k)); ent; ring.
Qed.
Lemma dense_xdycyd_solve_ok S rx rd ryc ryd dx dd dyc dyd : exact K S ->
  dense_xdycyd_solve K S P (dense_xdycyd_mat K P it e) rx rd ryc ryd = Some (dx, dd, dyc, dyd) -> xdycyd_sys K P it e rx rd ryc ryd dx dd dyc dyd.
Proof.
  intros EX. unfold dense_xdycyd_solve. fold N. destruct (S N _ _) as [s|] eqn:E; [|discriminate]. intros [= <- <- <- <-].
  assert (R := EX _ _ _ _ E). clear E.
  assert (R' : forall i, i < N -> sumn N (fun j => M i j *! s j) = put K (nx P) rx (put K (ni P) rd (put K (neq P) ryc ryd)) i) by exact R. clear R.
  unfold N in R'. unfold cut. cbn [Nat.add]. split; [|split; [|split]]; intros i H.
  - specialize (R' i ltac:(lia)). rewrite put_l in R' by lia. rewrite <- R'. rewrite !sumn_app.
    rewrite (sumn_ext K (nx P) (fun j => M i j *! s j) (fun j => (p_H P i j +! (if i =? j then xdiag K P it i +! e_wx e i else f0)) *! s j))
      by (intros; rewrite dx_xx by assumption; reflexivity).
    rewrite sumn_diag by exact H.
    rewrite (sumn_zero K (ni P) (fun j => M i (nx P + j) *! _)) by (intros; rewrite (proj1 (dx_xd _ _ H H0)); ring).
    rewrite (sumn_ext K (neq P) (fun j => M i (nx P + ni P + j) *! _) (fun k => p_Jc P k i *! s (nx P + ni P + k)))
      by (intros; rewrite (proj1 (dx_xc _ _ H H0)); reflexivity).
    rewrite (sumn_ext K (ni P) (fun j => M i (nx P + ni P + neq P + j) *! _) (fun k => p_Jd P k i *! s (nx P + ni P + neq P + k)))
      by (intros; rewrite (proj1 (dx_xe _ _ H H0)); reflexivity).
    unfold mv, tmv. ring.
  - specialize (R' (nx P + i) ltac:(lia)). rewrite put_r, put_l in R' by lia. rewrite <- R'. rewrite !sumn_app.
    rewrite (sumn_zero K (nx P) (fun j => M (nx P + i) j *! _)) by (intros; rewrite (proj2 (dx_xd _ _ H0 H)); ring).
    rewrite (sumn_ext K (ni P) (fun j => M (nx P + i) (nx P + j) *! _) (fun k => (if i =? k then ddiag K P it e i else f0) *! s (nx P + k)))
      by (intros; rewrite dx_dd by assumption; reflexivity).
    rewrite (sumn_diag0 K (ni P) i _ (fun k => s (nx P + k)) H).
    rewrite (sumn_zero K (neq P)) by (intros; rewrite (proj1 (dx_dc _ _ H H0)); ring).
    rewrite (sumn_ext K (ni P) (fun j => M (nx P + i) (nx P + ni P + neq P + j) *! _) (fun k => (if i =? k then fopp f1 else f0) *! s (nx P + ni P + neq P + k)))
      by (intros; rewrite (proj1 (dx_de _ _ H H0)); reflexivity).
    rewrite (sumn_diag0 K (ni P) i _ (fun k => s (nx P + ni P + neq P + k)) H). ring.
  - specialize (R' (nx P + ni P + i) ltac:(lia)). rewrite put_rrl in R' by lia. rewrite <- R'. rewrite !sumn_app.
    rewrite (sumn_ext K (nx P) (fun j => M (nx P + ni P + i) j *! s j) (fun j => p_Jc P i j *! s j))
      by (intros; rewrite (proj2 (dx_xc _ _ H0 H)); reflexivity).
    rewrite (sumn_zero K (ni P) (fun j => M (nx P + ni P + i) (nx P + j) *! _)) by (intros; rewrite (proj2 (dx_dc _ _ H0 H)); ring).
    rewrite (sumn_ext K (neq P) (fun j => M (nx P + ni P + i) (nx P + ni P + j) *! _) (fun k => (if i =? k then f0 -! e_cc e i else f0) *! s (nx P + ni P + k)))
      by (intros; rewrite dx_cc by assumption; reflexivity).
    rewrite (sumn_diag0 K (neq P) i (f0 -! e_cc e i) (fun k => s (nx P + ni P + k)) H).
    rewrite (sumn_zero K (ni P)) by (intros; rewrite (proj1 (dx_ce _ _ H H0)); ring).
    unfold mv. ring.
  - specialize (R' (nx P + ni P + neq P + i) ltac:(lia)).
    rewrite put_rrr in R'. rewrite <- R'. rewrite !sumn_app.
    rewrite (sumn_ext K (nx P) (fun j => M (nx P + ni P + neq P + i) j *! s j) (fun j => p_Jd P i j *! s j))
      by (intros; rewrite (proj2 (dx_xe _ _ H0 H)); reflexivity).
    rewrite (sumn_ext K (ni P) (fun j => M (nx P + ni P + neq P + i) (nx P + j) *! _) (fun k => (if i =? k then fopp f1 else f0) *! s (nx P + k)))
      by (intros; rewrite (proj2 (dx_de _ _ H0 H)), Nat.eqb_sym; reflexivity).
    rewrite (sumn_diag0 K (ni P) i _ (fun k => s (nx P + k)) H).
    rewrite (sumn_zero K (neq P)) by (intros; rewrite (proj2 (dx_ce _ _ H0 H)); ring).
    rewrite (sumn_ext K (ni P) (fun j => M (nx P + ni P + neq P + i) (nx P + ni P + neq P + j) *! _) (fun k => (if i =? k then f0 -! e_cd e i else f0) *! s (nx P + ni P + neq P + k)))
      by (intros; rewrite dx_ee by assumption; reflexivity).
    rewrite (sumn_diag0 K (ni P) i (f0 -! e_cd e i) (fun k => s (nx P + ni P + neq P + k)) H).
    unfold mv. ring.
Qed.
End DenseXD.
End Pf.
