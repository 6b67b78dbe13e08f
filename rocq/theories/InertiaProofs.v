From Coq Require Import List Bool ZArith Reals Lia Lra Psatz.
From Verif Require Import RingKit InertiaModel InertiaSpec.
Import ListNotations.
Open Scope R_scope.

Notation rsumn n f := (@sumn R_field n f : R).

Lemma rsumn_S n (f : nat -> R) : @eq R (rsumn (S n) f) (rsumn n f + f n).
Proof. apply (sumn_S R_field). Qed.
Lemma rsumn_ext n (f g : nat -> R) : (forall i, (i < n)%nat -> @eq R (f i) (g i)) -> @eq R (rsumn n f) (rsumn n g).
Proof. apply (sumn_ext R_field). Qed.
Lemma rsumn_zero n (f : nat -> R) : (forall i, (i < n)%nat -> @eq R (f i) 0) -> @eq R (rsumn n f) 0.
Proof. apply (sumn_zero R_field). Qed.
Lemma rsumn_add n (f g : nat -> R) : @eq R (rsumn n (fun i => f i + g i)) (rsumn n f + rsumn n g).
Proof. apply (sumn_add R_field). Qed.
Lemma rsumn_scale n (c : R) (f : nat -> R) : @eq R (rsumn n (fun i => c * f i)) (c * rsumn n f).
Proof. apply (sumn_scale R_field). Qed.
Lemma rsumn_swap n m (f : nat -> nat -> R) : @eq R (rsumn n (fun i => rsumn m (f i))) (rsumn m (fun j => rsumn n (fun i => f i j))).
Proof. apply (sumn_swap R_field). Qed.
Lemma rsumn_pick n (f : nat -> R) i : (i < n)%nat -> @eq R (rsumn n (fun j => if Nat.eqb i j then f j else 0)) (f i).
Proof. apply (sumn_pick R_field). Qed.

Lemma form_ext N a a' x x' : (forall i, (i < N)%nat -> a i = a' i /\ x i = x' i) -> form N a x = form N a' x'.
Proof. intro H. apply rsumn_ext. intros i Hi. destruct (H i Hi) as [-> ->]. reflexivity. Qed.
Lemma form_sym N a x : form N a x = form N x a.
Proof. apply rsumn_ext. intros. ring. Qed.
Lemma form_S n a x : form (S n) a x = form n a x + a n * x n.
Proof. apply rsumn_S. Qed.
Lemma form_lin N a b c d x : form N (fun i => c * a i + d * b i) x = c * form N a x + d * form N b x.
Proof.
  unfold form. rewrite <- !rsumn_scale, <- rsumn_add. apply rsumn_ext. intros. ring.
Qed.
Lemma form_zero_r N a x : (forall i, (i < N)%nat -> x i = 0) -> form N a x = 0.
Proof. intro H. apply rsumn_zero. intros i Hi. rewrite (H i Hi). ring. Qed.

(** fewer equations than unknowns *)
Lemma kernel : forall N (rows : list (nat -> R)), (length rows < N)%nat ->
  exists x, (exists i, (i < N)%nat /\ x i <> 0) /\ forall r, In r rows -> form N r x = 0.
Proof.
  induction N as [|n IH]; intros rows L; [lia|].
  assert (D : (exists r, In r rows /\ r n <> 0) \/ (forall r, In r rows -> r n = 0)).
  { clear. induction rows as [|a l IH]; [right; intros ? []|].
    destruct (Req_EM_T (a n) 0) as [E|E]; [|left; exists a; split; [left; auto|auto]].
    destruct IH as [(r & I & X)|H]; [left; exists r; split; [right; auto|auto]|].
    right. intros r [<-|I]; auto. }
  destruct D as [(r & I & X)|H].
  - apply in_split in I. destruct I as (l1 & l2 & ->).
    destruct (IH (map (fun (q : nat -> R) i => 1 * q i + (- (q n / r n)) * r i) (l1 ++ l2))) as (x & (i & Hi & Xi) & Hk).
    { rewrite map_length, app_length. rewrite app_length in L. simpl in L. lia. }
    exists (fun i => if Nat.eqb i n then - form n r x / r n else x i). split.
    + exists i. split; [lia|]. destruct (Nat.eqb_spec i n); [lia|auto].
    + assert (G : forall q, form (S n) q (fun i => if Nat.eqb i n then - form n r x / r n else x i)
                            = form n q x + q n * (- form n r x / r n)).
      { intro q. rewrite form_S, Nat.eqb_refl. f_equal. apply form_ext. intros j Hj.
        destruct (Nat.eqb_spec j n); [lia|auto]. }
      intros q Iq. rewrite G. apply in_app_or in Iq.
      assert (C : q = r \/ In q (l1 ++ l2)).
      { destruct Iq as [|[|]]; auto; right; apply in_or_app; auto. }
      destruct C as [->|C]; [field; auto|].
      specialize (Hk _ (in_map (fun (q : nat -> R) i => 1 * q i + (- (q n / r n)) * r i) _ _ C)). cbv beta in Hk.
      rewrite (form_lin n q r 1 (- (q n / r n)) x) in Hk.
      replace (form n q x + q n * (- form n r x / r n)) with (1 * form n q x + - (q n / r n) * form n r x)
        by (field; auto).
      exact Hk.
  - exists (fun i => if Nat.eqb n i then 1 else 0). split.
    + exists n. split; [lia|]. rewrite Nat.eqb_refl. lra.
    + intros r I. unfold form.
      rewrite (rsumn_ext _ _ (fun i => if Nat.eqb n i then r i else 0)).
      * rewrite rsumn_pick by lia. apply H; auto.
      * intros i _. destruct (Nat.eqb n i); ring.
Qed.

(* ---------- Sylvester ---------- *)
Lemma rltb_true a b : rltb a b = true <-> a < b.
Proof. unfold rltb. destruct (Rlt_dec a b); split; intros; auto; discriminate. Qed.
Lemma rltb_false a b : rltb a b = false <-> b <= a.
Proof. unfold rltb. destruct (Rlt_dec a b); split; intros; auto; try lra; try discriminate. Qed.
Lemma filter_split {A} (p : A -> bool) l : (length (filter p l) + length (filter (fun x => negb (p x)) l) = length l)%nat.
Proof. induction l as [|a l IH]; simpl; auto. destruct (p a); simpl; lia. Qed.
Lemma rsum_nonneg (l : list R) : (forall v, In v l -> 0 <= v) -> 0 <= rsum l.
Proof.
  induction l as [|a l IH]; simpl; intro H; [lra|]. specialize (H a (or_introl eq_refl)) as Ha.
  assert (0 <= rsum l) by (apply IH; auto). unfold rsum in *. lra.
Qed.
Lemma rsum_nonpos_zero (l : list R) : (forall v, In v l -> v <= 0) -> 0 <= rsum l -> forall v, In v l -> v = 0.
Proof.
  induction l as [|a l IH]; intros H S v I; [destruct I|]. cbn [rsum fold_right] in S.
  assert (Ha : a <= 0) by (apply H; left; auto).
  assert (Hl : rsum l <= 0).
  { assert (G : forall l : list R, (forall v, In v l -> v <= 0) -> rsum l <= 0).
    { clear. induction l as [|b l IH]; intros H; cbn; [lra|].
      specialize (H b (or_introl eq_refl)) as Hb. assert (rsum l <= 0) by (apply IH; intros; apply H; right; auto).
      unfold rsum in *. lra. }
    apply G. intros; apply H; right; auto. }
  fold (rsum l) in S. destruct I as [<-|I]; [lra|]. apply IH; auto; [intros; apply H; right; auto|lra].
Qed.

Lemma sylvester_le N A l m : diagonalises N A l -> diagonalises N A m -> (negatives l <= negatives m)%nat.
Proof.
  intros (Ll & Ql & Il) (Lm & Qm & Im). destruct (Nat.le_gt_cases (negatives l) (negatives m)) as [|G]; auto. exfalso.
  set (ng := fun w : wform => rltb (fst w) 0) in *.
  destruct (kernel N (map snd (filter (fun w => negb (ng w)) l) ++ map snd (filter ng m))) as (x & (i & Hi & Xi) & Hk).
  { rewrite app_length, !map_length. pose proof (filter_split ng l).
    assert (G' : (length (filter ng m) < length (filter ng l))%nat) by exact G. lia. }
  assert (Pl : forall w, In w l -> ng w = false -> form N (snd w) x = 0).
  { intros w Iw E. apply Hk. apply in_or_app. left. apply in_map. apply filter_In. rewrite E. auto. }
  assert (Pm : forall w, In w m -> ng w = true -> form N (snd w) x = 0).
  { intros w Iw E. apply Hk. apply in_or_app. right. apply in_map. apply filter_In. auto. }
  assert (S1 : 0 <= quad N A x).
  { rewrite Qm. apply rsum_nonneg. intros v Iv. apply in_map_iff in Iv. destruct Iv as (w & <- & Iw).
    destruct (ng w) eqn:E.
    - rewrite (Pm w Iw E). simpl. lra.
    - apply rltb_false in E. pose proof (pow2_ge_0 (form N (snd w) x)). apply Rmult_le_pos; auto. }
  rewrite Ql in S1. apply Xi. apply Il; auto. intros w Iw.
  destruct (ng w) eqn:E; [|apply Pl; auto].
  assert (Z : fst w * form N (snd w) x ^ 2 = 0).
  { apply (rsum_nonpos_zero _) with (2 := S1); [|apply in_map_iff; exists w; auto].
    intros v Iv. apply in_map_iff in Iv. destruct Iv as (u & <- & Iu). destruct (ng u) eqn:Eu.
    - apply rltb_true in Eu. pose proof (pow2_ge_0 (form N (snd u) x)). nra.
    - rewrite (Pl u Iu Eu). simpl. lra. }
  apply rltb_true in E. apply Rmult_integral in Z. destruct Z as [Z|Z]; [lra|].
  simpl in Z. rewrite Rmult_1_r in Z. apply Rmult_integral in Z. tauto.
Qed.
Lemma sylvester N A l m : diagonalises N A l -> diagonalises N A m -> negatives l = negatives m.
Proof. intros H1 H2. apply Nat.le_antisymm; eapply sylvester_le; eauto. Qed.

(* ---------- eigenvectors ---------- *)
Lemma rsumn_rsum n (l : list wform) (f : wform -> nat -> R) :
  rsumn n (fun i => rsum (map (fun w => f w i) l)) = rsum (map (fun w => rsumn n (f w)) l).
Proof.
  induction l as [|w l IH]; cbn [map rsum fold_right]; [apply rsumn_zero; auto|].
  rewrite rsumn_add. f_equal. exact IH.
Qed.
Lemma rsum_scale {A} c (f : A -> R) l : rsum (map (fun w => c * f w) l) = c * rsum (map f l).
Proof. induction l as [|w l IH]; cbn [map rsum fold_right]; [ring|]. unfold rsum in IH. rewrite IH. ring. Qed.
Lemma rsum_ext {A} (f g : A -> R) l : (forall w, In w l -> f w = g w) -> rsum (map f l) = rsum (map g l).
Proof. intro H. f_equal. apply map_ext_in. auto. Qed.

Lemma form_comb N (l : list wform) (c : wform -> R) a :
  form N a (fun i => rsum (map (fun w => c w * snd w i) l)) = rsum (map (fun w => c w * form N a (snd w)) l).
Proof.
  unfold form. rewrite (rsumn_ext _ _ (fun i => rsum (map (fun w => c w * (a i * snd w i)) l))).
  - rewrite (rsumn_rsum N l (fun w i => c w * (a i * snd w i))). apply rsum_ext. intros w _. apply rsumn_scale.
  - intros i _. rewrite <- rsum_scale. apply rsum_ext. intros. ring.
Qed.

Definition w0 : wform := (0, fun _ => 0).

Lemma rsum_app l1 l2 : rsum (l1 ++ l2) = rsum l1 + rsum l2.
Proof. unfold rsum. induction l1 as [|a l1 IH]; simpl; lra. Qed.
Lemma rsum_nth (f : wform -> R) l : rsum (map f l) = rsumn (length l) (fun k => f (nth k l w0)).
Proof.
  induction l as [|a l IH] using rev_ind; [reflexivity|].
  rewrite map_app, rsum_app, IH, app_length, Nat.add_1_r, rsumn_S, app_nth2 by lia. rewrite Nat.sub_diag.
  cbn [map rsum fold_right nth]. rewrite Rplus_0_r. f_equal. apply rsumn_ext. intros i Hi.
  rewrite app_nth1 by auto. reflexivity.
Qed.
Lemma ordpairs_nth (P : wform -> wform -> Prop) l : ForallOrdPairs P l ->
  forall i j, (i < j)%nat -> (j < length l)%nat -> P (nth i l w0) (nth j l w0).
Proof.
  induction 1 as [|v l Hv HO IH]; intros i j L1 L2; simpl in L2; [lia|].
  destruct j as [|j]; [lia|]. destruct i as [|i]; simpl.
  - rewrite Forall_forall in Hv. apply Hv. apply nth_In. lia.
  - apply IH; lia.
Qed.
Lemma ortho_nth N (l : list wform) : (forall w, In w l -> form N (snd w) (snd w) = 1) ->
  ForallOrdPairs (fun v w => form N (snd v) (snd w) = 0) l ->
  forall i j, (i < length l)%nat -> (j < length l)%nat ->
  form N (snd (nth i l w0)) (snd (nth j l w0)) = if Nat.eqb i j then 1 else 0.
Proof.
  intros H1 HO i j Li Lj. destruct (Nat.eqb_spec i j) as [->|D].
  - apply H1. apply nth_In. auto.
  - destruct (Nat.lt_ge_cases i j) as [L|L].
    + apply (ordpairs_nth _ l HO); auto.
    + rewrite form_sym. apply (ordpairs_nth _ l HO j i); auto. lia.
Qed.

(** N orthonormal vectors leave no room for another direction *)
Lemma ortho_complete N (l : list wform) : length l = N -> (forall w, In w l -> form N (snd w) (snd w) = 1) ->
  ForallOrdPairs (fun v w => form N (snd v) (snd w) = 0) l ->
  forall x, (forall w, In w l -> form N (snd w) x = 0) -> forall i, (i < N)%nat -> x i = 0.
Proof.
  intros L H1 HO x Hx.
  set (v := fun k => snd (nth k l w0)).
  destruct (kernel (S N) (map (fun i k => if Nat.eqb k N then x i else v k i) (seq 0 N))) as (c & (k0 & Hk0 & Xk) & Hk).
  { rewrite map_length, seq_length. lia. }
  assert (E : forall i, (i < N)%nat -> rsumn N (fun k => c k * v k i) + c N * x i = 0).
  { intros i Hi. specialize (Hk _ (in_map (fun i k => if Nat.eqb k N then x i else v k i) _ i (proj2 (in_seq _ _ _) (conj (Nat.le_0_l i) Hi)))).
    cbv beta in Hk. rewrite form_S, Nat.eqb_refl in Hk. rewrite <- Hk. rewrite (Rmult_comm (x i)). f_equal.
    apply rsumn_ext. intros k Hk'. destruct (Nat.eqb_spec k N); [lia|ring]. }
  assert (Z : forall k, (k < N)%nat -> c k = 0).
  { intros k Hk'.
    assert (S0 : rsumn N (fun i => v k i * (rsumn N (fun q => c q * v q i) + c N * x i)) = 0).
    { apply rsumn_zero. intros i Hi. rewrite (E i Hi). ring. }
    rewrite (rsumn_ext _ _ (fun i => rsumn N (fun q => c q * (v k i * v q i)) + c N * (v k i * x i))) in S0.
    2:{ intros i Hi. rewrite Rmult_plus_distr_l, <- rsumn_scale. f_equal; [|ring]. apply rsumn_ext. intros. ring. }
    rewrite rsumn_add, rsumn_swap, rsumn_scale in S0.
    assert (Zx : rsumn N (fun i => v k i * x i) = 0).
    { apply (Hx (nth k l w0)). apply nth_In. lia. }
    rewrite Zx, Rmult_0_r, Rplus_0_r in S0. rewrite <- S0.
    rewrite (rsumn_ext _ _ (fun q => if Nat.eqb k q then c q else 0)); [rewrite rsumn_pick by auto; reflexivity|].
    intros q Hq. rewrite rsumn_scale. change (rsumn N (fun i => v k i * v q i)) with (form N (v k) (v q)).
    unfold v. rewrite ortho_nth by (auto; lia). destruct (Nat.eqb k q); ring. }
  intros i Hi. specialize (E i Hi).
  rewrite rsumn_zero in E by (intros k Hk'; rewrite (Z k Hk'); ring). rewrite Rplus_0_l in E.
  apply Rmult_integral in E. destruct E as [E|E]; auto.
  exfalso. apply Xk. destruct (Nat.eq_dec k0 N) as [->|]; auto. apply Z. lia.
Qed.

Lemma eigen_diagonalises N A l : eigen_system N A l -> diagonalises N A l.
Proof.
  intros (L & He & H1 & HO). split; [auto|]. split; [|apply (ortho_complete N l); auto].
  intro x. set (v := fun k => snd (nth k l w0)). set (c := fun k => form N (v k) x).
  assert (X : forall i, (i < N)%nat -> x i = rsumn N (fun k => c k * v k i)).
  { intros i Hi.
    assert (Y : (fun i => x i - rsumn N (fun k => c k * v k i)) i = 0).
    { apply (ortho_complete N l L H1 HO (fun i => x i - rsumn N (fun k => c k * v k i))); auto. intros w Iw.
      apply (In_nth _ _ w0) in Iw. destruct Iw as (k & Hk & <-). rewrite L in Hk.
      change (snd (nth k l w0)) with (v k). unfold form at 1.
      rewrite (rsumn_ext _ _ (fun i => v k i * x i + (-1) * rsumn N (fun q => c q * (v k i * v q i)))).
      2:{ intros j Hj. rewrite <- (rsumn_scale N (-1)).
          replace (v k j * (x j - rsumn N (fun k1 => c k1 * v k1 j)))
            with (v k j * x j + - v k j * rsumn N (fun k1 => c k1 * v k1 j)) by ring.
          f_equal. rewrite <- rsumn_scale. apply rsumn_ext. intros. ring. }
      rewrite rsumn_add, rsumn_scale, rsumn_swap.
      change (rsumn N (fun i => v k i * x i)) with (c k).
      rewrite (rsumn_ext _ _ (fun q => if Nat.eqb k q then c q else 0)); [rewrite rsumn_pick by auto; ring|].
      intros q Hq. rewrite rsumn_scale. change (rsumn N (fun i => v k i * v q i)) with (form N (v k) (v q)).
      unfold v. rewrite ortho_nth by (auto; lia). destruct (Nat.eqb k q); ring. }
    cbv beta in Y. lra. }
  rewrite rsum_nth, L. unfold quad.
  rewrite (rsumn_ext _ _ (fun i => rsumn N (fun k => (fst (nth k l w0) * c k) * (v k i * x i)))).
  - rewrite rsumn_swap. apply rsumn_ext. intros k Hk. rewrite rsumn_scale.
    change (rsumn N (fun i => v k i * x i)) with (form N (v k) x).
    change (form N (snd (nth k l w0)) x) with (form N (v k) x). unfold c. ring.
  - intros i Hi.
    rewrite (rsumn_ext _ _ (fun j => rsumn N (fun k => (x i * c k) * (A i j * v k j)))).
    + rewrite rsumn_swap. apply rsumn_ext. intros k Hk. rewrite rsumn_scale.
      assert (G : rsumn N (fun j => A i j * v k j) = fst (nth k l w0) * v k i).
      { apply (He (nth k l w0)); auto. apply nth_In. lia. }
      rewrite G. ring.
    + intros j Hj. rewrite (X j Hj) at 1. rewrite <- rsumn_scale. apply rsumn_ext. intros. ring.
Qed.

(* ---------- the pivots ---------- *)
Lemma tiny_pos : 0 < tiny.
Proof. unfold tiny. apply Rinv_0_lt_compat. apply pow_lt. lra. Qed.

(** a 2x2 pivot with negative determinant is a difference of two squares *)
Lemma block2 a s c : a * c < s * s -> exists p n e1 f1 e2 f2, 0 < p /\ n < 0 /\
  (forall y z, a * y ^ 2 + 2 * s * y * z + c * z ^ 2 = p * (e1 * y + f1 * z) ^ 2 + n * (e2 * y + f2 * z) ^ 2) /\
  (forall y z, e1 * y + f1 * z = 0 -> e2 * y + f2 * z = 0 -> y = 0 /\ z = 0).
Proof.
  intro D.
  assert (Q : forall a s c, a * c < s * s -> 0 < a -> exists p n e1 f1 e2 f2, 0 < p /\ n < 0 /\
    (forall y z, a * y ^ 2 + 2 * s * y * z + c * z ^ 2 = p * (e1 * y + f1 * z) ^ 2 + n * (e2 * y + f2 * z) ^ 2) /\
    (forall y z, e1 * y + f1 * z = 0 -> e2 * y + f2 * z = 0 -> y = 0 /\ z = 0)).
  { clear. intros a s c D P. exists a, ((a * c - s * s) / a), 1, (s / a), 0, 1. repeat split; auto.
    - apply Rmult_lt_reg_r with a; auto. rewrite Rmult_0_l. unfold Rdiv. rewrite Rmult_assoc, Rinv_l by lra. lra.
    - intros. field. lra.
    - assert (z = 0) by lra. subst z. lra.
    - lra. }
  assert (Qn : forall a s c, a * c < s * s -> a < 0 -> exists p n e1 f1 e2 f2, 0 < p /\ n < 0 /\
    (forall y z, a * y ^ 2 + 2 * s * y * z + c * z ^ 2 = p * (e1 * y + f1 * z) ^ 2 + n * (e2 * y + f2 * z) ^ 2) /\
    (forall y z, e1 * y + f1 * z = 0 -> e2 * y + f2 * z = 0 -> y = 0 /\ z = 0)).
  { clear - Q. intros a s c D P. destruct (Q (- a) (- s) (- c)) as (p & n & e1 & f1 & e2 & f2 & Hp & Hn & E & I); [lra|lra|].
    exists (- n), (- p), e2, f2, e1, f1. split; [lra|]. split; [lra|]. split.
    - intros y z. specialize (E y z). lra.
    - intros y z H1 H2. apply I; auto. }
  destruct (Rtotal_order a 0) as [H|[H|H]]; [apply Qn; auto| |apply Q; auto].
  subst a.
  (* a = 0: the form is z * (2 s y + c z) *)
  assert (Hs : s <> 0) by (intro E; subst s; lra).
  exists (1/4), (-1/4), (2 * s), (c + 1), (2 * s), (c - 1). split; [lra|]. split; [lra|]. split.
  - intros. field.
  - intros y z H1 H2. assert (z = 0) by lra. subst z. split; auto.
    assert (E : 2 * s * y = 0) by lra. apply Rmult_integral in E. destruct E; [lra|auto].
Qed.

Definition isneg (p : R) : bool := rltb p (- tiny).
Definition isnull (p : R) : bool := negb (rltb p (- tiny)) && rltb p tiny.

Lemma classify_eq d s : classify d s =
  Ist (i_t s) (if isneg d then S (i_neg s) else i_neg s) (if isnull d then S (i_null s) else i_null s).
Proof.
  unfold classify, isneg, isnull. destruct (rltb d (- tiny)); simpl; auto. destruct (rltb d tiny); simpl; auto.
  destruct s; reflexivity.
Qed.

Lemma reqb_true a b : reqb a b = true <-> a = b.
Proof. unfold reqb. destruct (Req_EM_T a b); split; intros; auto; discriminate. Qed.
Lemma reqb_false a b : reqb a b = false <-> a <> b.
Proof. unfold reqb. destruct (Req_EM_T a b); split; intros; auto; try discriminate; tauto. Qed.

Definition cneg (bs : list pblock) : nat := length (filter isneg (flat_map pivots bs)).
Definition cnull (bs : list pblock) : nat := length (filter isnull (flat_map pivots bs)).

Definition s_ok (b : pblock) : Prop := match b with P1 _ => True | P2 a s c => s <> 0 end.

Lemma loop_blocks N MM ipiv bs : forall k n z, Forall s_ok bs -> stored k MM ipiv bs -> (k + bdim bs = N)%nat ->
  ofold (inertia_step N MM ipiv) (seq k (bdim bs)) (Ist 0 n z) = Some (Ist 0 (n + cneg bs) (z + cnull bs)).
Proof.
  unfold cneg, cnull.
  induction bs as [|b bs IH]; intros k n z HS St E.
  - simpl. rewrite !Nat.add_0_r. reflexivity.
  - inversion HS as [|? ? Hb HS']; subst. destruct b as [d|a s c].
    + cbn [stored] in St. destruct St as (Ip & Ed & St). cbn [bdim seq ofold] in *.
      unfold inertia_step at 1. rewrite (proj2 (Z.leb_gt (ipiv k) 0)) by lia.
      rewrite classify_eq, Ed. cbn [i_t i_neg i_null]. rewrite (IH (S k)) by (auto; lia).
      cbn [flat_map pivots app filter].
      destruct (isneg d); destruct (isnull d); cbn [length]; do 2 f_equal; lia.
    + cbn [stored] in St. destruct St as (Ip & Iq & Ea & Es & Ec & St). cbn [bdim seq ofold] in *.
      unfold inertia_step at 1. rewrite (proj2 (Z.leb_le (ipiv k) 0)) by lia. cbn [i_t i_neg i_null].
      rewrite (proj2 (reqb_true 0 0) eq_refl). rewrite (proj2 (Nat.ltb_lt (k + 1) _)) by lia.
      rewrite Nat.add_1_r, Es. cbn [s_ok] in Hb.
      assert (Ns : Rabs s <> 0) by (apply Rabs_no_R0; auto).
      rewrite (proj2 (reqb_false (Rabs s) 0) Ns). rewrite classify_eq. cbn [i_t i_neg i_null].
      unfold inertia_step at 1. rewrite (proj2 (Z.leb_le (ipiv (S k)) 0)) by lia. cbn [i_t i_neg i_null].
      rewrite (proj2 (reqb_false (Rabs s) 0) Ns). rewrite classify_eq. cbn [i_t i_neg i_null].
      rewrite (IH (S (S k))) by (auto; lia). rewrite Ea, Ec.
      assert (P : a / Rabs s * c - Rabs s = (a * c - s * s) / Rabs s).
      { assert (Q : Rabs s * Rabs s = s * s) by (unfold Rabs; destruct (Rcase_abs s); ring).
        rewrite <- Q. field. auto. }
      rewrite P. cbn [flat_map pivots app filter].
      destruct (isneg ((a * c - s * s) / Rabs s)); destruct (isnull ((a * c - s * s) / Rabs s));
        destruct (isneg (Rabs s)); destruct (isnull (Rabs s)); cbn [length]; do 2 f_equal; lia.
Qed.

Lemma rule_s_ok b : pivot_rule b -> s_ok b.
Proof.
  destruct b as [d|a s c]; simpl; auto. intros H E. subst s. pose proof (Rabs_pos (a * c)). lra.
Qed.
Lemma rule_det a s c : pivot_rule (P2 a s c) -> a * c < s * s.
Proof. simpl. intro H. pose proof (Rle_abs (a * c)). lra. Qed.

(** the value of [matrixChanged] on a successful factorization *)
Lemma matrix_changed_eq N A F bs W : factored N A F bs W ->
  matrix_changed N F = Some (if Nat.ltb 0 (cnull bs) then (-1)%Z else Z.of_nat (cneg bs)).
Proof.
  intros (I & D & St & R & _). unfold matrix_changed. destruct (Nat.eqb_spec N 0) as [E|E].
  - subst N. destruct bs as [|[]]; try discriminate. reflexivity.
  - rewrite I. cbn [Z.eqb negb]. rewrite <- D, loop_blocks with (N := bdim bs); auto.
    + simpl. destruct (cnull bs); reflexivity.
    + eapply Forall_impl; [|exact R]. apply rule_s_ok.
Qed.

Lemma large_iff p : large p <-> isnull p = false.
Proof.
  unfold large, isnull. pose proof tiny_pos. split.
  - intros [L|L].
    + rewrite (proj2 (rltb_true _ _) L). reflexivity.
    + rewrite (proj2 (rltb_false p tiny) L). apply andb_false_r.
  - intro E. apply andb_false_iff in E. destruct E as [E|E].
    + apply negb_false_iff in E. apply rltb_true in E. auto.
    + apply rltb_false in E. auto.
Qed.
Lemma cnull_large bs : cnull bs = 0%nat <-> Forall large (flat_map pivots bs).
Proof.
  unfold cnull. induction (flat_map pivots bs) as [|p l IH]; simpl; [split; auto|].
  split.
  - intro E. destruct (isnull p) eqn:N; [discriminate|]. constructor; [apply large_iff; auto|]. apply IH. auto.
  - intro H. inversion H; subst. apply large_iff in H2. rewrite H2. apply IH. auto.
Qed.

(** the squares the stored factor consists of *)
Lemma block_forms N W bs : forall k, Forall pivot_rule bs -> Forall large (flat_map pivots bs) ->
  exists l : list wform, length l = bdim bs /\ negatives l = cneg bs /\ (forall w, In w l -> fst w <> 0) /\
  (forall x, bquad k bs (fun j => form N (fun i => W i j) x) = rsum (map (fun w => fst w * form N (snd w) x ^ 2) l)) /\
  (forall x, (forall w, In w l -> form N (snd w) x = 0) ->
     forall j, (k <= j)%nat -> (j < k + bdim bs)%nat -> form N (fun i => W i j) x = 0).
Proof.
  unfold cneg, negatives. pose proof tiny_pos as TP.
  induction bs as [|b bs IH]; intros k R Lg.
  - exists []. split; [reflexivity|]. split; [reflexivity|]. split; [intros ? []|]. split; [reflexivity|].
    intros x _ j H1 H2. simpl in H2. lia.
  - inversion R as [|? ? Rb R']; subst. cbn [flat_map] in Lg. apply Forall_app in Lg. destruct Lg as [Lb Lg].
    destruct b as [d|a s c].
    + destruct (IH (S k) R' Lg) as (l & Ll & Ln & Lz & Lq & Li).
      exists ((d, fun i => W i k) :: l). cbn [bdim length]. split; [lia|].
      inversion Lb as [|? ? Ld _]; subst. cbn [pivots app flat_map filter].
      assert (Sd : rltb d 0 = isneg d).
      { unfold isneg. destruct Ld as [Ld|Ld].
        - rewrite (proj2 (rltb_true d (- tiny)) Ld), (proj2 (rltb_true d 0)); auto. lra.
        - rewrite (proj2 (rltb_false d (- tiny))), (proj2 (rltb_false d 0)); auto; lra. }
      cbn [fst]. rewrite Sd. split; [destruct (isneg d); cbn [length]; lia|]. split.
      { intros w [<-|Iw]; cbn [fst]; [destruct Ld; lra|apply Lz; auto]. }
      split.
      { intro x. cbn [bquad map rsum fold_right fst snd]. rewrite Lq. reflexivity. }
      intros x Hx j H1 H2. destruct (Nat.eq_dec j k) as [->|].
      { apply (Hx (d, fun i => W i k)). left. auto. }
      apply Li; try lia. intros. apply Hx. right. auto.
    + destruct (IH (S (S k)) R' Lg) as (l & Ll & Ln & Lz & Lq & Li).
      pose proof (rule_s_ok _ Rb) as Ns. pose proof (rule_det _ _ _ Rb) as Dt. cbn [s_ok] in Ns.
      destruct (block2 a s c Dt) as (p & n & e1 & g1 & e2 & g2 & Hp & Hn & E & I).
      exists ((p, fun i => e1 * W i k + g1 * W i (S k)) :: (n, fun i => e2 * W i k + g2 * W i (S k)) :: l).
      cbn [bdim length]. split; [lia|].
      cbn [pivots] in Lb. inversion Lb as [|? ? L1 Lb']; subst. inversion Lb' as [|? ? L2 _]; subst.
      assert (As : 0 < Rabs s) by (apply Rabs_pos_lt; auto).
      assert (T1 : (a * c - s * s) / Rabs s < 0).
      { apply Rmult_lt_reg_r with (Rabs s); auto. rewrite Rmult_0_l. unfold Rdiv. rewrite Rmult_assoc, Rinv_l by lra. lra. }
      cbn [pivots app flat_map filter fst].
      assert (N1 : isneg ((a * c - s * s) / Rabs s) = true).
      { unfold isneg. apply rltb_true. destruct L1; [auto|lra]. }
      assert (N2 : isneg (Rabs s) = false).
      { unfold isneg. apply rltb_false. lra. }
      rewrite N1, N2, (proj2 (rltb_false p 0)) by lra. rewrite (proj2 (rltb_true n 0)) by lra. cbn [length].
      split; [lia|]. split.
      { intros w [<-|[<-|Iw]]; cbn [fst]; [lra|lra|apply Lz; auto]. }
      split.
      { intro x. cbn [bquad map rsum fold_right fst snd]. rewrite Lq, E, !form_lin. unfold rsum. ring. }
      intros x Hx.
      pose proof (Hx _ (or_introl eq_refl)) as F1. pose proof (Hx _ (or_intror (or_introl eq_refl))) as F2.
      cbn [snd] in F1, F2. rewrite form_lin in F1. rewrite form_lin in F2. destruct (I _ _ F1 F2) as [Z1 Z2].
      intros j H1 H2. destruct (Nat.eq_dec j k) as [->|]; auto. destruct (Nat.eq_dec j (S k)) as [->|]; auto.
      apply Li; try lia. intros. apply Hx. right. right. auto.
Qed.

Lemma factored_diagonalises N A F bs W : factored N A F bs W -> Forall large (flat_map pivots bs) ->
  exists l, diagonalises N A l /\ negatives l = cneg bs /\ (forall w, In w l -> fst w <> 0).
Proof.
  intros (I & D & St & R & Q & Inj) Lg.
  destruct (block_forms N W bs 0 R Lg) as (l & Ll & Ln & Lz & Lq & Li).
  exists l. split; [|auto]. split; [lia|]. split.
  - intro x. rewrite Q. apply Lq.
  - intros x Hx. apply Inj. intros k Hk. apply Li; auto; lia.
Qed.

(** independent forms take every combination of values *)
Lemma forms_onto N (l : list wform) : length l = N ->
  (forall x, (forall w, In w l -> form N (snd w) x = 0) -> forall i, (i < N)%nat -> x i = 0) ->
  forall b : wform -> R, exists y, forall w, In w l -> form N (snd w) y = b w.
Proof.
  intros L Inj b.
  destruct (kernel (S N) (map (fun w i => if Nat.eqb i N then - b w else snd w i) l)) as (x & (i & Hi & Xi) & Hk).
  { rewrite map_length. lia. }
  assert (E : forall w, In w l -> form N (snd w) x = x N * b w).
  { intros w Iw. specialize (Hk _ (in_map (fun w i => if Nat.eqb i N then - b w else snd w i) _ _ Iw)). cbv beta in Hk.
    rewrite form_S, Nat.eqb_refl in Hk.
    rewrite (form_ext N _ (snd w) x x) in Hk; [lra|]. intros j Hj. destruct (Nat.eqb_spec j N); [lia|auto]. }
  assert (Nz : x N <> 0).
  { intro Z. assert (H : forall i, (i < N)%nat -> x i = 0).
    { apply Inj. intros w Iw. rewrite E by auto. rewrite Z. ring. }
    destruct (Nat.eq_dec i N) as [->|]; auto. apply Xi. apply H. lia. }
  exists (fun i => / x N * x i). intros w Iw.
  rewrite form_sym. rewrite (form_ext N _ (fun i => / x N * x i + 0 * x i) (snd w) (snd w)) by (intros; split; ring).
  rewrite form_lin, form_sym, E by auto. field. auto.
Qed.

(** polarisation *)
Lemma quad_polar N A x y : symmetric N A ->
  quad N A (fun i => x i + y i) = quad N A x + quad N A y +
    2 * rsumn N (fun i => y i * rsumn N (fun j => A i j * x j)).
Proof.
  intro S.
  assert (E : quad N A (fun i => x i + y i) = quad N A x + quad N A y
     + rsumn N (fun i => y i * rsumn N (fun j => A i j * x j)) + rsumn N (fun i => x i * rsumn N (fun j => A i j * y j))).
  { unfold quad. rewrite <- !rsumn_add. apply rsumn_ext. intros i Hi. rewrite <- !rsumn_scale, <- !rsumn_add.
    apply rsumn_ext. intros. ring. }
  rewrite E.
  assert (G : rsumn N (fun i => x i * rsumn N (fun j => A i j * y j)) = rsumn N (fun i => y i * rsumn N (fun j => A i j * x j))).
  { rewrite (rsumn_ext N _ (fun i => rsumn N (fun j => x i * (A i j * y j)))) by (intros; rewrite rsumn_scale; reflexivity).
    rewrite rsumn_swap. apply rsumn_ext. intros j Hj. rewrite <- rsumn_scale. apply rsumn_ext. intros i Hi.
    rewrite (S i j Hi Hj). ring. }
  rewrite G. ring.
Qed.
Lemma form_plus N a x y : form N a (fun i => x i + y i) = form N a x + form N a y.
Proof. unfold form. rewrite <- rsumn_add. apply rsumn_ext. intros. ring. Qed.

Lemma diag_nonsingular N A l : symmetric N A -> diagonalises N A l -> (forall w, In w l -> fst w <> 0) -> nonsingular N A.
Proof.
  intros S (L & Q & Inj) Nz x Hx.
  destruct (forms_onto N l L Inj (fun w => fst w * form N (snd w) x)) as (y & Hy).
  assert (B : rsum (map (fun w => 2 * fst w ^ 2 * form N (snd w) x ^ 2) l) = 0).
  { pose proof (quad_polar N A x y S) as P. rewrite !Q in P.
    assert (Z : rsumn N (fun i => y i * rsumn N (fun j => A i j * x j)) = 0).
    { apply rsumn_zero. intros i Hi. rewrite (Hx i Hi). ring. }
    rewrite Z in P. 
    assert (G : forall l', (forall w, In w l' -> In w l) ->
       rsum (map (fun w => fst w * form N (snd w) (fun i => x i + y i) ^ 2) l') =
       rsum (map (fun w => fst w * form N (snd w) x ^ 2) l') + rsum (map (fun w => fst w * form N (snd w) y ^ 2) l')
       + rsum (map (fun w => 2 * fst w ^ 2 * form N (snd w) x ^ 2) l')).
    { induction l' as [|w l' IH]; intro Sub; cbn [map rsum fold_right]; [ring|].
      unfold rsum in IH. rewrite IH by (intros; apply Sub; right; auto).
      rewrite form_plus, (Hy w) by (apply Sub; left; auto). ring. }
    rewrite G in P by auto. lra. }
  apply Inj. intros w Iw.
  assert (Zw : 2 * fst w ^ 2 * form N (snd w) x ^ 2 = 0).
  { assert (Zn : - (2 * fst w ^ 2 * form N (snd w) x ^ 2) = 0).
    { apply (rsum_nonpos_zero (map (fun w => - (2 * fst w ^ 2 * form N (snd w) x ^ 2)) l)).
      - intros v Iv. apply in_map_iff in Iv. destruct Iv as (u & <- & _).
        pose proof (pow2_ge_0 (fst u)). pose proof (pow2_ge_0 (form N (snd u) x)). nra.
      - rewrite (rsum_ext _ (fun w => (-1) * (2 * fst w ^ 2 * form N (snd w) x ^ 2))) by (intros; ring).
        rewrite rsum_scale, B. lra.
      - apply in_map_iff. exists w. auto. }
    lra. }
  specialize (Nz w Iw). simpl in Zw. rewrite !Rmult_1_r in Zw.
  apply Rmult_integral in Zw. destruct Zw as [Zw|Zw].
  - exfalso. nra.
  - apply Rmult_integral in Zw. tauto.
Qed.

(* ---------- the statements ---------- *)
Lemma inertia_right N A F bs W r : factored N A F bs W -> matrix_changed N F = Some r -> (0 <= r)%Z ->
  (forall l, eigen_system N A l -> r = Z.of_nat (negatives l)) /\ (symmetric N A -> nonsingular N A).
Proof.
  intros HF E P. rewrite (matrix_changed_eq N A F bs W HF) in E.
  destruct (Nat.ltb_spec 0 (cnull bs)) as [L|L]; injection E as <-; [lia|].
  assert (Z : cnull bs = 0%nat) by lia. apply cnull_large in Z.
  destruct (factored_diagonalises N A F bs W HF Z) as (m & Dm & Nm & Nz).
  split.
  - intros l He. rewrite <- Nm. f_equal. eapply sylvester; eauto. apply eigen_diagonalises. auto.
  - intro S. eapply diag_nonsingular; eauto.
Qed.
Lemma answers N A F bs W : factored N A F bs W ->
  (matrix_changed N F = Some (-1)%Z /\ Exists (fun p => ~ large p) (flat_map pivots bs)) \/
  (Forall large (flat_map pivots bs) /\ exists r, matrix_changed N F = Some r /\ (0 <= r)%Z).
Proof.
  intro HF. rewrite (matrix_changed_eq N A F bs W HF).
  destruct (Nat.ltb_spec 0 (cnull bs)) as [L|L].
  - left. split; auto. unfold cnull in L. clear - L.
    induction (flat_map pivots bs) as [|p l IH]; simpl in L; [lia|].
    destruct (isnull p) eqn:E.
    + left. rewrite large_iff, E. discriminate.
    + right. auto.
  - right. split; [apply cnull_large; lia|]. eexists. split; [reflexivity|]. lia.
Qed.
