(** Proofs about the restoration problem: derivatives, constraints, starting point, stopping. *)
From Coq Require Import List Arith Reals Lra Lia.
Import ListNotations.
From Verif Require Import FRModel FRSpec FRProofs.
Open Scope R_scope.

Lemma app_inv_len : forall (a c a' c' : list R), length a = length a' -> a ++ c = a' ++ c' -> a = a' /\ c = c'.
Proof.
  induction a as [|v a IH]; intros c [|v' a'] c' L E; cbn in *; try lia; auto.
  injection E as <- E. destruct (IH c a' c') as [-> ->]; auto.
Qed.
Lemma encode_inj : forall b p q, fits b p -> fits b q -> encode b p = encode b q -> p = q.
Proof.
  intros b [x e n i j] [x' e' n' i' j'] F G E.
  pose proof (get_x_encode b _ F) as X. rewrite E, (get_x_encode b _ G) in X. cbn in X. subst x'.
  pose proof (read_pe b _ F) as X. rewrite E, (read_pe b _ G) in X. cbn in X. subst e'.
  pose proof (read_ne b _ F) as X. rewrite E, (read_ne b _ G) in X. cbn in X. subst n'.
  pose proof (read_pi b _ F) as X. rewrite E, (read_pi b _ G) in X. cbn in X. subst i'.
  pose proof (read_ni b _ F) as X. rewrite E, (read_ni b _ G) in X. cbn in X. subst j'.
  reflexivity.
Qed.

(** * Second-order expansion *)
Lemma taylor : forall b k st p q, caller_fits b k -> fits b p -> fits b q ->
  obj b k st q - obj b k st p =
  total (n_fr (b_kind b) (b_meq b) (b_mineq b))
    (fun i => nth i (encode b (Pt (gradx k st p) (repeat rho (b_meq b)) (repeat rho (b_meq b))
        (repeat rho (b_mineq b)) (repeat rho (b_mineq b)))) 0
      * (nth i (encode b q) 0 - nth i (encode b p) 0))
  + / 2 * total (n_x (b_kind b)) (fun i => nth i (hdiag b k st) 0 * Rsqr (nth i (px q) 0 - nth i (px p) 0)).
Proof.
  intros b k st p q KF F G.
  assert (FG : fits b (Pt (gradx k st p) (repeat rho (b_meq b)) (repeat rho (b_meq b))
        (repeat rho (b_mineq b)) (repeat rho (b_mineq b)))).
  { unfold fits. cbn [px ppe pne ppi pni]. rewrite !repeat_length.
    rewrite (gradx_len b k st KF p F). auto. }
  rewrite (dot_encode (fun g y' y => g * (y' - y)) b _ _ _ FG G F). cbn [px ppe pne ppi pni].
  pose proof F as (A1 & B1 & C1 & D1 & E1). pose proof G as (A2 & B2 & C2 & D2 & E2).
  rewrite !dot_const by assumption. unfold obj.
  set (nx := n_x (b_kind b)) in *.
  rewrite (total_ext nx (fun i => nth i (gradx k st p) 0 * (nth i (px q) 0 - nth i (px p) 0))
    (fun i => s_zeta st * ((nth i (px p) 0 - nth i (k_x k) 0) * (dr1 (nth i (k_x k) 0) * dr1 (nth i (k_x k) 0))
       * (nth i (px q) 0 - nth i (px p) 0)))).
  2:{ intros i H. rewrite (gradx_nth b k st KF p i F H). ring. }
  rewrite (total_ext nx (fun i => nth i (hdiag b k st) 0 * Rsqr (nth i (px q) 0 - nth i (px p) 0))
    (fun i => s_zeta st * (dr1 (nth i (k_x k) 0) * dr1 (nth i (k_x k) 0) * Rsqr (nth i (px q) 0 - nth i (px p) 0)))).
  2:{ intros i H. rewrite (hdiag_nth b k st KF i H). ring. }
  rewrite !total_scale.
  rewrite (total_ext nx (fun i => Rsqr ((nth i (px q) 0 - nth i (k_x k) 0) * dr1 (nth i (k_x k) 0)))
    (fun i => Rsqr ((nth i (px p) 0 - nth i (k_x k) 0) * dr1 (nth i (k_x k) 0)) +
       (2 * ((nth i (px p) 0 - nth i (k_x k) 0) * (dr1 (nth i (k_x k) 0) * dr1 (nth i (k_x k) 0))
       * (nth i (px q) 0 - nth i (px p) 0)) +
        dr1 (nth i (k_x k) 0) * dr1 (nth i (k_x k) 0) * Rsqr (nth i (px q) 0 - nth i (px p) 0)))).
  2:{ intros i H. unfold Rsqr. ring. }
  rewrite !total_plus, total_scale. field.
Qed.

(** * Constraints *)
Section Cons.
Variable b : base.
Hypothesis BF : base_fits b.

Lemma cons_blocks : forall (c d : list R), length c = b_meq b -> length d = b_mineq b ->
  write (b_meq b) d (write 0 c (repeat 0 (b_meq b + b_mineq b))) = c ++ d.
Proof.
  intros c d C D. rewrite repeat_app. rewrite write_0 by (rewrite repeat_length; exact C).
  rewrite write_end by (rewrite ?repeat_length; lia). reflexivity.
Qed.

Lemma eval_cons_encode : forall p, fits b p -> eval_cons b (encode b p) =
  Some (axpy 1 (pne p) (axpy (-1) (ppe p) (b_c b (px p))) ++
        axpy 1 (pni p) (axpy (-1) (ppi p) (b_d b (px p)))).
Proof.
  intros p F. unfold eval_cons. rewrite (encode_length b p F), Nat.eqb_refl.
  rewrite (get_x_encode b p F), (read_pe b p F), (read_ne b p F), (read_pi b p F), (read_ni b p F).
  f_equal. destruct F as (A & B & C & D & E). destruct BF as (BC & _). destruct (BC _ A) as [L1 L2].
  assert (M1 : length (axpy (-1) (ppe p) (b_c b (px p))) = b_meq b) by (rewrite axpy_length; lia).
  assert (M2 : length (axpy (-1) (ppi p) (b_d b (px p))) = b_mineq b) by (rewrite axpy_length; lia).
  apply cons_blocks; rewrite axpy_length; lia.
Qed.

Lemma eval_cons_is : forall p u v, fits b p -> length u = b_meq b -> length v = b_mineq b ->
  (forall i, (i < b_meq b)%nat -> nth i (b_c b (px p)) 0 - nth i (ppe p) 0 + nth i (pne p) 0 = nth i u 0) ->
  (forall i, (i < b_mineq b)%nat -> nth i (b_d b (px p)) 0 - nth i (ppi p) 0 + nth i (pni p) 0 = nth i v 0) ->
  eval_cons b (encode b p) = Some (u ++ v).
Proof.
  intros p u v F U V HU HV. rewrite (eval_cons_encode p F). f_equal.
  destruct F as (A & B & C & D & E). destruct BF as (BC & _). destruct (BC _ A) as [L1 L2].
  assert (M1 : length (axpy (-1) (ppe p) (b_c b (px p))) = b_meq b) by (rewrite axpy_length; lia).
  assert (M2 : length (axpy (-1) (ppi p) (b_d b (px p))) = b_mineq b) by (rewrite axpy_length; lia).
  f_equal; apply list_eq_nth; rewrite ?axpy_length by lia; try lia.
  - intros i H. rewrite axpy_nth, axpy_nth by lia. rewrite <- HU by lia. ring.
  - intros i H. rewrite axpy_nth, axpy_nth by lia. rewrite <- HV by lia. ring.
Qed.
End Cons.

(** * The split of a violation in positive parts *)
Lemma rho_pos : 0 < rho. Proof. unfold rho. lra. Qed.

(** Entry of n: w + sqrt (w^2 + t*r) with w = t - r/2. *)
Definition n1 (mu r : R) : R :=
  let t := mu / (2 * rho) in let w := t + - / 2 * r in
  sqrt (w * w + t * r) + 1 * w.
Lemma root_arg : forall t r, (t + - / 2 * r) * (t + - / 2 * r) + t * r = t * t + r * r / 4.
Proof. intros. field. Qed.
Lemma root_nonneg : forall t r, 0 <= (t + - / 2 * r) * (t + - / 2 * r) + t * r.
Proof. intros t r. rewrite root_arg. pose proof (Rle_0_sqr t). pose proof (Rle_0_sqr r). unfold Rsqr in *. lra. Qed.

Lemma split_entry : forall mu r, 0 < mu ->
  0 < n1 mu r /\ 0 < r + n1 mu r /\
  2 * rho * (r + n1 mu r) * n1 mu r = mu * ((r + n1 mu r) + n1 mu r).
Proof.
  intros mu r M. unfold n1. set (t := mu / (2 * rho)).
  assert (T : 0 < t). { unfold t. apply Rdiv_lt_0_compat; [exact M|pose proof rho_pos; lra]. }
  assert (MU : mu = 2 * rho * t). { unfold t. field. pose proof rho_pos; lra. }
  set (w := t + - / 2 * r).
  pose proof (root_nonneg t r) as NN. fold w in NN.
  set (q := sqrt (w * w + t * r)).
  assert (Q : q * q = w * w + t * r) by (apply sqrt_sqrt; exact NN).
  assert (Q0 : 0 <= q) by apply sqrt_pos.
  assert (Q' : q * q = t * t + r * r / 4). { rewrite Q. unfold w. apply root_arg. }
  assert (P1 : Rabs (r / 2) < q).
  { apply Rsqr_incrst_0; [|apply Rabs_pos|exact Q0]. rewrite <- Rsqr_abs. unfold Rsqr. rewrite Q'.
    pose proof (Rmult_lt_0_compat t t T T). lra. }
  apply Rabs_def2 in P1. destruct P1 as [P1 P2].
  assert (W : w = t - r / 2) by (unfold w; lra).
  split; [lra|]. split; [lra|].
  rewrite MU, W.
  replace (r + (q + 1 * (t - r / 2))) with (q + (t + r / 2)) by field.
  replace (q + 1 * (t - r / 2)) with (q + (t - r / 2)) by field.
  replace (2 * rho * (q + (t + r / 2)) * (q + (t - r / 2))) with
    (2 * rho * (q * q + 2 * t * q + t * t - r * r / 4)) by field.
  rewrite Q'. field.
Qed.

Lemma csqrt_some : forall x, (forall i, (i < length x)%nat -> 0 <= nth i x 0) -> csqrt x = Some (map sqrt x).
Proof.
  induction x as [|a x IH]; intros H; [reflexivity|]. cbn [csqrt map].
  destruct (Rle_dec 0 a) as [_|N]; [|exfalso; apply N; exact (H 0%nat (Nat.lt_0_succ _))].
  rewrite IH; [reflexivity|]. intros i L. exact (H (S i) (proj1 (Nat.succ_lt_mono _ _) L)).
Qed.

Lemma split_pn_is : forall mu r, exists p n, split_pn mu r = Some (p, n) /\
  length p = length r /\ length n = length r /\
  (forall i, (i < length r)%nat -> nth i n 0 = n1 mu (nth i r 0)) /\
  (forall i, (i < length r)%nat -> nth i p 0 = nth i r 0 + n1 mu (nth i r 0)).
Proof.
  intros mu r. unfold split_pn. set (t := mu / (2 * rho)).
  set (w := axpy (- / 2) r (repeat t (length r))).
  assert (W : length w = length r) by (unfold w; rewrite axpy_length; rewrite repeat_length; lia).
  assert (WN : forall i, (i < length r)%nat -> nth i w 0 = t + - / 2 * nth i r 0).
  { intros i H. unfold w. rewrite axpy_nth by (rewrite ?repeat_length; lia).
    rewrite nth_repeat0 by exact H. reflexivity. }
  set (q := axpy t r (cmult w w)).
  assert (CW : length (cmult w w) = length r) by (rewrite cmult_length; lia).
  assert (Q : length q = length r) by (unfold q; rewrite axpy_length; lia).
  assert (QN : forall i, (i < length r)%nat -> nth i q 0 = nth i w 0 * nth i w 0 + t * nth i r 0).
  { intros i H. unfold q. rewrite axpy_nth, cmult_nth by lia. reflexivity. }
  rewrite (csqrt_some q).
  2:{ intros i H. rewrite QN, WN by lia. apply root_nonneg. }
  assert (NL : length (axpy 1 w (map sqrt q)) = length r)
    by (rewrite axpy_length; rewrite map_length; lia).
  assert (NN : forall i, (i < length r)%nat -> nth i (axpy 1 w (map sqrt q)) 0 = n1 mu (nth i r 0)).
  { intros i H. rewrite axpy_nth by (rewrite ?map_length; lia). rewrite map_nth0 by lia.
    rewrite QN, WN by exact H. reflexivity. }
  exists (axpy 1 (axpy 1 w (map sqrt q)) r), (axpy 1 w (map sqrt q)). split; [reflexivity|].
  split; [rewrite axpy_length; lia|]. split; [exact NL|]. split; [exact NN|].
  intros i H. rewrite axpy_nth by lia. rewrite NN by exact H. ring.
Qed.

Lemma bdual_len : forall mu v, length (barrier_dual mu v) = length v.
Proof. intros. apply map_length. Qed.
Lemma clip_len : forall v, length (clip v) = length v.
Proof. intros. apply map_length. Qed.
Lemma bdual_nth : forall mu v i, (i < length v)%nat -> nth i v 0 <> 0 -> nth i (barrier_dual mu v) 0 * nth i v 0 = mu.
Proof.
  intros mu v i H N. unfold barrier_dual. rewrite map_nth0 by exact H. field. exact N.
Qed.

(** * Norms *)
Lemma infnorm_le : forall x e, infnorm x <= e <-> 0 <= e /\ forall i, (i < length x)%nat -> Rabs (nth i x 0) <= e.
Proof.
  induction x as [|a x IH]; intros e; cbn [infnorm fold_right].
  - split; [intros H; split; [exact H|cbn; lia]|intros [H _]; exact H].
  - change (fold_right (fun a0 m => Rmax (Rabs a0) m) 0 x) with (infnorm x). split.
    + intros H. pose proof (Rmax_l (Rabs a) (infnorm x)). pose proof (Rmax_r (Rabs a) (infnorm x)).
      destruct (proj1 (IH e)) as [E0 E1]; [lra|]. split; [exact E0|].
      intros [|i] L; cbn; [lra|]. apply E1. cbn in L. lia.
    + intros [E0 E1]. apply Rmax_lub; [exact (E1 0%nat (Nat.lt_0_succ _))|].
      apply IH. split; [exact E0|]. intros i L. apply (E1 (S i)). cbn. lia.
Qed.

Lemma nth_at : forall l i v, at_ l i v -> (i < length l)%nat /\ nth i l 0 = v.
Proof.
  intros l i v H. unfold at_ in H. split.
  - apply nth_error_Some. congruence.
  - now apply nth_error_nth.
Qed.

Lemma within_axpy : forall e x y, length x = length y -> infnorm (axpy (-1) y x) <= e -> within e x y.
Proof.
  intros e x y L H. split; [exact L|]. intros i a c A C.
  destruct (nth_at _ _ _ A) as [LA <-]. destruct (nth_at _ _ _ C) as [LC <-].
  destruct (proj1 (infnorm_le _ _) H) as [_ E].
  specialize (E i). rewrite axpy_length in E by lia. specialize (E LA).
  rewrite axpy_nth in E by lia. replace (nth i x 0 - nth i y 0) with (nth i x 0 + -1 * nth i y 0) by ring.
  exact E.
Qed.
Lemma axpy_within : forall e x y, 0 <= e -> within e x y -> infnorm (axpy (-1) y x) <= e.
Proof.
  intros e x y E0 [L H]. apply infnorm_le. split; [exact E0|].
  intros i I. rewrite axpy_length in I by lia. rewrite axpy_nth by lia.
  replace (nth i x 0 + -1 * nth i y 0) with (nth i x 0 - nth i y 0) by ring.
  apply (H i); apply nth_error_nth'; lia.
Qed.

Lemma onenorm_axpy : forall x y, length x = length y ->
  onenorm (axpy (-1) y x) = total (length x) (fun i => Rabs (nth i x 0 - nth i y 0)).
Proof.
  intros x y L. unfold onenorm. rewrite vsum_total, map_length, axpy_length by lia.
  apply total_ext. intros i I. rewrite map_nth0 by (rewrite axpy_length; lia). rewrite axpy_nth by lia.
  f_equal. ring.
Qed.

(** * The restoration solve *)
Section Solve.
Variables (b : base) (k : caller) (j : judge).
Hypothesis BF : base_fits b.
Hypothesis KF : caller_fits b k.

(** One evaluated and reported iterate. *)
Lemma step_is : forall st i iter r, length (i_s i) = b_mineq b ->
  (match eval_f b k st (i_y i) with
   | None => None
   | Some (_, st1) => callback b k j st1 iter (i_y i) (i_s i) (i_mu i)
   end) = Some r ->
  exists p, fits b p /\ encode b p = i_y i /\
    let fb := b_f b (cmult (dr (k_x k)) (axpy (-1) (k_x k) (px p))) in
    let theta := total (b_meq b) (fun a => Rabs (nth a (b_c b (px p)) 0 - nth a (b_crhs b) 0)) +
                 total (b_mineq b) (fun a => Rabs (nth a (b_d b (px p)) 0 - nth a (i_s i) 0)) in
    let ok := (within (j_kappa j * k_nrm k) (b_c b (px p)) (b_crhs b) /\
               within (j_kappa j * k_nrm k) (b_d b (px p)) (i_s i) /\ 0 <= j_kappa j * k_nrm k) /\
              (0 < iter)%nat /\ j_filter j theta (j_logbar j (px p) (i_s i) fb) = false in
    (fst r = false /\ ok /\ s_last (snd r) = Some (px p, i_s i) /\ s_zeta (snd r) = s_zeta st /\ s_mu (snd r) = s_mu st) \/
    (fst r = true /\ ~ ok /\ s_last (snd r) = s_last st /\ s_mu (snd r) = i_mu i /\ s_zeta (snd r) = sqrt (i_mu i)).
Proof.
  intros st i iter r LS H.
  destruct (Nat.eqb (length (i_y i)) (n_fr (b_kind b) (b_meq b) (b_mineq b))) eqn:E.
  2:{ unfold eval_f in H. rewrite E in H. discriminate. }
  apply Nat.eqb_eq in E. destruct (decode b _ E) as (p & F & EP). exists p. split; [exact F|].
  split; [exact EP|]. rewrite <- EP in H. rewrite (eval_f_encode b k st KF p F) in H.
  unfold callback in H. rewrite (encode_length b p F), Nat.eqb_refl in H.
  rewrite (get_x_encode b p F) in H. cbn [s_mu s_zeta s_objb s_last] in H.
  pose proof (fits_nx b p F) as A. destruct BF as (BC & _ & _ & CR & _). destruct (BC _ A) as [L1 L2].
  rewrite !onenorm_axpy in H by lia. rewrite L1, L2 in H.
  cbv zeta.
  replace (0 + total (b_meq b) (fun a => Rabs (nth a (b_c b (px p)) 0 - nth a (b_crhs b) 0)) +
           total (b_mineq b) (fun a => Rabs (nth a (b_d b (px p)) 0 - nth a (i_s i) 0)))
   with (total (b_meq b) (fun a => Rabs (nth a (b_c b (px p)) 0 - nth a (b_crhs b) 0)) +
           total (b_mineq b) (fun a => Rabs (nth a (b_d b (px p)) 0 - nth a (i_s i) 0))) in H by ring.
  destruct (Rle_dec _ _) as [LE|NLE] in H.
  - pose proof (Rmax_l (infnorm (axpy (-1) (b_crhs b) (b_c b (px p)))) (infnorm (axpy (-1) (i_s i) (b_d b (px p))))) as M1.
    pose proof (Rmax_r (infnorm (axpy (-1) (b_crhs b) (b_c b (px p)))) (infnorm (axpy (-1) (i_s i) (b_d b (px p))))) as M2.
    assert (W1 : within (j_kappa j * k_nrm k) (b_c b (px p)) (b_crhs b)) by (apply within_axpy; [lia|lra]).
    assert (W2 : within (j_kappa j * k_nrm k) (b_d b (px p)) (i_s i)) by (apply within_axpy; [lia|lra]).
    assert (W3 : 0 <= j_kappa j * k_nrm k).
    { destruct (proj1 (infnorm_le _ _) (Rle_trans _ _ _ M1 LE)) as [Z _]. exact Z. }
    destruct (Nat.ltb 0 iter) eqn:IT.
    + apply Nat.ltb_lt in IT.
      destruct (j_filter j _ _) eqn:J in H; injection H as <-; cbn [fst snd s_last s_mu s_zeta].
      * right. split; [reflexivity|]. split; [|auto]. intros (_ & _ & C). rewrite J in C. discriminate.
      * left. split; [reflexivity|]. split; [|auto]. repeat split; auto; try (exact (proj1 W1)); try (exact (proj1 W2));
          try (exact (proj2 W1)); try (exact (proj2 W2)).
    + apply Nat.ltb_ge in IT. injection H as <-. cbn [fst snd s_last s_mu s_zeta].
      right. split; [reflexivity|]. split; [|auto]. intros (_ & C & _). lia.
  - injection H as <-. cbn [fst snd s_last s_mu s_zeta]. right. split; [reflexivity|]. split; [|auto].
    intros ((C1 & C2 & C3) & _). apply NLE. apply Rmax_lub; apply axpy_within; assumption.
Qed.
End Solve.
