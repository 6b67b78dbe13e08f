(** Proofs about the restoration problem. *)
From Coq Require Import List Arith Reals Lra Lia.
Import ListNotations.
From Verif Require Import FRModel FRSpec.
Open Scope R_scope.

(** * Reads and writes of blocks *)
Lemma read_mid : forall a m c st n, st = length a -> n = length m -> read st n (a ++ m ++ c) = m.
Proof.
  intros a m c st n -> ->. unfold read.
  rewrite skipn_app, skipn_all, Nat.sub_diag. cbn [app skipn].
  rewrite firstn_app, firstn_all, Nat.sub_diag. cbn [firstn]. apply app_nil_r.
Qed.
Lemma write_mid : forall a m c src st, st = length a -> length src = length m ->
  write st src (a ++ m ++ c) = a ++ src ++ c.
Proof.
  intros a m c src st -> E. unfold write.
  rewrite firstn_app, firstn_all, Nat.sub_diag. cbn [firstn]. rewrite app_nil_r. f_equal. f_equal.
  rewrite app_assoc, skipn_app.
  rewrite (skipn_all2 (a ++ m)) by (rewrite app_length; lia).
  rewrite app_length, E. rewrite Nat.sub_diag. reflexivity.
Qed.
Lemma read_0 : forall m c n, n = length m -> read 0 n (m ++ c) = m.
Proof. intros m c n E. exact (read_mid [] m c 0 n eq_refl E). Qed.
Lemma write_0 : forall m c src, length src = length m -> write 0 src (m ++ c) = src ++ c.
Proof. intros m c src E. exact (write_mid [] m c src 0 eq_refl E). Qed.
Lemma read_end : forall a m st n, st = length a -> n = length m -> read st n (a ++ m) = m.
Proof. intros a m st n A E. rewrite <- (app_nil_r m) at 1. apply read_mid; assumption. Qed.
Lemma write_end : forall a m src st, st = length a -> length src = length m -> write st src (a ++ m) = a ++ src.
Proof.
  intros a m src st A E. rewrite <- (app_nil_r m) at 1. rewrite write_mid by assumption.
  now rewrite app_nil_r.
Qed.
Lemma read_all : forall m n, n = length m -> read 0 n m = m.
Proof. intros m n ->. unfold read. cbn [skipn]. apply firstn_all. Qed.

Section Geo.
Variable b : base.
Notation k := (b_kind b). Notation me := (b_meq b). Notation mi := (b_mineq b).

Lemma encode_length : forall p, fits b p -> length (encode b p) = n_fr k me mi.
Proof.
  intros p (A & B & C & D & E). unfold encode, n_fr. destruct k as [nx|a c]; cbn [n_x] in *.
  - rewrite !app_length. lia.
  - rewrite !app_length, firstn_length, skipn_length. lia.
Qed.

Lemma get_x_encode : forall p, fits b p -> get_x b (encode b p) = px p.
Proof.
  intros p (A & B & C & D & E). unfold get_x, encode.
  unfold xde_st, ni_st, pi_st, ne_st, pe_st. destruct k as [nx|a c]; cbn [n_x] in *.
  - apply read_0. symmetry; exact A.
  - assert (F : length (firstn a (px p)) = a) by (rewrite firstn_length; lia).
    assert (G : length (skipn a (px p)) = c) by (rewrite skipn_length; lia).
    rewrite read_0 by (symmetry; exact F).
    rewrite !app_assoc. rewrite read_end by (rewrite ?app_length; lia).
    rewrite repeat_app. rewrite write_0 by (rewrite repeat_length; exact F).
    rewrite write_end by (rewrite ?repeat_length; lia).
    apply firstn_skipn.
Qed.

Lemma put_x_encode : forall x pe ne pi ni x', length x = n_x k -> length x' = n_x k ->
  length pe = me -> length ne = me -> length pi = mi -> length ni = mi ->
  put_x b x' (encode b (Pt x pe ne pi ni)) = encode b (Pt x' pe ne pi ni).
Proof.
  intros x pe ne pi ni x' A A' B C D E. unfold put_x, encode.
  unfold xde_st, ni_st, pi_st, ne_st, pe_st. cbn [px ppe pne ppi pni].
  destruct k as [nx|a c]; cbn [n_x] in *.
  - apply write_0. lia.
  - assert (F : length (firstn a x) = a) by (rewrite firstn_length; lia).
    assert (F' : length (firstn a x') = a) by (rewrite firstn_length; lia).
    assert (G : length (skipn a x) = c) by (rewrite skipn_length; lia).
    assert (G' : length (skipn a x') = c) by (rewrite skipn_length; lia).
    assert (R1 : read a c x' = skipn a x').
    { unfold read. apply firstn_all2. lia. }
    assert (R2 : read 0 a x' = firstn a x') by reflexivity.
    rewrite R1, R2. rewrite write_0 by lia.
    rewrite !app_assoc. rewrite write_end by (rewrite ?app_length; lia). reflexivity.
Qed.

Lemma read_pe : forall p, fits b p -> read (pe_st k) me (encode b p) = ppe p.
Proof.
  intros p (A & B & C & D & E). unfold encode, pe_st. destruct k as [nx|a c]; cbn [n_x] in *.
  - apply read_mid; lia.
  - apply read_mid; [rewrite firstn_length; lia|lia].
Qed.
Lemma read_ne : forall p, fits b p -> read (ne_st k me) me (encode b p) = pne p.
Proof.
  intros p (A & B & C & D & E). unfold encode, ne_st, pe_st. destruct k as [nx|a c]; cbn [n_x] in *.
  - rewrite (app_assoc (px p)). apply read_mid; [rewrite app_length; lia|lia].
  - rewrite (app_assoc (firstn a (px p))). apply read_mid; [rewrite app_length, firstn_length; lia|lia].
Qed.
Lemma read_pi : forall p, fits b p -> read (pi_st k me) mi (encode b p) = ppi p.
Proof.
  intros p (A & B & C & D & E). unfold encode, pi_st, ne_st, pe_st. destruct k as [nx|a c]; cbn [n_x] in *.
  - rewrite (app_assoc (px p)), (app_assoc (px p ++ ppe p)).
    apply read_mid; [rewrite !app_length; lia|lia].
  - rewrite (app_assoc (firstn a (px p))), (app_assoc (firstn a (px p) ++ ppe p)).
    apply read_mid; [rewrite !app_length, firstn_length; lia|lia].
Qed.
Lemma read_ni : forall p, fits b p -> read (ni_st k me mi) mi (encode b p) = pni p.
Proof.
  intros p (A & B & C & D & E). unfold encode, ni_st, pi_st, ne_st, pe_st.
  destruct k as [nx|a c]; cbn [n_x] in *.
  - rewrite !app_assoc. apply read_end; [rewrite !app_length; lia|lia].
  - rewrite (app_assoc (firstn a (px p))), (app_assoc (firstn a (px p) ++ ppe p)),
      (app_assoc ((firstn a (px p) ++ ppe p) ++ pne p)).
    apply read_mid; [rewrite !app_length, firstn_length; lia|lia].
Qed.

Lemma write_pe : forall x pe ne pi ni v, length x = n_x k -> length pe = me -> length v = me ->
  write (pe_st k) v (encode b (Pt x pe ne pi ni)) = encode b (Pt x v ne pi ni).
Proof.
  intros x pe ne pi ni v A B V. unfold encode, pe_st. cbn [px ppe pne ppi pni].
  destruct k as [nx|a c]; cbn [n_x] in *.
  - apply write_mid; lia.
  - apply write_mid; [rewrite firstn_length; lia|lia].
Qed.
Lemma write_ne : forall x pe ne pi ni v, length x = n_x k -> length pe = me -> length ne = me ->
  length v = me ->
  write (ne_st k me) v (encode b (Pt x pe ne pi ni)) = encode b (Pt x pe v pi ni).
Proof.
  intros x pe ne pi ni v A B C V. unfold encode, ne_st, pe_st. cbn [px ppe pne ppi pni].
  destruct k as [nx|a c]; cbn [n_x] in *.
  - rewrite !(app_assoc x). apply write_mid; [rewrite app_length; lia|lia].
  - rewrite !(app_assoc (firstn a x)). apply write_mid; [rewrite app_length, firstn_length; lia|lia].
Qed.
Lemma write_pi : forall x pe ne pi ni v, length x = n_x k -> length pe = me -> length ne = me ->
  length pi = mi -> length v = mi ->
  write (pi_st k me) v (encode b (Pt x pe ne pi ni)) = encode b (Pt x pe ne v ni).
Proof.
  intros x pe ne pi ni v A B C D V. unfold encode, pi_st, ne_st, pe_st. cbn [px ppe pne ppi pni].
  destruct k as [nx|a c]; cbn [n_x] in *.
  - rewrite !(app_assoc x), !(app_assoc (x ++ pe)).
    apply write_mid; [rewrite !app_length; lia|lia].
  - rewrite !(app_assoc (firstn a x)), !(app_assoc (firstn a x ++ pe)).
    apply write_mid; [rewrite !app_length, firstn_length; lia|lia].
Qed.
Lemma write_ni : forall x pe ne pi ni v, length x = n_x k -> length pe = me -> length ne = me ->
  length pi = mi -> length ni = mi -> length v = mi ->
  write (ni_st k me mi) v (encode b (Pt x pe ne pi ni)) = encode b (Pt x pe ne pi v).
Proof.
  intros x pe ne pi ni v A B C D E V. unfold encode, ni_st, pi_st, ne_st, pe_st. cbn [px ppe pne ppi pni].
  destruct k as [nx|a c]; cbn [n_x] in *.
  - rewrite !app_assoc. apply write_end; [rewrite !app_length; lia|lia].
  - rewrite !(app_assoc (firstn a x)), !(app_assoc (firstn a x ++ pe)), !(app_assoc ((firstn a x ++ pe) ++ ne)).
    apply write_mid; [rewrite !app_length, firstn_length; lia|lia].
Qed.

Lemma assemble_encode : forall x0 pe0 ne0 pi0 ni0 x pe ne pi ni,
  fits b (Pt x0 pe0 ne0 pi0 ni0) -> fits b (Pt x pe ne pi ni) ->
  assemble b x pe ne pi ni (encode b (Pt x0 pe0 ne0 pi0 ni0)) = encode b (Pt x pe ne pi ni).
Proof.
  intros x0 pe0 ne0 pi0 ni0 x pe ne pi ni (A & B & C & D & E) (A' & B' & C' & D' & E').
  cbn [px ppe pne ppi pni] in *. unfold assemble.
  rewrite put_x_encode, write_pe, write_ne, write_pi, write_ni by assumption. reflexivity.
Qed.

Lemma firstn_repeat_le : forall (v : R) a c, firstn a (repeat v (a + c)) = repeat v a.
Proof. intros v a c. induction a; cbn; [destruct c; reflexivity|f_equal; assumption]. Qed.
Lemma skipn_repeat_le : forall (v : R) a c, skipn a (repeat v (a + c)) = repeat v c.
Proof. intros v a c. induction a; cbn; [reflexivity|assumption]. Qed.

Lemma repeat_encode : forall v, repeat v (n_fr k me mi) =
  encode b (Pt (repeat v (n_x k)) (repeat v me) (repeat v me) (repeat v mi) (repeat v mi)).
Proof.
  intros v. unfold n_fr, encode. cbn [px ppe pne ppi pni].
  destruct k as [nx|a c]; cbn [n_x].
  - rewrite <- !repeat_app. f_equal. lia.
  - rewrite firstn_repeat_le, skipn_repeat_le. rewrite <- !repeat_app. f_equal. lia.
Qed.
Lemma fits_repeat : forall v,
  fits b (Pt (repeat v (n_x k)) (repeat v me) (repeat v me) (repeat v mi) (repeat v mi)).
Proof. intros v. unfold fits. cbn. rewrite !repeat_length. auto. Qed.

Lemma decode : forall y, length y = n_fr k me mi -> exists p, fits b p /\ encode b p = y.
Proof.
  intros y L. unfold n_fr in L. unfold fits, encode. destruct k as [nx|a c]; cbn [n_x] in *.
  - exists (Pt (firstn nx y) (firstn me (skipn nx y)) (firstn me (skipn me (skipn nx y)))
      (firstn mi (skipn me (skipn me (skipn nx y))))
      (skipn mi (skipn me (skipn me (skipn nx y))))).
    cbn [px ppe pne ppi pni]. split.
    + rewrite ?firstn_length, ?skipn_length, ?firstn_length, ?skipn_length. lia.
    + rewrite !firstn_skipn. reflexivity.
  - set (r := skipn mi (skipn mi (skipn me (skipn me (skipn a y))))).
    exists (Pt (firstn a y ++ r) (firstn me (skipn a y)) (firstn me (skipn me (skipn a y)))
      (firstn mi (skipn me (skipn me (skipn a y))))
      (firstn mi (skipn mi (skipn me (skipn me (skipn a y)))))).
    cbn [px ppe pne ppi pni].
    assert (F : length (firstn a y) = a) by (rewrite firstn_length; lia). split.
    + unfold r. rewrite ?app_length, ?firstn_length, ?skipn_length, ?firstn_length, ?skipn_length. lia.
    + rewrite firstn_app, skipn_app, F, Nat.sub_diag. cbn [firstn skipn].
      rewrite app_nil_r, firstn_firstn, Nat.min_id.
      rewrite (skipn_all2 (firstn a y)) by lia. cbn [app].
      unfold r. rewrite !firstn_skipn. reflexivity.
Qed.
End Geo.

(** * Sums *)
Lemma vsum_app : forall a c, vsum (a ++ c) = vsum a + vsum c.
Proof. unfold vsum. induction a as [|v a IH]; intros c; cbn; [lra|rewrite IH; lra]. Qed.
Lemma vsum_split : forall n l, vsum (firstn n l) + vsum (skipn n l) = vsum l.
Proof. intros n l. rewrite <- vsum_app, firstn_skipn. reflexivity. Qed.
Lemma vsum_encode : forall b p, vsum (encode b p) =
  vsum (px p) + (vsum (ppe p) + vsum (pne p) + vsum (ppi p) + vsum (pni p)).
Proof.
  intros b p. unfold encode. destruct (b_kind b) as [nx|a c]; rewrite !vsum_app.
  - lra.
  - rewrite <- (vsum_split a (px p)). lra.
Qed.
Lemma total_ext : forall n f g, (forall i, (i < n)%nat -> f i = g i) -> total n f = total n g.
Proof. induction n; intros f g H; cbn; [reflexivity|rewrite (IHn f g), (H n); auto]. Qed.
Lemma total_plus : forall n f g, total n (fun i => f i + g i) = total n f + total n g.
Proof. induction n; intros; cbn; [lra|rewrite IHn; lra]. Qed.
Lemma total_scale : forall n a f, total n (fun i => a * f i) = a * total n f.
Proof. induction n; intros; cbn; [lra|rewrite IHn; lra]. Qed.
Lemma total_shift : forall n f, total (S n) f = f 0%nat + total n (fun i => f (S i)).
Proof.
  induction n; intros f; [cbn; lra|].
  change (total (S (S n)) f) with (total (S n) f + f (S n)). rewrite IHn. cbn. lra.
Qed.
Lemma vsum_total : forall l, vsum l = total (length l) (fun i => nth i l 0).
Proof.
  induction l as [|v l IH]; [reflexivity|]. cbn [length]. rewrite total_shift. cbn [nth].
  rewrite <- IH. reflexivity.
Qed.
Lemma total_app : forall n m f, total (n + m) f = total n f + total m (fun i => f (n + i)%nat).
Proof.
  induction m; intros f; cbn.
  - rewrite Nat.add_0_r. lra.
  - rewrite <- plus_n_Sm. cbn. rewrite IHm. lra.
Qed.

(** * Componentwise operations *)
Lemma zip_length : forall f x y, length x = length y -> length (zip f x y) = length x.
Proof. induction x; intros [|v y] H; cbn in *; try lia. rewrite IHx; lia. Qed.
Lemma zip_nth : forall f x y i, length x = length y -> (i < length x)%nat ->
  nth i (zip f x y) 0 = f (nth i x 0) (nth i y 0).
Proof.
  induction x as [|a x IH]; intros [|v y] i E L; cbn in *; try lia.
  destruct i; [reflexivity|]. apply IH; lia.
Qed.
Lemma axpy_length : forall a x y, length x = length y -> length (axpy a x y) = length y.
Proof. intros. unfold axpy. apply zip_length. lia. Qed.
Lemma axpy_nth : forall a x y i, length x = length y -> (i < length x)%nat ->
  nth i (axpy a x y) 0 = nth i y 0 + a * nth i x 0.
Proof. intros a x y i E L. unfold axpy. rewrite zip_nth by lia. reflexivity. Qed.
Lemma cmult_length : forall x y, length x = length y -> length (cmult x y) = length y.
Proof. intros. unfold cmult. apply zip_length. lia. Qed.
Lemma cmult_nth : forall x y i, length x = length y -> (i < length x)%nat ->
  nth i (cmult x y) 0 = nth i y 0 * nth i x 0.
Proof. intros x y i E L. unfold cmult. rewrite zip_nth by lia. reflexivity. Qed.
Lemma dr_length : forall x, length (dr x) = length x.
Proof. intros. apply map_length. Qed.
Lemma dr_nth : forall x i, (i < length x)%nat -> nth i (dr x) 0 = dr1 (nth i x 0).
Proof.
  intros x i L. unfold dr. rewrite (nth_indep _ 0 (dr1 0)) by (rewrite map_length; exact L).
  apply map_nth.
Qed.
Lemma map_nth0 : forall (f : R -> R) x i, (i < length x)%nat -> nth i (map f x) 0 = f (nth i x 0).
Proof.
  intros f x i L. rewrite (nth_indep _ 0 (f 0)) by (rewrite map_length; exact L). apply map_nth.
Qed.
Lemma nth_repeat0 : forall v n i, (i < n)%nat -> nth i (repeat v n) 0 = v.
Proof. induction n; intros [|i] H; cbn; try lia; auto. apply IHn. lia. Qed.

Lemma list_eq_nth : forall x y, length x = length y ->
  (forall i, (i < length x)%nat -> nth i x 0 = nth i y 0) -> x = y.
Proof. intros x y E H. exact (nth_ext x y 0 0 E H). Qed.

Lemma twonorm_sq : forall x, twonorm x * twonorm x = total (length x) (fun i => nth i x 0 * nth i x 0).
Proof.
  intros x. unfold twonorm. rewrite sqrt_sqrt.
  - rewrite vsum_total, map_length. apply total_ext. intros i L. now rewrite map_nth0.
  - unfold vsum. induction x; cbn; [lra|]. pose proof (Rle_0_sqr a). unfold Rsqr in *. lra.
Qed.

Lemma dr1_weight : forall r, weight r (dr1 r).
Proof.
  intros r. unfold weight, dr1. destruct (Req_EM_T r 0) as [->|N].
  - split; [reflexivity|]. intros H. rewrite Rabs_R0 in H. lra.
  - pose proof (Rabs_pos_lt r N) as P. split; intros H.
    + apply Rmin_right. rewrite <- (Rinv_r (Rabs r)) by lra.
      rewrite <- (Rmult_1_l (/ Rabs r)) at 2. apply Rmult_le_compat_r; [|exact H].
      left. now apply Rinv_0_lt_compat.
    + rewrite Rmin_left; [apply Rinv_l; lra|].
      rewrite <- Rinv_1. apply Rle_Rinv; lra.
Qed.

(** * Objective *)
Lemma fits_nx : forall b p, fits b p -> length (px p) = n_x (b_kind b).
Proof. intros b p (A & _). exact A. Qed.

Section Obj.
Variables (b : base) (k : caller) (st : state).
Hypothesis KF : caller_fits b k.
Let nx := n_x (b_kind b).

Lemma kx_len : length (k_x k) = nx.
Proof. destruct KF as (A & _). exact A. Qed.

Lemma wvec_nth : forall x i, length x = nx -> (i < nx)%nat ->
  nth i (cmult (dr (k_x k)) (axpy (-1) (k_x k) x)) 0 = (nth i x 0 - nth i (k_x k) 0) * dr1 (nth i (k_x k) 0).
Proof.
  intros x i L H. pose proof kx_len as K.
  rewrite cmult_nth, axpy_nth, dr_nth by (rewrite ?dr_length, ?axpy_length; lia). ring.
Qed.
Lemma wvec_len : forall x, length x = nx -> length (cmult (dr (k_x k)) (axpy (-1) (k_x k) x)) = nx.
Proof.
  intros x L. pose proof kx_len as K.
  rewrite cmult_length, axpy_length by (rewrite ?dr_length, ?axpy_length; lia). exact L.
Qed.

(** The value eval_f returns, in closed form. *)
Definition obj (p : point) : R :=
  rho * (vsum (ppe p) + vsum (pne p) + vsum (ppi p) + vsum (pni p)) +
  s_zeta st / 2 * total nx (fun i => Rsqr ((nth i (px p) 0 - nth i (k_x k) 0) * dr1 (nth i (k_x k) 0))).

Lemma eval_f_encode : forall p, fits b p -> eval_f b k st (encode b p) =
  Some (obj p, State (s_mu st) (s_zeta st)
    (Some (b_f b (cmult (dr (k_x k)) (axpy (-1) (k_x k) (px p))))) (s_last st)).
Proof.
  intros p F. unfold eval_f. rewrite (encode_length b p F), Nat.eqb_refl.
  rewrite (get_x_encode b p F). f_equal. f_equal.
  rewrite vsum_encode. unfold obj.
  set (W := cmult (dr (k_x k)) (axpy (-1) (k_x k) (px p))).
  replace (/ 2 * s_zeta st * twonorm W * twonorm W) with (s_zeta st / 2 * (twonorm W * twonorm W)) by field.
  rewrite twonorm_sq. pose proof (fits_nx b p F) as L.
  unfold W at 1. rewrite (wvec_len _ L).
  rewrite (total_ext nx (fun i => nth i W 0 * nth i W 0)
    (fun i => Rsqr ((nth i (px p) 0 - nth i (k_x k) 0) * dr1 (nth i (k_x k) 0)))); [ring|].
  intros i H. unfold W. rewrite wvec_nth by assumption. reflexivity.
Qed.

(** The gradient, in closed form. *)
Definition gradx (p : point) : list R :=
  map (Rmult (s_zeta st)) (cmult (dr (k_x k)) (cmult (dr (k_x k)) (axpy (-1) (k_x k) (px p)))).
Lemma gradx_len : forall p, fits b p -> length (gradx p) = nx.
Proof.
  intros p F. unfold gradx. rewrite map_length. pose proof (wvec_len _ (fits_nx b p F)) as W.
  pose proof kx_len as K. rewrite cmult_length; rewrite ?dr_length; lia.
Qed.
Lemma gradx_nth : forall p i, fits b p -> (i < nx)%nat ->
  nth i (gradx p) 0 =
  s_zeta st * ((nth i (px p) 0 - nth i (k_x k) 0) * (dr1 (nth i (k_x k) 0) * dr1 (nth i (k_x k) 0))).
Proof.
  intros p i F H. pose proof (fits_nx b p F) as L. pose proof (wvec_len _ L) as W. pose proof kx_len as K.
  unfold gradx. rewrite map_nth0 by (rewrite cmult_length; rewrite ?dr_length; lia).
  rewrite cmult_nth by (rewrite ?dr_length; lia). rewrite (wvec_nth _ i L H), dr_nth by lia. ring.
Qed.
Lemma eval_grad_encode : forall p, fits b p -> eval_grad b k st (encode b p) =
  Some (encode b (Pt (gradx p) (repeat rho (b_meq b)) (repeat rho (b_meq b))
    (repeat rho (b_mineq b)) (repeat rho (b_mineq b)))).
Proof.
  intros p F. unfold eval_grad. rewrite (encode_length b p F), Nat.eqb_refl.
  rewrite (get_x_encode b p F). f_equal. rewrite repeat_encode.
  apply put_x_encode; rewrite ?repeat_length; try reflexivity. exact (gradx_len p F).
Qed.

(** The added diagonal of the Hessian. *)
Definition hdiag : list R :=
  cmult (dr (k_x k)) (cmult (dr (k_x k)) (repeat (s_zeta st) nx)).
Lemma hdiag_len : length hdiag = nx.
Proof.
  unfold hdiag. pose proof kx_len as K.
  assert (E : length (cmult (dr (k_x k)) (repeat (s_zeta st) nx)) = nx)
    by (rewrite cmult_length; rewrite ?dr_length, ?repeat_length; lia).
  rewrite cmult_length; rewrite ?dr_length; lia.
Qed.
Lemma hdiag_nth : forall i, (i < nx)%nat ->
  nth i hdiag 0 = s_zeta st * (dr1 (nth i (k_x k) 0) * dr1 (nth i (k_x k) 0)).
Proof.
  intros i H. unfold hdiag. pose proof kx_len as K.
  assert (E : length (cmult (dr (k_x k)) (repeat (s_zeta st) nx)) = nx)
    by (rewrite cmult_length; rewrite ?dr_length, ?repeat_length; lia).
  rewrite cmult_nth by (rewrite ?dr_length; lia).
  rewrite cmult_nth by (rewrite ?dr_length, ?repeat_length; lia).
  rewrite nth_repeat0, dr_nth by lia. ring.
Qed.
Lemma eval_hess_encode : forall p of lam, fits b p -> length lam = (b_meq b + b_mineq b)%nat ->
  eval_hess b k st (encode b p) of lam =
  Some (b_hess b (px p) 0 (firstn (b_meq b) lam) (skipn (b_meq b) lam), hdiag).
Proof.
  intros p of lam F L. unfold eval_hess. rewrite (encode_length b p F), Nat.eqb_refl.
  rewrite (get_x_encode b p F). unfold read at 2.
  rewrite (firstn_all2 (skipn (b_meq b) lam)) by (rewrite skipn_length; lia). reflexivity.
Qed.

End Obj.

Lemma dot_const : forall v n l m, length l = n -> length m = n ->
  total n (fun i => nth i (repeat v n) 0 * (nth i m 0 - nth i l 0)) = v * (vsum m - vsum l).
Proof.
  intros v n l m L M. rewrite !vsum_total, L, M.
  rewrite (total_ext n _ (fun i => v * nth i m 0 + (- v) * nth i l 0)).
  - rewrite total_plus, !total_scale. ring.
  - intros i H. rewrite nth_repeat0 by exact H. ring.
Qed.

(** A dot product over an encoded vector splits over the blocks. *)
Lemma dot_app : forall (f : R -> R -> R -> R) a1 a2 a3 c1 c2 c3, length a1 = length a2 -> length a1 = length a3 ->
  length c1 = length c2 -> length c1 = length c3 ->
  total (length (a1 ++ c1)) (fun i => f (nth i (a1 ++ c1) 0) (nth i (a2 ++ c2) 0) (nth i (a3 ++ c3) 0)) =
  total (length a1) (fun i => f (nth i a1 0) (nth i a2 0) (nth i a3 0)) +
  total (length c1) (fun i => f (nth i c1 0) (nth i c2 0) (nth i c3 0)).
Proof.
  intros f a1 a2 a3 c1 c2 c3 E1 E2 E3 E4. rewrite app_length, total_app. f_equal.
  - apply total_ext. intros i H. rewrite !app_nth1 by lia. reflexivity.
  - apply total_ext. intros i H. rewrite !app_nth2 by lia.
    replace (length a1 + i - length a1)%nat with i by lia.
    replace (length a1 + i - length a2)%nat with i by lia.
    replace (length a1 + i - length a3)%nat with i by lia. reflexivity.
Qed.
Ltac flens := repeat match goal with F : fits _ _ |- _ => destruct F as (? & ? & ? & ? & ?) end.

Lemma dot_encode : forall (f : R -> R -> R -> R) b p q r, fits b p -> fits b q -> fits b r ->
  total (n_fr (b_kind b) (b_meq b) (b_mineq b))
    (fun i => f (nth i (encode b p) 0) (nth i (encode b q) 0) (nth i (encode b r) 0)) =
  total (n_x (b_kind b)) (fun i => f (nth i (px p) 0) (nth i (px q) 0) (nth i (px r) 0)) +
  total (b_meq b) (fun i => f (nth i (ppe p) 0) (nth i (ppe q) 0) (nth i (ppe r) 0)) +
  total (b_meq b) (fun i => f (nth i (pne p) 0) (nth i (pne q) 0) (nth i (pne r) 0)) +
  total (b_mineq b) (fun i => f (nth i (ppi p) 0) (nth i (ppi q) 0) (nth i (ppi r) 0)) +
  total (b_mineq b) (fun i => f (nth i (pni p) 0) (nth i (pni q) 0) (nth i (pni r) 0)).
Proof.
  intros f b p q r F G H. rewrite <- (encode_length b p F). unfold encode.
  destruct F as (A1 & B1 & C1 & D1 & E1), G as (A2 & B2 & C2 & D2 & E2), H as (A3 & B3 & C3 & D3 & E3).
  destruct (b_kind b) as [nx|a c]; cbn [n_x] in *.
  - rewrite !(dot_app f) by (rewrite ?app_length; lia). rewrite A1, B1, C1, D1, E1. ring.
  - assert (F1 : forall x : list R, length x = (a + c)%nat -> length (firstn a x) = a) by (intros; rewrite firstn_length; lia).
    assert (F2 : forall x : list R, length x = (a + c)%nat -> length (skipn a x) = c) by (intros; rewrite skipn_length; lia).
    pose proof (F1 _ A1) as P1. pose proof (F1 _ A2) as P2. pose proof (F1 _ A3) as P3.
    pose proof (F2 _ A1) as Q1. pose proof (F2 _ A2) as Q2. pose proof (F2 _ A3) as Q3.
    pose proof (dot_app f (firstn a (px p)) (firstn a (px q)) (firstn a (px r))
      (skipn a (px p)) (skipn a (px q)) (skipn a (px r))) as X.
    rewrite !firstn_skipn, A1, P1, Q1 in X.
    rewrite X by lia.
    rewrite !(dot_app f) by (rewrite ?app_length; lia).
    rewrite P1, Q1, B1, C1, D1, E1. ring.
Qed.
