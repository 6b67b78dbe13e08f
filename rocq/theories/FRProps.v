(** C37 (functions, bounds and starting point), C62 and C63: the feasibility-restoration problem. *)
From Coq Require Import List Arith Reals Lra Lia.
Import ListNotations.
From Verif Require Import FRModel FRSpec FRProofs FRProofs2.
Open Scope R_scope.

(** * C37: layout *)
(** Every vector of the restoration problem stands for exactly one point, and only vectors of
    that length do. *)
Theorem C37_layout : forall b y,
  (length y = n_x (b_kind b) + 2 * b_meq b + 2 * b_mineq b)%nat <-> exists! p, fits b p /\ encode b p = y.
Proof.
  intros b y. split.
  - intros L. destruct (decode b y L) as (p & F & E). exists p. split; [auto|].
    intros q [G Q]. apply (encode_inj b); auto. congruence.
  - intros (p & (F & <-) & _). exact (encode_length b p F).
Qed.
Print Assumptions C37_layout.

(** The bounds: those of the original variables, and nonnegative parts bounded by 1e20; the
    equalities stay equalities and the inequalities keep their bounds. *)
Theorem C37_bounds : forall b, base_fits b ->
  vars_info b =
    (encode b (Pt (b_xl b) (repeat 0 (b_meq b)) (repeat 0 (b_meq b)) (repeat 0 (b_mineq b)) (repeat 0 (b_mineq b))),
     encode b (Pt (b_xu b) (repeat big (b_meq b)) (repeat big (b_meq b)) (repeat big (b_mineq b)) (repeat big (b_mineq b)))) /\
  cons_info b = (b_crhs b ++ b_dl b, b_crhs b ++ b_du b).
Proof.
  intros b (BC & XL & XU & CR & DL & DU). unfold vars_info, cons_info. split.
  - rewrite !repeat_encode. f_equal; apply put_x_encode; rewrite ?repeat_length; auto.
  - rewrite cons_blocks by assumption. f_equal. apply write_end; lia.
Qed.
Print Assumptions C37_bounds.

(** * C37: objective *)
(** The objective is 1000 times the sum of the parts plus zeta/2 times the squared distance
    to the reference point, weighted by min(1, 1/|reference|). *)
Theorem C37_objective : forall b k st p, caller_fits b k -> fits b p ->
  exists w st',
    (forall i r, at_ (k_x k) i r -> weight r (w i)) /\
    eval_f b k st (encode b p) =
      Some (1000 * (total (b_meq b) (fun i => nth i (ppe p) 0 + nth i (pne p) 0) +
                    total (b_mineq b) (fun i => nth i (ppi p) 0 + nth i (pni p) 0)) +
            s_zeta st / 2 * total (n_x (b_kind b)) (fun i => (w i * (nth i (px p) 0 - nth i (k_x k) 0)) ^ 2), st').
Proof.
  intros b k st p KF F. exists (fun i => dr1 (nth i (k_x k) 0)). eexists. split.
  - intros i r A. destruct (nth_at _ _ _ A) as [_ <-]. apply dr1_weight.
  - rewrite (eval_f_encode b k st KF p F). f_equal. f_equal.
    destruct F as (A & B & C & D & E). unfold obj. rewrite !total_plus, !vsum_total, B, C, D, E. f_equal.
    + unfold rho. ring.
    + f_equal. apply total_ext. intros i H. unfold Rsqr. ring.
Qed.
Print Assumptions C37_objective.

(** The gradient and the added diagonal of the Hessian are those of that objective: the
    objective is the quadratic they describe, exactly, between any two points. *)
Theorem C37_derivatives : forall b k st p q of lam, caller_fits b k -> fits b p -> fits b q ->
  length lam = (b_meq b + b_mineq b)%nat ->
  exists fp fq stp stq g H D,
    eval_f b k st (encode b p) = Some (fp, stp) /\ eval_f b k st (encode b q) = Some (fq, stq) /\
    eval_grad b k st (encode b p) = Some g /\ length g = length (encode b p) /\
    eval_hess b k st (encode b p) of lam = Some (H, D) /\ length D = n_x (b_kind b) /\
    H = b_hess b (px p) 0 (firstn (b_meq b) lam) (skipn (b_meq b) lam) /\
    fq - fp = total (length g) (fun i => nth i g 0 * (nth i (encode b q) 0 - nth i (encode b p) 0)) +
              / 2 * total (n_x (b_kind b)) (fun i => nth i D 0 * (nth i (px q) 0 - nth i (px p) 0) ^ 2).
Proof.
  intros b k st p q of lam KF F G L.
  assert (FG : fits b (Pt (gradx k st p) (repeat rho (b_meq b)) (repeat rho (b_meq b))
        (repeat rho (b_mineq b)) (repeat rho (b_mineq b)))).
  { unfold fits. cbn [px ppe pne ppi pni]. rewrite !repeat_length.
    rewrite (gradx_len b k st KF p F). auto. }
  do 7 eexists. split; [exact (eval_f_encode b k st KF p F)|].
  split; [exact (eval_f_encode b k st KF q G)|].
  split; [exact (eval_grad_encode b k st KF p F)|].
  split; [rewrite (encode_length b _ FG), (encode_length b p F); reflexivity|].
  split; [exact (eval_hess_encode b k st p of lam F L)|].
  split; [exact (hdiag_len b k st KF)|]. split; [reflexivity|].
  rewrite (encode_length b _ FG). rewrite (taylor b k st p q KF F G). f_equal. f_equal.
  apply total_ext. intros i H. unfold Rsqr. ring.
Qed.
Print Assumptions C37_derivatives.

(** The diagonal does not depend on the factor that the solver asks for: the Hessian handed
    back is that of 1 times the objective whatever the factor. *)
Theorem C37_hessian_factor_refuted : ~ (forall b k st p of of' lam H D H' D', caller_fits b k -> fits b p ->
  length lam = (b_meq b + b_mineq b)%nat ->
  eval_hess b k st (encode b p) of lam = Some (H, D) ->
  eval_hess b k st (encode b p) of' lam = Some (H', D') ->
  forall i, (i < n_x (b_kind b))%nat -> of * nth i D' 0 = of' * nth i D 0).
Proof.
  intros A.
  set (b := Base (Front 1) 0 0 (fun _ => 0) (fun _ => []) (fun _ => []) (fun _ _ _ _ _ _ => 0) [0] [1] [] [] []).
  set (k := Caller [0] [] [0] [0] [] [] [] [] 0 1).
  set (p := Pt [0] [] [] [] []).
  assert (KF : caller_fits b k) by (unfold caller_fits; cbn; lia).
  assert (F : fits b p) by (unfold fits; cbn; lia).
  set (st := State 1 1 None None).
  pose proof (eval_hess_encode b k st p 1 [] F eq_refl) as E1.
  pose proof (eval_hess_encode b k st p 2 [] F eq_refl) as E2.
  specialize (A b k st p 1 2 [] _ _ _ _ KF F eq_refl E1 E2 0%nat (Nat.lt_0_succ 0)).
  assert (P : (0 < 1)%nat) by lia.
  rewrite (hdiag_nth b k st KF 0 P) in A.
  cbn [k_x k nth s_zeta st] in A. unfold dr1 in A. destruct (Req_EM_T 0 0) as [_|N]; [lra|now apply N].
Qed.
Print Assumptions C37_hessian_factor_refuted.

(** * C37: constraints *)
Theorem C37_constraints : forall b p, base_fits b -> fits b p ->
  exists v, eval_cons b (encode b p) = Some v /\ length v = (b_meq b + b_mineq b)%nat /\
    (forall i, (i < b_meq b)%nat ->
       nth i v 0 = nth i (b_c b (px p)) 0 - nth i (ppe p) 0 + nth i (pne p) 0) /\
    (forall i, (i < b_mineq b)%nat ->
       nth (b_meq b + i) v 0 = nth i (b_d b (px p)) 0 - nth i (ppi p) 0 + nth i (pni p) 0).
Proof.
  intros b p BF F.
  set (u := map (fun i => nth i (b_c b (px p)) 0 - nth i (ppe p) 0 + nth i (pne p) 0) (seq 0 (b_meq b))).
  set (v := map (fun i => nth i (b_d b (px p)) 0 - nth i (ppi p) 0 + nth i (pni p) 0) (seq 0 (b_mineq b))).
  assert (NTH : forall (f : nat -> R) n i, (i < n)%nat -> nth i (map f (seq 0 n)) 0 = f i).
  { intros f n i H. rewrite (nth_indep _ 0 (f 0%nat)) by (rewrite map_length, seq_length; exact H).
    rewrite map_nth, seq_nth by exact H. reflexivity. }
  assert (U : length u = b_meq b) by (unfold u; rewrite map_length, seq_length; reflexivity).
  assert (V : length v = b_mineq b) by (unfold v; rewrite map_length, seq_length; reflexivity).
  exists (u ++ v). split.
  - apply eval_cons_is; auto; intros i H; symmetry; [unfold u|unfold v]; rewrite NTH by exact H; reflexivity.
  - split; [rewrite app_length; lia|]. split; intros i H.
    + rewrite app_nth1 by lia. unfold u. now rewrite NTH.
    + rewrite app_nth2 by lia. replace (b_meq b + i - length u)%nat with i by lia.
      unfold v. now rewrite NTH.
Qed.
Print Assumptions C37_constraints.

(** * C37: starting point *)
(** All parts of a point are strictly positive, and each pair balances the barrier terms of
    the penalty: mu/p + mu/n = 2*1000. *)
Definition central (mu : R) (p : point) : Prop :=
  (forall i, (i < length (ppe p))%nat -> 0 < nth i (ppe p) 0 /\ 0 < nth i (pne p) 0 /\
     mu / nth i (ppe p) 0 + mu / nth i (pne p) 0 = 2000) /\
  (forall i, (i < length (ppi p))%nat -> 0 < nth i (ppi p) 0 /\ 0 < nth i (pni p) 0 /\
     mu / nth i (ppi p) 0 + mu / nth i (pni p) 0 = 2000).
(** Entrywise product of the parts of two points is mu. *)
Definition complementary (mu : R) (p z : point) : Prop :=
  (forall i, (i < length (ppe p))%nat -> nth i (ppe p) 0 * nth i (ppe z) 0 = mu /\ nth i (pne p) 0 * nth i (pne z) 0 = mu) /\
  (forall i, (i < length (ppi p))%nat -> nth i (ppi p) 0 * nth i (ppi z) 0 = mu /\ nth i (pni p) 0 * nth i (pni z) 0 = mu).

Lemma balance : forall mu p n, 0 < p -> 0 < n -> 2 * rho * p * n = mu * (p + n) -> mu / p + mu / n = 2000.
Proof.
  intros mu p n P N E. apply (Rmult_eq_reg_r (p * n)); [|assert (0 < p * n) by (apply Rmult_lt_0_compat; lra); lra].
  unfold rho in E. replace ((mu / p + mu / n) * (p * n)) with (mu * (p + n)) by (field; lra). rewrite <- E. ring.
Qed.

Lemma parts : forall mu r p n, 0 < mu -> length p = length r -> length n = length r ->
  (forall i, (i < length r)%nat -> nth i n 0 = n1 mu (nth i r 0)) ->
  (forall i, (i < length r)%nat -> nth i p 0 = nth i r 0 + n1 mu (nth i r 0)) ->
  forall i, (i < length p)%nat -> 0 < nth i p 0 /\ 0 < nth i n 0 /\ mu / nth i p 0 + mu / nth i n 0 = 2000.
Proof.
  intros mu r p n M LP LN HN HP i H. rewrite HP, HN by lia.
  destruct (split_entry mu (nth i r 0) M) as (A & B & C). split; [exact B|]. split; [exact A|].
  apply balance; assumption.
Qed.

Theorem C37_start : forall b k st, base_fits b -> caller_fits b k -> stored_is_current b k -> 0 < s_mu st ->
  exists w p z,
    warmstart b k st = Some w /\
    fits b p /\ w_x w = encode b p /\ px p = k_x k /\ central (s_mu st) p /\
    eval_cons b (w_x w) = Some (b_crhs b ++ k_s k) /\ w_s w = k_s k /\
    fits b z /\ w_zl w = encode b z /\ complementary (s_mu st) p z /\
    px z = map (fun a => Rmin a 1000) (k_zl k) /\
    w_zu w = encode b (Pt (map (fun a => Rmin a 1000) (k_zu k)) (repeat 0 (b_meq b)) (repeat 0 (b_meq b))
                          (repeat 0 (b_mineq b)) (repeat 0 (b_mineq b))) /\
    w_lam w = repeat 0 (b_meq b + b_mineq b) /\
    w_vl w = map (fun a => Rmin a 1000) (k_vl k) /\ w_vu w = map (fun a => Rmin a 1000) (k_vu k).
Proof.
  intros b k st BF KF [SC SD] M.
  pose proof KF as (X & ZL & ZU & S & VL & VU & C & D).
  pose proof BF as (BC & XL & XU & CR & _).
  unfold warmstart.
  set (rc := axpy (-1) (b_crhs b) (k_c k)). set (rd := axpy (-1) (k_s k) (k_d k)).
  assert (RC : length rc = b_meq b) by (unfold rc; rewrite axpy_length; lia).
  assert (RD : length rd = b_mineq b) by (unfold rd; rewrite axpy_length; lia).
  destruct (split_pn_is (s_mu st) rc) as (pe & ne & -> & PE & NE & HNE & HPE).
  destruct (split_pn_is (s_mu st) rd) as (pi & ni & -> & PI & NI & HNI & HPI).
  set (p := Pt (k_x k) pe ne pi ni).
  assert (F : fits b p) by (unfold fits; cbn; lia).
  set (z := Pt (clip (k_zl k)) (barrier_dual (s_mu st) pe) (barrier_dual (s_mu st) ne)
              (barrier_dual (s_mu st) pi) (barrier_dual (s_mu st) ni)).
  assert (FZ : fits b z) by (unfold fits; cbn [px ppe pne ppi pni z]; rewrite ?clip_len, ?bdual_len; lia).
  pose proof (parts _ rc pe ne M PE NE HNE HPE) as P1.
  pose proof (parts _ rd pi ni M PI NI HNI HPI) as P2.
  exists (Warm (assemble b (k_x k) pe ne pi ni (repeat 0 (n_fr (b_kind b) (b_meq b) (b_mineq b))))
     (assemble b (clip (k_zl k)) (barrier_dual (s_mu st) pe) (barrier_dual (s_mu st) ne)
        (barrier_dual (s_mu st) pi) (barrier_dual (s_mu st) ni) (repeat 0 (n_fr (b_kind b) (b_meq b) (b_mineq b))))
     (put_x b (clip (k_zu k)) (repeat 0 (n_fr (b_kind b) (b_meq b) (b_mineq b))))
     (repeat 0 (b_meq b + b_mineq b)) (k_s k) (clip (k_vl k)) (clip (k_vu k))), p, z.
  split; [reflexivity|]. cbn [w_x w_zl w_zu w_lam w_s w_vl w_vu]. rewrite !repeat_encode.
  rewrite (assemble_encode b _ _ _ _ _ _ _ _ _ _ (fits_repeat b 0) F).
  split; [exact F|]. split; [reflexivity|]. split; [reflexivity|].
  split; [split; [exact P1|exact P2]|].
  split.
  { apply eval_cons_is; auto; cbn [px ppe pne ppi pni p].
    - intros i H. rewrite HPE, HNE by lia. rewrite <- SC. unfold rc. rewrite axpy_nth by lia. ring.
    - intros i H. rewrite HPI, HNI by lia. rewrite <- SD. unfold rd. rewrite axpy_nth by lia. ring. }
  split; [reflexivity|]. split; [exact FZ|].
  rewrite (assemble_encode b _ _ _ _ _ _ _ _ _ _ (fits_repeat b 0) FZ).
  split; [reflexivity|]. split.
  { split; cbn [ppe pne ppi pni p z]; intros i H.
    - destruct (P1 i H) as (U & V & _). split; rewrite Rmult_comm; apply bdual_nth; lia || lra.
    - destruct (P2 i H) as (U & V & _). split; rewrite Rmult_comm; apply bdual_nth; lia || lra. }
  split; [reflexivity|]. split.
  { apply put_x_encode; rewrite ?repeat_length, ?clip_len; auto. }
  auto.
Qed.
Print Assumptions C37_start.

(** The setting has non-trivial instances: one sparse and one dense variable, c = x + y = 1,
    d = x - y with slack 0, reference point (2, 0). *)
Definition ex_b : base := Base (Mds 1 1) 1 1 (fun x => nth 0 x 0)
  (fun x => [nth 0 x 0 + nth 1 x 0]) (fun x => [nth 0 x 0 - nth 1 x 0])
  (fun _ _ _ _ _ _ => 0) [0; 0] [5; 5] [1] [-1] [1].
Definition ex_k : caller := Caller [2; 0] [0] [1; 2000] [0; 0] [0] [0] [2] [2] 2 1.
Lemma ex_fits : base_fits ex_b /\ caller_fits ex_b ex_k /\ stored_is_current ex_b ex_k.
Proof.
  split; [|split].
  - unfold base_fits. cbn. repeat split; reflexivity.
  - unfold caller_fits. cbn. lia.
  - unfold stored_is_current. cbn. split; f_equal; ring.
Qed.
Example C37_layout_case : encode ex_b (Pt [1; 2] [3] [4] [5] [6]) = [1; 3; 4; 5; 6; 2] /\
  fits ex_b (Pt [1; 2] [3] [4] [5] [6]) /\ length [1; 3; 4; 5; 6; 2] = (2 + 2 * 1 + 2 * 1)%nat.
Proof. unfold fits. cbn. repeat split; reflexivity. Qed.
Example C37_start_case : exists w p, warmstart ex_b ex_k (init ex_k) = Some w /\ w_x w = encode ex_b p /\
  fits ex_b p /\ central 2 p /\ eval_cons ex_b (w_x w) = Some [1; 0].
Proof.
  destruct ex_fits as (A & B & C).
  assert (M : s_mu (init ex_k) = 2) by (cbn; apply Rmax_right; lra).
  assert (P : 0 < s_mu (init ex_k)) by (rewrite M; lra).
  destruct (C37_start _ _ _ A B C P) as (w & p & z & W & F & E & _ & CE & V & _).
  rewrite M in CE. exists w, p. auto.
Qed.
Example C37_objective_case : exists st', eval_f ex_b ex_k (State 4 2 None None) [1; 3; 4; 5; 6; 2] = Some (18000 + 17 / 4, st').
Proof.
  destruct ex_fits as (A & B & C).
  assert (F : fits ex_b (Pt [1; 2] [3] [4] [5] [6])) by (unfold fits; cbn; auto).
  destruct (C37_objective ex_b ex_k (State 4 2 None None) _ B F) as (w & st' & HW & E).
  exists st'. change [1; 3; 4; 5; 6; 2] with (encode ex_b (Pt [1; 2] [3] [4] [5] [6])). rewrite E.
  f_equal. f_equal. pose proof (HW 0%nat 2 eq_refl) as [_ W0]. pose proof (HW 1%nat 0 eq_refl) as [W1 _].
  rewrite Rabs_right in W0 by lra. rewrite Rabs_R0 in W1.
  assert (V0 : w 0%nat = / 2) by lra. assert (V1 : w 1%nat = 1) by (apply W1; lra).
  cbn. rewrite V0, V1. field.
Qed.

(** * C62: the fall-back used when restoration itself is stuck *)
(** With the constraint values of the kept point stored, the recomputed parts make every
    constraint of the restoration problem hold exactly, and are positive and central. *)
Theorem C62_force_update_partial : forall b k st p, base_fits b -> caller_fits b k -> fits b p -> 0 < s_mu st ->
  k_c k = b_c b (px p) -> k_d k = b_d b (px p) ->
  exists q, force_update b k st (encode b p) = Some (encode b q) /\ fits b q /\ px q = px p /\
    central (s_mu st) q /\ eval_cons b (encode b q) = Some (b_crhs b ++ k_s k).
Proof.
  intros b k st p BF KF F M SC SD.
  pose proof KF as (X & ZL & ZU & S & VL & VU & C & D).
  pose proof BF as (BC & XL & XU & CR & _).
  unfold force_update. rewrite (encode_length b p F), Nat.eqb_refl, (get_x_encode b p F).
  set (rc := axpy (-1) (b_crhs b) (k_c k)). set (rd := axpy (-1) (k_s k) (k_d k)).
  assert (RC : length rc = b_meq b) by (unfold rc; rewrite axpy_length; lia).
  assert (RD : length rd = b_mineq b) by (unfold rd; rewrite axpy_length; lia).
  destruct (split_pn_is (s_mu st) rc) as (pe & ne & -> & PE & NE & HNE & HPE).
  destruct (split_pn_is (s_mu st) rd) as (pi & ni & -> & PI & NI & HNI & HPI).
  set (q := Pt (px p) pe ne pi ni).
  pose proof (fits_nx b p F) as FX.
  assert (G : fits b q) by (unfold fits; cbn; lia).
  exists q. split.
  { destruct p as [x0 pe0 ne0 pi0 ni0]. f_equal. exact (assemble_encode b _ _ _ _ _ _ _ _ _ _ F G). }
  split; [exact G|]. split; [reflexivity|]. split.
  { split; [exact (parts _ rc pe ne M PE NE HNE HPE)|exact (parts _ rd pi ni M PI NI HNI HPI)]. }
  apply eval_cons_is; auto; cbn [px ppe pne ppi pni q].
  - intros i H. rewrite HPE, HNE by lia. rewrite <- SC. unfold rc. rewrite axpy_nth by lia. ring.
  - intros i H. rewrite HPI, HNI by lia. rewrite <- SD. unfold rd. rewrite axpy_nth by lia. ring.
Qed.
Print Assumptions C62_force_update_partial.

(** The stored values are those of the point at which restoration began, so at any other point
    the constraints need not hold afterwards. *)
Theorem C62_force_update_refuted : ~ (forall b k st p q, base_fits b -> caller_fits b k ->
  stored_is_current b k -> fits b p -> 0 < s_mu st ->
  force_update b k st (encode b p) = Some (encode b q) -> fits b q ->
  eval_cons b (encode b q) = Some (b_crhs b ++ k_s k)).
Proof.
  intros A.
  set (b := Base (Front 1) 1 0 (fun _ => 0) (fun x => [nth 0 x 0]) (fun _ => [])
              (fun _ _ _ _ _ _ => 0) [0] [9] [0] [] []).
  set (k := Caller [1] [] [0] [0] [] [] [1] [] 1 1).
  set (p := Pt [5] [1] [1] [] []).
  assert (BF : base_fits b) by (unfold base_fits; cbn; repeat split; reflexivity).
  assert (KF : caller_fits b k) by (unfold caller_fits; cbn; lia).
  assert (SC : stored_is_current b k) by (split; reflexivity).
  assert (F : fits b p) by (unfold fits; cbn; lia).
  assert (M : 0 < s_mu (init k)) by (cbn; rewrite Rmax_left; lra).
  pose proof (A b k (init k) p) as A'.
  unfold force_update in A'. rewrite (encode_length b p F), Nat.eqb_refl, (get_x_encode b p F) in A'.
  destruct (split_pn_is (s_mu (init k)) (axpy (-1) (b_crhs b) (k_c k))) as (pe & ne & E1 & PE & NE & HNE & HPE).
  destruct (split_pn_is (s_mu (init k)) (axpy (-1) (k_s k) (k_d k))) as (pi & ni & E2 & PI & NI & _).
  rewrite E1, E2 in A'. specialize (A' (Pt (px p) pe ne pi ni) BF KF SC F M).
  assert (G : fits b (Pt (px p) pe ne pi ni)).
  { unfold fits. cbn in PE, NE, PI, NI |- *. rewrite PE, NE, PI, NI. auto. }
  pose proof (assemble_encode b [5] [1] [1] [] [] (px p) pe ne pi ni F G) as AE.
  change (Pt [5] [1] [1] [] []) with p in AE.
  rewrite AE in A'. specialize (A' eq_refl G).
  rewrite (eval_cons_encode b BF _ G) in A'. injection A' as A'.
  apply (f_equal (fun l => nth 0 l 0)) in A'. revert A'.
  cbn [length axpy zip b_crhs b k_c k] in PE, NE, HNE, HPE.
  specialize (HNE 0%nat (Nat.lt_0_succ 0)). specialize (HPE 0%nat (Nat.lt_0_succ 0)).
  destruct pe as [|a [|]]; cbn in PE; try lia. destruct ne as [|c [|]]; cbn in NE; try lia.
  cbn in HNE, HPE. subst c a. cbn. lra.
Qed.
Print Assumptions C62_force_update_refuted.
Example C62_case : exists q, force_update ex_b ex_k (init ex_k) [2; 7; 7; 7; 7; 0] = Some (encode ex_b q) /\
  px q = [2; 0] /\ eval_cons ex_b (encode ex_b q) = Some [1; 0].
Proof.
  destruct ex_fits as (A & B & C & D).
  assert (M : s_mu (init ex_k) = 2) by (cbn; apply Rmax_right; lra).
  assert (P : 0 < s_mu (init ex_k)) by (rewrite M; lra).
  assert (F : fits ex_b (Pt [2; 0] [7] [7] [7] [7])) by (unfold fits; cbn; auto).
  destruct (C62_force_update_partial ex_b ex_k (init ex_k) _ A B F P C D) as (q & E & _ & X & _ & V).
  exists q. auto.
Qed.

(** * C63: when restoration hands back control *)
(** The weighted displacement from the reference point. *)
Definition displaced (w : nat -> R) (k : caller) (x : list R) : list R :=
  map (fun a => w a * (nth a x 0 - nth a (k_x k) 0)) (seq 0 (length x)).
Definition weights (w : nat -> R) (k : caller) : Prop := forall a r, at_ (k_x k) a r -> weight r (w a).

Lemma weight_unique : forall r a c, weight r a -> weight r c -> a = c.
Proof.
  intros r a c [A1 A2] [C1 C2]. destruct (Rle_lt_dec (Rabs r) 1) as [L|L].
  - rewrite A1, C1 by exact L. reflexivity.
  - specialize (A2 L). specialize (C2 L). apply (Rmult_eq_reg_r (Rabs r)); lra.
Qed.
Lemma displaced_is : forall b k w p, caller_fits b k -> fits b p -> weights w k ->
  cmult (dr (k_x k)) (axpy (-1) (k_x k) (px p)) = displaced w k (px p).
Proof.
  intros b k w p KF F HW. pose proof (fits_nx b p F) as L. unfold displaced. apply list_eq_nth.
  - rewrite (wvec_len b k KF) by exact L. rewrite map_length, seq_length. auto.
  - intros i H. rewrite (wvec_len b k KF) in H by exact L. rewrite (wvec_nth b k KF) by assumption.
    set (g := fun a => w a * (nth a (px p) 0 - nth a (k_x k) 0)).
    rewrite (nth_indep (map g (seq 0 (length (px p)))) 0 (g 0%nat)) by (rewrite map_length, seq_length; lia).
    rewrite map_nth, seq_nth by lia. unfold g. cbn [plus].
    rewrite (weight_unique (nth i (k_x k) 0) (dr1 (nth i (k_x k) 0)) (w i) (dr1_weight _)); [ring|].
    apply HW. unfold at_. apply nth_error_nth'. destruct KF as (KX & _). lia.
Qed.

Lemma C63_gen : forall b k j w, base_fits b -> caller_fits b k -> weights w k -> 0 <= j_kappa j * k_nrm k ->
  forall l st n m st', iterates_fit b l ->
  solve b k j st n l = Some (Some m, st') ->
  exists r i p, (m = n + r)%nat /\ nth_error l r = Some i /\ (0 < m)%nat /\ fits b p /\ encode b p = i_y i /\
    s_last st' = Some (px p, i_s i) /\
    enough b (j_kappa j * k_nrm k) (px p) (i_s i) /\
    passes b j (px p) (i_s i) (b_f b (displaced w k (px p))) /\
    (forall r' i' p', (r' < r)%nat -> (0 < n + r')%nat -> nth_error l r' = Some i' -> fits b p' -> encode b p' = i_y i' ->
       enough b (j_kappa j * k_nrm k) (px p') (i_s i') ->
       ~ passes b j (px p') (i_s i') (b_f b (displaced w k (px p')))).
Proof.
  intros b k j w BF KF HW K0.
  induction l as [|i l IH]; intros st n m st' LF H; cbn [solve] in H; [discriminate|].
  destruct (LF i (or_introl eq_refl)) as [LY LS].
  destruct (eval_f b k st (i_y i)) as [[fv st1]|] eqn:EF; [|discriminate].
  destruct (callback b k j st1 n (i_y i) (i_s i) (i_mu i)) as [[go st2]|] eqn:EC; [|discriminate].
  pose proof (step_is b k j BF KF st i n (go, st2) LS) as X. rewrite EF in X. specialize (X EC).
  destruct X as (p & F & EP & X). cbv zeta in X. cbn [fst snd] in X.
  rewrite (displaced_is b k w p KF F HW) in X.
  destruct X as [(-> & ((W1 & W2 & W3) & IT & PS) & LA & _)|(-> & NOK & LA & _)].
  - injection H as <- <-. exists 0%nat, i, p.
    split; [lia|]. split; [reflexivity|]. split; [exact IT|]. split; [exact F|]. split; [exact EP|].
    split; [exact LA|]. split; [split; assumption|]. split; [exact PS|intros; lia].
  - destruct (IH st2 (S n) m st') as (r & i1 & p1 & M & NE & M0 & F1 & E1 & LA1 & EN & PS & EARLY).
    { intros i' I'. apply LF. right. exact I'. }
    { exact H. }
    exists (S r), i1, p1. split; [lia|]. split; [exact NE|]. split; [exact M0|].
    split; [assumption|]. split; [assumption|]. split; [assumption|]. split; [assumption|]. split; [assumption|].
    intros [|r'] i' p' R N0 NE' F' E' EN' PS'.
    + cbn in NE'. injection NE' as <-. rewrite <- EP in E'. apply (encode_inj b) in E'; auto. subst p'.
      apply NOK. destruct EN' as [EA EB]. split; [auto|]. split; [lia|exact PS'].
    + apply (EARLY r' i' p') ; auto; lia.
Qed.

(** If the restoration solve stops at an iterate, it is not the first one, the point kept is
    that iterate, its violation of the original constraints is at most kappa times the one at
    the start in every entry, and the filter lets it pass for the objective value that the
    restoration problem has recorded; and no iterate in between met these tests.
    What is missing for the full claim: the recorded objective is the original objective at
    the weighted displacement from the reference point, not at the point itself. *)
Theorem C63_stop_partial : forall b k j w l st m st', base_fits b -> caller_fits b k -> weights w k ->
  0 <= j_kappa j * k_nrm k -> iterates_fit b l ->
  solve b k j st 0 l = Some (Some m, st') ->
  exists i p, nth_error l m = Some i /\ (0 < m)%nat /\ fits b p /\ encode b p = i_y i /\
    s_last st' = Some (px p, i_s i) /\
    enough b (j_kappa j * k_nrm k) (px p) (i_s i) /\
    passes b j (px p) (i_s i) (b_f b (displaced w k (px p))) /\
    (forall m' i' p', (0 < m' < m)%nat -> nth_error l m' = Some i' -> fits b p' -> encode b p' = i_y i' ->
       enough b (j_kappa j * k_nrm k) (px p') (i_s i') ->
       ~ passes b j (px p') (i_s i') (b_f b (displaced w k (px p')))).
Proof.
  intros b k j w l st m st' BF KF HW K0 LF H.
  destruct (C63_gen b k j w BF KF HW K0 l st 0%nat m st' LF H)
    as (r & i & p & -> & NE & M0 & F & E & LA & EN & PS & EARLY).
  exists i, p. cbn [plus] in *. repeat (split; [assumption|]).
  intros m' i' p' [A B]. exact (EARLY m' i' p' B A).
Qed.
Print Assumptions C63_stop_partial.

(** If it does not stop, no iterate after the first met the tests, nothing is kept, and the
    weight of the distance term is the square root of the last reported barrier parameter. *)
Theorem C63_no_stop_partial : forall b k j w l st st', base_fits b -> caller_fits b k -> weights w k ->
  0 <= j_kappa j * k_nrm k -> iterates_fit b l ->
  solve b k j st 0 l = Some (None, st') ->
  s_last st' = s_last st /\
  (forall i, nth_error l (length l - 1) = Some i -> s_zeta st' = sqrt (i_mu i)) /\
  (forall m i p, (0 < m)%nat -> nth_error l m = Some i -> fits b p -> encode b p = i_y i ->
     enough b (j_kappa j * k_nrm k) (px p) (i_s i) ->
     ~ passes b j (px p) (i_s i) (b_f b (displaced w k (px p)))).
Proof.
  intros b k j w l st st' BF KF HW K0 LF H.
  cut (forall n, solve b k j st n l = Some (None, st') -> s_last st' = s_last st /\
    (forall i, nth_error l (length l - 1) = Some i -> s_zeta st' = sqrt (i_mu i)) /\
    (forall m i p, (0 < n + m)%nat -> nth_error l m = Some i -> fits b p -> encode b p = i_y i ->
     enough b (j_kappa j * k_nrm k) (px p) (i_s i) ->
     ~ passes b j (px p) (i_s i) (b_f b (displaced w k (px p))))).
  { intros C. destruct (C 0%nat H) as (A & B & D). auto. }
  clear H. revert st st' LF.
  induction l as [|i l IH]; intros st st' LF n H; cbn [solve] in H.
  { injection H as <-. split; [reflexivity|]. split; intros; [discriminate|]. destruct m; discriminate. }
  destruct (LF i (or_introl eq_refl)) as [LY LS].
  destruct (eval_f b k st (i_y i)) as [[fv st1]|] eqn:EF; [|discriminate].
  destruct (callback b k j st1 n (i_y i) (i_s i) (i_mu i)) as [[go st2]|] eqn:EC; [|discriminate].
  pose proof (step_is b k j BF KF st i n (go, st2) LS) as X. rewrite EF in X. specialize (X EC).
  destruct X as (p & F & EP & X). cbv zeta in X. cbn [fst snd] in X.
  rewrite (displaced_is b k w p KF F HW) in X.
  destruct X as [(-> & _)|(-> & NOK & LA & MU & ZE)]; [discriminate|].
  destruct (IH st2 st' (fun a I => LF a (or_intror I)) (S n) H) as (A & B & D).
  split; [congruence|]. split.
  - destruct l as [|i2 l].
    + cbn in H |- *. injection H as <-. intros i0 [= <-]. exact ZE.
    + intros i0. replace (length (i :: i2 :: l) - 1)%nat with (S (length (i2 :: l) - 1)) by (cbn; lia).
      exact (B i0).
  - intros [|m] i' p' N0 NE' F' E' EN' PS'.
    + cbn in NE'. injection NE' as <-. rewrite <- EP in E'. apply (encode_inj b) in E'; auto. subst p'.
      apply NOK. destruct EN' as [EA EB]. split; [auto|]. split; [lia|exact PS'].
    + apply (D m i' p'); auto; lia.
Qed.
Print Assumptions C63_no_stop_partial.

(** The point handed back can be one that the filter forbids: the caller resumes at a point
    whose true objective and violation its filter already contains. *)
Definition rf_b : base := Base (Front 1) 1 0 (fun x => nth 0 x 0) (fun x => [nth 0 x 0]) (fun _ => [])
  (fun _ _ _ _ _ _ => 0) [-9] [9] [0] [] [].
Definition rf_k : caller := Caller [2] [] [0] [0] [] [] [2] [] 2 1.
Definition rf_j : judge := Judge (fun _ _ f => f)
  (fun _ phi => if Rle_dec (- / 2) phi then true else false) (/ 2).
Definition rf_l : list iterate := [Iterate [2; 1; 1] [] 1; Iterate [0; 1; 1] [] 1].

Lemma rf_fits : base_fits rf_b /\ caller_fits rf_b rf_k /\ iterates_fit rf_b rf_l /\ 0 <= j_kappa rf_j * k_nrm rf_k.
Proof.
  split; [|split; [|split]].
  - unfold base_fits. cbn. repeat split; reflexivity.
  - unfold caller_fits. cbn. lia.
  - intros i [<-|[<-|[]]]; cbn; lia.
  - cbn. lra.
Qed.
Lemma rf_run : exists st', solve rf_b rf_k rf_j (init rf_k) 0 rf_l = Some (Some 1%nat, st') /\ s_last st' = Some ([0], []).
Proof.
  unfold rf_l. cbn [solve i_y i_s i_mu].
  unfold eval_f at 1. cbn [length Nat.eqb n_fr n_x b_kind rf_b b_meq b_mineq Nat.mul Nat.add].
  unfold callback at 1. cbn [length Nat.eqb n_fr n_x b_kind rf_b b_meq b_mineq Nat.mul Nat.add Nat.ltb Nat.leb].
  destruct (Rle_dec _ _) as [_|_]; cbn [solve i_y i_s i_mu].
  all: unfold eval_f at 1; cbn [length Nat.eqb n_fr n_x b_kind rf_b b_meq b_mineq Nat.mul Nat.add].
  all: unfold callback at 1; cbn [length Nat.eqb n_fr n_x b_kind rf_b b_meq b_mineq Nat.mul Nat.add Nat.ltb Nat.leb].
  all: destruct (Rle_dec _ _) as [_|N]; [|exfalso; apply N; cbn; apply Rmax_lub; try lra;
    apply Rmax_lub; [|lra]; replace (0 + -1 * 0) with 0 by ring; rewrite Rabs_R0; lra].
  all: cbn [s_objb rf_j j_filter j_logbar].
  all: destruct (Rle_dec (- / 2) _) as [Y|_]; [|eexists; split; reflexivity].
  all: exfalso; revert Y; cbn [rf_b b_f]; unfold read; cbn.
  all: pose proof (dr1_weight 2) as [_ W]; rewrite Rabs_right in W by lra; intros Y;
    assert (D : dr1 2 = / 2) by lra; rewrite D in Y; lra.
Qed.
Theorem C63_filter_refuted : ~ (forall b k j l m st' x s, base_fits b -> caller_fits b k ->
  iterates_fit b l -> 0 <= j_kappa j * k_nrm k ->
  solve b k j (init k) 0 l = Some (Some m, st') -> s_last st' = Some (x, s) ->
  passes b j x s (b_f b x)).
Proof.
  intros A. destruct rf_fits as (F1 & F2 & F3 & F4). destruct rf_run as (st' & R & L).
  specialize (A rf_b rf_k rf_j rf_l 1%nat st' [0] [] F1 F2 F3 F4 R L).
  unfold passes in A. cbn in A. destruct (Rle_dec (- / 2) 0) as [Y|N]; [discriminate|]. apply N. lra.
Qed.
Print Assumptions C63_filter_refuted.
Example C63_case : exists st' w, solve rf_b rf_k rf_j (init rf_k) 0 rf_l = Some (Some 1%nat, st') /\
  weights w rf_k /\ enough rf_b (/ 2 * 2) [0] [].
Proof.
  destruct rf_run as (st' & R & L). exists st', (fun a => dr1 (nth a (k_x rf_k) 0)). split; [exact R|]. split.
  - intros a r A. destruct (nth_at _ _ _ A) as [_ <-]. apply dr1_weight.
  - split; (split; [reflexivity|]).
    + intros [|[|i]] a c H H'; cbn in H, H'; try discriminate. injection H as <-. injection H' as <-.
      rewrite Rabs_right; lra.
    + intros [|i] a c H H'; discriminate.
Qed.
Example C63_no_stop_case : exists st', solve rf_b rf_k rf_j (init rf_k) 0 [Iterate [2; 1; 1] [] 4] = Some (None, st') /\
  s_zeta st' = sqrt 4.
Proof.
  cbn [solve i_y i_s i_mu].
  unfold eval_f at 1. cbn [length Nat.eqb n_fr n_x b_kind rf_b b_meq b_mineq Nat.mul Nat.add].
  unfold callback at 1. cbn [length Nat.eqb n_fr n_x b_kind rf_b b_meq b_mineq Nat.mul Nat.add Nat.ltb Nat.leb].
  destruct (Rle_dec _ _) as [_|_]; eexists; split; reflexivity.
Qed.
