From Coq Require Import List Bool Arith Reals Lia Lra.
From Verif Require Import RingKit InertiaModel InertiaProofs RecModel RecSpec RecProofs.
Import ListNotations.
Open Scope R_scope.

(** ** the convergence measures of two consecutive iterations *)
Section Meas.
Variables (n nS : nat) (idx : list nat).
Variables (basef : list R -> R) (rf : nat -> list R -> bool * R) (rg : nat -> list R -> bool * list R).
Variable sol : option evr -> list R.
Variable rule : rule_t.
Hypothesis Hn : (length idx < n)%nat \/ idx = seq 0 n.

Lemma grad_measure h k l a p q b gb total : NoDup idx ->
  run n nS idx basef rf rg sol rule h k = Some l -> l = a ++ p :: q :: b ->
  length (fst q) = n ->
  (forall i, (i < n)%nat -> ent gb i + spread idx (slope (o_e (snd p)) (fst q)) i = 0) ->
  length total = n ->
  (forall i, (i < n)%nat -> ent total i = ent gb i +
      spread idx (fun j => average nS (fun t => ent (snd (rg t (pick idx (fst q)))) j)) i) ->
  exists a1 a2 cf cg, e_h (o_e (snd p)) = repeat a1 (length idx) /\ e_h (o_e (snd q)) = repeat a2 (length idx) /\
    o_conv (snd q) = Some (cf, cg) /\
    norm2 (e_g (o_e (snd q))) <> 0 /\
    exists s, length s = length idx /\
      (forall j, (j < length idx)%nat -> ent s j = ent (fst q) (pos idx j) - ent (fst p) (pos idx j)) /\
      Rabs (cg * norm2 (e_g (o_e (snd q))) - norm2 total) <= Rabs (a2 - a1) * norm2 s.
Proof.
  intros Hd HR -> Hx Hst Ht Htot.
  pose proof (run_linked n nS idx basef rf rg sol rule h k _ a p q b Hn HR eq_refl) as HL.
  assert (Gp : good_out nS idx basef rf rg (fst p) (snd p)).
  { eapply run_good; eauto. apply in_or_app. right. left. reflexivity. }
  assert (Gq : good_out nS idx basef rf rg (fst q) (snd q)).
  { eapply run_good; eauto. apply in_or_app. right. right. left. reflexivity. }
  destruct Gp as (_ & _ & _ & Wp & Ip & _ & Xp & _ & _). destruct Gq as (Rq & _ & _ & Wq & Iq & _ & Xq & Gq & _).
  destruct HL as (_ & a1 & a2 & cf & cg & s & y & t & H1 & H2 & H3 & Ls & Ly & Lt & Vs & Vy & Vt & Hg & Hcg & _).
  exists a1, a2, cf, cg. split; [exact H1|]. split; [exact H2|]. split; [exact H3|]. split; [exact Hg|].
  exists s. split; [exact Ls|]. split.
  { intros j Hj. rewrite Vs, Xp, pick_ent by auto. reflexivity. }
  assert (Hc : cg * norm2 (e_g (o_e (snd q))) = norm2 t).
  { rewrite Hcg. field. exact Hg. }
  rewrite Hc.
  (* the true gradient has the norm of y - a1 s *)
  set (c := fun j => ent y j - a1 * ent s j).
  assert (Htc : forall i, (i < n)%nat -> ent total i = rsum (length idx) (fun j => if Nat.eqb i (pos idx j) then c j else 0)).
  { intros i Hi. rewrite Htot by auto. specialize (Hst i Hi).
    replace (ent gb i) with (- spread idx (slope (o_e (snd p)) (fst q)) i) by lra.
    unfold spread. rewrite <- (Rmult_1_l (rsum _ _)) at 1. rewrite Ropp_mult_distr_l, <- rsum_scale, <- rsum_add.
    apply rsum_ext. intros j Hj. destruct (Nat.eqb i (pos idx j)); [|ring].
    unfold c, slope. rewrite Vy, Vs, Gq, Ip, H1, ent_repeat by auto. ring. }
  assert (Hrn : in_range idx n) by (rewrite <- Hx; exact Rq).
  pose proof (scatter_sq idx n c total Hd Ht Hrn Htc) as Hsq.
  set (v := map c (seq 0 (length idx))).
  assert (Lv : length v = length idx) by (unfold v; rewrite map_length, seq_length; reflexivity).
  assert (Vv : forall j, (j < length idx)%nat -> ent v j = c j).
  { intros j Hj. unfold ent, v. rewrite (nth_indep _ 0 (c 0%nat)) by (rewrite map_length, seq_length; auto).
    rewrite map_nth, seq_nth by auto. reflexivity. }
  assert (Hv : norm2 total = norm2 v).
  { rewrite !norm2_sqrt, Hsq. f_equal. unfold sq. rewrite Lv. apply rsum_ext. intros j Hj. rewrite Vv by auto. reflexivity. }
  rewrite Hv.
  set (w := map (fun u => (a1 - a2) * u) s).
  assert (Lw : length w = length idx) by (unfold w; rewrite map_length; auto).
  assert (Vw : forall j, ent w j = (a1 - a2) * ent s j).
  { intro j. unfold ent, w. replace 0 with ((a1 - a2) * 0) at 1 by ring. apply (map_nth (fun u => (a1 - a2) * u)). }
  assert (Nw : norm2 w = Rabs (a2 - a1) * norm2 s).
  { rewrite Rabs_minus_sym. eapply norm2_scaled; eauto. }
  set (w' := map (fun u => (a2 - a1) * u) s).
  assert (Lw' : length w' = length idx) by (unfold w'; rewrite map_length; auto).
  assert (Vw' : forall j, ent w' j = (a2 - a1) * ent s j).
  { intro j. unfold ent, w'. replace 0 with ((a2 - a1) * 0) at 1 by ring. apply (map_nth (fun u => (a2 - a1) * u)). }
  assert (Nw' : norm2 w' = Rabs (a2 - a1) * norm2 s) by (eapply norm2_scaled; eauto).
  assert (T1 : norm2 t <= norm2 v + norm2 w).
  { eapply norm2_tri; eauto. intros i Hi. rewrite Vt, Vv, Vw by auto. unfold c. ring. }
  assert (T2 : norm2 v <= norm2 t + norm2 w').
  { eapply norm2_tri; eauto. intros i Hi. rewrite Vt, Vv, Vw' by auto. unfold c. ring. }
  apply Rabs_le. lra.
Qed.

Lemma fcn_measure h k l a p q b :
  run n nS idx basef rf rg sol rule h k = Some l -> l = a ++ p :: q :: b ->
  exists a1 a2 cf cg, e_h (o_e (snd p)) = repeat a1 (length idx) /\ e_h (o_e (snd q)) = repeat a2 (length idx) /\
    o_conv (snd q) = Some (cf, cg) /\
    exists s f0 f1, length s = length idx /\
      (forall j, (j < length idx)%nat -> ent s j = ent (fst q) (pos idx j) - ent (fst p) (pos idx j)) /\
      eval_f (o_e (snd p)) (fst p) (basef (fst p)) = Some f0 /\
      eval_f (o_e (snd p)) (fst q) (basef (fst q)) = Some f1 /\
      Rabs (cf - Rabs (f1 - f0)) <= / 2 * Rabs (a2 - a1) * sq s.
Proof.
  intros HR ->.
  pose proof (run_linked n nS idx basef rf rg sol rule h k _ a p q b Hn HR eq_refl) as HL.
  assert (Gp : good_out nS idx basef rf rg (fst p) (snd p)).
  { eapply run_good; eauto. apply in_or_app. right. left. reflexivity. }
  assert (Gq : good_out nS idx basef rf rg (fst q) (snd q)).
  { eapply run_good; eauto. apply in_or_app. right. right. left. reflexivity. }
  destruct Gp as (Rp & Bp & _ & Wp & Ip & _ & Xp & _ & _). destruct Gq as (Rq & Bq & _ & Wq & Iq & _ & Xq & Gq & _).
  destruct HL as (_ & a1 & a2 & cf & cg & s & y & t & H1 & H2 & H3 & Ls & Ly & Lt & Vs & Vy & Vt & Hg & Hcg & Hcf).
  exists a1, a2, cf, cg. split; [exact H1|]. split; [exact H2|]. split; [exact H3|].
  exists s, (basef (fst p) + quad idx (e_val (o_e (snd p))) (e_g (o_e (snd p))) (e_h (o_e (snd p))) (e_x0 (o_e (snd p))) (fst p)),
    (basef (fst q) + quad idx (e_val (o_e (snd p))) (e_g (o_e (snd p))) (e_h (o_e (snd p))) (e_x0 (o_e (snd p))) (fst q)).
  split; [exact Ls|]. split.
  { intros j Hj. rewrite Vs, Xp, pick_ent by auto. reflexivity. }
  split. { rewrite eval_f_ok; [rewrite Ip; reflexivity|exact Wp|rewrite Ip; exact Rp]. }
  split. { rewrite eval_f_ok; [rewrite Ip; reflexivity|exact Wp|rewrite Ip; exact Rq]. }
  assert (Q0 : quad idx (e_val (o_e (snd p))) (e_g (o_e (snd p))) (e_h (o_e (snd p))) (e_x0 (o_e (snd p))) (fst p) = e_val (o_e (snd p))).
  { unfold quad. rewrite Xp. rewrite !rsum_zero; [ring| |]; intros j Hj; rewrite pick_ent by auto; ring. }
  assert (Q1 : quad idx (e_val (o_e (snd p))) (e_g (o_e (snd p))) (e_h (o_e (snd p))) (e_x0 (o_e (snd p))) (fst q)
     = e_val (o_e (snd p)) + inner (e_g (o_e (snd p))) s + / 2 * a1 * sq s).
  { unfold quad. f_equal.
    - f_equal. unfold inner. destruct Wp as (W1 & _). rewrite W1, Ip. apply rsum_ext. intros j Hj. rewrite Vs by auto. reflexivity.
    - rewrite Rmult_assoc. f_equal. unfold sq. rewrite Ls, <- rsum_scale. apply rsum_ext. intros j Hj.
      rewrite Vs, H1, ent_repeat by auto. reflexivity. }
  rewrite Q0, Q1, Hcf, Bp, Bq.
  set (X := basef (fst q) + (e_val (o_e (snd p)) + inner (e_g (o_e (snd p))) s + / 2 * a1 * sq s) - (basef (fst p) + e_val (o_e (snd p)))).
  set (Y := inner (e_g (o_e (snd p))) s + / 2 * a2 * sq s + (basef (fst q) - basef (fst p))).
  pose proof (Rabs_triang_inv2 Y X) as HT. eapply Rle_trans; [exact HT|].
  replace (Y - X) with ((a2 - a1) * (/ 2 * sq s)) by (unfold X, Y; ring).
  rewrite Rabs_mult, (Rabs_right (/ 2 * sq s)); [lra|]. pose proof (sq_nonneg s). lra.
Qed.
End Meas.

(** ** one-dimensional runs, for the concrete cases *)
Lemma norm2_one v : norm2 [v] = Rabs v.
Proof. rewrite norm2_sqrt. unfold sq. cbn. rewrite Rplus_0_l. apply sqrt_Rsqr_abs. Qed.
Lemma run1 basef rf rg sol l h x r g f ratio :
  sol None = [x] -> rf 0%nat [x] = (true, r) -> rg 0%nat [x] = (true, [g]) -> r <> 0 ->
  h_ratio h = ratio ->
  let a := rmin (l_amax l) (rmax (l_amin l) (g * g / 2 / r * ratio)) in
  let e := Evr [0%nat] r [g] [a] [x] None in
  eval_f e (sol (Some e)) (basef (sol (Some e))) = Some f ->
  pass 1 1 [0%nat] basef rf rg sol (code_rule l) true (start [0%nat] basef sol h)
  = Some (Pst (sol (Some e)) f (basef [x]) (Hst r (h_fkm1 h) (h_lin h) (h_s h) (h_y h) [x] [g] a ratio) e,
          Out (basef [x]) r None e).
Proof.
  intros Hs Hr Hg Hr0 Hh a e Hf. unfold pass, start. rewrite Hs. cbn [p_x p_h p_e p_base]. unfold coupled. cbn [length Nat.ltb Nat.leb Nat.eqb].
  unfold terms. cbn [seq ofold snd fst length repeat]. rewrite Hr, Hg. cbn [snd fst axpy map].
  replace ((0 + r) / INR 1) with r by (change (INR 1) with 1; field).
  replace (1 / INR 1 * (0 + 1 * g)) with g by (change (INR 1) with 1; field).
  unfold code_rule, alpha_f, initialize. cbn [h_fk h_ratio]. destruct (Req_EM_T r 0) as [|_]; [contradiction|].
  rewrite Hh. rewrite norm2_one. replace (Rabs g * Rabs g) with (g * g) by (rewrite <- Rabs_mult; symmetry; apply Rabs_right; nra).
  fold a. unfold set_alpha. cbn [fst snd h_fk h_fkm1 h_lin h_s h_y h_x h_g h_alpha h_ratio].
  unfold set_x0, set_rhess, set_rgrad, set_rval, evr_new. cbn [e_idx e_val e_g e_h e_x0 e_work repeat length].
  unfold master. fold e. rewrite Hf. reflexivity.
Qed.
Lemma run1s basef rf rg sol l x o bm1 f0 fm lin0 s0 y0 xp gp a0 rt v0 gg hh xx r g f :
  rf 0%nat [x] = (true, r) -> rg 0%nat [x] = (true, [g]) -> r <> 0 -> g <> 0 ->
  let s := x - xp in
  let y := g - gp in
  let pred := f0 + gp * s + / 2 * a0 * (s * s) in
  let base := o - pred in
  f0 + bm1 - pred - base <> 0 ->
  let rt' := ratio_tr l ((bm1 + f0 - r - base) / (f0 + bm1 - pred - base)) rt in
  let a := rmin (l_amax l) (rmax (l_amin l) (g * g / 2 / r * rt')) in
  let e := Evr [0%nat] r [g] [a] [x] None in
  eval_f e (sol (Some e)) (basef (sol (Some e))) = Some f ->
  exists s' cf,
  pass 1 1 [0%nat] basef rf rg sol (code_rule l) false
    (Pst [x] o bm1 (Hst f0 fm lin0 s0 y0 [xp] [gp] a0 rt) (Evr [0%nat] v0 gg hh xx None))
  = Some (s', Out base r (Some (cf, Rabs (y - a * s) / Rabs g)) e).
Proof.
  intros Hr Hg Hr0 Hg0 s y pred base Hden rt' a e Hf. unfold pass. cbn [p_x p_h p_e p_base p_obj].
  unfold coupled. cbn [length Nat.ltb Nat.leb Nat.eqb].
  unfold terms. cbn [seq ofold snd fst length repeat]. rewrite Hr, Hg. cbn [snd fst axpy map].
  replace ((0 + r) / INR 1) with r by (change (INR 1) with 1; field).
  replace (1 / INR 1 * (0 + 1 * g)) with g by (change (INR 1) with 1; field).
  unfold update_hess_coeff. cbn [h_x h_g axpy dotp h_fk h_alpha h_ratio].
  replace (x + -1 * xp) with s by (unfold s; ring). replace (g + -1 * gp) with y by (unfold y; ring).
  unfold code_rule, update_ratio, compute_base, predicted. cbn [h_fkm1 h_lin h_alpha h_s h_fk h_ratio].
  rewrite norm2_one.
  replace (f0 + (gp * s + 0) + / 2 * a0 * Rabs s * Rabs s) with pred.
  2: { assert (Hab : Rabs s * Rabs s = s * s) by (rewrite <- Rabs_mult; apply Rabs_right; nra).
       unfold pred. rewrite (Rmult_assoc (/ 2 * a0) (Rabs s)), Hab. ring. }
  fold base. destruct (Req_EM_T (f0 + bm1 - pred - base) 0) as [|_]; [contradiction|]. fold rt'.
  unfold alpha_f. cbn [h_fk]. destruct (Req_EM_T r 0) as [|_]; [contradiction|].
  rewrite norm2_one. replace (Rabs g * Rabs g) with (g * g) by (rewrite <- Rabs_mult; symmetry; apply Rabs_right; nra).
  fold a. unfold set_alpha, convergence_grad. cbn [fst snd h_fk h_fkm1 h_lin h_s h_y h_x h_g h_alpha h_ratio map axpy].
  rewrite !norm2_one. destruct (Req_EM_T (Rabs g) 0) as [Hz|_]; [exfalso; apply Hg0; destruct (Req_dec g 0); auto; apply Rabs_no_R0 in H; contradiction|].
  unfold set_x0, set_rhess, set_rgrad, set_rval. cbn [e_idx e_val e_g e_h e_x0 e_work repeat length h_alpha].
  unfold master. fold e. rewrite Hf.
  replace (- a * s + 1 * y) with (y - a * s) by ring.
  eexists _, _. reflexivity.
Qed.
