From Coq Require Import List Reals Lra.
From Verif Require Import VecModel ErrModel LogBarModel LogBarSpec.
Import ListNotations.
Open Scope R_scope.

Lemma req_true a b : req a b = true <-> a = b. Proof. unfold req. destruct (Req_EM_T a b); split; intro; auto; discriminate. Qed.
Lemma req_false a b : req a b = false <-> a <> b. Proof. unfold req. destruct (Req_EM_T a b); split; intro; auto; try discriminate; contradiction. Qed.
Ltac rq := repeat match goal with
  | |- context [req ?a ?b] => let H := fresh "Q" in destruct (req a b) eqn:H; [apply req_true in H|apply req_false in H]
  | |- context [Req_EM_T ?a ?b] => destruct (Req_EM_T a b) end.

Definition patbit (v : bvar) : Prop := (b_il v = 0 \/ b_il v = 1) /\ (b_iu v = 0 \/ b_iu v = 1).
Lemma inside_bit v : inside v -> patbit v. Proof. unfold inside, patbit. tauto. Qed.

Lemma kahan l : forall s, fold_left (fun sc p => if req (snd p) 1 then
      let y := ln (fst p) - snd sc in let t := fst sc + y in (t, (t - fst sc) - y) else sc) l (s, 0)
  = (s + rsum (map (fun p : R * R => when (snd p) (ln (fst p))) l), 0).
Proof.
  induction l as [|p l IH]; intro s; cbn [fold_left map rsum]; [f_equal; lra|].
  unfold when at 1. unfold req at 2. destruct (Req_EM_T (snd p) 1).
  - cbn [fst snd]. replace (s + (ln (fst p) - 0) - s - (ln (fst p) - 0)) with 0 by lra. rewrite IH. f_equal. lra.
  - rewrite IH. f_equal. lra.
Qed.
Lemma log_local_spec {A} (s i : A -> R) l : log_local (map (fun v => (s v, i v)) l) = rsum (map (fun v => when (i v) (ln (s v))) l).
Proof. unfold log_local. rewrite kahan. cbn [fst]. rewrite map_map. cbn [fst snd]. lra. Qed.
Lemma damp_fold {A} (s i j : A -> R) l : (forall v, In v l -> j v = 0 \/ j v = 1) -> forall t,
  fold_left (fun t p => if andb (req (fst (snd p)) 1) (req (snd (snd p)) 0) then t + fst p else t) (map (fun v => (s v, (i v, j v))) l) t
  = t + rsum (map (fun v => when (i v) (unless (j v) (s v))) l).
Proof.
  induction l as [|v l IH]; intros B t; cbn [map fold_left rsum fst snd]; [lra|].
  rewrite IH by (intros w Hw; apply B; right; exact Hw).
  assert (Bv : j v = 0 \/ j v = 1) by (apply B; left; reflexivity).
  unfold when at 2, unless at 2. unfold req.
  destruct (Req_EM_T (i v) 1); cbn [andb]; [|lra].
  destruct (Req_EM_T (j v) 0), (Req_EM_T (j v) 1); try lra; destruct Bv; contradiction.
Qed.
Lemma damp_local_spec {A} mu kd (s i j : A -> R) l : (forall v, In v l -> j v = 0 \/ j v = 1) ->
  damp_local mu kd (map (fun v => (s v, (i v, j v))) l) = mu * kd * rsum (map (fun v => when (i v) (unless (j v) (s v))) l).
Proof. intro B. unfold damp_local. rewrite damp_fold by exact B. lra. Qed.

Lemma sum_ranks_fold l : forall s, fold_left Rplus l s = s + rsum l.
Proof. induction l as [|a l IH]; intro s; cbn [fold_left rsum]; [lra|]. rewrite IH. lra. Qed.
Lemma sum_ranks_spec l : sum_ranks l = rsum l. Proof. unfold sum_ranks. rewrite sum_ranks_fold. lra. Qed.
Lemma rsum_app a b : rsum (a ++ b) = rsum a + rsum b. Proof. induction a as [|x a IH]; cbn [app rsum]; [lra|]. rewrite IH. lra. Qed.
Lemma rsum_plus {A} (f g : A -> R) l : rsum (map f l) + rsum (map g l) = rsum (map (fun v => f v + g v) l).
Proof. induction l as [|x l IH]; cbn [map rsum]; [lra|]. rewrite <- IH. lra. Qed.
Lemma rsum_scal {A} c (f : A -> R) l : c * rsum (map f l) = rsum (map (fun v => c * f v) l).
Proof. induction l as [|x l IH]; cbn [map rsum]; [lra|]. rewrite <- IH. lra. Qed.
Lemma rsum_ext {A} (f g : A -> R) l : (forall v, In v l -> f v = g v) -> rsum (map f l) = rsum (map g l).
Proof. intro H. induction l as [|x l IH]; cbn [map rsum]; [reflexivity|]. rewrite (H x) by (left; reflexivity). rewrite IH; [reflexivity|]. intros; apply H; right; assumption. Qed.
Lemma rsum_concat {A} (f : A -> R) (F : list A -> R) ranks : (forall r, In r ranks -> F r = rsum (map f r)) ->
  rsum (map F ranks) = rsum (map f (concat ranks)).
Proof. induction ranks as [|r ranks IH]; cbn [map rsum concat]; intro H; [reflexivity|].
  rewrite map_app, rsum_app, IH, (H r); [reflexivity|left; reflexivity|intros; apply H; right; assumption]. Qed.

Lemma when_sl v : patbit v -> when (b_il v) (ln (sl v)) = when (b_il v) (ln (b_x v - b_l v)).
Proof. intros _. unfold when, sl. rq; auto; try lra. Qed.
Lemma when_su v : patbit v -> when (b_iu v) (ln (su v)) = when (b_iu v) (ln (b_u v - b_x v)).
Proof. intros _. unfold when, su. rq; auto; try lra. Qed.

(** value of the barrier terms *)
Definition logs (v : bvar) : R := when (b_il v) (ln (b_x v - b_l v)) + when (b_iu v) (ln (b_u v - b_x v)).
Definition damps (v : bvar) : R := when (b_il v) (unless (b_iu v) (b_x v - b_l v)) + when (b_iu v) (unless (b_il v) (b_u v - b_x v)).
Lemma eval_log_spec ranks D : (forall v, In v (concat ranks ++ D) -> patbit v) ->
  eval_log ranks D = rsum (map logs (concat ranks ++ D)).
Proof.
  intro B. unfold eval_log. rewrite sum_ranks_spec, map_app, rsum_app, Rplus_assoc. f_equal.
  - apply rsum_concat. intros r Hr. rewrite (log_local_spec sl b_il), (log_local_spec su b_iu), rsum_plus.
    apply rsum_ext. intros v Hv. assert (Bv : patbit v) by (apply B, in_or_app; left; apply in_concat; eauto).
    unfold logs. rewrite when_sl, when_su by exact Bv. reflexivity.
  - rewrite (log_local_spec sl b_il), (log_local_spec su b_iu), rsum_plus.
    apply rsum_ext. intros v Hv. assert (Bv : patbit v) by (apply B, in_or_app; right; exact Hv).
    unfold logs. rewrite when_sl, when_su by exact Bv. reflexivity.
Qed.
Lemma damp_one v : when (b_il v) (unless (b_iu v) (sl v)) + when (b_iu v) (unless (b_il v) (su v)) = damps v.
Proof. unfold damps, when, unless, sl, su. rq; lra. Qed.
Lemma damp_term_spec mu kd ranks D : (forall v, In v (concat ranks ++ D) -> patbit v) ->
  damp_term mu kd ranks D = mu * kd * rsum (map damps (concat ranks ++ D)).
Proof.
  intro B. unfold damp_term. rewrite sum_ranks_spec, map_app, rsum_app, Rplus_assoc, Rmult_plus_distr_l. f_equal.
  - rewrite rsum_scal. apply rsum_concat. intros r Hr.
    assert (Br : forall v, In v r -> patbit v) by (intros v Hv; apply B, in_or_app; left; apply in_concat; eauto).
    rewrite (damp_local_spec mu kd sl b_il b_iu), (damp_local_spec mu kd su b_iu b_il) by (intros v Hv; apply (Br v Hv)).
    rewrite <- Rmult_plus_distr_l, rsum_plus, rsum_scal. apply rsum_ext. intros v Hv. rewrite damp_one. reflexivity.
  - assert (Br : forall v, In v D -> patbit v) by (intros v Hv; apply B, in_or_app; right; exact Hv).
    rewrite (damp_local_spec mu kd sl b_il b_iu), (damp_local_spec mu kd su b_iu b_il) by (intros v Hv; apply (Br v Hv)).
    rewrite <- Rmult_plus_distr_l, rsum_plus, !rsum_scal. apply rsum_ext. intros v Hv. rewrite damp_one. reflexivity.
Qed.

Lemma bar1_here mu kd v : bar1 mu kd v (b_x v) = - mu * logs v + mu * kd * damps v.
Proof. reflexivity. Qed.
Lemma f_logbar_spec mu kd f ranks D : 0 <= kd -> (forall v, In v (concat ranks ++ D) -> patbit v) ->
  f_logbar mu kd f ranks D = f + rsum (map (fun v => bar1 mu kd v (b_x v)) (concat ranks ++ D)).
Proof.
  intros Pk B. unfold f_logbar. rewrite eval_log_spec, damp_term_spec by exact B.
  rewrite (rsum_ext (fun v => bar1 mu kd v (b_x v)) (fun v => - mu * logs v + mu * kd * damps v)) by (intros; apply bar1_here).
  rewrite <- (rsum_plus (fun v => - mu * logs v)), <- (rsum_scal (- mu)), <- (rsum_scal (mu * kd)).
  unfold rlt. destruct (Rlt_dec 0 kd) as [H|H].
  - lra.
  - assert (kd = 0) as -> by lra. lra.
Qed.
Lemma trial_same mu kd f ranks D : f_logbar_trial mu kd f ranks D = f_logbar mu kd f ranks D.
Proof. unfold f_logbar_trial, f_logbar. replace (f - mu * eval_log ranks D) with (f + - mu * eval_log ranks D) by ring. reflexivity. Qed.

Lemma step_bit t v : patbit v -> patbit (step t v). Proof. auto. Qed.
Lemma concat_step t ranks : concat (map (map (step t)) ranks) = map (step t) (concat ranks).
Proof. induction ranks as [|r ranks IH]; cbn [map concat]; [reflexivity|]. rewrite map_app, IH. reflexivity. Qed.
Lemma along_spec mu kd f ranks D t : 0 <= kd -> (forall v, In v (concat ranks ++ D) -> patbit v) ->
  f_logbar_trial mu kd (f t) (map (map (step t)) ranks) (map (step t) D) = barrier mu kd f (concat ranks ++ D) t.
Proof.
  intros Pk B. rewrite trial_same, f_logbar_spec by
    (try exact Pk; intros v Hv; rewrite concat_step, <- map_app in Hv; apply in_map_iff in Hv; destruct Hv as [w [<- Hw]]; apply step_bit; auto).
  unfold barrier. rewrite concat_step, <- map_app, map_map. reflexivity.
Qed.

(** derivatives *)
Lemma d_val f x l l' : l = l' -> derivable_pt_lim f x l -> derivable_pt_lim f x l'.
Proof. intros <-. auto. Qed.
Lemma d_lin a b : derivable_pt_lim (fun t => a + t * b) 0 b.
Proof.
  apply (d_val _ _ (0 + (1 * b + 0 * 0)) b); [ring|].
  apply (derivable_pt_lim_plus (fun _ => a) (fun t => t * b)); [apply derivable_pt_lim_const|].
  apply (derivable_pt_lim_mult (fun t => t) (fun _ => b)); [apply derivable_pt_lim_id|apply derivable_pt_lim_const].
Qed.
Lemma d_ext f g x l : (forall t, f t = g t) -> derivable_pt_lim f x l -> derivable_pt_lim g x l.
Proof. intros E H eps Pe. destruct (H eps Pe) as [del Hd]. exists del. intros h Hn Hh. rewrite <- !E. auto. Qed.
Lemma d_ln a b : 0 < a -> derivable_pt_lim (fun t => ln (a + t * b)) 0 (b / a).
Proof.
  intro P. replace (b / a) with (/ a * b) by (unfold Rdiv; ring).
  apply (derivable_pt_lim_comp (fun t => a + t * b) ln); [apply d_lin|].
  replace (a + 0 * b) with a by ring. apply derivable_pt_lim_ln. exact P.
Qed.
Lemma d_when i f l : (i = 1 -> derivable_pt_lim f 0 l) -> derivable_pt_lim (fun t => when i (f t)) 0 (when i l).
Proof. intro H. unfold when. destruct (Req_EM_T i 1) as [E|E]; [auto|apply derivable_pt_lim_const]. Qed.
Lemma d_unless i f l : derivable_pt_lim f 0 l -> derivable_pt_lim (fun t => unless i (f t)) 0 (unless i l).
Proof. intro H. unfold unless. destruct (Req_EM_T i 1) as [E|E]; [apply derivable_pt_lim_const|auto]. Qed.

Definition dbar1 (mu kd : R) (v : bvar) : R :=
  - mu * (when (b_il v) (b_dx v / (b_x v - b_l v)) + when (b_iu v) (- b_dx v / (b_u v - b_x v)))
  + mu * kd * (when (b_il v) (unless (b_iu v) (b_dx v)) + when (b_iu v) (unless (b_il v) (- b_dx v))).
Lemma d_bar1 mu kd v : inside v -> derivable_pt_lim (fun t => bar1 mu kd v (b_x v + t * b_dx v)) 0 (dbar1 mu kd v).
Proof.
  intros [Il Iu]. unfold bar1, dbar1.
  apply (derivable_pt_lim_plus (fun t => - mu * (when (b_il v) (ln (b_x v + t * b_dx v - b_l v)) + when (b_iu v) (ln (b_u v - (b_x v + t * b_dx v)))))
           (fun t => mu * kd * (when (b_il v) (unless (b_iu v) (b_x v + t * b_dx v - b_l v)) + when (b_iu v) (unless (b_il v) (b_u v - (b_x v + t * b_dx v)))))).
  - apply (derivable_pt_lim_scal (fun t => when (b_il v) (ln (b_x v + t * b_dx v - b_l v)) + when (b_iu v) (ln (b_u v - (b_x v + t * b_dx v))))).
    apply (derivable_pt_lim_plus (fun t => when (b_il v) (ln (b_x v + t * b_dx v - b_l v))) (fun t => when (b_iu v) (ln (b_u v - (b_x v + t * b_dx v))))).
    + apply (d_when (b_il v) (fun t => ln (b_x v + t * b_dx v - b_l v))). intro E.
      apply (d_ext (fun t => ln ((b_x v - b_l v) + t * b_dx v))); [intro t; f_equal; ring|]. apply d_ln. destruct Il as [Z|[_ L]]; lra.
    + apply (d_when (b_iu v) (fun t => ln (b_u v - (b_x v + t * b_dx v)))). intro E.
      apply (d_ext (fun t => ln ((b_u v - b_x v) + t * - b_dx v))); [intro t; f_equal; ring|]. apply d_ln. destruct Iu as [Z|[_ L]]; lra.
  - apply (derivable_pt_lim_scal (fun t => when (b_il v) (unless (b_iu v) (b_x v + t * b_dx v - b_l v)) + when (b_iu v) (unless (b_il v) (b_u v - (b_x v + t * b_dx v))))).
    apply (derivable_pt_lim_plus (fun t => when (b_il v) (unless (b_iu v) (b_x v + t * b_dx v - b_l v))) (fun t => when (b_iu v) (unless (b_il v) (b_u v - (b_x v + t * b_dx v))))).
    + apply (d_when (b_il v) (fun t => unless (b_iu v) (b_x v + t * b_dx v - b_l v))). intros _.
      apply (d_unless (b_iu v) (fun t => b_x v + t * b_dx v - b_l v)).
      apply (d_ext (fun t => (b_x v - b_l v) + t * b_dx v)); [intro t; ring|]. apply d_lin.
    + apply (d_when (b_iu v) (fun t => unless (b_il v) (b_u v - (b_x v + t * b_dx v)))). intros _.
      apply (d_unless (b_il v) (fun t => b_u v - (b_x v + t * b_dx v))).
      apply (d_ext (fun t => (b_u v - b_x v) + t * - b_dx v)); [intro t; ring|]. apply d_lin.
Qed.
Lemma d_rsum mu kd vs : (forall v, In v vs -> inside v) ->
  derivable_pt_lim (fun t => rsum (map (fun v => bar1 mu kd v (b_x v + t * b_dx v)) vs)) 0 (rsum (map (dbar1 mu kd) vs)).
Proof.
  induction vs as [|v vs IH]; intro H; cbn [map rsum]; [apply derivable_pt_lim_const|].
  apply (derivable_pt_lim_plus (fun t => bar1 mu kd v (b_x v + t * b_dx v)) (fun t => rsum (map (fun v => bar1 mu kd v (b_x v + t * b_dx v)) vs))).
  - apply d_bar1. apply H. left. reflexivity.
  - apply IH. intros w Hw. apply H. right. exact Hw.
Qed.

(** the code's gradient *)
Lemma grad1_spec mu kd v : 0 <= kd -> inside v -> b_dx v * grad1 mu kd v = b_g v * b_dx v + dbar1 mu kd v.
Proof.
  intros Pk [Il Iu]. unfold grad1, dbar1, add_log_grad, add_damp, when, unless, sl, su, rlt.
  assert (K : (if Rlt_dec 0 kd then true else false) = false -> kd = 0) by (destruct (Rlt_dec 0 kd); [discriminate|lra]).
  destruct Il as [Zl|[Zl L]], Iu as [Zu|[Zu U]]; rewrite Zl, Zu; rq; try lra;
  (destruct (Rlt_dec 0 kd); [|rewrite (K eq_refl)]; field; lra).
Qed.
Lemma dot_fold mu kd r : forall s, fold_left (fun s v => s + b_dx v * grad1 mu kd v) r s = s + rsum (map (fun v => b_dx v * grad1 mu kd v) r).
Proof. induction r as [|v r IH]; intro s; cbn [fold_left map rsum]; [lra|]. rewrite IH. lra. Qed.
Lemma dir_deriv_spec mu kd ranks D : 0 <= kd -> (forall v, In v (concat ranks ++ D) -> inside v) ->
  dir_deriv mu kd ranks D = slope (concat ranks ++ D) + rsum (map (dbar1 mu kd) (concat ranks ++ D)).
Proof.
  intros Pk H. unfold dir_deriv. rewrite sum_ranks_spec.
  assert (L : forall r, dot_local mu kd r = rsum (map (fun v => b_dx v * grad1 mu kd v) r)) by (intro r; unfold dot_local; rewrite dot_fold; lra).
  rewrite (rsum_concat (fun v => b_dx v * grad1 mu kd v)) by (intros; apply L). rewrite L, <- rsum_app, <- map_app.
  unfold slope. rewrite rsum_plus. apply rsum_ext. intros v Hv. apply grad1_spec; auto.
Qed.
Lemma dir_deriv_is mu kd f ranks D : 0 <= kd -> (forall v, In v (concat ranks ++ D) -> inside v) ->
  derivable_pt_lim f 0 (slope (concat ranks ++ D)) ->
  derivable_pt_lim (barrier mu kd f (concat ranks ++ D)) 0 (dir_deriv mu kd ranks D).
Proof.
  intros Pk H Hf. rewrite dir_deriv_spec by assumption. unfold barrier.
  apply (derivable_pt_lim_plus f (fun t => rsum (map (fun v => bar1 mu kd v (b_x v + t * b_dx v)) (concat ranks ++ D)))); [exact Hf|].
  apply d_rsum. exact H.
Qed.

(** the barrier residuals of ErrModel over the reals *)
Fixpoint rdot (a y : list R) : R := match a, y with p :: a, q :: y => p * q + rdot a y | _, _ => 0 end.
Lemma add_col_R (a y : list R) : forall acc, add_col Rar acc a y = acc + rdot a y.
Proof.
  revert y. induction a as [|p a IH]; intros [|q y] acc; unfold add_col; cbn [combine fold_left rdot]; try (cbn; lra).
  specialize (IH y (aadd Rar acc (amul Rar p q))). unfold add_col in IH. cbn [fst snd].
  etransitivity; [exact IH|]. cbn [aadd amul Rar]. lra.
Qed.
Lemma residual_x mu kd v (x : xvar Rar) D E : 0 < kd -> inside v ->
  x_g Rar x = b_g v -> x_il Rar x = b_il v -> x_iu Rar x = b_iu v ->
  x_zl Rar x = when (b_il v) (mu / (b_x v - b_l v)) -> x_zu Rar x = when (b_iu v) (mu / (b_u v - b_x v)) ->
  rx_bar Rar D E (kd * mu * 1) x = - (grad1 mu kd v + rdot (x_jc Rar x) (map (e_y Rar) E) + rdot (x_jd Rar x) (map (d_y Rar) D)).
Proof.
  intros Pk [Il Iu] Hg Hil Hiu Hzl Hzu. unfold rx_bar, damp, rx1. cbn [aopp aadd amul aone asub Rar]. change (car Rar) with R in *.
  rewrite (add_col_R (x_jd Rar x)), (add_col_R (x_jc Rar x)), Hg, Hil, Hiu, Hzl, Hzu.
  unfold grad1, add_log_grad, add_damp, when, sl, su, rlt. destruct (Rlt_dec 0 kd); [|lra].
  destruct Il as [Zl|[Zl L]], Iu as [Zu|[Zu U]]; rewrite Zl, Zu; rq; try lra; field; lra.
Qed.
Lemma residual_d mu kd v (d : dvar Rar) : 0 < kd -> inside v -> b_g v = 0 ->
  d_il Rar d = b_il v -> d_iu Rar d = b_iu v ->
  d_vl Rar d = when (b_il v) (mu / (b_x v - b_l v)) -> d_vu Rar d = when (b_iu v) (mu / (b_u v - b_x v)) ->
  rd_bar Rar (kd * mu * 1) d = d_y Rar d - grad1 mu kd v.
Proof.
  intros Pk [Il Iu] Hg Hil Hiu Hzl Hzu. unfold rd_bar, damp, rd1. cbn [aopp aadd amul aone asub Rar]. change (car Rar) with R in *.
  rewrite Hil, Hiu, Hzl, Hzu.
  unfold grad1, add_log_grad, add_damp, when, sl, su, rlt. rewrite Hg. destruct (Rlt_dec 0 kd); [|lra].
  destruct Il as [Zl|[Zl L]], Iu as [Zu|[Zu U]]; rewrite Zl, Zu; rq; try lra; field; lra.
Qed.
