(** Each worker evaluates the indices sent to it, in the order of sending. *)
From Coq Require Import List Bool Arith Lia Permutation.
From Verif Require Import PdModel PdSpec PdProofs RingKit.
Import ListNotations.

(** the indices sent to worker [k] *)
Definition to_worker (k : nat) (sent : list (nat * nat)) : list nat := map snd (filter (fun p => fst p =? k) sent).
Definition route (s : st) : Prop := forall k w, nth_error (s_ws s) k = Some w -> to_worker k (s_sent s) = w_log w ++ pend w.

Section R.
Variables (S_ W : nat).
Hypothesis HW : 1 <= W.
Hypothesis HS : W <= S_.
Lemma to_app : forall k a b, to_worker k (a ++ b) = to_worker k a ++ to_worker k b.
Proof. intros. unfold to_worker. now rewrite filter_app, map_app. Qed.
Lemma route_upd : forall s k w w' p idx last acc add,
  route s -> nth_error (s_ws s) k = Some w -> w_log w' ++ pend w' = w_log w ++ pend w ++ to_worker k add ->
  (forall j, j <> k -> to_worker j add = []) ->
  route (St p idx last (upd k w' (s_ws s)) acc (s_sent s ++ add)).
Proof.
  intros s k w w' p idx last acc add R N E O j v Nj. cbn [s_ws s_sent] in *. rewrite to_app.
  destruct (Nat.eq_dec j k) as [->|NE].
  - rewrite (upd_nth_eq _ _ _ _ N) in Nj. injection Nj as <-. rewrite (R k w N), E, app_assoc. reflexivity.
  - rewrite upd_nth_ne in Nj by auto. rewrite (O j NE), app_nil_r. auto.
Qed.
Lemma one_to : forall k i, to_worker k [(k, i)] = [i].
Proof. intros. unfold to_worker. cbn. now rewrite Nat.eqb_refl. Qed.
Lemma one_not : forall j k i, j <> k -> to_worker j [(k, i)] = [].
Proof. intros. unfold to_worker. cbn. destruct (k =? j) eqn:E; auto. apply Nat.eqb_eq in E. congruence. Qed.
Lemma step_route : forall l s s', inv S_ W s -> route s -> step S_ W l s = Some s' -> route s'.
Proof.
  intros l s s' I R H.
  assert (SAME : forall p idx last acc, route (St p idx last (s_ws s) acc (s_sent s))) by (intros; exact R).
  assert (UP : forall k w w' p idx last acc, nth_error (s_ws s) k = Some w -> w_log w' ++ pend w' = w_log w ++ pend w ->
     route (St p idx last (upd k w' (s_ws s)) acc (s_sent s))).
  { intros k w w' p idx last acc N E. rewrite <- (app_nil_r (s_sent s)). eapply route_upd; eauto. cbn. now rewrite app_nil_r, E. }
  assert (ADD : forall k w w' i p idx last acc, nth_error (s_ws s) k = Some w -> w_log w' ++ pend w' = w_log w ++ pend w ++ [i] ->
     route (St p idx last (upd k w' (s_ws s)) acc (s_sent s ++ [(k, i)]))).
  { intros k w w' i p idx last acc N E. eapply route_upd; eauto. rewrite one_to. exact E. intros. now apply one_not. }
  destruct l as [b|k|k]; cbn [step] in H.
  - unfold master in H. destruct (s_ph s) as [k|k|r|k|k| |] eqn:EP; try discriminate.
    + destruct (S_ <? W); [injection H as <-; apply SAME|].
      destruct (nth_error (s_ws s) k) as [w|] eqn:N; injection H as <-; [|apply SAME].
      pose proof (i_ok S_ W s I k w N) as O. rewrite EP in O. cbn [ok] in O. rewrite Nat.ltb_irrefl in O. subst w.
      eapply ADD; eauto.
    + destruct (nth_error (s_ws s) k) as [w|] eqn:N; [destruct (w_req w)|]; injection H as <-; try apply SAME.
      eapply UP; eauto.
    + destruct (nth_error (s_ws s) r) as [w|] eqn:N; [|injection H as <-; apply SAME].
      unfold test in H. destruct (w_req w) eqn:RQ.
      * destruct (w_out w) as [|i o] eqn:EO; [cbn [andb] in H; injection H as <-; eapply UP; eauto|].
        destruct b; [|cbn [andb] in H; injection H as <-; eapply UP; eauto].
        cbn [andb w_fin w_in w_req w_buf w_st w_out w_log] in H.
        destruct (w_fin w); cbn [negb] in H; [injection H as <-; eapply UP; eauto|].
        destruct (s_idx s <? S_).
        -- destruct (w_in w) eqn:EI; [|discriminate]. injection H as <-. 
           pose proof (i_ok S_ W s I r w N) as O. rewrite EP in O. cbn [ok] in O.
           eapply ADD; eauto. destruct (w_fin w).
           ++ destruct O as (O & _). inversion O; subst; discriminate EO.
           ++ destruct O as (O & _). inversion O; subst; cbn in *; discriminate || reflexivity.
        -- injection H as <-. eapply UP; eauto.
      * cbn [andb] in H. destruct (w_fin w) eqn:EF; cbn [negb] in H; [injection H as <-; eapply UP; eauto|].
        pose proof (i_ok S_ W s I r w N) as O. rewrite EP in O. cbn [ok] in O. rewrite EF in O. destruct O. congruence.
    + destruct (nth_error (s_ws s) k) as [w|] eqn:N; [|injection H as <-; apply SAME].
      destruct (w_in w) eqn:EI; [|discriminate]. injection H as <-. eapply UP; eauto. unfold pend. cbn. now rewrite EI.
    + destruct (nth_error (s_ws s) k) as [w|] eqn:N.
      * destruct (w_in w) eqn:EI; [|discriminate]. destruct (w_req w); [destruct (w_out w); [discriminate|]|]; injection H as <-; eapply UP; eauto.
        unfold pend. cbn. now rewrite EI.
      * destruct (existsb w_req (s_ws s)); injection H as <-; apply SAME.
  - destruct (nth_error (s_ws s) k) as [w|] eqn:N; [|discriminate]. destruct (take w) as [w'|] eqn:T; [|discriminate].
    injection H as <-. eapply UP; eauto. pose proof (i_ok S_ W s I k w N) as O.
    assert (X : carrying w \/ quiet w \/ told w \/ ended w \/ w = wk0).
    { destruct (s_ph s); cbn [ok] in O; try (destruct (k <? _)); try (destruct (w_fin w)); try contradiction; intuition. }
    destruct X as [X|[X|[X|[X|X]]]]; inversion X; subst; unfold take in T; cbn in T; try discriminate; try (injection T as <-; reflexivity).
    destruct H as [->| ->]; injection T as <-; reflexivity.
  - destruct (nth_error (s_ws s) k) as [w|] eqn:N; [|discriminate]. destruct (eval w) as [w'|] eqn:T; [|discriminate].
    injection H as <-. eapply UP; eauto. pose proof (i_ok S_ W s I k w N) as O.
    assert (X : carrying w \/ quiet w \/ told w \/ ended w \/ w = wk0).
    { destruct (s_ph s); cbn [ok] in O; try (destruct (k <? _)); try (destruct (w_fin w)); try contradiction; intuition. }
    destruct X as [X|[X|[X|[X|X]]]]; inversion X; subst; unfold eval in T; cbn in T; try discriminate.
    + destruct H as [->| ->]; discriminate.
    + injection T as <-. cbn. now rewrite app_nil_r.
Qed.
Lemma route_init : route (init W).
Proof. intros k w N. cbn in N. apply nth_error_In, repeat_spec in N. subst w. reflexivity. Qed.
Lemma exec_route : forall ls s s', inv S_ W s -> route s -> exec S_ W ls s = Some s' -> route s'.
Proof.
  induction ls as [|l ls IH]; intros s s' I R H; simpl in H; [injection H as <-; exact R|].
  destruct (step S_ W l s) as [s1|] eqn:E; [|discriminate]. eapply (IH s1 s'); [|eapply step_route; eauto|exact H]. eapply step_inv; eauto.
Qed.
End R.

(** sums do not depend on the order *)
Section K.
Variable (K : cfield).
Add Field kf : (fth K).
Lemma lsum_perm : forall (l l' : list K), Permutation l l' -> lsum l = lsum l'.
Proof.
  induction 1; simpl; auto.
  - now rewrite IHPermutation.
  - ring.
  - congruence.
Qed.
End K.
