(** Invariant of the exchange of messages. *)
From Coq Require Import List Bool Arith Lia Permutation.
From Verif Require Import PdModel PdSpec.
Import ListNotations.

Lemma upd_split : forall ws k w, nth_error ws k = Some w ->
  exists a b, ws = a ++ w :: b /\ length a = k /\ forall w', upd k w' ws = a ++ w' :: b.
Proof.
  induction ws as [|x ws IH]; intros [|k] w H; simpl in H; try discriminate.
  - injection H as ->. exists [], ws. repeat split.
  - destruct (IH k w H) as (a & b & E & L & U). exists (x :: a), b. split; [|split].
    + now rewrite E.
    + simpl; lia.
    + intros w'. simpl. now rewrite U.
Qed.
Lemma upd_len : forall ws k w, length (upd k w ws) = length ws.
Proof. induction ws; intros [|k] w; simpl; auto. Qed.
Lemma upd_nth_eq : forall ws k w w', nth_error ws k = Some w' -> nth_error (upd k w ws) k = Some w.
Proof. induction ws; intros [|k] w w' H; simpl in *; try discriminate; eauto. Qed.
Lemma upd_nth_ne : forall ws k w j, j <> k -> nth_error (upd k w ws) j = nth_error ws j.
Proof. induction ws; intros [|k] w [|j] H; simpl; auto; try lia. Qed.
Lemma upd_same : forall ws k w, nth_error ws k = Some w -> upd k w ws = ws.
Proof. induction ws; intros [|k] w H; simpl in *; try discriminate; [congruence|f_equal; auto]. Qed.

Section P.
Variables (S_ W : nat).
(** indices on their way: to the worker, at the worker, back *)
Definition pend (w : wk) : list nat :=
  flat_map (fun m => match m with Some i => [i] | None => [] end) (w_in w) ++ match w_st w with Busy i => [i] | _ => [] end.
Definition tok (w : wk) : list nat := pend w ++ w_out w.
Inductive carrying : wk -> Prop :=
| car_in i st lg rq bf fn : st = Fresh \/ st = Idle -> carrying (Wk [Some i] st [] lg rq bf fn)
| car_busy i lg rq bf fn : carrying (Wk [] (Busy i) [] lg rq bf fn)
| car_out i lg rq bf fn : carrying (Wk [] Idle [i] lg rq bf fn).
Inductive quiet : wk -> Prop := quiet_ lg rq bf fn : quiet (Wk [] Idle [] lg rq bf fn).
Inductive told : wk -> Prop :=
| told_in lg rq bf fn : told (Wk [None] Idle [] lg rq bf fn)
| told_end lg rq bf fn : told (Wk [] Ended [] lg rq bf fn).
Inductive ended : wk -> Prop := ended_ lg rq bf fn : ended (Wk [] Ended [] lg rq bf fn).
Definition ok (p : phase) (j : nat) (w : wk) : Prop :=
  match p with
  | Sending k => if j <? k then carrying w /\ w_req w = false /\ w_fin w = false else w = wk0
  | Posting k => carrying w /\ w_req w = (j <? k) /\ w_fin w = false
  | Scanning r => if w_fin w then quiet w /\ w_req w = false else carrying w /\ w_req w = true
  | Stopping k => (if j <? k then told w else quiet w) /\ w_req w = false /\ w_fin w = true
  | Draining k => (if j <? k then ended w else told w) /\ w_req w = false /\ w_fin w = true
  | Finished => ended w /\ w_req w = false
  | Aborted => False
  end.
Definition glob (s : st) : Prop :=
  match s_ph s with
  | Sending k => k <= W /\ s_idx s = k /\ length (s_sent s) = k /\ s_acc s = [] /\ s_last s = false
  | Posting k => k <= W /\ s_idx s = W /\ length (s_sent s) = W /\ s_acc s = [] /\ s_last s = false
  | Scanning r => r <= W /\ W <= s_idx s /\ (s_idx s <= S_ -> s_last s = false /\ length (s_sent s) = s_idx s /\ forall w, In w (s_ws s) -> w_fin w = false)
                 /\ (S_ < s_idx s -> s_last s = true /\ length (s_sent s) = S_)
  | Stopping k => k <= W /\ length (s_sent s) = S_
  | Draining k => k <= W /\ length (s_sent s) = S_
  | Finished => length (s_sent s) = S_
  | Aborted => False
  end.
Record inv (s : st) : Prop := {
  i_len : length (s_ws s) = W;
  i_sent : map snd (s_sent s) = seq 0 (length (s_sent s));
  i_tok : Permutation (s_acc s ++ map Some (flat_map tok (s_ws s))) (map Some (seq 0 (length (s_sent s))));
  i_log : Permutation (flat_map w_log (s_ws s) ++ flat_map pend (s_ws s)) (seq 0 (length (s_sent s)));
  i_ok : forall j w, nth_error (s_ws s) j = Some w -> ok (s_ph s) j w;
  i_glob : glob s }.

Lemma flat_wk0 : forall {A} (f : wk -> list A) n, f wk0 = [] -> flat_map f (repeat wk0 n) = [].
Proof. induction n; intros H; simpl; auto. rewrite H; auto. Qed.
Lemma inv_init : inv (init W).
Proof.
  split; unfold init; cbn [s_ph s_ws s_sent s_acc s_idx s_last].
  - apply repeat_length.
  - reflexivity.
  - rewrite flat_wk0 by reflexivity. constructor.
  - rewrite !flat_wk0 by reflexivity. constructor.
  - intros j w H. cbn. apply nth_error_In, repeat_spec in H. exact H.
  - repeat split; auto; lia.
Qed.

(** one worker changes *)
Lemma perm_tok : forall a b w w' acc acc' n m,
  Permutation (acc ++ map Some (flat_map tok (a ++ w :: b))) (map Some (seq 0 n)) ->
  Permutation (acc' ++ map Some (tok w')) (acc ++ map Some (tok w) ++ map Some (seq n m)) ->
  Permutation (acc' ++ map Some (flat_map tok (a ++ w' :: b))) (map Some (seq 0 (n + m))).
Proof.
  intros a b w w' acc acc' n m H1 H2.
  rewrite seq_app, map_app. cbn [Nat.add]. rewrite <- H1.
  rewrite !flat_map_app. cbn [flat_map]. rewrite !map_app.
  set (A := map Some (flat_map tok a)). set (B := map Some (flat_map tok b)).
  transitivity ((acc' ++ map Some (tok w')) ++ A ++ B).
  - rewrite <- !app_assoc. apply Permutation_app_head. rewrite !app_assoc. apply Permutation_app_tail. apply Permutation_app_comm.
  - rewrite H2. rewrite <- !app_assoc. apply Permutation_app_head.
    rewrite (Permutation_app_comm (map Some (seq n m)) (A ++ B)).
    rewrite !app_assoc. apply Permutation_app_tail, Permutation_app_tail, Permutation_app_comm.
Qed.
Lemma perm_log : forall a b w w' n m,
  Permutation (flat_map w_log (a ++ w :: b) ++ flat_map pend (a ++ w :: b)) (seq 0 n) ->
  Permutation (w_log w' ++ pend w') (w_log w ++ pend w ++ seq n m) ->
  Permutation (flat_map w_log (a ++ w' :: b) ++ flat_map pend (a ++ w' :: b)) (seq 0 (n + m)).
Proof.
  intros a b w w' n m H1 H2. rewrite seq_app. cbn [Nat.add]. rewrite <- H1.
  rewrite !flat_map_app. cbn [flat_map].
  assert (R : forall x y, Permutation ((flat_map w_log a ++ x ++ flat_map w_log b) ++ flat_map pend a ++ y ++ flat_map pend b)
     ((x ++ y) ++ (flat_map w_log a ++ flat_map w_log b ++ flat_map pend a ++ flat_map pend b))).
  { intros x y. set (A := flat_map w_log a). set (B := flat_map w_log b). set (C := flat_map pend a). set (D := flat_map pend b).
    rewrite <- !app_assoc. rewrite (app_assoc A x), (Permutation_app_comm A x), <- app_assoc. apply Permutation_app_head.
    rewrite (app_assoc C y), (Permutation_app_comm C y), <- app_assoc.
    rewrite (app_assoc B y), (Permutation_app_comm B y), <- app_assoc.
    rewrite (app_assoc A y), (Permutation_app_comm A y), <- app_assoc. reflexivity. }
  rewrite !R, H2. rewrite <- !app_assoc. apply Permutation_app_head, Permutation_app_head.
  etransitivity; [apply Permutation_app_comm|]. rewrite <- !app_assoc. reflexivity.
Qed.
Lemma inv_upd : forall s k w w' p idx last acc' add m,
  inv s -> nth_error (s_ws s) k = Some w ->
  Permutation (acc' ++ map Some (tok w')) (s_acc s ++ map Some (tok w) ++ map Some (seq (length (s_sent s)) m)) ->
  Permutation (w_log w' ++ pend w') (w_log w ++ pend w ++ seq (length (s_sent s)) m) ->
  map snd add = seq (length (s_sent s)) m ->
  (forall j v, nth_error (upd k w' (s_ws s)) j = Some v -> ok p j v) ->
  glob (St p idx last (upd k w' (s_ws s)) acc' (s_sent s ++ add)) ->
  inv (St p idx last (upd k w' (s_ws s)) acc' (s_sent s ++ add)).
Proof.
  intros s k w w' p idx last acc' add m I N PT PL AD OK GL.
  destruct (upd_split _ _ _ N) as (a & b & E & L & U).
  assert (LA : length add = m) by (rewrite <- (map_length snd), AD; apply seq_length).
  destruct I as [Il Is It Ig Io Igl]. split; cbn [s_ph s_ws s_sent s_acc s_idx s_last].
  - now rewrite upd_len.
  - rewrite map_app, Is, AD, app_length, LA, seq_app. reflexivity.
  - rewrite app_length, LA, U. eapply perm_tok; [|exact PT]. rewrite <- E. exact It.
  - rewrite app_length, LA, U. eapply perm_log; [|exact PL]. rewrite <- E. exact Ig.
  - exact OK.
  - exact GL.
Qed.
(** only the phase and flags change *)
Lemma inv_ph : forall s p idx last,
  inv s -> (forall j v, nth_error (s_ws s) j = Some v -> ok p j v) ->
  glob (St p idx last (s_ws s) (s_acc s) (s_sent s)) -> inv (St p idx last (s_ws s) (s_acc s) (s_sent s)).
Proof. intros s p idx last [Il Is It Ig Io Igl] OK GL. split; cbn [s_ph s_ws s_sent s_acc s_idx s_last]; auto. Qed.

Lemma ok_upd : forall p p' k w' ws,
  (forall j v, nth_error ws j = Some v -> ok p j v) -> (forall w, nth_error ws k = Some w -> ok p' k w') ->
  (forall j v, j <> k -> ok p j v -> ok p' j v) ->
  forall j v, nth_error (upd k w' ws) j = Some v -> ok p' j v.
Proof.
  intros p p' k w' ws H K T j v N. destruct (Nat.eq_dec j k) as [->|NE].
  - assert (HH : exists w, nth_error ws k = Some w).
    { destruct (nth_error ws k) as [w|] eqn:E; eauto. apply nth_error_None in E.
      rewrite (proj2 (nth_error_None _ _)) in N; [discriminate|]. now rewrite upd_len. }
    destruct HH as (w & E). rewrite (upd_nth_eq _ _ _ _ E) in N. injection N as <-. eapply K; eauto.
  - rewrite upd_nth_ne in N by auto. apply T; auto.
Qed.
Lemma ltb_S : forall j k, j <> k -> (j <? S k) = (j <? k).
Proof. intros. destruct (j <? S k) eqn:A, (j <? k) eqn:B; auto; rewrite ?Nat.ltb_lt, ?Nat.ltb_ge in *; lia. Qed.
Lemma ltb_SS : forall k, (k <? S k) = true. Proof. intros; apply Nat.ltb_lt; lia. Qed.

Hypothesis HW : 1 <= W.
Hypothesis HS : W <= S_.

Ltac perm := cbn [tok pend w_in w_st w_out w_log w_buf flat_map app map seq]; rewrite ?app_nil_r; auto using Permutation_refl.
(** moving indices around *)
Ltac shuf := unfold tok, pend; cbn [w_in w_st w_out w_log w_buf flat_map app map seq]; rewrite ?app_nil_r;
  try reflexivity; try (rewrite <- ?app_assoc; cbn [app]; reflexivity).

Lemma step_inv : forall l s s', inv s -> step S_ W l s = Some s' -> inv s'.
Proof.
  intros l s s' I H. destruct l as [b|k|k]; cbn [step] in H.
  - (* master *)
    unfold master in H. destruct (s_ph s) as [k|k|r|k|k| |] eqn:EP; try discriminate.
    + replace (S_ <? W) with false in H by (symmetry; apply Nat.ltb_ge; lia).
      pose proof (i_glob s I) as G. unfold glob in G. rewrite EP in G. destruct G as (G1 & G2 & G3 & G4 & G5).
      destruct (nth_error (s_ws s) k) as [w|] eqn:N; injection H as <-.
      * assert (KW : k < W) by (rewrite <- (i_len s I); apply nth_error_Some; congruence).
        pose proof (i_ok s I k w N) as O. rewrite EP in O. cbn [ok] in O. rewrite Nat.ltb_irrefl in O. subst w.
        eapply inv_upd with (w := wk0) (m := 1); eauto.
        -- rewrite G4. cbn. rewrite G2, G3. reflexivity.
        -- cbn. rewrite G2, G3. reflexivity.
        -- cbn. now rewrite G2, G3.
        -- eapply ok_upd with (p := Sending k).
           ++ rewrite <- EP. apply (i_ok s I).
           ++ intros w _. cbn [ok]. rewrite ltb_SS. repeat split. constructor. auto.
           ++ intros j v NE O. cbn [ok] in *. now rewrite ltb_S.
        -- cbn. rewrite app_length. cbn. repeat split; auto; lia.
      * apply nth_error_None in N. rewrite (i_len s I) in N. assert (KE : k = W) by lia. rewrite KE in EP.
        apply inv_ph; auto.
        -- intros j v Nj. pose proof (i_ok s I j v Nj) as O. rewrite EP in O. cbn [ok] in *.
           assert (j < W) by (rewrite <- (i_len s I); apply nth_error_Some; congruence).
           replace (j <? W) with true in O by (symmetry; apply Nat.ltb_lt; lia).
           destruct O as (O1 & O2 & O3). repeat split; auto.
        -- cbn. repeat split; auto; lia.
    + pose proof (i_glob s I) as G. unfold glob in G. rewrite EP in G. destruct G as (G1 & G2 & G3 & G4 & G5).
      destruct (nth_error (s_ws s) k) as [w|] eqn:N.
      * assert (KW : k < W) by (rewrite <- (i_len s I); apply nth_error_Some; congruence).
        pose proof (i_ok s I k w N) as O. rewrite EP in O. cbn [ok] in O. rewrite Nat.ltb_irrefl in O. destruct O as (O1 & O2 & O3).
        rewrite O2 in H. injection H as <-. rewrite <- (app_nil_r (s_sent s)).
        eapply inv_upd with (w := w) (m := 0); eauto.
        -- cbn. now rewrite app_nil_r.
        -- cbn. now rewrite app_nil_r.
        -- eapply ok_upd with (p := Posting k).
           ++ rewrite <- EP. apply (i_ok s I).
           ++ intros w' _. cbn [ok]. rewrite ltb_SS. cbn. repeat split; auto. inversion O1; subst; cbn; constructor; auto.
           ++ intros j v NE O. cbn [ok] in *. now rewrite ltb_S.
        -- cbn. rewrite app_nil_r. repeat split; auto; lia.
      * injection H as <-. apply nth_error_None in N. rewrite (i_len s I) in N. assert (KE : k = W) by lia. rewrite KE in EP.
        replace (s_idx s <=? S_) with true by (symmetry; apply Nat.leb_le; lia). cbn [orb].
        assert (OKS : forall j v, nth_error (s_ws s) j = Some v -> carrying v /\ w_req v = true /\ w_fin v = false).
        { intros j v Nj. pose proof (i_ok s I j v Nj) as O. rewrite EP in O. cbn [ok] in O.
          assert (j < W) by (rewrite <- (i_len s I); apply nth_error_Some; congruence).
          replace (j <? W) with true in O by (symmetry; apply Nat.ltb_lt; lia). exact O. }
        apply inv_ph; auto.
        -- intros j v Nj. destruct (OKS j v Nj) as (A & B & C). cbn [ok]. rewrite C. auto.
        -- cbn. repeat split; auto; try lia. intros w Hw. apply In_nth_error in Hw. destruct Hw as (j & Nj). apply (OKS j w Nj).
    + pose proof (i_glob s I) as G. unfold glob in G. rewrite EP in G. destruct G as (G1 & G2 & G3 & G4).
      destruct (nth_error (s_ws s) r) as [w|] eqn:N.
      * assert (RW : r < W) by (rewrite <- (i_len s I); apply nth_error_Some; congruence).
        pose proof (i_ok s I r w N) as O. rewrite EP in O. cbn [ok] in O.
        destruct (w_fin w) eqn:EF.
        -- (* finished *)
           destruct O as (O1 & O2). unfold test in H. rewrite O2 in H. cbn [andb] in H. rewrite EF in H. cbn [negb] in H.
           injection H as <-. rewrite (upd_same _ _ _ N). apply inv_ph; auto.
           ++ intros j v Nj. pose proof (i_ok s I j v Nj) as Oj. rewrite EP in Oj. exact Oj.
           ++ cbn. repeat split; auto; try lia; try (intros; apply G3; auto); try (intros; apply G4; auto).
        -- destruct O as (O1 & O2). unfold test in H. rewrite O2 in H.
           assert (SAME : Some (St (Scanning (S r)) (s_idx s) (s_last s) (upd r w (s_ws s)) (s_acc s) (s_sent s)) = Some s' -> inv s').
           { intros Q. injection Q as <-. rewrite (upd_same _ _ _ N). apply inv_ph; auto.
             - intros j v Nj. pose proof (i_ok s I j v Nj) as Oj. rewrite EP in Oj. exact Oj.
             - cbn. repeat split; auto; try lia; try (intros; apply G3; auto); try (intros; apply G4; auto). }
           destruct (w_out w) as [|i o] eqn:EO; [exact (SAME H)|]. destruct b; [|exact (SAME H)]. clear SAME.
           inversion O1; subst; cbn in EO, O2, EF; try discriminate. injection EO as <- <-. subst.
           cbn [andb negb w_fin w_buf w_in w_req w_st w_out w_log] in H.
           destruct (s_idx s <? S_) eqn:EI.
           ++ apply Nat.ltb_lt in EI. destruct (G3 ltac:(lia)) as (L1 & L2 & L3). rewrite L1 in H. injection H as <-.
              eapply inv_upd with (m := 1); eauto.
              ** rewrite L2. shuf.
              ** rewrite L2. shuf.
              ** cbn. now rewrite L2.
              ** eapply ok_upd with (p := Scanning r).
                 --- rewrite <- EP. apply (i_ok s I).
                 --- intros w' _. cbn. split; auto. constructor. auto.
                 --- intros j v NE O. exact O.
              ** cbn. rewrite app_length. cbn. split; [lia|]. split; [lia|]. split; [|lia].
                 intros _. repeat split; auto; try lia.
                 intros v Hv. apply In_nth_error in Hv. destruct Hv as (j & Nj).
                 destruct (Nat.eq_dec j r) as [->|NE].
                 { rewrite (upd_nth_eq _ _ _ _ N) in Nj. injection Nj as <-. reflexivity. }
                 { rewrite upd_nth_ne in Nj by auto. apply L3. eapply nth_error_In; eauto. }
           ++ apply Nat.ltb_ge in EI. injection H as <-. rewrite <- (app_nil_r (s_sent s)).
              eapply inv_upd with (m := 0); eauto.
              ** shuf.
              ** eapply ok_upd with (p := Scanning r).
                 --- rewrite <- EP. apply (i_ok s I).
                 --- intros w' _. cbn. split; auto. constructor.
                 --- intros j v NE O. exact O.
              ** cbn. rewrite app_nil_r. split; [lia|]. split; [lia|]. split; [lia|]. intros _. split; auto.
                 destruct (Nat.eq_dec (s_idx s) S_) as [E|NE].
                 { destruct (G3 ltac:(lia)) as (_ & L2 & _). lia. }
                 { destruct (G4 ltac:(lia)) as (_ & L2). lia. }
      * injection H as <-. apply nth_error_None in N. rewrite (i_len s I) in N. unfold pass_end.
        set (lst := if s_last s then _ else _).
        destruct ((s_idx s <=? S_) || lst) eqn:EC.
        -- apply inv_ph; auto.
           ++ intros j v Nj. pose proof (i_ok s I j v Nj) as Oj. rewrite EP in Oj. exact Oj.
           ++ cbn. split; [lia|]. split; [auto|]. split.
              ** intros Q. destruct (G3 Q) as (L1 & L2 & L3). subst lst. rewrite L1. repeat split; auto.
              ** intros Q. destruct (G4 Q) as (L1 & L2). split; auto.
                 replace (s_idx s <=? S_) with false in EC by (symmetry; apply Nat.leb_gt; lia). exact EC.
        -- apply orb_false_iff in EC. destruct EC as (E1 & E2). apply Nat.leb_gt in E1. destruct (G4 E1) as (L1 & L2).
           subst lst. rewrite L1 in E2.
           assert (AF : forall w, In w (s_ws s) -> w_fin w = true).
           { intros w Hw. destruct (w_fin w) eqn:EF; auto. exfalso.
             assert (X : existsb (fun w => negb (w_fin w)) (s_ws s) = true) by (apply existsb_exists; exists w; rewrite EF; auto).
             congruence. }
           apply inv_ph; auto.
           ++ intros j v Nj. pose proof (i_ok s I j v Nj) as Oj. rewrite EP in Oj. cbn [ok] in *.
              rewrite (AF v) in Oj by (eapply nth_error_In; eauto). cbn. destruct Oj as (A & B). repeat split; auto. apply AF. eapply nth_error_In; eauto.
           ++ cbn. split; [lia|auto].
    + pose proof (i_glob s I) as G. unfold glob in G. rewrite EP in G. destruct G as (G1 & G2).
      destruct (nth_error (s_ws s) k) as [w|] eqn:N.
      * assert (KW : k < W) by (rewrite <- (i_len s I); apply nth_error_Some; congruence).
        pose proof (i_ok s I k w N) as O. rewrite EP in O. cbn [ok] in O. rewrite Nat.ltb_irrefl in O. destruct O as (O1 & O2 & O3).
        inversion O1; subst. cbn in O2, O3, H. subst. injection H as <-.
        rewrite <- (app_nil_r (s_sent s)). eapply inv_upd with (m := 0); eauto.
        -- eapply ok_upd with (p := Stopping k).
           ++ rewrite <- EP. apply (i_ok s I).
           ++ intros w' _. cbn [ok]. rewrite ltb_SS. repeat split; auto. constructor.
           ++ intros j v NE O. cbn [ok] in *. now rewrite ltb_S.
        -- cbn. rewrite app_nil_r. split; [lia|auto].
      * injection H as <-. apply nth_error_None in N. rewrite (i_len s I) in N. assert (KE : k = W) by lia. rewrite KE in EP.
        apply inv_ph; auto.
        -- intros j v Nj. pose proof (i_ok s I j v Nj) as O. rewrite EP in O. cbn [ok] in *.
           assert (j < W) by (rewrite <- (i_len s I); apply nth_error_Some; congruence).
           replace (j <? W) with true in O by (symmetry; apply Nat.ltb_lt; lia). exact O.
        -- cbn. split; [lia|auto].
    + pose proof (i_glob s I) as G. unfold glob in G. rewrite EP in G. destruct G as (G1 & G2).
      destruct (nth_error (s_ws s) k) as [w|] eqn:N.
      * assert (KW : k < W) by (rewrite <- (i_len s I); apply nth_error_Some; congruence).
        pose proof (i_ok s I k w N) as O. rewrite EP in O. cbn [ok] in O. rewrite Nat.ltb_irrefl in O. destruct O as (O1 & O2 & O3).
        inversion O1; subst; cbn in O2, O3, H; subst; try discriminate. injection H as <-.
        rewrite <- (app_nil_r (s_sent s)). eapply inv_upd with (m := 0); eauto.
        -- eapply ok_upd with (p := Draining k).
           ++ rewrite <- EP. apply (i_ok s I).
           ++ intros w' _. cbn [ok]. rewrite ltb_SS. repeat split; auto.
           ++ intros j v NE O. cbn [ok] in *. now rewrite ltb_S.
        -- cbn. rewrite app_nil_r. split; [lia|auto].
      * apply nth_error_None in N. rewrite (i_len s I) in N. assert (KE : k = W) by lia. rewrite KE in EP.
        assert (OKS : forall j v, nth_error (s_ws s) j = Some v -> ended v /\ w_req v = false).
        { intros j v Nj. pose proof (i_ok s I j v Nj) as O. rewrite EP in O. cbn [ok] in O.
          assert (j < W) by (rewrite <- (i_len s I); apply nth_error_Some; congruence).
          replace (j <? W) with true in O by (symmetry; apply Nat.ltb_lt; lia). destruct O as (A & B & _). auto. }
        destruct (existsb w_req (s_ws s)) eqn:EX.
        -- exfalso. apply existsb_exists in EX. destruct EX as (v & Hv & R). apply In_nth_error in Hv. destruct Hv as (j & Nj).
           destruct (OKS j v Nj) as (_ & B). congruence.
        -- injection H as <-. apply inv_ph; auto.
  - (* a worker takes a message *)
    destruct (nth_error (s_ws s) k) as [w|] eqn:N; [|discriminate]. destruct (take w) as [w'|] eqn:T; [|discriminate].
    injection H as <-. pose proof (i_ok s I k w N) as O.
    assert (KW : k < W) by (rewrite <- (i_len s I); apply nth_error_Some; congruence).
    assert (TC : forall w, carrying w -> forall w', take w = Some w' -> carrying w' /\ w_req w' = w_req w /\ w_fin w' = w_fin w
              /\ tok w' = tok w /\ pend w' = pend w /\ w_log w' = w_log w).
    { intros v C v' E. inversion C; subst; unfold take in E; cbn in E; try discriminate.
      destruct H as [->| ->]; injection E as <-; repeat split; constructor. }
    assert (TQ : forall w, quiet w -> take w = None) by (intros v C; inversion C; reflexivity).
    assert (TT : forall w, told w -> forall w', take w = Some w' -> ended w' /\ w_req w' = w_req w /\ w_fin w' = w_fin w
              /\ tok w' = tok w /\ pend w' = pend w /\ w_log w' = w_log w).
    { intros v C v' E. inversion C; subst; unfold take in E; cbn in E; try discriminate.
      injection E as <-; repeat split; constructor. }
    assert (TE : forall w, ended w -> take w = None) by (intros v C; inversion C; reflexivity).
    assert (ET : forall w, ended w -> told w) by (intros v C; inversion C; constructor).
    assert (X : ok (s_ph s) k w' /\ tok w' = tok w /\ pend w' = pend w /\ w_log w' = w_log w /\ w_fin w' = w_fin w).
    { destruct (s_ph s) as [j|j|r|j|j| |] eqn:EP; cbn [ok] in O |- *.
      - destruct (k <? j).
        + destruct O as (A & B & C). destruct (TC w A w' T) as (D1 & D2 & D3 & D4 & D5 & D6). rewrite D2, D3. auto 10.
        + subst w. discriminate T.
      - destruct O as (A & B & C). destruct (TC w A w' T) as (D1 & D2 & D3 & D4 & D5 & D6). rewrite D2, D3. auto 10.
      - destruct (w_fin w) eqn:EF.
        + destruct O as (A & _). rewrite (TQ w A) in T. discriminate.
        + destruct O as (A & B). destruct (TC w A w' T) as (D1 & D2 & D3 & D4 & D5 & D6). rewrite D2, D3, EF. auto 10.
      - destruct O as (A & B & C). destruct (k <? j).
        + destruct (TT w A w' T) as (D1 & D2 & D3 & D4 & D5 & D6). rewrite D2, D3. auto 10.
        + rewrite (TQ w A) in T. discriminate.
      - destruct O as (A & B & C). destruct (k <? j).
        + rewrite (TE w A) in T. discriminate.
        + destruct (TT w A w' T) as (D1 & D2 & D3 & D4 & D5 & D6). rewrite D2, D3. auto 10.
      - destruct O as (A & _). rewrite (TE w A) in T. discriminate.
      - destruct O. }
    destruct X as (X1 & X2 & X3 & X4 & X5).
    rewrite <- (app_nil_r (s_sent s)). eapply inv_upd with (m := 0); eauto.
    + cbn [seq map]. rewrite X2, app_nil_r. reflexivity.
    + cbn [seq]. rewrite X3, X4, app_nil_r. reflexivity.
    + eapply ok_upd with (p := s_ph s); auto. apply (i_ok s I).
    + rewrite app_nil_r. pose proof (i_glob s I) as G. unfold glob in *. cbn [s_ph s_ws s_sent s_acc s_idx s_last].
      destruct (s_ph s); auto. destruct G as (G1 & G2 & G3 & G4). split; [auto|]. split; [auto|]. split; [|exact G4].
      intros Q. destruct (G3 Q) as (L1 & L2 & L3). split; [auto|]. split; [auto|].
      intros v Hv. apply In_nth_error in Hv. destruct Hv as (j & Nj). destruct (Nat.eq_dec j k) as [->|NE].
      * rewrite (upd_nth_eq _ _ _ _ N) in Nj. injection Nj as <-. rewrite X5. apply L3. eapply nth_error_In; eauto.
      * rewrite upd_nth_ne in Nj by auto. apply L3. eapply nth_error_In; eauto.
  - (* a worker evaluates *)
    destruct (nth_error (s_ws s) k) as [w|] eqn:N; [|discriminate]. destruct (eval w) as [w'|] eqn:T; [|discriminate].
    injection H as <-. pose proof (i_ok s I k w N) as O.
    assert (KW : k < W) by (rewrite <- (i_len s I); apply nth_error_Some; congruence).
    assert (TC : forall w, carrying w -> forall w', eval w = Some w' -> carrying w' /\ w_req w' = w_req w /\ w_fin w' = w_fin w
              /\ tok w' = tok w /\ w_log w' ++ pend w' = w_log w ++ pend w).
    { intros v C v' E. inversion C; subst; unfold eval in E; cbn in E; try discriminate; try (destruct H as [->| ->]; discriminate).
      injection E as <-; repeat split; try constructor. cbn. now rewrite app_nil_r. }
    assert (TN : forall w, quiet w \/ told w \/ ended w -> eval w = None) by (intros v [C|[C|C]]; inversion C; reflexivity).
    assert (X : ok (s_ph s) k w' /\ tok w' = tok w /\ w_log w' ++ pend w' = w_log w ++ pend w /\ w_fin w' = w_fin w).
    { destruct (s_ph s) as [j|j|r|j|j| |] eqn:EP; cbn [ok] in O |- *.
      - destruct (k <? j).
        + destruct O as (A & B & C). destruct (TC w A w' T) as (D1 & D2 & D3 & D4 & D5). rewrite D2, D3. auto 10.
        + subst w. discriminate T.
      - destruct O as (A & B & C). destruct (TC w A w' T) as (D1 & D2 & D3 & D4 & D5). rewrite D2, D3. auto 10.
      - destruct (w_fin w) eqn:EF.
        + destruct O as (A & _). rewrite (TN w) in T by auto. discriminate.
        + destruct O as (A & B). destruct (TC w A w' T) as (D1 & D2 & D3 & D4 & D5). rewrite D2, D3, EF. auto 10.
      - destruct O as (A & B & C). rewrite (TN w) in T by (destruct (k <? j); auto). discriminate.
      - destruct O as (A & B & C). rewrite (TN w) in T by (destruct (k <? j); auto). discriminate.
      - destruct O as (A & _). rewrite (TN w) in T by auto. discriminate.
      - destruct O. }
    destruct X as (X1 & X2 & X3 & X5).
    rewrite <- (app_nil_r (s_sent s)). eapply inv_upd with (m := 0); eauto.
    + cbn [seq map]. rewrite X2, app_nil_r. reflexivity.
    + cbn [seq]. rewrite X3, app_nil_r. reflexivity.
    + eapply ok_upd with (p := s_ph s); auto. apply (i_ok s I).
    + rewrite app_nil_r. pose proof (i_glob s I) as G. unfold glob in *. cbn [s_ph s_ws s_sent s_acc s_idx s_last].
      destruct (s_ph s); auto. destruct G as (G1 & G2 & G3 & G4). split; [auto|]. split; [auto|]. split; [|exact G4].
      intros Q. destruct (G3 Q) as (L1 & L2 & L3). split; [auto|]. split; [auto|].
      intros v Hv. apply In_nth_error in Hv. destruct Hv as (j & Nj). destruct (Nat.eq_dec j k) as [->|NE].
      * rewrite (upd_nth_eq _ _ _ _ N) in Nj. injection Nj as <-. rewrite X5. apply L3. eapply nth_error_In; eauto.
      * rewrite upd_nth_ne in Nj by auto. apply L3. eapply nth_error_In; eauto.
Qed.

Lemma exec_inv : forall ls s s', inv s -> exec S_ W ls s = Some s' -> inv s'.
Proof.
  induction ls as [|l ls IH]; intros s s' I H; simpl in H; [congruence|].
  destruct (step S_ W l s) as [s1|] eqn:E; [|discriminate]. eapply IH; [|exact H]. eapply step_inv; eauto.
Qed.
End P.
