From Coq Require Import List Bool Arith ZArith QArith Qabs Qminmax Lia Lqa.
From Verif Require Import VecModel ErrModel ErrSpec.
Import ListNotations.
Open Scope Q_scope.

Notation inf_normQ := (inf_norm Qar).

Lemma Qltb_lt a b : alt Qar a b = true <-> a < b.
Proof. cbn. unfold Qltb. rewrite negb_true_iff. split.
  - intro H. apply Qnot_le_lt. intro C. apply Qle_bool_iff in C. congruence.
  - intro H. apply not_true_iff_false. intro C. apply Qle_bool_iff in C. lra. Qed.
Lemma Qltb_ge a b : alt Qar a b = false <-> b <= a.
Proof. split.
  - intro H. apply Qnot_lt_le. intro C. apply Qltb_lt in C. congruence.
  - intro H. apply not_true_iff_false. intro C. apply Qltb_lt in C. lra. Qed.

Lemma fold_inf_le v : forall n (a : Q),
  fold_left (fun n x => let aux := aabs Qar x in if alt Qar n aux then aux else n) v n <= a <->
  n <= a /\ forall x, In x v -> Qabs x <= a.
Proof.
  induction v as [|x v IH]; intros n a; cbn [fold_left].
  - split. { intro H. split; auto. intros ? []. } { tauto. }
  - cbv zeta. rewrite IH. destruct (alt Qar n (aabs Qar x)) eqn:L.
    + apply Qltb_lt in L. cbn in L |- *. split.
      * intros [H1 H2]. split. { lra. } intros y [->|Hy]; auto.
      * intros [H1 H2]. split. { apply H2. auto. } intros y Hy. apply H2. auto.
    + apply Qltb_ge in L. cbn in L |- *. split.
      * intros [H1 H2]. split; auto. intros y [->|Hy]; auto. lra.
      * intros [H1 H2]. split; auto.
Qed.
Lemma inf_norm_le v (a : Q) : 0 <= a -> (inf_normQ v <= a <-> forall x, In x v -> Qabs x <= a).
Proof.
  intro P. destruct v as [|x v]; unfold inf_norm.
  - split; intros H; [intros ? []|exact P].
  - rewrite fold_inf_le. cbn [aabs Qar In]. split.
    + intros [H1 H2] y [->|Hy]; auto.
    + intro H. split; auto.
Qed.
Lemma inf_norm_map_le {A} (f : A -> Q) v a : 0 <= a -> (inf_normQ (map f v) <= a <-> forall x, In x v -> Qabs (f x) <= a).
Proof.
  intro P. rewrite inf_norm_le by exact P. split.
  - intros H x Hx. apply H. apply in_map. exact Hx.
  - intros H y Hy. apply in_map_iff in Hy. destruct Hy as [x [<- Hx]]. auto.
Qed.

Lemma fold_max_le l : forall n (a : Q), fold_left Qmax l n <= a <-> n <= a /\ forall x, In x l -> x <= a.
Proof.
  induction l as [|x l IH]; intros n a; cbn [fold_left].
  - split. { intro H. split; auto. intros ? []. } { tauto. }
  - rewrite IH, Q.max_lub_iff. cbn [In]. split.
    + intros [[H1 H2] H3]. split; auto. intros y [->|Hy]; auto.
    + intros [H1 H2]. repeat split; auto.
Qed.
Lemma over_ranks_le l (a : Q) : 0 <= a -> (over_ranks Qar l <= a <-> forall x, In x l -> x <= a).
Proof.
  intro P. destruct l as [|x l]; unfold over_ranks.
  - split; intros H; [intros ? []|exact P].
  - cbn [afmax Qar]. rewrite fold_max_le. cbn [In]. split.
    + intros [H1 H2] y [->|Hy]; auto.
    + intro H. split; auto.
Qed.
Lemma over_ranks_map_le {A} (f : A -> Q) l a : 0 <= a -> (over_ranks Qar (map f l) <= a <-> forall x, In x l -> f x <= a).
Proof.
  intro P. rewrite over_ranks_le by exact P. split.
  - intros H x Hx. apply H. apply in_map. exact Hx.
  - intros H y Hy. apply in_map_iff in Hy. destruct Hy as [x [<- Hx]]. auto.
Qed.

Lemma fold_min_ge (l : list (Q * Q)) : forall r a,
  a <= fold_left (fun r e => if aeq Qar (snd e) (aone Qar) then (if alt Qar r (fst e) then r else fst e) else r) l r <->
  a <= r /\ forall e, In e l -> snd e == 1 -> a <= fst e.
Proof.
  induction l as [|e l IH]; intros r a; cbn [fold_left].
  - split. { intro H. split; auto. intros ? []. } { tauto. }
  - rewrite IH. destruct e as [x i]. cbn [In fst snd]. change (aeq Qar i (aone Qar)) with (Qeq_bool i 1).
    destruct (Qeq_bool i 1) eqn:B.
    + apply Qeq_bool_iff in B. destruct (alt Qar r x) eqn:L.
      * apply Qltb_lt in L. cbn [car Qar] in L. split.
        -- intros [H1 H2]. split; auto. intros y [<-|Hy]; auto. intros _. cbn. lra.
        -- intros [H1 H2]. split; auto.
      * apply Qltb_ge in L. cbn [car Qar] in L. split.
        -- intros [H1 H2]. split. { lra. } intros y [<-|Hy]; auto.
        -- intros [H1 H2]. split; auto. apply (H2 (x, i)); auto.
    + apply Qeq_bool_neq in B. split.
      * intros [H1 H2]. split; auto. intros y [<-|Hy]; auto. cbn. intro; contradiction.
      * intros [H1 H2]. split; auto.
Qed.

Lemma Q_maxv_pos : 0 <= amaxv Qar.
Proof. cbn [amaxv Qar]. unfold Qle, Q_maxv, inject_Z. cbn [Qnum Qden]. lia. Qed.

Lemma viol_le m (b : Q) : 0 <= b -> (viol Qar m <= b <-> - b <= m).
Proof.
  intro P. unfold viol. destruct (alt Qar m (azero Qar)) eqn:L.
  - cbn [aopp Qar]. split; intro; lra.
  - apply Qltb_ge in L. cbn [azero Qar] in L |- *. split; intro; lra.
Qed.
Lemma viol_pat_le {A} (f g : A -> Q) l b : 0 <= b ->
  (viol Qar (min_pat Qar (map (fun d => (f d, g d)) l)) <= b <-> forall d, In d l -> g d == 1 -> - b <= f d).
Proof.
  intro P. rewrite viol_le by exact P. unfold min_pat. rewrite fold_min_ge.
  pose proof Q_maxv_pos as M. split.
  - intros [_ H] d Hd G. apply (H (f d, g d)); auto. apply in_map_iff. eauto.
  - intro H. split. { apply Qle_trans with 0; [lra|exact M]. }
    intros e He G. apply in_map_iff in He. destruct He as [d [<- Hd]]. cbn in *. auto.
Qed.

Lemma add_col_inner (a y : list Q) : forall acc, add_col Qar acc a y == acc + inner a y.
Proof.
  revert y. induction a as [|p a IH]; intros [|q y] acc; unfold add_col; cbn [combine fold_left inner]; try lra.
  specialize (IH y (aadd Qar acc (amul Qar p q))). unfold add_col in IH. cbn [fst snd].
  etransitivity; [exact IH|]. cbn [aadd amul Qar]. lra.
Qed.
Lemma rx1_spec D E x : rx1 Qar D E x == lagr_x D E x.
Proof.
  unfold rx1, lagr_x. cbn [aadd asub Qar].
  change (car Qar) with Q.
  rewrite (add_col_inner (x_jd Qar x)), (add_col_inner (x_jc Qar x)). lra.
Qed.
Lemma rd1_spec d : rd1 Qar d == lagr_d d.
Proof. unfold rd1, lagr_d. cbn. lra. Qed.
Lemma rx_bar_spec D E ct x : Qabs (rx_bar Qar D E ct x) == Qabs (lagr_x D E x + ct * (x_il _ x - x_iu _ x)).
Proof.
  unfold rx_bar, damp. cbn [aopp aadd amul aone asub Qar]. rewrite Qabs_opp, rx1_spec.
  apply Qabs_wd. ring. Qed.
Lemma rd_bar_spec ct d : rd_bar Qar ct d == lagr_d d - ct * (d_il _ d - d_iu _ d).
Proof. unfold rd_bar, damp. cbn [aopp aadd amul aone asub Qar]. rewrite rd1_spec. ring. Qed.

Lemma optim_bar_le ct D E ranks a : 0 <= a -> ranks <> [] ->
  (bar_optim Qar D E ct ranks <= a <->
   (forall r x, In r ranks -> In x r -> Qabs (lagr_x D E x + ct * (x_il _ x - x_iu _ x)) <= a) /\
   (forall d, In d D -> Qabs (lagr_d d - ct * (d_il _ d - d_iu _ d)) <= a)).
Proof.
  intros P NE. unfold bar_optim. rewrite (over_ranks_map_le (optim_bar_rank Qar D E ct)) by exact P.
  assert (K : forall r, optim_bar_rank Qar D E ct r <= a <->
     (forall x, In x r -> Qabs (lagr_x D E x + ct * (x_il _ x - x_iu _ x)) <= a) /\
     (forall d, In d D -> Qabs (lagr_d d - ct * (d_il _ d - d_iu _ d)) <= a)).
  { intro r. unfold optim_bar_rank. cbn [afmax azero Qar].
    rewrite !Q.max_lub_iff, (inf_norm_map_le (rx_bar Qar D E ct)), (inf_norm_map_le (rd_bar Qar ct)) by exact P.
    split.
    - intros [[_ H1] H2]. split.
      + intros x Hx. rewrite <- rx_bar_spec. auto.
      + intros d Hd. rewrite <- rd_bar_spec. auto.
    - intros [H1 H2]. repeat split; [exact P| |].
      + intros x Hx. rewrite rx_bar_spec. auto.
      + intros d Hd. rewrite rd_bar_spec. auto. }
  split.
  - intro H. split.
    + intros r x Hr Hx. apply (proj1 (K r) (H r Hr)). exact Hx.
    + destruct ranks as [|r ranks]; [contradiction|]. apply (proj1 (K r) (H r (or_introl eq_refl))).
  - intros [H1 H2] r Hr. apply K. split; auto. intros x Hx. eapply H1; eauto.
Qed.
Lemma optim_le D E ranks a : 0 <= a -> ranks <> [] ->
  (nlp_optim Qar D E ranks <= a <->
   (forall r x, In r ranks -> In x r -> Qabs (lagr_x D E x) <= a) /\ (forall d, In d D -> Qabs (lagr_d d) <= a)).
Proof.
  intros P NE. unfold nlp_optim. rewrite (over_ranks_map_le (optim_rank Qar D E)) by exact P.
  assert (K : forall r, optim_rank Qar D E r <= a <->
     (forall x, In x r -> Qabs (lagr_x D E x) <= a) /\ (forall d, In d D -> Qabs (lagr_d d) <= a)).
  { intro r. unfold optim_rank. cbn [afmax azero Qar].
    rewrite !Q.max_lub_iff, (inf_norm_map_le (rx1 Qar D E)), (inf_norm_map_le (rd1 Qar)) by exact P.
    split.
    - intros [[_ H1] H2]. split.
      + intros x Hx. rewrite <- rx1_spec. auto.
      + intros d Hd. rewrite <- rd1_spec. auto.
    - intros [H1 H2]. repeat split; [exact P| |].
      + intros x Hx. rewrite rx1_spec. auto.
      + intros d Hd. rewrite rd1_spec. auto. }
  split.
  - intro H. split.
    + intros r x Hr Hx. apply (proj1 (K r) (H r Hr)). exact Hx.
    + destruct ranks as [|r ranks]; [contradiction|]. apply (proj1 (K r) (H r (or_introl eq_refl))).
  - intros [H1 H2] r Hr. apply K. split; auto. intros x Hx. eapply H1; eauto.
Qed.

Lemma cons_le D E b : 0 <= b ->
  (cons_viol Qar D E <= b <->
   (forall e, In e E -> Qabs (e_c _ e - e_rhs _ e) <= b) /\
   (forall d, In d D -> (d_il _ d == 1 -> d_l _ d - b <= d_val _ d) /\ (d_iu _ d == 1 -> d_val _ d <= d_u _ d + b))).
Proof.
  intro P. unfold cons_viol. cbn [afmax azero asub Qar].
  rewrite !Q.max_lub_iff, (inf_norm_map_le (ryc1 Qar)) by exact P.
  rewrite (viol_pat_le (fun d => d_val Qar d - d_l Qar d) (d_il Qar)) by exact P.
  rewrite (viol_pat_le (fun d => d_u Qar d - d_val Qar d) (d_iu Qar)) by exact P.
  unfold ryc1. cbn [asub Qar]. split.
  - intros [[[_ H1] H2] H3]. split.
    + intros e He. rewrite Qabs_Qminus. auto.
    + intros d Hd. split; intro B; [specialize (H2 d Hd B)|specialize (H3 d Hd B)]; cbn [car Qar] in *; lra.
  - intros [H1 H2]. repeat split; auto.
    + intros e He. rewrite Qabs_Qminus. auto.
    + intros d Hd B. destruct (H2 d Hd) as [H _]. specialize (H B). cbn [car Qar] in *. lra.
    + intros d Hd B. destruct (H2 d Hd) as [_ H]. specialize (H B). cbn [car Qar] in *. lra.
Qed.

(** complementarity blocks *)
Definition shq (sh : option Q) : Q := match sh with None => 0 | Some mu => mu end.
Lemma filter_len {A} (f : A -> bool) l : (length (filter f l) <= length l)%nat.
Proof. induction l as [|a l IH]; cbn; [lia|]. destruct (f a); cbn; lia. Qed.
Lemma ones_full (ix : list Q) : (forall i, In i ix -> bit i) -> Nat.ltb (ones Qar ix) (length ix) = false -> forall i, In i ix -> i == 1.
Proof.
  intros _ F. apply Nat.ltb_ge in F. unfold ones in F. revert F.
  induction ix as [|a ix IH]; cbn [filter length In]; intros F i Hi; [contradiction|].
  cbn [aeq aone Qar] in *. destruct (Qeq_bool a 1) eqn:B.
  - cbn [length] in F. destruct Hi as [<-|Hi]; [apply Qeq_bool_iff; exact B|]. apply IH; auto. lia.
  - exfalso. pose proof (filter_len (fun i : Q => Qeq_bool i 1) ix) as G. change (car Qar) with Q in *. cbn [length] in F. lia.
Qed.
Lemma ones_none (ix : list Q) : Nat.ltb 0 (ones Qar ix) = false -> forall i, In i ix -> ~ i == 1.
Proof.
  intros F i Hi C. apply Nat.ltb_ge in F. unfold ones in F.
  assert (In i (filter (fun i => aeq Qar i (aone Qar)) ix)) as I.
  { apply filter_In. split; auto. cbn. apply Qeq_bool_iff. exact C. }
  destruct (filter (fun i => aeq Qar i (aone Qar)) ix); [contradiction|cbn in F; lia].
Qed.

Lemma comp_block_le {A} (f g h : A -> car Qar) (l : list A) sh acc c : 0 <= c -> (forall v, In v l -> bit (h v)) ->
  (comp_block Qar (map f l) (map g l) (map h l) sh acc <= c <->
   acc <= c /\ forall v, In v l -> h v == 1 -> Qabs (f v * g v - shq sh) <= c).
Proof.
  intros P Bt. unfold comp_block.
  assert (BtL : forall i, In i (map h l) -> bit i).
  { intros i Hi. apply in_map_iff in Hi. destruct Hi as [v [<- Hv]]. auto. }
  destruct (Nat.ltb 0 (ones Qar (map h l))) eqn:Z0.
  2:{ split; [intro H; split; auto|tauto]. intros v Hv B. exfalso.
      apply (ones_none _ Z0 (h v)); auto. apply in_map. exact Hv. }
  cbv zeta.
  set (masked := if Nat.ltb _ _ then _ else _).
  assert (M : exists m : A -> car Qar, masked = map m l /\
              forall v, In v l -> (h v == 1 -> m v == - (f v * g v)) /\ (~ h v == 1 -> m v == 0)).
  { assert (PR : map (fun p => asub Qar (azero Qar) (amul Qar (fst (fst p)) (snd (fst p)))) (combine (combine (map f l) (map g l)) (map h l))
             = map (fun v => (0 - f v * g v : car Qar)) l).
    { clear. induction l as [|v l IH]; cbn [map combine]; [reflexivity|]. rewrite IH. reflexivity. }
    unfold masked. rewrite PR. destruct (Nat.ltb (ones Qar (map h l)) (length (map h l))) eqn:F.
    - exists (fun v => sel Qar (h v) (0 - f v * g v)). split.
      + clear. induction l as [|v l IH]; cbn [map combine]; [reflexivity|]. rewrite IH. reflexivity.
      + intros v Hv. unfold sel. cbn [aeq azero Qar]. destruct (Qeq_bool (h v) 0) eqn:B.
        * apply Qeq_bool_iff in B. split; intro C; [exfalso; lra|reflexivity].
        * apply Qeq_bool_neq in B. split; intro C; [ring|]. destruct (Bt v Hv); contradiction.
    - exists (fun v => 0 - f v * g v). split; [reflexivity|]. intros v Hv. split; intro C; [ring|].
      exfalso. apply C. apply (ones_full _ BtL F). apply in_map. exact Hv. }
  clearbody masked. destruct M as [m [-> Mm]].
  set (shifted := match sh with None => _ | Some _ => _ end).
  assert (S : exists m' : A -> car Qar, shifted = map m' l /\
              forall v, In v l -> (h v == 1 -> Qabs (m' v) == Qabs (f v * g v - shq sh)) /\ (~ h v == 1 -> m' v == 0)).
  { unfold shifted. destruct sh as [mu|]; cbn [shq].
    - exists (fun v => if aeq Qar (h v) (aone Qar) then aadd Qar (m v) mu else m v). split.
      + clear. induction l as [|v l IH]; cbn [map combine]; [reflexivity|]. rewrite IH. reflexivity.
      + intros v Hv. cbn [aeq aone aadd Qar]. destruct (Mm v Hv) as [M1 M0]. destruct (Qeq_bool (h v) 1) eqn:B.
        * apply Qeq_bool_iff in B. split; intro C; [|contradiction]. rewrite (M1 B).
          rewrite Qabs_Qminus. apply Qabs_wd. ring.
        * apply Qeq_bool_neq in B. split; intro C; [contradiction|auto].
    - exists m. split; [reflexivity|]. intros v Hv. destruct (Mm v Hv) as [M1 M0]. split; intro C; auto.
      rewrite (M1 C), Qabs_opp. apply Qabs_wd. ring. }
  clearbody shifted. destruct S as [m' [-> Sm]].
  cbn [afmax Qar]. rewrite Q.max_lub_iff, (inf_norm_map_le m') by exact P.
  split; intros [H1 H2]; split; auto; intros v Hv.
  - intro B. rewrite <- (proj1 (Sm v Hv) B). auto.
  - destruct (Qeq_dec (h v) 1) as [B|B].
    + rewrite (proj1 (Sm v Hv) B). auto.
    + rewrite (proj2 (Sm v Hv) B). cbn. exact P.
Qed.

Lemma complem_le sh D ranks c : 0 <= c -> ranks <> [] -> bits ranks D ->
  (over_ranks Qar (map (complem_rank Qar D sh) ranks) <= c <->
   (forall r x, In r ranks -> In x r ->
     (x_il _ x == 1 -> Qabs (x_sl _ x * x_zl _ x - shq sh) <= c) /\ (x_iu _ x == 1 -> Qabs (x_su _ x * x_zu _ x - shq sh) <= c)) /\
   (forall d, In d D ->
     (d_il _ d == 1 -> Qabs (d_sl _ d * d_vl _ d - shq sh) <= c) /\ (d_iu _ d == 1 -> Qabs (d_su _ d * d_vu _ d - shq sh) <= c))).
Proof.
  intros P NE [BX BD]. rewrite (over_ranks_map_le (complem_rank Qar D sh)) by exact P.
  assert (K : forall r, In r ranks -> (complem_rank Qar D sh r <= c <->
   (forall x, In x r ->
     (x_il _ x == 1 -> Qabs (x_sl _ x * x_zl _ x - shq sh) <= c) /\ (x_iu _ x == 1 -> Qabs (x_su _ x * x_zu _ x - shq sh) <= c)) /\
   (forall d, In d D ->
     (d_il _ d == 1 -> Qabs (d_sl _ d * d_vl _ d - shq sh) <= c) /\ (d_iu _ d == 1 -> Qabs (d_su _ d * d_vu _ d - shq sh) <= c)))).
  { intros r Hr. unfold complem_rank.
    rewrite (comp_block_le (d_su Qar) (d_vu Qar) (d_iu Qar)) by (try exact P; intros; apply BD; assumption).
    rewrite (comp_block_le (d_sl Qar) (d_vl Qar) (d_il Qar)) by (try exact P; intros; apply BD; assumption).
    rewrite (comp_block_le (x_su Qar) (x_zu Qar) (x_iu Qar)) by (try exact P; intros; eapply BX; eassumption).
    rewrite (comp_block_le (x_sl Qar) (x_zl Qar) (x_il Qar)) by (try exact P; intros; eapply BX; eassumption).
    split.
    - intros [[[[_ H1] H2] H3] H4]. split; intros v Hv; split; intro B; auto.
    - intros [H1 H2]. repeat split; [exact P| | | |]; intros v Hv B; [apply H1|apply H1|apply H2|apply H2]; auto. }
  split.
  - intro H. split.
    + intros r x Hr Hx. apply (proj1 (K r Hr) (H r Hr)). exact Hx.
    + destruct ranks as [|r ranks]; [contradiction|]. assert (Hr : In r (r :: ranks)) by (left; reflexivity).
      apply (proj1 (K r Hr) (H r Hr)).
  - intros [H1 H2] r Hr. apply (K r Hr). split; auto. intros x Hx. eapply H1; eauto.
Qed.

Lemma bar_kkt ct mu a b c ranks D E : 0 <= a -> 0 <= b -> 0 <= c -> ranks <> [] -> bits ranks D ->
  (bar_optim Qar D E ct ranks <= a /\ cons_viol Qar D E <= b /\ bar_complem Qar D mu ranks <= c <-> kkt_within ct mu a b c ranks D E).
Proof.
  intros Pa Pb Pc NE B. unfold bar_complem. rewrite optim_bar_le, cons_le, (complem_le (Some mu)) by assumption.
  unfold kkt_within. cbn [shq]. tauto.
Qed.
Lemma nlp_kkt a b c ranks D E : 0 <= a -> 0 <= b -> 0 <= c -> ranks <> [] -> bits ranks D ->
  (nlp_optim Qar D E ranks <= a /\ cons_viol Qar D E <= b /\ nlp_complem Qar D ranks <= c <-> kkt_within 0 0 a b c ranks D E).
Proof.
  intros Pa Pb Pc NE B. unfold nlp_complem. rewrite optim_le, cons_le, (complem_le None) by assumption.
  unfold kkt_within. cbn [shq].
  assert (X : (forall r x, In r ranks -> In x r -> Qabs (lagr_x D E x + 0 * (x_il _ x - x_iu _ x)) <= a) <->
              (forall r x, In r ranks -> In x r -> Qabs (lagr_x D E x) <= a)).
  { split; intros H r x Hr Hx; specialize (H r x Hr Hx); [rewrite Qmult_0_l, Qplus_0_r in H|rewrite Qmult_0_l, Qplus_0_r]; exact H. }
  assert (Y : (forall d, In d D -> Qabs (lagr_d d - 0 * (d_il _ d - d_iu _ d)) <= a) <-> (forall d, In d D -> Qabs (lagr_d d) <= a)).
  { assert (Z : forall d : dvar Qar, lagr_d d - 0 * (d_il _ d - d_iu _ d) == lagr_d d) by (intro; ring).
    split; intros H d Hd; specialize (H d Hd); rewrite Z in *; exact H. }
  rewrite X, Y. tauto.
Qed.

(** scale factors *)
Lemma one_norm_fold l : forall s : Q, fold_left (fun s x => aadd Qar s (aabs Qar x)) l s == s + sum_abs l.
Proof. induction l as [|a l IH]; intro s; cbn [fold_left sum_abs]; [lra|]. rewrite IH. cbn. lra. Qed.
Lemma one_norm_spec l : one_norm Qar l == sum_abs l.
Proof. unfold one_norm. rewrite one_norm_fold. cbn. lra. Qed.
Lemma sum_abs_app a b : sum_abs (a ++ b) == sum_abs a + sum_abs b.
Proof. induction a as [|x a IH]; cbn [app sum_abs]; [lra|]. rewrite IH. lra. Qed.
Lemma sum_abs_nonneg a : 0 <= sum_abs a.
Proof. induction a as [|x a IH]; cbn [sum_abs]; [lra|]. pose proof (Qabs_nonneg x). lra. Qed.
Lemma fold_dual ranks : forall s : Q,
  fold_left (aadd Qar) (map (fun r => aadd Qar (one_norm Qar (map (x_zl Qar) r)) (one_norm Qar (map (x_zu Qar) r))) ranks) s ==
  s + (sum_abs (map (x_zl Qar) (concat ranks)) + sum_abs (map (x_zu Qar) (concat ranks))).
Proof.
  induction ranks as [|r ranks IH]; intro s; cbn [map fold_left concat]; [cbn; lra|].
  rewrite IH, !map_app, !sum_abs_app. cbn [aadd Qar]. rewrite !one_norm_spec. lra.
Qed.
Lemma dual_bound_spec D ranks : dual_bound Qar D ranks == bound_duals ranks D.
Proof. unfold dual_bound, bound_duals. cbn [aadd Qar]. rewrite !one_norm_spec.
  pose proof (fold_dual ranks (azero Qar)) as F. cbn [aadd azero Qar] in F. rewrite F. lra. Qed.
Lemma dual_eq_spec D E : dual_eq Qar D E == cons_duals D E.
Proof. unfold dual_eq, cons_duals. cbn [aadd Qar]. rewrite !one_norm_spec. lra. Qed.
Lemma ones_count l : ones Qar l = count1 l.
Proof.
  unfold ones. induction l as [|a l IH]; cbn [filter count1]; [reflexivity|]. cbn [aeq aone Qar].
  destruct (Qeq_bool a 1) eqn:B, (Qeq_dec a 1) as [C|C]; cbn [length]; rewrite ?IH; auto.
  - apply Qeq_bool_iff in B. contradiction.
  - apply Qeq_bool_iff in C. congruence.
Qed.
Lemma count1_app a b : count1 (a ++ b) = (count1 a + count1 b)%nat.
Proof. induction a as [|x a IH]; cbn [app count1]; [reflexivity|]. destruct (Qeq_dec x 1); rewrite IH; reflexivity. Qed.
Lemma n_complem_spec D ranks : n_complem Qar D ranks = bound_count ranks D.
Proof.
  unfold n_complem, bound_count. rewrite !ones_count.
  assert (F : forall f : xvar Qar -> car Qar, list_sum (map (fun r => ones Qar (map f r)) ranks) = count1 (map f (concat ranks))).
  { intro f. induction ranks as [|r rs IH]; [reflexivity|].
    change (list_sum (map (fun r0 => ones Qar (map f r0)) (r :: rs))) with
      (ones Qar (map f r) + list_sum (map (fun r0 => ones Qar (map f r0)) rs))%nat.
    rewrite IH. cbn [concat]. rewrite map_app, count1_app, ones_count. reflexivity. }
  rewrite (F (x_il Qar)), (F (x_iu Qar)). lia.
Qed.
Lemma scale_of_wd smax s s' n : s == s' -> scale_of smax s n == scale_of smax s' n.
Proof. intro H. unfold scale_of. destruct n; [reflexivity|]. rewrite H. reflexivity. Qed.
Lemma scale_of_ge1 smax s n : 0 < smax -> 1 <= scale_of smax s n.
Proof.
  intro P. unfold scale_of. apply Q.min_glb; [|unfold Qle; cbn; lia].
  apply Qle_shift_div_l; [exact P|]. rewrite Qmult_1_l. apply Q.le_max_l.
Qed.
Lemma inject_pos n : 0 < inject_Z (Z.of_nat (S n)).
Proof. unfold Qlt, inject_Z. cbn [Qnum Qden]. lia. Qed.
Lemma s_d_spec smax D E ranks : s_d Qar Q_ofn Q_cap D E smax ranks == scale_stat smax ranks D E.
Proof.
  unfold s_d, scale_stat. cbn [afmin afmax adiv aadd Qar]. rewrite n_complem_spec, Nat.add_assoc.
  rewrite <- (scale_of_wd smax (dual_bound Qar D ranks + dual_eq Qar D E)) by (rewrite dual_bound_spec, dual_eq_spec; reflexivity).
  unfold scale_of, Q_ofn, Q_cap. destruct (bound_count ranks D + length E + length D)%nat.
  - cbn [Z.of_nat]. assert (Z : forall q : Q, q / inject_Z 0 == 0) by (intro q; unfold Qdiv, Qinv; cbn; ring).
    change (car Qar) with Q. rewrite Z. reflexivity.
  - reflexivity.
Qed.
Lemma s_c_spec smax D ranks : (0 < bound_count ranks D)%nat -> s_c Qar Q_ofn Q_cap D smax ranks == scale_comp smax ranks D.
Proof.
  intro P. unfold s_c, scale_comp. cbn [afmin afmax adiv azero Qar]. rewrite n_complem_spec.
  rewrite <- (scale_of_wd smax (dual_bound Qar D ranks)) by (rewrite dual_bound_spec; reflexivity).
  unfold scale_of, Q_ofn, Q_cap. destruct (bound_count ranks D); [lia|]. reflexivity.
Qed.
Lemma s_c_zero smax D ranks : bound_count ranks D = O -> s_c Qar Q_ofn Q_cap D smax ranks == 0.
Proof. intro P. unfold s_c. rewrite n_complem_spec, P. cbn. reflexivity. Qed.

Lemma Qdiv_le_iff a b c : 0 < b -> (a / b <= c <-> a <= c * b).
Proof. intro P. split; intro H.
  - apply (Qmult_le_r _ _ b P) in H. rewrite (Qmult_comm (a / b)), Qmult_div_r in H; [exact H|lra].
  - apply Qle_shift_div_r; auto. Qed.
Lemma count1_none l : count1 l = O -> forall i, In i l -> ~ i == 1.
Proof.
  induction l as [|a l IH]; cbn [count1 In]; intros H i Hi; [contradiction|].
  destruct (Qeq_dec a 1); [discriminate|]. destruct Hi as [<-|Hi]; auto. Qed.
Lemma no_bounds ranks D : bound_count ranks D = O ->
  (forall r x, In r ranks -> In x r -> ~ x_il Qar x == 1 /\ ~ x_iu Qar x == 1) /\
  (forall d, In d D -> ~ d_il Qar d == 1 /\ ~ d_iu Qar d == 1).
Proof.
  unfold bound_count. intro H. split.
  - intros r x Hr Hx. assert (Hc : In x (concat ranks)) by (apply in_concat; eauto).
    split; (eapply count1_none; [|apply in_map; exact Hc]); change (car Qar) with Q in *; lia.
  - intros d Hd. split; (eapply count1_none; [|apply in_map; exact Hd]); change (car Qar) with Q in *; lia.
Qed.

Lemma overall_gen o cv cm sd sc sd' sc' tol (n : nat) :
  0 < sd' -> sd == sd' -> 0 < sc' -> ((0 < n)%nat -> sc == sc') -> (n = O -> sc == 0) -> 0 <= tol -> (n = O -> cm <= 0) ->
  (Qmax (o / sd) (Qmax cv (cm / sc)) <= tol <-> o <= tol * sd' /\ cv <= tol /\ cm <= tol * sc').
Proof.
  intros P1 E1 P2 E2 Z2 Pt Zc. rewrite !Q.max_lub_iff.
  assert (A : o / sd <= tol <-> o <= tol * sd').
  { assert (Eq : o / sd == o / sd') by (rewrite E1; reflexivity). rewrite Eq. apply Qdiv_le_iff. exact P1. }
  rewrite A. destruct n as [|n].
  - assert (Eq : cm / sc == 0) by (rewrite (Z2 eq_refl); unfold Qdiv, Qinv; cbn; ring). rewrite Eq.
    assert (0 <= tol * sc') by (apply Qmult_le_0_compat; lra). specialize (Zc eq_refl).
    split; [intros [H1 [H2 H3]]|intros [H1 [H2 H3]]]; repeat split; auto; lra.
  - assert (Eq : cm / sc == cm / sc') by (rewrite (E2 ltac:(lia)); reflexivity). rewrite Eq, Qdiv_le_iff by exact P2.
    tauto.
Qed.

Lemma overall_kkt smax tol ranks D E : 0 < smax -> 0 <= tol -> ranks <> [] -> bits ranks D ->
  (nlp_overall Qar Q_ofn Q_cap D E smax ranks <= tol <->
   kkt_within 0 0 (tol * scale_stat smax ranks D E) tol (tol * scale_comp smax ranks D) ranks D E).
Proof.
  intros Ps Pt NE B. pose proof (scale_of_ge1 smax (bound_duals ranks D + cons_duals D E) (bound_count ranks D + length E + length D) Ps) as G1.
  pose proof (scale_of_ge1 smax (bound_duals ranks D) (bound_count ranks D) Ps) as G2.
  fold (scale_stat smax ranks D E) in G1. fold (scale_comp smax ranks D) in G2.
  unfold nlp_overall. cbn [afmax adiv Qar].
  rewrite (overall_gen _ _ _ _ _ (scale_stat smax ranks D E) (scale_comp smax ranks D) tol (bound_count ranks D)).
  - apply nlp_kkt; auto; apply Qmult_le_0_compat; lra.
  - lra.
  - apply s_d_spec.
  - lra.
  - apply s_c_spec.
  - apply s_c_zero.
  - exact Pt.
  - intro Z. destruct (no_bounds _ _ Z) as [N1 N2]. unfold nlp_complem. apply (complem_le None); auto; [lra|]. split.
    + intros r x Hr Hx. destruct (N1 r x Hr Hx). split; intro; contradiction.
    + intros d Hd. destruct (N2 d Hd). split; intro; contradiction.
Qed.
Lemma log_overall_kkt smax ct mu tol ranks D E : 0 < smax -> 0 <= tol -> ranks <> [] -> bits ranks D ->
  (log_overall Qar Q_ofn Q_cap D E smax ct mu ranks <= tol <->
   kkt_within ct mu (tol * scale_stat smax ranks D E) tol (tol * scale_comp smax ranks D) ranks D E).
Proof.
  intros Ps Pt NE B. pose proof (scale_of_ge1 smax (bound_duals ranks D + cons_duals D E) (bound_count ranks D + length E + length D) Ps) as G1.
  pose proof (scale_of_ge1 smax (bound_duals ranks D) (bound_count ranks D) Ps) as G2.
  fold (scale_stat smax ranks D E) in G1. fold (scale_comp smax ranks D) in G2.
  unfold log_overall. cbn [afmax adiv Qar].
  rewrite (overall_gen _ _ _ _ _ (scale_stat smax ranks D E) (scale_comp smax ranks D) tol (bound_count ranks D)).
  - apply bar_kkt; auto; apply Qmult_le_0_compat; lra.
  - lra.
  - apply s_d_spec.
  - lra.
  - apply s_c_spec.
  - apply s_c_zero.
  - exact Pt.
  - intro Z. destruct (no_bounds _ _ Z) as [N1 N2]. unfold bar_complem. apply (complem_le (Some mu)); auto; [lra|]. split.
    + intros r x Hr Hx. destruct (N1 r x Hr Hx). split; intro; contradiction.
    + intros d Hd. destruct (N2 d Hd). split; intro; contradiction.
Qed.

(** complementarity measured with the constraint value instead of the slack variable *)
Lemma comp_true (D : list (dvar Qar)) (E : list (evar Qar)) (d : dvar Qar) (c ef v s l : Q) : In d D -> 0 <= ef -> nlp_feas Qar D E <= ef ->
  Qabs (s * v) <= c -> (s == d_it _ d - l \/ s == l - d_it _ d) ->
  Qabs ((d_val _ d - l) * v) <= c + ef * Qabs v.
Proof.
  intros Hd Pe Hf Hc Hs.
  unfold nlp_feas in Hf. cbn [afmax azero Qar] in Hf. apply Q.max_lub_iff in Hf. destruct Hf as [_ Hf].
  rewrite (inf_norm_map_le (ryd1 Qar)) in Hf by exact Pe. specialize (Hf d Hd). unfold ryd1 in Hf. cbn [asub Qar] in Hf.
  cbn [car Qar] in *.
  assert (Hc' : Qabs ((d_it Qar d - l) * v) <= c).
  { destruct Hs as [Hs|Hs].
    - rewrite <- Hs. exact Hc.
    - assert (Eq : (d_it Qar d - l) * v == - (s * v)) by (rewrite Hs; ring). rewrite Eq, Qabs_opp. exact Hc. }
  assert (Eq : (d_val Qar d - l) * v == (d_it Qar d - l) * v + - ((d_it Qar d - d_val Qar d) * v)) by ring.
  rewrite Eq. eapply Qle_trans; [apply Qabs_triangle|]. rewrite Qabs_opp.
  apply Qplus_le_compat; [exact Hc'|]. rewrite Qabs_Qmult. apply Qmult_le_compat_r; [exact Hf|apply Qabs_nonneg].
Qed.
