(** Transposition, diagonal matrices, scaling, diagonal updates. *)
From Coq Require Import List Bool Arith Lia Sorted Ring Field.
From Verif Require Import RingKit PackModel PackProofs SparseModel SparseSpec SparseProofs SparseProofs2 CsrModel CsrSpec CsrProofs CsrProofs2.
Import ListNotations.

Lemma grp_map {A E} (k : E -> nat) (f : E -> A) r l : grp r (map (fun e => (k e, f e)) l) = map f (filter (fun e => k e =? r) l).
Proof. unfold grp. induction l as [|e l IH]; simpl; auto. destruct (k e =? r); simpl; rewrite IH; auto. Qed.
Lemma incr_ok l : StronglySorted lt l -> incr l = true.
Proof.
  induction l as [|a [|b l] IH]; intro H; auto. inversion H; subst. change (incr (a :: b :: l)) with ((a <? b) && incr (b :: l)).
  rewrite IH by auto. rewrite andb_true_r. apply Nat.ltb_lt. rewrite Forall_forall in H3. apply H3. left; auto.
Qed.
Lemma incr_iff l : incr l = true <-> StronglySorted lt l.
Proof.
  split; [|apply incr_ok]. intro H. apply Sorted_StronglySorted; [intros x y z; lia|].
  induction l as [|a [|b l] IH]; auto. change (incr (a :: b :: l)) with ((a <? b) && incr (b :: l)) in H.
  apply andb_true_iff in H. destruct H as [H1 H2]. apply Nat.ltb_lt in H1. constructor; auto.
Qed.

Section P.
Variable K : cfield.
Add Field kf : (fth K).
Notation entry := (entry K).
Notation csr := (csr K).
Notation junk := (junk K).

Lemma ordered_pattern (rows : list (list (nat * K))) : ordered rows <-> Forall (StronglySorted lt) (pattern rows).
Proof.
  assert (E : forall r : list (nat * K), StronglySorted (fun a b => fst a < fst b) r <-> StronglySorted lt (map fst r)).
  { induction r as [|p r IH]; simpl; [split; constructor|]. split; intro H; inversion H; subst; constructor; try apply IH; auto.
    - rewrite Forall_forall in *. intros j Hj. apply in_map_iff in Hj. destruct Hj as [q [<- Hq]]. auto.
    - rewrite Forall_forall in *. intros q Hq. apply H3. apply in_map. auto. }
  unfold ordered, pattern. rewrite !Forall_forall. split; intros H r Hr.
  - apply in_map_iff in Hr. destruct Hr as [q [<- Hq]]. apply E. auto.
  - apply E. apply H. apply in_map. auto.
Qed.
Lemma rows_check_ok A pat : shape K A pat -> Forall (StronglySorted lt) pat -> rows_check K A = true.
Proof.
  intros Hs Ho. destruct (shape_zip K A pat Hs) as [rows [Hr Hp]]. unfold rows_check. rewrite (crows_ok K A rows Hr).
  apply forallb_forall. intros r Hin. apply incr_ok. rewrite Forall_forall in Ho. apply Ho. rewrite <- Hp. unfold pattern.
  apply in_map. auto.
Qed.

Definition trows (l : list entry) (m : nat) : list (list (nat * K)) :=
  map (fun r => map (fun e => (row e, val e)) (filter (fun e => col e =? r) l)) (seq 0 m).
Lemma cmat_trows l m i j : j < m -> cmat (trows l m) j i = mat l i j.
Proof.
  intro Hj. unfold cmat, trows. rewrite nth_map_seq by auto. rewrite map_map. cbn [fst snd]. unfold mat.
  induction l as [|e l IH]; auto. simpl. rewrite <- IH. rewrite andb_comm. destruct (col e =? j); simpl; [reflexivity|ring].
Qed.
Lemma ordered_trows l m : sorted l -> ordered (trows l m).
Proof.
  intro Hs. apply Forall_forall. intros q Hq. apply in_map_iff in Hq. destruct Hq as [r [<- _]].
  induction l as [|e l IH]; simpl; [constructor|]. inversion Hs; subst. destruct (Nat.eqb_spec (col e) r) as [E|E]; [|auto].
  simpl. constructor; [auto|]. apply Forall_forall. intros y Hy. apply in_map_iff in Hy. destruct Hy as [z [<- Hz]].
  apply filter_In in Hz. destruct Hz as [Hz Ez]. apply Nat.eqb_eq in Ez. rewrite Forall_forall in H2. specialize (H2 z Hz). simpl. lia.
Qed.
Lemma bound_trows l m n : (forall e, In e l -> row e < n) -> Forall (Forall (fun p => fst p < n)) (trows l m).
Proof.
  intro H. apply Forall_forall. intros r Hr. apply in_map_iff in Hr. destruct Hr as [i [<- _]].
  apply Forall_forall. intros p Hp. apply in_map_iff in Hp. destruct Hp as [e [<- He]]. apply filter_In in He. apply H. tauto.
Qed.
Lemma trows_blocks l m : concat (trows l m) = blocks (fun r => map (fun e => (row e, val e)) (filter (fun e => col e =? r) l)) m.
Proof. reflexivity. Qed.
Lemma trows_len l m : (forall e, In e l -> col e < m) -> length (concat (trows l m)) = length l.
Proof.
  intro H. rewrite trows_blocks, blocks_len.
  rewrite <- (map_length (fun e => (col e, e)) l). rewrite <- (grp_total _ m (map (fun e : entry => (col e, e)) l)).
  - f_equal. apply map_ext. intro r. rewrite grp_map, map_length, map_id. reflexivity.
  - intros p Hp. apply in_map_iff in Hp. destruct Hp as [e [<- He]]. simpl. auto.
Qed.
Lemma trows_widths {A} (f : entry -> A) l m :
  map (fun r => length (grp r (map (fun e => (col e, f e)) l))) (seq 0 m) = map (@length nat) (pattern (trows l m)).
Proof. unfold pattern, trows. rewrite !map_map. apply map_ext. intro r. rewrite grp_map, !map_length. reflexivity. Qed.

Lemma transpose_symbolic_spec J (this : csr) m n (l : list entry) :
  sorted l -> (forall e, In e l -> col e < m /\ row e < n) -> l <> [] ->
  allocated K this \/ c_nnz this = 0 -> c_rs this = None ->
  exists A, transpose_symbolic K J this m n (map (fun e => (col e, row e)) l) = Some A /\ c_m A = m /\ c_n A = n /\
    shape K A (pattern (trows l m)) /\ c_rs A = Some (removelast (c_ptr A)).
Proof.
  intros Hs Hb Hne Ha Hrs. unfold transpose_symbolic. rewrite map_length.
  assert (Hpos : 0 < length l) by (destruct l; [congruence|simpl; lia]).
  destruct (sized_ok K J this m n _ Ha Hpos) as [[A1 [A2 A3]] [A4 [A5 [A6 A7]]]].
  set (t := sized K J this m n (length l)) in *.
  destruct (Nat.eqb_spec (length l) 0); [lia|]. rewrite A7 by auto. rewrite A1, A4, Nat.eqb_refl. cbn [andb].
  replace (forallb _ _) with true.
  2:{ symmetry. apply forallb_forall. intros k Hk. apply in_map_iff in Hk. destruct Hk as [e [<- He]]. simpl. apply Nat.ltb_lt. apply Hb; auto. }
  assert (Hk : forall p, In p (map (fun e : entry => (col e, row e)) l) -> fst p < m).
  { intros p Hp. apply in_map_iff in Hp. destruct Hp as [e [<- He]]. apply Hb; auto. }
  rewrite counts_items by auto. rewrite trows_widths.
  assert (SP := scatter_spec _ m (map (fun e : entry => (col e, row e)) l) (c_col t) Hk).
  rewrite map_length, trows_widths in SP. cbv zeta in SP. rewrite SP by lia.
  rewrite psum_last, tot_concat. 
  assert (L : length (concat (pattern (trows l m))) = length l).
  { unfold pattern. rewrite concat_map_map, map_length. apply trows_len. intros e He. apply Hb; auto. }
  rewrite L. simpl (0 + _). rewrite Nat.eqb_refl.
  assert (C : blocks (fun r => grp r (map (fun e : entry => (col e, row e)) l)) m = concat (pattern (trows l m))).
  { unfold blocks, pattern, trows. rewrite map_map. f_equal. apply map_ext. intro r. rewrite grp_map, map_map. reflexivity. }
  rewrite C. rewrite rollback_psum.
  2:{ unfold pattern, trows. destruct l as [|e l']; [congruence|]. destruct (Hb e (or_introl eq_refl)). destruct m; [lia|]. simpl. discriminate. }
  set (A := Csr _ _ _ _ _ _ _).
  assert (Sh : shape K A (pattern (trows l m))).
  { unfold shape, A. cbn [c_m c_n c_nnz c_ptr c_col c_val]. rewrite L. repeat split; auto.
    - unfold pattern, trows. rewrite !map_length, seq_length. auto.
    - lia.
    - apply pattern_bound. apply bound_trows. intros e He. apply Hb; auto. }
  rewrite (rows_check_ok A _ Sh) by (apply ordered_pattern, ordered_trows; auto).
  exists A. repeat (split; [auto; fail|]). reflexivity.
Qed.

Lemma transpose_numeric_spec (this : csr) m n (l : list entry) :
  sorted l -> (forall e, In e l -> col e < m /\ row e < n) -> l <> [] ->
  c_m this = m -> c_n this = n -> shape K this (pattern (trows l m)) -> c_rs this = Some (removelast (c_ptr this)) ->
  exists A, transpose_numeric K this m n (map (fun e => (col e, val e)) l) = Some A /\ c_m A = m /\ c_n A = n /\
    rep K A (trows l m) /\ c_rs A = Some (removelast (c_ptr A)).
Proof.
  intros Hs Hb Hne Hm Hn Hsh Hrs. assert (Hsh0 := Hsh). destruct Hsh as [H1 [H2 [H3 [H4 [H5 H6]]]]].
  unfold transpose_numeric. rewrite Hrs, map_length.
  assert (L : length (concat (pattern (trows l m))) = length l).
  { unfold pattern. rewrite concat_map_map, map_length. apply trows_len. intros e He. apply Hb; auto. }
  rewrite Hm, Hn, !Nat.eqb_refl. rewrite (rows_check_ok this _ Hsh0) by (apply ordered_pattern, ordered_trows; auto).
  replace (length (c_ptr this) =? 0) with false by (rewrite H3, psum_len; reflexivity).
  rewrite H2, L, Nat.eqb_refl. cbn [negb andb].
  assert (Hk : forall p, In p (map (fun e : entry => (col e, val e)) l) -> fst p < m).
  { intros p Hp. apply in_map_iff in Hp. destruct Hp as [e [<- He]]. apply Hb; auto. }
  assert (SP := scatter_spec _ m (map (fun e : entry => (col e, val e)) l) (c_val this) Hk).
  rewrite map_length, trows_widths in SP. cbv zeta in SP. rewrite H3, SP by lia.
  rewrite rollback_psum.
  2:{ unfold pattern, trows. destruct l as [|e l']; [congruence|]. destruct (Hb e (or_introl eq_refl)). destruct m; [lia|]. simpl. discriminate. }
  eexists. split; [reflexivity|]. cbn [c_m c_n c_rs c_ptr]. split; auto. split; auto. split; [|reflexivity].
  assert (C : blocks (fun r => grp r (map (fun e : entry => (col e, val e)) l)) m = map snd (concat (trows l m))).
  { rewrite <- concat_map_map. unfold blocks, trows. rewrite map_map. f_equal. apply map_ext. intro r. rewrite grp_map, map_map. reflexivity. }
  split; [|exact C].
  unfold shape. cbn [c_m c_n c_nnz c_ptr c_col c_val].
  rewrite L, C, map_length, trows_len by (intros e He; apply Hb; auto). subst m n. repeat split; auto.
Qed.

(** * CSR sources *)
Lemma combine_ents {B} (f : nat -> nat * K -> B) (rows : list (list (nat * K))) : forall i,
  concat (map (fun p => map (f (fst p)) (snd p)) (combine (seq i (length rows)) rows)) =
  map (fun e : entry => f (row e) (col e, val e)) (ents_from K i rows).
Proof.
  induction rows as [|r rows IH]; intro i; simpl; auto. rewrite IH, map_app, map_map. f_equal.
  apply map_ext. intros [j v]. reflexivity.
Qed.
Lemma rep_len A rows : rep K A rows -> length rows = c_m A.
Proof. intros [[H _] _]. rewrite <- H. unfold pattern. rewrite map_length. auto. Qed.
Lemma rep_nnz A rows : rep K A rows -> c_nnz A = length (concat rows).
Proof. intros [[_ [H _]] _]. rewrite H. unfold pattern. rewrite concat_map_map, map_length. auto. Qed.
Lemma rep_bound A rows i p : rep K A rows -> In p (nth i rows []) -> fst p < c_n A.
Proof.
  intros [[_ [_ [_ [_ [_ H]]]]] _] Hp. apply pattern_bound in H. rewrite Forall_forall in H.
  destruct (nth_in_or_default i rows []) as [Hi|E]; [|rewrite E in Hp; destruct Hp].
  specialize (H _ Hi). rewrite Forall_forall in H. auto.
Qed.
Lemma ents_bound A rows e : rep K A rows -> In e (ents K rows) -> col e < c_n A /\ row e < c_m A.
Proof.
  intros H He. assert (L := rep_len A rows H). unfold ents in He. apply ents_from_in in He. destruct He as [k [p [E1 [E2 E3]]]].
  assert (k < length rows) by (apply nth_error_Some; congruence).
  split; [|lia]. apply (rep_bound A rows k (col e, val e) H). rewrite (nth_error_nth _ _ _ E1). auto.
Qed.
Lemma trows_pattern l l2 m : same_pattern K l l2 -> pattern (trows l m) = pattern (trows l2 m).
Proof.
  intro H. unfold pattern, trows. rewrite !map_map. apply map_ext. intro i. rewrite !map_map. cbn [fst].
  unfold same_pattern in H. revert l2 H. induction l as [|e l1 IH]; intros [|e2 l2] H; try discriminate; auto.
  simpl in H. injection H as H1 H2 H3. simpl. rewrite H2. destruct (col e2 =? i); simpl; [rewrite H1; f_equal|]; apply IH; auto.
Qed.
Lemma ents_pattern r1 r2 : pattern r1 = pattern r2 -> same_pattern K (ents K r1) (ents K r2).
Proof.
  unfold ents, same_pattern. generalize 0 as i. revert r2. induction r1 as [|a r1 IH]; intros [|b r2] i H; try discriminate; auto.
  simpl in *. injection H as H1 H2. rewrite !map_app, !map_map. f_equal; [|exact (IH r2 (S i) H2)].
  transitivity (map (fun j => (i, j)) (map fst a)); [rewrite map_map; reflexivity|]. rewrite H1, map_map. reflexivity.
Qed.

Lemma transpose_symbolic_csr_spec J (this M : csr) rows :
  rep K M rows -> ordered rows -> 0 < c_nnz M -> allocated K this \/ c_nnz this = 0 -> c_rs this = None ->
  exists A, transpose_symbolic_csr K J this M = Some A /\ c_m A = c_n M /\ c_n A = c_m M /\
    shape K A (pattern (trows (ents K rows) (c_n M))) /\ c_rs A = Some (removelast (c_ptr A)).
Proof.
  intros Hr Ho Hn Ha Hrs. unfold transpose_symbolic_csr.
  destruct (Nat.eqb_spec (c_nnz M) 0); [lia|]. rewrite (crows_ok K M rows Hr). rewrite (rep_nnz M rows Hr), Nat.eqb_refl.
  replace (seq 0 (c_m M)) with (seq 0 (length rows)) by (rewrite (rep_len M rows Hr); auto). rewrite (combine_ents (fun i e => (fst e, i))). cbn [fst].
  apply transpose_symbolic_spec; auto.
  - apply ents_sorted; auto.
  - intros e He. apply (ents_bound M rows e Hr). auto.
  - intro E. assert (F := ents_len K rows). rewrite (rep_nnz M rows Hr) in Hn. change (ents K rows = []) in E. rewrite E in F. simpl in F. lia.
Qed.
Lemma transpose_numeric_csr_spec (this M : csr) rows :
  rep K M rows -> ordered rows -> 0 < c_nnz M -> c_m this = c_n M -> c_n this = c_m M ->
  shape K this (pattern (trows (ents K rows) (c_n M))) -> c_rs this = Some (removelast (c_ptr this)) ->
  exists A, transpose_numeric_csr K this M = Some A /\ c_m A = c_n M /\ c_n A = c_m M /\
    rep K A (trows (ents K rows) (c_n M)) /\ c_rs A = Some (removelast (c_ptr A)).
Proof.
  intros Hr Ho Hn Hm1 Hn1 Hsh Hrs. unfold transpose_numeric_csr.
  rewrite (crows_ok K M rows Hr). rewrite (rep_nnz M rows Hr), Nat.eqb_refl.
  assert (E : concat rows = map (fun e : entry => (col e, val e)) (ents K rows)).
  { rewrite (ents_proj K (fun a b => (a, b))). rewrite <- (map_id (concat rows)) at 1. apply map_ext. intros []; reflexivity. }
  rewrite E. apply transpose_numeric_spec; auto.
  - apply ents_sorted; auto.
  - intros e He. apply (ents_bound M rows e Hr). auto.
  - intro F. assert (G := ents_len K rows). rewrite F in G. rewrite (rep_nnz M rows Hr) in Hn. simpl in G. lia.
Qed.
Lemma cmat_trows_ents rows n i j : j < n -> cmat (trows (ents K rows) n) j i = cmat rows i j.
Proof. intro H. rewrite cmat_trows by auto. apply mat_ents. Qed.

(** * diagonal matrices *)
Definition drows (D : list K) : list (list (nat * K)) := map (fun p => [p]) (combine (seq 0 (length D)) D).
Lemma drows_concat (D : list K) : concat (drows D) = combine (seq 0 (length D)) D.
Proof. unfold drows. generalize (combine (seq 0 (length D)) D) as l. induction l as [|x l IH]; simpl; auto. f_equal. auto. Qed.
Lemma combine_proj {A B} (a : list A) : forall b : list B, length a = length b -> map fst (combine a b) = a /\ map snd (combine a b) = b.
Proof. induction a as [|x a IH]; intros [|y b] H; try discriminate; auto. simpl in *. destruct (IH b) as [-> ->]; auto. Qed.
Lemma psum_ones n : forall s, psum s (repeat 1 n) = seq s (S n).
Proof. induction n as [|n IH]; intro s; auto. cbn [repeat psum]. rewrite IH. rewrite Nat.add_1_r. reflexivity. Qed.
Lemma drows_pattern (D : list K) : pattern (drows D) = map (fun i => [i]) (seq 0 (length D)).
Proof.
  unfold pattern, drows. rewrite map_map. cbn [map].
  destruct (combine_proj (seq 0 (length D)) D) as [E _]; [rewrite seq_length; auto|].
  rewrite <- E at 2. rewrite map_map. reflexivity.
Qed.
Lemma drows_nth (D : list K) i : i < length D -> nth i (drows D) [] = [(i, at_ D i)].
Proof.
  intro H. unfold drows. rewrite (nth_map_err (fun p => [p]) _ i (0, f0)) by (rewrite combine_length, seq_length; lia).
  rewrite combine_nth by (rewrite seq_length; auto). rewrite seq_nth by auto. reflexivity.
Qed.
Lemma cmat_drows (D : list K) i j : i < length D -> cmat (drows D) i j = if i =? j then at_ D i else f0.
Proof. intro H. unfold cmat. rewrite drows_nth by auto. simpl. destruct (i =? j); ring. Qed.
Lemma ordered_drows (D : list K) : ordered (drows D).
Proof. apply ordered_pattern. rewrite drows_pattern. apply Forall_forall. intros r Hr. apply in_map_iff in Hr. destruct Hr as [i [<- _]]. repeat constructor. Qed.
Lemma diag_symbolic_spec J (this : csr) (D : list K) : allocated K this \/ c_nnz this = 0 -> 0 < length D ->
  exists A, diag_symbolic K J this (length D) = Some A /\ c_m A = length D /\ c_n A = length D /\ shape K A (pattern (drows D)).
Proof.
  intros Ha Hpos. unfold diag_symbolic.
  destruct (sized_ok K J this (length D) (length D) _ Ha Hpos) as [[A1 [A2 A3]] [A4 [A5 [A6 A7]]]].
  set (t := sized K J this _ _ _) in *. rewrite A1, A2, A4, A6, !Nat.eqb_refl. cbn [andb].
  eexists. split; [reflexivity|]. split; auto. split; auto. unfold shape. cbn [c_m c_n c_nnz c_ptr c_col c_val].
  rewrite drows_pattern. rewrite !map_map, !map_length, !seq_length. cbn [length].
  assert (E : forall n a, concat (map (fun i => [i]) (seq a n)) = seq a n) by (induction n; intro a; simpl; f_equal; auto).
  rewrite E, seq_length. repeat split; auto.
  - replace (map (fun _ => 1) (seq 0 (length D))) with (repeat 1 (length D)); [rewrite psum_ones; auto|].
    assert (G : forall n a, repeat 1 n = map (fun _ : nat => 1) (seq a n)) by (induction n; intro a; simpl; f_equal; auto).
    apply G.
  - lia.
  - apply Forall_forall. intros r Hr. apply in_map_iff in Hr. destruct Hr as [i [<- Hi]]. apply in_seq in Hi. repeat constructor. lia.
Qed.
Lemma diag_numeric_spec (A : csr) (D : list K) : c_m A = length D -> c_n A = length D -> shape K A (pattern (drows D)) ->
  exists A', diag_numeric K A D = Some A' /\ c_m A' = length D /\ c_n A' = length D /\ rep K A' (drows D).
Proof.
  intros Hm Hn Hsh. assert (Hsh0 := Hsh). destruct Hsh as [H1 [H2 [H3 [H4 [H5 H6]]]]].
  assert (L : c_nnz A = length D).
  { rewrite H2. unfold pattern. rewrite concat_map_map, map_length, drows_concat, combine_length, seq_length. lia. }
  unfold diag_numeric. rewrite H5, Hm, Hn, L, !Nat.eqb_refl. cbn [andb]. eexists. split; [reflexivity|].
  split; auto. split; auto. split.
  - rewrite <- Hm at 1. rewrite <- Hn at 1. rewrite <- L. apply (shape_vals K A _ D); auto.
  - cbn [c_val]. rewrite drows_concat. symmetry. apply combine_proj. rewrite seq_length. auto.
Qed.
End P.
