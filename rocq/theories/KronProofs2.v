(** Lemmas about the slices and the steps of the Kron reduction. *)
From Coq Require Import List Bool Arith Lia Sorted Permutation Ring Field.
From Verif Require Import RingKit KronModel KronSpec KronProofs.
Import ListNotations.
Open Scope nat_scope.

Lemma seq_incr n : forall a, StronglySorted lt (seq a n).
Proof.
  induction n as [|n IH]; intro a; simpl; constructor; auto. apply Forall_forall. intros x Hx. apply in_seq in Hx. lia.
Qed.
Lemma increasing_iff l : increasing l = true <-> StronglySorted lt l.
Proof.
  induction l as [|a [|b l] IH]; [split; auto; constructor|split; auto; repeat constructor|].
  change (increasing (a :: b :: l)) with ((a <? b) && increasing (b :: l)).
  rewrite andb_true_iff, IH, Nat.ltb_lt. split.
  - intros [H1 H2]. constructor; auto. inversion H2; subst. constructor; auto.
    rewrite Forall_forall in *. intros x Hx. apply H4 in Hx. lia.
  - intro H. inversion H; subst. inversion H3; subst. auto.
Qed.
Lemma idx_ok_iff b l : idx_ok b l = true <-> index_list b l.
Proof.
  unfold idx_ok, index_list. rewrite andb_true_iff, increasing_iff, forallb_forall, Forall_forall.
  split; intros [H1 H2]; split; auto; intros x Hx; apply Nat.ltb_lt; auto.
Qed.
Lemma list_nth (l : list nat) : l = map (fun k => nth k l 0) (seq 0 (length l)).
Proof.
  induction l as [|a l IH]; simpl; auto. f_equal. rewrite IH at 1. rewrite <- seq_shift, map_map. reflexivity.
Qed.
Lemma combine_map2 {A} (f : A -> nat) (l : list A) (g : A -> nat) : combine (map g l) (map f l) = map (fun k => (g k, f k)) l.
Proof. induction l; simpl; auto. now rewrite IHl. Qed.
Lemma labelled_eq l : labelled l = map (fun k => (k, nth k l 0)) (seq 0 (length l)).
Proof.
  unfold labelled. rewrite (list_nth l) at 2. rewrite <- (map_id (seq 0 (length l))) at 1. apply combine_map2.
Qed.
Lemma labelled_snd l : map snd (labelled l) = l.
Proof. rewrite labelled_eq, map_map. simpl. symmetry. apply list_nth. Qed.
Lemma labelled_fst l : map fst (labelled l) = seq 0 (length l).
Proof. rewrite labelled_eq, map_map. simpl. apply map_id. Qed.
Lemma skipn_labelled k l : skipn k (labelled l) = map (fun k => (k, nth k l 0)) (seq k (length l - k)).
Proof.
  rewrite labelled_eq, skipn_map. f_equal.
  revert k. assert (G : forall n a k, skipn k (seq a n) = seq (a + k) (n - k)).
  { induction n as [|n IH]; intros a k; simpl; [destruct k; reflexivity|].
    destruct k; simpl; [replace (a + 0) with a by lia; reflexivity|]. rewrite IH. f_equal; lia. }
  intro k. rewrite G. f_equal.
Qed.
Lemma incr_nth l : StronglySorted lt l -> forall i j, i < j -> j < length l -> nth i l 0 < nth j l 0.
Proof.
  induction 1 as [|a l H IH F]; simpl; intros i j Hij Hj; [lia|].
  destruct j; [lia|]. destruct i; [|apply IH; lia]. rewrite Forall_forall in F. apply F. apply nth_In. lia.
Qed.
Lemma incr_filter (f : nat * nat -> bool) (l : list (nat * nat)) : StronglySorted lt (map snd l) -> StronglySorted lt (map snd (filter f l)).
Proof.
  induction l as [|a l IH]; simpl; intro H; auto. inversion H; subst. destruct (f a); auto. simpl. constructor; auto.
  rewrite Forall_forall in *. intros x Hx. apply in_map_iff in Hx as [y [<- Hy]]. apply filter_In in Hy as [Hy _]. apply H3. apply in_map. exact Hy.
Qed.
Lemma incr_skipn k (l : list nat) : StronglySorted lt l -> StronglySorted lt (skipn k l).
Proof. revert l. induction k; intros l H; auto. destruct l; auto. simpl. inversion H; auto. Qed.

Section P.
Variable K : cfield.
Add Field kf : (fth K).
Notation elem := (nat * nat * K)%type.
Notation lookup := (lookup K). Notation taken := (taken K). Notation orz := (orz K).

Lemma lsum_filter {A} (f : A -> K) (g : A -> bool) l : lsum (map f (filter g l)) = lsum (map (fun x => if g x then f x else f0) l).
Proof. induction l as [|a l IH]; simpl; auto. destruct (g a); simpl; rewrite IH; auto. ring. Qed.
Lemma dense_flat {A} (g : A -> list elem) rs i j : dense (flat_map g rs) i j = lsum (map (fun q => dense (g q) i j) rs).
Proof. induction rs as [|q rs IH]; simpl; auto. rewrite dense_app, IH. reflexivity. Qed.
Lemma dense_taken (l : list elem) colsof (q : nat * nat) i j :
  dense (taken l colsof q) i j =
  if i =? fst q then lsum (map (fun p : nat * nat => if j =? fst p then orz (lookup l (snd q) (snd p)) else f0) (colsof (fst q) (snd q))) else f0.
Proof.
  unfold KronProofs.taken. rewrite dense_flat. destruct (Nat.eqb_spec i (fst q)) as [->|N].
  - apply lsum_ext. intros p _. destruct (lookup l (snd q) (snd p)) as [v|]; simpl; [|destruct (j =? fst p); reflexivity].
    rewrite dense_cons, Nat.eqb_refl. simpl. rewrite (Nat.eqb_sym (fst p) j). destruct (j =? fst p); unfold dense; simpl; ring.
  - apply lsum_zero. intros p _. destruct (lookup l (snd q) (snd p)) as [v|]; auto. rewrite dense_cons.
    destruct (Nat.eqb_spec (fst q) i); [congruence|]. simpl. unfold dense. simpl. ring.
Qed.
(** the meaning of a scan over all positions of a list of rows, whatever the columns of each row *)
Lemma dense_scan (l : list elem) colsof rows i j : i < length rows ->
  dense (flat_map (taken l colsof) (labelled rows)) i j =
  lsum (map (fun p : nat * nat => if j =? fst p then orz (lookup l (nth i rows 0) (snd p)) else f0) (colsof i (nth i rows 0))).
Proof.
  intro H. rewrite dense_flat, labelled_eq, map_map.
  rewrite (lsum_ext K _ (fun k => if i =? k then (fun k => lsum (map (fun p : nat * nat => if j =? fst p then orz (lookup l (nth k rows 0) (snd p)) else f0) (colsof k (nth k rows 0)))) k else f0)).
  - rewrite lsum_pick; auto; [apply seq_NoDup|apply in_seq; lia].
  - intros k _. rewrite dense_taken. reflexivity.
Qed.
Lemma pick_from (f : nat -> K) a n j (g : nat -> nat) :
  lsum (map (fun p : nat * nat => if j =? fst p then f (snd p) else f0) (map (fun k => (k, g k)) (seq a n)))
  = if (a <=? j) && (j <? a + n) then f (g j) else f0.
Proof.
  rewrite map_map. simpl. destruct (Nat.leb_spec a j), (Nat.ltb_spec j (a + n)); simpl;
    try (apply lsum_zero; intros k Hk; apply in_seq in Hk; destruct (Nat.eqb_spec j k); [lia|reflexivity]).
  rewrite (lsum_pick K (fun k => f (g k))); auto; [apply seq_NoDup|apply in_seq; lia].
Qed.

Lemma taken_in (l : list elem) colsof q e : In e (taken l colsof q) -> fst (fst e) = fst q /\ exists p, In p (colsof (fst q) (snd q)) /\ snd (fst e) = fst p.
Proof.
  unfold KronProofs.taken. intro H. apply in_flat_map in H as [p [Hp H]].
  destruct (lookup l (snd q) (snd p)); simpl in H; [|tauto]. destruct H as [<-|[]]. simpl. eauto.
Qed.
Lemma row_major_append (a b : list elem) : row_major a -> row_major b -> (forall x y, In x a -> In y b -> pos_lt x y) -> row_major (a ++ b).
Proof.
  induction a as [|e a IH]; simpl; intros HA HB H; auto. apply row_major_cons in HA as [H1 H2]. constructor.
  - apply IH; auto.
  - apply Forall_forall. intros x Hx. apply in_app_or in Hx as [Hx|Hx]; auto. rewrite Forall_forall in H2. auto.
Qed.
Lemma taken_major (l : list elem) colsof q : StronglySorted lt (map fst (colsof (fst q) (snd q))) -> row_major (taken l colsof q).
Proof.
  unfold KronProofs.taken. set (cs := colsof (fst q) (snd q)). clearbody cs. intro H.
  induction cs as [|p cs IH]; simpl; [constructor|]. inversion H; subst. apply row_major_append; auto.
  - destruct (lookup l (snd q) (snd p)); repeat constructor.
  - intros x y Hx Hy. destruct (lookup l (snd q) (snd p)); simpl in Hx; [|tauto]. destruct Hx as [<-|[]].
    apply in_flat_map in Hy as [p' [Hp' Hy]]. destruct (lookup l (snd q) (snd p')); simpl in Hy; [|tauto]. destruct Hy as [<-|[]].
    right. simpl. split; auto. rewrite Forall_forall in H3. apply H3, in_map, Hp'.
Qed.
Lemma scan_major (l : list elem) colsof rs : StronglySorted lt (map fst rs) ->
  (forall q, In q rs -> StronglySorted lt (map fst (colsof (fst q) (snd q)))) -> row_major (flat_map (taken l colsof) rs).
Proof.
  induction rs as [|q rs IH]; simpl; intros H C; [constructor|]. inversion H; subst. apply row_major_append.
  - apply taken_major. auto.
  - apply IH; auto.
  - intros x y Hx Hy. apply taken_in in Hx as [Hx _]. apply in_flat_map in Hy as [q' [Hq Hy]]. apply taken_in in Hy as [Hy _].
    left. rewrite Hx, Hy. rewrite Forall_forall in H3. apply H3, in_map, Hq.
Qed.
Lemma scan_inside (l : list elem) colsof rows m : (forall k, In k rows -> forall p, In p (colsof (fst k) (snd k)) -> fst p < m) ->
  forall n, (forall k, In k rows -> fst k < n) -> inside n m (flat_map (taken l colsof) rows).
Proof.
  intros H n R. apply Forall_forall. intros e He. apply in_flat_map in He as [q [Hq He]]. apply taken_in in He as [E1 [p [Hp E2]]].
  rewrite E1, E2. split; eauto.
Qed.
Lemma labelled_in l p : In p (labelled l) -> fst p < length l /\ snd p = nth (fst p) l 0.
Proof. rewrite labelled_eq, in_map_iff. intros [k [<- Hk]]. apply in_seq in Hk. simpl. split; [lia|reflexivity]. Qed.

(** new_slice *)
Lemma slice_spec (A : smat K) rows cols : row_major (sm_e A) ->
  index_list (sm_m A) rows -> (rows = [] \/ index_list (sm_n A) cols) ->
  StronglySorted lt cols ->
  exists S, new_slice A rows cols = Some S /\ sm_m S = length rows /\ sm_n S = length cols /\
    row_major (sm_e S) /\ inside (length rows) (length cols) (sm_e S) /\
    (forall i j, i < length rows -> j < length cols -> dense (sm_e S) i j = dense (sm_e A) (nth i rows 0) (nth j cols 0)).
Proof.
  intros H R C SC. unfold new_slice.
  assert (E : idx_ok (sm_m A) rows && ((length rows =? 0) || idx_ok (sm_n A) cols) = true).
  { apply andb_true_iff. split; [now apply idx_ok_iff|]. apply orb_true_iff. destruct C as [->|C]; [left; reflexivity|right; now apply idx_ok_iff]. }
  rewrite E. eexists. split; [reflexivity|]. simpl.
  rewrite scan_rows_spec; auto; [|rewrite labelled_snd; apply R|intros; rewrite labelled_snd; auto].
  rewrite sort_id.
  2:{ apply scan_major; [rewrite labelled_fst; apply seq_incr|]. intros. rewrite labelled_fst; apply seq_incr. }
  do 2 (split; [reflexivity|]). split; [|split].
  - apply scan_major; [rewrite labelled_fst; apply seq_incr|]. intros. rewrite labelled_fst; apply seq_incr.
  - apply scan_inside; intros k Hk; [|apply labelled_in in Hk; tauto]. intros p Hp. apply labelled_in in Hp; tauto.
  - intros i j Hi Hj. rewrite dense_scan by auto. rewrite labelled_eq.
    rewrite (pick_from (fun c => orz (lookup (sm_e A) (nth i rows 0) c))). simpl. destruct (Nat.ltb_spec j (length cols)); [|lia].
    rewrite dense_lookup by auto. reflexivity.
Qed.

(** new_sliceFromSymToSym *)
Lemma slice_sym_sym_spec (A : smat K) idxs : row_major (sm_e A) ->
  index_list (sm_m A) idxs -> (idxs = [] \/ Forall (fun a => a < sm_n A) idxs) ->
  exists S, new_slice_sym_sym A idxs = Some S /\ sm_m S = length idxs /\ sm_n S = length idxs /\
    row_major (sm_e S) /\ inside (length idxs) (length idxs) (sm_e S) /\
    (forall i j, i < length idxs -> j < length idxs ->
       dense (sm_e S) i j = if i <=? j then dense (sm_e A) (nth i idxs 0) (nth j idxs 0) else f0).
Proof.
  intros H R C. unfold new_slice_sym_sym.
  assert (E : idx_ok (sm_m A) idxs && ((length idxs =? 0) || forallb (fun a => a <? sm_n A) idxs) = true).
  { apply andb_true_iff. split; [now apply idx_ok_iff|]. apply orb_true_iff. destruct C as [->|C]; [left; reflexivity|right].
    rewrite forallb_forall. rewrite Forall_forall in C. intros x Hx. apply Nat.ltb_lt. auto. }
  rewrite E. eexists. split; [reflexivity|]. simpl.
  assert (F : forall k, map fst (skipn k (labelled idxs)) = seq k (length idxs - k)).
  { intro k. rewrite skipn_labelled, map_map. simpl. apply map_id. }
  rewrite scan_rows_spec; auto.
  2:{ rewrite labelled_snd. apply R. }
  2:{ intros q Hq. rewrite <- skipn_map, labelled_snd. apply incr_skipn, R. }
  do 2 (split; [reflexivity|]). split; [|split].
  - apply scan_major; [rewrite labelled_fst; apply seq_incr|]. intros. rewrite F. apply seq_incr.
  - apply scan_inside; intros k Hk; [|apply labelled_in in Hk; tauto]. intros p Hp.
    apply (in_map fst) in Hp. rewrite F in Hp. apply in_seq in Hp. lia.
  - intros i j Hi Hj. rewrite dense_scan by auto. rewrite skipn_labelled.
    rewrite (pick_from (fun c => orz (lookup (sm_e A) (nth i idxs 0) c))).
    destruct (Nat.leb_spec i j); simpl; auto. destruct (Nat.ltb_spec j (i + (length idxs - i))); [|lia].
    rewrite dense_lookup by auto. reflexivity.
Qed.

(** new_sliceFromSym: the two passes *)
Lemma filter_skipn_eq (row : nat) ki (cols : list nat) :
  (forall kj, kj < ki -> kj < length cols -> nth kj cols 0 < row) ->
  filter (fun p => row <=? snd p) (skipn ki (labelled cols)) = filter (fun p => row <=? snd p) (labelled cols).
Proof.
  intro H. rewrite <- (firstn_skipn ki (labelled cols)) at 2.
  assert (N : filter (fun p => row <=? snd p) (firstn ki (labelled cols)) = []).
  { assert (G : forall p, In p (firstn ki (labelled cols)) -> (row <=? snd p) = false).
    { intros p Hp. apply In_nth_error in Hp as [m Hm].
      assert (Hmk : m < ki).
      { assert (m < length (firstn ki (labelled cols))) by (apply nth_error_Some; congruence). rewrite firstn_length in H0. lia. }
      assert (Hm' : nth_error (labelled cols) m = Some p).
      { rewrite <- (firstn_skipn ki (labelled cols)). rewrite nth_error_app1; auto. apply nth_error_Some. congruence. }
      rewrite labelled_eq, nth_error_map in Hm'. destruct (nth_error (seq 0 (length cols)) m) as [k|] eqn:Q; [|discriminate].
      simpl in Hm'. injection Hm' as <-. simpl. apply Nat.leb_gt.
      assert (Hl : m < length cols). { rewrite <- (seq_length (length cols) 0). apply nth_error_Some. congruence. }
      apply (nth_error_nth _ _ 0) in Q. rewrite seq_nth in Q by auto. simpl in Q. subst k. auto. }
    revert G. generalize (firstn ki (labelled cols)). induction l as [|p l IH]; simpl; intro G; auto. rewrite G by auto. auto. }
  rewrite filter_app. rewrite N. reflexivity.
Qed.
Lemma dense_swap (l : list elem) i j : dense (map (fun e : elem => let '(a, b, v) := e in (b, a, v)) l) i j = dense l j i.
Proof.
  induction l as [|[[a b] v] l IH]; simpl; auto. rewrite !dense_cons, IH. f_equal. rewrite andb_comm. reflexivity.
Qed.
Lemma pick_filter (f : nat -> K) (g : nat -> bool) l j : j < length l ->
  lsum (map (fun p : nat * nat => if j =? fst p then f (snd p) else f0) (filter (fun p => g (snd p)) (labelled l)))
  = if g (nth j l 0) then f (nth j l 0) else f0.
Proof.
  intro H. rewrite lsum_filter.
  rewrite (lsum_ext K _ (fun p : nat * nat => if j =? fst p then (fun c => if g c then f c else f0) (snd p) else f0)).
  - rewrite labelled_eq. rewrite (pick_from (fun c => if g c then f c else f0)). simpl. destruct (Nat.ltb_spec j (length l)); [reflexivity|lia].
  - intros p _. destruct (g (snd p)), (j =? fst p); reflexivity.
Qed.
Lemma slice_sym_spec (A : smat K) rows cols : row_major (sm_e A) ->
  index_list (sm_m A) rows -> index_list (sm_n A) cols ->
  Forall (fun a => a < sm_m A) cols -> Forall (fun a => a < sm_n A) rows ->
  (forall ki kj, kj < ki -> ki < length rows -> kj < length cols -> nth kj cols 0 < nth ki rows 0) ->
  exists es, new_slice_sym A rows cols = Some (length rows, length cols, map Some es) /\
    inside (length rows) (length cols) es /\ weakly_row_major es /\
    (forall i j, i < length rows -> j < length cols ->
       dense es i j = from_upper (dense (sm_e A)) (nth i rows 0) (nth j cols 0)).
Proof.
  intros H R C R2 C2 Q. unfold new_slice_sym.
  assert (E : idx_ok (sm_m A) rows && ((length rows =? 0) || idx_ok (sm_n A) cols) && forallb (fun a => a <? sm_m A) cols &&
     ((length cols =? 0) || forallb (fun a => a <? sm_n A) rows) = true).
  { rewrite !andb_true_iff, !orb_true_iff. repeat split.
    - now apply idx_ok_iff.
    - right. now apply idx_ok_iff.
    - rewrite forallb_forall. rewrite Forall_forall in R2. intros x Hx. apply Nat.ltb_lt. auto.
    - right. rewrite forallb_forall. rewrite Forall_forall in C2. intros x Hx. apply Nat.ltb_lt. auto. }
  rewrite E.
  assert (S1 : forall q, In q (labelled rows) -> StronglySorted lt (map snd (filter (fun p => snd q <=? snd p) (labelled cols)))).
  { intros q _. apply incr_filter. rewrite labelled_snd. apply C. }
  assert (P1 : sym_pass1 (sm_e A) rows cols = flat_map (taken (sm_e A) (fun _ row => filter (fun p => row <=? snd p) (labelled cols))) (labelled rows)).
  { unfold sym_pass1. rewrite scan_rows_spec; auto; [|rewrite labelled_snd; apply R|].
    - rewrite !flat_map_concat_map. f_equal. apply map_ext_in. intros q Hq. unfold KronProofs.taken. f_equal.
      apply labelled_in in Hq as [Hq Hq']. apply filter_skipn_eq. intros kj H1 H2. rewrite Hq'. apply Q; auto.
    - intros q Hq. apply incr_filter. rewrite <- skipn_map, labelled_snd. apply incr_skipn, C. }
  assert (P0 : sym_pass1_count (sm_e A) rows cols = length (sym_pass1 (sm_e A) rows cols)).
  { rewrite P1. unfold sym_pass1_count. rewrite scan_rows_spec; auto. rewrite labelled_snd. apply R. }
  assert (P2 : sym_pass2 (sm_e A) rows cols = map (fun e : elem => let '(a, b, v) := e in (b, a, v))
      (flat_map (taken (sm_e A) (fun _ row => filter (fun p => row <? snd p) (labelled rows))) (labelled cols))).
  { unfold sym_pass2. rewrite scan_rows_spec; auto; [rewrite labelled_snd; apply C|].
    intros q _. apply incr_filter. rewrite labelled_snd. apply R. }
  cbv zeta. rewrite P0, app_length, Nat.leb_refl, Nat.eqb_refl.
  exists (sort_indexes (sym_pass1 (sm_e A) rows cols ++ sym_pass2 (sm_e A) rows cols)). split; [reflexivity|].
  split; [|split; [apply sort_weak|]].
  - unfold inside. rewrite Forall_forall. intros e He. rewrite <- sort_perm in He. apply in_app_or in He as [He|He].
    + rewrite P1 in He. revert e He. apply Forall_forall.
      apply scan_inside; intros k Hk; [|apply labelled_in in Hk; tauto]. intros p Hp. apply filter_In in Hp as [Hp _]. apply labelled_in in Hp; tauto.
    + rewrite P2 in He. apply in_map_iff in He as [[[a b] v] [<- He]].
      assert (I : inside (length cols) (length rows) (flat_map (taken (sm_e A) (fun _ row => filter (fun p => row <? snd p) (labelled rows))) (labelled cols))).
      { apply scan_inside; intros k Hk; [|apply labelled_in in Hk; tauto]. intros p Hp. apply filter_In in Hp as [Hp _]. apply labelled_in in Hp; tauto. }
      unfold inside in I. rewrite Forall_forall in I. apply I in He. simpl in *. tauto.
  - intros i j Hi Hj. rewrite <- (dense_perm K _ _ i j (sort_perm K _)), dense_app, P1, P2, dense_swap.
    rewrite !dense_scan by auto.
    rewrite (pick_filter (fun c => orz (lookup (sm_e A) (nth i rows 0) c)) (fun c => nth i rows 0 <=? c)) by auto.
    rewrite (pick_filter (fun c => orz (lookup (sm_e A) (nth j cols 0) c)) (fun c => nth j cols 0 <? c)) by auto.
    unfold from_upper. rewrite !dense_lookup by auto.
    destruct (Nat.leb_spec (nth i rows 0) (nth j cols 0)), (Nat.ltb_spec (nth j cols 0) (nth i rows 0)); try lia; ring.
Qed.
End P.
