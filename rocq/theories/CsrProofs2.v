(** Reading rows, triplet to CSR, transposition. *)
From Coq Require Import List Bool Arith Lia Sorted Ring Field.
From Verif Require Import RingKit PackModel PackProofs SparseModel SparseSpec SparseProofs SparseProofs2 CsrModel CsrSpec CsrProofs.
Import ListNotations.

Lemma slice_concat {A} (bl : list (list A)) i : i < length bl ->
  firstn (length (nth i bl [])) (skipn (tot (firstn i (map (@length A) bl))) (concat bl)) = nth i bl [].
Proof.
  revert i. induction bl as [|b bl IH]; intros [|i] H; simpl in *; try lia.
  - rewrite firstn_app, Nat.sub_diag, firstn_all. simpl. apply app_nil_r.
  - rewrite skipn_app, skipn_all2 by lia. simpl.
    replace (length b + tot (firstn i (map (length (A:=A)) bl)) - length b) with (tot (firstn i (map (length (A:=A)) bl))) by lia.
    apply IH. lia.
Qed.
Lemma tot_concat {A} (bl : list (list A)) : tot (map (@length A) bl) = length (concat bl).
Proof. induction bl as [|b bl IH]; simpl; auto. rewrite app_length, IH. reflexivity. Qed.
Lemma tot_firstn_S w i : i < length w -> tot (firstn (S i) w) = tot (firstn i w) + nth i w 0.
Proof. revert i. induction w as [|c w IH]; intros [|i] H; simpl in *; try lia. rewrite IH by lia. lia. Qed.
Lemma tot_firstn_le w i : tot (firstn i w) <= tot w.
Proof. revert i. induction w as [|c w IH]; intros [|i]; simpl; try lia. specialize (IH i). lia. Qed.
Lemma nth_len {A} (bl : list (list A)) i : nth i (map (@length A) bl) 0 = length (nth i bl []).
Proof. revert i. induction bl as [|b bl IH]; intros [|i]; simpl; auto. Qed.
Lemma concat_map_map {A B} (f : A -> B) (l : list (list A)) : concat (map (map f) l) = map f (concat l).
Proof. symmetry. apply concat_map. Qed.

Section P.
Variable K : cfield.
Add Field kf : (fth K).
Notation entry := (entry K).
Notation csr := (csr K).
Notation junk := (junk K).

(** pattern of a CSR object *)
Definition shape (A : csr) (pat : list (list nat)) : Prop :=
  length pat = c_m A /\ c_nnz A = length (concat pat) /\ c_ptr A = psum 0 (map (@length nat) pat) /\
  c_col A = concat pat /\ length (c_val A) = c_nnz A /\ Forall (Forall (fun j => j < c_n A)) pat.
Definition rep (A : csr) (rows : list (list (nat * K))) : Prop :=
  shape A (pattern rows) /\ c_val A = map snd (concat rows).

Lemma map_len_pattern (rows : list (list (nat * K))) : map (@length nat) (pattern rows) = map (@length (nat * K)) rows.
Proof. unfold pattern. rewrite map_map. apply map_ext. intro. apply map_length. Qed.
Lemma pattern_bound (rows : list (list (nat * K))) n :
  Forall (Forall (fun p => fst p < n)) rows <-> Forall (Forall (fun j => j < n)) (pattern rows).
Proof.
  unfold pattern. rewrite !Forall_forall. split; intros H l Hl.
  - apply in_map_iff in Hl. destruct Hl as [r [<- Hr]]. specialize (H r Hr). rewrite Forall_forall in *. intros j Hj.
    apply in_map_iff in Hj. destruct Hj as [p [<- Hp]]. auto.
  - specialize (H (map fst l)). rewrite Forall_forall in *. intros p Hp. apply H.
    + apply in_map. auto.
    + apply in_map. auto.
Qed.
Lemma rep_stores A rows : rep A rows <-> stores A rows.
Proof.
  unfold rep, shape, stores. rewrite map_len_pattern, <- pattern_bound.
  assert (E1 : length (pattern rows) = length rows) by apply map_length.
  assert (E2 : concat (pattern rows) = map fst (concat rows)) by apply concat_map_map.
  assert (E3 : length (concat (pattern rows)) = length (concat rows)) by (rewrite E2; apply map_length).
  assert (TF : forall i, tot (firstn i (map (@length (nat * K)) rows)) = length (concat (firstn i rows))).
  { intro i. rewrite firstn_map. apply tot_concat. }
  split.
  - intros [[H1 [H2 [H3 [H4 [H5 H6]]]]] H7]. rewrite H3, psum_len, map_length.
    assert (L : length rows = c_m A) by lia.
    split; auto. split; [congruence|]. split; [lia|]. split; [|split; [|repeat split; auto; congruence]].
    + intros i r Hr. assert (i < length rows) by (apply nth_error_Some; congruence).
      rewrite !psum_nth by (rewrite map_length; lia). split; f_equal; [apply TF|].
      rewrite tot_firstn_S by (rewrite map_length; lia). rewrite TF, nth_len, (nth_error_nth _ _ _ Hr). lia.
    + rewrite psum_nth by (rewrite map_length; lia). f_equal. rewrite firstn_all2 by (rewrite map_length; lia).
      rewrite tot_concat. lia.
  - intros [H1 [H2 [H3 [H4 [H5 [H6 [H7 H8]]]]]]].
    split; [|auto]. split; [congruence|]. split; [congruence|]. split; [|split; [congruence|split; auto; rewrite H7, map_length; auto]].
    assert (G : forall i, nth_error (c_ptr A) i = nth_error (psum 0 (map (@length (nat * K)) rows)) i).
    { intro i. destruct (Nat.lt_ge_cases i (length rows)) as [Hi|Hi].
      - rewrite psum_nth by (rewrite map_length; lia). destruct (nth_error rows i) as [r|] eqn:E.
        + destruct (H4 i r E) as [-> _]. rewrite TF. reflexivity.
        + apply nth_error_None in E. lia.
      - destruct (Nat.eq_dec i (length rows)) as [->|N].
        + rewrite H1, H5, psum_nth by (rewrite map_length; lia). rewrite firstn_all2 by (rewrite map_length; lia).
          rewrite tot_concat, H2. reflexivity.
        + rewrite (proj2 (nth_error_None _ _)) by lia. symmetry. apply nth_error_None. rewrite psum_len, map_length. lia. }
    clear -G. revert G. generalize (psum 0 (map (@length (nat * K)) rows)) as l2. generalize (c_ptr A) as l1.
    induction l1 as [|x l1 IH]; intros [|y l2] G; auto.
    + specialize (G 0). discriminate.
    + specialize (G 0). discriminate.
    + f_equal; [specialize (G 0); simpl in G; congruence|]. apply IH. intro i. apply (G (S i)).
Qed.

Lemma shape_zip A pat : shape A pat -> exists rows, rep A rows /\ pattern rows = pat.
Proof.
  intros [H1 [H2 [H3 [H4 [H5 H6]]]]].
  assert (G : forall (pat : list (list nat)) (v : list K), length v = length (concat pat) ->
     exists rows, pattern rows = pat /\ map snd (concat rows) = v).
  { clear. induction pat as [|p pat IH]; intros v Hv; simpl in *.
    - exists []. destruct v; [auto|discriminate].
    - rewrite app_length in Hv. destruct (IH (skipn (length p) v)) as [rows [E1 E2]]; [rewrite skipn_length; lia|].
      exists (combine p (firstn (length p) v) :: rows).
      assert (L : length (firstn (length p) v) = length p) by (rewrite firstn_length; lia).
      split; simpl.
      + unfold pattern in *. simpl. rewrite E1. f_equal. revert L. generalize (firstn (length p) v) as u.
        clear. induction p as [|x p IH]; intros [|y u] L; simpl in *; try discriminate; auto. f_equal. apply IH. lia.
      + rewrite map_app, E2. transitivity (firstn (length p) v ++ skipn (length p) v); [|apply firstn_skipn].
        f_equal. revert L. generalize (firstn (length p) v) as u.
        clear. induction p as [|x p IH]; intros [|y u] L; simpl in *; try discriminate; auto. f_equal. apply IH. lia. }
  destruct (G pat (c_val A)) as [rows [E1 E2]]; [lia|]. exists rows. split; auto. split; [|auto].
  rewrite E1. repeat split; auto.
Qed.
Lemma shape_vals A pat v : shape A pat -> length v = c_nnz A -> shape (with_vals A v) pat.
Proof. intros [H1 [H2 [H3 [H4 [H5 H6]]]]] Hv. repeat split; auto. Qed.

Lemma crow_ok A rows i : rep A rows -> i < c_m A -> crow A i = Some (nth i rows []).
Proof.
  intros [[H1 [H2 [H3 [H4 [H5 H6]]]]] H7] Hi. unfold crow.
  assert (L : length rows = c_m A) by (rewrite <- H1; unfold pattern; rewrite map_length; auto).
  rewrite H3, map_len_pattern, !psum_nth by (rewrite map_length; lia). rewrite !Nat.add_0_l.
  rewrite tot_firstn_S by (rewrite map_length; lia). rewrite nth_len.
  set (a := tot (firstn i (map (@length (nat * K)) rows))).
  destruct (Nat.ltb_spec a (a + length (nth i rows []))) as [Hlt|Hge].
  - assert (B : a + length (nth i rows []) <= length (concat rows)).
    { unfold a. rewrite <- nth_len, <- tot_firstn_S by (rewrite map_length; lia). rewrite <- tot_concat. apply tot_firstn_le. }
    rewrite H4, H7. unfold pattern. rewrite concat_map_map, !map_length.
    replace (a + length (nth i rows []) <=? length (concat rows)) with true by (symmetry; apply Nat.leb_le; auto).
    cbn [andb]. replace (a + length (nth i rows []) - a) with (length (nth i rows [])) by lia.
    rewrite !skipn_map, !firstn_map. unfold a. rewrite slice_concat by lia. f_equal.
    clear. generalize (nth i rows []) as q. induction q as [|[j v] r IH]; simpl; auto. f_equal. auto.
  - assert (E : length (nth i rows []) = 0) by lia. apply length_zero_iff_nil in E. rewrite E. reflexivity.
Qed.
Lemma crows_ok A rows : rep A rows -> crows A = Some rows.
Proof.
  intro H. unfold crows.
  assert (L : length rows = c_m A) by (destruct H as [[H1 _] _]; rewrite <- H1; unfold pattern; rewrite map_length; auto).
  assert (G : forall n i, i + n = c_m A -> crows_from A n i = Some (skipn i rows)).
  { induction n as [|n IH]; intros i Hn; simpl.
    - rewrite skipn_all2 by lia. reflexivity.
    - rewrite (crow_ok A rows i H) by lia. rewrite IH by lia. f_equal.
      assert (Hi : i < length rows) by lia. clear -Hi. revert i Hi.
      induction rows as [|r rows IH]; intros [|i] Hi; simpl in *; try lia; auto. apply IH. lia. }
  rewrite (G (c_m A) 0) by lia. reflexivity.
Qed.

(** * entries of rows *)
Fixpoint ents_from (i : nat) (rows : list (list (nat * K))) : list entry :=
  match rows with [] => [] | r :: rs => map (fun p => (i, fst p, snd p)) r ++ ents_from (S i) rs end.
Definition ents rows := ents_from 0 rows.
Lemma ents_from_in e rows : forall i, In e (ents_from i rows) -> exists k p, nth_error rows k = Some p /\ row e = i + k /\ In (col e, val e) p.
Proof.
  induction rows as [|r rows IH]; intros i H; simpl in H; [destruct H|].
  apply in_app_or in H. destruct H as [H|H].
  - apply in_map_iff in H. destruct H as [p [<- Hp]]. exists 0, r. simpl. split; auto. split; [unfold row; simpl; lia|].
    destruct p. exact Hp.
  - destruct (IH _ H) as [k [p [E1 [E2 E3]]]]. exists (S k), p. split; auto. split; [lia|auto].
Qed.
Lemma mat_ents_from rows : forall i0 i j, mat (ents_from i0 rows) i j = if i0 <=? i then cmat rows (i - i0) j else f0.
Proof.
  induction rows as [|r rows IH]; intros i0 i j; simpl.
  - unfold cmat. destruct (i - i0); simpl; destruct (i0 <=? i); reflexivity.
  - rewrite mat_app, IH.
    assert (E : mat (map (fun p => (i0, fst p, snd p)) r) i j = if i0 =? i then lsum (map (fun p => if fst p =? j then snd p else f0) r) else f0).
    { induction r as [|p r IHr]; simpl.
      - destruct (i0 =? i); reflexivity.
      - rewrite mat_cons, row_mk, col_mk, val_mk, IHr. destruct (i0 =? i); simpl; [reflexivity|ring]. }
    rewrite E. destruct (Nat.eqb_spec i0 i) as [<-|N].
    + replace (S i0 <=? i0) with false by (symmetry; apply Nat.leb_gt; lia). rewrite Nat.leb_refl, Nat.sub_diag. unfold cmat. simpl. ring.
    + destruct (Nat.leb_spec i0 i) as [H|H].
      * replace (S i0 <=? i) with true by (symmetry; apply Nat.leb_le; lia).
        replace (i - i0) with (S (i - S i0)) by lia. unfold cmat. simpl. ring.
      * replace (S i0 <=? i) with false by (symmetry; apply Nat.leb_gt; lia). ring.
Qed.
Lemma mat_ents rows i j : mat (ents rows) i j = cmat rows i j.
Proof. unfold ents. rewrite mat_ents_from. simpl. rewrite Nat.sub_0_r. reflexivity. Qed.
Lemma ents_sorted rows : ordered rows -> sorted (ents rows).
Proof.
  unfold ents. generalize 0 as i. induction rows as [|r rows IH]; intros i H; simpl; [constructor|].
  inversion H; subst.
  assert (AP : forall (l1 l2 : list entry), sorted l1 -> sorted l2 -> (forall x y, In x l1 -> In y l2 -> row x < row y) -> sorted (l1 ++ l2)).
  { clear. induction l1 as [|x l1 IH]; intros l2 H1 H2 H3; simpl; auto. inversion H1; subst. constructor.
    - apply IH; auto. intros. apply H3; auto. right; auto.
    - apply Forall_forall. intros y Hy. apply in_app_or in Hy. destruct Hy as [Hy|Hy].
      + rewrite Forall_forall in H5. auto.
      + left. apply H3; auto. left; auto. }
  apply AP.
  - clear -H2. induction r as [|p r IH]; simpl; [constructor|]. inversion H2; subst. constructor; [apply IH; auto|].
    apply Forall_forall. intros y Hy. apply in_map_iff in Hy. destruct Hy as [q [<- Hq]]. right.
    rewrite !row_mk, !col_mk. rewrite Forall_forall in H3. auto.
  - apply IH. auto.
  - intros x y Hx Hy. apply in_map_iff in Hx. destruct Hx as [p [<- Hp]].
    apply ents_from_in in Hy. destruct Hy as [k [q [_ [E _]]]]. rewrite row_mk. lia.
Qed.
Lemma ents_len rows : length (ents rows) = length (concat rows).
Proof. unfold ents. generalize 0 as i. induction rows as [|r rows IH]; intro i; simpl; auto. rewrite !app_length, map_length, IH. auto. Qed.
Lemma ents_proj {B} (f : nat -> K -> B) rows : map (fun e : entry => f (col e) (val e)) (ents rows) = map (fun p => f (fst p) (snd p)) (concat rows).
Proof.
  unfold ents. generalize 0 as i. induction rows as [|r rows IH]; intro i; simpl; auto.
  rewrite !map_app, IH, map_map. f_equal.
Qed.

(** * rows of a sorted entry list *)
Lemma sorted_flat (l : list entry) m : row_sorted l -> (forall e, In e l -> row e < m) ->
  flat_map (fun i => only K i l) (seq 0 m) = l.
Proof.
  intros Hs Hm.
  assert (G : forall m a l, row_sorted l -> (forall e, In e l -> a <= row e < a + m) -> flat_map (fun i => only K i l) (seq a m) = l).
  { clear. induction m as [|m IH]; intros a l Hs Hl.
    - destruct l as [|e l]; auto. specialize (Hl e (or_introl eq_refl)). lia.
    - simpl. destruct (lead_spec K a l Hs) as [L1 [L2 [L3 L4]]]; [intros e He; apply Hl; auto|].
      rewrite <- L1. rewrite <- (firstn_skipn (lead K a l) l) at 3. f_equal.
      transitivity (flat_map (fun i => only K i (skipn (lead K a l) l)) (seq (S a) m)).
      + rewrite !flat_map_concat_map. f_equal. apply map_ext_in. intros i Hi. apply in_seq in Hi. symmetry. apply L3. lia.
      + apply IH.
        * rewrite <- (firstn_skipn (lead K a l) l) in Hs. apply ss_app in Hs. apply Hs.
        * intros e He. specialize (L2 e He). assert (In e l) by (rewrite <- (firstn_skipn (lead K a l) l); apply in_or_app; auto).
          specialize (Hl e H). lia. }
  apply G; auto. intros e He. specialize (Hm e He). lia.
Qed.
Definition rows_of (l : list entry) (m : nat) : list (list (nat * K)) :=
  map (fun i => map (fun e => (col e, val e)) (only K i l)) (seq 0 m).
Lemma cmat_rows_of l m i j : i < m -> cmat (rows_of l m) i j = mat l i j.
Proof.
  intro Hi. unfold cmat, rows_of. rewrite nth_map_seq by auto. rewrite map_map, <- (look_only K). reflexivity.
Qed.
Lemma concat_rows_of l m : row_sorted l -> (forall e, In e l -> row e < m) ->
  concat (rows_of l m) = map (fun e => (col e, val e)) l.
Proof.
  intros Hs Hm. unfold rows_of. transitivity (map (fun e => (col e, val e)) (flat_map (fun i => only K i l) (seq 0 m))).
  - rewrite flat_map_concat_map, concat_map, map_map. reflexivity.
  - rewrite sorted_flat; auto.
Qed.
Lemma ordered_rows_of l m : sorted l -> ordered (rows_of l m).
Proof.
  intro Hs. unfold ordered, rows_of. apply Forall_forall. intros r Hr. apply in_map_iff in Hr. destruct Hr as [i [<- _]].
  assert (C := only_csorted K l i Hs). induction (only K i l) as [|e q IH]; simpl; [constructor|].
  inversion C; subst. constructor; auto. rewrite Forall_forall in *. intros y Hy. apply in_map_iff in Hy. destruct Hy as [z [<- Hz]]. simpl. auto.
Qed.
Lemma bound_rows_of l m n : (forall e, In e l -> col e < n) -> Forall (Forall (fun p => fst p < n)) (rows_of l m).
Proof.
  intro H. apply Forall_forall. intros r Hr. apply in_map_iff in Hr. destruct Hr as [i [<- _]].
  apply Forall_forall. intros p Hp. apply in_map_iff in Hp. destruct Hp as [e [<- He]]. apply only_in in He. apply H. tauto.
Qed.

Lemma sorted_check_ok l : sorted l -> sorted_check K l = true.
Proof.
  induction l as [|a [|b l] IH]; intro H; auto. inversion H; subst.
  change (sorted_check K (a :: b :: l)) with
    ((row a <=? row b) && (negb (row a =? row b) || (col a <? col b)) && sorted_check K (b :: l)).
  rewrite Forall_forall in H3. assert (H4 := H3 b (or_introl eq_refl)).
  rewrite IH by auto. rewrite andb_true_r. destruct H4 as [H4|[H4 H5]].
  - replace (row a <=? row b) with true by (symmetry; apply Nat.leb_le; lia).
    destruct (Nat.eqb_spec (row a) (row b)); [lia|]. reflexivity.
  - rewrite H4, Nat.leb_refl, Nat.eqb_refl. simpl. apply Nat.ltb_lt. auto.
Qed.
Lemma counts_rows n (rs : list nat) : (forall r, In r rs -> r < n) ->
  counts n rs = Some (map (fun r => length (filter (fun k => k =? r) rs)) (seq 0 n)).
Proof.
  intro H. assert (C := counts_items nat n (map (fun r => (r, r)) rs)). rewrite map_map in C. simpl in C. rewrite map_id in C.
  rewrite C.
  - f_equal. apply map_ext. intro r. unfold grp. rewrite map_length. clear. induction rs as [|x rs IH]; simpl; auto.
    destruct (x =? r); simpl; auto.
  - intros p Hp. apply in_map_iff in Hp. destruct Hp as [x [<- Hx]]. simpl. auto.
Qed.

Lemma alloc_allocated J m n nnz : allocated K (alloc K J m n nnz).
Proof. unfold allocated, alloc. simpl. rewrite !map_length, !seq_length. auto. Qed.
Lemma sized_ok J (this : csr) m n nnz : allocated K this \/ c_nnz this = 0 -> 0 < nnz ->
  let t := sized K J this m n nnz in
  allocated K t /\ c_m t = m /\ c_n t = n /\ c_nnz t = nnz /\ (c_rs this = None -> c_rs t = None).
Proof.
  intros H Hn. unfold sized. destruct ((m =? c_m this) && (n =? c_n this) && (nnz =? c_nnz this)) eqn:E; simpl.
  - rewrite !andb_true_iff, !Nat.eqb_eq in E. destruct E as [[E1 E2] E3]. destruct H as [H|H]; [|lia]. auto.
  - split; [apply alloc_allocated|]. auto.
Qed.

Lemma form_symbolic_spec J this (M : trip K) :
  wf M -> sorted (t_ent M) -> t_ent M <> [] -> allocated K this \/ c_nnz this = 0 ->
  exists A, form_from_symbolic K J this M = Some A /\ c_m A = t_m M /\ c_n A = t_n M /\
    shape A (pattern (rows_of (t_ent M) (t_m M))).
Proof.
  intros W Hs Hne Ha. unfold form_from_symbolic.
  assert (Hpos : 0 < length (t_ent M)) by (destruct (t_ent M); [congruence|simpl; lia]).
  destruct (sized_ok J this (t_m M) (t_n M) _ Ha Hpos) as [[A1 [A2 A3]] [A4 [A5 [A6 A7]]]].
  set (t := sized K J this (t_m M) (t_n M) (length (t_ent M))) in *.
  destruct (Nat.eqb_spec (length (t_ent M)) 0); [lia|].
  rewrite sorted_check_ok by auto.
  replace (forallb (fun e => (row e <? t_m M) && (col e <? t_n M)) (t_ent M)) with true.
  2:{ symmetry. apply forallb_forall. intros e He. destruct (W e He). rewrite andb_true_iff, !Nat.ltb_lt. auto. }
  rewrite A1, A2, A4, A6, !Nat.eqb_refl. cbn [andb].
  rewrite counts_rows by (intros r Hr; apply in_map_iff in Hr; destruct Hr as [e [<- He]]; apply W; auto).
  assert (E : map (fun r => length (filter (fun k => k =? r) (map row (t_ent M)))) (seq 0 (t_m M)) =
              map (@length nat) (pattern (rows_of (t_ent M) (t_m M)))).
  { unfold pattern, rows_of. rewrite !map_map. apply map_ext. intro i. rewrite !map_length. unfold only.
    clear. induction (t_ent M) as [|e l IH]; simpl; auto. destruct (row e =? i); simpl; auto. }
  assert (Hm : forall e, In e (t_ent M) -> row e < t_m M) by (intros e He; apply W; auto).
  assert (C : concat (pattern (rows_of (t_ent M) (t_m M))) = map col (t_ent M)).
  { unfold pattern. rewrite concat_map_map, concat_rows_of by (auto; apply sorted_rows; auto). rewrite map_map. reflexivity. }
  rewrite E, psum_last, tot_concat, C, map_length, Nat.eqb_refl.
  eexists. split; [reflexivity|]. split; auto. split; auto.
  unfold shape. cbn [c_m c_n c_nnz c_ptr c_col c_val]. rewrite C, map_length. repeat split; auto.
  - unfold pattern, rows_of. rewrite !map_length, seq_length. auto.
  - lia.
  - apply pattern_bound. apply bound_rows_of. intros e He. apply W. auto.
Qed.
(** numeric refresh of values for a triplet with the same pattern *)
Definition same_pattern (l1 l2 : list entry) : Prop := map (fun e => (row e, col e)) l1 = map (fun e => (row e, col e)) l2.
Lemma pattern_rows_of_same l1 l2 m : same_pattern l1 l2 -> pattern (rows_of l1 m) = pattern (rows_of l2 m).
Proof.
  intro H. unfold pattern, rows_of. rewrite !map_map. apply map_ext. intro i. rewrite !map_map. cbn [fst].
  unfold same_pattern in H. revert l2 H. induction l1 as [|e l1 IH]; intros [|e2 l2] H; try discriminate; auto.
  simpl in H. injection H as H1 H2 H3. unfold only in *. simpl. rewrite H1. destruct (row e2 =? i); simpl; [rewrite H2; f_equal|]; apply IH; auto.
Qed.
Lemma same_len l1 l2 : same_pattern l1 l2 -> length l1 = length l2.
Proof. intro H. unfold same_pattern in H. apply (f_equal (@length _)) in H. rewrite !map_length in H. auto. Qed.
Lemma same_sorted l1 : forall l2, same_pattern l1 l2 -> sorted l1 -> sorted l2.
Proof.
  induction l1 as [|e l1 IH]; intros [|e2 l2] H Hs; try discriminate; auto.
  unfold same_pattern in H. simpl in H. injection H as H1 H2 H3. inversion Hs; subst. constructor; [apply IH; auto|].
  rewrite Forall_forall in *. intros y Hy.
  assert (Hin : In (row y, col y) (map (fun e => (row e, col e)) l1)) by (rewrite H3; apply in_map_iff; eauto).
  apply in_map_iff in Hin. destruct Hin as [x [E Hx]]. injection E as E1 E2. specialize (H5 x Hx). lia.
Qed.
Lemma same_wf (M M2 : trip K) : same_pattern (t_ent M) (t_ent M2) -> t_m M = t_m M2 -> t_n M = t_n M2 -> wf M -> wf M2.
Proof.
  intros H Hm Hn W e He. assert (Hin : In (row e, col e) (map (fun e => (row e, col e)) (t_ent M))).
  { unfold same_pattern in H. rewrite H. apply in_map_iff. eauto. }
  apply in_map_iff in Hin. destruct Hin as [x [E Hx]]. injection E as <- <-. rewrite <- Hm, <- Hn. apply W. auto.
Qed.

Lemma form_numeric_spec A (M : trip K) :
  wf M -> sorted (t_ent M) -> c_m A = t_m M -> c_n A = t_n M -> shape A (pattern (rows_of (t_ent M) (t_m M))) ->
  exists A', form_from_numeric K A M = Some A' /\ c_m A' = t_m M /\ c_n A' = t_n M /\ c_rs A' = c_rs A /\
    rep A' (rows_of (t_ent M) (t_m M)).
Proof.
  intros W Hs Hm Hn Hsh. assert (Hsh0 := Hsh). destruct Hsh as [H1 [H2 [H3 [H4 [H5 H6]]]]]. unfold form_from_numeric.
  assert (Hr : forall e, In e (t_ent M) -> row e < t_m M) by (intros e He; apply W; auto).
  assert (C : concat (pattern (rows_of (t_ent M) (t_m M))) = map col (t_ent M)).
  { unfold pattern. rewrite concat_map_map, concat_rows_of by (auto; apply sorted_rows; auto). rewrite map_map. reflexivity. }
  assert (L : c_nnz A = length (t_ent M)) by (rewrite H2, C, map_length; auto).
  rewrite H5, Hm, Hn, L, !Nat.eqb_refl. replace (length (c_ptr A) =? 0) with false.
  2:{ rewrite H3, psum_len. reflexivity. }
  cbn [negb andb]. eexists. split; [reflexivity|]. cbn [c_m c_n c_rs]. repeat (split; [auto; fail|]). split.
  - rewrite <- Hm, <- Hn, <- L at 1. apply (shape_vals A _ (map val (t_ent M))); auto. rewrite map_length. auto.
  - cbn [c_val]. rewrite concat_rows_of by (auto; apply sorted_rows; auto). rewrite map_map. reflexivity.
Qed.
End P.
