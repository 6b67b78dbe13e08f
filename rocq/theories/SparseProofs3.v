From Coq Require Import List Bool Arith Lia Ring Field Sorted.
From Verif Require Import RingKit PackModel PackProofs SparseModel SparseSpec SparseProofs SparseProofs2.
Import ListNotations.

Section P.
Variable K : cfield.
Add Field kf : (fth K).
Notation entry := (entry K).

(** * Consecutive writes *)
Lemma put_all_spec (es : list entry) : forall l k, k + length es <= length l -> put_all K l k es = Some (slots l k es).
Proof.
  induction es as [|e es IH]; intros l k H; simpl.
  - unfold slots. simpl. rewrite Nat.add_0_r, firstn_skipn. reflexivity.
  - unfold put. simpl in H. rewrite upd_spec by lia.
    assert (Hlen : length (firstn k l ++ [e]) = S k) by (rewrite app_length, firstn_length; simpl; lia).
    replace (firstn k l ++ e :: skipn (S k) l) with ((firstn k l ++ [e]) ++ skipn (S k) l)
      by (rewrite <- app_assoc; reflexivity).
    rewrite IH by (rewrite app_length, skipn_length, Hlen; lia).
    unfold slots. rewrite firstn_app_len by auto. simpl length.
    rewrite skipn_app, (skipn_all2 (firstn k l ++ [e])) by lia. rewrite Hlen.
    replace (S k + length es - S k) with (length es) by lia. rewrite skipn_skip.
    replace (S k + length es) with (k + S (length es)) by lia.
    rewrite <- app_assoc. reflexivity.
Qed.
Lemma put_all_none (es : list entry) : forall l k, length l < k + length es -> 0 < length es -> put_all K l k es = None.
Proof.
  induction es as [|e es IH]; intros l k H H0; simpl in *; [lia|].
  unfold put. destruct (upd l k e) as [l'|] eqn:E; auto. apply upd_len in E. apply IH; lia.
Qed.
Lemma put_all_app (a b : list entry) : forall l k, put_all K l k (a ++ b) =
  match put_all K l k a with Some l' => put_all K l' (k + length a) b | None => None end.
Proof.
  induction a as [|e a IH]; intros l k; simpl; [rewrite Nat.add_0_r; auto|].
  destruct (put K l k e); auto. rewrite IH. destruct (put_all K l0 (S k) a); auto. f_equal. lia.
Qed.
Lemma put_all_len (es : list entry) : forall l k l', put_all K l k es = Some l' -> length l' = length l.
Proof.
  induction es as [|e es IH]; intros l k l' H; simpl in H; [congruence|].
  unfold put in H. destruct (upd l k e) eqn:E; [|discriminate]. apply upd_len in E. apply IH in H. lia.
Qed.
Lemma put_fold (g : nat -> entry) st n : forall a l,
  ofold (fun k l => put K l (st + k) (g k)) (seq a n) l = put_all K l (st + a) (map g (seq a n)).
Proof.
  induction n as [|n IH]; intros a l; simpl; auto. destruct (put K l (st + a) (g a)); auto.
  rewrite IH. f_equal. lia.
Qed.

(** * Selected rows *)
Lemma copy_row_spec src rs rd : forall dst k, copy_row K dst k rs rd src =
  match put_all K dst k (map (fun e => (rd, col e, val e)) (firstn (lead K rs src) src)) with
  | Some d => Some (d, k + lead K rs src, skipn (lead K rs src) src) | None => None end.
Proof.
  induction src as [|e src IH]; intros dst k; simpl.
  - rewrite Nat.add_0_r. reflexivity.
  - destruct (row e =? rs); simpl.
    + destruct (put K dst k (rd, col e, val e)) as [d|]; auto. rewrite IH.
      destruct (put_all K d (S k) _); auto. do 3 f_equal. lia.
    + rewrite Nat.add_0_r. reflexivity.
Qed.
Lemma skip_rows_spec i src : row_sorted src -> row_sorted (skip_rows K i src) /\
  (forall e, In e (skip_rows K i src) -> i <= row e) /\ (forall j, i <= j -> only K j (skip_rows K i src) = only K j src).
Proof.
  induction src as [|e src IH]; intro H; simpl; [split; [constructor|split; [intros e []|auto]]|].
  inversion H; subst. destruct (Nat.ltb_spec (row e) i) as [He|He].
  - destruct (IH H2) as [I1 [I2 I3]]. split; auto. split; auto. intros j Hj. rewrite I3 by auto.
    destruct (Nat.eqb_spec (row e) j); [lia|reflexivity].
  - split; auto. split; auto. rewrite Forall_forall in H3. intros x [<-|Hx]; auto. specialize (H3 x Hx). lia.
Qed.

Definition rows_block (src : list entry) (rows : list (nat * nat)) : list entry :=
  flat_map (fun p => row_as src (fst p) (snd p)) rows.
Lemma copy_rows_loop_spec rows (src0 : list entry) : forall dst k src, row_sorted src ->
  StronglySorted (fun a b => fst a < fst b) rows ->
  (forall p, In p rows -> only K (fst p) src = only K (fst p) src0) ->
  copy_rows_loop K dst k rows src =
  match put_all K dst k (rows_block src0 rows) with
  | Some d => Some (d, k + length (rows_block src0 rows)) | None => None end.
Proof.
  induction rows as [|[rs rd] rows IH]; intros dst k src Hs Hr Ho; simpl.
  - rewrite Nat.add_0_r. reflexivity.
  - inversion Hr; subst. rewrite Forall_forall in H2.
    destruct (skip_rows_spec rs src Hs) as [S1 [S2 S3]].
    destruct (lead_spec K rs (skip_rows K rs src) S1 S2) as [L1 [L2 [L3 L4]]].
    rewrite copy_row_spec, L1.
    assert (Ho1 : only K rs src = only K rs src0) by (apply (Ho (rs, rd)); left; auto).
    rewrite S3, Ho1 by lia.
    change (map (fun e => (rd, col e, val e)) (only K rs src0)) with (row_as src0 rs rd).
    rewrite put_all_app.
    destruct (put_all K dst k (row_as src0 rs rd)) as [d|] eqn:Ed; auto.
    assert (Hlead : lead K rs (skip_rows K rs src) = length (row_as src0 rs rd)).
    { unfold row_as. rewrite map_length. change (filter (fun e => row e =? rs) src0) with (only K rs src0).
      rewrite <- Ho1, <- (S3 rs) by lia. rewrite <- L1, firstn_length. lia. }
    rewrite Hlead. rewrite IH; auto.
    + destruct (put_all K d _ (rows_block src0 rows)); auto. rewrite app_length. do 2 f_equal. lia.
    + rewrite <- Hlead. rewrite <- (firstn_skipn (lead K rs (skip_rows K rs src)) (skip_rows K rs src)) in S1.
      apply ss_app in S1. apply S1.
    + intros p Hp. specialize (H2 p Hp). cbn [fst] in H2. rewrite <- Hlead. rewrite L3 by auto. rewrite S3 by lia.
      apply Ho. right. auto.
Qed.

Lemma mat_row_as src rs rd i j : mat (row_as src rs rd) i j = if rd =? i then mat (K:=K) src rs j else f0.
Proof.
  induction src as [|e src IH].
  - destruct (rd =? i); reflexivity.
  - replace (row_as (e :: src) rs rd) with (if row e =? rs then (rd, col e, val e) :: row_as src rs rd else row_as src rs rd)
      by (unfold row_as; simpl; destruct (row e =? rs); reflexivity).
    rewrite mat_cons. destruct (row e =? rs); simpl.
    + rewrite mat_cons, IH, row_mk, col_mk, val_mk. destruct (rd =? i); simpl; [reflexivity|ring].
    + rewrite IH. destruct (rd =? i); [ring|reflexivity].
Qed.

(** rows [idxs] of the source become rows 0,1,.. of the destination *)
Lemma combine_sorted (l : list nat) : forall s, StronglySorted lt l ->
  StronglySorted (fun a b => fst a < fst b) (combine l (seq s (length l))).
Proof.
  induction l as [|x l IH]; intros s H; simpl; constructor; inversion H; subst; auto.
  apply Forall_forall. intros [a b] Hab. apply in_combine_l in Hab. rewrite Forall_forall in H3. simpl. auto.
Qed.
Lemma mat_rows_block src (idxs : list nat) i j : i < length idxs ->
  mat (rows_block src (combine idxs (seq 0 (length idxs)))) i j = mat src (nth i idxs 0) j.
Proof.
  intro Hi. unfold rows_block.
  assert (G : forall s, s <= i -> i < s + length idxs ->
    mat (flat_map (fun p => row_as src (fst p) (snd p)) (combine idxs (seq s (length idxs)))) i j = mat src (nth (i - s) idxs 0) j).
  { clear Hi. induction idxs as [|x idxs IH]; intros s H1 H2; simpl in *; [lia|].
    rewrite mat_app, mat_row_as. destruct (Nat.eqb_spec s i) as [->|Hn].
    - rewrite Nat.sub_diag.
      assert (Z : mat (flat_map (fun p => row_as src (fst p) (snd p)) (combine idxs (seq (S i) (length idxs)))) i j = f0).
      { unfold mat. rewrite lsum_flat. apply lsum_zero. intros [a b] Hab. apply in_combine_r in Hab. apply in_seq in Hab.
        fold (mat (row_as src (fst (a, b)) (snd (a, b))) i j). rewrite mat_row_as. simpl.
        destruct (Nat.eqb_spec b i); [lia|auto]. }
      rewrite Z. ring.
    - rewrite IH by lia. replace (i - s) with (S (i - S s)) by lia. ring. }
  rewrite G by lia. rewrite Nat.sub_0_r. reflexivity.
Qed.

Lemma copy_rows_from_spec (this src : trip K) idxs :
  row_sorted (t_ent src) -> StronglySorted lt idxs -> (forall i, In i idxs -> i < t_m src) ->
  t_m this = length idxs -> t_n this = t_n src ->
  length (t_ent this) = length (rows_block (t_ent src) (combine idxs (seq 0 (length idxs)))) ->
  exists r, copy_rows_from K this src idxs = Some r /\ t_m r = t_m this /\ t_n r = t_n this /\
    length (t_ent r) = length (t_ent this) /\
    t_ent r = flat_map (fun k => row_as (t_ent src) (nth k idxs 0) k) (seq 0 (length idxs)) /\
    forall i j, i < length idxs -> mat (t_ent r) i j = mat (t_ent src) (nth i idxs 0) j.
Proof.
  intros Hs Hi Hin Hm Hn Hnnz.
  assert (Hle : length idxs <= t_m src).
  { assert (ND : NoDup idxs). { clear -Hi. induction Hi as [|x l Hl IH Hx]; constructor; auto.
      intro Hc. rewrite Forall_forall in Hx. specialize (Hx x Hc). lia. }
    rewrite <- (seq_length (t_m src) 0). apply NoDup_incl_length; auto. intros x Hx. apply in_seq. specialize (Hin x Hx). lia. }
  assert (Hlen : length (t_ent this) <= length (t_ent src)).
  { rewrite Hnnz. clear -Hi. generalize 0 as s. unfold rows_block.
    assert (G : forall l s, StronglySorted lt l -> length (flat_map (fun p => row_as (t_ent src) (fst p) (snd p)) (combine l (seq s (length l))))
       = length (filter (fun e => existsb (Nat.eqb (row e)) l) (t_ent src))).
    { induction l as [|x l IH]; intros s Hl; simpl.
      - induction (t_ent src); simpl; auto.
      - inversion Hl; subst. rewrite app_length, (IH _ H1). unfold row_as. rewrite map_length. clear IH. rewrite Forall_forall in H2.
        induction (t_ent src) as [|e es IH]; simpl; auto.
        destruct (Nat.eqb_spec (row e) x) as [E|E]; simpl.
        + replace (existsb (Nat.eqb (row e)) l) with false; [simpl; lia|]. symmetry.
          destruct (existsb (Nat.eqb (row e)) l) eqn:Ex; auto. apply existsb_exists in Ex. destruct Ex as [y [Hy Ey]].
          apply Nat.eqb_eq in Ey. specialize (H2 y Hy). lia.
        + destruct (existsb (Nat.eqb (row e)) l); simpl; lia. }
    intro s. rewrite G by auto. clear. induction (t_ent src) as [|e es IH]; simpl; auto.
    destruct (existsb _ _); simpl; lia. }
  unfold copy_rows_from.
  replace ((t_m this =? length idxs) && (length (t_ent this) <=? length (t_ent src)) && (t_n this =? t_n src) && (length idxs <=? t_m src)) with true.
  2:{ symmetry. rewrite !andb_true_iff, !Nat.leb_le, !Nat.eqb_eq. auto. }
  rewrite (copy_rows_loop_spec _ (t_ent src)) by (auto using combine_sorted).
  set (blk := rows_block _ _) in *. rewrite put_all_spec by lia. simpl. rewrite Hnnz, Nat.eqb_refl.
  eexists. split; [reflexivity|]. simpl.
  assert (HS : slots (t_ent this) 0 blk = blk).
  { unfold slots. simpl. rewrite skipn_all2 by lia. apply app_nil_r. }
  rewrite HS. split; auto. split; auto. split; [auto|]. split.
  - unfold blk, rows_block. clear. change 0 with (0 + 0) at 1. 
    assert (G : forall l pre, flat_map (fun p => row_as (t_ent src) (fst p) (snd p)) (combine l (seq (length pre) (length l))) =
        flat_map (fun k => row_as (t_ent src) (nth k (pre ++ l) 0) k) (seq (length pre) (length l))).
    { induction l as [|x l IH]; intro pre; simpl; auto. rewrite app_nth2, Nat.sub_diag by lia. simpl. f_equal.
      specialize (IH (pre ++ [x])). rewrite app_length in IH. simpl in IH. rewrite Nat.add_1_r in IH. rewrite IH.
      rewrite <- app_assoc. reflexivity. }
    apply (G idxs []).
  - intros i j Hij. apply mat_rows_block. auto.
Qed.

(** consecutive rows into a block *)
Lemma seq_lt_sorted n : forall a, StronglySorted lt (seq a n).
Proof.
  induction n as [|n IH]; intro a; simpl; constructor; auto. apply Forall_forall. intros x Hx. apply in_seq in Hx. lia.
Qed.
Definition block_rows (src : list entry) (rs n rd : nat) : list entry :=
  flat_map (fun k => row_as src (rs + k) (rd + k)) (seq 0 n).
Lemma rows_block_seq src n : forall rs rd, rows_block src (combine (seq rs n) (seq rd n)) = block_rows src rs n rd.
Proof.
  unfold rows_block, block_rows.
  assert (G : forall n a rs rd, flat_map (fun p => row_as src (fst p) (snd p)) (combine (seq (rs + a) n) (seq (rd + a) n)) =
     flat_map (fun k => row_as src (rs + k) (rd + k)) (seq a n)).
  { clear. induction n as [|n IH]; intros a rs rd; simpl; auto. f_equal. rewrite <- !Nat.add_succ_r. apply IH. }
  intros. specialize (G n 0 rs rd). rewrite !Nat.add_0_r in G. exact G.
Qed.
Lemma copy_rows_block_spec (this src : trip K) rs n rd st :
  row_sorted (t_ent src) -> n + rs <= t_m src -> n + rd <= t_m this -> t_n src <= t_n this ->
  length (t_ent src) <= length (t_ent this) ->
  st + length (block_rows (t_ent src) rs n rd) <= length (t_ent this) ->
  exists r, copy_rows_block_from K this src rs n rd st = Some r /\ t_m r = t_m this /\ t_n r = t_n this /\
    t_ent r = slots (t_ent this) st (block_rows (t_ent src) rs n rd).
Proof.
  intros Hs H1 H2 H3 H4 H5. unfold copy_rows_block_from.
  replace ((length (t_ent src) <=? length (t_ent this)) && (t_n src <=? t_n this) && (n + rs <=? t_m src) && (n + rd <=? t_m this)) with true.
  2:{ symmetry. rewrite !andb_true_iff, !Nat.leb_le. auto. }
  rewrite (copy_rows_loop_spec _ (t_ent src)); auto.
  2:{ replace (seq rd n) with (seq rd (length (seq rs n))) by (rewrite seq_length; auto). apply combine_sorted. apply seq_lt_sorted. }
  rewrite rows_block_seq. rewrite put_all_spec by auto. eexists. split; [reflexivity|]. auto.
Qed.
Lemma mat_block_rows src rs n rd i j : mat (block_rows src rs n rd) i j =
  if (rd <=? i) && (i <? rd + n) then mat (K:=K) src (rs + (i - rd)) j else f0.
Proof.
  unfold block_rows. unfold mat. rewrite lsum_flat.
  rewrite (lsum_ext _ _ (fun k => if k + rd =? i then mat src (rs + k) j else f0)).
  2:{ intros k Hk. change (mat (row_as src (rs + k) (rd + k)) i j = if k + rd =? i then mat src (rs + k) j else f0).
      rewrite mat_row_as. rewrite (Nat.add_comm rd k). reflexivity. }
  rewrite (seq_pick K 0 n rd (fun k => k + rd =? i) (fun k => mat src (rs + k) j) i) by auto.
  simpl. rewrite (Nat.add_comm n rd). reflexivity.
Qed.

(** * Submatrix copies *)
Definition shifted (tr od : bool) (src : list entry) (dr dc : nat) : list entry :=
  map (fun e => if tr then (dr + col e, dc + row e, val e) else (dr + row e, dc + col e, val e))
      (filter (fun e => negb (od && (row e =? col e))) src).
Lemma copy_sub_loop_spec tr od dr dc src : forall dst k, copy_sub_loop K tr od dr dc dst k src =
  match put_all K dst k (shifted tr od src dr dc) with
  | Some d => Some (d, k + length (shifted tr od src dr dc)) | None => None end.
Proof.
  unfold shifted. induction src as [|e src IH]; intros dst k; simpl.
  - rewrite Nat.add_0_r. auto.
  - destruct (od && (row e =? col e)); simpl; auto.
    destruct (put K dst k _) as [d|]; auto. rewrite IH. destruct (put_all K d _ _); auto. do 2 f_equal. lia.
Qed.
Lemma copy_submatrix_spec (tr : bool) (this src : trip K) dr dc st od :
  let m := if tr then t_n src else t_m src in let n := if tr then t_m src else t_n src in
  m + dr <= t_m this -> n + dc <= t_n this -> length (t_ent src) <= length (t_ent this) ->
  (st + length (shifted tr od (t_ent src) dr dc) <= length (t_ent this) ->
   exists r, copy_submatrix K tr this src dr dc st od = Some r /\ t_m r = t_m this /\ t_n r = t_n this /\
     t_ent r = slots (t_ent this) st (shifted tr od (t_ent src) dr dc)) /\
  (length (t_ent this) < st + length (shifted tr od (t_ent src) dr dc) ->
   copy_submatrix K tr this src dr dc st od = None).
Proof.
  intros m n H1 H2 H3. split; intro H4; unfold copy_submatrix; fold m; fold n.
  - replace ((length (t_ent src) <=? length (t_ent this)) && (n + dc <=? t_n this) && (m + dr <=? t_m this) && (st <=? length (t_ent this))) with true.
    2:{ symmetry. rewrite !andb_true_iff, !Nat.leb_le. lia. }
    rewrite copy_sub_loop_spec, put_all_spec by auto.
    replace (st + length (shifted tr od (t_ent src) dr dc) <=? length (t_ent this)) with true by (symmetry; apply Nat.leb_le; auto).
    eexists. split; [reflexivity|]. auto.
  - destruct (_ && _) eqn:E; auto. rewrite !andb_true_iff, !Nat.leb_le in E.
    rewrite copy_sub_loop_spec. rewrite put_all_none by lia. auto.
Qed.
Lemma mat_shifted tr od src dr dc i j : mat (shifted tr od src dr dc) i j =
  if (dr <=? i) && (dc <=? j) && negb (od && (i - dr =? j - dc))
  then (if tr then mat (K:=K) src (j - dc) (i - dr) else mat src (i - dr) (j - dc)) else f0.
Proof.
  unfold shifted. induction src as [|e src IH]; simpl.
  - unfold mat; simpl. destruct (_ && _), tr; auto.
  - destruct tr.
    + rewrite mat_cons. destruct (od && (row e =? col e)) eqn:Eo; simpl.
      * rewrite IH. destruct ((dr <=? i) && (dc <=? j) && negb (od && (i - dr =? j - dc))) eqn:Eb; auto.
        rewrite andb_true_iff, Nat.eqb_eq in Eo. destruct Eo as [-> Eo].
        rewrite !andb_true_iff, !Nat.leb_le, negb_true_iff in Eb. simpl in Eb. destruct Eb as [Eb1 Eb2].
        apply Nat.eqb_neq in Eb2.
        destruct (Nat.eqb_spec (row e) (j - dc)); destruct (Nat.eqb_spec (col e) (i - dr)); simpl; try lia; ring.
      * rewrite mat_cons, row_mk, col_mk, val_mk, IH.
        destruct (Nat.leb_spec dr i); simpl.
        2:{ destruct (Nat.eqb_spec (dr + col e) i); [lia|]. simpl. ring. }
        destruct (Nat.leb_spec dc j); simpl.
        2:{ destruct (Nat.eqb_spec (dc + row e) j); [lia|]. rewrite andb_false_r. ring. }
        replace (dr + col e =? i) with (col e =? i - dr) by (apply eq_true_iff_eq; rewrite !Nat.eqb_eq; lia).
        replace (dc + row e =? j) with (row e =? j - dc) by (apply eq_true_iff_eq; rewrite !Nat.eqb_eq; lia).
        rewrite (andb_comm (col e =? i - dr)).
        destruct (od && (i - dr =? j - dc)) eqn:Ed; simpl; auto.
        rewrite andb_true_iff, Nat.eqb_eq in Ed. destruct Ed as [-> Ed]. simpl in Eo. apply Nat.eqb_neq in Eo.
        destruct (Nat.eqb_spec (row e) (j - dc)); destruct (Nat.eqb_spec (col e) (i - dr)); simpl; try lia; ring.
    + rewrite mat_cons. destruct (od && (row e =? col e)) eqn:Eo; simpl.
      * rewrite IH. destruct ((dr <=? i) && (dc <=? j) && negb (od && (i - dr =? j - dc))) eqn:Eb; auto.
        rewrite andb_true_iff, Nat.eqb_eq in Eo. destruct Eo as [-> Eo].
        rewrite !andb_true_iff, !Nat.leb_le, negb_true_iff in Eb. simpl in Eb. destruct Eb as [Eb1 Eb2].
        apply Nat.eqb_neq in Eb2.
        destruct (Nat.eqb_spec (row e) (i - dr)); destruct (Nat.eqb_spec (col e) (j - dc)); simpl; try lia; ring.
      * rewrite mat_cons, row_mk, col_mk, val_mk, IH.
        destruct (Nat.leb_spec dr i); simpl.
        2:{ destruct (Nat.eqb_spec (dr + row e) i); [lia|]. simpl. ring. }
        destruct (Nat.leb_spec dc j); simpl.
        2:{ destruct (Nat.eqb_spec (dc + col e) j); [lia|]. rewrite andb_false_r. ring. }
        replace (dr + row e =? i) with (row e =? i - dr) by (apply eq_true_iff_eq; rewrite !Nat.eqb_eq; lia).
        replace (dc + col e =? j) with (col e =? j - dc) by (apply eq_true_iff_eq; rewrite !Nat.eqb_eq; lia).
        destruct (od && (i - dr =? j - dc)) eqn:Ed; simpl; auto.
        rewrite andb_true_iff, Nat.eqb_eq in Ed. destruct Ed as [-> Ed]. simpl in Eo. apply Nat.eqb_neq in Eo.
        destruct (Nat.eqb_spec (row e) (i - dr)); destruct (Nat.eqb_spec (col e) (j - dc)); simpl; try lia; ring.
Qed.

(** * Diagonal blocks *)
Lemma copy_diag_block_spec (this : trip K) v dr dc st n :
  n + st <= length (t_ent this) -> n + dr <= t_m this -> n + dc <= t_n this ->
  exists r, copy_diag_block K this v dr dc st n = Some r /\ t_m r = t_m this /\ t_n r = t_n this /\
    t_ent r = slots (t_ent this) st (map (fun k => (dr + k, dc + k, v)) (seq 0 n)).
Proof.
  intros H1 H2 H3. unfold copy_diag_block.
  replace ((n + st <=? length (t_ent this)) && (n <=? t_n this) && (n + dr <=? t_m this) && (n + dc <=? t_n this)) with true.
  2:{ symmetry. rewrite !andb_true_iff, !Nat.leb_le. lia. }
  rewrite (put_fold (fun k => (dr + k, dc + k, v))), Nat.add_0_r.
  rewrite put_all_spec by (rewrite map_length, seq_length; lia). eexists. split; [reflexivity|]. auto.
Qed.

Definition pat_block (mk : nat -> nat -> K -> entry) (x : list K) (ix : list bool) : list entry :=
  map (fun p => mk (snd p) (fst p) (at_ x (snd p))) (combine (seq 0 (length (selected ix))) (selected ix)).
(** selected positions from an offset *)
Fixpoint sel_from (i : nat) (ix : list bool) : list nat :=
  match ix with [] => [] | b :: r => if b then i :: sel_from (S i) r else sel_from (S i) r end.
Lemma sel_from_eq ix : selected ix = sel_from 0 ix.
Proof.
  unfold selected.
  assert (G : forall l pre, filter (fun i => nth i (pre ++ l) false) (seq (length pre) (length l)) = sel_from (length pre) l).
  { induction l as [|b l IH]; intro pre; simpl; auto. rewrite app_nth2, Nat.sub_diag by lia. simpl.
    specialize (IH (pre ++ [b])). rewrite app_length in IH. simpl in IH. rewrite Nat.add_1_r, <- app_assoc in IH. simpl in IH.
    rewrite IH. reflexivity. }
  apply (G ix []).
Qed.
Lemma pattern_loop_spec mk (x0 : list K) ix : forall dst k i nf x, length x = length ix ->
  (forall p, p < length x -> at_ x p = at_ x0 (i + p)) ->
  let blk := map (fun p => mk (snd p) (fst p) (at_ x0 (snd p))) (combine (seq nf (length (sel_from i ix))) (sel_from i ix)) in
  pattern_loop K mk dst k i nf x ix =
  match put_all K dst k blk with Some d => Some (d, nf + length (sel_from i ix)) | None => None end.
Proof.
  induction ix as [|b ix IH]; intros dst k i nf [|a x] Hl Hx; simpl in Hl; try discriminate; cbn [pattern_loop sel_from].
  - simpl. rewrite Nat.add_0_r. reflexivity.
  - assert (Hx' : forall p, p < length x -> at_ x p = at_ x0 (S i + p)).
    { intros p Hp. rewrite Nat.add_succ_l, <- Nat.add_succ_r. rewrite <- Hx by (simpl; lia). reflexivity. }
    destruct b; cbn [length seq combine map fst snd].
    + assert (Ha : a = at_ x0 i). { specialize (Hx 0). rewrite Nat.add_0_r in Hx. apply Hx. simpl. lia. }
      cbn [put_all]. rewrite <- Ha. destruct (put K dst k (mk i nf a)) as [d|]; auto.
      rewrite (IH d (S k) (S i) (S nf) x) by (auto; lia).
      destruct (put_all K d (S k) _); auto. do 2 f_equal. lia.
    + rewrite (IH dst k (S i) nf x) by (auto; lia). reflexivity.
Qed.
Lemma pattern_block_spec mk x ix dst k : length x = length ix ->
  pattern_loop K mk dst k 0 0 x ix =
  match put_all K dst k (pat_block mk x ix) with Some d => Some (d, length (selected ix)) | None => None end.
Proof.
  intro H. rewrite (pattern_loop_spec mk x ix dst k 0 0 x) by auto. unfold pat_block. rewrite sel_from_eq. reflexivity.
Qed.
Lemma pat_block_len mk x ix : length (pat_block mk x ix) = length (selected ix).
Proof. unfold pat_block. rewrite map_length, combine_length, seq_length. lia. Qed.

Lemma copy_diag_w_pattern_spec (this : trip K) dx dr dc st ix :
  let n := length (selected ix) in
  length dx = length ix -> n + st <= length (t_ent this) -> n + dr <= t_m this -> n + dc <= t_n this ->
  exists r, copy_diag_w_pattern K this dx dr dc st n ix = Some r /\ t_m r = t_m this /\ t_n r = t_n this /\
    t_ent r = slots (t_ent this) st (map (fun k => (dr + k, dc + k, at_ dx (nth k (selected ix) 0))) (seq 0 n)).
Proof.
  intros n Hl H1 H2 H3. unfold copy_diag_w_pattern.
  replace ((n + st <=? length (t_ent this)) && (n <=? t_n this) && (n + dr <=? t_m this) && (n + dc <=? t_n this)) with true.
  2:{ symmetry. rewrite !andb_true_iff, !Nat.leb_le. lia. }
  rewrite pattern_block_spec by auto. rewrite put_all_spec by (rewrite pat_block_len; fold n; lia).
  fold n. rewrite Nat.eqb_refl. eexists. split; [reflexivity|]. split; auto. split; auto. simpl. f_equal.
  unfold pat_block. unfold n. clear.
  assert (G : forall l pre s, map (fun p : nat * nat => (dr + fst p, dc + fst p, at_ dx (snd p))) (combine (seq (length pre) (length l)) l)
     = map (fun k => (dr + k, dc + k, at_ dx (nth k (pre ++ l) s))) (seq (length pre) (length l))).
  { induction l as [|y l IH]; intros pre s; simpl; auto. rewrite app_nth2, Nat.sub_diag by lia. simpl. f_equal.
    specialize (IH (pre ++ [y]) s). rewrite app_length in IH. simpl in IH. rewrite Nat.add_1_r, <- app_assoc in IH. exact IH. }
  exact (G (selected ix) [] 0).
Qed.
Lemma const_block mk (c : K) ix : (forall i nf a, mk i nf a = mk i nf c) ->
  pat_block mk (map (fun _ => c) ix) ix = map (fun k => mk (nth k (selected ix) 0) k c) (seq 0 (length (selected ix))).
Proof.
  intro Hmk. unfold pat_block.
  assert (G : forall l pre, map (fun p : nat * nat => mk (snd p) (fst p) (at_ (map (fun _ => c) ix) (snd p))) (combine (seq (length pre) (length l)) l)
     = map (fun k => mk (nth k (pre ++ l) 0) k c) (seq (length pre) (length l))).
  { induction l as [|y l IH]; intro pre; simpl; auto. rewrite app_nth2, Nat.sub_diag by lia. simpl. rewrite Hmk. f_equal.
    specialize (IH (pre ++ [y])). rewrite app_length in IH. simpl in IH. rewrite Nat.add_1_r, <- app_assoc in IH. exact IH. }
  exact (G (selected ix) []).
Qed.
Lemma colpattern_spec (this : trip K) c dr dc st ix :
  let n := length (selected ix) in
  length ix + dr <= t_m this -> n + dc <= t_n this -> st + n <= length (t_ent this) ->
  exists r, set_const_diag_colpattern K this c dr dc st n ix = Some r /\ t_m r = t_m this /\ t_n r = t_n this /\
    t_ent r = slots (t_ent this) st (map (fun k => (dr + nth k (selected ix) 0, dc + k, c)) (seq 0 n)).
Proof.
  intros n H1 H2 H3. unfold set_const_diag_colpattern.
  replace ((length ix + dr <=? t_m this) && (n + dc <=? t_n this) && (st + n <=? length (t_ent this))) with true.
  2:{ symmetry. rewrite !andb_true_iff, !Nat.leb_le. lia. }
  rewrite pattern_block_spec by (rewrite map_length; auto). rewrite put_all_spec by (rewrite pat_block_len; fold n; lia).
  fold n. rewrite Nat.eqb_refl. eexists. split; [reflexivity|]. split; auto. split; auto. simpl.
  rewrite (const_block (fun i nf _ => (dr + i, dc + nf, c))) by auto. reflexivity.
Qed.
Lemma rowpattern_spec (this : trip K) c dr dc st ix :
  let n := length (selected ix) in
  n + dr <= t_m this -> length ix + dc <= t_n this -> st + n <= length (t_ent this) ->
  exists r, set_const_diag_rowpattern K this c dr dc st n ix = Some r /\ t_m r = t_m this /\ t_n r = t_n this /\
    t_ent r = slots (t_ent this) st (map (fun k => (dr + k, dc + nth k (selected ix) 0, c)) (seq 0 n)).
Proof.
  intros n H1 H2 H3. unfold set_const_diag_rowpattern.
  replace ((n + dr <=? t_m this) && (length ix + dc <=? t_n this) && (st + n <=? length (t_ent this))) with true.
  2:{ symmetry. rewrite !andb_true_iff, !Nat.leb_le. lia. }
  rewrite pattern_block_spec by (rewrite map_length; auto). rewrite put_all_spec by (rewrite pat_block_len; fold n; lia).
  fold n. rewrite Nat.eqb_refl. eexists. split; [reflexivity|]. split; auto. split; auto. simpl.
  rewrite (const_block (fun i nf _ => (dr + nf, dc + i, c))) by auto. reflexivity.
Qed.
Lemma sub_diag_from_spec (this : trip K) st n (d : list K) nnz_st scal :
  n <= length d -> st + n <= t_m this -> nnz_st + n <= length (t_ent this) ->
  exists r, copy_sub_diag_from K this st n d nnz_st scal = Some r /\ t_m r = t_m this /\ t_n r = t_n this /\
    t_ent r = slots (t_ent this) nnz_st (map (fun k => (st + k, st + k, scal *! at_ d k)) (seq 0 n)).
Proof.
  intros H1 H2 H3. unfold copy_sub_diag_from.
  replace ((n <=? length d) && (st + n <=? t_m this)) with true by (symmetry; rewrite andb_true_iff, !Nat.leb_le; auto).
  rewrite (ofold_ext _ (fun k l => put K l (nnz_st + k) ((fun k => (st + k, st + k, scal *! at_ d k)) k))).
  2:{ intros k l Hk. apply in_seq in Hk. rewrite nth_err_at by lia. cbv beta. rewrite (Nat.add_comm k nnz_st), (Nat.add_comm k st). reflexivity. }
  rewrite (put_fold (fun k => (st + k, st + k, scal *! at_ d k))), Nat.add_0_r.
  rewrite put_all_spec by (rewrite map_length, seq_length; lia). eexists. split; [reflexivity|]. auto.
Qed.
Lemma set_sub_diag_spec (this : trip K) st n c nnz_st :
  st + n <= t_m this -> nnz_st + n <= length (t_ent this) ->
  exists r, set_sub_diag_to K this st n c nnz_st = Some r /\ t_m r = t_m this /\ t_n r = t_n this /\
    t_ent r = slots (t_ent this) nnz_st (map (fun k => (st + k, st + k, c)) (seq 0 n)).
Proof.
  intros H2 H3. unfold set_sub_diag_to. replace (st + n <=? t_m this) with true by (symmetry; apply Nat.leb_le; auto).
  rewrite (ofold_ext _ (fun k l => put K l (nnz_st + k) ((fun k => (st + k, st + k, c)) k))).
  2:{ intros k l Hk. cbv beta. rewrite (Nat.add_comm k nnz_st), (Nat.add_comm k st). reflexivity. }
  rewrite (put_fold (fun k => (st + k, st + k, c))), Nat.add_0_r.
  rewrite put_all_spec by (rewrite map_length, seq_length; lia). eexists. split; [reflexivity|]. auto.
Qed.

(** the matrix of a list with replaced slots *)
Lemma mat_slots (old : list entry) st blk i j : st + length blk <= length old ->
  mat (slots old st blk) i j = mat (firstn st old) i j +! mat blk i j +! mat (skipn (st + length blk) old) i j.
Proof. intro H. unfold slots. rewrite !mat_app. ring. Qed.
End P.
