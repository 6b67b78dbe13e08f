(** The full sparse system. *)
From Coq Require Import List Bool Arith Lia Ring Field Sorted.
From Verif Require Import RingKit.
From Verif Require Import PackModel SparseModel SparseSpec SparseProofs SparseProofs3.
From Verif Require Import KktModel KktModel2 KktSpec KktProofs KktProofs2 KktProofs3 KktProofs6 KktProofs7.
Import ListNotations.

Section Sel.
Variable ix : list bool.
Lemma sel_nodup : NoDup (selected ix).
Proof. apply NoDup_filter, seq_NoDup. Qed.
Lemma sel_in k : k < length (selected ix) -> nth k (selected ix) 0 < length ix /\ nth (nth k (selected ix) 0) ix false = true.
Proof.
  intros H. pose proof (nth_In (selected ix) 0 H) as I. unfold selected in I at 2. apply filter_In in I. destruct I as (I & E).
  apply in_seq in I. split; [lia|exact E].
Qed.
Lemma sel_count i : nth i ix false = true -> count i (fun j => nth j ix false) < length (selected ix) /\ nth (count i (fun j => nth j ix false)) (selected ix) 0 = i.
Proof.
  intros E. assert (L : i < length ix). { destruct (Nat.lt_ge_cases i (length ix)); [assumption|]. rewrite nth_overflow in E by assumption. discriminate. }
  assert (S : selected ix = filter (fun j => nth j ix false) (seq 0 i) ++ i :: filter (fun j => nth j ix false) (seq (Datatypes.S i) (length ix - Datatypes.S i))).
  { unfold selected. replace (length ix) with (i + Datatypes.S (length ix - Datatypes.S i)) at 1 by lia. rewrite seq_app, filter_app. cbn [seq filter Nat.add]. rewrite E. reflexivity. }
  unfold count. rewrite S. split.
  - rewrite app_length. cbn. lia.
  - rewrite app_nth2 by lia. rewrite Nat.sub_diag. reflexivity.
Qed.
End Sel.

Section P.
Variable K : cfield.
Add Field kf : (fth K).
Notation vec := (nat -> K).
Notation entry := (entry K).

Definition colb (dr dc : nat) (c : K) (ix : list bool) : list entry := map (fun k => (dr + nth k (selected ix) 0, dc + k, c)) (seq 0 (length (selected ix))).
Definition rowb (dr dc : nat) (c : K) (ix : list bool) : list entry := map (fun k => (dr + k, dc + nth k (selected ix) 0, c)) (seq 0 (length (selected ix))).
Lemma colb_len dr dc c ix : length (colb dr dc c ix) = length (selected ix).
Proof. unfold colb. rewrite map_length, seq_length. reflexivity. Qed.
Lemma rowb_len dr dc c ix : length (rowb dr dc c ix) = length (selected ix).
Proof. unfold rowb. rewrite map_length, seq_length. reflexivity. Qed.
Lemma colb_in dr dc c ix e : In e (colb dr dc c ix) -> row e < dr + length ix /\ col e < dc + length (selected ix).
Proof. unfold colb. rewrite in_map_iff. intros (k & <- & X). apply in_seq in X. rewrite row_mk, col_mk. pose proof (sel_in ix k ltac:(lia)). lia. Qed.
Lemma rowb_in dr dc c ix e : In e (rowb dr dc c ix) -> row e < dr + length (selected ix) /\ col e < dc + length ix.
Proof. unfold rowb. rewrite in_map_iff. intros (k & <- & X). apply in_seq in X. rewrite row_mk, col_mk. pose proof (sel_in ix k ltac:(lia)). lia. Qed.

(** * Rows that a block meets, and rows it misses *)
Lemma hit_diag s dr dc n f i : i < n -> rp K s (diagb K dr dc n f) (dr + i) = f i *! s (dc + i).
Proof. intros H. rewrite rp_diag. bdec. replace (dr + i - dr) with i by lia. reflexivity. Qed.
Lemma miss_diag s dr dc n f i : i < dr \/ dr + n <= i -> rp K s (diagb K dr dc n f) i = f0.
Proof. intros H. rewrite rp_diag. destruct (Nat.leb_spec dr i), (Nat.ltb_spec i (dr + n)); cbn; try reflexivity; lia. Qed.
Lemma hit_row s dr dc c ix i : i < length (selected ix) -> rp K s (rowb dr dc c ix) (dr + i) = c *! s (dc + nth i (selected ix) 0).
Proof.
  intros H. unfold rp, rowb. rewrite map_map.
  refine (eq_trans (sel1 K (length (selected ix)) (dr + i) dr (fun k => c *! s (dc + nth k (selected ix) 0))) _).
  bdec. replace (dr + i - dr) with i by lia. reflexivity.
Qed.
Lemma miss_row s dr dc c ix i : i < dr \/ dr + length (selected ix) <= i -> rp K s (rowb dr dc c ix) i = f0.
Proof.
  intros H. unfold rp, rowb. rewrite map_map.
  refine (eq_trans (sel1 K (length (selected ix)) i dr (fun k => c *! s (dc + nth k (selected ix) 0))) _).
  destruct (Nat.leb_spec dr i), (Nat.ltb_spec i (dr + length (selected ix))); cbn; try reflexivity; lia.
Qed.
Lemma hit_col s dr dc c ix i : i < length ix -> rp K s (colb dr dc c ix) (dr + i) = if nth i ix false then c *! s (dc + count i (fun j => nth j ix false)) else f0.
Proof.
  intros H. unfold rp, colb. rewrite map_map. destruct (nth i ix false) eqn:E.
  - destruct (sel_count ix i E) as (C1 & C2).
    rewrite (lsum_ext _ _ (fun k => if count i (fun j => nth j ix false) =? k then c *! s (dc + k) else f0)).
    + apply (lsum_pick K (fun k => c *! s (dc + k))); [apply seq_NoDup|apply in_seq; lia].
    + intros k X. apply in_seq in X. rewrite row_mk, col_mk, val_mk.
      destruct (Nat.eqb_spec (dr + nth k (selected ix) 0) (dr + i)) as [D|D]; destruct (Nat.eqb_spec (count i (fun j => nth j ix false)) k) as [F|F]; try reflexivity.
      * exfalso. apply F. apply (proj1 (NoDup_nth (selected ix) 0) (sel_nodup ix)); lia.
      * exfalso. apply D. rewrite <- F, C2. reflexivity.
  - apply lsum_zero. intros k X. apply in_seq in X. rewrite row_mk. destruct (Nat.eqb_spec (dr + nth k (selected ix) 0) (dr + i)) as [D|D]; [|reflexivity].
    destruct (sel_in ix k ltac:(lia)) as (_ & B). replace (nth k (selected ix) 0) with i in B by lia. congruence.
Qed.
Lemma miss_col s dr dc c ix i : i < dr \/ dr + length ix <= i -> rp K s (colb dr dc c ix) i = f0.
Proof.
  intros H. unfold rp, colb. rewrite map_map. apply lsum_zero. intros k X. apply in_seq in X. rewrite row_mk.
  destruct (sel_in ix k ltac:(lia)) as (B & _). destruct (Nat.eqb_spec (dr + nth k (selected ix) 0) i); [lia|reflexivity].
Qed.
Section Blk.
Variables (src : list entry) (m n : nat).
Hypothesis W : forall e, In e src -> row e < m /\ col e < n.
Lemma hit_moved s dr i : i < m -> rp K s (moved K dr 0 src) (dr + i) = sumn n (fun j => SparseSpec.mat src i j *! s j).
Proof. intros H. rewrite (rp_moved K src m n W). bdec. replace (dr + i - dr) with i by lia. reflexivity. Qed.
Lemma miss_moved s dr dc i : i < dr \/ dr + m <= i -> rp K s (moved K dr dc src) i = f0.
Proof. intros H. rewrite (rp_moved K src m n W). destruct (Nat.leb_spec dr i), (Nat.ltb_spec i (dr + m)); cbn; try reflexivity; lia. Qed.
Lemma hit_movedT s dc i : i < n -> rp K s (movedT K 0 dc src) (0 + i) = sumn m (fun k => SparseSpec.mat src k i *! s (dc + k)).
Proof. intros H. rewrite (rp_movedT K src m n W). bdec. replace (0 + i - 0) with i by lia. reflexivity. Qed.
Lemma miss_movedT s dr dc i : i < dr \/ dr + n <= i -> rp K s (movedT K dr dc src) i = f0.
Proof. intros H. rewrite (rp_movedT K src m n W). destruct (Nat.leb_spec dr i), (Nat.ltb_spec i (dr + n)); cbn; try reflexivity; lia. Qed.
End Blk.
(** the off-diagonal part and the transpose together are the symmetric matrix *)
Lemma rp_offdiag s (l : list entry) i : rp K s (shifted K false true l 0 0) i +! rp K s (movedT K 0 0 l) i = rp K s l i +! cp K s l i.
Proof.
  unfold shifted, movedT. induction l as [|x l IH]; [reflexivity|]. unfold rp, cp in *. cbn [filter map lsum andb].
  rewrite !row_mk, !col_mk, !val_mk. cbn [Nat.add].
  assert (G : forall a b c d e' : K, a +! b = c +! d -> a +! (e' +! b) = e' +! (c +! d)) by (intros; rewrite <- H; ring).
  assert (G2 : forall a b A B C D : K, A +! B = C +! D -> a +! A +! (b +! B) = a +! C +! (b +! D)).
  { intros a b A B C D E. transitivity (a +! b +! (A +! B)); [ring|]. rewrite E. ring. }
  destruct (Nat.eqb_spec (row x) (col x)) as [D|D]; cbn [negb].
  - rewrite andb_false_r. rewrite D. rewrite (G _ _ _ _ _ IH). ring.
  - rewrite andb_true_r. cbn [map lsum]. rewrite row_mk, col_mk, val_mk. cbn [Nat.add].
    apply G2. exact IH.
Qed.
Lemma offdiag_len (l : list entry) : length (shifted K false true l 0 0) = length l - length (filter (fun e => row e =? col e) l).
Proof.
  unfold shifted. rewrite map_length. cbn [andb].
  assert (G : length (filter (fun e : entry => row e =? col e) l) + length (filter (fun e : entry => negb (row e =? col e)) l) = length l).
  { induction l as [|x l IH]; [reflexivity|]. cbn. destruct (row x =? col x); cbn; lia. }
  lia.
Qed.

Section Steps.
Variables (N Z : nat) (l : list entry) (M : trip K).
Hypothesis F : filled K N Z l M.
Lemma step_subm (tr od : bool) (src : trip K) dr dc st (k : trip K -> option (trip K)) (Q : trip K -> Prop) :
  (if tr then t_n src else t_m src) + dr <= N -> (if tr then t_m src else t_n src) + dc <= N -> length (t_ent src) <= Z -> st = length l ->
  st + length (shifted K tr od (t_ent src) dr dc) <= Z -> (forall r, filled K N Z (l ++ shifted K tr od (t_ent src) dr dc) r -> exists x, k r = Some x /\ Q x) ->
  exists x, obind (copy_submatrix K tr M src dr dc st od) k = Some x /\ Q x.
Proof.
  intros H1 H2 H3 H4 H5 C. pose proof F as (A & B & L & _).
  destruct (copy_submatrix_spec K tr M src dr dc st od) as (S & _); try lia.
  destruct S as (r & E & E1 & E2 & E3); [lia|]. rewrite E. cbn [obind]. apply C. exact (filled_slots K N Z l M _ r st F H4 H5 E1 E2 E3).
Qed.
Lemma step_col (c : K) dr dc st n ix (k : trip K -> option (trip K)) (Q : trip K -> Prop) : n = length (selected ix) -> length ix + dr <= N -> n + dc <= N -> st = length l -> st + n <= Z ->
  (forall r, filled K N Z (l ++ colb dr dc c ix) r -> exists x, k r = Some x /\ Q x) -> exists x, obind (set_const_diag_colpattern K M c dr dc st n ix) k = Some x /\ Q x.
Proof.
  intros -> H1 H2 H3 H4 C. pose proof F as (A & B & L & _).
  destruct (colpattern_spec K M c dr dc st ix) as (r & E & E1 & E2 & E3); try lia.
  rewrite E. cbn [obind]. apply C. apply (filled_slots K N Z l M _ r st F H3); try assumption. rewrite colb_len. exact H4.
Qed.
Lemma step_row (c : K) dr dc st n ix (k : trip K -> option (trip K)) (Q : trip K -> Prop) : n = length (selected ix) -> n + dr <= N -> length ix + dc <= N -> st = length l -> st + n <= Z ->
  (forall r, filled K N Z (l ++ rowb dr dc c ix) r -> exists x, k r = Some x /\ Q x) -> exists x, obind (set_const_diag_rowpattern K M c dr dc st n ix) k = Some x /\ Q x.
Proof.
  intros -> H1 H2 H3 H4 C. pose proof F as (A & B & L & _).
  destruct (rowpattern_spec K M c dr dc st ix) as (r & E & E1 & E2 & E3); try lia.
  rewrite E. cbn [obind]. apply C. apply (filled_slots K N Z l M _ r st F H3); try assumption. rewrite rowb_len. exact H4.
Qed.
Lemma step_pat (v : vec) dr dc st n ix sz (k : trip K -> option (trip K)) (Q : trip K -> Prop) : n = length (selected ix) -> sz = length ix -> n + dr <= N -> n + dc <= N -> st = length l -> st + n <= Z ->
  (forall r, filled K N Z (l ++ diagb K dr dc n (fun i => v (nth i (selected ix) 0))) r -> exists x, k r = Some x /\ Q x) ->
  exists x, obind (copy_diag_w_pattern K M (lv K sz v) dr dc st n ix) k = Some x /\ Q x.
Proof.
  intros -> -> H1 H2 H3 H4 C. pose proof F as (A & B & L & _).
  destruct (copy_diag_w_pattern_spec K M (lv K (length ix) v) dr dc st ix) as (r & E & E1 & E2 & E3); try (rewrite ?lv_len; lia).
  rewrite E. cbn [obind]. apply C. apply (filled_slots K N Z l M _ r st F H3); try assumption; [rewrite diagb_len; exact H4|].
  rewrite E3. f_equal. unfold diagb. apply map_ext_in. intros i X. apply in_seq in X. destruct (sel_in ix i ltac:(lia)) as (I & _).
  rewrite lv_at by exact I. reflexivity.
Qed.
End Steps.
End P.
