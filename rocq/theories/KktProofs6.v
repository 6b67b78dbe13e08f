(** Products with triplet matrices assembled from consecutive blocks. *)
From Coq Require Import List Bool Arith Lia Ring Field Sorted.
From Verif Require Import RingKit.
From Verif Require Import PackModel PackProofs SparseModel SparseSpec SparseProofs SparseProofs2 SparseProofs3.
From Verif Require Import KktModel KktModel2 KktSpec KktProofs KktProofs2 KktProofs3.
Import ListNotations.

Section P.
Variable K : cfield.
Add Field kf : (fth K).
Notation vec := (nat -> K).
Notation entry := (entry K).
Notation smat := SparseSpec.mat.

(** row and column products *)
Definition rp (s : vec) (l : list entry) (i : nat) : K := lsum (map (fun e => if row e =? i then val e *! s (col e) else f0) l).
Definition cp (s : vec) (l : list entry) (i : nat) : K := lsum (map (fun e => if (col e =? i) && negb (row e =? col e) then val e *! s (row e) else f0) l).
Definition tp (s : vec) (l : list entry) (i : nat) : K := lsum (map (fun e => if col e =? i then val e *! s (row e) else f0) l).
Lemma rp_app s a b i : rp s (a ++ b) i = rp s a i +! rp s b i.
Proof. unfold rp. rewrite map_app. apply lsum_app. Qed.
Lemma cp_app s a b i : cp s (a ++ b) i = cp s a i +! cp s b i.
Proof. unfold cp. rewrite map_app. apply lsum_app. Qed.
Lemma pick_mul n j (a : K) (t : vec) (g : vec) : j < n -> sumn n (fun k => ((if j =? k then a else f0) +! g k) *! t k) = a *! t j +! sumn n (fun k => g k *! t k).
Proof.
  intros H. rewrite (sumn_ext K n _ (fun k => (g k +! (if j =? k then a else f0)) *! t k)) by (intros; ring).
  rewrite (sumn_diag K n j a g t H). ring.
Qed.
Lemma rp_mat n (s : vec) (l : list entry) i : (forall e, In e l -> col e < n) -> sumn n (fun j => smat l i j *! s j) = rp s l i.
Proof.
  induction l as [|e l IH]; intros H.
  - unfold rp. cbn. apply sumn_zero. intros. unfold smat. cbn. ring.
  - unfold rp. cbn [map lsum]. fold (rp s l i). rewrite <- IH by (intros x X; apply H; right; exact X).
    rewrite (sumn_ext K n _ (fun j => ((if col e =? j then (if row e =? i then val e else f0) else f0) +! smat l i j) *! s j)).
    + rewrite pick_mul by (apply H; left; reflexivity). cbn. destruct (row e =? i); ring.
    + intros j _. rewrite mat_cons. destruct (row e =? i), (col e =? j); cbn; ring.
Qed.
Lemma tp_mat m (s : vec) (l : list entry) i : (forall e, In e l -> row e < m) -> sumn m (fun k => smat l k i *! s k) = tp s l i.
Proof.
  induction l as [|e l IH]; intros H.
  - unfold tp. cbn. apply sumn_zero. intros. unfold smat. cbn. ring.
  - unfold tp. cbn [map lsum]. fold (tp s l i). rewrite <- IH by (intros x X; apply H; right; exact X).
    rewrite (sumn_ext K m _ (fun j => ((if row e =? j then (if col e =? i then val e else f0) else f0) +! smat l j i) *! s j)).
    + rewrite pick_mul by (apply H; left; reflexivity). cbn. destruct (col e =? i); ring.
    + intros j _. rewrite mat_cons. destruct (row e =? j), (col e =? i); cbn; ring.
Qed.
Lemma sym_cons (e : entry) l i j : symmat (e :: l) i j =
  (if (row e =? i) && (col e =? j) then val e else f0) +! (if (col e =? i) && (row e =? j) && negb (row e =? col e) then val e else f0) +! symmat l i j.
Proof.
  unfold symmat. rewrite !mat_cons.
  destruct (Nat.eqb_spec i j) as [->|N]; destruct (Nat.eqb_spec (row e) (col e)) as [E|E]; rewrite ?E in *;
    repeat match goal with |- context [?a =? ?b] => destruct (Nat.eqb_spec a b) end; cbn; try lia; try congruence; ring.
Qed.
Lemma symprod N (s : vec) (l : list entry) i : (forall e, In e l -> row e < N /\ col e < N) -> sumn N (fun j => symmat l i j *! s j) = rp s l i +! cp s l i.
Proof.
  induction l as [|e l IH]; intros H.
  - unfold rp, cp. cbn. rewrite sumn_zero; [ring|]. intros j _. unfold symmat, smat. cbn. destruct (i =? j); ring.
  - unfold rp, cp. cbn [map lsum]. fold (rp s l i) (cp s l i).
    destruct (H e (or_introl eq_refl)) as (He1 & He2).
    rewrite (sumn_ext K N _ (fun j => ((if col e =? j then (if row e =? i then val e else f0) else f0) +!
      ((if row e =? j then (if (col e =? i) && negb (row e =? col e) then val e else f0) else f0) +! symmat l i j)) *! s j)).
    + rewrite pick_mul by exact He2. rewrite pick_mul by exact He1. rewrite IH by (intros x X; apply H; right; exact X). cbn.
      destruct (row e =? i), (col e =? i), (negb (row e =? col e)); cbn; ring.
    + intros j _. rewrite sym_cons. destruct (row e =? i), (col e =? j), (col e =? i), (row e =? j), (negb (row e =? col e)); cbn; ring.
Qed.

(** * Blocks *)
Definition moved (dr dc : nat) (l : list entry) : list entry := map (fun e => (dr + row e, dc + col e, val e)) l.
Definition movedT (dr dc : nat) (l : list entry) : list entry := map (fun e => (dr + col e, dc + row e, val e)) l.
Definition diagb (dr dc n : nat) (f : vec) : list entry := map (fun k => (dr + k, dc + k, f k)) (seq 0 n).
Lemma flat_only (l : list entry) n : forall a, row_sorted l -> (forall e, In e l -> a <= row e < a + n) -> flat_map (fun k => only K k l) (seq a n) = l.
Proof.
  revert l. induction n as [|n IH]; intros l a S H.
  - destruct l as [|e l]; [reflexivity|]. specialize (H e (or_introl eq_refl)). lia.
  - cbn [seq flat_map]. destruct (lead_spec K a l S (fun e X => proj1 (H e X))) as (L1 & L2 & L3 & _).
    rewrite <- L1. rewrite <- (firstn_skipn (lead K a l) l) at 3. f_equal.
    rewrite <- (IH (skipn (lead K a l) l) (Datatypes.S a)) at 1.
    + rewrite !flat_map_concat_map. f_equal. apply map_ext_in. intros k Hk. apply in_seq in Hk. symmetry. rewrite L3 by lia. reflexivity.
    + rewrite <- (firstn_skipn (lead K a l) l) in S. apply ss_app in S. apply S.
    + intros e X. specialize (L2 e X). assert (In e l) by (rewrite <- (firstn_skipn (lead K a l) l); apply in_or_app; right; exact X).
      specialize (H e H0). lia.
Qed.
Lemma block_rows_moved (l : list entry) n rd : row_sorted l -> (forall e, In e l -> row e < n) -> block_rows K l 0 n rd = moved rd 0 l.
Proof.
  intros S H. unfold block_rows, moved. transitivity (map (fun e : entry => (rd + row e, col e, val e)) (flat_map (fun k => only K k l) (seq 0 n))).
  - rewrite !flat_map_concat_map, concat_map, map_map. f_equal. apply map_ext. intros k. unfold row_as, only. cbn [Nat.add].
    apply map_ext_in. intros e X. apply filter_In in X. destruct X as (_ & X). apply Nat.eqb_eq in X. rewrite X. reflexivity.
  - rewrite flat_only; [reflexivity|exact S|]. intros e X. split; [lia|]. cbn. exact (H e X).
Qed.
Lemma shifted_moved (l : list entry) dr dc : shifted K false false l dr dc = moved dr dc l.
Proof. unfold shifted, moved. f_equal. induction l as [|e l IH]; [reflexivity|]. cbn. f_equal. exact IH. Qed.
Lemma shifted_movedT (l : list entry) dr dc : shifted K true false l dr dc = movedT dr dc l.
Proof. unfold shifted, movedT. f_equal. induction l as [|e l IH]; [reflexivity|]. cbn. f_equal. exact IH. Qed.

Section Blk.
Variables (src : list entry) (m n : nat).
Hypothesis W : forall e, In e src -> row e < m /\ col e < n.
Lemma rp_moved s dr dc i : rp s (moved dr dc src) i = if (dr <=? i) && (i <? dr + m) then sumn n (fun j => smat src (i - dr) j *! s (dc + j)) else f0.
Proof.
  rewrite (rp_mat n (fun j => s (dc + j)) src) by (intros e X; apply W; exact X).
  unfold rp, moved. rewrite map_map.
  destruct (Nat.leb_spec dr i); destruct (Nat.ltb_spec i (dr + m)); cbn [andb].
  - apply lsum_ext. intros e X. rewrite row_mk, col_mk, val_mk. destruct (Nat.eqb_spec (dr + row e) i), (Nat.eqb_spec (row e) (i - dr)); try lia; reflexivity.
  - apply lsum_zero. intros e X. specialize (W e X). rewrite row_mk. destruct (Nat.eqb_spec (dr + row e) i); [lia|reflexivity].
  - apply lsum_zero. intros e X. rewrite row_mk. destruct (Nat.eqb_spec (dr + row e) i); [lia|reflexivity].
  - apply lsum_zero. intros e X. rewrite row_mk. destruct (Nat.eqb_spec (dr + row e) i); [lia|reflexivity].
Qed.
Lemma rp_movedT s dr dc i : rp s (movedT dr dc src) i = if (dr <=? i) && (i <? dr + n) then sumn m (fun k => smat src k (i - dr) *! s (dc + k)) else f0.
Proof.
  rewrite (tp_mat m (fun j => s (dc + j)) src) by (intros e X; apply W; exact X).
  unfold rp, tp, movedT. rewrite map_map.
  destruct (Nat.leb_spec dr i); destruct (Nat.ltb_spec i (dr + n)); cbn [andb].
  - apply lsum_ext. intros e X. rewrite row_mk, col_mk, val_mk. destruct (Nat.eqb_spec (dr + col e) i), (Nat.eqb_spec (col e) (i - dr)); try lia; reflexivity.
  - apply lsum_zero. intros e X. specialize (W e X). rewrite row_mk. destruct (Nat.eqb_spec (dr + col e) i); [lia|reflexivity].
  - apply lsum_zero. intros e X. rewrite row_mk. destruct (Nat.eqb_spec (dr + col e) i); [lia|reflexivity].
  - apply lsum_zero. intros e X. rewrite row_mk. destruct (Nat.eqb_spec (dr + col e) i); [lia|reflexivity].
Qed.
(** a block below the diagonal *)
Lemma cp_moved s dr i : n <= dr -> cp s (moved dr 0 src) i = if i <? n then sumn m (fun k => smat src k i *! s (dr + k)) else f0.
Proof.
  intros L. rewrite (tp_mat m (fun j => s (dr + j)) src) by (intros e X; apply W; exact X).
  unfold cp, tp, moved. rewrite map_map. destruct (Nat.ltb_spec i n).
  - apply lsum_ext. intros e X. specialize (W e X). rewrite row_mk, col_mk, val_mk. cbn [Nat.add].
    destruct (Nat.eqb_spec (dr + row e) (col e)); [lia|]. rewrite andb_true_r. reflexivity.
  - apply lsum_zero. intros e X. specialize (W e X). rewrite row_mk, col_mk. cbn [Nat.add]. destruct (Nat.eqb_spec (col e) i); [lia|reflexivity].
Qed.
Lemma moved_in dr dc e : In e (moved dr dc src) -> row e < dr + m /\ col e < dc + n.
Proof. unfold moved. rewrite in_map_iff. intros (x & <- & X). specialize (W x X). rewrite row_mk, col_mk. lia. Qed.
Lemma movedT_in dr dc e : In e (movedT dr dc src) -> row e < dr + n /\ col e < dc + m.
Proof. unfold movedT. rewrite in_map_iff. intros (x & <- & X). specialize (W x X). rewrite row_mk, col_mk. lia. Qed.
End Blk.
Lemma sel1 n (i st : nat) (g : nat -> K) : lsum (map (fun k => if st + k =? i then g k else f0) (seq 0 n)) = if (st <=? i) && (i <? st + n) then g (i - st) else f0.
Proof.
  rewrite (seq_pick K 0 n st (fun k => st + k =? i) g i) by (intros k _; rewrite Nat.add_comm; reflexivity).
  cbn [Nat.add]. rewrite (Nat.add_comm n st). reflexivity.
Qed.
Lemma rp_diag s dr dc n f i : rp s (diagb dr dc n f) i = if (dr <=? i) && (i <? dr + n) then f (i - dr) *! s (dc + (i - dr)) else f0.
Proof. unfold rp, diagb. rewrite map_map. exact (sel1 n i dr (fun k => f k *! s (dc + k))). Qed.
Lemma cp_diag s d n f i : cp s (diagb d d n f) i = f0.
Proof.
  unfold cp, diagb. rewrite map_map. apply lsum_zero. intros k _. rewrite row_mk, col_mk, Nat.eqb_refl, andb_false_r. reflexivity.
Qed.
Lemma cp_diag2 s dr dc n f i : dr <> dc -> cp s (diagb dr dc n f) i = if (dc <=? i) && (i <? dc + n) then f (i - dc) *! s (dr + (i - dc)) else f0.
Proof.
  intros D. unfold cp, diagb. rewrite map_map. rewrite <- (sel1 n i dc (fun k => f k *! s (dr + k))). apply lsum_ext. intros k _.
  rewrite row_mk, col_mk, val_mk. destruct (Nat.eqb_spec (dr + k) (dc + k)); [lia|]. rewrite andb_true_r. reflexivity.
Qed.
Lemma diagb_in dr dc n f e : In e (diagb dr dc n f) -> row e < dr + n /\ col e < dc + n.
Proof. unfold diagb. rewrite in_map_iff. intros (k & <- & X). apply in_seq in X. rewrite row_mk, col_mk. lia. Qed.
Lemma diagb_len dr dc n f : length (diagb dr dc n f) = n.
Proof. unfold diagb. rewrite map_length, seq_length. reflexivity. Qed.
Lemma moved_len dr dc l : length (moved dr dc l) = length l.
Proof. apply map_length. Qed.
Lemma movedT_len dr dc l : length (movedT dr dc l) = length l.
Proof. apply map_length. Qed.

(** * Assembly *)
(** the first slots hold l *)
Definition filled (N Z : nat) (l : list entry) (M : trip K) : Prop :=
  t_m M = N /\ t_n M = N /\ length (t_ent M) = Z /\ firstn (length l) (t_ent M) = l.
Lemma filled_full N Z l M : filled N Z l M -> Z = length l -> t_ent M = l.
Proof. intros (_ & _ & L & F) ->. rewrite <- F, <- L at 1. symmetry. apply firstn_all. Qed.
Lemma filled_slots N Z l M blk r st : filled N Z l M -> st = length l -> st + length blk <= Z ->
  t_m r = t_m M -> t_n r = t_n M -> t_ent r = slots (t_ent M) st blk -> filled N Z (l ++ blk) r.
Proof.
  intros (A & B & L & F) -> LE E1 E2 E3. unfold slots in E3. rewrite F in E3. split; [congruence|]. split; [congruence|]. split.
  - rewrite E3, !app_length, skipn_length, L. lia.
  - rewrite E3, app_assoc. rewrite firstn_app, Nat.sub_diag, firstn_O, app_nil_r. apply firstn_all.
Qed.
Lemma zero_filled N Z M : t_m M = N -> t_n M = N -> length (t_ent M) = Z -> filled N Z [] (zero_vals K M).
Proof. intros. split; [assumption|]. split; [assumption|]. split; [cbn; rewrite map_length; assumption|reflexivity]. Qed.
Section Steps.
Variables (N Z : nat) (l : list entry) (M : trip K).
Hypothesis F : filled N Z l M.
Lemma step_rows src n rd st (k : trip K -> option (trip K)) (Q : trip K -> Prop) : row_sorted (t_ent src) -> wf src -> t_m src = n -> n + rd <= N -> t_n src <= N -> st = length l ->
  st + length (t_ent src) <= Z -> (forall r, filled N Z (l ++ moved rd 0 (t_ent src)) r -> exists x, k r = Some x /\ Q x) ->
  exists x, obind (copy_rows_block_from K M src 0 n rd st) k = Some x /\ Q x.
Proof.
  intros S Wf Hm H1 H2 H3 H4 C. pose proof F as (A & B & L & _).
  assert (BR : block_rows K (t_ent src) 0 n rd = moved rd 0 (t_ent src)) by (apply block_rows_moved; [exact S|intros e X; subst n; apply (Wf e X)]).
  destruct (copy_rows_block_spec K M src 0 n rd st S) as (r & E & E1 & E2 & E3); try lia.
  - rewrite BR, moved_len. lia.
  - rewrite E. cbn [obind]. apply C. rewrite BR in E3. apply (filled_slots N Z l M _ r st F H3); try assumption. rewrite moved_len. exact H4.
Qed.
Lemma step_diag v dr dc st n (k : trip K -> option (trip K)) (Q : trip K -> Prop) : n + dr <= N -> n + dc <= N -> st = length l -> st + n <= Z ->
  (forall r, filled N Z (l ++ diagb dr dc n (fun _ => v)) r -> exists x, k r = Some x /\ Q x) ->
  exists x, obind (copy_diag_block K M v dr dc st n) k = Some x /\ Q x.
Proof.
  intros H1 H2 H3 H4 C. pose proof F as (A & B & L & _).
  destruct (copy_diag_block_spec K M v dr dc st n) as (r & E & E1 & E2 & E3); try lia.
  rewrite E. cbn [obind]. apply C. apply (filled_slots N Z l M _ r st F H3); try assumption. rewrite diagb_len. exact H4.
Qed.
Lemma lv_len n (v : vec) : length (lv K n v) = n.
Proof. unfold lv. rewrite map_length, seq_length. reflexivity. Qed.
Lemma lv_at n (v : vec) i : i < n -> at_ (lv K n v) i = v i.
Proof.
  intros H. unfold at_, lv. rewrite (nth_indep _ f0 (v 0)) by (rewrite map_length, seq_length; exact H).
  rewrite map_nth, seq_nth by exact H. reflexivity.
Qed.
Lemma step_sub d n (v : vec) st scal (k : trip K -> option (trip K)) (Q : trip K -> Prop) : d + n <= N -> st = length l -> st + n <= Z ->
  (forall r, filled N Z (l ++ diagb d d n (fun i => scal *! v i)) r -> exists x, k r = Some x /\ Q x) ->
  exists x, obind (copy_sub_diag_from K M d n (lv K n v) st scal) k = Some x /\ Q x.
Proof.
  intros H1 H3 H4 C. pose proof F as (A & B & L & _).
  destruct (sub_diag_from_spec K M d n (lv K n v) st scal) as (r & E & E1 & E2 & E3); try (rewrite ?lv_len; lia).
  rewrite E. cbn [obind]. apply C. apply (filled_slots N Z l M _ r st F H3); try assumption; [rewrite diagb_len; exact H4|].
  rewrite E3. f_equal. unfold diagb. apply map_ext_in. intros i X. apply in_seq in X. rewrite lv_at by lia. reflexivity.
Qed.
End Steps.
Lemma obind_some (o : option (trip K)) (Q : trip K -> Prop) : (exists x, obind o Some = Some x /\ Q x) -> exists x, o = Some x /\ Q x.
Proof. destruct o; cbn; intros (x & E & H); [|discriminate]. exists x. auto. Qed.
End P.
