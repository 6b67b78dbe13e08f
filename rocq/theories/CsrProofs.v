(** Arrays cut into consecutive blocks; counting sort. *)
From Coq Require Import List Bool Arith Lia Sorted.
From Verif Require Import RingKit PackModel PackProofs SparseModel CsrModel.
Import ListNotations.

Fixpoint tot (w : list nat) : nat := match w with [] => 0 | c :: r => c + tot r end.
Lemma tot_app a b : tot (a ++ b) = tot a + tot b.
Proof. induction a; simpl; lia. Qed.
Lemma psum_len w : forall s, length (psum s w) = S (length w).
Proof. induction w as [|c w IH]; intro s; simpl; auto. Qed.
Lemma psum_nth w : forall s i, i <= length w -> nth_error (psum s w) i = Some (s + tot (firstn i w)).
Proof.
  induction w as [|c w IH]; intros s [|i] H; simpl in *; try lia; auto.
  rewrite IH by lia. f_equal. lia.
Qed.
Lemma psum_last w : forall s, last (psum s w) 0 = s + tot w.
Proof.
  induction w as [|c w IH]; intro s; simpl; [lia|]. specialize (IH (s + c)).
  destruct (psum (s + c) w) eqn:E; [destruct w; discriminate|]. rewrite IH. lia.
Qed.
Lemma psum_starts w : forall s, removelast (psum s w) = map (fun i => s + tot (firstn i w)) (seq 0 (length w)).
Proof.
  induction w as [|c w IH]; intro s; auto. cbn [psum]. 
  assert (E : psum (s + c) w <> []) by (destruct w; discriminate).
  replace (removelast (s :: psum (s + c) w)) with (s :: removelast (psum (s + c) w)) by (destruct (psum (s + c) w); [congruence|reflexivity]).
  rewrite IH. cbn [length seq map]. simpl. f_equal; [lia|]. rewrite <- seq_shift, map_map. apply map_ext. intro i. simpl. lia.
Qed.
Lemma psum_ends w : forall s, tl (psum s w) = map (fun i => s + tot (firstn (S i) w)) (seq 0 (length w)).
Proof.
  induction w as [|c w IH]; intro s; auto. cbn [psum tl length seq map].
  assert (E : psum (s + c) w = (s + c) :: tl (psum (s + c) w)) by (destruct w; reflexivity).
  rewrite E, IH. f_equal; [simpl; lia|]. rewrite <- seq_shift, map_map. apply map_ext. intro i. simpl. lia.
Qed.
Lemma rollback_psum w : w <> [] -> rollback (tl (psum 0 w)) = Some (removelast (psum 0 w)).
Proof.
  destruct w as [|c w]; intro H; [congruence|]. cbn [psum tl]. unfold rollback.
  destruct (psum (0 + c) w) eqn:E; [destruct w; discriminate|]. rewrite <- E.
  f_equal. rewrite E. reflexivity.
Qed.

(** * blocks *)
Section B.
Variable A : Type.
Implicit Types (g dn jk : nat -> list A).

Definition blocks g n := concat (map g (seq 0 n)).
Lemma seq_split n i : i < n -> seq 0 n = seq 0 i ++ i :: seq (S i) (n - S i).
Proof. intro H. replace n with (i + S (n - S i)) at 1 by lia. rewrite seq_app. reflexivity. Qed.
Lemma blocks_split g n i : i < n -> blocks g n = blocks g i ++ g i ++ concat (map g (seq (S i) (n - S i))).
Proof. intro H. unfold blocks. rewrite (seq_split n i H), map_app, concat_app. reflexivity. Qed.
Lemma blocks_len g n : length (blocks g n) = tot (map (fun i => length (g i)) (seq 0 n)).
Proof.
  unfold blocks. induction (seq 0 n) as [|x l IH]; simpl; auto. rewrite app_length, IH. reflexivity.
Qed.
Lemma blocks_S g n : blocks g (S n) = blocks g n ++ g n.
Proof. unfold blocks. rewrite seq_S, map_app, concat_app. simpl. rewrite app_nil_r. reflexivity. Qed.
Lemma blocks_ext g h n : (forall i, i < n -> g i = h i) -> blocks g n = blocks h n.
Proof. intro H. unfold blocks. f_equal. apply map_ext_in. intros i Hi. apply in_seq in Hi. apply H. lia. Qed.
Lemma firstn_seq i n : i <= n -> firstn i (seq 0 n) = seq 0 i.
Proof.
  intro H. replace n with (i + (n - i)) by lia. rewrite seq_app. rewrite firstn_app, seq_length, Nat.sub_diag.
  simpl. rewrite app_nil_r. rewrite firstn_all2; auto. rewrite seq_length. lia.
Qed.
Lemma off_blocks g n i : i <= n -> tot (firstn i (map (fun i => length (g i)) (seq 0 n))) = length (blocks g i).
Proof. intro H. rewrite firstn_map, firstn_seq by auto. rewrite blocks_len. reflexivity. Qed.
Lemma upd_app_mid (a b : list A) x v : upd (a ++ x :: b) (length a) v = Some (a ++ v :: b).
Proof. induction a as [|y a IH]; simpl; auto. rewrite IH. reflexivity. Qed.
Lemma upd_blocks g n i a x b v : i < n -> g i = a ++ x :: b ->
  upd (blocks g n) (length (blocks g i) + length a) v =
  Some (blocks (fun r => if r =? i then a ++ v :: b else g r) n).
Proof.
  intros Hi Hg. rewrite (blocks_split g n i Hi), Hg.
  replace (blocks g i ++ (a ++ x :: b) ++ concat (map g (seq (S i) (n - S i)))) with
    ((blocks g i ++ a) ++ x :: (b ++ concat (map g (seq (S i) (n - S i))))) by (rewrite <- !app_assoc; reflexivity).
  rewrite <- app_length, upd_app_mid. f_equal. rewrite (blocks_split _ n i Hi), Nat.eqb_refl.
  rewrite <- !app_assoc. f_equal.
  - apply blocks_ext. intros j Hj. destruct (Nat.eqb_spec j i); [lia|auto].
  - f_equal. simpl. f_equal. f_equal. f_equal. apply map_ext_in. intros j Hj. apply in_seq in Hj.
    destruct (Nat.eqb_spec j i); [lia|auto].
Qed.
Lemma cut (w : nat -> nat) n : forall arr : list A, length arr = tot (map w (seq 0 n)) ->
  exists g, arr = blocks g n /\ forall i, i < n -> length (g i) = w i.
Proof.
  induction n as [|n IH]; intros arr H.
  - exists (fun _ => []). destruct arr; [|discriminate]. split; auto. intros i Hi. lia.
  - rewrite seq_S, map_app, tot_app in H. simpl in H.
    destruct (IH (firstn (tot (map w (seq 0 n))) arr)) as [g [E1 E2]]. { rewrite firstn_length. lia. }
    exists (fun i => if i =? n then skipn (tot (map w (seq 0 n))) arr else g i). split.
    + rewrite blocks_S, Nat.eqb_refl. rewrite <- (firstn_skipn (tot (map w (seq 0 n))) arr) at 1. f_equal.
      rewrite E1. apply blocks_ext. intros i Hi. destruct (Nat.eqb_spec i n); [lia|auto].
    + intros i Hi. destruct (Nat.eqb_spec i n) as [->|N]; [rewrite skipn_length; lia|apply E2; lia].
Qed.
Lemma cutL (bl : list (list A)) : concat bl = blocks (fun i => nth i bl []) (length bl).
Proof.
  unfold blocks. f_equal. induction bl as [|b bl IH]; simpl; auto. f_equal.
  rewrite <- seq_shift, map_map. exact IH.
Qed.

Lemma nth_map_seq {B} (f : nat -> B) n i d : i < n -> nth i (map f (seq 0 n)) d = f i.
Proof.
  intro H. rewrite (nth_indep _ d (f 0)) by (rewrite map_length, seq_length; auto). rewrite (map_nth f), seq_nth; auto.
Qed.

(** * counting *)
Definition grp (r : nat) (items : list (nat * A)) : list A := map snd (filter (fun p => fst p =? r) items).
Lemma grp_cons r k v items : grp r ((k, v) :: items) = if k =? r then v :: grp r items else grp r items.
Proof. unfold grp. simpl. destruct (k =? r); reflexivity. Qed.
Lemma counts_spec n rs : forall w0, length w0 = n -> (forall r, In r rs -> r < n) ->
  ofold (fun r w => match nth_error w r with Some x => upd w r (S x) | None => None end) rs w0 =
  Some (map (fun r => nth r w0 0 + length (filter (fun k => k =? r) rs)) (seq 0 n)).
Proof.
  induction rs as [|k rs IH]; intros w0 H0 Hr; cbn [ofold].
  - f_equal. apply nth_ext with (d := 0) (d' := 0); [rewrite map_length, seq_length; auto|].
    intros i Hi. rewrite nth_map_seq by lia. simpl. lia.
  - assert (Hk : k < n) by (apply Hr; left; auto). rewrite (nth_error_nth' w0 0) by lia.
    destruct (upd w0 k (S (nth k w0 0))) as [w1|] eqn:E.
    + rewrite IH. 2:{ apply upd_len in E. lia. } 2:{ intros; apply Hr; right; auto. }
      f_equal. apply map_ext_in. intros r Hin. apply in_seq in Hin.
      assert (U := upd_nth _ _ _ _ _ E r). cbn [filter]. rewrite (Nat.eqb_sym k r).
      destruct (Nat.eqb_spec r k) as [->|Hn].
      * rewrite (nth_error_nth _ _ 0 U). cbn [length]. lia.
      * rewrite (nth_error_nth' w0 0) in U by lia. rewrite (nth_error_nth _ _ 0 U). reflexivity.
    + rewrite upd_spec in E by lia. discriminate.
Qed.
Lemma repeat_nth (n r : nat) : nth r (repeat 0 n) 0 = 0.
Proof. revert r. induction n as [|n IH]; intros [|r]; simpl; auto. Qed.
Lemma counts_items n (items : list (nat * A)) : (forall p, In p items -> fst p < n) ->
  counts n (map fst items) = Some (map (fun r => length (grp r items)) (seq 0 n)).
Proof.
  intro H. unfold counts. rewrite (counts_spec n).
  - f_equal. apply map_ext. intro r. rewrite repeat_nth. unfold grp. rewrite map_length. simpl.
    clear. induction items as [|[k v] items IH]; simpl; auto. destruct (k =? r); simpl; auto.
  - apply repeat_length.
  - intros r Hr. apply in_map_iff in Hr. destruct Hr as [p [<- Hp]]. auto.
Qed.
Lemma tot_zip (f g h : nat -> nat) l : (forall i, In i l -> f i = g i + h i) -> tot (map f l) = tot (map g l) + tot (map h l).
Proof. induction l as [|x l IH]; simpl; intro H; auto. rewrite (H x), IH by auto. lia. Qed.
Lemma tot_pick k n : k < n -> tot (map (fun r => if k =? r then 1 else 0) (seq 0 n)) = 1.
Proof.
  intro H. rewrite (seq_split n k H), map_app, tot_app. cbn [map tot]. rewrite Nat.eqb_refl.
  assert (Z : forall l, (forall i, In i l -> i <> k) -> tot (map (fun r => if k =? r then 1 else 0) l) = 0).
  { induction l as [|x l IH]; simpl; intro Hl; auto. destruct (Nat.eqb_spec k x); [subst; exfalso; apply (Hl x); auto|]. apply IH. auto. }
  rewrite !Z; auto; intros i Hi; apply in_seq in Hi; lia.
Qed.
Lemma grp_total n (items : list (nat * A)) : (forall p, In p items -> fst p < n) ->
  tot (map (fun r => length (grp r items)) (seq 0 n)) = length items.
Proof.
  induction items as [|[k v] items IH]; intro H.
  - simpl. clear. induction (seq 0 n); simpl; auto.
  - simpl length. rewrite <- IH by (intros; apply H; right; auto). 
    rewrite (tot_zip _ (fun r => if k =? r then 1 else 0) (fun r => length (grp r items))).
    + rewrite tot_pick; auto. apply (H (k, v)). left. auto.
    + intros r _. rewrite grp_cons. destruct (k =? r); simpl; auto.
Qed.
End B.
Arguments blocks {_}. Arguments grp {_}.

(** * the scatter loop is a stable counting sort *)
Section S.
Variable A : Type.
Lemma scatter_inv n nnz ptr (st : nat -> nat) (items : list (nat * A)) : forall dn jk,
  (forall p, In p items -> fst p < n) ->
  (forall r, r < n -> length (jk r) = length (grp r items)) ->
  (forall r, r < n -> st r = length (blocks (fun r => dn r ++ jk r) r)) ->
  (forall r, r < n -> nth_error ptr (S r) = Some (st r + length (dn r) + length (jk r))) ->
  (forall r, r < n -> st r + length (dn r) + length (jk r) <= nnz) ->
  scatter nnz ptr (map (fun r => st r + length (dn r)) (seq 0 n)) (blocks (fun r => dn r ++ jk r) n) items =
  Some (blocks (fun r => dn r ++ grp r items) n, map (fun r => st r + length (dn r) + length (jk r)) (seq 0 n)).
Proof.
  induction items as [|[k v] items IH]; intros dn jk Hk Hj Hst Hp Hz; cbn [scatter].
  - f_equal. f_equal.
    + apply blocks_ext. intros i Hi. specialize (Hj i Hi). destruct (jk i); [reflexivity|discriminate].
    + apply map_ext_in. intros i Hi. apply in_seq in Hi. rewrite (Hj i) by lia. simpl. lia.
  - assert (Hkn : k < n) by (apply (Hk (k, v)); left; auto).
    assert (Hjk := Hj k Hkn). rewrite grp_cons, Nat.eqb_refl in Hjk. destruct (jk k) as [|x b] eqn:Ejk; [discriminate|].
    assert (NE : nth_error (map (fun r => st r + length (dn r)) (seq 0 n)) k = Some (st k + length (dn k))).
    { rewrite nth_error_map, (nth_error_nth' _ 0), seq_nth by (rewrite ?seq_length; lia). reflexivity. }
    rewrite NE, (Hp k Hkn). assert (Hz' := Hz k Hkn). rewrite Ejk in Hz' |- *. cbn [length] in Hz' |- *.
    replace (st k + length (dn k) <? nnz) with true by (symmetry; apply Nat.ltb_lt; lia).
    replace (S (st k + length (dn k)) <=? st k + length (dn k) + S (length b)) with true by (symmetry; apply Nat.leb_le; lia).
    cbn [andb]. rewrite (Hst k Hkn). rewrite (upd_blocks A (fun r => dn r ++ jk r) n k (dn k) x b v) by (auto; rewrite Ejk; auto).
    rewrite <- (Hst k Hkn).
    set (dn' := fun r => if r =? k then dn k ++ [v] else dn r).
    set (jk' := fun r => if r =? k then b else jk r).
    assert (EU : upd (map (fun r => st r + length (dn r)) (seq 0 n)) k (S (st k + length (dn k))) =
                 Some (map (fun r => st r + length (dn' r)) (seq 0 n))).
    { rewrite upd_spec by (rewrite map_length, seq_length; lia). f_equal.
      rewrite firstn_map, firstn_seq, skipn_map by lia. rewrite (seq_split n k Hkn) at 2. rewrite map_app. f_equal.
      - apply map_ext_in. intros r Hr. apply in_seq in Hr. unfold dn'. destruct (Nat.eqb_spec r k); [lia|auto].
      - cbn [map]. unfold dn' at 1. rewrite Nat.eqb_refl, app_length. simpl length. f_equal; [lia|].
        rewrite (seq_split n k Hkn). replace (seq 0 k ++ k :: seq (S k) (n - S k)) with ((seq 0 k ++ [k]) ++ seq (S k) (n - S k)) by (rewrite <- app_assoc; reflexivity).
        rewrite skipn_app, skipn_all2 by (rewrite app_length, seq_length; simpl; lia).
        rewrite app_length, seq_length. simpl length. replace (S k - (k + 1)) with 0 by lia. simpl app.
        apply map_ext_in. intros r Hr. apply in_seq in Hr. unfold dn'. destruct (Nat.eqb_spec r k); [lia|auto]. }
    rewrite EU.
    replace (blocks (fun r => if r =? k then dn k ++ v :: b else dn r ++ jk r) n) with (blocks (fun r => dn' r ++ jk' r) n).
    2:{ apply blocks_ext. intros r Hr. unfold dn', jk'. destruct (Nat.eqb_spec r k); [rewrite <- app_assoc; reflexivity|reflexivity]. }
    assert (SL : forall r, length (dn' r) + length (jk' r) = length (dn r) + length (jk r)).
    { intro r. unfold dn', jk'. destruct (Nat.eqb_spec r k) as [->|]; auto. rewrite app_length, Ejk. simpl. lia. }
    rewrite IH.
    + f_equal. f_equal.
      * apply blocks_ext. intros r Hr. unfold dn'. rewrite grp_cons, (Nat.eqb_sym k r).
        destruct (Nat.eqb_spec r k) as [->|]; auto. rewrite <- app_assoc. reflexivity.
      * apply map_ext_in. intros r Hr. specialize (SL r). lia.
    + intros; apply Hk; right; auto.
    + intros r Hr. unfold jk'. specialize (Hj r Hr). rewrite grp_cons, (Nat.eqb_sym k r) in Hj.
      destruct (Nat.eqb_spec r k) as [E|E]; auto. rewrite E, Ejk in Hj. simpl in Hj. rewrite E. lia.
    + intros r Hr. rewrite Hst by auto. rewrite !blocks_len. f_equal. apply map_ext. intro q. rewrite !app_length. symmetry. apply SL.
    + intros r Hr. rewrite Hp by auto. f_equal. specialize (SL r). lia.
    + intros r Hr. specialize (Hz r Hr). specialize (SL r). lia.
Qed.

Lemma scatter_spec n (items : list (nat * A)) arr :
  (forall p, In p items -> fst p < n) -> length arr = length items ->
  let w := map (fun r => length (grp r items)) (seq 0 n) in
  scatter (length items) (psum 0 w) (removelast (psum 0 w)) arr items =
  Some (blocks (fun r => grp r items) n, tl (psum 0 w)).
Proof.
  intros Hk Ha w. destruct (cut A (fun r => length (grp r items)) n arr) as [jk [E1 E2]].
  { rewrite grp_total; auto. }
  assert (Lw : length w = n) by (unfold w; rewrite map_length, seq_length; auto).
  assert (T : forall i, i <= n -> tot (firstn i w) = length (blocks jk i)).
  { intros i Hi. unfold w. rewrite firstn_map, firstn_seq by auto. rewrite blocks_len. f_equal. apply map_ext_in.
    intros q Hq. apply in_seq in Hq. symmetry. apply E2. lia. }
  assert (TS : forall i, i < n -> tot (firstn (S i) w) = length (blocks jk i) + length (jk i)).
  { intros i Hi. rewrite T by lia. rewrite blocks_S, app_length. reflexivity. }
  rewrite psum_starts, psum_ends, Lw.
  assert (I := scatter_inv n (length items) (psum 0 w) (fun r => length (blocks jk r)) items (fun _ => []) jk Hk E2).
  cbn [app] in I. change (blocks (fun r => jk r) n) with (blocks jk n) in I. rewrite <- E1 in I.
  replace (map (fun i => 0 + tot (firstn i w)) (seq 0 n)) with (map (fun r => length (blocks jk r) + length (@nil A)) (seq 0 n)).
  2:{ apply map_ext_in. intros i Hi. apply in_seq in Hi. rewrite T by lia. simpl. lia. }
  rewrite I; auto.
  - f_equal. f_equal. apply map_ext_in. intros i Hi. apply in_seq in Hi. rewrite TS by lia. simpl. lia.
  - intros r Hr. rewrite psum_nth by lia. rewrite TS by lia. simpl. f_equal. lia.
  - intros r Hr. simpl. rewrite Nat.add_0_r.
    assert (Tn := T n (le_n _)). rewrite <- E1, Ha in Tn. rewrite <- TS by lia. rewrite <- Tn.
    rewrite <- (firstn_skipn (S r) (firstn n w)), tot_app, firstn_firstn.
    replace (min (S r) n) with (S r) by lia. lia.
Qed.
End S.
