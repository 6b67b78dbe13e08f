(** Triplet to CSR conversion: the whole function and the refresh. *)
From Coq Require Import List Bool Arith Lia Sorted Permutation Ring Field.
From Verif Require Import RingKit PackModel PackProofs SparseModel SparseSpec SparseProofs SparseProofs2
  CsrModel CsrSpec CsrProofs CsrProofs2 CsrProofs3 CsrProofs4 CsrProofs5 CondModel ConvModel ConvSpec ConvProofs ConvProofs2.
Import ListNotations.

Lemma combine_seq_nth {A} (l : list A) : forall s p, In p (combine (seq s (length l)) l) -> s <= fst p /\ nth_error l (fst p - s) = Some (snd p).
Proof.
  induction l as [|a l IH]; intros s p H; simpl in H; [tauto|]. destruct H as [<-|H].
  - cbn [fst snd]. rewrite Nat.sub_diag. auto.
  - apply IH in H. destruct H as [H1 H2]. split; [lia|]. replace (fst p - s) with (S (fst p - S s)) by lia. auto.
Qed.
Lemma combine_seq_snd {A} (l : list A) : forall s, map snd (combine (seq s (length l)) l) = l.
Proof. induction l as [|a l IH]; intro s; simpl; auto. rewrite IH. auto. Qed.
Lemma combine_seq_len {A} (l : list A) s : length (combine (seq s (length l)) l) = length l.
Proof. rewrite combine_length, seq_length. lia. Qed.

Section P.
Variable K : cfield.
Add Field kf : (fth K).
Notation entry := (entry K).
Notation ient := (nat * entry)%type.
Notation keep := (keep K). Notation extras := (extras K). Notation rw := (rw K). Notation cl := (cl K). Notation dg := (dg K).
Notation lastx := (lastx K). Notation vx := (vx K). Notation mk := (mk K). Notation dpos := (dpos K). Notation cntd := (cntd K).
Variable srt : list nat -> list nat.
Hypothesis Hsrt : sorts srt.
Variable A : trip K.
Hypothesis Hsq : t_m A = t_n A.
Hypothesis Hwf : wf A.
Hypothesis Hone : one_extra A.
Let n := t_n A.
Let l : list ient := combine (seq 0 (length (t_ent A))) (t_ent A).
Let kp := keep [] l.
Let xs := extras [] l.
Let fx r := lastx r xs None.
Let v0 k := nth k (map (@val K) (t_ent A)) f0.
Let d0 : ient := (0, (0, 0, f0)).
Definition kpf (i : nat) : list ient := filter (fun p => rw p =? i) kp.
Definition kps (i : nat) : list ient := map (fun t => nth t (kpf i) d0) (srt (map cl (kpf i))).
Definition off (i : nat) : nat := tot (firstn i (map (@length ient) (map kpf (seq 0 n)))).
Definition ext (i : nat) : list (nat * nat) := match dpos i kp 0, fx i with Some q, Some k2 => [(q + off i, k2)] | _, _ => [] end.

Lemma l_in p : In p l -> nth_error (t_ent A) (fst p) = Some (snd p).
Proof. intro H. apply combine_seq_nth in H. destruct H as [_ H]. rewrite Nat.sub_0_r in H. auto. Qed.
Lemma l_bound p : In p l -> rw p < n /\ cl p < n.
Proof. intro H. apply l_in in H. apply nth_error_In in H. destruct (Hwf _ H). unfold n. unfold ConvProofs.rw, ConvProofs.cl. lia. Qed.
Lemma l_val p : In p l -> nth_error (map (@val K) (t_ent A)) (fst p) = Some (val (snd p)).
Proof. intro H. rewrite nth_error_map, (l_in p H). reflexivity. Qed.
Lemma cntd_l r : cntd r l <= 2.
Proof.
  assert (H := Hone r). unfold l, ConvProofs2.cntd. rewrite <- (combine_seq_snd (t_ent A) 0) in H.
  revert H. generalize (combine (seq 0 (length (t_ent A))) (t_ent A)) as q.
  assert (E : forall q : list ient, length (filter (fun p => dg p && (rw p =? r)) q) = length (filter (fun e : entry => (row e =? r) && (col e =? r)) (map snd q))).
  { induction q as [|p q IH]; auto. cbn [map filter]. unfold ConvProofs.dg at 1. unfold ConvProofs.rw at 1.
    destruct (Nat.eqb_spec (row (snd p)) (col (snd p))), (Nat.eqb_spec (row (snd p)) r), (Nat.eqb_spec (col (snd p)) r); cbn [andb length]; try lia. }
  intros q H. rewrite E. auto.
Qed.
Lemma kp_in p : In p kp -> In p l.
Proof. apply keep_in. Qed.
Lemma xs_nodup : NoDup (map rw xs).
Proof. apply extras_nodup. exact cntd_l. Qed.
Lemma fx_bound r k : fx r = Some k -> k < length (t_ent A) /\ nth_error (t_ent A) k <> None.
Proof.
  intro H. apply lastx_in in H. destruct H as [p [Hp [_ <-]]]. apply extras_in in Hp. destruct Hp as [Hp _]. apply l_in in Hp.
  split; [apply nth_error_Some|]; rewrite Hp; discriminate.
Qed.

Lemma grp_items {B} (f : ient -> B) r : grp r (map (fun p => (rw p, f p)) kp) = map f (kpf r).
Proof.
  unfold grp, kpf. induction kp as [|p t IH]; auto. cbn [map filter fst]. destruct (rw p =? r); cbn [map]; rewrite ?IH; auto.
Qed.
Lemma srt_perm keys : Permutation (srt keys) (seq 0 (length keys)).
Proof. apply Hsrt. Qed.
Lemma kps_perm i : Permutation (kps i) (kpf i).
Proof.
  unfold kps. apply Permutation_trans with (map (fun t => nth t (kpf i) d0) (seq 0 (length (kpf i)))).
  - apply Permutation_map. rewrite <- (map_length cl (kpf i)). apply srt_perm.
  - replace (map (fun t => nth t (kpf i) d0) (seq 0 (length (kpf i)))) with (kpf i); [apply Permutation_refl|].
    apply nth_ext with (d := d0) (d' := d0); [rewrite map_length, seq_length; auto|]. intros t Ht. rewrite nth_map_seq by auto. reflexivity.
Qed.
Lemma kps_len i : length (kps i) = length (kpf i).
Proof. apply Permutation_length, kps_perm. Qed.
Lemma kps_sorted i : StronglySorted le (map cl (kps i)).
Proof.
  destruct (Hsrt (map cl (kpf i))) as [HP HS]. unfold kps. rewrite map_map.
  replace (map (fun t => cl (nth t (kpf i) d0)) (srt (map cl (kpf i)))) with (map (fun t => nth t (map cl (kpf i)) 0) (srt (map cl (kpf i)))); auto.
  apply map_ext. intro t. change 0 with (cl d0). apply map_nth.
Qed.
Lemma dpos_filter i : forall q, dpos i kp q = dpos i (kpf i) q.
Proof.
  unfold kpf. induction kp as [|p t IH]; intro q; auto. cbn [filter ConvProofs.dpos]. destruct (rw p =? i) eqn:E.
  - cbn [ConvProofs.dpos]. rewrite E. destruct (dg p); auto.
  - auto.
Qed.
Lemma dpos_nth its i : forall q r, dpos i its q = Some r -> (forall p, In p its -> rw p = i) ->
  exists a p b, its = a ++ p :: b /\ r = q + length a /\ dg p = true /\ forall x, In x a -> dg x = false.
Proof.
  induction its as [|p t IH]; intros q r H Hall; [discriminate|]. cbn [ConvProofs.dpos] in H.
  rewrite (Hall p) in H by (left; auto). rewrite Nat.eqb_refl in H. destruct (dg p) eqn:D.
  - injection H as <-. exists [], p, t. simpl. repeat split; auto. intros x [].
  - apply IH in H; [|intros; apply Hall; right; auto]. destruct H as [a [p' [b [E1 [E2 [E3 E4]]]]]].
    exists (p :: a), p', b. subst. simpl. repeat split; auto; try lia. intros x [<-|Hx]; auto.
Qed.
Lemma kpf_rw i p : In p (kpf i) -> rw p = i.
Proof. unfold kpf. intro H. apply filter_In in H. destruct H as [_ H]. apply Nat.eqb_eq in H. auto. Qed.

Lemma bl_len (f : ient -> slot K) : map (@length (slot K)) (map (fun i => map f (kpf i)) (seq 0 n)) = map (@length ient) (map kpf (seq 0 n)).
Proof. rewrite !map_map. apply map_ext. intro. apply map_length. Qed.

Lemma sort_row_spec i : i < n ->
  sort_row K srt (psum 0 (map (@length ient) (map kpf (seq 0 n)))) (concat (map (fun i => map (mk fx v0) (kpf i)) (seq 0 n))) (tab n fx)
    (tab n (fun r => match dpos r kp 0, fx r with Some q, Some _ => Some (off r + q) | _, _ => None end)) i =
  Some (map (mk fx v0) (kps i), ext i).
Proof.
  intro Hi. unfold sort_row. set (bl := map (fun i => map (mk fx v0) (kpf i)) (seq 0 n)).
  set (w := map (@length ient) (map kpf (seq 0 n))).
  assert (Lw : length w = n) by (unfold w; rewrite !map_length, seq_length; auto).
  assert (Lb : map (@length (slot K)) bl = w) by apply bl_len.
  assert (Ni : nth i bl [] = map (mk fx v0) (kpf i)) by (unfold bl; rewrite nth_map_seq; auto).
  rewrite !psum_nth by lia. cbn [obind Nat.add].
  assert (S1 : tot (firstn (S i) w) = tot (firstn i w) + length (kpf i)).
  { rewrite tot_firstn_S by lia. f_equal. unfold w. rewrite map_map, nth_map_seq; auto. }
  assert (LE : tot (firstn (S i) w) <= length (concat bl)) by (rewrite <- tot_concat, Lb; apply tot_firstn_le).
  replace (tot (firstn i w) <=? tot (firstn (S i) w)) with true by (symmetry; apply Nat.leb_le; lia).
  replace (tot (firstn (S i) w) <=? length (concat bl)) with true by (symmetry; apply Nat.leb_le; lia). cbn [andb].
  replace (tot (firstn (S i) w) - tot (firstn i w)) with (length (nth i bl [])) by (rewrite Ni, map_length; lia).
  assert (SL : firstn (length (nth i bl [])) (skipn (tot (firstn i w)) (concat bl)) = map (mk fx v0) (kpf i)).
  { rewrite <- Lb, slice_concat by (unfold bl; rewrite map_length, seq_length; auto). exact Ni. }
  rewrite SL. clear SL. 
  replace (map s_col (map (mk fx v0) (kpf i))) with (map cl (kpf i)) by (rewrite map_map; reflexivity).
  set (ind := srt (map cl (kpf i))).
  assert (PI : Permutation ind (seq 0 (length (kpf i)))) by (unfold ind; rewrite <- (map_length cl (kpf i)); apply srt_perm).
  assert (BI : forall t, In t ind -> t < length (kpf i)) by (intros t Ht; apply (Permutation_in _ PI) in Ht; apply in_seq in Ht; lia).
  rewrite (omap_ok _ (fun t => mk fx v0 (nth t (kpf i) d0))).
  2:{ intros t Ht. cbv beta. rewrite nth_error_map, (nth_error_nth' _ d0) by auto. reflexivity. }
  cbn [obind]. rewrite tab_nth by auto. cbn [obind].
  replace (map (fun t => mk fx v0 (nth t (kpf i) d0)) ind) with (map (mk fx v0) (kps i)) by (unfold kps; rewrite map_map; reflexivity).
  unfold ext. destruct (dpos i kp 0) as [q|] eqn:D; [|destruct (fx i); reflexivity].
  destruct (fx i) as [k2|] eqn:F; [|reflexivity].
  change (tot (firstn i w)) with (off i). replace (off i + q - off i) with q by lia.
  assert (Hq : q < length ind).
  { rewrite (Permutation_length PI), seq_length. rewrite dpos_filter in D. apply dpos_nth in D; [|apply kpf_rw].
    destruct D as [a [p [b [E1 [E2 _]]]]]. rewrite E1, app_length. simpl. lia. }
  destruct (nth_error ind q) as [x|] eqn:Nq; [|apply nth_error_None in Nq; lia]. cbn [obind].
  rewrite (find_pos_spec ind x q 0); auto.
  2:{ apply (Permutation_NoDup (Permutation_sym PI)), seq_NoDup. }
  cbn [obind]. rewrite tab_nth by auto. cbn [obind]. rewrite F. reflexivity.
Qed.

Lemma convert_spec j : exists c, convert K srt j A = Some c /\ v_nnz c = length kp /\
  v_ptr c = psum 0 (map (@length ient) (map kpf (seq 0 n))) /\
  v_arr c = concat (map (fun i => map (mk fx v0) (kps i)) (seq 0 n)) /\ v_ext c = concat (map ext (seq 0 n)).
Proof.
  unfold convert. fold n. fold l. rewrite !repeat_tab.
  destruct (count_spec K n l [] (fun _ => 0) (fun _ => None) (fun _ => None)) as [fd' E].
  { intros p Hp. apply l_bound. auto. }
  { intros r _. simpl. tauto. }
  rewrite E. cbn [obind]. fold kp. fold xs. change (fun r => lastx r xs None) with fx.
  assert (W : tab n (fun r => 0 + cntr K r kp) = map (@length ient) (map kpf (seq 0 n))) by (rewrite map_map; reflexivity).
  rewrite W. set (w := map (@length ient) (map kpf (seq 0 n))).
  set (items := map (fun p => (rw p, mk fx v0 p)) kp).
  assert (Wi : w = map (fun r => length (grp r items)) (seq 0 n)).
  { unfold w, items. rewrite map_map. apply map_ext. intro r. rewrite grp_items, map_length. auto. }
  assert (Hb : forall p, In p items -> fst p < n).
  { intros p Hp. apply in_map_iff in Hp. destruct Hp as [x [<- Hx]]. apply l_bound. apply kp_in. auto. }
  assert (T : tot w = length kp).
  { rewrite Wi, (grp_total _ n items Hb). apply map_length. }
  rewrite psum_last, T. cbn [Nat.add].
  assert (CS : length (filter (fun o : option nat => match o with Some _ => true | None => false end) (tab n fx)) = length xs).
  { apply (count_some K n xs xs_nodup). intros p Hp. apply extras_in in Hp. apply l_bound. tauto. }
  match goal with |- context [length (filter ?f (tab n ?g))] => change (length (filter f (tab n g))) with (length (filter f (tab n fx))) end.
  rewrite CS. assert (KE : length kp + length xs = length (t_ent A)) by (unfold kp, xs; rewrite keep_extras_len; unfold l; apply combine_seq_len).
  rewrite KE, Nat.eqb_refl.
  assert (Sc := scatter_spec _ n items (repeat j (length kp)) Hb).
  rewrite repeat_length in Sc. specialize (Sc ltac:(unfold items; rewrite map_length; auto)). cbv zeta in Sc. rewrite <- Wi in Sc.
  assert (RL : removelast (psum 0 w) = tab n (fun i => 0 + tot (firstn i w))).
  { rewrite psum_starts. unfold tab. unfold w at 2. rewrite !map_length, seq_length. reflexivity. }
  rewrite RL in Sc |- *.
  destruct (fun H1 H2 H3 => fill_spec K n (length items) (psum 0 w) (map (@val K) (t_ent A)) fx l [] (repeat j (length kp)) (fun i => 0 + tot (firstn i w))
     (fun _ => None) (fun _ => None) _ _ H1 H2 H3 Sc) as [fd2 E2].
  { intros p Hp. split; [apply l_bound; auto|apply l_val; auto]. }
  { intros r k2 _ H. apply fx_bound in H. rewrite map_length. tauto. }
  { intros r _. simpl. tauto. }
  fold kp in E2. rewrite (repeat_tab (length kp) j) in E2 |- *. rewrite <- (repeat_tab (length kp) j) in E2 |- *.
  rewrite E2. cbn [obind].
  replace (blocks (fun r => grp r items) n) with (concat (map (fun i => map (mk fx v0) (kpf i)) (seq 0 n))).
  2:{ unfold blocks. f_equal. apply map_ext. intro r. symmetry. apply grp_items. }
  rewrite (omap_ok _ (fun i => (map (mk fx v0) (kps i), ext i))).
  2:{ intros i Hi. apply in_seq in Hi. apply sort_row_spec. lia. }
  cbn [obind]. eexists. split; [reflexivity|]. cbn [v_nnz v_ptr v_arr v_ext]. rewrite !map_map. cbn [fst snd]. auto.
Qed.

(** * the matrix *)
Definition R (v : nat -> K) : list (list (nat * K)) := map (fun i => map (fun p => (cl p, vx fx v p)) (kps i)) (seq 0 n).
Lemma kpf_total : tot (map (@length ient) (map kpf (seq 0 n))) = length kp.
Proof.
  assert (Hb : forall p, In p (map (fun p => (rw p, p)) kp) -> fst p < n).
  { intros p Hp. apply in_map_iff in Hp. destruct Hp as [x [<- Hx]]. apply l_bound. apply kp_in. auto. }
  assert (T := grp_total _ n _ Hb). rewrite map_length in T. rewrite <- T. f_equal. rewrite map_map. apply map_ext. intro r.
  rewrite (grp_items (fun p => p)), map_id. reflexivity.
Qed.
Lemma R_pattern v : pattern (R v) = map (fun i => map cl (kps i)) (seq 0 n).
Proof. unfold pattern, R. rewrite map_map. apply map_ext. intro i. rewrite map_map. reflexivity. Qed.
Lemma R_snd v : map snd (concat (R v)) = concat (map (fun i => map (vx fx v) (kps i)) (seq 0 n)).
Proof. unfold R. rewrite concat_map, map_map. f_equal. apply map_ext. intro i. rewrite map_map. reflexivity. Qed.
Lemma R_rep c v : v_nnz c = length kp -> v_ptr c = psum 0 (map (@length ient) (map kpf (seq 0 n))) ->
  v_arr c = concat (map (fun i => map (mk fx v0) (kps i)) (seq 0 n)) ->
  rep K (conv_csr K n c (map snd (concat (R v)))) (R v).
Proof.
  intros E1 E2 E3. unfold conv_csr. split; [|reflexivity]. unfold shape. cbn [c_m c_n c_nnz c_ptr c_col c_val].
  assert (Lp : map (@length nat) (pattern (R v)) = map (@length ient) (map kpf (seq 0 n))).
  { rewrite R_pattern, !map_map. apply map_ext. intro i. rewrite map_length. apply kps_len. }
  assert (LC : length (concat (pattern (R v))) = length kp) by (rewrite <- tot_concat, Lp; apply kpf_total).
  split; [rewrite R_pattern, map_length, seq_length; auto|]. split; [congruence|]. split; [rewrite Lp; auto|]. split; [|split].
  - rewrite E3, R_pattern, concat_map, map_map. f_equal. apply map_ext. intro i. rewrite map_map. reflexivity.
  - rewrite map_length, E1, <- LC. unfold pattern. rewrite <- concat_map, map_length. reflexivity.
  - rewrite R_pattern. apply Forall_forall. intros r Hr. apply in_map_iff in Hr. destruct Hr as [i [<- _]]. apply Forall_forall. intros x Hx.
    apply in_map_iff in Hx. destruct Hx as [p [<- Hp]]. apply (Permutation_in _ (kps_perm i)) in Hp. unfold kpf in Hp. apply filter_In in Hp.
    apply l_bound, kp_in. tauto.
Qed.
Lemma R_cmat v i j : i < n -> cmat (R v) i j = lsum (map (fun p => if (rw p =? i) && (cl p =? j) then v (fst p) else f0) l).
Proof.
  intro Hi. unfold R. rewrite cmat_map by auto. rewrite map_map. cbn [fst snd].
  rewrite (absorb K l v i j cntd_l). fold xs. change (fun r => lastx r xs None) with fx. fold kp.
  rewrite (lsum_perm K _ _ (Permutation_map _ (kps_perm i))).
  unfold kpf. induction kp as [|p t IH]; auto. cbn [filter map]. unfold lsum in *. cbn [fold_right]. rewrite <- IH.
  destruct (rw p =? i); cbn [map fold_right andb]; auto. ring.
Qed.
Lemma mat_with vals i j : length vals = length (t_ent A) ->
  mat (t_ent (with_values A vals)) i j = lsum (map (fun p => if (rw p =? i) && (cl p =? j) then nth (fst p) vals f0 else f0) l).
Proof.
  intro L. unfold mat, with_values, l. cbn [t_ent]. rewrite map_map.
  assert (G : forall (es : list entry) vs s, length vs = length es ->
    map (fun x : entry * K => if (row (fst (fst x), snd x) =? i) && (col (fst (fst x), snd x) =? j) then val (fst (fst x), snd x) else f0) (combine es vs) =
    map (fun p : ient => if (rw p =? i) && (cl p =? j) then nth (fst p - s) vs f0 else f0) (combine (seq s (length es)) es)).
  { induction es as [|e es IH]; intros [|x vs] s HL; simpl in HL; try discriminate; auto. cbn [combine length seq map]. f_equal.
    - unfold ConvProofs.rw, ConvProofs.cl. cbn [fst snd]. rewrite Nat.sub_diag. reflexivity.
    - rewrite (IH vs (S s)) by lia. apply map_ext_in. intros p Hp. apply combine_seq_nth in Hp. destruct Hp as [Hp _].
      replace (fst p - s) with (S (fst p - S s)) by lia. reflexivity. }
  f_equal. etransitivity; [exact (G (t_ent A) vals 0 L)|]. apply map_ext. intro p. rewrite Nat.sub_0_r. reflexivity.
Qed.
Lemma with_same : with_values A (map (@val K) (t_ent A)) = A.
Proof.
  assert (G : forall es : list entry, map (fun p : entry * K => (fst (fst p), snd p)) (combine es (map (@val K) es)) = es).
  { induction es as [|[[r c] x] es IH]; [reflexivity|]. cbn [map combine fst snd]. rewrite IH. reflexivity. }
  unfold with_values. transitivity (Trip (t_m A) (t_n A) (t_ent A)); [|destruct A; reflexivity]. f_equal. exact (G (t_ent A)).
Qed.
Lemma R_order v : weakly_ordered (R v).
Proof.
  unfold weakly_ordered, R. apply Forall_forall. intros r Hr. apply in_map_iff in Hr. destruct Hr as [i [<- _]]. rewrite map_map. apply kps_sorted.
Qed.
Lemma R_vals : map (@s_val K) (concat (map (fun i => map (mk fx v0) (kps i)) (seq 0 n))) = map snd (concat (R v0)).
Proof. rewrite R_snd, concat_map, map_map. f_equal. apply map_ext. intro i. rewrite map_map. reflexivity. Qed.

(** * the refresh *)
Lemma kpf_cols i : map cl (kpf i) = row_cols i false (t_ent A).
Proof.
  unfold kpf, kp. rewrite <- (combine_seq_snd (t_ent A) 0) at 1. fold l.
  assert (G : forall (q : list ient) s, map cl (filter (fun p => rw p =? i) (keep s q)) = row_cols i (mem i s) (map snd q)).
  { induction q as [|p t IH]; intro s; auto. cbn [ConvProofs.keep map row_cols]. change (dg p) with (row (snd p) =? col (snd p)).
    assert (Fl : forall t', filter (fun p => rw p =? i) (p :: t') = if row (snd p) =? i then p :: filter (fun p => rw p =? i) t' else filter (fun p => rw p =? i) t') by reflexivity.
    change (rw p) with (row (snd p)).
    destruct (Nat.eqb_spec (row (snd p)) i) as [E|E].
    - rewrite E. destruct (Nat.eqb_spec i (col (snd p))) as [E2|E2].
      + rewrite <- E2, Nat.eqb_refl. destruct (mem i s) eqn:M.
        * rewrite IH, M. reflexivity.
        * rewrite Fl. cbn [map]. rewrite IH, mem_cons, Nat.eqb_refl. cbn [orb].
          change (cl p) with (col (snd p)). rewrite <- E2. reflexivity.
      + destruct (Nat.eqb_spec (col (snd p)) i); [lia|]. rewrite Fl. cbn [map]. rewrite IH. reflexivity.
    - destruct (row (snd p) =? col (snd p)).
      + destruct (mem (row (snd p)) s).
        * apply IH.
        * rewrite Fl, IH, mem_cons. destruct (Nat.eqb_spec i (row (snd p))); [lia|]. reflexivity.
      + rewrite Fl. apply IH. }
  rewrite G. simpl. unfold l. rewrite combine_seq_snd. reflexivity.
Qed.
Lemma fx_none i : length (filter (fun e => (row e =? i) && (col e =? i)) (t_ent A)) <= 1 -> fx i = None.
Proof.
  intro H. destruct (fx i) as [k|] eqn:F; auto. apply lastx_in in F. destruct F as [p [Hp [E _]]].
  destruct (extras_has K l p [] Hp) as [C|C]; [discriminate|].
  assert (S := cntd_split K (rw p) l []). fold kp xs in S, C.
  assert (C2 : 1 <= cntd (rw p) xs).
  { destruct (extras_in K l p [] Hp) as [_ D]. unfold ConvProofs2.cntd. assert (I : In p (filter (fun q => dg q && (rw q =? rw p)) xs)) by (apply filter_In; rewrite D, Nat.eqb_refl; auto).
    destruct (filter (fun q => dg q && (rw q =? rw p)) xs); [destruct I|simpl; lia]. }
  assert (E2 : cntd (rw p) l = length (filter (fun e : entry => (row e =? i) && (col e =? i)) (t_ent A))).
  { rewrite E. unfold l, ConvProofs2.cntd. rewrite <- (combine_seq_snd (t_ent A) 0) at 3. generalize (combine (seq 0 (length (t_ent A))) (t_ent A)) as q.
    induction q as [|x q IH]; auto. cbn [map filter]. unfold ConvProofs.dg at 1. unfold ConvProofs.rw at 1.
    destruct (Nat.eqb_spec (row (snd x)) (col (snd x))), (Nat.eqb_spec (row (snd x)) i), (Nat.eqb_spec (col (snd x)) i); cbn [andb length]; try lia. }
  rewrite E2 in S. lia.
Qed.
Lemma in_place i : StronglySorted lt (row_cols i false (t_ent A)) -> kps i = kpf i.
Proof.
  rewrite <- kpf_cols. intro HS. unfold kps. destruct (Hsrt (map cl (kpf i))) as [HP HO].
  rewrite (sorted_perm_id _ _ HP HO HS), map_length.
  apply nth_ext with (d := d0) (d' := d0); [rewrite map_length, seq_length; auto|]. intros t Ht. rewrite map_length, seq_length in Ht. rewrite nth_map_seq by auto. reflexivity.
Qed.
Lemma cntd_kpf i : cntd i (kpf i) <= 1.
Proof.
  assert (H := cntd_keep K i l []). simpl in H. fold kp in H. eapply Nat.le_trans; [|exact H].
  unfold kpf. clear. induction kp as [|p t IH]; auto. cbn [filter]. rewrite cntd_cons. destruct (rw p =? i) eqn:E; [|lia]. rewrite cntd_cons, E. lia.
Qed.
Lemma refresh_spec c vals : length vals = length (t_ent A) -> diag_in_place A ->
  v_arr c = concat (map (fun i => map (mk fx v0) (kps i)) (seq 0 n)) -> v_ext c = concat (map ext (seq 0 n)) ->
  refresh K c vals = Some (map snd (concat (R (fun k => nth k vals f0)))).
Proof.
  intros L Hin E1 E2. set (v := fun k => nth k vals f0). unfold refresh. rewrite E1, E2.
  rewrite (omap_ok _ (fun s => v (s_idx s))).
  2:{ intros s Hs. apply in_concat in Hs. destruct Hs as [r [Hr Hs]]. apply in_map_iff in Hr. destruct Hr as [i [<- _]].
      apply in_map_iff in Hs. destruct Hs as [p [<- Hp]]. apply (Permutation_in _ (kps_perm i)) in Hp. unfold kpf in Hp. apply filter_In in Hp.
      destruct Hp as [Hp _]. apply kp_in in Hp. apply l_in in Hp. unfold ConvProofs.mk, s_idx. cbn [snd].
      apply nth_error_nth'. rewrite L. apply nth_error_Some. congruence. }
  cbn [obind]. rewrite concat_map, map_map.
  set (g := fun i => map (fun p : ient => v (fst p)) (kps i)). set (g' := fun i => map (vx fx v) (kps i)).
  replace (map (fun x => map (fun s => v (s_idx s)) (map (mk fx v0) (kps x))) (seq 0 n)) with (map g (seq 0 n)) by (apply map_ext; intro i; unfold g; rewrite map_map; reflexivity).
  change (concat (map g (seq 0 n))) with (blocks g n). rewrite R_snd. change (concat (map (fun i => map (vx fx v) (kps i)) (seq 0 n))) with (blocks g' n).
  assert (Lg : forall i, length (g i) = length (kpf i)) by (intro; unfold g; rewrite map_length; apply kps_len).
  assert (Lg' : forall i, length (g' i) = length (kpf i)) by (intro; unfold g'; rewrite map_length; apply kps_len).
  assert (G : forall m, m <= n -> ofold (fun p v => do x <- nth_error vals (snd p); do y <- nth_error v (fst p); upd v (fst p) (y +! x)) (concat (map ext (seq 0 m))) (blocks g n) =
     Some (blocks (fun r => if r <? m then g' r else g r) n)).
  { induction m as [|m IH]; intro Hm.
    - simpl. reflexivity.
    - rewrite seq_S, map_app, concat_app, ofold_app, IH by lia. cbn [Nat.add map concat]. rewrite app_nil_r.
      assert (Nxt : forall h : nat -> list K, (forall r, r <> m -> h r = (if r <? m then g' r else g r)) -> h m = g' m ->
         blocks h n = blocks (fun r => if r <? S m then g' r else g r) n).
      { intros h H1 H2. apply blocks_ext. intros r Hr. destruct (Nat.ltb_spec r (S m)).
        - destruct (Nat.eq_dec r m) as [->|]; auto. rewrite H1 by auto. destruct (Nat.ltb_spec r m); [auto|lia].
        - rewrite H1 by lia. destruct (Nat.ltb_spec r m); [lia|auto]. }
      assert (NoX : (forall p, In p (kps m) -> vx fx v p = v (fst p)) -> Some (blocks (fun r => if r <? m then g' r else g r) n) = Some (blocks (fun r => if r <? S m then g' r else g r) n)).
      { intro Hv. f_equal. apply Nxt; auto. rewrite Nat.ltb_irrefl. unfold g, g'. apply map_ext_in. intros p Hp. symmetry. auto. }
      unfold ext. destruct (dpos m kp 0) as [q|] eqn:D.
      + destruct (fx m) as [k2|] eqn:F.
        * assert (KP : kps m = kpf m).
          { apply in_place. destruct (Hin m) as [H|H]; auto. apply fx_none in H. congruence. }
          rewrite dpos_filter in D. apply dpos_nth in D; [|apply kpf_rw]. destruct D as [a [p [b [D1 [D2 [D3 D4]]]]]].
          assert (Db : forall x, In x b -> dg x = false).
          { intros x Hx. destruct (dg x) eqn:Dx; auto. exfalso. assert (C := cntd_kpf m).
            assert (R1 : rw x = m) by (apply kpf_rw; rewrite D1; apply in_or_app; right; right; auto).
            assert (R2 : rw p = m) by (apply kpf_rw; rewrite D1; apply in_or_app; right; left; auto).
            unfold ConvProofs2.cntd in C. rewrite D1, filter_app, app_length in C. cbn [filter] in C. rewrite D3, R2, Nat.eqb_refl in C. cbn [andb length] in C.
            assert (I : In x (filter (fun p => dg p && (rw p =? m)) b)) by (apply filter_In; rewrite Dx, R1, Nat.eqb_refl; auto).
            destruct (filter (fun p => dg p && (rw p =? m)) b); [destruct I|simpl in C; lia]. }
          cbn [ofold fst snd].
          rewrite (nth_error_nth' vals f0) by (rewrite L; apply (fx_bound m); auto). cbn [obind]. fold (v k2).
          set (gg := fun r => if r <? m then g' r else g r).
          assert (Gm : gg m = map (fun p : ient => v (fst p)) a ++ v (fst p) :: map (fun p : ient => v (fst p)) b).
          { unfold gg. rewrite Nat.ltb_irrefl. unfold g. rewrite KP, D1, map_app. reflexivity. }
          assert (Off : off m = length (blocks gg m)).
          { unfold off. rewrite blocks_len, firstn_map, firstn_map, firstn_seq, map_map by lia. f_equal. apply map_ext. intro r. unfold gg.
            destruct (r <? m); rewrite ?Lg, ?Lg'; auto. }
          assert (Pos : q + off m = length (blocks gg m) + length (map (fun p : ient => v (fst p)) a)) by (rewrite map_length, Off; lia).
          rewrite Pos.
          assert (Nth : nth_error (blocks gg n) (length (blocks gg m) + length (map (fun p : ient => v (fst p)) a)) = Some (v (fst p))).
          { rewrite (blocks_split _ gg n m) by lia. rewrite Gm. rewrite nth_error_app2 by lia.
            replace (length (blocks gg m) + length (map (fun p : ient => v (fst p)) a) - length (blocks gg m)) with (length (map (fun p : ient => v (fst p)) a)) by lia.
            rewrite <- app_assoc. rewrite nth_error_app2 by lia. rewrite Nat.sub_diag. reflexivity. }
          rewrite Nth. cbn [obind]. rewrite (upd_blocks _ gg n m _ _ _ (v (fst p) +! v k2) ltac:(lia) Gm). f_equal. apply Nxt.
          -- intros r Hr. destruct (Nat.eqb_spec r m); [contradiction|]. reflexivity.
          -- rewrite Nat.eqb_refl. unfold g'. rewrite KP, D1, map_app. cbn [map].
             assert (R2 : rw p = m) by (apply kpf_rw; rewrite D1; apply in_or_app; right; left; auto).
             f_equal; [|f_equal].
             ++ apply map_ext_in. intros x Hx. unfold ConvProofs.vx. rewrite (D4 x Hx). reflexivity.
             ++ unfold ConvProofs.vx. rewrite D3, R2, F. reflexivity.
             ++ apply map_ext_in. intros x Hx. unfold ConvProofs.vx. rewrite (Db x Hx). reflexivity.
        * cbn [ofold]. apply NoX. intros p Hp. unfold ConvProofs.vx. destruct (dg p) eqn:Dp; auto.
          apply (Permutation_in _ (kps_perm m)) in Hp. rewrite (kpf_rw m p Hp), F. reflexivity.
      + cbn [ofold]. apply NoX. intros p Hp. apply (Permutation_in _ (kps_perm m)) in Hp. unfold ConvProofs.vx. destruct (dg p) eqn:Dp; auto. exfalso.
        rewrite dpos_filter in D. revert D Hp. generalize 0. assert (All := kpf_rw m). revert All. generalize (kpf m). clear -Dp.
        induction l as [|x t IH]; intros All s D Hp; [destruct Hp|]. cbn [ConvProofs.dpos] in D. rewrite (All x) in D by (left; auto). rewrite Nat.eqb_refl in D.
        destruct (dg x) eqn:Dx; [discriminate|]. destruct Hp as [->|Hp]; [congruence|]. apply (IH (fun y Hy => All y (or_intror Hy)) _ D Hp). }
  rewrite (G n) by lia. f_equal. apply blocks_ext. intros r Hr. destruct (Nat.ltb_spec r n); [reflexivity|lia].
Qed.
End P.
