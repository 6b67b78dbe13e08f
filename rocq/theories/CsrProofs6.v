(** Numeric product and sums of CSR matrices. *)
From Coq Require Import List Bool Arith Lia Sorted Ring Field.
From Verif Require Import RingKit PackModel PackProofs SparseModel SparseSpec SparseProofs SparseProofs2 CsrModel CsrSpec CsrProofs CsrProofs2 CsrProofs3 CsrProofs4 CsrProofs5.
Import ListNotations.

Section P.
Variable K : cfield.
Add Field kf : (fth K).
Notation csr := (csr K).
Notation junk := (junk K).
Notation rows := (list (list (nat * K))).

Definition prod_rows (alpha beta : K) (xs ys ms : rows) (m : nat) : rows :=
  map (fun i => map (fun p => (fst p, snd p *! beta +! alpha *! hits K (fst p) (contrib K xs ys i))) (nth i ms [])) (seq 0 m).

Lemma slice_mid {A} (a b c : list A) : firstn (length b) (skipn (length a) (a ++ b ++ c)) = b.
Proof.
  rewrite skipn_app, skipn_all, Nat.sub_diag. simpl. rewrite firstn_app, firstn_all, Nat.sub_diag. simpl. apply app_nil_r.
Qed.
Lemma map_nth_id {A B} (f : list A -> B) (l : list (list A)) : map (fun i => f (nth i l [])) (seq 0 (length l)) = map f l.
Proof. induction l as [|x l IH]; simpl; auto. f_equal. rewrite <- seq_shift, map_map. exact IH. Qed.
Lemma nth_bet (ms : rows) (beta : K) i : nth i (map (map (fun p => (fst p, snd p *! beta))) ms) [] = map (fun p => (fst p, snd p *! beta)) (nth i ms []).
Proof. change [] with (map (fun p : nat * K => (fst p, snd p *! beta)) []) at 1. apply map_nth. Qed.

Lemma numeric_spec X beta M alpha Y xs ys ms :
  rep K X xs -> rep K Y ys -> rep K M ms -> c_m Y = c_n X -> c_m M = c_m X -> c_n M = c_n Y -> ordered ms ->
  (forall i j, i < c_m X -> In j (cands K xs ys i) -> In j (map fst (nth i ms []))) ->
  exists A, times_mat_numeric K X beta M alpha Y = Some A /\ c_m A = c_m X /\ c_n A = c_n Y /\ c_rs A = c_rs M /\
    rep K A (prod_rows alpha beta xs ys ms (c_m X)).
Proof.
  intros Hx Hy HM Hd Hm Hn Ho Hc. unfold times_mat_numeric. rewrite Hm, Hn, Hd, !Nat.eqb_refl. cbn [andb].
  set (g := fun i => map (fun p => (fst p, snd p *! beta +! alpha *! hits K (fst p) (contrib K xs ys i))) (nth i ms [])).
  match goal with |- context [ofold ?F _ _] => set (step := F) end.
  set (v0 := map (map (fun p : nat * K => (fst p, snd p *! beta))) ms).
  assert (Hv0 : map (fun v => v *! beta) (c_val M) = map snd (concat v0)).
  { destruct HM as [_ ->]. unfold v0. rewrite concat_map_map, !map_map. reflexivity. }
  assert (LM := rep_len K M ms HM).
  destruct (row_loop K (fun v (W : list K) => (v, W)) M ms step
     (fun _ W => length W = c_n Y /\ forall q, nth q W f0 = f0) (fun i => map snd (g i)) v0 HM) with (s0 := repeat (@f0 K) (c_n Y)) as [W' [E _]].
  - unfold v0, pattern. rewrite map_map. apply map_ext. intro r. rewrite map_map. reflexivity.
  - intros i pre post W Hi [HW HZ] Hl. unfold step. cbn [fst snd].
    destruct (num_scatter_spec K X Y xs ys i W Hx Hy Hd) as [W1 [E1 [L1 N1]]]; [lia|auto|]. rewrite E1.
    destruct (rep_ptr K M ms i HM Hi) as [P1 P2]. rewrite P1, P2.
    destruct (slice_cols K M ms i HM Hi) as [cp [cq [Ec Lc]]]. rewrite Ec.
    replace (off K ms i + length (nth i ms []) - off K ms i) with (length (map fst (nth i ms []))) by (rewrite map_length; lia).
    rewrite <- Lc, slice_mid.
    assert (Or : StronglySorted (fun a b : nat * K => fst a < fst b) (nth i ms [])).
    { unfold ordered in Ho. rewrite Forall_forall in Ho. apply Ho. apply nth_In. lia. }
    rewrite incr_ok.
    2:{ apply ordered_pattern in Ho. rewrite Forall_forall in Ho. apply Ho. unfold pattern. apply in_map. apply nth_In. lia. }
    unfold v0. rewrite nth_bet.
    destruct (take_spec K alpha (map (fun p => (fst p, snd p *! beta)) (nth i ms [])) W1) as [W2 [E2 [L2 N2]]].
    { clear -Or. induction Or as [|p r Hr IH HF]; simpl; constructor; auto. rewrite Forall_forall in *. intros x Hx.
      apply in_map_iff in Hx. destruct Hx as [y [<- Hy]]. simpl. auto. }
    { intros p Hp. apply in_map_iff in Hp. destruct Hp as [z [<- Hz]]. simpl. rewrite L1, <- Hn. apply (rep_bound K M ms i z HM Hz). }
    exists W2. split; [|split].
    + rewrite Lc, <- Hl.
      replace (map fst (nth i ms [])) with (map fst (map (fun p : nat * K => (fst p, snd p *! beta)) (nth i ms []))) by (rewrite map_map; reflexivity).
      replace (length (nth i ms [])) with (length (map (fun p : nat * K => (fst p, snd p *! beta)) (nth i ms []))) by apply map_length.
      rewrite (upd_row_spec K _ _ cp cq pre post W1 _ W2 ltac:(lia) E2).
      f_equal. f_equal. f_equal. f_equal. unfold g. rewrite !map_map. cbn [fst snd]. apply map_ext. intro p. rewrite N1, HZ. ring.
    + split; [congruence|]. intro q. rewrite N2, N1, HZ. rewrite map_map. cbn [fst].
      destruct (existsb (Nat.eqb q) (map (fun x : nat * K => fst x) (nth i ms []))) eqn:Ex; auto.
      transitivity (hits K q (contrib K xs ys i)); [ring|]. unfold hits. apply lsum_zero. intros u Hu.
      destruct (Nat.eqb_spec (fst u) q) as [Eq|]; auto. exfalso.
      assert (In q (map fst (nth i ms []))). { apply Hc; [lia|]. rewrite <- contrib_cands. rewrite <- Eq. apply in_map. auto. }
      assert (existsb (Nat.eqb q) (map (fun x : nat * K => fst x) (nth i ms [])) = true).
      { apply existsb_exists. exists q. split; auto. apply Nat.eqb_refl. }
      congruence.
    + unfold g. rewrite !map_length. auto.
  - rewrite repeat_length. split; auto. intro q. clear. revert q. induction (c_n Y) as [|k IH]; intros [|q]; simpl; auto.
  - rewrite Hm in E. rewrite Hv0, E. eexists. split; [reflexivity|]. cbn [with_vals c_m c_n c_rs]. split; auto. split; auto. split; auto.
    rewrite <- Hm. apply (rep_new K M ms g); auto. intros i Hi. unfold g. rewrite map_map. reflexivity.
Qed.
Lemma cmat_prod alpha beta xs ys ms m k i j : i < m -> (forall p, In p (nth i xs []) -> fst p < k) -> ordered ms ->
  (forall j, In j (cands K xs ys i) -> In j (map fst (nth i ms []))) ->
  cmat (prod_rows alpha beta xs ys ms m) i j = beta *! cmat ms i j +! alpha *! sumn k (fun l => cmat xs i l *! cmat ys l j).
Proof.
  intros Hi Hb Ho Hc. unfold prod_rows. rewrite cmat_map, map_map by auto. cbn [fst snd].
  rewrite <- (contrib_sum K xs ys i j k Hb). fold (hits K j (contrib K xs ys i)). unfold cmat at 1.
  assert (Or : StronglySorted (fun a b : nat * K => fst a < fst b) (nth i ms [])).
  { destruct (nth_in_or_default i ms []) as [Hin|E]; [|rewrite E; constructor]. unfold ordered in Ho. rewrite Forall_forall in Ho. auto. }
  assert (Z : ~ In j (map fst (nth i ms [])) -> hits K j (contrib K xs ys i) = f0).
  { intro N. unfold hits. apply lsum_zero. intros u Hu. destruct (Nat.eqb_spec (fst u) j) as [E|]; auto. exfalso. apply N. apply Hc.
    rewrite <- contrib_cands, <- E. apply in_map. auto. }
  revert Or Z. generalize (nth i ms []) as r. clear. set (h := fun c => hits K c (contrib K xs ys i)). change (hits K j (contrib K xs ys i)) with (h j).
  intros r Or Z. destruct (in_dec Nat.eq_dec j (map fst r)) as [Hj|Hj].
  - clear Z. induction Or as [|p r Hr IH HF]; [destruct Hj|]. simpl in *. rewrite Forall_forall in HF.
    change (hits K (fst p) (contrib K xs ys i)) with (h (fst p)).
    destruct (Nat.eqb_spec (fst p) j) as [E|E].
    + assert (Zr : forall f : nat * K -> K, lsum (map (fun x => if fst x =? j then f x else f0) r) = f0).
      { intro f. apply lsum_zero. intros x Hx. specialize (HF x Hx). destruct (Nat.eqb_spec (fst x) j); [lia|auto]. }
      rewrite !Zr, E. ring.
    + destruct Hj as [Hj|Hj]; [congruence|]. rewrite (IH Hj). ring.
  - rewrite (Z Hj).
    assert (Zr : forall f : nat * K -> K, lsum (map (fun x => if fst x =? j then f x else f0) r) = f0).
    { intro f. apply lsum_zero. intros x Hx. destruct (Nat.eqb_spec (fst x) j); auto. exfalso. apply Hj. subst. apply in_map; auto. }
    rewrite !Zr. ring.
Qed.
Lemma pattern_prod alpha beta xs ys ms : pattern (prod_rows alpha beta xs ys ms (length ms)) = pattern ms.
Proof. unfold prod_rows. apply (pattern_map_fst K ms (fun i p => snd p *! beta +! alpha *! hits K (fst p) (contrib K xs ys i))). Qed.

(** * sums *)
Fixpoint merge (alpha beta : K) (xs : list (nat * K)) : list (nat * K) -> list (nat * K) :=
  fix go (ys : list (nat * K)) : list (nat * K) :=
    match xs, ys with
    | (jx, x) :: xs', (jy, y) :: ys' =>
        if jx <? jy then (jx, f0 +! alpha *! x) :: merge alpha beta xs' ys
        else if jx =? jy then (jx, f0 +! (alpha *! x +! beta *! y)) :: merge alpha beta xs' ys'
        else (jy, f0 +! beta *! y) :: go ys'
    | _, _ => map (fun p => (fst p, f0 +! alpha *! snd p)) xs ++ map (fun p => (fst p, f0 +! beta *! snd p)) ys
    end.
Lemma merge_fst alpha beta xs : forall ys, map fst (merge alpha beta xs ys) = merge_cols (map fst xs) (map fst ys).
Proof.
  induction xs as [|[jx x] xs IH]; intro ys.
  - destruct ys; simpl; auto. rewrite map_map. reflexivity.
  - induction ys as [|[jy y] ys IHy].
    + simpl. rewrite !app_nil_r, map_map. reflexivity.
    + cbn [merge merge_cols map fst]. destruct (jx <? jy); [cbn [map fst]; f_equal; apply (IH ((jy, y) :: ys))|].
      destruct (jx =? jy); cbn [map fst]; f_equal; [apply IH|exact IHy].
Qed.
Lemma merge_snd alpha beta xs : forall ys, map snd (merge alpha beta xs ys) = merge_vals K alpha beta xs ys.
Proof.
  induction xs as [|[jx x] xs IH]; intro ys.
  - destruct ys; simpl; auto. rewrite map_map. reflexivity.
  - induction ys as [|[jy y] ys IHy].
    + simpl. rewrite !app_nil_r, map_map. reflexivity.
    + cbn [merge merge_vals]. destruct (jx <? jy); [cbn [map snd]; f_equal; apply (IH ((jy, y) :: ys))|].
      destruct (jx =? jy); cbn [map snd]; f_equal; [apply IH|exact IHy].
Qed.
Lemma merge_count_len xs : forall ys, merge_count xs ys = length (merge_cols xs ys).
Proof.
  induction xs as [|jx xs IH]; intro ys.
  - destruct ys; reflexivity.
  - induction ys as [|jy ys IHy].
    + simpl. rewrite app_nil_r. lia.
    + cbn [merge_count merge_cols]. destruct (jx <? jy); [cbn [length]; f_equal; apply IH|].
      destruct (jx =? jy); cbn [length]; f_equal; [apply IH|exact IHy].
Qed.
Lemma merge_cols_in xs : forall ys j, In j (merge_cols xs ys) <-> In j xs \/ In j ys.
Proof.
  induction xs as [|jx xs IH]; intros ys j.
  - destruct ys; simpl; intuition.
  - induction ys as [|jy ys IHy].
    + simpl. rewrite app_nil_r. intuition.
    + cbn [merge_cols]. destruct (jx <? jy); [cbn [In]; rewrite IH; cbn [In]; tauto|].
      destruct (Nat.eqb_spec jx jy) as [E|E]; cbn [In].
      * rewrite IH. subst. tauto.
      * change (jy = j \/ In j (merge_cols (jx :: xs) ys) <-> (jx = j \/ In j xs) \/ jy = j \/ In j ys). rewrite IHy. cbn [In]. tauto.
Qed.
Lemma merge_cols_sorted xs : forall ys, StronglySorted lt xs -> StronglySorted lt ys -> StronglySorted lt (merge_cols xs ys).
Proof.
  induction xs as [|jx xs IH]; intros ys Hx Hy.
  - destruct ys; simpl; auto.
  - induction ys as [|jy ys IHy].
    + simpl. rewrite app_nil_r. auto.
    + inversion Hx; subst. inversion Hy; subst. rewrite Forall_forall in *.
      cbn [merge_cols]. destruct (Nat.ltb_spec jx jy) as [L|L].
      * constructor; [apply IH; auto|]. apply Forall_forall. intros j Hj. apply merge_cols_in in Hj. destruct Hj as [Hj|[<-|Hj]]; auto.
        specialize (H4 j Hj). lia.
      * destruct (Nat.eqb_spec jx jy) as [E|E].
        -- subst. constructor; [apply IH; auto|]. apply Forall_forall. intros j Hj. apply merge_cols_in in Hj. destruct Hj; auto.
        -- change (StronglySorted lt (jy :: merge_cols (jx :: xs) ys)). constructor; [apply IHy; auto|].
           apply Forall_forall. intros j Hj. apply merge_cols_in in Hj. destruct Hj as [[<-|Hj]|Hj]; [lia| |auto]. specialize (H2 j Hj). lia.
Qed.
Lemma merge_look alpha beta j xs : forall ys,
  lsum (map (fun p => if fst p =? j then snd p else f0) (merge alpha beta xs ys)) =
  alpha *! lsum (map (fun p => if fst p =? j then snd p else f0) xs) +! beta *! lsum (map (fun p => if fst p =? j then snd p else f0) ys).
Proof.
  assert (B : forall c (l : list (nat * K)), lsum (map (fun p => if fst p =? j then snd p else f0) (map (fun p => (fst p, f0 +! c *! snd p)) l)) =
      c *! lsum (map (fun p => if fst p =? j then snd p else f0) l)).
  { intros c l. rewrite map_map, <- lsum_scale. apply lsum_ext. intros p _. simpl. destruct (fst p =? j); ring. }
  induction xs as [|[jx x] xs IH]; intro ys.
  - destruct ys as [|y ys].
    + simpl. ring.
    + change (merge alpha beta [] (y :: ys)) with (map (fun p => (fst p, f0 +! beta *! snd p)) (y :: ys)). rewrite B. simpl. ring.
  - induction ys as [|[jy y] ys IHy].
    + change (merge alpha beta ((jx, x) :: xs) []) with (map (fun p => (fst p, f0 +! alpha *! snd p)) ((jx, x) :: xs) ++ []).
      rewrite app_nil_r, B. simpl. ring.
    + cbn [merge]. destruct (jx <? jy).
      * cbn [map lsum fst snd]. rewrite (IH ((jy, y) :: ys)). cbn [map lsum fst snd]. destruct (jx =? j), (jy =? j); ring.
      * destruct (Nat.eqb_spec jx jy) as [->|N].
        -- cbn [map lsum fst snd]. rewrite IH. destruct (jy =? j); ring.
        -- cbn [map lsum fst snd].
           match goal with |- _ +! ?t = _ => change t with (lsum (map (fun p => if fst p =? j then snd p else f0) (merge alpha beta ((jx, x) :: xs) ys))) end.
           rewrite IHy. cbn [map lsum fst snd]. destruct (jx =? j), (jy =? j); ring.
Qed.

Lemma two_rows_spec X Y xs ys : rep K X xs -> rep K Y ys -> c_m X = c_m Y -> c_n X = c_n Y ->
  two_rows K X Y = Some (map (fun i => (nth i xs [], nth i ys [])) (seq 0 (c_m X))).
Proof.
  intros Hx Hy Hm Hn. unfold two_rows. rewrite <- Hm, <- Hn, !Nat.eqb_refl. cbn [andb]. apply omap_ok.
  intros i Hi. apply in_seq in Hi. rewrite (crow_ok K X xs i Hx), (crow_ok K Y ys i Hy) by lia.
  replace (forallb _ _) with true; auto. symmetry. apply forallb_forall. intros e He. apply Nat.ltb_lt. apply in_app_or in He.
  destruct He as [He|He]; [apply (rep_bound K X xs i e Hx He)|rewrite Hn; apply (rep_bound K Y ys i e Hy He)].
Qed.
Definition sum_pat (xs ys : rows) (m : nat) : list (list nat) := map (fun i => merge_cols (map fst (nth i xs [])) (map fst (nth i ys []))) (seq 0 m).
Definition sum_rows (alpha beta : K) (xs ys : rows) (m : nat) : rows := map (fun i => merge alpha beta (nth i xs []) (nth i ys [])) (seq 0 m).
Lemma sum_pattern alpha beta xs ys m : pattern (sum_rows alpha beta xs ys m) = sum_pat xs ys m.
Proof. unfold pattern, sum_rows, sum_pat. rewrite map_map. apply map_ext. intro i. apply merge_fst. Qed.
Lemma cmat_sum alpha beta xs ys m i j : i < m -> cmat (sum_rows alpha beta xs ys m) i j = alpha *! cmat xs i j +! beta *! cmat ys i j.
Proof. intro H. unfold sum_rows. rewrite cmat_map by auto. apply merge_look. Qed.
Lemma nth_sorted (xs : rows) i : ordered xs -> StronglySorted lt (map fst (nth i xs [])).
Proof.
  intro H. apply ordered_pattern in H. destruct (nth_in_or_default i xs []) as [Hin|E]; [|rewrite E; constructor].
  rewrite Forall_forall in H. apply H. unfold pattern. apply in_map. auto.
Qed.
Lemma sum_ordered alpha beta xs ys m : ordered xs -> ordered ys -> ordered (sum_rows alpha beta xs ys m).
Proof.
  intros Hx Hy. apply ordered_pattern. rewrite sum_pattern. apply Forall_forall. intros r Hr. apply in_map_iff in Hr.
  destruct Hr as [i [<- _]]. apply merge_cols_sorted; apply nth_sorted; auto.
Qed.
Lemma sum_alloc_spec J X Y xs ys : rep K X xs -> rep K Y ys -> c_m X = c_m Y -> c_n X = c_n Y ->
  add_matrix_alloc K J X Y = new_csr K J (c_m X) (c_n X) (length (concat (sum_pat xs ys (c_m X)))).
Proof.
  intros Hx Hy Hm Hn. unfold add_matrix_alloc. rewrite (two_rows_spec X Y xs ys) by auto. f_equal. rewrite map_map. cbn [fst snd].
  unfold sum_pat. induction (seq 0 (c_m X)) as [|i l IH]; simpl; auto. rewrite app_length, IH, merge_count_len. auto.
Qed.
Lemma sum_symbolic_spec X M Y xs ys : rep K X xs -> rep K Y ys -> c_m X = c_m Y -> c_n X = c_n Y ->
  allocated K M -> c_m M = c_m X -> c_n M = c_n X -> c_nnz M = length (concat (sum_pat xs ys (c_m X))) ->
  exists A, add_matrix_symbolic K X M Y = Some A /\ c_m A = c_m X /\ c_n A = c_n X /\ shape K A (sum_pat xs ys (c_m X)).
Proof.
  intros Hx Hy Hm Hn [A1 [A2 A3]] HMm HMn Hnnz. unfold add_matrix_symbolic. rewrite (two_rows_spec X Y xs ys) by auto.
  rewrite map_map. cbn [fst snd]. fold (sum_pat xs ys (c_m X)). rewrite A1, A2, HMm, <- Hnnz, !Nat.eqb_refl. cbn [andb].
  eexists. split; [reflexivity|]. split; auto. split; auto. unfold shape. cbn [c_m c_n c_nnz c_ptr c_col c_val]. repeat split; auto.
  - unfold sum_pat. rewrite map_length, seq_length. auto.
  - apply Forall_forall. intros r Hr. apply in_map_iff in Hr. destruct Hr as [i [<- _]]. apply Forall_forall. intros j Hj.
    apply merge_cols_in in Hj. destruct Hj as [Hj|Hj]; apply in_map_iff in Hj; destruct Hj as [p [<- Hp]].
    + rewrite HMn. apply (rep_bound K X xs i p Hx Hp).
    + rewrite HMn, Hn. apply (rep_bound K Y ys i p Hy Hp).
Qed.
Lemma sum_numeric_spec X M alpha Y beta xs ys : rep K X xs -> rep K Y ys -> c_m X = c_m Y -> c_n X = c_n Y ->
  c_m M = c_m X -> c_n M = c_n X -> shape K M (sum_pat xs ys (c_m X)) ->
  exists A, add_matrix_numeric K X M alpha Y beta = Some A /\ c_m A = c_m X /\ c_n A = c_n X /\ c_rs A = c_rs M /\
    rep K A (sum_rows alpha beta xs ys (c_m X)).
Proof.
  intros Hx Hy Hm Hn HMm HMn Hs. unfold add_matrix_numeric. rewrite (two_rows_spec X Y xs ys) by auto.
  rewrite map_map. cbn [fst snd].
  assert (V : concat (map (fun i => merge_vals K alpha beta (nth i xs []) (nth i ys [])) (seq 0 (c_m X))) = map snd (concat (sum_rows alpha beta xs ys (c_m X)))).
  { rewrite <- concat_map_map. unfold sum_rows. rewrite map_map. f_equal. apply map_ext. intro i. symmetry. apply merge_snd. }
  rewrite V. assert (Hs0 := Hs). destruct Hs as [H1 [H2 [H3 [H4 [H5 H6]]]]].
  assert (L : length (map snd (concat (sum_rows alpha beta xs ys (c_m X)))) = c_nnz M).
  { rewrite H2, <- (sum_pattern alpha beta). unfold pattern. rewrite concat_map_map, !map_length. auto. }
  rewrite L, H5, Nat.eqb_refl. cbn [andb]. eexists. split; [reflexivity|]. cbn [with_vals c_m c_n c_rs]. repeat (split; [auto; fail|]).
  split; [|reflexivity]. rewrite sum_pattern. apply shape_vals; auto.
Qed.
End P.
