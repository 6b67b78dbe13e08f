From Coq Require Import List Bool Arith Lia Ring Field Sorted.
From Verif Require Import RingKit PackModel PackProofs SparseModel SparseSpec SparseProofs SparseProofs2 SparseProofs3.
Import ListNotations.

Section P.
Variable K : cfield.
Add Field kf : (fth K).
Notation entry := (entry K).

Lemma append_fold (g : nat -> option (list entry)) (h : nat -> list entry) l : forall l0,
  (forall i, In i l -> g i = Some (h i)) ->
  ofold (fun i l => match g i with Some r => Some (l ++ r) | None => None end) l l0 = Some (l0 ++ flat_map h l).
Proof.
  induction l as [|x l IH]; intros l0 H; simpl; [rewrite app_nil_r; auto|].
  rewrite H by (left; auto). rewrite IH by (intros; apply H; right; auto). rewrite app_assoc. reflexivity.
Qed.

Lemma mat_nil i j : mat (@nil entry) i j = f0.
Proof. reflexivity. Qed.

(** a row-wise assembled matrix *)
Lemma mat_rows (h : nat -> list entry) off m i j :
  (forall k e, k < m -> In e (h k) -> row e = k + off) ->
  mat (flat_map h (seq 0 m)) i j = if (off <=? i) && (i <? off + m) then mat (h (i - off)) i j else f0.
Proof.
  intro H. unfold mat. rewrite lsum_flat.
  rewrite (lsum_ext _ _ (fun k => if k + off =? i then mat (h k) i j else f0)).
  2:{ intros k Hk. apply in_seq in Hk. change (mat (h k) i j = if k + off =? i then mat (h k) i j else f0).
      destruct (Nat.eqb_spec (k + off) i); auto. apply lsum_zero. intros e He. rewrite (H k e) by (auto; lia).
      destruct (Nat.eqb_spec (k + off) i); [lia|auto]. }
  rewrite (seq_pick K 0 m off (fun k => k + off =? i) (fun k => mat (h k) i j) i) by auto.
  simpl. rewrite (Nat.add_comm m off). reflexivity.
Qed.
Lemma ss_flat {A} (R : A -> A -> Prop) (h : nat -> list A) m : forall a,
  (forall k, a <= k < a + m -> StronglySorted R (h k)) ->
  (forall k1 k2 x y, a <= k1 -> k1 < k2 -> k2 < a + m -> In x (h k1) -> In y (h k2) -> R x y) ->
  StronglySorted R (flat_map h (seq a m)).
Proof.
  assert (AP : forall (l1 l2 : list A), StronglySorted R l1 -> StronglySorted R l2 ->
     (forall x y, In x l1 -> In y l2 -> R x y) -> StronglySorted R (l1 ++ l2)).
  { induction l1 as [|x l1 IH]; intros l2 H1 H2 H3; simpl; auto. inversion H1; subst. constructor.
    - apply IH; auto. intros. apply H3; auto. right; auto.
    - apply Forall_forall. intros y Hy. apply in_app_or in Hy. destruct Hy as [Hy|Hy].
      + rewrite Forall_forall in H5. auto.
      + apply H3; auto. left; auto. }
  induction m as [|m IH]; intros a H1 H2; simpl; [constructor|]. apply AP.
  - apply H1. lia.
  - apply IH; [intros; apply H1; lia|]. intros k1 k2 x y Ha Hk Hm. apply H2; lia.
  - intros x y Hx Hy. apply in_flat_map in Hy. destruct Hy as [k [Hk Hy]]. apply in_seq in Hk.
    apply (H2 a k x y); auto; lia.
Qed.
Lemma flat_len (h : nat -> list entry) m : forall a (c : nat -> nat), (forall k, length (h k) = c k) ->
  length (flat_map h (seq a m)) = fold_right Nat.add 0 (map c (seq a m)).
Proof. induction m as [|m IH]; intros a c H; simpl; auto. rewrite app_length, H, (IH _ c); auto. Qed.
Lemma only_count (l : list entry) m : forall a, (forall e, In e l -> a <= row e < a + m) ->
  fold_right Nat.add 0 (map (fun k => length (only K k l)) (seq a m)) = length l.
Proof.
  induction l as [|e l IH]; intros a H.
  - clear. revert a. induction m as [|m IH]; intro a; simpl; auto.
  - cbn [length]. rewrite <- (IH a) by (intros; apply H; right; auto).
    assert (He : a <= row e < a + m) by (apply H; left; auto).
    clear -He. revert a He. induction m as [|m IH]; intros a He; [lia|]. cbn [seq map fold_right].
    assert (EE : only K a (e :: l) = if row e =? a then e :: only K a l else only K a l) by reflexivity.
    rewrite EE. destruct (Nat.eqb_spec (row e) a) as [E|E].
    + cbn [length]. simpl Nat.add at 1. f_equal. f_equal. f_equal. apply map_ext_in. intros k Hk. apply in_seq in Hk.
      unfold only. simpl. destruct (Nat.eqb_spec (row e) k); [lia|]. reflexivity.
    + rewrite IH by lia. lia.
Qed.

(** * The restoration Jacobian *)
Definition fr_h (J : trip K) rd cp cn i : list entry :=
  row_as (t_ent J) i (rd i) ++ [(rd i, cp i, fopp f1); (rd i, cn i, f1)].
Lemma fr_row_ok (J : trip K) s rd cp cn i : slice_ok K (t_ent J) s (t_m J) -> i < t_m J ->
  fr_row K J s i (rd i) (cp i) (cn i) = Some (fr_h J rd cp cn i).
Proof.
  intros Hs Hi. destruct (Hs i Hi) as [a [b [E1 [E2 [E3 E4]]]]]. unfold fr_row. rewrite E1, E2, E4. reflexivity.
Qed.
Lemma fr_h_row J rd cp cn k e : In e (fr_h J rd cp cn k) -> row e = rd k.
Proof.
  unfold fr_h, row_as. intro H. apply in_app_or in H. destruct H as [H|H].
  - apply in_map_iff in H. destruct H as [x [<- _]]. reflexivity.
  - simpl in H. destruct H as [<-|[<-|[]]]; reflexivity.
Qed.
Lemma mat_fr_h J rd cp cn k j : (forall e, In e (t_ent J) -> col e < t_n J) -> t_n J <= cp k -> cp k < cn k ->
  mat (fr_h J rd cp cn k) (rd k) j =
  if j <? t_n J then mat (t_ent J) k j else if j =? cp k then fopp f1 else if j =? cn k then f1 else f0.
Proof.
  intros Hw H1 H2. unfold fr_h. rewrite mat_app, mat_row_as, Nat.eqb_refl, !mat_cons, !row_mk, !col_mk, !val_mk, Nat.eqb_refl. cbn [andb].
  rewrite mat_nil.
  destruct (Nat.ltb_spec j (t_n J)) as [Hj|Hj].
  - destruct (Nat.eqb_spec (cp k) j); [lia|]. destruct (Nat.eqb_spec (cn k) j); [lia|]. ring.
  - assert (Z : mat (t_ent J) k j = f0).
    { apply lsum_zero. intros e He. specialize (Hw e He). destruct (Nat.eqb_spec (col e) j); [lia|].
      rewrite andb_false_r. auto. }
    rewrite Z. rewrite (Nat.eqb_sym j (cp k)), (Nat.eqb_sym j (cn k)).
    destruct (Nat.eqb_spec (cp k) j); destruct (Nat.eqb_spec (cn k) j); try lia; ring.
Qed.

(** entry (i,j) of [J  -I  I] in the layout of the restoration problem: p_c, n_c, p_d, n_d after x *)
Definition fr_entry (Jc Jd : trip K) (i j : nat) : K :=
  let n := t_n Jc in let mc := t_m Jc in let md := t_m Jd in
  if i <? mc then
    if j <? n then mat (t_ent Jc) i j else if j =? n + i then fopp f1 else if j =? n + mc + i then f1 else f0
  else
    let k := i - mc in
    if j <? n then mat (t_ent Jd) k j else if j =? n + 2 * mc + k then fopp f1
    else if j =? n + 2 * mc + md + k then f1 else f0.

Lemma fr_sorted_row J rd cp cn k : sorted (t_ent J) -> (forall e, In e (t_ent J) -> col e < t_n J) ->
  t_n J <= cp k -> cp k < cn k -> sorted (fr_h J rd cp cn k).
Proof.
  intros Hs Hw H1 H2. unfold fr_h, row_as. assert (C := only_csorted K (t_ent J) k Hs). unfold only in C.
  assert (W : forall e, In e (filter (fun e => row e =? k) (t_ent J)) -> col e < t_n J).
  { intros e He. apply filter_In in He. apply Hw. apply He. }
  induction (filter (fun e => row e =? k) (t_ent J)) as [|e l IH]; simpl.
  - constructor; [constructor; constructor|]. constructor; [|constructor]. right. rewrite !row_mk, !col_mk. auto.
  - inversion C; subst. constructor; [apply IH; auto; intros; apply W; right; auto|].
    rewrite Forall_forall in H4. apply Forall_forall. intros x Hx. right.
    assert (col e < t_n J) by (apply W; left; auto).
    apply in_app_or in Hx. destruct Hx as [Hx|Hx].
    + apply in_map_iff in Hx. destruct Hx as [y [<- Hy]]. rewrite !row_mk, !col_mk. split; auto.
    + simpl in Hx. destruct Hx as [<-|[<-|[]]]; rewrite !row_mk, !col_mk; split; auto; lia.
Qed.

Lemma jac_FR_spec n_ent m_this n_this (Jc Jd : trip K) :
  wf Jc -> wf Jd -> sorted (t_ent Jc) -> sorted (t_ent Jd) -> t_n Jc = t_n Jd ->
  n_ent = length (t_ent Jc) + 2 * t_m Jc + (length (t_ent Jd) + 2 * t_m Jd) ->
  exists r, jac_FR K n_ent m_this n_this Jc Jd = Some r /\ length (t_ent r) = n_ent /\ sorted (t_ent r) /\
    forall i j, i < t_m Jc + t_m Jd -> mat (t_ent r) i j = fr_entry Jc Jd i j.
Proof.
  intros Wc Wd Sc Sd Hn Hent. unfold jac_FR. rewrite <- Hn, Hent, !Nat.eqb_refl. cbn [andb].
  destruct (row_starts_spec K Jc Wc (sorted_rows K _ Sc)) as [sc [Ec Hc]].
  destruct (row_starts_spec K Jd Wd (sorted_rows K _ Sd)) as [sd [Ed Hd]]. rewrite Ec, Ed.
  set (n := t_n Jc) in *. set (mc := t_m Jc) in *. set (md := t_m Jd) in *.
  set (hc := fr_h Jc (fun i => i) (fun i => n + i) (fun i => n + mc + i)).
  set (hd := fr_h Jd (fun i => i + mc) (fun i => n + 2 * mc + i) (fun i => n + 2 * mc + md + i)).
  rewrite (append_fold (fun i => fr_row K Jc sc i i (n + i) (n + mc + i)) hc).
  2:{ intros i Hi. apply in_seq in Hi. apply (fr_row_ok Jc sc (fun i => i) (fun i => n + i) (fun i => n + mc + i)); auto. unfold mc in *. lia. }
  rewrite (append_fold (fun i => fr_row K Jd sd i (i + mc) (n + 2 * mc + i) (n + 2 * mc + md + i)) hd).
  2:{ intros i Hi. apply in_seq in Hi. apply (fr_row_ok Jd sd (fun i => i + mc) (fun i => n + 2 * mc + i) (fun i => n + 2 * mc + md + i)); auto. unfold md in *. lia. }
  rewrite app_nil_l.
  assert (LL : forall (J : trip K) rd cp cn, wf J -> length (flat_map (fr_h J rd cp cn) (seq 0 (t_m J))) = length (t_ent J) + 2 * t_m J).
  { intros J rd cp cn W. rewrite (flat_len _ _ 0 (fun k => length (only K k (t_ent J)) + 2)).
    - assert (G : forall l, fold_right Nat.add 0 (map (fun k => length (only K k (t_ent J)) + 2) l) =
          fold_right Nat.add 0 (map (fun k => length (only K k (t_ent J))) l) + 2 * length l).
      { induction l as [|x l IH]; simpl; auto. rewrite IH. lia. }
      rewrite G, seq_length, only_count; auto. intros e He. destruct (W e He). lia.
    - intro k. unfold fr_h, row_as. rewrite app_length, map_length. reflexivity. }
  assert (Hlen : length (flat_map hc (seq 0 mc) ++ flat_map hd (seq 0 md)) = length (t_ent Jc) + 2 * mc + (length (t_ent Jd) + 2 * md)).
  { rewrite app_length. unfold hc, hd, mc, md. rewrite !LL by auto. lia. }
  rewrite Hlen, Nat.eqb_refl. eexists. split; [reflexivity|]. cbn [t_ent]. split; auto.
  assert (Wcc : forall e, In e (t_ent Jc) -> col e < t_n Jc) by (intros e He; apply Wc; auto).
  assert (Wdc : forall e, In e (t_ent Jd) -> col e < t_n Jd) by (intros e He; apply Wd; auto).
  split.
  - set (h := fun k => if k <? mc then hc k else hd (k - mc)).
    assert (E : flat_map hc (seq 0 mc) ++ flat_map hd (seq 0 md) = flat_map h (seq 0 (mc + md))).
    { rewrite seq_app, flat_map_app. f_equal.
      - rewrite !flat_map_concat_map. f_equal. apply map_ext_in. intros k Hk. apply in_seq in Hk. unfold h.
        destruct (Nat.ltb_spec k mc); [auto|lia].
      - clear. simpl. unfold h. replace (seq mc md) with (map (fun k => k + mc) (seq 0 md)).
        + rewrite !flat_map_concat_map, map_map. f_equal. apply map_ext. intro k.
          destruct (Nat.ltb_spec (k + mc) mc); [lia|]. f_equal. lia.
        + clear. change mc with (0 + mc) at 2. generalize 0 as o. induction md as [|x IH]; intro o; simpl; auto. f_equal. apply (IH (S o)). }
    rewrite E. apply ss_flat.
    + intros k Hk. unfold h. destruct (Nat.ltb_spec k mc).
      * apply (fr_sorted_row Jc (fun i => i) (fun i => n + i) (fun i => n + mc + i)); auto; unfold n in *; lia.
      * apply (fr_sorted_row Jd (fun i => i + mc) (fun i => n + 2 * mc + i) (fun i => n + 2 * mc + md + i)); auto; rewrite <- ?Hn; unfold n in *; lia.
    + intros k1 k2 x y H0 H12 H2 Hx Hy. left. unfold h in Hx, Hy.
      destruct (Nat.ltb_spec k1 mc); apply fr_h_row in Hx; destruct (Nat.ltb_spec k2 mc); apply fr_h_row in Hy; lia.
  - intros i j Hi. rewrite mat_app.
    unfold hc, hd. rewrite (mat_rows _ 0 mc i j) by (intros k e _ He; apply fr_h_row in He; lia).
    rewrite (mat_rows _ mc md i j) by (intros k e _ He; apply fr_h_row in He; lia).
    rewrite Nat.sub_0_r. unfold fr_entry. fold n mc md. simpl (0 <=? i). simpl (0 + mc). cbn [andb].
    destruct (Nat.ltb_spec i mc) as [H1|H1].
    + replace (mc <=? i) with false by (symmetry; apply Nat.leb_gt; lia). cbn [andb].
      assert (E := mat_fr_h Jc (fun i => i) (fun i => n + i) (fun i => n + mc + i) i j Wcc).
      cbv beta in E. rewrite E by (unfold n in *; lia). fold n.
      destruct (j <? n), (j =? n + i), (j =? n + mc + i); ring.
    + replace (mc <=? i) with true by (symmetry; apply Nat.leb_le; lia).
      replace (i <? mc + md) with true by (symmetry; apply Nat.ltb_lt; lia). cbn [andb].
      assert (E := mat_fr_h Jd (fun i => i + mc) (fun i => n + 2 * mc + i) (fun i => n + 2 * mc + md + i) (i - mc) j Wdc).
      cbv beta in E. replace (i - mc + mc) with i in E by lia. rewrite E by (unfold n in *; rewrite <- ?Hn; lia). rewrite <- Hn.
      fold n. destruct (j <? n), (j =? n + 2 * mc + (i - mc)), (j =? n + 2 * mc + md + (i - mc)); ring.
Qed.

(** * The restoration Hessian *)
Definition diag_present (l : list entry) : bool := match l with e :: _ => row e =? col e | [] => false end.
Definition hess_h (H : trip K) (d : list K) (i : nat) : list entry :=
  let r := only K i (t_ent H) in
  match r with
  | e :: r' => if row e =? col e then (i, i, at_ d i +! val e) :: map (fun x => (i, col x, val x)) r'
               else (i, i, at_ d i) :: map (fun x => (i, col x, val x)) r
  | [] => [(i, i, at_ d i)]
  end.
Lemma hess_row_ok (H : trip K) s d i : slice_ok K (t_ent H) s (t_m H) -> i < t_m H -> i < length d ->
  hess_row K H s d i = Some (hess_h H d i).
Proof.
  intros Hs Hi Hd. destruct (Hs i Hi) as [a [b [E1 [E2 [E3 E4]]]]]. unfold hess_row. rewrite E1, E2, E4.
  rewrite nth_err_at by auto. unfold hess_h. destruct (only K i (t_ent H)) as [|e r]; auto. destruct (row e =? col e); auto.
Qed.
Lemma hess_h_row H d k e : In e (hess_h H d k) -> row e = k.
Proof.
  unfold hess_h. destruct (only K k (t_ent H)) as [|x r]; [intros [<-|[]]; reflexivity|].
  destruct (row x =? col x); (intros [<-|Hin]; [reflexivity|]); apply in_map_iff in Hin; destruct Hin as [y [<- _]]; reflexivity.
Qed.
Lemma mat_same_row (l : list entry) i j : (forall x, In x l -> row x = i) ->
  mat (map (fun x => (i, col x, val x)) l) i j = mat l i j.
Proof.
  intro Hl. unfold mat. rewrite map_map. apply lsum_ext. intros x Hx. rewrite row_mk, col_mk, val_mk, Hl by auto. reflexivity.
Qed.
Lemma mat_only (l : list entry) i j : mat (only K i l) i j = mat l i j.
Proof.
  induction l as [|e l IH]; simpl; auto. destruct (Nat.eqb_spec (row e) i) as [E|E].
  - rewrite !mat_cons, IH. reflexivity.
  - rewrite mat_cons, IH. destruct (Nat.eqb_spec (row e) i); [lia|]. simpl. ring.
Qed.
Lemma mat_hess_h H d i j : mat (hess_h H d i) i j = mat (t_ent H) i j +! (if i =? j then at_ d i else f0).
Proof.
  rewrite <- (mat_only (t_ent H)). unfold hess_h.
  assert (Hr : forall x, In x (only K i (t_ent H)) -> row x = i) by (intros x Hx; apply only_in in Hx; tauto).
  destruct (only K i (t_ent H)) as [|x r].
  - rewrite mat_cons, row_mk, col_mk, val_mk, Nat.eqb_refl. simpl. unfold mat. simpl. destruct (i =? j); ring.
  - assert (Hx : row x = i) by (apply Hr; left; auto).
    destruct (Nat.eqb_spec (row x) (col x)) as [E|E].
    + rewrite !mat_cons, row_mk, col_mk, val_mk, mat_same_row by (intros; apply Hr; right; auto).
      rewrite <- E, Hx, Nat.eqb_refl. simpl. destruct (i =? j); ring.
    + rewrite mat_cons, row_mk, col_mk, val_mk, mat_same_row by auto. rewrite Nat.eqb_refl. simpl.
      destruct (i =? j); ring.
Qed.
(** upper-triangular and sorted: a stored diagonal is the first entry of its row *)
Lemma only_diag (l : list entry) i : sorted l -> (forall e, In e l -> row e <= col e) ->
  length (filter (fun e => row e =? col e) (only K i l)) = if diag_present (only K i l) then 1 else 0.
Proof.
  intros Hs Hu. assert (C := only_csorted K l i Hs).
  assert (Hr : forall x, In x (only K i l) -> row x = i /\ i <= col x).
  { intros x Hx. apply only_in in Hx. destruct Hx as [Hx <-]. split; auto. }
  destruct (only K i l) as [|x r]; auto. simpl. inversion C; subst. rewrite Forall_forall in H2.
  assert (Z : filter (fun e => row e =? col e) r = []).
  { destruct (filter (fun e => row e =? col e) r) as [|y q] eqn:E; auto.
    assert (Hy : In y (filter (fun e => row e =? col e) r)) by (rewrite E; left; auto).
    apply filter_In in Hy. destruct Hy as [Hy1 Hy2]. apply Nat.eqb_eq in Hy2.
    destruct (Hr x) as [A1 A2]; [left; auto|]. destruct (Hr y) as [B1 B2]; [right; auto|]. specialize (H2 y Hy1). lia. }
  destruct (row x =? col x); simpl; rewrite Z; auto.
Qed.
Lemma hess_h_len H d i : length (hess_h H d i) =
  S (length (only K i (t_ent H))) - (if diag_present (only K i (t_ent H)) then 1 else 0).
Proof.
  unfold hess_h. destruct (only K i (t_ent H)) as [|x r]; simpl; auto.
  destruct (row x =? col x); simpl; rewrite map_length; lia.
Qed.
Lemma only_filter (l : list entry) i (P : entry -> bool) : only K i (filter P l) = filter P (only K i l).
Proof.
  unfold only. induction l as [|e l IH]; simpl; auto.
  destruct (P e) eqn:EP; destruct (row e =? i) eqn:ER; simpl; rewrite ?ER, ?EP, ?IH; auto.
Qed.
Lemma hess_total (H : trip K) d : wf H -> sorted (t_ent H) -> (forall e, In e (t_ent H) -> row e <= col e) ->
  length (flat_map (hess_h H d) (seq 0 (t_m H))) = t_m H + num_offdiag K H.
Proof.
  intros W Hs Hu. unfold num_offdiag.
  rewrite (flat_len _ _ 0 (fun k => S (length (only K k (t_ent H))) - length (only K k (filter (fun e => row e =? col e) (t_ent H))))).
  2:{ intro k. rewrite hess_h_len, only_filter, only_diag by auto. reflexivity. }
  rewrite <- (only_count (t_ent H) (t_m H) 0) by (intros e He; destruct (W e He); lia).
  rewrite <- (only_count (filter (fun e => row e =? col e) (t_ent H)) (t_m H) 0).
  2:{ intros e He. apply filter_In in He. destruct (W e (proj1 He)). lia. }
  assert (G : forall l, fold_right Nat.add 0 (map (fun k => S (length (only K k (t_ent H))) - length (only K k (filter (fun e => row e =? col e) (t_ent H)))) l) =
     length l + (fold_right Nat.add 0 (map (fun k => length (only K k (t_ent H))) l) - fold_right Nat.add 0 (map (fun k => length (only K k (filter (fun e => row e =? col e) (t_ent H)))) l)) /\
     fold_right Nat.add 0 (map (fun k => length (only K k (filter (fun e => row e =? col e) (t_ent H)))) l) <= fold_right Nat.add 0 (map (fun k => length (only K k (t_ent H))) l)).
  { induction l as [|x l [IH1 IH2]]; cbn [map fold_right length]; [lia|].
    assert (length (only K x (filter (fun e => row e =? col e) (t_ent H))) <= length (only K x (t_ent H))).
    { rewrite only_filter. clear. induction (only K x (t_ent H)) as [|e l IH]; simpl; auto. destruct (row e =? col e); simpl; lia. }
    lia. }
  destruct (G (seq 0 (t_m H))) as [G1 G2]. rewrite G1, seq_length. reflexivity.
Qed.
Lemma hess_sorted H d i : sorted (t_ent H) -> (forall e, In e (t_ent H) -> row e <= col e) -> sorted (hess_h H d i).
Proof.
  intros Hs Hu. unfold hess_h. assert (C := only_csorted K (t_ent H) i Hs).
  assert (Hr : forall x, In x (only K i (t_ent H)) -> row x = i /\ i <= col x).
  { intros x Hx. apply only_in in Hx. destruct Hx as [Hx <-]. split; auto. }
  assert (G : forall l v, csorted K l -> (forall x, In x l -> i < col x) -> sorted ((i, i, v) :: map (fun x => (i, col x, val x)) l)).
  { intros l v Cl Hl. constructor.
    - clear Hl. induction l as [|x l IH]; simpl; [constructor|]. inversion Cl; subst. rewrite Forall_forall in H3.
      constructor; [apply IH; auto|]. apply Forall_forall. intros y Hy. apply in_map_iff in Hy. destruct Hy as [z [<- Hz]].
      right. rewrite !row_mk, !col_mk. split; auto.
    - apply Forall_forall. intros y Hy. apply in_map_iff in Hy. destruct Hy as [z [<- Hz]]. right. rewrite !row_mk, !col_mk. auto. }
  destruct (only K i (t_ent H)) as [|x r]; [constructor; constructor|].
  inversion C; subst. rewrite Forall_forall in H3. destruct (Hr x) as [A1 A2]; [left; auto|].
  destruct (Nat.eqb_spec (row x) (col x)) as [E|E]; apply G; auto.
  - intros y Hy. specialize (H3 y Hy). lia.
  - intros y [<-|Hy]; [lia|]. specialize (H3 y Hy). lia.
Qed.

Lemma hess_FR_spec (this H : trip K) (d : list K) :
  wf H -> sorted (t_ent H) -> (forall e, In e (t_ent H) -> row e <= col e) -> t_n H = t_m H ->
  (t_m H = length d \/ t_m H = 0) -> length (t_ent this) = length d + num_offdiag K H ->
  exists r, hess_FR K this H d = Some r /\ length (t_ent r) = length (t_ent this) /\ sorted (t_ent r) /\
    forall i j, i < length d -> mat (t_ent r) i j = mat (t_ent H) i j +! (if i =? j then at_ d i else f0).
Proof.
  intros W Hs Hu Hsq Hd Hlen. unfold hess_FR.
  assert (Hz : t_m H = 0 -> t_ent H = []).
  { intro Hm. destruct (t_ent H) as [|e l] eqn:E; auto. destruct (W e); [rewrite E; left; auto|]. lia. }
  destruct (Nat.eqb_spec (length (t_ent this)) 0) as [E0|E0].
  { exists this. split; auto. split; auto. split.
    - destruct (t_ent this); [constructor|discriminate].
    - intros i j Hi. lia. }
  replace ((t_n H =? t_m H) && (length (t_ent this) =? length d + num_offdiag K H) && ((t_m H =? 0) || (t_m H =? length d))) with true.
  2:{ symmetry. rewrite !andb_true_iff, orb_true_iff, !Nat.eqb_eq. tauto. }
  destruct (row_starts_spec K H W (sorted_rows K _ Hs)) as [s [Es Hsl]]. rewrite Es.
  destruct (Nat.ltb_spec 0 (t_m H)) as [Hm|Hm].
  - assert (Hd' : t_m H = length d) by lia.
    rewrite (append_fold (fun i => hess_row K H s d i) (hess_h H d)).
    2:{ intros i Hi. apply in_seq in Hi. apply hess_row_ok; auto; lia. }
    rewrite app_nil_l, hess_total by auto. rewrite Hd', <- Hlen, Nat.eqb_refl. eexists. split; [reflexivity|]. cbn [t_ent].
    rewrite <- Hd'. split; [rewrite hess_total by auto; lia|]. split.
    + apply ss_flat; [intros; apply hess_sorted; auto|].
      intros k1 k2 x y _ H12 _ Hx Hy. apply hess_h_row in Hx, Hy. left. lia.
    + intros i j Hi. rewrite (mat_rows _ 0) by (intros k e _ He; apply hess_h_row in He; lia).
      replace (i <? 0 + t_m H) with true by (symmetry; apply Nat.ltb_lt; lia). simpl. rewrite Nat.sub_0_r. apply mat_hess_h.
  - assert (Hm0 : t_m H = 0) by lia. rewrite map_length, combine_length, seq_length, Nat.min_id.
    assert (He := Hz Hm0). unfold num_offdiag in *. rewrite He in *. simpl in Hlen. rewrite Nat.add_0_r in Hlen. rewrite Hlen, Nat.eqb_refl.
    eexists. split; [reflexivity|]. cbn [t_ent]. split; [rewrite map_length, combine_length, seq_length; lia|].
    assert (G : map (fun p : nat * K => (fst p, fst p, snd p)) (combine (seq 0 (length d)) d) = flat_map (fun k => [(k, k, at_ d k)]) (seq 0 (length d))).
    { assert (G : forall l pre, map (fun p : nat * K => (fst p, fst p, snd p)) (combine (seq (length pre) (length l)) l) =
          flat_map (fun k => [(k, k, at_ (pre ++ l) k)]) (seq (length pre) (length l))).
      { clear. induction l as [|y l IH]; intro pre; simpl; auto. unfold at_ at 1. rewrite app_nth2, Nat.sub_diag by lia. simpl. f_equal.
        specialize (IH (pre ++ [y])). rewrite app_length in IH. simpl in IH. rewrite Nat.add_1_r, <- app_assoc in IH. exact IH. }
      exact (G d []). }
    rewrite G. split.
    + apply ss_flat; [intros; constructor; constructor|]. intros k1 k2 x y _ H12 _ [<-|[]] [<-|[]]. left. exact H12.
    + intros i j Hi. rewrite (mat_rows _ 0) by (intros k e _ [<-|[]]; rewrite row_mk; lia).
      replace (i <? 0 + length d) with true by (symmetry; apply Nat.ltb_lt; lia). simpl. rewrite Nat.sub_0_r.
      rewrite mat_cons, row_mk, col_mk, val_mk, Nat.eqb_refl. unfold mat. simpl. ring.
Qed.

(** * Diagonal extraction and row scaling *)
Lemma extract_last (l : list entry) : forall (d : list K), (forall e, In e l -> row e < length d) -> sorted l ->
  exists r, ofold (fun e d => if row e =? col e then upd d (row e) (val e) else Some d) l d = Some r /\ length r = length d /\
    forall i, i < length d -> at_ r i = if existsb (fun e => (row e =? i) && (col e =? i)) l then mat l i i else at_ d i.
Proof.
  induction l as [|e l IH]; intros d Hd Hs; simpl.
  - exists d. auto.
  - inversion Hs; subst. rewrite Forall_forall in H2.
    assert (He : row e < length d) by (apply Hd; left; auto).
    assert (Hd2 : forall x, In x l -> row x < length d) by (intros; apply Hd; right; auto).
    destruct (Nat.eqb_spec (row e) (col e)) as [E|E].
    + rewrite upd_spec by auto. set (d1 := firstn (row e) d ++ val e :: skipn (S (row e)) d).
      assert (U : upd d (row e) (val e) = Some d1) by (apply upd_spec; auto).
      assert (L1 := proj1 (upd_len _ _ _ _ _ U)).
      destruct (IH d1) as [r [E1 [E2 E3]]]; auto. { intros x Hx. rewrite L1. auto. }
      exists r. split; auto. split; [congruence|]. intros i Hi. rewrite E3 by lia. rewrite mat_cons.
      assert (Hno : existsb (fun e0 => (row e0 =? row e) && (col e0 =? row e)) l = false /\ mat l (row e) (row e) = f0).
      { assert (Hz : forall x, In x l -> (row x =? row e) && (col x =? row e) = false).
        { intros x Hx. specialize (H2 x Hx). destruct (Nat.eqb_spec (row x) (row e)); destruct (Nat.eqb_spec (col x) (row e)); auto. lia. }
        split.
        - destruct (existsb _ l) eqn:Ex; auto. apply existsb_exists in Ex. destruct Ex as [x [Hx Ex]]. rewrite Hz in Ex by auto. discriminate.
        - apply lsum_zero. intros x Hx. rewrite Hz by auto. auto. }
      assert (U2 := upd_nth _ _ _ _ _ U).
      destruct (Nat.eqb_spec (row e) i) as [<-|Hn].
      * rewrite <- E, Nat.eqb_refl. simpl. destruct Hno as [-> ->].
        unfold at_. specialize (U2 (row e)). rewrite Nat.eqb_refl in U2. rewrite (nth_error_nth _ _ _ U2). ring.
      * simpl. (match goal with |- (if ?b then _ else _) = (if ?c then _ else _) => change c with b; destruct b end); [ring|]. unfold at_. specialize (U2 i).
        destruct (Nat.eqb_spec i (row e)); [lia|]. rewrite (nth_error_nth' d f0 Hi) in U2. apply nth_error_nth. auto.
    + destruct (IH d) as [r [E1 [E2 E3]]]; auto. exists r. split; auto. split; auto. intros i Hi. rewrite E3 by auto.
      rewrite mat_cons. destruct (Nat.eqb_spec (row e) i) as [<-|Hn]; simpl.
      * destruct (Nat.eqb_spec (col e) (row e)); [lia|]. simpl. (match goal with |- (if ?b then _ else _) = (if ?c then _ else _) => change c with b; destruct b end); auto; ring.
      * (match goal with |- (if ?b then _ else _) = (if ?c then _ else _) => change c with b; destruct b end); auto; ring.
Qed.
Lemma extract_spec (A : trip K) : wf A -> t_m A = t_n A -> sorted (t_ent A) ->
  exists d, extract_diagonal K A (t_m A) = Some d /\ length d = t_m A /\ forall i, i < t_m A -> at_ d i = mat (t_ent A) i i.
Proof.
  intros W Hsq Hs. unfold extract_diagonal. rewrite <- Hsq, !Nat.eqb_refl. cbn [andb].
  destruct (extract_last (t_ent A) (repeat f0 (t_m A))) as [r [E1 [E2 E3]]]; auto.
  { intros e He. rewrite repeat_length. apply W. auto. }
  exists r. rewrite repeat_length in *. split; auto. split; auto. intros i Hi. rewrite E3 by auto.
  destruct (existsb _ (t_ent A)) eqn:Ex; auto.
  assert (Hz : mat (t_ent A) i i = f0).
  { apply lsum_zero. intros x Hx. destruct ((row x =? i) && (col x =? i)) eqn:Exx; auto.
    assert (existsb (fun e => (row e =? i) && (col e =? i)) (t_ent A) = true) by (apply existsb_exists; eauto). congruence. }
  rewrite Hz. unfold at_. clear. revert i. induction (t_m A) as [|n IH]; intros [|i]; simpl; auto.
Qed.

Lemma scale_ents_spec (s : list K) inv l : (forall e, In e l -> row e < length s) ->
  exists r, scale_ents K l s inv = Some r /\
    (forall i j, mat r i j = mat l i j *! (if inv then f1 /! at_ s i else at_ s i)) /\
    map (fun e => (row e, col e)) r = map (fun e => (row e, col e)) l.
Proof.
  induction l as [|e l IH]; intro H; simpl.
  - exists []. split; auto. split; auto. intros. unfold mat. simpl. ring.
  - destruct IH as [r [E1 [E2 E3]]]; [intros; apply H; right; auto|]. rewrite nth_err_at by (apply H; left; auto). rewrite E1.
    eexists. split; [reflexivity|]. split.
    + intros i j. rewrite !mat_cons, E2, row_mk, col_mk, val_mk.
      destruct (Nat.eqb_spec (row e) i) as [<-|Hn]; simpl; [|ring]. destruct (col e =? j); ring.
    + simpl. rewrite E3, row_mk, col_mk. reflexivity.
Qed.
Lemma scale_row_spec (A : trip K) s inv : wf A -> length s = t_m A ->
  exists r, scale_row K A s inv = Some r /\ t_m r = t_m A /\ t_n r = t_n A /\
    map (fun e => (row e, col e)) (t_ent r) = map (fun e => (row e, col e)) (t_ent A) /\
    forall i j, mat (t_ent r) i j = mat (t_ent A) i j *! (if inv then f1 /! at_ s i else at_ s i).
Proof.
  intros W Hs. unfold scale_row. rewrite Hs, Nat.eqb_refl.
  destruct (scale_ents_spec s inv (t_ent A)) as [r [E1 [E2 E3]]]; [intros e He; rewrite Hs; apply W; auto|].
  rewrite E1. eexists. split; [reflexivity|]. simpl. auto.
Qed.

(** the addressed diagonal is added at the shifted row index *)
Lemma sub_diag_spec (A : trip K) ds alpha (v : list K) vs n :
  wf A -> n <= length v -> ds + n <= t_m A -> vs + ds + n <= length v ->
  exists r, add_sub_diag_to K A ds alpha v vs (Some n) = Some r /\ length r = length v /\
    forall p, p < length v -> at_ r p = at_ v p +!
      (if (vs + ds <=? p) && (p <? vs + ds + n) then alpha *! mat (t_ent A) (p - vs) (p - vs) else f0).
Proof.
  intros W H1 H2 H3. unfold add_sub_diag_to.
  replace ((n <=? length v) && (ds + n <=? t_m A)) with true by (symmetry; rewrite andb_true_iff, !Nat.leb_le; auto).
  set (P := fun e : entry => (row e =? col e) && (ds <=? row e) && (row e <? ds + n)).
  assert (G : forall l w, length w = length v -> exists r,
    ofold (fun e v' => if (row e =? col e) && (ds <=? row e) && (row e <? ds + n) then
        if row e + vs <? length v then addat K v' (vs + row e) (alpha *! val e) else None else Some v') l w = Some r /\
    length r = length v /\ forall p, p < length v -> at_ r p = at_ w p +!
      (if (vs + ds <=? p) && (p <? vs + ds + n) then alpha *! mat l (p - vs) (p - vs) else f0)).
  { induction l as [|e l IH]; intros w Hw; cbn [ofold].
    - exists w. split; auto. split; auto. intros p Hp. unfold mat. simpl. destruct (_ && _); ring.
    - destruct ((row e =? col e) && (ds <=? row e) && (row e <? ds + n)) eqn:EP.
      + rewrite !andb_true_iff, Nat.leb_le, Nat.ltb_lt, Nat.eqb_eq in EP. destruct EP as [[P1 P2] P3].
        replace (row e + vs <? length v) with true by (symmetry; apply Nat.ltb_lt; lia).
        destruct (addat_spec K w (vs + row e) (alpha *! val e)) as [w1 [A1 [A2 A3]]]; [lia|]. rewrite A1.
        destruct (IH w1) as [r [R1 [R2 R3]]]; [congruence|]. exists r. split; auto. split; auto. intros p Hp.
        rewrite R3 by auto. unfold at_ at 1. rewrite A3. fold (at_ w p). rewrite mat_cons, <- P1.
        destruct (Nat.eqb_spec (vs + row e) p) as [<-|Hn].
        * replace (vs + ds <=? vs + row e) with true by (symmetry; apply Nat.leb_le; lia).
          replace (vs + row e <? vs + ds + n) with true by (symmetry; apply Nat.ltb_lt; lia).
          replace (vs + row e - vs) with (row e) by lia. rewrite Nat.eqb_refl. simpl. ring.
        * destruct (Nat.leb_spec (vs + ds) p); destruct (Nat.ltb_spec p (vs + ds + n)); simpl; try ring.
          destruct (Nat.eqb_spec (row e) (p - vs)); [lia|]. simpl. ring.
      + destruct (IH w Hw) as [r [R1 [R2 R3]]]. exists r. split; auto. split; auto. intros p Hp. rewrite R3 by auto.
        rewrite mat_cons. destruct (Nat.leb_spec (vs + ds) p); destruct (Nat.ltb_spec p (vs + ds + n)); simpl; try ring.
        replace ((row e =? p - vs) && (col e =? p - vs)) with false; [ring|]. symmetry.
        destruct (Nat.eqb_spec (row e) (p - vs)) as [E1|]; auto. destruct (Nat.eqb_spec (col e) (p - vs)) as [E2|]; auto.
        exfalso. rewrite E1, E2, Nat.eqb_refl in EP. simpl in EP.
        destruct (Nat.leb_spec ds (p - vs)); destruct (Nat.ltb_spec (p - vs) (ds + n)); simpl in EP; try discriminate; lia. }
  apply G. reflexivity.
Qed.
End P.
