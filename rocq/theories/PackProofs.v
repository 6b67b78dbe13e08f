From Coq Require Import List Bool Arith Lia Permutation.
From Verif Require Import PackModel PackSpec.
Import ListNotations.

Section P.
Variable A : Type.
Implicit Types (x v dst r : list A) (p : list bool).

Lemma picked_len x p : length x = length p -> length (picked x p) = marks p.
Proof. revert p. induction x as [|a x IH]; intros [|b p] H; simpl in *; try discriminate; auto.
  destruct b; simpl; rewrite IH; auto. Qed.

Lemma skipn_skip (l : list A) : forall a b, skipn a (skipn b l) = skipn (b + a) l.
Proof. induction l as [|x l IH]; intros a [|b]; simpl; auto. destruct a; auto. Qed.
Lemma upd_spec x i (a : A) : i < length x -> upd x i a = Some (firstn i x ++ a :: skipn (S i) x).
Proof.
  revert i. induction x as [|b x IH]; intros [|i] H; simpl in *; try lia; auto.
  rewrite IH by lia. reflexivity.
Qed.
Lemma upd_none x i (a : A) : length x <= i -> upd x i a = None.
Proof. revert i. induction x as [|b x IH]; intros [|i] H; simpl in *; try lia; auto. rewrite IH by lia. auto. Qed.
Lemma upd_len x i (a : A) y : upd x i a = Some y -> length y = length x /\ i < length x.
Proof.
  revert i y. induction x as [|b x IH]; intros [|i] y H; simpl in *; try discriminate.
  - injection H as <-. simpl. lia.
  - destruct (upd x i a) eqn:E; try discriminate. injection H as <-. simpl. apply IH in E. lia.
Qed.
Lemma upd_nth x i (a : A) y : upd x i a = Some y -> forall j,
  nth_error y j = if j =? i then Some a else nth_error x j.
Proof.
  revert i y. induction x as [|b x IH]; intros [|i] y H j; simpl in *; try discriminate.
  - injection H as <-. destruct j; reflexivity.
  - destruct (upd x i a) eqn:E; try discriminate. injection H as <-. destruct j; simpl; auto.
Qed.

Lemma pack_loop_spec this sel : forall v k, length this = length sel -> k + marks sel <= length v ->
  pack_loop this sel v k = Some (firstn k v ++ picked this sel ++ skipn (k + marks sel) v).
Proof.
  revert sel. induction this as [|x this IH]; intros [|s sel] v k Hl Hk; simpl in *; try discriminate.
  - rewrite Nat.add_0_r, firstn_skipn. reflexivity.
  - destruct s; simpl in *.
    + rewrite upd_spec by lia.
      rewrite IH; [|lia|rewrite app_length, firstn_length; cbn [length]; rewrite skipn_length; lia].
      f_equal.
      assert (E1 : firstn (S k) (firstn k v ++ x :: skipn (S k) v) = firstn k v ++ [x]).
      { rewrite firstn_app, firstn_length. rewrite firstn_all2 by (rewrite firstn_length; lia).
        replace (S k - min k (length v)) with 1 by lia. reflexivity. }
      assert (E2 : skipn (S k + marks sel) (firstn k v ++ x :: skipn (S k) v) = skipn (k + S (marks sel)) v).
      { rewrite skipn_app, firstn_length. rewrite skipn_all2 by (rewrite firstn_length; lia).
        replace (S k + marks sel - min k (length v)) with (S (marks sel)) by lia.
        change (skipn (S (marks sel)) (x :: skipn (S k) v)) with (skipn (marks sel) (skipn (S k) v)).
        rewrite skipn_skip. cbn [app]. f_equal. lia. }
      rewrite E1, E2, <- app_assoc. reflexivity.
    + apply IH; lia.
Qed.
Lemma pack_loop_fail this sel : forall v k, pack_loop this sel v k <> None ->
  length this = length sel /\ (marks sel = 0 \/ k + marks sel <= length v).
Proof.
  revert sel. induction this as [|x this IH]; intros [|s sel] v k H; simpl in *; try congruence; auto.
  destruct s; simpl.
  - destruct (upd v k x) eqn:E; try congruence. apply upd_len in E as [E1 E2].
    apply IH in H as [H1 H2]. lia.
  - apply IH in H as [H1 H2]. lia.
Qed.

Lemma unpack_loop_spec dest : forall ix (src : list A) num, length dest <= length ix -> num <= length src ->
  exists r, unpack_loop dest ix src num = Some r /\ length r = length dest /\
    picked r ix = firstn (min num (length (picked dest ix))) src ++ skipn num (picked dest ix) /\
    picked r (map negb ix) = picked dest (map negb ix).
Proof.
  induction dest as [|d dest IH]; intros [|b ix] src num Hl Hn; simpl in *; try lia.
  - exists []. rewrite Nat.min_0_r. destruct num; simpl; auto.
  - exists []. rewrite Nat.min_0_r. destruct num; simpl; auto.
  - destruct num as [|n]; simpl.
    + exists (d :: dest). auto.
    + destruct b; simpl.
      * destruct src as [|x src]; simpl in *; [lia|].
        destruct (IH ix src n ltac:(lia) ltac:(lia)) as (r & R1 & R2 & R3 & R4).
        rewrite R1. exists (x :: r). simpl. rewrite R3. repeat split; auto.
      * destruct (IH ix src (S n) ltac:(lia) ltac:(lia)) as (r & R1 & R2 & R3 & R4).
        rewrite R1. exists (d :: r). simpl. rewrite R3, R4. repeat split; auto.
Qed.

(** a vector is determined by what is picked by a pattern and by its complement *)
Lemma picked_both x y p : length x = length p -> length y = length p ->
  picked x p = picked y p -> picked x (map negb p) = picked y (map negb p) -> x = y.
Proof.
  revert x y. induction p as [|b p IH]; intros [|a x] [|c y] H1 H2 H3 H4; simpl in *; try discriminate; auto.
  destruct b; simpl in *.
  - injection H3 as <- H3. f_equal. apply IH; auto.
  - injection H4 as <- H4. f_equal. apply IH; auto.
Qed.

Lemma unpack_spec (this : list A) ss dest ds ix n :
  length dest <= length ix -> ss + n <= length this -> ds + n <= length dest ->
  exists r, starting_copy_to_w_pattern this ss dest ds ix (Some n) = Some r /\
    length r = length dest /\ firstn ds r = firstn ds dest /\
    picked (skipn ds r) (skipn ds ix) =
      firstn (min n (length (picked (skipn ds dest) (skipn ds ix)))) (skipn ss this)
      ++ skipn n (picked (skipn ds dest) (skipn ds ix)) /\
    picked (skipn ds r) (map negb (skipn ds ix)) = picked (skipn ds dest) (map negb (skipn ds ix)).
Proof.
  intros Hl Hs Hd. unfold starting_copy_to_w_pattern.
  rewrite (proj2 (Nat.leb_le ss (length this))), (proj2 (Nat.leb_le ds (length dest))) by lia. simpl.
  rewrite (proj2 (Nat.leb_le (n + ss) (length this))), (proj2 (Nat.leb_le (n + ds) (length dest))) by lia. simpl.
  replace (min (min n (length this - ss)) (length dest - ds)) with n by lia.
  destruct (unpack_loop_spec (skipn ds dest) (skipn ds ix) (skipn ss this) n) as (r & R1 & R2 & R3 & R4).
  - rewrite !skipn_length. lia.
  - rewrite skipn_length. lia.
  - rewrite R1. exists (firstn ds dest ++ r). split; auto.
    assert (F : length (firstn ds dest) = ds) by (rewrite firstn_length; lia).
    assert (S1 : skipn ds (firstn ds dest ++ r) = r).
    { rewrite skipn_app, F, Nat.sub_diag. rewrite skipn_all2 by lia. reflexivity. }
    split; [rewrite app_length, F, R2, skipn_length; lia|].
    split; [rewrite firstn_app, F, Nat.sub_diag; simpl; rewrite app_nil_r, firstn_firstn, Nat.min_id; reflexivity|].
    rewrite S1. auto.
Qed.

Lemma roundtrip (x v y : list A) start p v' :
  length x = length p -> length y = length p ->
  copy_to_w_pattern x v start p = Some v' -> start + marks p <= length v ->
  picked y (map negb p) = picked x (map negb p) ->
  starting_copy_to_w_pattern v' start y 0 p (Some (marks p)) = Some x.
Proof.
  intros Hx Hy Hp Hm Hn. unfold copy_to_w_pattern in Hp. rewrite pack_loop_spec in Hp; auto. injection Hp as <-.
  assert (PL : length (picked x p) = marks p) by (apply picked_len; auto).
  assert (PLy : length (picked y p) = marks p) by (apply picked_len; auto).
  assert (F : length (firstn start v) = start) by (rewrite firstn_length; lia).
  assert (M : marks p <= length p).
  { clear. induction p as [|b p IH]; simpl; auto. destruct b; lia. }
  destruct (unpack_spec (firstn start v ++ picked x p ++ skipn (start + marks p) v) start y 0 p (marks p))
    as (r & R1 & R2 & _ & R3 & R4).
  - lia.
  - rewrite !app_length, F, PL. lia.
  - lia.
  - rewrite R1. f_equal. cbn [skipn] in *. apply (picked_both r x p); try lia.
    + rewrite R3, PLy, Nat.min_id. rewrite (skipn_all2 (picked y p)) by lia.
      rewrite skipn_app, F, Nat.sub_diag, (skipn_all2 (firstn start v)) by lia. cbn [app skipn].
      rewrite firstn_app, PL, Nat.sub_diag, (firstn_all2 (picked x p)) by lia.
      cbn [firstn]. rewrite !app_nil_r. reflexivity.
    + congruence.
Qed.

(** index maps *)
Lemma gather_spec (v : list A) idx l : gather v idx = Some l <->
  length l = length idx /\ forall k i, nth_error idx k = Some i -> exists a, nth_error v i = Some a /\ nth_error l k = Some a.
Proof.
  revert l. induction idx as [|i idx IH]; intro l; simpl.
  - split.
    + intro H. injection H as <-. split; auto. intros [|k] i H; discriminate.
    + intros [H _]. destruct l; [auto|discriminate].
  - split.
    + destruct (nth_error v i) eqn:E; try discriminate. destruct (gather v idx) eqn:E2; try discriminate.
      intro H. injection H as <-. destruct (proj1 (IH l0) eq_refl) as [L N]. split; [simpl; lia|].
      intros [|k] j H; simpl in H.
      * injection H as <-. eauto.
      * apply N in H. auto.
    + intros [L N]. destruct l as [|a l]; [discriminate|].
      destruct (N 0 i eq_refl) as (b & Hb & Hl). simpl in Hl. injection Hl as <-. rewrite Hb.
      rewrite (proj2 (IH l)); auto. split; [simpl in L; lia|]. intros k j H. apply (N (S k) j H).
Qed.

Lemma scatter_spec m : forall arr c, length m = length c -> NoDup m -> (forall i, In i m -> i < length arr) ->
  exists r, scatter arr m c = Some r /\ length r = length arr /\
    (forall k i, nth_error m k = Some i -> nth_error r i = nth_error c k) /\
    (forall i, ~ In i m -> nth_error r i = nth_error arr i).
Proof.
  induction m as [|i m IH]; intros arr [|x c] Hl Hnd Hb; simpl in *; try discriminate.
  - exists arr. repeat split; auto. intros [|k] i H; discriminate.
  - inversion Hnd as [|? ? Hni Hnd']; subst.
    destruct (upd arr i x) eqn:E'.
    2: { rewrite upd_spec in E' by auto. discriminate. }
    pose proof (upd_nth _ _ _ _ E') as N. pose proof (upd_len _ _ _ _ E') as [L _].
    destruct (IH l c ltac:(lia) Hnd') as (r & R1 & R2 & R3 & R4).
    { intros j Hj. rewrite L. auto. }
    exists r. split; auto. split; [lia|]. split.
    + intros [|k] j H; simpl in H.
      * injection H as <-. rewrite R4 by auto. rewrite N, Nat.eqb_refl. reflexivity.
      * apply R3; auto.
    + intros j Hj. rewrite R4 by tauto. rewrite N. destruct (Nat.eqb_spec j i); auto. subst. tauto.
Qed.

Lemma compl_facts cm dm n : complementary cm dm n ->
  NoDup cm /\ NoDup dm /\ (forall i, In i cm -> i < n) /\ (forall i, In i dm -> i < n) /\
  (forall i, i < n -> In i cm \/ In i dm) /\ (forall i, In i cm -> ~ In i dm) /\ length cm + length dm = n.
Proof.
  intro H. unfold complementary in H.
  assert (ND : NoDup (cm ++ dm)) by (eapply Permutation_NoDup; [apply Permutation_sym; eauto|apply seq_NoDup]).
  assert (IN : forall i, In i (cm ++ dm) <-> i < n).
  { intro i. split; intro Hi.
    - apply (Permutation_in _ H) in Hi. apply in_seq in Hi. lia.
    - apply (Permutation_in _ (Permutation_sym H)). apply in_seq. lia. }
  repeat split.
  - clear -ND. induction cm as [|a cm IH]; [constructor|]. simpl in ND. inversion ND; subst.
    constructor; auto. rewrite in_app_iff in *. tauto.
  - clear -ND. induction cm as [|a cm IH]; auto. simpl in ND. inversion ND; auto.
  - intros. apply IN, in_or_app; auto.
  - intros. apply IN, in_or_app; auto.
  - intros i Hi. apply in_app_or, IN; auto.
  - intros i Hc Hd. clear -ND Hc Hd. induction cm as [|a cm IH]; [auto|]. simpl in *. inversion ND; subst.
    destruct Hc as [<-|Hc]; [rewrite in_app_iff in *; tauto|auto].
  - rewrite <- app_length. rewrite (Permutation_length H). apply seq_length.
Qed.

Lemma nth_ext_err (x y : list A) : (forall i, nth_error x i = nth_error y i) -> x = y.
Proof.
  revert y. induction x as [|a x IH]; intros [|b y] H; auto; try (specialize (H 0); discriminate).
  f_equal.
  - specialize (H 0). simpl in H. congruence.
  - apply IH. intro i. apply (H (S i)).
Qed.

Lemma merge_spec (this c d : list A) cm dm : complementary cm dm (length this) ->
  length c = length cm -> length d = length dm ->
  exists r, merge this c cm d dm = Some r /\ length r = length this /\
    (forall k i, nth_error cm k = Some i -> nth_error r i = nth_error c k) /\
    (forall k i, nth_error dm k = Some i -> nth_error r i = nth_error d k).
Proof.
  intros HC Hc Hd. destruct (compl_facts _ _ _ HC) as (N1 & N2 & B1 & B2 & _ & DJ & LN).
  unfold merge. rewrite Hc, Hd, !Nat.eqb_refl, LN, Nat.eqb_refl. simpl.
  destruct (scatter_spec cm this c) as (r1 & R1 & L1 & P1 & Q1); auto.
  rewrite R1. destruct (scatter_spec dm r1 d) as (r2 & R2 & L2 & P2 & Q2); auto.
  { intros i Hi. rewrite L1. auto. }
  exists r2. split; auto. split; [lia|]. split; auto.
  intros k i H. rewrite Q2; auto. apply DJ. eapply nth_error_In; eauto.
Qed.

Lemma split_merge (this c d c0 d0 : list A) cm dm r : complementary cm dm (length this) ->
  length c = length cm -> length d = length dm -> length c0 = length cm -> length d0 = length dm ->
  merge this c cm d dm = Some r -> split r c0 cm d0 dm = Some (c, d).
Proof.
  intros HC Hc Hd Hc0 Hd0 H. destruct (merge_spec this c d cm dm HC Hc Hd) as (r' & R & L & P1 & P2).
  assert (r' = r) by congruence. subst r'.
  destruct (compl_facts _ _ _ HC) as (_ & _ & B1 & B2 & _ & _ & LN).
  unfold split. rewrite Hc0, Hd0, L, !Nat.eqb_refl, LN, Nat.eqb_refl. simpl.
  assert (G1 : gather r cm = Some c).
  { apply gather_spec. split; auto. intros k i Hk.
    assert (k < length c) by (rewrite Hc; apply nth_error_Some; congruence).
    destruct (nth_error c k) eqn:E; [|apply nth_error_None in E; lia].
    exists a. split; auto. rewrite (P1 k i Hk). auto. }
  assert (G2 : gather r dm = Some d).
  { apply gather_spec. split; auto. intros k i Hk.
    assert (k < length d) by (rewrite Hd; apply nth_error_Some; congruence).
    destruct (nth_error d k) eqn:E; [|apply nth_error_None in E; lia].
    exists a. split; auto. rewrite (P2 k i Hk). auto. }
  rewrite G1, G2. reflexivity.
Qed.

Lemma merge_split (v c d c' d' this : list A) cm dm : complementary cm dm (length v) ->
  length c = length cm -> length d = length dm -> length this = length v ->
  split v c cm d dm = Some (c', d') -> merge this c' cm d' dm = Some v.
Proof.
  intros HC Hc Hd Ht H. destruct (compl_facts _ _ _ HC) as (_ & _ & B1 & B2 & CV & _ & LN).
  unfold split in H. rewrite Hc, Hd, !Nat.eqb_refl, LN, Nat.eqb_refl in H. simpl in H.
  destruct (gather v cm) eqn:G1; try discriminate. destruct (gather v dm) eqn:G2; try discriminate.
  injection H as <- <-. apply gather_spec in G1 as [L1 N1]. apply gather_spec in G2 as [L2 N2].
  rewrite <- Ht in HC.
  destruct (merge_spec this l l0 cm dm HC L1 L2) as (r & R & L & P1 & P2).
  rewrite R. f_equal. apply nth_ext_err. intro i.
  destruct (Nat.lt_ge_cases i (length v)) as [Hi|Hi].
  - destruct (CV i Hi) as [Hin|Hin]; apply In_nth_error in Hin as [k Hk].
    + rewrite (P1 k i Hk). destruct (N1 k i Hk) as (a & A1 & A2). congruence.
    + rewrite (P2 k i Hk). destruct (N2 k i Hk) as (a & A1 & A2). congruence.
  - rewrite (proj2 (nth_error_None r i)), (proj2 (nth_error_None v i)) by lia. reflexivity.
Qed.

(** block copies *)
Lemma block_spec (dst src : list A) ds ss n r : block_copy dst src ds ss n = Some r ->
  length r = length dst /\
  (forall i, i < n -> nth_error r (ds + i) = nth_error src (ss + i)) /\
  (forall i, i < ds \/ ds + n <= i -> nth_error r i = nth_error dst i).
Proof.
  unfold block_copy. destruct (Nat.leb_spec (ds + n) (length dst)); simpl; try discriminate.
  destruct (Nat.leb_spec (ss + n) (length src)); simpl; try discriminate. intro E. injection E as <-.
  assert (F : length (firstn ds dst) = ds) by (rewrite firstn_length; lia).
  assert (G : length (firstn n (skipn ss src)) = n) by (rewrite firstn_length, skipn_length; lia).
  assert (NF : forall (l : list A) k i, i < k -> nth_error (firstn k l) i = nth_error l i).
  { clear. induction l as [|a l IH]; intros [|k] [|i] H; simpl; auto; try lia. apply IH. lia. }
  assert (NS : forall (l : list A) k i, nth_error (skipn k l) i = nth_error l (k + i)).
  { clear. induction l as [|a l IH]; intros [|k] i; simpl; auto. destruct i; reflexivity. }
  split; [rewrite !app_length, F, G, skipn_length; lia|]. split.
  - intros i Hi. rewrite nth_error_app2 by lia. rewrite F.
    rewrite nth_error_app1 by lia. rewrite NF by lia. rewrite NS. f_equal. lia.
  - intros i [Hi|Hi].
    + rewrite nth_error_app1 by lia. apply NF; auto.
    + rewrite nth_error_app2 by lia. rewrite nth_error_app2 by lia. rewrite F, G, NS. f_equal. lia.
Qed.
Lemma block_runs (dst src : list A) ds ss n : ds + n <= length dst -> ss + n <= length src ->
  exists r, block_copy dst src ds ss n = Some r.
Proof.
  intros H1 H2. unfold block_copy. rewrite (proj2 (Nat.leb_le _ _) H1), (proj2 (Nat.leb_le _ _) H2). simpl. eauto.
Qed.
End P.
