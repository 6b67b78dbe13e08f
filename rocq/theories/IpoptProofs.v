(** Lemmas for C81. *)
From Coq Require Import List Bool Arith Lia Ring Field FinFun.
From Verif Require Import RingKit FloatBase IpoptModel IpoptSpec.
Import ListNotations.

Section Mem.
Context {T : Type}.
Lemma put_pre o (l pre : list T) (rest : mem T) : length pre = o -> length l <= length rest ->
  put o l (map Some pre ++ rest) = Some (map Some (pre ++ l) ++ skipn (length l) rest).
Proof.
  intros <- H. unfold put. rewrite app_length, map_length.
  destruct (Nat.leb_spec (length pre + length l) (length pre + length rest)); [|lia].
  rewrite firstn_app, map_length, Nat.sub_diag, firstn_O, app_nil_r.
  rewrite firstn_all2 by (rewrite map_length; lia).
  rewrite skipn_app, map_length. rewrite skipn_all2 by (rewrite map_length; lia).
  replace (length pre + length l - length pre) with (length l) by lia.
  rewrite map_app. cbn [app]. rewrite <- app_assoc. reflexivity.
Qed.
Lemma put_first (l : list T) (b : mem T) : length l <= length b -> put 0 l b = Some (map Some l ++ skipn (length l) b).
Proof. intro H. exact (put_pre 0 l [] b eq_refl H). Qed.
Lemma put_nth o (a : T) b : o < length b -> exists b', put o [a] b = Some b' /\ length b' = length b /\
  nth_error b' o = Some (Some a) /\ forall i, i <> o -> nth_error b' i = nth_error b i.
Proof.
  intro H. unfold put. cbn [length map app]. destruct (Nat.leb_spec (o + 1) (length b)); [|lia].
  eexists. split; [reflexivity|].
  assert (F : length (firstn o b) = o) by (rewrite firstn_length; lia).
  split; [|split].
  - rewrite app_length. cbn [length]. rewrite F, skipn_length. lia.
  - rewrite nth_error_app2 by lia. rewrite F, Nat.sub_diag. reflexivity.
  - intros i N. destruct (Nat.lt_ge_cases i o).
    + rewrite nth_error_app1 by lia. rewrite <- (firstn_skipn o b) at 2. rewrite nth_error_app1 by lia. reflexivity.
    + rewrite nth_error_app2 by lia. rewrite F. destruct (i - o) as [|k] eqn:E; [lia|]. cbn [nth_error].
      rewrite <- (firstn_skipn (o + 1) b) at 2. rewrite nth_error_app2 by (rewrite firstn_length; lia).
      rewrite firstn_length. f_equal. lia.
Qed.
End Mem.

Lemma shift_pre o n s (pre p : list (nat * nat)) rest : length pre = o -> length p = n ->
  shift_rows o n s (map Some pre ++ map Some p ++ rest) =
  map Some (pre ++ map (fun '(i, j) => (i + s, j)) p) ++ rest.
Proof.
  intros <- <-. unfold shift_rows.
  rewrite firstn_app, map_length, Nat.sub_diag, firstn_O, app_nil_r, firstn_all2 by (rewrite map_length; lia).
  rewrite !skipn_app, !map_length, Nat.sub_diag. rewrite (skipn_all2 (n := length pre)) by (rewrite map_length; lia).
  rewrite (skipn_all2 (n := length pre + length p)) by (rewrite map_length; lia).
  replace (length pre + length p - length pre) with (length p) by lia.
  rewrite (skipn_all2 (n := length p)) by (rewrite map_length; lia).
  replace (length p - length p) with 0 by lia. cbn [app skipn].
  rewrite firstn_app, map_length, Nat.sub_diag, firstn_O, app_nil_r, firstn_all2 by (rewrite map_length; lia).
  rewrite map_map, map_app, <- app_assoc, map_map. reflexivity.
Qed.

(** the index lists *)
Lemma split_spec g : forall i, let (e, d) := split_idx i g in
  length e + length d = length g /\
  (forall k, In k e <-> i <= k /\ exists l u, nth_error g (k - i) = Some (l, u) /\ feq l u = true) /\
  (forall k, In k d <-> i <= k /\ exists l u, nth_error g (k - i) = Some (l, u) /\ feq l u = false).
Proof.
  induction g as [|[l u] g IH]; intro i; cbn [split_idx].
  - split; [reflexivity|]. split; intro k; split; try easy; intros (_ & l & u & H & _); destruct (k - i); discriminate.
  - specialize (IH (S i)). destruct (split_idx (S i) g) as [e d]. destruct IH as (L & E & D).
    assert (ST : forall k b, (S i <= k /\ exists l' u', nth_error g (k - S i) = Some (l', u') /\ feq l' u' = b) ->
      i <= k /\ exists l' u', nth_error ((l, u) :: g) (k - i) = Some (l', u') /\ feq l' u' = b).
    { intros k b (H & l' & u' & N & F). split; [lia|]. exists l', u'. replace (k - i) with (S (k - S i)) by lia. auto. }
    assert (TS : forall k b, (i <= k /\ exists l' u', nth_error ((l, u) :: g) (k - i) = Some (l', u') /\ feq l' u' = b) ->
      (k = i /\ feq l u = b) \/ (S i <= k /\ exists l' u', nth_error g (k - S i) = Some (l', u') /\ feq l' u' = b)).
    { intros k b (H & l' & u' & N & F). destruct (k - i) as [|q] eqn:Q.
      - left. cbn in N. injection N as -> ->. split; [lia|auto].
      - right. split; [lia|]. exists l', u'. replace (k - S i) with q by lia. auto. }
    assert (HD : forall b, feq l u = b -> i <= i /\ exists l' u', nth_error ((l, u) :: g) (i - i) = Some (l', u') /\ feq l' u' = b).
    { intros b F. split; [lia|]. exists l, u. rewrite Nat.sub_diag. auto. }
    destruct (feq l u) eqn:F; cbn [length]; (split; [lia|]); split; intro k; cbn [In]; split; intro H.
    + destruct H as [<-|H]; auto. apply ST, E, H.
    + destruct (TS _ _ H) as [[-> _]|H']; auto. right. apply E. auto.
    + apply ST, D, H.
    + destruct (TS _ _ H) as [[_ Z]|H']; [discriminate|]. apply D. auto.
    + apply ST, E, H.
    + destruct (TS _ _ H) as [[_ Z]|H']; [discriminate|]. apply E. auto.
    + destruct H as [<-|H]; auto. apply ST, D, H.
    + destruct (TS _ _ H) as [[-> _]|H']; auto. right. apply D. auto.
Qed.
(** when equalities come first the lists are the two intervals *)
Lemma split_nodup g : forall i, let (e, d) := split_idx i g in
  (forall k, In k e -> i <= k) /\ (forall k, In k d -> i <= k) /\ NoDup e /\ NoDup d.
Proof.
  induction g as [|[l u] g IH]; intro i; cbn [split_idx].
  - repeat split; try easy; constructor.
  - specialize (IH (S i)). destruct (split_idx (S i) g) as [e d]. destruct IH as (E & D & NE & ND).
    destruct (feq l u); cbn [In].
    + split; [intros k [->|H]; [lia|apply E in H; lia]|]. split; [intros k H; apply D in H; lia|]. split; auto.
      constructor; auto. intro H. apply E in H. lia.
    + split; [intros k H; apply E in H; lia|]. split; [intros k [->|H]; [lia|apply D in H; lia]|]. split; auto.
      constructor; auto. intro H. apply D in H. lia.
Qed.
Lemma split_first g : forall i,
  (forall a b, (exists l u, nth_error g a = Some (l, u) /\ feq l u = true) ->
               (exists l u, nth_error g b = Some (l, u) /\ feq l u = false) -> a < b) ->
  let (e, d) := split_idx i g in e = seq i (length e) /\ d = seq (i + length e) (length d).
Proof.
  induction g as [|[l u] g IH]; intros i H; cbn [split_idx]; [split; reflexivity|].
  specialize (IH (S i)). pose proof (split_spec g (S i)) as SP. destruct (split_idx (S i) g) as [e d].
  destruct IH as [E D].
  { intros a b A B. assert (S a < S b); [|lia]. apply H; auto. }
  destruct (feq l u) eqn:F; cbn [length].
  - split; [cbn [seq]; f_equal; exact E|]. rewrite D at 1. f_equal. lia.
  - destruct e as [|k e].
    + cbn [length] in *. rewrite Nat.add_0_r in *. split; auto. cbn [seq]. f_equal. exact D.
    + exfalso. destruct SP as (_ & E' & _). destruct (proj1 (E' k)) as (L & l' & u' & N & Q); [left; auto|].
      assert (S (k - S i) < 0); [|lia]. apply H; [exists l', u'; auto|exists l, u; auto].
Qed.

Section Ent.
Variable K : cfield.
Add Field kf : (fth K).
Lemma entry_app (p1 p2 : list (nat * nat)) (v1 v2 : list K) i j : length v1 = length p1 ->
  entry K (p1 ++ p2) (v1 ++ v2) i j = entry K p1 v1 i j +! entry K p2 v2 i j.
Proof.
  revert v1. induction p1 as [|[a b] p1 IH]; intros [|x v1] L; try discriminate; cbn [app entry]; [ring|].
  rewrite IH by (cbn in L; lia). ring.
Qed.
Lemma entry_out p (v : list K) i j : ~ In (i, j) p -> entry K p v i j = f0.
Proof.
  revert v. induction p as [|[a b] p IH]; intros [|x v] N; cbn [entry]; auto.
  rewrite IH by (intro; apply N; right; auto).
  destruct (Nat.eqb_spec a i), (Nat.eqb_spec b j); cbn [andb]; try ring.
  subst. exfalso. apply N. left. auto.
Qed.
Lemma entry_fun p (f : nat * nat -> K) i j : NoDup p -> In (i, j) p -> entry K p (map f p) i j = f (i, j).
Proof.
  induction 1 as [|[a b] p N ND IH]; intros H; [destruct H|]. cbn [map entry].
  destruct (Nat.eqb_spec a i), (Nat.eqb_spec b j); cbn [andb].
  - subst. rewrite entry_out by auto. ring.
  - destruct H as [H|H]; [congruence|]. rewrite IH by auto. ring.
  - destruct H as [H|H]; [congruence|]. rewrite IH by auto. ring.
  - destruct H as [H|H]; [congruence|]. rewrite IH by auto. ring.
Qed.
Lemma entry_shift s p (v : list K) i j : entry K (map (fun '(a, b) => (a + s, b)) p) v (i + s) j = entry K p v i j.
Proof.
  revert v. induction p as [|[a b] p IH]; intros [|x v]; cbn [map entry]; auto. rewrite IH.
  replace (a + s =? i + s) with (a =? i); auto. destruct (Nat.eqb_spec a i), (Nat.eqb_spec (a + s) (i + s)); auto; lia.
Qed.

Variable X : Type.
Variable U : user K X.
Local Notation ns := (u_ns K X U). Local Notation nd := (u_nd K X U).
Lemma dense_pat_in idx i j : In (i, j) (dense_pat K X U idx) <-> In i idx /\ ns <= j < ns + nd.
Proof.
  unfold dense_pat. rewrite in_flat_map. split.
  - intros (a & A & B). apply in_map_iff in B. destruct B as (q & E & Q). injection E as <- <-. apply in_seq in Q. split; auto. lia.
  - intros (A & B). exists i. split; auto. apply in_map_iff. exists (j - ns). split; [f_equal; lia|]. apply in_seq. lia.
Qed.
Lemma dense_pat_nodup idx : NoDup idx -> NoDup (dense_pat K X U idx).
Proof.
  induction 1 as [|a idx N ND IH]; [constructor|]. unfold dense_pat. cbn [flat_map]. fold (dense_pat K X U idx).
  assert (NM : NoDup (map (fun j => (a, j + ns)) (seq 0 nd))).
  { apply Injective_map_NoDup; [intros u w E; injection E; lia|apply seq_NoDup]. }
  revert NM. generalize (seq 0 nd) as q. intro q. induction q as [|j q IHq]; intros NM; cbn [map app]; auto.
  inversion NM; subst. constructor; auto. intro H. apply in_app_or in H. destruct H as [H|H]; auto.
  apply dense_pat_in in H. tauto.
Qed.
Lemma dense_pat_len idx : length (dense_pat K X U idx) = length idx * nd.
Proof. unfold dense_pat. induction idx; cbn [flat_map length]; auto. rewrite app_length, map_length, seq_length, IHidx. reflexivity. Qed.
Lemma dense_vals (J : nat -> nat -> K) idx :
  flat_map (fun i => map (J i) (seq ns nd)) idx = map (fun '(i, j) => J i j) (dense_pat K X U idx).
Proof.
  unfold dense_pat. induction idx as [|a idx IH]; cbn [flat_map]; auto. rewrite map_app, <- IH, map_map. f_equal.
  clear IH. rewrite <- (Nat.add_0_r ns) at 1. generalize 0 as o. induction nd as [|k IHk]; intro o; cbn [seq map]; auto.
  f_equal; [f_equal; lia|]. rewrite <- (IHk (S o)). f_equal. f_equal. lia.
Qed.
End Ent.

(** upper triangles *)
Lemma upper_in n i j : In (i, j) (upper n) <-> i <= j < n.
Proof.
  unfold upper. rewrite in_flat_map. split.
  - intros (a & A & B). apply in_map_iff in B. destruct B as (q & E & Q). injection E as <- <-. apply in_seq in A, Q. lia.
  - intros H. exists i. split; [apply in_seq; lia|]. apply in_map_iff. exists j. split; auto. apply in_seq. lia.
Qed.
Lemma upper_len n : length (upper n) = n * (n + 1) / 2.
Proof.
  unfold upper.
  assert (G : forall k, k <= n -> 2 * length (flat_map (fun i => map (fun j => (i, j)) (seq i (n - i))) (seq (n - k) k)) = k * (k + 1)).
  { induction k as [|k IH]; intro H; [reflexivity|].
    cbn [seq flat_map]. replace (S (n - S k)) with (n - k) by lia. rewrite app_length, map_length, seq_length.
    rewrite Nat.mul_add_distr_l, IH by lia. replace (n - (n - S k)) with (S k) by lia. lia. }
  specialize (G n (le_n n)). rewrite Nat.sub_diag in G. rewrite <- G. rewrite Nat.mul_comm. symmetry. apply Nat.div_mul. lia.
Qed.
Lemma nodup_rows (f : nat -> list nat) l : NoDup l -> (forall a, NoDup (f a)) -> NoDup (flat_map (fun i => map (fun j => (i, j)) (f i)) l).
Proof.
  intros NL F. induction NL as [|a l N ND IH]; cbn [flat_map]; [constructor|].
  assert (NM : NoDup (map (fun j => (a, j)) (f a))).
  { apply Injective_map_NoDup; [intros u w E; injection E; auto|apply F]. }
  assert (HA : forall y, In y (map (fun j => (a, j)) (f a)) -> fst y = a).
  { intros y Y. apply in_map_iff in Y. destruct Y as (j & <- & _). reflexivity. }
  revert NM HA. generalize (map (fun j => (a, j)) (f a)). intro q. induction q as [|y q IHq]; intros NM HA; cbn [app]; auto.
  inversion NM; subst. constructor.
  - intro H. apply in_app_or in H. destruct H as [H|H]; auto.
    apply in_flat_map in H. destruct H as (b & B & H). apply in_map_iff in H. destruct H as (j & E & _).
    apply N. rewrite <- (HA y (or_introl eq_refl)), <- E. exact B.
  - apply IHq; auto. intros z Z. apply HA. right. auto.
Qed.
Lemma upper_nodup n : NoDup (upper n).
Proof. apply (nodup_rows (fun i => seq i (n - i))); [apply seq_NoDup|intro; apply seq_NoDup]. Qed.

Section Main.
Variable K : cfield.
Add Field kf2 : (fth K).
Variable X : Type.
Variable c : X -> nat -> K.
Variable J : X -> nat -> nat -> K.
Variable U : user K X.
Local Notation ns := (u_ns K X U). Local Notation nd := (u_nd K X U). Local Notation m := (u_m K X U).

Lemma idx_facts : sizes_ok K X U -> length (eqi K X U) + length (ini K X U) = m /\
  (forall k, In k (eqi K X U) <-> is_eq K X U k) /\ (forall k, In k (ini K X U) <-> is_in K X U k) /\
  NoDup (eqi K X U) /\ NoDup (ini K X U).
Proof.
  intro W. unfold eqi, ini. pose proof (split_spec (u_bnd K X U) 0) as S. pose proof (split_nodup (u_bnd K X U) 0) as N.
  destruct (split_idx 0 (u_bnd K X U)) as [e d]. cbn [fst snd]. destruct S as (L & E & D). destruct N as (_ & _ & NE & ND).
  unfold sizes_ok in W. split; [lia|]. split; [|split; [|split; auto]].
  - intro k. rewrite E, Nat.sub_0_r. unfold is_eq. split; [tauto|split; [lia|auto]].
  - intro k. rewrite D, Nat.sub_0_r. unfold is_in. split; [tauto|split; [lia|auto]].
Qed.
Lemma is_lt k : sizes_ok K X U -> is_eq K X U k \/ is_in K X U k <-> k < m.
Proof.
  intro W. unfold is_eq, is_in. rewrite <- W. split.
  - intros [(l & u & H & _)|(l & u & H & _)]; apply nth_error_Some; congruence.
  - intro H. apply nth_error_Some in H. destruct (nth_error (u_bnd K X U) k) as [[l u]|] eqn:E; [|congruence].
    destruct (feq l u) eqn:F; [left|right]; exists l, u; auto.
Qed.

Lemma scatter_ok f idx : forall g, (forall k, In k idx -> k < length g) ->
  exists g', scatter K idx (map f idx) g = Some g' /\ length g' = length g /\
    (forall k, In k idx -> nth_error g' k = Some (Some (f k))) /\ (forall k, ~ In k idx -> nth_error g' k = nth_error g k).
Proof.
  induction idx as [|a idx IH]; intros g H; cbn [map scatter].
  - exists g. repeat split; auto. intros k [].
  - destruct (put_nth a (f a) g) as (g1 & -> & L1 & N1 & O1); [apply H; left; auto|].
    destruct (IH g1) as (g' & -> & L2 & I2 & O2); [intros k I; rewrite L1; apply H; right; auto|].
    exists g'. split; auto. split; [lia|]. split.
    + intros k [->|I]; auto. destruct (in_dec Nat.eq_dec k idx) as [I|I]; auto. rewrite O2, N1; auto.
    + intros k N. rewrite O2, O1; auto; intro; apply N; [left|right]; auto.
Qed.
Lemma nth_map_some (g : mem K) f : length g = m -> (forall k, k < m -> nth_error g k = Some (Some (f k))) -> g = map Some (map f (seq 0 m)).
Proof.
  intros L H. apply nth_ext with (d := None) (d' := None); [rewrite !map_length, seq_length; auto|].
  intros k Hk. rewrite L in Hk. rewrite (nth_error_nth g k None (H k Hk)).
  erewrite nth_error_nth; [reflexivity|]. rewrite map_map. apply (map_nth_error (fun x => Some (f x))).
  rewrite <- (Nat.add_0_l k) at 2. rewrite nth_error_nth' with (d := 0) by (rewrite seq_length; auto). rewrite seq_nth by auto. reflexivity.
Qed.
Lemma eval_g_two x g : sizes_ok K X U -> length g = m -> (forall idx x, u_c2 K X U idx x = Some (map (c x) idx)) ->
  eval_g K X U x g = Ret true (map Some (map (c x) (seq 0 m))).
Proof.
  intros W L C. destruct (idx_facts W) as (_ & E & D & _ & _). unfold eval_g. rewrite !C.
  destruct (scatter_ok (c x) (eqi K X U) g) as (g1 & -> & L1 & I1 & O1).
  { intros k I. rewrite L. apply (is_lt k W). left. apply E. auto. }
  destruct (scatter_ok (c x) (ini K X U) g1) as (g2 & -> & L2 & I2 & O2).
  { intros k I. rewrite L1, L. apply (is_lt k W). right. apply D. auto. }
  f_equal. apply nth_map_some; [lia|]. intros k Hk. destruct (in_dec Nat.eq_dec k (ini K X U)) as [I|I]; auto.
  rewrite O2 by auto. apply I1. apply E. apply (is_lt k W) in Hk. destruct Hk as [Hk|Hk]; auto. exfalso. apply I, D, Hk.
Qed.
Lemma eval_g_one x g : length g = m -> one_call K X c J U -> eval_g K X U x g = Ret true (map Some (map (c x) (seq 0 m))).
Proof.
  intros L (C2 & C1 & _). unfold eval_g. rewrite !C2, C1. rewrite put_first by (rewrite map_length, seq_length; lia).
  rewrite map_length, seq_length. rewrite skipn_all2 by (lia). rewrite app_nil_r. reflexivity.
Qed.

(** one block: its sparse and dense triplets stand for its rows, moved by [s] *)
Lemma block_entry idx nnz p vals s x v : (forall k, k < length idx -> nth_error idx k = Some (k + s)) -> NoDup idx ->
  rows_of K X J U idx nnz p vals -> vals x = Some (v, flat_map (fun i => map (J x i) (seq ns nd)) idx) ->
  let P := map (fun '(a, b) => (a + s, b)) p ++ dense_pat K X U idx in
  let V := v ++ flat_map (fun i => map (J x i) (seq ns nd)) idx in
  length V = length P /\ length v = nnz /\ (forall a b, In (a, b) P -> In a idx /\ b < ns + nd) /\
  (forall i j, In i idx -> j < ns + nd -> entry K P V i j = J x i j) /\ (forall i j, ~ In i idx -> entry K P V i j = f0).
Proof.
  intros Ix ND (Lp & Bp & R) Vx P V. destruct (R x) as (v' & E & Lv & Rv). rewrite Vx in E. injection E as <-.
  assert (L1 : length v = length (map (fun '(a, b) => (a + s, b)) p)) by (rewrite map_length; lia).
  assert (InS : forall a b, In (a, b) (map (fun '(a, b) => (a + s, b)) p) -> In a idx /\ b < ns).
  { intros a b H. apply in_map_iff in H. destruct H as ([a' b'] & E & H). injection E as <- <-.
    destruct (Bp _ _ H) as [A B]. split; auto. eapply nth_error_In. apply Ix. auto. }
  assert (InP : forall a b, In (a, b) P -> In a idx /\ b < ns + nd).
  { intros a b H. apply in_app_or in H. destruct H as [H|H]; [apply InS in H; destruct H; split; auto; lia|].
    apply dense_pat_in in H. destruct H. split; auto. lia. }
  split; [|split; [exact Lv|split; [exact InP|split]]].
  - unfold P, V. rewrite !app_length, L1. f_equal. rewrite (dense_vals K X U (J x) idx), map_length. reflexivity.
  - intros i j Hi Hj. unfold P, V. rewrite entry_app by auto. rewrite (dense_vals K X U (J x) idx).
    destruct (Nat.lt_ge_cases j ns) as [Q|Q].
    + rewrite (entry_out K (dense_pat K X U idx)) by (intro H; apply dense_pat_in in H; lia).
      apply In_nth_error in Hi. destruct Hi as [k Hk]. assert (KL : k < length idx) by (apply nth_error_Some; congruence).
      rewrite (Ix k KL) in Hk. injection Hk as <-. rewrite entry_shift. rewrite (Rv k (k + s) j) by (auto). ring.
    + rewrite (entry_out K (map _ p)) by (intro H; apply InS in H; lia).
      rewrite entry_fun; [ring|apply dense_pat_nodup; auto|apply dense_pat_in; auto].
  - intros i j N. apply entry_out. intro H. apply InP in H. tauto.
Qed.

Lemma shift0 p : map (fun '(a, b) => (a + 0, b)) p = p :> list (nat * nat).
Proof. induction p as [|[a b] p IH]; cbn; auto. rewrite IH, Nat.add_0_r. reflexivity. Qed.
Lemma seq_nth_error s k l : k < l -> nth_error (seq s l) k = Some (k + s).
Proof. intro H. rewrite nth_error_nth' with (d := 0) by (rewrite seq_length; auto). rewrite seq_nth by auto. f_equal. lia. Qed.
Lemma skip_all {T} (b : mem T) k : k = length b -> skipn k b = [].
Proof. intros ->. apply skipn_all. Qed.
Lemma firstn_len {T} (l : list T) k : k = length l -> firstn k l = l.
Proof. intros ->. apply firstn_all. Qed.

Lemma dlen (f : nat -> nat -> K) idx : length (flat_map (fun i => map (f i) (seq ns nd)) idx) = length idx * nd.
Proof. rewrite (dense_vals K X U f idx), map_length. apply dense_pat_len. Qed.

Lemma vals_two dbg x v1 v2 bv : sizes_ok K X U -> length bv = nele_jac K X U ->
  let d idx := flat_map (fun i => map (J x i) (seq ns nd)) idx in
  u_v2 K X U (eqi K X U) x = Some (v1, d (eqi K X U)) -> length v1 = u_nnze K X U ->
  u_v2 K X U (ini K X U) x = Some (v2, d (ini K X U)) -> length v2 = u_nnzi K X U ->
  jac_vals K X U dbg false x bv = (false, Ret true (map Some ((v1 ++ d (eqi K X U)) ++ v2 ++ d (ini K X U)))).
Proof.
  intros W L d E1 L1 E2 L2. destruct (idx_facts W) as (LI & _). unfold jac_vals. rewrite E1, E2.
  assert (D1 : length (d (eqi K X U)) = length (eqi K X U) * nd) by apply dlen.
  assert (D2 : length (d (ini K X U)) = length (ini K X U) * nd) by apply dlen.
  rewrite (firstn_len (d (eqi K X U))), (firstn_len (d (ini K X U))) by auto.
  assert (T : nele_jac K X U = u_nnze K X U + length (eqi K X U) * nd + u_nnzi K X U + length (ini K X U) * nd).
  { unfold nele_jac. rewrite <- LI. lia. }
  rewrite put_first by lia.
  rewrite put_pre by (rewrite ?skipn_length; lia).
  rewrite put_pre by (rewrite ?app_length, ?skipn_length; lia).
  rewrite put_pre by (rewrite ?app_length, ?skipn_length; lia).
  unfold asserted. rewrite T. rewrite Nat.eqb_refl. rewrite andb_false_r.
  rewrite (skip_all (skipn _ (skipn _ (skipn _ bv)))) by (rewrite !skipn_length; lia). rewrite app_nil_r, <- !app_assoc. reflexivity.
Qed.
Lemma struct_two dbg p1 p2 b : sizes_ok K X U -> length b = nele_jac K X U ->
  u_p2 K X U (eqi K X U) = Some p1 -> length p1 = u_nnze K X U ->
  u_p2 K X U (ini K X U) = Some p2 -> length p2 = u_nnzi K X U ->
  jac_struct K X U dbg b = Ret true (map Some ((p1 ++ dense_pat K X U (eqi K X U)) ++
    map (fun '(a, b) => (a + length (eqi K X U), b)) p2 ++ dense_pat K X U (ini K X U))).
Proof.
  intros W L E1 L1 E2 L2. destruct (idx_facts W) as (LI & _). unfold jac_struct. rewrite E1, E2.
  pose proof (dense_pat_len K X U (eqi K X U)) as D1. pose proof (dense_pat_len K X U (ini K X U)) as D2. 
  assert (T : nele_jac K X U = u_nnze K X U + length (eqi K X U) * nd + u_nnzi K X U + length (ini K X U) * nd).
  { unfold nele_jac. rewrite <- LI. lia. }
  rewrite put_first by lia.
  rewrite put_pre by (rewrite ?skipn_length; lia).
  rewrite put_pre by (rewrite ?app_length, ?skipn_length; lia).
  rewrite map_app, <- (app_assoc (map Some (p1 ++ _)) (map Some p2)).
  rewrite shift_pre by (rewrite ?app_length; lia).
  rewrite put_pre by (rewrite ?app_length, ?map_length, ?app_length, ?skipn_length; lia).
  unfold asserted. rewrite D1, D2, T. rewrite Nat.eqb_refl, andb_false_r.
  rewrite (skip_all (skipn _ (skipn _ (skipn _ b)))) by (rewrite !skipn_length; lia). rewrite app_nil_r, <- !app_assoc. reflexivity.
Qed.
End Main.
