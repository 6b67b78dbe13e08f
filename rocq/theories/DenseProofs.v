From Coq Require Import List Bool Arith Lia Ring Field.
From Verif Require Import RingKit DenseModel DenseSpec.
Import ListNotations.
Open Scope nat_scope.

Lemma idx_inj n i j i' j' : j < n -> j' < n -> i * n + j = i' * n + j' -> i = i' /\ j = j'.
Proof.
  intros Hj Hj' H. destruct (Nat.lt_trichotomy i i') as [L|[E|L]].
  - exfalso. assert (S i * n <= i' * n) by (apply Nat.mul_le_mono_r; lia). simpl in H0. lia.
  - subst. lia.
  - exfalso. assert (S i' * n <= i * n) by (apply Nat.mul_le_mono_r; lia). simpl in H0. lia.
Qed.
Lemma idx_lt n m i j : i < m -> j < n -> i * n + j < m * n.
Proof. intros. assert (S i * n <= m * n) by (apply Nat.mul_le_mono_r; lia). simpl in H1. lia. Qed.
Lemma row_le n m i : i < m -> i * n + n <= m * n.
Proof. intros. assert (S i * n <= m * n) by (apply Nat.mul_le_mono_r; lia). simpl in H0. lia. Qed.

Section P.
Variable K : cfield.
Add Field KF : (fth K).
Notation L := (list K).

(** entry (i,j) of a buffer with n columns *)
Definition eb (n : nat) (b : L) (i j : nat) : K := nth (i * n + j) b f0.

Lemma tab_len n (f : nat -> K) : length (tab K n f) = n.
Proof. unfold tab. rewrite map_length, seq_length. reflexivity. Qed.
Lemma tab_nth n (f : nat -> K) p d : p < n -> nth p (tab K n f) d = f p.
Proof.
  intro H. unfold tab. rewrite nth_indep with (d' := f 0) by (rewrite map_length, seq_length; lia).
  rewrite map_nth, seq_nth by lia. reflexivity.
Qed.

Lemma cpy_some d dof s so len : dof + len <= length d -> so + len <= length s ->
  exists d', cpy K d dof s so len = Some d' /\ length d' = length d /\
    forall p, nth p d' f0 = if (dof <=? p) && (p <? dof + len) then nth (so + (p - dof)) s f0 else nth p d f0.
Proof.
  intros H1 H2. unfold cpy.
  rewrite (proj2 (Nat.leb_le _ _) H1), (proj2 (Nat.leb_le _ _) H2). cbn [andb]. eexists. split; [reflexivity|].
  assert (L1 : length (firstn dof d) = dof) by (rewrite firstn_length; lia).
  assert (L2 : length (firstn len (skipn so s)) = len) by (rewrite firstn_length, skipn_length; lia).
  split.
  - rewrite !app_length, L1, L2, skipn_length. lia.
  - intro p. destruct (dof <=? p) eqn:E1; cbn [andb].
    + apply Nat.leb_le in E1. rewrite app_nth2 by lia. rewrite L1. destruct (p <? dof + len) eqn:E2.
      * apply Nat.ltb_lt in E2. rewrite app_nth1 by lia.
        transitivity (nth (p - dof) (skipn so s) f0).
        { rewrite <- (firstn_skipn len (skipn so s)) at 2. rewrite app_nth1 by lia. reflexivity. }
        rewrite <- (firstn_skipn so s) at 2. rewrite app_nth2 by (rewrite firstn_length; lia).
        rewrite firstn_length. f_equal. lia.
      * apply Nat.ltb_ge in E2. rewrite app_nth2 by lia. rewrite L2.
        rewrite <- (firstn_skipn (dof + len) d) at 2. rewrite app_nth2 by (rewrite firstn_length; lia).
        rewrite firstn_length. f_equal. lia.
    + apply Nat.leb_gt in E1. rewrite app_nth1 by lia.
      rewrite <- (firstn_skipn dof d) at 2. rewrite app_nth1 by lia. reflexivity.
Qed.

Lemma upd_some b p (f : K -> K) : p < length b ->
  exists b', upd K b p f = Some b' /\ length b' = length b /\
    forall q, nth q b' f0 = if q =? p then f (nth p b f0) else nth q b f0.
Proof.
  intro H. unfold upd. destruct (nth_error b p) as [v|] eqn:E.
  2: { apply nth_error_None in E. lia. }
  eexists. split; [reflexivity|].
  assert (L1 : length (firstn p b) = p) by (rewrite firstn_length; lia).
  split; [rewrite app_length; cbn [length]; rewrite L1, skipn_length; lia|].
  intro q. destruct (q =? p) eqn:E1.
  - apply Nat.eqb_eq in E1. subst q. rewrite app_nth2 by lia. rewrite L1, Nat.sub_diag. cbn [nth].
    rewrite (nth_error_nth _ _ _ E). reflexivity.
  - apply Nat.eqb_neq in E1. destruct (Nat.lt_ge_cases q p).
    + rewrite app_nth1 by lia. rewrite <- (firstn_skipn p b) at 2. rewrite app_nth1 by lia. reflexivity.
    + rewrite app_nth2 by lia. rewrite L1. destruct (q - p) as [|k] eqn:E2; [lia|]. cbn [nth].
      rewrite <- (firstn_skipn (S p) b) at 2. rewrite app_nth2 by (rewrite firstn_length; lia).
      rewrite firstn_length. f_equal. lia.
Qed.

(** the same in coordinates *)
Lemma cpy_el N d r c s so len : r * N + c + len <= length d -> so + len <= length s -> c + len <= N ->
  exists d', cpy K d (r * N + c) s so len = Some d' /\ length d' = length d /\
    forall i j, j < N -> eb N d' i j =
      if (i =? r) && ((c <=? j) && (j <? c + len)) then nth (so + (j - c)) s f0 else eb N d i j.
Proof.
  intros H1 H2 H3. destruct (cpy_some d (r * N + c) s so len H1 H2) as (d' & E & Ln & Hn).
  exists d'. split; [exact E|]. split; [exact Ln|]. intros i j Hj. unfold eb. rewrite Hn.
  destruct (i =? r) eqn:Ei; cbn [andb].
  - apply Nat.eqb_eq in Ei. subst i.
    destruct (c <=? j) eqn:Ec; cbn [andb].
    + apply Nat.leb_le in Ec. rewrite (proj2 (Nat.leb_le (r * N + c) (r * N + j))) by lia. cbn [andb].
      destruct (j <? c + len) eqn:El.
      * apply Nat.ltb_lt in El. rewrite (proj2 (Nat.ltb_lt _ _)) by lia. f_equal. lia.
      * apply Nat.ltb_ge in El. rewrite (proj2 (Nat.ltb_ge _ _)) by lia. reflexivity.
    + apply Nat.leb_gt in Ec. rewrite (proj2 (Nat.leb_gt _ _)) by lia. reflexivity.
  - apply Nat.eqb_neq in Ei.
    destruct ((r * N + c <=? i * N + j) && (i * N + j <? r * N + c + len)) eqn:E1; [|reflexivity].
    exfalso. apply andb_prop in E1. destruct E1 as [A B]. apply Nat.leb_le in A. apply Nat.ltb_lt in B.
    apply Ei. assert (Hx : i * N + j = r * N + (i * N + j - r * N)) by lia.
    apply (idx_inj N i j r (i * N + j - r * N)); lia.
Qed.
Lemma cpy_rows_el N d r s so k : (r + k) * N <= length d -> so + k * N <= length s ->
  exists d', cpy K d (r * N) s so (k * N) = Some d' /\ length d' = length d /\
    forall i j, j < N -> eb N d' i j =
      if (r <=? i) && (i <? r + k) then nth (so + ((i - r) * N + j)) s f0 else eb N d i j.
Proof.
  intros H1 H2. rewrite Nat.mul_add_distr_r in H1.
  destruct (cpy_some d (r * N) s so (k * N) H1 H2) as (d' & E & Ln & Hn).
  exists d'. split; [exact E|]. split; [exact Ln|]. intros i j Hj. unfold eb. rewrite Hn.
  destruct (r <=? i) eqn:Er; cbn [andb].
  - apply Nat.leb_le in Er. pose proof (Nat.mul_le_mono_r _ _ N Er).
    rewrite (proj2 (Nat.leb_le (r * N) (i * N + j))) by lia. cbn [andb].
    destruct (i <? r + k) eqn:Ek.
    + apply Nat.ltb_lt in Ek. rewrite (proj2 (Nat.ltb_lt _ _)).
      2: { rewrite <- Nat.mul_add_distr_r. apply idx_lt; lia. }
      f_equal. rewrite Nat.mul_sub_distr_r. lia.
    + apply Nat.ltb_ge in Ek. rewrite (proj2 (Nat.ltb_ge _ _)); [reflexivity|].
      pose proof (Nat.mul_le_mono_r _ _ N Ek). rewrite <- Nat.mul_add_distr_r. lia.
  - apply Nat.leb_gt in Er. rewrite (proj2 (Nat.leb_gt _ _)); [reflexivity|].
    pose proof (row_le N r i Er). lia.
Qed.
Lemma upd_el N b r c f : r * N + c < length b -> c < N ->
  exists b', upd K b (r * N + c) f = Some b' /\ length b' = length b /\
    forall i j, j < N -> eb N b' i j = if (i =? r) && (j =? c) then f (eb N b r c) else eb N b i j.
Proof.
  intros H1 H2. destruct (upd_some b (r * N + c) f H1) as (b' & E & Ln & Hn).
  exists b'. split; [exact E|]. split; [exact Ln|]. intros i j Hj. unfold eb at 1 3. rewrite Hn.
  destruct (i * N + j =? r * N + c) eqn:E1.
  - apply Nat.eqb_eq in E1. apply idx_inj in E1; try lia. destruct E1 as [-> ->]. rewrite !Nat.eqb_refl. reflexivity.
  - destruct ((i =? r) && (j =? c)) eqn:E2; [|reflexivity]. exfalso. apply andb_prop in E2. destruct E2 as [A B].
    apply Nat.eqb_eq in A, B. subst. rewrite Nat.eqb_refl in E1. discriminate.
Qed.

(** loops: an invariant in coordinates carried through [for(k=s; k<s+c; k++)] *)
Lemma loop_seq (step : nat -> L -> option L) (P : nat -> L -> Prop) s c b :
  P 0 b -> (forall k b, k < c -> P k b -> exists b', step (s + k) b = Some b' /\ P (S k) b') ->
  exists b', ofold step (seq s c) b = Some b' /\ P c b'.
Proof.
  intros H0 HS. induction c as [|c IH].
  - exists b. split; [reflexivity|exact H0].
  - destruct IH as (b1 & E1 & P1). { intros k b0 Hk. apply HS. lia. }
    destruct (HS c b1 (Nat.lt_succ_diag_r c) P1) as (b2 & E2 & P2). exists b2. split; [|exact P2].
    rewrite seq_S, ofold_app, E1. cbn [ofold]. rewrite E2. reflexivity.
Qed.
Lemma rowp_some (M : dmat K) i : i < dmax M -> rowp K M i = Some (i * dn M).
Proof. intro H. unfold rowp. rewrite (proj2 (Nat.ltb_lt _ _)) by lia. reflexivity. Qed.

Lemma el_eb (M : dmat K) i j : el M i j = eb (dn M) (dbuf M) i j. Proof. reflexivity. Qed.
Lemma entries_setbuf (M : dmat K) b f : good M -> length b = length (dbuf M) ->
  (forall i j, i < dmax M -> j < dn M -> eb (dn M) b i j = f i j) -> entries M (setbuf K M b) f.
Proof. intros [G1 G2] HL HE. unfold entries, good, setbuf. cbn. rewrite HL. repeat split; auto. Qed.

(** ** rows and blocks *)
Lemma append_row_ok (M : dmat K) row : good M -> dm M < dmax M -> dn M <= length row ->
  exists M', append_row K M row = Some M' /\ dm M' = S (dm M) /\ dn M' = dn M /\ dmax M' = dmax M /\ good M' /\
    forall i j, i < dmax M -> j < dn M -> el M' i j = if i =? dm M then nth j row f0 else el M i j.
Proof.
  intros [G1 G2] Hm Hr. unfold append_row. rewrite rowp_some by lia. cbn [bind].
  destruct (cpy_el (dn M) (dbuf M) (dm M) 0 row 0 (dn M)) as (b & E & Ln & Hb).
  { rewrite G1. pose proof (row_le (dn M) _ _ Hm). lia. } { lia. } { lia. }
  rewrite Nat.add_0_r in E. rewrite E. cbn [bind]. eexists. split; [reflexivity|]. split; [reflexivity|].
  split; [reflexivity|]. split; [reflexivity|]. split; [split; cbn; lia|].
  intros i j Hi Hj. rewrite !el_eb. cbn [dn dbuf]. rewrite Hb by lia. rewrite (proj2 (Nat.ltb_lt _ _)) by lia. cbn [andb Nat.leb Nat.add].
  rewrite andb_true_r, Nat.sub_0_r. reflexivity.
Qed.

Lemma copy_from_ok (M S : dmat K) : good M -> good S -> dm M = dm S -> dn M = dn S -> 0 < dmax S ->
  exists M', copy_from K M S = Some M' /\ entries M M' (fun i j => if i <? dm M then el S i j else el M i j).
Proof.
  intros G [GS1 GS2] Hm Hn HS. pose proof G as [G1 G2]. unfold copy_from. rewrite <- Hm, <- Hn, !Nat.eqb_refl. cbn [andb].
  rewrite (proj2 (Nat.eqb_neq _ _)) by lia.
  destruct (cpy_rows_el (dn M) (dbuf M) 0 (dbuf S) 0 (dm M)) as (b & E & Ln & Hb).
  { rewrite G1. cbn. apply Nat.mul_le_mono_r. lia. } { rewrite GS1, <- Hn. cbn. apply Nat.mul_le_mono_r. lia. }
  cbn [Nat.mul] in E. rewrite E. cbn [bind]. eexists. split; [reflexivity|]. apply entries_setbuf; auto.
  intros i j Hi Hj. rewrite Hb by lia. cbn [Nat.leb andb]. rewrite !el_eb. unfold eb. cbn [Nat.add]. rewrite Nat.sub_0_r, Hn. reflexivity.
Qed.

Lemma copy_rows_ok (M S : dmat K) num dest : good M -> good S -> dn M = dn S -> num <= dmax S -> dest + num <= dmax M ->
  exists M', copy_rows K M S num dest = Some M' /\
    entries M M' (fun i j => if (dest <=? i) && (i <? dest + num) then el S (i - dest) j else el M i j).
Proof.
  intros G [GS1 GS2] Hn HS HM. pose proof G as [G1 G2]. unfold copy_rows. destruct (0 <? num) eqn:E0.
  - apply Nat.ltb_lt in E0. rewrite rowp_some by lia. cbn [bind]. rewrite (Nat.mul_comm (dn M) num).
    destruct (cpy_rows_el (dn M) (dbuf M) dest (dbuf S) 0 num) as (b & E & Ln & Hb).
    { rewrite G1. apply Nat.mul_le_mono_r. lia. } { rewrite GS1, <- Hn. cbn. apply Nat.mul_le_mono_r. lia. }
    rewrite E. cbn [bind]. eexists. split; [reflexivity|]. apply entries_setbuf; auto.
    intros i j Hi Hj. rewrite Hb by lia. rewrite !el_eb. unfold eb. cbn [Nat.add]. rewrite Hn. reflexivity.
  - apply Nat.ltb_ge in E0. assert (num = 0) by lia. subst. exists M. split; [reflexivity|].
    repeat split; auto. intros i j Hi Hj. destruct (dest <=? i) eqn:E1; cbn [andb]; [|reflexivity].
    rewrite (proj2 (Nat.ltb_ge _ _)); [reflexivity|]. apply Nat.leb_le in E1. lia.
Qed.

Lemma copy_rows_idx_ok (M S : dmat K) idx n : good M -> good S -> dn M = dn S -> n = dm M -> n <= dm S ->
  length idx = n -> (forall k, In k idx -> k < dm S) ->
  exists M', copy_rows_idx K M S idx n = Some M' /\
    entries M M' (fun i j => if i <? n then el S (nth i idx 0) j else el M i j).
Proof.
  intros G [GS1 GS2] Hn Hm HS HL Hin. pose proof G as [G1 G2]. unfold copy_rows_idx.
  rewrite <- Hn, Nat.eqb_refl, (proj2 (Nat.leb_le _ _) HS), (proj2 (Nat.eqb_eq _ _) Hm). cbn [andb].
  destruct (loop_seq (fun i b => bind (rowp K M i) (fun p => bind (nth_error idx i) (fun k => bind (rowp K S k) (fun q =>
                 cpy K b p (dbuf S) q (dn M)))))
     (fun c b => length b = length (dbuf M) /\ forall i j, j < dn M ->
        eb (dn M) b i j = if i <? c then el S (nth i idx 0) j else el M i j) 0 n (dbuf M)) as (b & E & Ln & Hb).
  { split; [reflexivity|]. intros i j Hj. reflexivity. }
  { intros k b Hk [Lb Hb]. cbn [Nat.add]. rewrite rowp_some by lia. cbn [bind].
    assert (Hk' : k < length idx) by lia.
    rewrite (nth_error_nth' idx 0 Hk'). cbn [bind].
    assert (Hx : nth k idx 0 < dm S) by (apply Hin, nth_In; lia).
    rewrite rowp_some by lia. cbn [bind]. rewrite <- Hn.
    destruct (cpy_el (dn M) b k 0 (dbuf S) (nth k idx 0 * dn M) (dn M)) as (b' & E & Ln & Hb').
    { rewrite Lb, G1. pose proof (row_le (dn M) (dmax M) k). lia. }
    { rewrite GS1, <- Hn. apply row_le. lia. } { lia. }
    rewrite Nat.add_0_r in E. exists b'. split; [exact E|]. split; [lia|].
    intros i j Hj. rewrite Hb' by lia. rewrite (proj2 (Nat.ltb_lt j (0 + dn M))) by lia. cbn [Nat.leb andb]. rewrite andb_true_r.
    rewrite Nat.sub_0_r. rewrite Hb by lia. destruct (i =? k) eqn:Ei.
    - apply Nat.eqb_eq in Ei. subst i. rewrite (proj2 (Nat.ltb_lt k (Datatypes.S k))) by lia. rewrite el_eb, <- Hn. reflexivity.
    - apply Nat.eqb_neq in Ei. destruct (i <? k) eqn:E2.
      + apply Nat.ltb_lt in E2. rewrite (proj2 (Nat.ltb_lt i (Datatypes.S k))) by lia. reflexivity.
      + apply Nat.ltb_ge in E2. rewrite (proj2 (Nat.ltb_ge i (Datatypes.S k))) by lia. reflexivity. }
  rewrite E. cbn [bind]. eexists. split; [reflexivity|]. apply entries_setbuf; auto.
Qed.

Lemma copy_block_from_ok (M S : dmat K) is js : good M -> good S -> is + dm S <= dm M -> js + dn S <= dn M ->
  exists M', copy_block_from K M is js S = Some M' /\
    entries M M' (fun i j => if (is <=? i) && (i <? is + dm S) && ((js <=? j) && (j <? js + dn S))
                             then el S (i - is) (j - js) else el M i j).
Proof.
  intros G [GS1 GS2] HI HJ. pose proof G as [G1 G2]. unfold copy_block_from.
  rewrite (proj2 (Nat.leb_le _ _) HI), (proj2 (Nat.leb_le _ _) HJ). cbn [andb].
  assert (Z : dn S = 0 \/ dm S = 0 -> entries M M (fun i j => if (is <=? i) && (i <? is + dm S) && ((js <=? j) && (j <? js + dn S))
                             then el S (i - is) (j - js) else el M i j)).
  { intro HZ. repeat split; auto. intros i j Hi Hj.
    destruct ((is <=? i) && (i <? is + dm S) && ((js <=? j) && (j <? js + dn S))) eqn:E; [|reflexivity].
    exfalso. apply andb_prop in E. destruct E as [A B]. apply andb_prop in A, B. destruct A as [A1 A2], B as [B1 B2].
    apply Nat.leb_le in A1, B1. apply Nat.ltb_lt in A2, B2. lia. }
  destruct (dn S =? 0) eqn:En. { apply Nat.eqb_eq in En. exists M. split; auto. }
  destruct (dm S =? 0) eqn:Em. { apply Nat.eqb_eq in Em. exists M. split; auto. }
  apply Nat.eqb_neq in En, Em. clear Z.
  destruct (loop_seq (fun ii b => bind (rowp K M (ii + is)) (fun p => bind (rowp K S ii) (fun q => cpy K b (p + js) (dbuf S) q (dn S))))
     (fun c b => length b = length (dbuf M) /\ forall i j, j < dn M ->
        eb (dn M) b i j = if (is <=? i) && (i <? is + c) && ((js <=? j) && (j <? js + dn S)) then el S (i - is) (j - js) else el M i j)
     0 (dm S) (dbuf M)) as (b & E & Ln & Hb).
  { split; [reflexivity|]. intros i j Hj. rewrite Nat.add_0_r. destruct (is <=? i) eqn:E1; cbn [andb]; [|reflexivity].
    apply Nat.leb_le in E1. rewrite (proj2 (Nat.ltb_ge i is)) by lia. reflexivity. }
  { intros k b Hk [Lb Hb]. cbn [Nat.add]. rewrite !rowp_some by lia. cbn [bind].
    destruct (cpy_el (dn M) b (k + is) js (dbuf S) (k * dn S) (dn S)) as (b' & E & Ln & Hb').
    { rewrite Lb, G1. pose proof (row_le (dn M) (dmax M) (k + is)). lia. }
    { rewrite GS1. apply row_le. lia. } { lia. }
    exists b'. split; [exact E|]. split; [lia|].
    intros i j Hj. rewrite Hb' by lia. rewrite Hb by lia. destruct (i =? k + is) eqn:Ei; cbn [andb].
    - apply Nat.eqb_eq in Ei. subst i. rewrite (proj2 (Nat.leb_le is (k + is))) by lia.
      rewrite (proj2 (Nat.ltb_lt (k + is) (is + Datatypes.S k))) by lia. cbn [andb].
      rewrite (proj2 (Nat.ltb_ge (k + is) (is + k))) by lia. cbn [andb].
      destruct ((js <=? j) && (j <? js + dn S)); [|reflexivity]. rewrite el_eb. unfold eb. f_equal. f_equal. f_equal. lia.
    - apply Nat.eqb_neq in Ei. destruct (is <=? i) eqn:E1; cbn [andb]; [|reflexivity]. apply Nat.leb_le in E1.
      destruct (i <? is + k) eqn:E2.
      + apply Nat.ltb_lt in E2. rewrite (proj2 (Nat.ltb_lt i (is + Datatypes.S k))) by lia. reflexivity.
      + apply Nat.ltb_ge in E2. rewrite (proj2 (Nat.ltb_ge i (is + Datatypes.S k))) by lia. reflexivity. }
  rewrite E. cbn [bind]. eexists. split; [reflexivity|]. apply entries_setbuf; auto.
Qed.

Lemma copy_from_block_ok (M S : dmat K) ib jb : good M -> good S -> dm M + ib <= dm S -> dn M + jb <= dn S -> 0 < dm M ->
  exists M', copy_from_block K M S ib jb = Some M' /\
    entries M M' (fun i j => if i <? dm M then el S (i + ib) (j + jb) else el M i j).
Proof.
  intros G [GS1 GS2] HI HJ Hm. pose proof G as [G1 G2]. unfold copy_from_block.
  rewrite (proj2 (Nat.leb_le _ _) HI), (proj2 (Nat.leb_le _ _) HJ). cbn [andb].
  destruct (dn M =? dn S) eqn:En.
  - apply Nat.eqb_eq in En. rewrite rowp_some by lia. cbn [bind]. rewrite (Nat.mul_comm (dn M) (dm M)).
    destruct (cpy_rows_el (dn M) (dbuf M) 0 (dbuf S) (ib * dn S) (dm M)) as (b & E & Ln & Hb).
    { rewrite G1. cbn. apply Nat.mul_le_mono_r. lia. }
    { rewrite GS1, En, <- Nat.mul_add_distr_r. apply Nat.mul_le_mono_r. lia. }
    cbn [Nat.mul] in E. rewrite E. cbn [bind]. eexists. split; [reflexivity|]. apply entries_setbuf; auto.
    intros i j Hi Hj. rewrite Hb by lia. cbn [Nat.leb andb Nat.add]. destruct (i <? dm M); [|reflexivity].
    rewrite el_eb. unfold eb. f_equal. rewrite Nat.sub_0_r, En. assert (jb = 0) by lia. subst jb. rewrite Nat.mul_add_distr_r. lia.
  - apply Nat.eqb_neq in En.
    destruct (loop_seq (fun i b => bind (rowp K M i) (fun p => bind (rowp K S (i + ib)) (fun q => cpy K b p (dbuf S) (q + jb) (dn M))))
     (fun c b => length b = length (dbuf M) /\ forall i j, j < dn M ->
        eb (dn M) b i j = if i <? c then el S (i + ib) (j + jb) else el M i j)
     0 (dm M) (dbuf M)) as (b & E & Ln & Hb).
    { split; [reflexivity|]. intros i j Hj. reflexivity. }
    { intros k b Hk [Lb Hb]. cbn [Nat.add]. rewrite !rowp_some by lia. cbn [bind].
      destruct (cpy_el (dn M) b k 0 (dbuf S) ((k + ib) * dn S + jb) (dn M)) as (b' & E & Ln & Hb').
      { rewrite Lb, G1. pose proof (row_le (dn M) (dmax M) k). lia. }
      { rewrite GS1. pose proof (row_le (dn S) (dmax S) (k + ib)). lia. } { lia. }
      rewrite Nat.add_0_r in E. exists b'. split; [exact E|]. split; [lia|].
      intros i j Hj. rewrite Hb' by lia. rewrite (proj2 (Nat.ltb_lt j (0 + dn M))) by lia. cbn [Nat.leb andb]. rewrite andb_true_r.
      rewrite Nat.sub_0_r, Hb by lia. destruct (i =? k) eqn:Ei.
      - apply Nat.eqb_eq in Ei. subst i. rewrite (proj2 (Nat.ltb_lt k (Datatypes.S k))) by lia. rewrite el_eb. unfold eb. f_equal. lia.
      - apply Nat.eqb_neq in Ei. destruct (i <? k) eqn:E2.
        + apply Nat.ltb_lt in E2. rewrite (proj2 (Nat.ltb_lt i (Datatypes.S k))) by lia. reflexivity.
        + apply Nat.ltb_ge in E2. rewrite (proj2 (Nat.ltb_ge i (Datatypes.S k))) by lia. reflexivity. }
    rewrite E. cbn [bind]. eexists. split; [reflexivity|]. apply entries_setbuf; auto.
Qed.

Lemma rev_seq_S a n : rev (seq a (S n)) = (a + n) :: rev (seq a n).
Proof. rewrite seq_S, rev_app_distr. reflexivity. Qed.
(** loop over decreasing indices s+c-1, .., s *)
Lemma loop_rev (step : nat -> L -> option L) (P : nat -> L -> Prop) s c b :
  P c b -> (forall k b, k < c -> P (S k) b -> exists b', step (s + k) b = Some b' /\ P k b') ->
  exists b', ofold step (rev (seq s c)) b = Some b' /\ P 0 b'.
Proof.
  revert b. induction c as [|c IH]; intros b H0 HS.
  - exists b. split; [reflexivity|exact H0].
  - destruct (HS c b (Nat.lt_succ_diag_r c) H0) as (b1 & E1 & P1). rewrite rev_seq_S. cbn [ofold]. rewrite E1.
    apply IH; [exact P1|]. intros k b0 Hk. apply HS. lia.
Qed.

Lemma shift_rows_ok (M : dmat K) up s : good M -> s <= dm M ->
  exists M', shift_rows K M up s = Some M' /\ entries M M' (shifted M up s).
Proof.
  intros G Hs. pose proof G as [G1 G2]. unfold shift_rows.
  assert (Id : (forall i j, shifted M up s i j = el M i j) -> entries M M (shifted M up s)).
  { intro H. repeat split; auto. }
  destruct (s =? 0) eqn:E0.
  { apply Nat.eqb_eq in E0. subst s. exists M. split; [reflexivity|]. apply Id. intros i j. unfold shifted.
    destruct (0 <? dm M); [|reflexivity]. destruct up.
    - rewrite Nat.add_0_r. destruct (i <? dm M - 0); reflexivity.
    - rewrite Nat.sub_0_r. destruct ((0 <=? i) && (i <? dm M)); reflexivity. }
  apply Nat.eqb_neq in E0. destruct (s =? dm M) eqn:E1.
  { apply Nat.eqb_eq in E1. exists M. split; [reflexivity|]. apply Id. intros i j. unfold shifted.
    rewrite (proj2 (Nat.ltb_ge _ _)) by lia. reflexivity. }
  apply Nat.eqb_neq in E1. destruct (dm M <=? 1) eqn:E2.
  { apply Nat.leb_le in E2. exfalso. lia. }
  apply Nat.leb_gt in E2. assert (Hlt : s < dm M) by lia. rewrite (proj2 (Nat.ltb_lt _ _) Hlt).
  destruct up.
  - destruct (loop_seq (fun d b => bind (rowp K M d) (fun pd => bind (rowp K M (d + s)) (fun pq => cpy K b pd b pq (dn M))))
      (fun c b => length b = length (dbuf M) /\ forall i j, j < dn M -> eb (dn M) b i j = if i <? c then el M (i + s) j else el M i j)
      0 (dm M - s) (dbuf M)) as (b & E & Ln & Hb).
    { split; [reflexivity|]. intros i j Hj. reflexivity. }
    { intros k b Hk [Lb Hb]. cbn [Nat.add]. rewrite !rowp_some by lia. cbn [bind].
      destruct (cpy_el (dn M) b k 0 b ((k + s) * dn M) (dn M)) as (b' & E & Ln & Hb').
      { rewrite Lb, G1. pose proof (row_le (dn M) (dmax M) k). lia. }
      { rewrite Lb, G1. apply row_le. lia. } { lia. }
      rewrite Nat.add_0_r in E. exists b'. split; [exact E|]. split; [lia|].
      intros i j Hj. rewrite Hb' by lia. rewrite (proj2 (Nat.ltb_lt j (0 + dn M))) by lia. cbn [Nat.leb andb]. rewrite andb_true_r, Nat.sub_0_r.
      destruct (i =? k) eqn:Ei.
      - apply Nat.eqb_eq in Ei. subst i. rewrite (proj2 (Nat.ltb_lt k (S k))) by lia.
        change (nth ((k + s) * dn M + j) b f0) with (eb (dn M) b (k + s) j). rewrite Hb by lia.
        rewrite (proj2 (Nat.ltb_ge (k + s) k)) by lia. reflexivity.
      - apply Nat.eqb_neq in Ei. rewrite Hb by lia. destruct (i <? k) eqn:E3.
        + apply Nat.ltb_lt in E3. rewrite (proj2 (Nat.ltb_lt i (S k))) by lia. reflexivity.
        + apply Nat.ltb_ge in E3. rewrite (proj2 (Nat.ltb_ge i (S k))) by lia. reflexivity. }
    rewrite E. cbn [bind]. eexists. split; [reflexivity|]. apply entries_setbuf; auto.
    intros i j Hi Hj. rewrite Hb by lia. unfold shifted. rewrite (proj2 (Nat.ltb_lt _ _) Hlt). reflexivity.
  - destruct (loop_rev (fun d b => bind (rowp K M d) (fun pd => bind (rowp K M (d - s)) (fun pq => cpy K b pd b pq (dn M))))
      (fun c b => length b = length (dbuf M) /\ forall i j, j < dn M -> eb (dn M) b i j = if (s + c <=? i) && (i <? dm M) then el M (i - s) j else el M i j)
      s (dm M - s) (dbuf M)) as (b & E & Ln & Hb).
    { split; [reflexivity|]. intros i j Hj. destruct (s + (dm M - s) <=? i) eqn:E3; cbn [andb]; [|reflexivity].
      apply Nat.leb_le in E3. rewrite (proj2 (Nat.ltb_ge i (dm M))) by lia. reflexivity. }
    { intros k b Hk [Lb Hb]. rewrite !rowp_some by lia. cbn [bind].
      destruct (cpy_el (dn M) b (s + k) 0 b ((s + k - s) * dn M) (dn M)) as (b' & E & Ln & Hb').
      { rewrite Lb, G1. pose proof (row_le (dn M) (dmax M) (s + k)). lia. }
      { rewrite Lb, G1. apply row_le. lia. } { lia. }
      rewrite Nat.add_0_r in E. exists b'. split; [exact E|]. split; [lia|].
      intros i j Hj. rewrite Hb' by lia. rewrite (proj2 (Nat.ltb_lt j (0 + dn M))) by lia. cbn [Nat.leb andb]. rewrite andb_true_r, Nat.sub_0_r.
      destruct (i =? s + k) eqn:Ei.
      - apply Nat.eqb_eq in Ei. subst i. rewrite (proj2 (Nat.leb_le (s + k) (s + k))) by lia.
        rewrite (proj2 (Nat.ltb_lt (s + k) (dm M))) by lia. cbn [andb].
        change (nth ((s + k - s) * dn M + j) b f0) with (eb (dn M) b (s + k - s) j). rewrite Hb by lia.
        rewrite (proj2 (Nat.leb_gt (s + S k) (s + k - s))) by lia. reflexivity.
      - apply Nat.eqb_neq in Ei. rewrite Hb by lia. destruct (s + k <=? i) eqn:E3.
        + apply Nat.leb_le in E3. rewrite (proj2 (Nat.leb_le (s + S k) i)) by lia. reflexivity.
        + apply Nat.leb_gt in E3. rewrite (proj2 (Nat.leb_gt (s + S k) i)) by lia. reflexivity. }
    rewrite E. cbn [bind]. eexists. split; [reflexivity|]. apply entries_setbuf; auto.
    intros i j Hi Hj. rewrite Hb by lia. unfold shifted. rewrite (proj2 (Nat.ltb_lt _ _) Hlt), Nat.add_0_r. reflexivity.
Qed.

Lemma replace_row_ok (M : dmat K) row v : good M -> row < dm M ->
  exists M', replace_row K M row v = Some M' /\
    entries M M' (fun i j => if (i =? row) && (j <? length v) then nth j v f0 else el M i j).
Proof.
  intros G Hr. pose proof G as [G1 G2]. unfold replace_row. rewrite (proj2 (Nat.ltb_lt _ _) Hr), rowp_some by lia. cbn [bind].
  set (len := if dn M <=? length v then dn M else length v).
  assert (Hlen : len <= dn M /\ len <= length v /\ (forall j, j < dn M -> (j <? len) = (j <? length v))).
  { unfold len. destruct (dn M <=? length v) eqn:E.
    - apply Nat.leb_le in E. repeat split; try lia. intros j Hj. rewrite !(proj2 (Nat.ltb_lt _ _)) by lia. reflexivity.
    - apply Nat.leb_gt in E. repeat split; lia. }
  destruct Hlen as (A & B & C).
  destruct (cpy_el (dn M) (dbuf M) row 0 v 0 len) as (b & E & Ln & Hb).
  { rewrite G1. pose proof (row_le (dn M) (dmax M) row). lia. } { lia. } { lia. }
  rewrite Nat.add_0_r in E. rewrite E. cbn [bind]. eexists. split; [reflexivity|]. apply entries_setbuf; auto.
  intros i j Hi Hj. rewrite Hb by lia. cbn [Nat.leb andb Nat.add]. rewrite C by lia. rewrite Nat.sub_0_r. reflexivity.
Qed.
Lemma get_row_ok (M : dmat K) row v : good M -> row < dm M -> length v = dn M ->
  get_row K M row v = Some (lrow M row).
Proof.
  intros [G1 G2] Hr Hv. unfold get_row. rewrite (proj2 (Nat.ltb_lt _ _) Hr), Hv, Nat.eqb_refl. cbn [andb].
  rewrite rowp_some by lia. cbn [bind].
  destruct (cpy_some v 0 (dbuf M) (row * dn M) (dn M)) as (b & E & Ln & Hb). { lia. } { rewrite G1. apply row_le. lia. }
  rewrite E. f_equal. apply nth_ext with (d := f0) (d' := f0).
  - unfold lrow. rewrite map_length, seq_length. lia.
  - intros p Hp. rewrite Hb. cbn [Nat.leb andb Nat.add]. rewrite (proj2 (Nat.ltb_lt _ _)) by lia. rewrite Nat.sub_0_r.
    unfold lrow. change (map (el M row) (seq 0 (dn M))) with (tab K (dn M) (el M row)). rewrite tab_nth by lia. reflexivity.
Qed.

Lemma set_const_ok (M : dmat K) c : good M -> 0 < dm M ->
  exists M', set_const K M c = Some M' /\ entries M M' (fun i j => if i <? dm M then c else el M i j).
Proof.
  intros G Hm. pose proof G as [G1 G2]. unfold set_const. rewrite (proj2 (Nat.eqb_neq (dmax M) 0)) by lia.
  destruct (loop_seq (fun j b => upd K b j (fun _ => c))
    (fun k b => length b = length (dbuf M) /\ forall i j, j < dn M -> eb (dn M) b i j = if (i =? 0) && (j <? k) then c else el M i j)
    0 (dn M) (dbuf M)) as (b0 & E0 & L0 & H0).
  { split; [reflexivity|]. intros i j Hj. cbn. rewrite andb_false_r. reflexivity. }
  { intros k b Hk [Lb Hb]. cbn [Nat.add].
    destruct (upd_el (dn M) b 0 k (fun _ => c)) as (b' & E & Ln & Hb').
    { rewrite Lb, G1. cbn. apply Nat.lt_le_trans with (1 * dn M); [lia|]. apply Nat.mul_le_mono_r. lia. } { lia. }
    cbn [Nat.mul Nat.add] in E. exists b'. split; [exact E|]. split; [lia|]. intros i j Hj. rewrite Hb', Hb by lia.
    destruct (i =? 0); cbn [andb]; [|reflexivity]. destruct (j =? k) eqn:Ej.
    - apply Nat.eqb_eq in Ej. subst. rewrite (proj2 (Nat.ltb_lt _ _)) by lia. reflexivity.
    - apply Nat.eqb_neq in Ej. destruct (j <? k) eqn:E2.
      + apply Nat.ltb_lt in E2. rewrite (proj2 (Nat.ltb_lt _ _)) by lia. reflexivity.
      + apply Nat.ltb_ge in E2. rewrite (proj2 (Nat.ltb_ge _ _)) by lia. reflexivity. }
  rewrite E0. cbn [bind].
  destruct (loop_seq (fun i b => bind (rowp K M i) (fun p => cpy K b p b 0 (dn M)))
    (fun k b => length b = length (dbuf M) /\ forall i j, j < dn M -> eb (dn M) b i j = if i <? S k then c else el M i j)
    1 (dm M - 1) b0) as (b1 & E1 & L1 & H1).
  { split; [exact L0|]. intros i j Hj. rewrite H0 by lia. rewrite (proj2 (Nat.ltb_lt j (dn M))) by lia. rewrite andb_true_r.
    destruct i as [|i]; [reflexivity|]. reflexivity. }
  { intros k b Hk [Lb Hb]. rewrite rowp_some by lia. cbn [bind].
    destruct (cpy_el (dn M) b (1 + k) 0 b 0 (dn M)) as (b' & E & Ln & Hb').
    { rewrite Lb, G1. pose proof (row_le (dn M) (dmax M) (1 + k)). lia. }
    { rewrite Lb, G1. pose proof (row_le (dn M) (dmax M) 0). lia. } { lia. }
    rewrite Nat.add_0_r in E. exists b'. split; [exact E|]. split; [lia|]. intros i j Hj. rewrite Hb' by lia.
    rewrite (proj2 (Nat.ltb_lt j (0 + dn M))) by lia. cbn [Nat.leb andb]. rewrite andb_true_r, Nat.sub_0_r.
    destruct (i =? 1 + k) eqn:Ei.
    - apply Nat.eqb_eq in Ei. subst i. rewrite (proj2 (Nat.ltb_lt _ _)) by lia.
      change (nth (0 + j) b f0) with (eb (dn M) b 0 j). rewrite Hb by lia. reflexivity.
    - apply Nat.eqb_neq in Ei. rewrite Hb by lia. destruct (i <? S k) eqn:E2.
      + apply Nat.ltb_lt in E2. rewrite (proj2 (Nat.ltb_lt _ _)) by lia. reflexivity.
      + apply Nat.ltb_ge in E2. rewrite (proj2 (Nat.ltb_ge _ _)) by lia. reflexivity. }
  rewrite E1. cbn [bind]. eexists. split; [reflexivity|]. apply entries_setbuf; auto.
  intros i j Hi Hj. rewrite H1 by lia. replace (S (dm M - 1)) with (dm M) by lia. reflexivity.
Qed.
End P.
