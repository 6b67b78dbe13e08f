From Coq Require Import List Bool Arith Lia Ring Field.
From Verif Require Import RingKit DenseModel DenseSpec DenseProofs.
Import ListNotations.
Open Scope nat_scope.

Section P2.
Variable K : cfield.
Add Field KF2 : (fth K).
Notation L := (list K).
Notation eb := (eb K).

(** adding to the diagonal entries start .. start+c-1 *)
Lemma diag_loop (M : dmat K) (step : nat -> L -> option L) (v : nat -> K) s start c : good M ->
  start + c <= dmax M -> start + c <= dn M ->
  (forall k b, k < c -> step (s + k) b = bump K M (start + k) (start + k) (v k) b) ->
  exists b, ofold step (seq s c) (dbuf M) = Some b /\ length b = length (dbuf M) /\
    forall i j, j < dn M -> eb (dn M) b i j =
      if (i =? j) && ((start <=? i) && (i <? start + c)) then el M i j +! v (i - start) else el M i j.
Proof.
  intros [G1 G2] H1 H2 HS.
  destruct (loop_seq K step (fun k b => length b = length (dbuf M) /\ forall i j, j < dn M -> eb (dn M) b i j =
      if (i =? j) && ((start <=? i) && (i <? start + k)) then el M i j +! v (i - start) else el M i j) s c (dbuf M))
    as (b & E & Ln & Hb).
  - split; [reflexivity|]. intros i j Hj. rewrite Nat.add_0_r. destruct (start <=? i) eqn:E1; cbn [andb].
    + apply Nat.leb_le in E1. rewrite (proj2 (Nat.ltb_ge i start)) by lia. rewrite andb_false_r. reflexivity.
    + rewrite andb_false_r. reflexivity.
  - intros k b Hk [Lb Hb]. rewrite HS by lia. unfold bump. rewrite rowp_some by lia. cbn [bind].
    destruct (upd_el K (dn M) b (start + k) (start + k) (fun o => o +! v k)) as (b' & E & Ln & Hb').
    { rewrite Lb, G1. apply idx_lt; lia. } { lia. }
    exists b'. split; [exact E|]. split; [lia|]. intros i j Hj. rewrite Hb', !Hb by lia.
    destruct ((i =? start + k) && (j =? start + k)) eqn:E1.
    + apply andb_prop in E1. destruct E1 as [A B]. apply Nat.eqb_eq in A, B. subst i j. rewrite Nat.eqb_refl.
      rewrite (proj2 (Nat.leb_le start (start + k))) by lia. rewrite (proj2 (Nat.ltb_ge (start + k) (start + k))) by lia.
      rewrite (proj2 (Nat.ltb_lt (start + k) (start + S k))) by lia. cbn [andb]. do 2 f_equal. lia.
    + destruct (i =? j) eqn:E2; cbn [andb]; [|reflexivity]. apply Nat.eqb_eq in E2. subst j. rewrite andb_diag in E1.
      apply Nat.eqb_neq in E1. destruct (start <=? i); cbn [andb]; [|reflexivity].
      destruct (i <? start + k) eqn:E3.
      * apply Nat.ltb_lt in E3. rewrite (proj2 (Nat.ltb_lt _ _)) by lia. reflexivity.
      * apply Nat.ltb_ge in E3. rewrite (proj2 (Nat.ltb_ge _ _)) by lia. reflexivity.
  - exists b. auto.
Qed.

Lemma add_diag_ok (M : dmat K) alpha d : good M -> dn M <= dmax M -> length d = dn M ->
  exists M', add_diag K M alpha d = Some M' /\ entries M M' (fun i j => if i =? j then el M i j +! alpha *! nth i d f0 else el M i j).
Proof.
  intros G Hm Hd. unfold add_diag.
  destruct (diag_loop M (fun i b => bind (nth_error d i) (fun v => bump K M i i (alpha *! v) b)) (fun k => alpha *! nth k d f0) 0 0 (dn M) G)
    as (b & E & Ln & Hb); try lia.
  { intros k b Hk. cbn [Nat.add]. rewrite (nth_error_nth' d f0) by lia. reflexivity. }
  rewrite E. cbn [bind]. eexists. split; [reflexivity|]. apply entries_setbuf; auto.
  intros i j Hi Hj. rewrite Hb by lia. cbn [Nat.leb andb Nat.add]. rewrite Nat.sub_0_r. destruct (i =? j) eqn:Ei; cbn [andb]; [|reflexivity].
  apply Nat.eqb_eq in Ei. rewrite (proj2 (Nat.ltb_lt _ _)) by lia. reflexivity.
Qed.
Lemma add_diag_const_ok (M : dmat K) v : good M -> dn M <= dmax M ->
  exists M', add_diag_const K M v = Some M' /\ entries M M' (fun i j => if i =? j then el M i j +! v else el M i j).
Proof.
  intros G Hm. unfold add_diag_const.
  destruct (diag_loop M (fun i b => bump K M i i v b) (fun _ => v) 0 0 (dn M) G) as (b & E & Ln & Hb); try lia.
  { reflexivity. }
  rewrite E. cbn [bind]. eexists. split; [reflexivity|]. apply entries_setbuf; auto.
  intros i j Hi Hj. rewrite Hb by lia. cbn [Nat.leb andb Nat.add]. destruct (i =? j) eqn:Ei; cbn [andb]; [|reflexivity].
  apply Nat.eqb_eq in Ei. rewrite (proj2 (Nat.ltb_lt _ _)) by lia. reflexivity.
Qed.
Lemma add_subdiag_ok (M : dmat K) alpha start d : good M -> start + length d <= dn M -> start + length d <= dmax M ->
  exists M', add_subdiag K M alpha start d = Some M' /\
    entries M M' (fun i j => if (i =? j) && ((start <=? i) && (i <? start + length d)) then el M i j +! alpha *! nth (i - start) d f0 else el M i j).
Proof.
  intros G H1 H2. unfold add_subdiag.
  destruct (diag_loop M (fun i b => bind (nth_error d (i - start)) (fun v => bump K M i i (alpha *! v) b)) (fun k => alpha *! nth k d f0) start start (length d) G)
    as (b & E & Ln & Hb); try lia.
  { intros k b Hk. replace (start + k - start) with k by lia. rewrite (nth_error_nth' d f0) by lia. reflexivity. }
  rewrite E. cbn [bind]. eexists. split; [reflexivity|]. apply entries_setbuf; auto.
Qed.
Lemma add_subdiag_from_ok (M : dmat K) start alpha d src num : good M -> dn M = dm M -> start < dm M ->
  let cnt := match num with Some k => k | None => length d - src end in
  src + cnt <= length d ->
  exists M', add_subdiag_from K M start alpha d src num = Some M' /\
    entries M M' (fun i j => if (i =? j) && ((start <=? i) && (i <? start + cnt)) then el M i j +! alpha *! nth (src + (i - start)) d f0 else el M i j).
Proof.
  intros G Hn Hs cnt Hc. pose proof G as [G1 G2]. unfold add_subdiag_from. fold cnt.
  rewrite (proj2 (Nat.leb_le cnt (length d))) by lia. rewrite Hn, Nat.eqb_refl, (proj2 (Nat.ltb_lt _ _) Hs). cbn [andb].
  destruct (diag_loop M (fun i b => bind (nth_error d (src + i)) (fun v => bump K M (i + start) (i + start) (alpha *! v) b))
     (fun k => alpha *! nth (src + k) d f0) 0 start (Nat.min cnt (dm M - start)) G)
    as (b & E & Ln & Hb); try lia.
  { intros k b Hk. cbn [Nat.add]. rewrite (nth_error_nth' d f0) by lia. cbn [bind]. rewrite (Nat.add_comm k start). reflexivity. }
  rewrite E. cbn [bind]. eexists. split; [reflexivity|]. apply entries_setbuf; auto. intros i j Hi Hj. rewrite Hb by lia.
  destruct (i =? j) eqn:Eij; cbn [andb]; [|reflexivity]. apply Nat.eqb_eq in Eij. subst j.
  destruct (start <=? i) eqn:E1; cbn [andb]; [|reflexivity]. apply Nat.leb_le in E1.
  destruct (i <? start + cnt) eqn:E2.
  - apply Nat.ltb_lt in E2. rewrite (proj2 (Nat.ltb_lt _ _)) by lia. reflexivity.
  - apply Nat.ltb_ge in E2. rewrite (proj2 (Nat.ltb_ge _ _)) by lia. reflexivity.
Qed.
Lemma add_subdiag_const_ok (M : dmat K) start num c : good M -> dn M = dm M -> start + num <= dn M ->
  exists M', add_subdiag_const K M start num c = Some M' /\
    entries M M' (fun i j => if (i =? j) && ((start <=? i) && (i <? start + num)) then el M i j +! c else el M i j).
Proof.
  intros G Hn Hs. pose proof G as [G1 G2]. unfold add_subdiag_const.
  rewrite (proj2 (Nat.leb_le _ _) Hs), (proj2 (Nat.eqb_eq _ _) Hn). cbn [andb].
  destruct (diag_loop M (fun i b => bump K M (i + start) (i + start) c b) (fun k => c) 0 start num G) as (b & E & Ln & Hb); try lia.
  { intros k b Hk. cbn [Nat.add]. rewrite (Nat.add_comm k start). reflexivity. }
  rewrite E. cbn [bind]. eexists. split; [reflexivity|]. apply entries_setbuf; auto.
Qed.
Lemma add_matrix_ok (M X : dmat K) alpha : good M -> good X -> dm M = dm X -> dn M = dn X ->
  exists M', add_matrix K M alpha X = Some M' /\
    entries M M' (fun i j => if i <? dm M then el M i j +! alpha *! el X i j else el M i j).
Proof.
  intros G [GX1 GX2] Hm Hn. pose proof G as [G1 G2]. unfold add_matrix, daxpy.
  assert (A : dm M * dn M <= dmax X * dn X) by (rewrite Hn; apply Nat.mul_le_mono_r; lia).
  assert (B : dm M * dn M <= dmax M * dn M) by (apply Nat.mul_le_mono_r; lia).
  rewrite GX1, G1, (proj2 (Nat.leb_le _ _) A), (proj2 (Nat.leb_le _ _) B). cbn [andb bind].
  eexists. split; [reflexivity|]. apply entries_setbuf; auto. { rewrite tab_len, G1. reflexivity. }
  intros i j Hi Hj. unfold DenseProofs.eb. rewrite tab_nth by (apply idx_lt; lia). destruct (i <? dm M) eqn:E.
  - apply Nat.ltb_lt in E. rewrite (proj2 (Nat.ltb_lt _ _)) by (apply idx_lt; lia). unfold el. rewrite Hn. ring.
  - apply Nat.ltb_ge in E. rewrite (proj2 (Nat.ltb_ge _ _)); [reflexivity|]. pose proof (Nat.mul_le_mono_r _ _ (dn M) E). lia.
Qed.

(** element-wise updates of W read from elsewhere: positions visited once *)
Lemma trans_add_upper_ok (M W : dmat K) rs cs alpha : good M -> good W -> dn W = dm W ->
  dn M + rs <= dm W -> dm M + cs <= dn W -> (0 < dm M -> 0 < dn M -> dn M + rs <= S cs) ->
  exists W', trans_add_upper K M rs cs alpha W = Some W' /\
    entries W W' (fun i j => if ((rs <=? i) && (i <? rs + dn M)) && ((cs <=? j) && (j <? cs + dm M))
                             then el W i j +! alpha *! el M (j - cs) (i - rs) else el W i j).
Proof.
  intros [GM1 GM2] G Hsq H1 H2 HU. pose proof G as [G1 G2]. unfold trans_add_upper.
  rewrite (proj2 (Nat.leb_le _ _) H1), (proj2 (Nat.leb_le _ _) H2), (proj2 (Nat.eqb_eq _ _) Hsq). cbn [andb].
  set (inner := fun ir b => ofold (fun jc b =>
            if jc + rs <=? ir + cs then
              bind (rowp K M ir) (fun p => bind (nth_error (dbuf M) (p + jc)) (fun v =>
              upd K b ((jc + rs) * dn W + (ir + cs)) (fun o => o +! alpha *! v)))
            else None) (seq 0 (dn M)) b).
  destruct (loop_seq K inner (fun k b => length b = length (dbuf W) /\ forall i j, j < dn W -> eb (dn W) b i j =
      if ((rs <=? i) && (i <? rs + dn M)) && ((cs <=? j) && (j <? cs + k)) then el W i j +! alpha *! el M (j - cs) (i - rs) else el W i j)
      0 (dm M) (dbuf W)) as (b & E & Ln & Hb).
  - split; [reflexivity|]. intros i j Hj. rewrite Nat.add_0_r. destruct (cs <=? j) eqn:E1; cbn [andb].
    + apply Nat.leb_le in E1. rewrite (proj2 (Nat.ltb_ge j cs)) by lia. rewrite andb_false_r. reflexivity.
    + rewrite andb_false_r. reflexivity.
  - intros k b Hk [Lb Hb]. cbn [Nat.add]. unfold inner.
    destruct (loop_seq K (fun jc b =>
            if jc + rs <=? k + cs then
              bind (rowp K M k) (fun p => bind (nth_error (dbuf M) (p + jc)) (fun v =>
              upd K b ((jc + rs) * dn W + (k + cs)) (fun o => o +! alpha *! v)))
            else None)
       (fun c b' => length b' = length (dbuf W) /\ forall i j, j < dn W -> eb (dn W) b' i j =
          if ((rs <=? i) && (i <? rs + c)) && (j =? cs + k) then el W i j +! alpha *! el M k (i - rs) else eb (dn W) b i j) 0 (dn M) b)
      as (b' & E & Ln & Hb').
    + split; [exact Lb|]. intros i j Hj. rewrite Nat.add_0_r. destruct (rs <=? i) eqn:E1; cbn [andb]; [|reflexivity].
      apply Nat.leb_le in E1. rewrite (proj2 (Nat.ltb_ge i rs)) by lia. reflexivity.
    + intros c b1 Hc [Lb1 Hb1]. cbn [Nat.add]. rewrite (proj2 (Nat.leb_le (c + rs) (k + cs))) by lia. rewrite rowp_some by lia. cbn [bind].
      rewrite (nth_error_nth' (dbuf M) f0) by (rewrite GM1; apply idx_lt; lia). cbn [bind].
      destruct (upd_el K (dn W) b1 (c + rs) (k + cs) (fun o => o +! alpha *! nth (k * dn M + c) (dbuf M) f0)) as (b2 & E2 & Ln2 & Hb2).
      { rewrite Lb1, G1. apply idx_lt; lia. } { lia. }
      exists b2. split; [exact E2|]. split; [lia|]. intros i j Hj. rewrite Hb2, !Hb1 by lia.
      destruct ((i =? c + rs) && (j =? k + cs)) eqn:E3.
      * apply andb_prop in E3. destruct E3 as [A B]. apply Nat.eqb_eq in A, B. subst i j.
        rewrite (proj2 (Nat.leb_le rs (c + rs))) by lia. rewrite (proj2 (Nat.ltb_ge (c + rs) (rs + c))) by lia.
        rewrite (proj2 (Nat.ltb_lt (c + rs) (rs + S c))) by lia. rewrite (proj2 (Nat.eqb_eq (k + cs) (cs + k))) by lia. cbn [andb].
        rewrite Hb by lia. rewrite (proj2 (Nat.leb_le cs (k + cs))) by lia. rewrite (proj2 (Nat.ltb_ge (k + cs) (cs + k))) by lia.
        cbn [andb]. rewrite andb_false_r. f_equal. f_equal. unfold el. f_equal. lia.
      * destruct (j =? cs + k) eqn:E4.
        2:{ rewrite !andb_false_r. reflexivity. }
        apply Nat.eqb_eq in E4. rewrite (proj2 (Nat.eqb_eq j (k + cs))) in E3 by lia. rewrite andb_true_r in E3. apply Nat.eqb_neq in E3.
        rewrite !andb_true_r. destruct (rs <=? i); cbn [andb]; [|reflexivity]. destruct (i <? rs + c) eqn:E5.
        -- apply Nat.ltb_lt in E5. rewrite (proj2 (Nat.ltb_lt _ _)) by lia. reflexivity.
        -- apply Nat.ltb_ge in E5. rewrite (proj2 (Nat.ltb_ge _ _)) by lia. reflexivity.
    + exists b'. split; [exact E|]. split; [exact Ln|]. intros i j Hj. rewrite Hb', Hb by lia.
      destruct ((rs <=? i) && (i <? rs + dn M)) eqn:E1; cbn [andb]; [|reflexivity].
      destruct (j =? cs + k) eqn:E2.
      * apply Nat.eqb_eq in E2. subst j. rewrite (proj2 (Nat.leb_le _ _)) by lia. rewrite (proj2 (Nat.ltb_lt _ _)) by lia. cbn [andb].
        do 3 f_equal. lia.
      * apply Nat.eqb_neq in E2. destruct (cs <=? j) eqn:E3; cbn [andb]; [|reflexivity]. destruct (j <? cs + k) eqn:E4.
        -- apply Nat.ltb_lt in E4. rewrite (proj2 (Nat.ltb_lt _ _)) by lia. reflexivity.
        -- apply Nat.ltb_ge in E4. rewrite (proj2 (Nat.ltb_ge _ _)) by lia. reflexivity.
  - fold inner. rewrite E. cbn [bind]. eexists. split; [reflexivity|]. apply entries_setbuf; auto.
Qed.

Lemma add_upper_ok (M W : dmat K) ds alpha : good M -> good W -> dn W = dm W -> dn M = dm M -> ds + dn M <= dn W ->
  exists W', add_upper K M ds alpha W = Some W' /\
    entries W W' (fun i j => if ((ds <=? i) && (i <=? j)) && (j <? ds + dn M)
                             then el W i j +! alpha *! el M (i - ds) (j - ds) else el W i j).
Proof.
  intros [GM1 GM2] G Hsq HM H1. pose proof G as [G1 G2]. unfold add_upper.
  rewrite (proj2 (Nat.leb_le _ _) H1), (proj2 (Nat.eqb_eq _ _) Hsq), (proj2 (Nat.eqb_eq _ _) HM). cbn [andb].
  set (inner := fun i b => ofold (fun j b =>
            bind (rowp K M i) (fun p => bind (nth_error (dbuf M) (p + j)) (fun v =>
            upd K b ((i + ds) * dn W + (j + ds)) (fun o => o +! alpha *! v))))
            (seq i (dm M - i)) b).
  destruct (loop_seq K inner (fun k b => length b = length (dbuf W) /\ forall i j, j < dn W -> eb (dn W) b i j =
      if ((ds <=? i) && (i <? ds + k)) && ((i <=? j) && (j <? ds + dn M)) then el W i j +! alpha *! el M (i - ds) (j - ds) else el W i j)
      0 (dn M) (dbuf W)) as (b & E & Ln & Hb).
  - split; [reflexivity|]. intros i j Hj. rewrite Nat.add_0_r. destruct (ds <=? i) eqn:E1; cbn [andb]; [|reflexivity].
    apply Nat.leb_le in E1. rewrite (proj2 (Nat.ltb_ge i ds)) by lia. reflexivity.
  - intros k b Hk [Lb Hb]. cbn [Nat.add]. unfold inner.
    destruct (loop_seq K (fun j b =>
            bind (rowp K M k) (fun p => bind (nth_error (dbuf M) (p + j)) (fun v =>
            upd K b ((k + ds) * dn W + (j + ds)) (fun o => o +! alpha *! v))))
       (fun c b' => length b' = length (dbuf W) /\ forall i j, j < dn W -> eb (dn W) b' i j =
          if (i =? ds + k) && ((i <=? j) && (j <? i + c)) then el W i j +! alpha *! el M (i - ds) (j - ds) else eb (dn W) b i j)
       k (dm M - k) b) as (b' & E & Ln & Hb').
    + split; [exact Lb|]. intros i j Hj. rewrite Nat.add_0_r. destruct (i <=? j) eqn:E1; cbn [andb].
      * apply Nat.leb_le in E1. rewrite (proj2 (Nat.ltb_ge j i)) by lia. rewrite andb_false_r. reflexivity.
      * rewrite andb_false_r. reflexivity.
    + intros c b1 Hc [Lb1 Hb1]. rewrite rowp_some by lia. cbn [bind].
      rewrite (nth_error_nth' (dbuf M) f0) by (rewrite GM1; apply idx_lt; lia). cbn [bind].
      destruct (upd_el K (dn W) b1 (k + ds) (k + c + ds) (fun o => o +! alpha *! nth (k * dn M + (k + c)) (dbuf M) f0)) as (b2 & E2 & Ln2 & Hb2).
      { rewrite Lb1, G1. apply idx_lt; lia. } { lia. }
      exists b2. split; [exact E2|]. split; [lia|]. intros i j Hj. rewrite Hb2, !Hb1 by lia.
      destruct ((i =? k + ds) && (j =? k + c + ds)) eqn:E3.
      * apply andb_prop in E3. destruct E3 as [A B]. apply Nat.eqb_eq in A, B. subst i j.
        rewrite (proj2 (Nat.eqb_eq (k + ds) (ds + k))) by lia. rewrite (proj2 (Nat.leb_le (k + ds) (k + c + ds))) by lia.
        rewrite (proj2 (Nat.ltb_ge (k + c + ds) (k + ds + c))) by lia.
        rewrite (proj2 (Nat.ltb_lt (k + c + ds) (k + ds + S c))) by lia. cbn [andb].
        rewrite Hb by lia. rewrite (proj2 (Nat.ltb_ge (k + ds) (ds + k))) by lia.
        rewrite andb_false_r. cbn [andb]. f_equal. f_equal. unfold el. f_equal.
        replace (k + ds - ds) with k by lia. lia.
      * destruct (i =? ds + k) eqn:E4; cbn [andb]; [|reflexivity]. apply Nat.eqb_eq in E4.
        rewrite (proj2 (Nat.eqb_eq i (k + ds))) in E3 by lia. cbn [andb] in E3. apply Nat.eqb_neq in E3.
        destruct (i <=? j); cbn [andb]; [|reflexivity]. destruct (j <? i + c) eqn:E5.
        -- apply Nat.ltb_lt in E5. rewrite (proj2 (Nat.ltb_lt _ _)) by lia. reflexivity.
        -- apply Nat.ltb_ge in E5. rewrite (proj2 (Nat.ltb_ge _ _)) by lia. reflexivity.
    + exists b'. split; [exact E|]. split; [exact Ln|]. intros i j Hj. rewrite Hb', Hb by lia.
      destruct (i =? ds + k) eqn:E1; cbn [andb].
      * apply Nat.eqb_eq in E1. subst i. rewrite (proj2 (Nat.leb_le ds (ds + k))) by lia.
        rewrite (proj2 (Nat.ltb_ge (ds + k) (ds + k))) by lia. rewrite (proj2 (Nat.ltb_lt (ds + k) (ds + S k))) by lia. cbn [andb].
        destruct (ds + k <=? j) eqn:E3; cbn [andb]; [|reflexivity].
        replace (ds + k + (dm M - k)) with (ds + dn M) by lia. reflexivity.
      * apply Nat.eqb_neq in E1. destruct (ds <=? i) eqn:E3; cbn [andb]; [|reflexivity]. destruct (i <? ds + k) eqn:E4.
        -- apply Nat.ltb_lt in E4. rewrite (proj2 (Nat.ltb_lt i (ds + S k))) by lia. reflexivity.
        -- apply Nat.ltb_ge in E4. rewrite (proj2 (Nat.ltb_ge i (ds + S k))) by lia. reflexivity.
  - rewrite E. cbn [bind]. eexists. split; [reflexivity|]. apply entries_setbuf; auto.
    intros i j Hi Hj. rewrite Hb by lia. destruct (ds <=? i) eqn:E1; cbn [andb]; [|reflexivity].
    destruct (i <=? j) eqn:E2; cbn [andb].
    + destruct (j <? ds + dn M) eqn:E3.
      * apply Nat.leb_le in E2. apply Nat.ltb_lt in E3. rewrite (proj2 (Nat.ltb_lt _ _)) by lia. reflexivity.
      * rewrite andb_false_r. reflexivity.
    + rewrite andb_false_r. reflexivity.
Qed.

Lemma dscal_row N n' s b r : (r + 1) * N <= length b -> n' = N ->
  exists b', dscal K n' s b (r * N) = Some b' /\ length b' = length b /\
    forall i j, j < N -> i * N + j < length b -> eb N b' i j = if i =? r then s *! eb N b r j else eb N b i j.
Proof.
  intros H ->. rewrite Nat.mul_add_distr_r, Nat.mul_1_l in H. unfold dscal. rewrite (proj2 (Nat.leb_le _ _)) by lia. eexists. split; [reflexivity|]. split; [apply tab_len|].
  intros i j Hj Hl. unfold DenseProofs.eb. rewrite tab_nth by exact Hl. destruct (i =? r) eqn:Ei.
  - apply Nat.eqb_eq in Ei. subst. rewrite (proj2 (Nat.leb_le _ _)) by lia. rewrite (proj2 (Nat.ltb_lt _ _)) by lia. reflexivity.
  - apply Nat.eqb_neq in Ei. destruct ((r * N <=? i * N + j) && (i * N + j <? r * N + N)) eqn:E; [|reflexivity].
    exfalso. apply andb_prop in E. destruct E as [A B]. apply Nat.leb_le in A. apply Nat.ltb_lt in B. apply Ei.
    apply (idx_inj N i j r (i * N + j - r * N)); lia.
Qed.
Lemma scale_row_ok (M : dmat K) v (inv : bool) : good M -> length v = dm M ->
  exists M', scale_row K M v inv = Some M' /\
    entries M M' (fun i j => if i <? dm M then (if inv then f1 /! nth i v f0 else nth i v f0) *! el M i j else el M i j).
Proof.
  intros G Hv. pose proof G as [G1 G2]. unfold scale_row. rewrite Hv, Nat.eqb_refl.
  destruct (loop_seq K (fun i b => bind (nth_error v i) (fun s => dscal K (dn M) (if inv then f1 /! s else s) b (i * dn M)))
    (fun c b => length b = length (dbuf M) /\ forall i j, j < dn M -> i < dmax M ->
       eb (dn M) b i j = if i <? c then (if inv then f1 /! nth i v f0 else nth i v f0) *! el M i j else el M i j)
    0 (dm M) (dbuf M)) as (b & E & Ln & Hb).
  { split; [reflexivity|]. reflexivity. }
  { intros k b Hk [Lb Hb]. cbn [Nat.add]. rewrite (nth_error_nth' v f0) by lia. cbn [bind].
    destruct (dscal_row (dn M) (dn M) (if inv then f1 /! nth k v f0 else nth k v f0) b k) as (b' & E & Ln & Hb').
    { rewrite Lb, G1. apply Nat.mul_le_mono_r. lia. } { reflexivity. }
    exists b'. split; [exact E|]. split; [lia|]. intros i j Hj Hi. rewrite Hb' by (try rewrite Lb, G1; try apply idx_lt; lia).
    rewrite !Hb by lia. destruct (i =? k) eqn:Ei.
    - apply Nat.eqb_eq in Ei. subst. rewrite (proj2 (Nat.ltb_ge k k)) by lia. rewrite (proj2 (Nat.ltb_lt k (S k))) by lia. reflexivity.
    - apply Nat.eqb_neq in Ei. destruct (i <? k) eqn:E2.
      + apply Nat.ltb_lt in E2. rewrite (proj2 (Nat.ltb_lt _ _)) by lia. reflexivity.
      + apply Nat.ltb_ge in E2. rewrite (proj2 (Nat.ltb_ge _ _)) by lia. reflexivity. }
  rewrite E. cbn [bind]. eexists. split; [reflexivity|]. apply entries_setbuf; auto.
Qed.

Lemma symmetrize_ok (M : dmat K) : good M -> dm M = dn M ->
  exists M', symmetrize K M = Some M' /\
    entries M M' (fun i j => if (j <? i) && (i <? dn M) then el M j i else el M i j).
Proof.
  intros G HM. pose proof G as [G1 G2]. unfold symmetrize. rewrite (proj2 (Nat.eqb_eq _ _) HM).
  set (inner := fun i b => ofold (fun j b =>
            bind (rowp K M i) (fun p => bind (rowp K M j) (fun q => bind (nth_error b (p + j)) (fun v =>
            upd K b (q + i) (fun _ => v))))) (seq (S i) (dn M - S i)) b).
  destruct (loop_seq K inner (fun k b => length b = length (dbuf M) /\ forall i j, j < dn M -> eb (dn M) b i j =
      if (j <? i) && ((i <? dn M) && (j <? k)) then el M j i else el M i j)
      0 (dn M) (dbuf M)) as (b & E & Ln & Hb).
  - split; [reflexivity|]. intros i j Hj. cbn. rewrite !andb_false_r. reflexivity.
  - intros k b Hk [Lb Hb]. cbn [Nat.add]. unfold inner.
    destruct (loop_seq K (fun j b =>
            bind (rowp K M k) (fun p => bind (rowp K M j) (fun q => bind (nth_error b (p + j)) (fun v => upd K b (q + k) (fun _ => v)))))
       (fun c b' => length b' = length (dbuf M) /\ forall i j, j < dn M -> eb (dn M) b' i j =
          if (j =? k) && ((k <? i) && (i <? S k + c)) then el M j i else eb (dn M) b i j)
       (S k) (dn M - S k) b) as (b' & E & Ln & Hb').
    + split; [exact Lb|]. intros i j Hj. rewrite Nat.add_0_r. destruct (k <? i) eqn:E1; cbn [andb].
      * apply Nat.ltb_lt in E1. rewrite (proj2 (Nat.ltb_ge i (S k))) by lia. rewrite andb_false_r. reflexivity.
      * rewrite andb_false_r. reflexivity.
    + intros c b1 Hc [Lb1 Hb1]. rewrite !rowp_some by lia. cbn [bind].
      rewrite (nth_error_nth' b1 f0) by (rewrite Lb1, G1; apply idx_lt; lia). cbn [bind].
      destruct (upd_el K (dn M) b1 (S k + c) k (fun _ => nth (k * dn M + (S k + c)) b1 f0)) as (b2 & E2 & Ln2 & Hb2).
      { rewrite Lb1, G1. apply idx_lt; lia. } { lia. }
      exists b2. split; [exact E2|]. split; [lia|]. intros i j Hj. rewrite Hb2 by lia.
      change (nth (k * dn M + (S k + c)) b1 f0) with (eb (dn M) b1 k (S k + c)).
      destruct ((i =? S k + c) && (j =? k)) eqn:E3.
      * apply andb_prop in E3. destruct E3 as [A B]. apply Nat.eqb_eq in A, B. subst i j. rewrite Hb1 by lia.
        rewrite (proj2 (Nat.ltb_ge k k)) by lia. cbn [andb]. rewrite andb_false_r. rewrite Hb by lia.
        rewrite (proj2 (Nat.ltb_ge (S k + c) k)) by lia. cbn [andb]. rewrite Nat.eqb_refl.
        rewrite (proj2 (Nat.ltb_lt k (S k + c))) by lia. rewrite (proj2 (Nat.ltb_lt (S k + c) (S k + S c))) by lia. reflexivity.
      * rewrite Hb1 by lia. destruct (j =? k) eqn:E4; cbn [andb]; [|reflexivity]. rewrite andb_true_r in E3. apply Nat.eqb_neq in E3.
        destruct (k <? i); cbn [andb]; [|reflexivity]. destruct (i <? S k + c) eqn:E5.
        -- apply Nat.ltb_lt in E5. rewrite (proj2 (Nat.ltb_lt i (S k + S c))) by lia. reflexivity.
        -- apply Nat.ltb_ge in E5. rewrite (proj2 (Nat.ltb_ge i (S k + S c))) by lia. reflexivity.
    + exists b'. split; [exact E|]. split; [exact Ln|]. intros i j Hj. rewrite Hb', Hb by lia.
      replace (S k + (dn M - S k)) with (dn M) by lia. destruct (j =? k) eqn:E1; cbn [andb].
      * apply Nat.eqb_eq in E1. subst j. rewrite (proj2 (Nat.ltb_lt k (S k))) by lia. rewrite (proj2 (Nat.ltb_ge k k)) by lia.
        rewrite !andb_false_r, andb_true_r. reflexivity.
      * apply Nat.eqb_neq in E1. destruct (j <? k) eqn:E4.
        -- apply Nat.ltb_lt in E4. rewrite (proj2 (Nat.ltb_lt j (S k))) by lia. reflexivity.
        -- apply Nat.ltb_ge in E4. rewrite (proj2 (Nat.ltb_ge j (S k))) by lia. reflexivity.
  - rewrite E. cbn [bind]. eexists. split; [reflexivity|]. apply entries_setbuf; auto.
    intros i j Hi Hj. rewrite Hb by lia. rewrite (proj2 (Nat.ltb_lt j (dn M))) by lia. rewrite andb_true_r. reflexivity.
Qed.
End P2.
