(** Lemmas for C87. *)
From Coq Require Import List Bool Arith Lia.
From Verif Require Import RingKit SparseModel SparseSpec SparseProofs SparseProofs2 MdsMatModel MdsMatSpec.
From Verif Require DenseModel DenseSpec DenseProofs DenseProofs2 DenseProofs3 DenseProofs4 SparseProps DenseProps.
Import ListNotations.

Section P.
Variable K : cfield.
Add Field KFm : (fth K).
Variable is_one : K -> bool.
Hypothesis is_one_ok : forall b, is_one b = true -> b = f1.

Lemma at_firstn (x : list K) n i : i < n -> at_ (firstn n x) i = at_ x i.
Proof. intro H. unfold at_. revert n i H. induction x as [|a x IH]; intros [|n] [|i] H; cbn; try lia; auto. apply IH. lia. Qed.
Lemma nth_skipn (x : list K) n i : nth i (skipn n x) f0 = at_ x (n + i).
Proof. unfold at_. revert x. induction n as [|n IH]; intro x; [reflexivity|]. destruct x as [|a x]; [destruct i; reflexivity|]. cbn. apply IH. Qed.
Lemma len_first (x : list K) a b : length x = a + b -> length (firstn a x) = a /\ length (skipn a x) = b.
Proof. intro H. rewrite firstn_length, skipn_length. lia. Qed.
Lemma ent_sum m (M : mds K) i (x : nat -> K) : okm m M ->
  sumn (nsp M + nde M) (fun j => ent M i j *! x j) =
  sumn (nsp M) (fun j => mat (t_ent (m_sp M)) i j *! x j) +! sumn (nde M) (fun j => DenseSpec.el (m_de M) i j *! x (nsp M + j)).
Proof.
  intros _. rewrite DenseProofs4.sumn_split. f_equal.
  - apply sumn_ext. intros j Hj. unfold ent. rewrite (proj2 (Nat.ltb_lt _ _)) by exact Hj. reflexivity.
  - apply sumn_ext. intros j Hj. unfold ent. rewrite (proj2 (Nat.ltb_ge _ _)) by lia. replace (nsp M + j - nsp M) with j by lia. reflexivity.
Qed.

Lemma times_vec_ok m (M : mds K) beta y alpha x : okm m M -> length x = nsp M + nde M -> length y = m ->
  exists y', times_vec K is_one M beta y alpha x = Some y' /\ length y' = m /\
    forall i, i < m -> at_ y' i = beta *! at_ y i +! alpha *! sumn (nsp M + nde M) (fun j => ent M i j *! at_ x j).
Proof.
  intros O Hx Hy. pose proof O as (W & Em & G & Ed). unfold times_vec, nsp, nde in *. rewrite Hx, Nat.eqb_refl.
  destruct (len_first x _ _ Hx) as [L1 L2].
  destruct (SparseProps.C24_times_vec K (m_sp M) beta y alpha (firstn (t_n (m_sp M)) x) W L1) as (y1 & E1 & Y1 & H1); [congruence|]. rewrite E1.
  unfold DenseModel.times_vec_serial.
  destruct (DenseProofs3.times_vec_local_ok K is_one is_one_ok true f1 y1 alpha (m_de M) (skipn (t_n (m_sp M)) x) G L2) as (y2 & E2 & Y2 & H2); [congruence|].
  exists y2. split; [exact E2|]. split; [congruence|]. intros i Hi. change (at_ y2 i) with (nth i y2 f0). rewrite H2 by lia.
  change (nth i y1 f0) with (at_ y1 i). rewrite H1 by lia. rewrite DenseProofs3.dot_lrow by exact L2.
  pose proof (ent_sum m M i (at_ x) O) as S. unfold nsp, nde in S. rewrite S.
  rewrite (sumn_ext K (t_n (m_sp M)) (fun j => mat (t_ent (m_sp M)) i j *! at_ (firstn (t_n (m_sp M)) x) j) (fun j => mat (t_ent (m_sp M)) i j *! at_ x j)) by (intros j Hj; rewrite at_firstn by exact Hj; reflexivity).
  rewrite (sumn_ext K (DenseModel.dn (m_de M)) (fun j => DenseSpec.el (m_de M) i j *! nth j (skipn (t_n (m_sp M)) x) f0) (fun j => DenseSpec.el (m_de M) i j *! at_ x (t_n (m_sp M) + j))) by (intros j Hj; rewrite nth_skipn; reflexivity).
  ring.
Qed.
Lemma at_app (a b : list K) i : at_ (a ++ b) i = if i <? length a then at_ a i else at_ b (i - length a).
Proof. unfold at_. destruct (Nat.ltb_spec i (length a)); [apply app_nth1; lia|apply app_nth2; lia]. Qed.
Lemma trans_times_vec_ok m (M : mds K) beta y alpha x : okm m M -> length y = nsp M + nde M -> length x = m ->
  exists y', trans_times_vec K M beta y alpha x = Some y' /\ length y' = nsp M + nde M /\
    forall j, j < nsp M + nde M -> at_ y' j = beta *! at_ y j +! alpha *! sumn m (fun i => ent M i j *! at_ x i).
Proof.
  intros O Hy Hx. pose proof O as (W & Em & G & Ed). unfold trans_times_vec. unfold nsp, nde in Hy. rewrite Hy, Nat.eqb_refl.
  destruct (len_first y _ _ Hy) as [L1 L2].
  destruct (SparseProps.C24_trans_times_vec K (m_sp M) beta (firstn (t_n (m_sp M)) y) alpha x W) as (a & E1 & Y1 & H1); [congruence|exact L1|]. rewrite E1.
  destruct (DenseProofs3.trans_times_vec_ok K beta (skipn (t_n (m_sp M)) y) alpha (m_de M) x G) as (b & E2 & Y2 & H2); [congruence|exact L2|]. rewrite E2.
  exists (a ++ b). split; [reflexivity|]. split; [rewrite app_length; unfold nsp, nde; lia|]. intros j Hj. rewrite at_app, Y1. unfold ent, nsp, nde in *.
  destruct (Nat.ltb_spec j (t_n (m_sp M))) as [L|L].
  - rewrite H1 by exact L. rewrite at_firstn by exact L. rewrite Em. reflexivity.
  - change (at_ b (j - t_n (m_sp M))) with (nth (j - t_n (m_sp M)) b f0). rewrite H2 by lia. rewrite nth_skipn.
    replace (t_n (m_sp M) + (j - t_n (m_sp M))) with j by lia. rewrite Ed. reflexivity.
Qed.

Lemma el_todm (W : dense K) i j : DenseSpec.el (todm K W) i j = dmat W i j. Proof. reflexivity. Qed.
Lemma good_todm (W : dense K) : dwf W -> DenseSpec.good (todm K W).
Proof. intro H. split; cbn; [exact H|lia]. Qed.
Lemma ofdm_ok (W : dense K) W' f : DenseSpec.entries (todm K W) W' f ->
  d_m (ofdm K W') = d_m W /\ d_n (ofdm K W') = d_n W /\ dwf (ofdm K W') /\ (forall p r, p < d_m W -> r < d_n W -> dmat (ofdm K W') p r = f p r).
Proof.
  intros (A & B & C & [G1 G2] & D). cbn in A, B, C, D. unfold dwf, dmat. cbn [ofdm d_m d_n d_arr]. split; [exact A|]. split; [exact B|]. split; [congruence|].
  intros p r Hp Hr. rewrite <- (D p r Hp Hr). reflexivity.
Qed.

Lemma times_mat_trans_ok m k (M X : mds K) beta W alpha : okm m M -> okm k X -> nsp M = nsp X -> nde M = nde X ->
  sorted (t_ent (m_sp M)) -> sorted (t_ent (m_sp X)) -> dwf W -> d_m W = m -> d_n W = k -> 0 < m -> 0 < k ->
  exists W', times_mat_trans K is_one M beta W alpha X = Some W' /\ d_m W' = m /\ d_n W' = k /\ dwf W' /\
    forall p r, p < m -> r < k -> dmat W' p r = beta *! dmat W p r +! sumn (nsp M + nde M) (fun c => ent M p c *! ent X r c).
Proof.
  intros OM OX N1 N2 S1 S2 HW W1 W2 Hm Hk. pose proof OM as (WM & MM & GM & DM). pose proof OX as (WX & MX & GX & DX). unfold times_mat_trans, nsp, nde in *.
  destruct (DenseProofs3.times_mat_trans_local_ok K is_one is_one_ok beta (todm K W) f1 (m_de M) (m_de X)) as (D & ED & HD); try (cbn; congruence); auto using good_todm; try (cbn; lia).
  rewrite ED. destruct (ofdm_ok W D _ HD) as (A & B & C & E).
  destruct (SparseProps.C26_times_mat_trans K (m_sp M) f1 (ofdm K D) f1 (m_sp X)) as (W' & EW & A' & B' & C' & E'); auto; try congruence.
  exists W'. split; [exact EW|]. split; [congruence|]. split; [congruence|]. split; [exact C'|]. intros p r Hp Hr.
  rewrite E' by congruence. rewrite E by congruence. cbn [DenseModel.dm todm]. rewrite W1, (proj2 (Nat.ltb_lt _ _)) by exact Hp.
  rewrite el_todm. rewrite DenseProofs3.dot_lrow by (unfold DenseSpec.lrow; rewrite map_length, seq_length; congruence).
  rewrite DenseProofs4.sumn_split.
  rewrite (sumn_ext K (t_n (m_sp M)) (fun c => ent M p c *! ent X r c) (fun c => mat (t_ent (m_sp M)) p c *! mat (t_ent (m_sp X)) r c)).
  2:{ intros c Hc. unfold ent, nsp. rewrite <- N1. rewrite (proj2 (Nat.ltb_lt _ _)) by exact Hc. reflexivity. }
  rewrite (sumn_ext K (DenseModel.dn (m_de M)) (fun i => ent M p (t_n (m_sp M) + i) *! ent X r (t_n (m_sp M) + i)) (fun j => DenseSpec.el (m_de M) p j *! nth j (DenseSpec.lrow (m_de X) r) f0)).
  2:{ intros c Hc. unfold ent, nsp. rewrite <- N1. rewrite (proj2 (Nat.ltb_ge _ _)) by lia. replace (t_n (m_sp M) + c - t_n (m_sp M)) with c by lia.
      f_equal. unfold DenseSpec.lrow. rewrite nth_indep with (d' := DenseSpec.el (m_de X) r 0) by (rewrite map_length, seq_length; lia).
      rewrite map_nth, seq_nth by lia. reflexivity. }
  ring.
Qed.

Lemma trans_add_ok m (M : mds K) rs cs alpha W : okm m M -> dwf W -> d_m W = d_n W -> rs + (nsp M + nde M) <= S cs -> cs + m <= d_n W -> 0 < m ->
  exists W', trans_add K M rs cs alpha W = Some W' /\ d_m W' = d_m W /\ d_n W' = d_n W /\ dwf W' /\
    forall p r, p < d_m W -> r < d_n W -> dmat W' p r = dmat W p r +!
      (if (rs <=? p) && (p <? rs + (nsp M + nde M)) && (cs <=? r) && (r <? cs + m) then alpha *! ent M (r - cs) (p - rs) else f0).
Proof.
  intros O HW Sq Hr Hc Hm. pose proof O as (WM & MM & GM & DM). unfold trans_add, nsp, nde in *.
  destruct (SparseProps.C26_trans_add K (m_sp M) rs cs alpha W WM HW Sq) as (W1 & E1 & A1 & B1 & C1 & H1); [lia|lia| |].
  { intros e He. destruct (WM e He). lia. }
  rewrite E1. destruct (DenseProofs2.trans_add_upper_ok K (m_de M) (todm K W1) (rs + t_n (m_sp M)) cs alpha GM (good_todm _ C1)) as (D & ED & HD); try (cbn; lia).
  rewrite ED. cbn [option_map]. destruct (ofdm_ok W1 D _ HD) as (A & B & C & E).
  eexists. split; [reflexivity|]. split; [congruence|]. split; [congruence|]. split; [exact C|].
  intros p r Hp Hq. rewrite E by congruence. rewrite !el_todm. rewrite H1 by assumption. unfold ent, nsp.
  assert (Zm : forall a b, m <= a \/ t_n (m_sp M) <= b -> mat (t_ent (m_sp M)) a b = f0).
  { intros a b Hab. unfold mat. apply lsum_zero. intros e He. destruct (WM e He). destruct (Nat.eqb_spec (row e) a); destruct (Nat.eqb_spec (col e) b); cbn; try reflexivity. lia. }
  rewrite DM. replace (p - (rs + t_n (m_sp M))) with (p - rs - t_n (m_sp M)) by lia.
  destruct (Nat.leb_spec rs p); destruct (Nat.leb_spec cs r); destruct (Nat.ltb_spec r (cs + m)); destruct (Nat.leb_spec (rs + t_n (m_sp M)) p);
  destruct (Nat.ltb_spec p (rs + t_n (m_sp M) + DenseModel.dn (m_de M))); destruct (Nat.ltb_spec p (rs + (t_n (m_sp M) + DenseModel.dn (m_de M))));
  destruct (Nat.ltb_spec (p - rs) (t_n (m_sp M))); cbn [andb]; try lia; try ring; try (rewrite (Zm (r - cs) (p - rs)) by lia; ring).
Qed.

Lemma scale_ok m (M : mds K) v inv : okm m M -> length v = m ->
  exists M', scale_row K M v inv = Some M' /\ okm m M' /\ nsp M' = nsp M /\ nde M' = nde M /\
    forall i j, i < m -> j < nsp M + nde M -> ent M' i j = (if inv then f1 /! at_ v i else at_ v i) *! ent M i j.
Proof.
  intros O Hv. pose proof O as (WM & MM & GM & DM). unfold scale_row.
  destruct (SparseProps.C24_row_scaling K (m_sp M) v inv WM) as (s & E1 & A1 & B1 & C1 & H1); [congruence|]. rewrite E1.
  destruct (DenseProofs2.scale_row_ok K (m_de M) v inv GM) as (d & E2 & (A2 & B2 & C2 & G2 & H2)); [congruence|]. rewrite E2.
  exists (Mds s d). split; [reflexivity|]. split; [|split; [exact B1|split; [exact B2|]]].
  - split; [|repeat split; cbn; try congruence; try apply G2]. cbn. intros e He.
    assert (In (row e, col e) (map (fun e => (row e, col e)) (t_ent (m_sp M)))) as I.
    { rewrite <- C1. apply in_map_iff. exists e. auto. }
    apply in_map_iff in I. destruct I as (e' & Ee & I). injection Ee as Er Ec. destruct (WM e' I). rewrite A1, B1. lia.
  - intros i j Hi Hj. unfold ent, nsp, nde in *. cbn [m_sp m_de]. rewrite B1. destruct (Nat.ltb_spec j (t_n (m_sp M))).
    + rewrite H1. ring.
    + destruct GM as [_ GM]. rewrite H2 by lia. rewrite (proj2 (Nat.ltb_lt i _)) by lia. reflexivity.
Qed.

Lemma sym_times_vec_ok (M : mds K) beta y alpha x : oks M -> length x = nsp M + nde M -> length y = nsp M + nde M ->
  exists y', sym_times_vec K is_one M beta y alpha x = Some y' /\ length y' = nsp M + nde M /\
    forall i, i < nsp M + nde M -> at_ y' i = beta *! at_ y i +! alpha *! sumn (nsp M + nde M) (fun j => sent M i j *! at_ x j).
Proof.
  intros (W & Sq & G & Dq) Hx Hy. unfold sym_times_vec. cbv zeta. unfold nsp, nde in *. rewrite Hx, Hy, Nat.eqb_refl. cbn [andb].
  destruct (len_first x _ _ Hx) as [L1 L2]. destruct (len_first y _ _ Hy) as [L3 L4].
  destruct (SparseProps.C24_sym_times_vec K (m_sp M) beta (firstn (t_n (m_sp M)) y) alpha (firstn (t_n (m_sp M)) x) W) as (a & E1 & Y1 & H1); try congruence. rewrite E1.
  unfold DenseModel.times_vec_serial.
  destruct (DenseProofs3.times_vec_local_ok K is_one is_one_ok true beta (skipn (t_n (m_sp M)) y) alpha (m_de M) (skipn (t_n (m_sp M)) x) G L2) as (b & E2 & Y2 & H2); [congruence|]. rewrite E2.
  exists (a ++ b). split; [reflexivity|]. split; [rewrite app_length; lia|]. intros i Hi. rewrite at_app, Y1, Sq.
  rewrite DenseProofs4.sumn_split. destruct (Nat.ltb_spec i (t_n (m_sp M))) as [L|L].
  - rewrite H1 by lia. rewrite at_firstn by exact L.
    rewrite (sumn_zero K (DenseModel.dn (m_de M))).
    2:{ intros j Hj. unfold sent, nsp. rewrite (proj2 (Nat.ltb_ge (t_n (m_sp M) + j) _)) by lia. rewrite andb_false_r.
        rewrite (proj2 (Nat.leb_gt (t_n (m_sp M)) i)) by exact L. cbn [andb]. ring. }
    rewrite (sumn_ext K (t_n (m_sp M)) (fun j => symmat (t_ent (m_sp M)) i j *! at_ (firstn (t_n (m_sp M)) x) j) (fun j => sent M i j *! at_ x j)).
    2:{ intros j Hj. rewrite at_firstn by exact Hj. unfold sent, nsp. rewrite (proj2 (Nat.ltb_lt i _)), (proj2 (Nat.ltb_lt j _)) by assumption. reflexivity. }
    ring.
  - change (at_ b (i - t_n (m_sp M))) with (nth (i - t_n (m_sp M)) b f0). rewrite H2 by lia. rewrite nth_skipn. replace (t_n (m_sp M) + (i - t_n (m_sp M))) with i by lia.
    rewrite DenseProofs3.dot_lrow by exact L2. rewrite (sumn_zero K (t_n (m_sp M))).
    2:{ intros j Hj. unfold sent, nsp. rewrite (proj2 (Nat.ltb_ge i _)) by exact L. cbn [andb]. rewrite (proj2 (Nat.leb_gt _ j)) by exact Hj. rewrite andb_false_r. ring. }
    rewrite (sumn_ext K (DenseModel.dn (m_de M)) (fun j => DenseSpec.el (m_de M) (i - t_n (m_sp M)) j *! nth j (skipn (t_n (m_sp M)) x) f0) (fun j => sent M i (t_n (m_sp M) + j) *! at_ x (t_n (m_sp M) + j))).
    2:{ intros j Hj. rewrite nth_skipn. unfold sent, nsp. rewrite (proj2 (Nat.ltb_ge i _)) by exact L. cbn [andb].
        rewrite (proj2 (Nat.leb_le _ i)) by exact L. rewrite (proj2 (Nat.leb_le _ (t_n (m_sp M) + j))) by lia. cbn [andb]. replace (t_n (m_sp M) + j - t_n (m_sp M)) with j by lia. reflexivity. }
    ring.
Qed.

Lemma add_upper_ok (M : mds K) st alpha W : oks M -> (forall e, In e (t_ent (m_sp M)) -> row e <= col e) -> dwf W -> d_m W = d_n W -> st + (nsp M + nde M) <= d_m W ->
  exists W', add_upper K M st alpha W = Some W' /\ d_m W' = d_m W /\ d_n W' = d_n W /\ dwf W' /\
    forall p r, p < d_m W -> r < d_n W -> dmat W' p r = dmat W p r +!
      (if (st <=? p) && (p <=? r) && (r <? st + (nsp M + nde M)) then alpha *! sent M (p - st) (r - st) else f0).
Proof.
  intros (WM & Sq & G & Dq) Up HW Sw Hs. unfold add_upper, nsp, nde in *. rewrite Sq, Nat.eqb_refl.
  destruct (SparseProps.C26_add_upper K (m_sp M) st alpha W WM HW Sw) as (W1 & E1 & A1 & B1 & C1 & H1); [lia|lia|exact Up|]. rewrite E1.
  destruct (DenseProofs2.add_upper_ok K (m_de M) (todm K W1) (st + t_n (m_sp M)) alpha G (good_todm _ C1)) as (D & ED & HD); try (cbn; lia).
  rewrite ED. cbn [option_map]. destruct (ofdm_ok W1 D _ HD) as (A & B & C & E).
  eexists. split; [reflexivity|]. split; [congruence|]. split; [congruence|]. split; [exact C|].
  intros p r Hp Hq. rewrite E by congruence. rewrite !el_todm. rewrite H1 by assumption. unfold sent, nsp.
  assert (Zm : forall a b, b < a \/ t_n (m_sp M) <= a \/ t_n (m_sp M) <= b -> mat (t_ent (m_sp M)) a b = f0).
  { intros a b Hab. unfold mat. apply lsum_zero. intros e He. destruct (WM e He). specialize (Up e He). destruct (Nat.eqb_spec (row e) a); destruct (Nat.eqb_spec (col e) b); cbn; try reflexivity. lia. }
  assert (Sy : forall a b, a <= b -> symmat (t_ent (m_sp M)) a b = mat (t_ent (m_sp M)) a b).
  { intros a b Hab. unfold symmat. destruct (Nat.eqb_spec a b) as [->|]; [reflexivity|]. rewrite (Zm b a) by lia. ring. }
  replace (p - (st + t_n (m_sp M))) with (p - st - t_n (m_sp M)) by lia. replace (r - (st + t_n (m_sp M))) with (r - st - t_n (m_sp M)) by lia.
  destruct (Nat.leb_spec st p); destruct (Nat.leb_spec p r); cbn [andb].
  - rewrite Sy by lia. rewrite (proj2 (Nat.leb_le st r)) by lia.
    destruct (Nat.leb_spec (st + t_n (m_sp M)) p); destruct (Nat.ltb_spec r (st + t_n (m_sp M) + DenseModel.dn (m_de M))); destruct (Nat.ltb_spec r (st + (t_n (m_sp M) + DenseModel.dn (m_de M))));
    destruct (Nat.ltb_spec (p - st) (t_n (m_sp M))); destruct (Nat.ltb_spec (r - st) (t_n (m_sp M))); destruct (Nat.leb_spec (t_n (m_sp M)) (p - st)); destruct (Nat.leb_spec (t_n (m_sp M)) (r - st)); cbn [andb]; try lia; try reflexivity;
    try (rewrite (Zm (p - st) (r - st)) by lia; ring).
  - destruct (Nat.leb_spec (st + t_n (m_sp M)) p); cbn [andb]; destruct (Nat.leb_spec st r); try ring; rewrite (Zm (p - st) (r - st)) by lia; ring.
  - rewrite (proj2 (Nat.leb_gt (st + t_n (m_sp M)) p)) by lia. cbn [andb]. reflexivity.
  - rewrite (proj2 (Nat.leb_gt (st + t_n (m_sp M)) p)) by lia. cbn [andb]. reflexivity.
Qed.
End P.
