From Coq Require Import List Bool Arith Lia Ring Field.
From Verif Require Import RingKit DenseModel DenseSpec DenseProofs DenseProofs2.
Import ListNotations.
Open Scope nat_scope.

Section P3.
Variable K : cfield.
Add Field KF3 : (fth K).
Variable is_one : K -> bool.
Hypothesis is_one_ok : forall b, is_one b = true -> b = f1.
Notation L := (list K).
Notation eb := (eb K).

Lemma lrow_len (M : dmat K) i : length (lrow M i) = dn M.
Proof. unfold lrow. rewrite map_length, seq_length. reflexivity. Qed.
Lemma dot_app (a b x y : L) : length a = length x -> dot (a ++ b) (x ++ y) = dot a x +! dot b y.
Proof.
  revert x. induction a as [|u a IH]; intros [|v x] H; cbn in *; try discriminate; [ring|]. rewrite IH by lia. ring.
Qed.
Lemma sumn_0 f : sumn 0 f = (f0 : K). Proof. reflexivity. Qed.
Lemma sumn_Sl n (f : nat -> K) : sumn (S n) f = f 0 +! sumn n (fun i => f (S i)).
Proof. unfold sumn. cbn [seq map lsum]. rewrite <- seq_shift, map_map. reflexivity. Qed.
Lemma dot_sumn n (f : nat -> K) x : length x = n -> dot (map f (seq 0 n)) x = sumn n (fun j => f j *! nth j x f0).
Proof.
  revert f x. induction n as [|n IH]; intros f [|v x] H; try discriminate; [reflexivity|].
  rewrite sumn_Sl. cbn [seq map dot nth]. rewrite <- seq_shift, map_map. rewrite IH by (cbn in H; lia). reflexivity.
Qed.
Lemma dot_lrow (M : dmat K) i x : length x = dn M -> dot (lrow M i) x = sumn (dn M) (fun j => el M i j *! nth j x f0).
Proof. intro H. apply dot_sumn. exact H. Qed.
Lemma dot_nil_r (a : L) : dot a [] = f0. Proof. destruct a; reflexivity. Qed.

(** the local part of timesVec *)
Lemma times_vec_local_ok (rank0 : bool) beta y alpha (M : dmat K) x : good M -> length x = dn M -> length y = dm M ->
  exists y', times_vec_local K is_one rank0 beta y alpha M x = Some y' /\ length y' = dm M /\
    forall i, i < dm M -> nth i y' f0 = (if rank0 then beta else f0) *! nth i y f0 +! alpha *! dot (lrow M i) x.
Proof.
  intros [G1 G2] Hx Hy. unfold times_vec_local. set (bt := if rank0 then beta else f0).
  destruct (dm M =? 0) eqn:Em; cbn [negb andb].
  { apply Nat.eqb_eq in Em. exists y. split; [reflexivity|]. split; [lia|]. intros; lia. }
  apply Nat.eqb_neq in Em. destruct (dn M =? 0) eqn:En; cbn [negb].
  { apply Nat.eqb_eq in En. assert (D : forall i, dot (lrow M i) x = f0).
    { intro i. rewrite dot_lrow by lia. rewrite En. reflexivity. }
    destruct (is_one bt) eqn:E1.
    - apply is_one_ok in E1. exists y. split; [reflexivity|]. split; [exact Hy|]. intros i Hi. rewrite D, E1. ring.
    - unfold dscal. rewrite (proj2 (Nat.leb_le _ _)) by lia. eexists. split; [reflexivity|]. rewrite tab_len. split; [exact Hy|].
      intros i Hi. rewrite tab_nth by lia. cbn [Nat.leb andb Nat.add]. rewrite (proj2 (Nat.ltb_lt _ _)) by lia. rewrite D. ring. }
  apply Nat.eqb_neq in En. unfold dgemv.
  rewrite (proj2 (Nat.leb_le (Nat.max 1 (dn M)) (dn M))) by lia.
  rewrite (proj2 (Nat.leb_le (dn M) (length x))) by lia. rewrite (proj2 (Nat.leb_le (dm M) (length y))) by lia.
  assert (F : fits (dn M) (dm M) (dn M) (length (dbuf M)) = true).
  { unfold fits. apply orb_true_iff. right. apply Nat.leb_le. rewrite G1.
    replace ((dm M - 1) * dn M + dn M) with (dm M * dn M). { apply Nat.mul_le_mono_r. lia. }
    destruct (dm M) as [|m]; [lia|]. cbn. rewrite Nat.sub_0_r. lia. }
  rewrite F. cbn [andb]. rewrite (proj2 (Nat.eqb_neq (dn M) 0)), (proj2 (Nat.eqb_neq (dm M) 0)) by lia. cbn [orb].
  eexists. split; [reflexivity|]. rewrite tab_len. split; [exact Hy|]. intros i Hi. rewrite tab_nth by lia.
  rewrite (proj2 (Nat.ltb_lt _ _) Hi). rewrite dot_lrow by lia. do 2 f_equal. apply sumn_ext. intros l Hl. unfold cm, el.
  f_equal. f_equal. lia.
Qed.

Lemma every_map {A B} (f : A -> option B) (P : A -> B -> Prop) l :
  (forall a, In a l -> exists b, f a = Some b /\ P a b) -> exists bs, every f l = Some bs /\ Forall2 P l bs.
Proof.
  induction l as [|a l IH]; intro H.
  - exists []. split; [reflexivity|constructor].
  - destruct (H a (or_introl eq_refl)) as (b & E & Pb). destruct IH as (bs & E2 & F). { intros; apply H; right; auto. }
    exists (b :: bs). cbn. rewrite E. cbn. rewrite E2. cbn. split; [reflexivity|constructor; auto].
Qed.

Lemma F2len {A B} (P : A -> B -> Prop) l l' : Forall2 P l l' -> length l = length l'.
Proof. induction 1; cbn; congruence. Qed.

Lemma grow_cons (M : dmat K) Ms i : grow (M :: Ms) i = lrow M i ++ grow Ms i. Proof. reflexivity. Qed.

Lemma rest_sum alpha m (rest : list (vrank K)) (ys : list L) i : vranks m rest -> i < m ->
  Forall2 (fun r y' => length y' = m /\ forall i, i < m -> nth i y' f0 = f0 *! nth i (v_y r) f0 +! alpha *! dot (lrow (v_M r) i) (v_x r)) rest ys ->
  lsum (map (fun y => nth i y f0) ys) = alpha *! dot (grow (map v_M rest) i) (concat (map v_x rest)).
Proof.
  intros HV Hi F. induction F as [|r y' rest ys [HL HE] F IH].
  - cbn. ring.
  - cbn [map lsum concat]. rewrite grow_cons, IH by (intros r' Hr'; apply HV; right; auto). rewrite dot_app.
    2: { rewrite lrow_len. destruct (HV r (or_introl eq_refl)) as (_ & _ & H & _). auto. }
    rewrite HE by lia. ring.
Qed.

Theorem times_vec_ok beta alpha (r0 : vrank K) rest m : vranks m (r0 :: rest) -> 0 < m ->
  exists ys, times_vec K is_one beta alpha (r0 :: rest) = Some ys /\ length ys = S (length rest) /\
    forall y', In y' ys -> length y' = m /\
      forall i, i < m -> nth i y' f0 = beta *! nth i (v_y r0) f0 +!
        alpha *! dot (grow (map v_M (r0 :: rest)) i) (concat (map v_x (r0 :: rest))).
Proof.
  intros HV Hm. unfold times_vec. destruct (HV r0 (or_introl eq_refl)) as (G0 & M0 & X0 & Y0).
  destruct (times_vec_local_ok true beta (v_y r0) alpha (v_M r0) (v_x r0) G0 X0) as (y0 & E0 & L0 & H0); [lia|].
  rewrite E0. cbn [bind].
  destruct (every_map (fun r => times_vec_local K is_one false beta (v_y r) alpha (v_M r) (v_x r))
    (fun r y' => length y' = m /\ forall i, i < m -> nth i y' f0 = f0 *! nth i (v_y r) f0 +! alpha *! dot (lrow (v_M r) i) (v_x r)) rest)
    as (ys & E1 & F).
  { intros r Hr. destruct (HV r (or_intror Hr)) as (G1 & M1 & X1 & Y1).
    destruct (times_vec_local_ok false beta (v_y r) alpha (v_M r) (v_x r) G1 X1) as (y' & E & Ln & H); [lia|].
    exists y'. split; [exact E|]. split; [lia|]. intros i Hi. rewrite H by lia. reflexivity. }
  rewrite E1. cbn [bind]. rewrite M0, (proj2 (Nat.eqb_neq m 0)) by lia. cbv zeta.
  set (g := reduce K m (y0 :: ys)).
  assert (Gi : forall i, i < m -> nth i g f0 = beta *! nth i (v_y r0) f0 +! alpha *! dot (grow (map v_M (r0 :: rest)) i) (concat (map v_x (r0 :: rest)))).
  { intros i Hi. unfold g, reduce. rewrite tab_nth by lia. cbn [map lsum concat]. rewrite (rest_sum alpha m rest ys i); auto.
    2: { intros r Hr. apply HV. right. exact Hr. }
    rewrite grow_cons, dot_app by (rewrite lrow_len; auto). rewrite H0 by lia. ring. }
  assert (Lg : length g = m) by apply tab_len.
  destruct (every_map (vec_back K m g) (fun _ y' => length y' = m /\ forall i, i < m -> nth i y' f0 = nth i g f0) (y0 :: ys)) as (zs & E2 & F2).
  { intros y Hy. assert (Ly : length y = m).
    { destruct Hy as [<-|Hy]; [lia|]. clear -F Hy. induction F as [|r y' rest ys [HL _] F IH]; [destruct Hy|].
      destruct Hy as [<-|Hy]; auto. }
    unfold vec_back. destruct (cpy_some K y 0 g 0 m) as (d & E & Ln & H); try lia. exists d. split; [exact E|]. split; [lia|].
    intros i Hi. rewrite H. cbn [Nat.leb andb Nat.add]. rewrite (proj2 (Nat.ltb_lt _ _) Hi), Nat.sub_0_r. reflexivity. }
  exists zs. split; [exact E2|]. pose proof (F2len _ _ _ F2) as FL. cbn in FL. pose proof (F2len _ _ _ F) as FL1. split; [lia|].
  intros y' Hy'. clear - F2 Hy' Gi. revert F2. generalize (y0 :: ys). induction zs as [|z zs IH]; intros l F2; [destruct Hy'|].
  destruct l as [|a l]; [inversion F2|]. assert (HH : (length z = m /\ (forall i, i < m -> nth i z f0 = nth i g f0)) /\ Forall2 (fun _ y' => length y' = m /\ forall i, i < m -> nth i y' f0 = nth i g f0) l zs) by (inversion F2; auto). destruct HH as [[HL HE] F']. destruct Hy' as [<-|Hy'].
  - split; [exact HL|]. intros i Hi. rewrite HE, Gi by lia. reflexivity.
  - eapply IH; eauto.
Qed.

Theorem times_vec_norows beta alpha (r0 : vrank K) rest : vranks 0 (r0 :: rest) ->
  times_vec K is_one beta alpha (r0 :: rest) = Some (map v_y (r0 :: rest)).
Proof.
  intro HV. unfold times_vec. destruct (HV r0 (or_introl eq_refl)) as (G0 & M0 & X0 & Y0).
  unfold times_vec_local at 1. rewrite M0. cbn [Nat.eqb negb andb bind].
  assert (E : every (fun r => times_vec_local K is_one false beta (v_y r) alpha (v_M r) (v_x r)) rest = Some (map v_y rest)).
  { assert (HR : forall r, In r rest -> dm (v_M r) = 0) by (intros r Hr; destruct (HV r (or_intror Hr)) as (_ & H & _); auto).
    clear -HR. induction rest as [|r rest IH]; [reflexivity|]. cbn [every map]. unfold times_vec_local at 1.
    rewrite (HR r (or_introl eq_refl)). cbn [Nat.eqb negb andb bind]. rewrite IH by (intros; apply HR; right; auto). reflexivity. }
  rewrite E. reflexivity.
Qed.

Lemma trans_times_vec_ok beta y alpha (M : dmat K) x : good M -> length x = dm M -> length y = dn M ->
  exists y', trans_times_vec K beta y alpha M x = Some y' /\ length y' = dn M /\
    forall j, j < dn M -> nth j y' f0 = beta *! nth j y f0 +! alpha *! sumn (dm M) (fun i => el M i j *! nth i x f0).
Proof.
  intros [G1 G2] Hx Hy. unfold trans_times_vec. destruct (dn M =? 0) eqn:En.
  { apply Nat.eqb_eq in En. rewrite andb_false_r. exists y. split; [reflexivity|]. split; [lia|]. intros; lia. }
  apply Nat.eqb_neq in En. rewrite andb_true_r. destruct (dm M =? 0) eqn:Em; cbn [negb].
  { apply Nat.eqb_eq in Em. unfold dscal. rewrite (proj2 (Nat.leb_le _ _)) by lia. eexists. split; [reflexivity|]. rewrite tab_len. split; [exact Hy|].
    intros i Hi. rewrite tab_nth by lia. cbn [Nat.leb andb Nat.add]. rewrite (proj2 (Nat.ltb_lt _ _)) by lia. rewrite Em, sumn_0. ring. }
  apply Nat.eqb_neq in Em. unfold dgemv.
  rewrite (proj2 (Nat.leb_le (Nat.max 1 (dn M)) (dn M))) by lia.
  rewrite (proj2 (Nat.leb_le (dm M) (length x))) by lia. rewrite (proj2 (Nat.leb_le (dn M) (length y))) by lia.
  assert (F : fits (dn M) (dm M) (dn M) (length (dbuf M)) = true).
  { unfold fits. apply orb_true_iff. right. apply Nat.leb_le. rewrite G1.
    replace ((dm M - 1) * dn M + dn M) with (dm M * dn M). { apply Nat.mul_le_mono_r. lia. }
    destruct (dm M) as [|m]; [lia|]. cbn. rewrite Nat.sub_0_r. lia. }
  rewrite F. cbn [andb]. rewrite (proj2 (Nat.eqb_neq (dn M) 0)), (proj2 (Nat.eqb_neq (dm M) 0)) by lia. cbn [orb].
  eexists. split; [reflexivity|]. rewrite tab_len. split; [exact Hy|]. intros i Hi. rewrite tab_nth by lia.
  rewrite (proj2 (Nat.ltb_lt _ _) Hi). do 2 f_equal. apply sumn_ext. intros l Hl. unfold cm, el. f_equal. f_equal. lia.
Qed.

(** a column-major product written into the first rows of a row-major buffer *)
Lemma fits_rows r c len : 0 < c -> c * r <= len -> fits r c r len = true.
Proof.
  intros Hc H. unfold fits. apply orb_true_iff. right. apply Nat.leb_le. destruct c as [|c]; [lia|]. cbn in *. rewrite Nat.sub_0_r. lia.
Qed.
Lemma fits_any r c len : c * r <= len -> fits r c r len = true.
Proof. intro H. destruct c as [|c]; [unfold fits; cbn; rewrite orb_true_r; reflexivity|]. apply fits_rows; lia. Qed.
Lemma divmod_idx n i j : j < n -> (i * n + j) mod n = j /\ (i * n + j) / n = i.
Proof.
  intro H. split.
  - rewrite Nat.add_comm, Nat.mod_add by lia. apply Nat.mod_small. exact H.
  - rewrite Nat.div_add_l by lia. rewrite Nat.div_small by lia. lia.
Qed.
Lemma dgemm_el (ta tb : bool) m n k alpha (a : L) lda (b : L) ldb beta (c : L) rows :
  let ra := if ta then k else m in let ca := if ta then m else k in
  let rb := if tb then n else k in let cb := if tb then k else n in
  Nat.max 1 ra <= lda -> Nat.max 1 rb <= ldb -> 1 <= m -> fits ra ca lda (length a) = true -> fits rb cb ldb (length b) = true ->
  length c = rows * m -> n <= rows ->
  exists c', dgemm K ta tb m n k alpha a lda b ldb beta c m = Some c' /\ length c' = length c /\
    forall i j, i < rows -> j < m -> eb m c' i j = if i <? n then
      beta *! eb m c i j +! alpha *! sumn k (fun l => (if ta then cm K a lda l j else cm K a lda j l) *! (if tb then cm K b ldb i l else cm K b ldb l i))
      else eb m c i j.
Proof.
  intros ra ca rb cb H1 H2 H3 H4 H5 H6 H7. unfold dgemm. fold ra ca rb cb.
  rewrite (proj2 (Nat.leb_le _ _) H1), (proj2 (Nat.leb_le _ _) H2), H4, H5, (proj2 (Nat.leb_le (Nat.max 1 m) m)) by lia.
  rewrite fits_any by (rewrite H6; apply Nat.mul_le_mono_r; lia). cbn [andb]. eexists. split; [reflexivity|]. split; [apply tab_len|].
  intros i j Hi Hj. unfold DenseProofs.eb. rewrite tab_nth by (rewrite H6; apply idx_lt; lia).
  destruct (divmod_idx m i j Hj) as [-> ->]. rewrite (proj2 (Nat.ltb_lt _ _) Hj). cbn [andb]. reflexivity.
Qed.

Lemma times_mat_local_ok beta (W : dmat K) alpha (M X : dmat K) : good W -> good M -> good X ->
  dm W = dm M -> dm X = dn M -> dn W = dn X -> 0 < dn M -> 0 < dn X ->
  exists W', times_mat_local K beta W alpha M X = Some W' /\
    entries W W' (fun i j => if i <? dm W then beta *! el W i j +! alpha *! sumn (dn M) (fun l => el M i l *! el X l j) else el W i j).
Proof.
  intros G [GM1 GM2] [GX1 GX2] H1 H2 H3 Hn Hx. pose proof G as [G1 G2]. unfold times_mat_local.
  destruct (dgemm_el false false (dn X) (dm M) (dm X) alpha (dbuf X) (dn X) (dbuf M) (dn M) beta (dbuf W) (dmax W)) as (b & E & Ln & Hb); try lia.
  { apply fits_any. rewrite GX1. apply Nat.mul_le_mono_r. lia. }
  { rewrite H2. apply fits_any. rewrite GM1. apply Nat.mul_le_mono_r. lia. }
  rewrite E. cbn [bind]. eexists. split; [reflexivity|]. apply entries_setbuf; auto.
  intros i j Hi Hj. rewrite H3. rewrite Hb by lia. rewrite H1. destruct (i <? dm M); [|unfold el; rewrite H3; reflexivity].
  unfold el at 1. rewrite H3, H2. unfold DenseProofs.eb. do 2 f_equal. apply sumn_ext. intros l Hl. unfold cm, el.
  rewrite (Nat.add_comm j), (Nat.add_comm l). ring.
Qed.

Lemma trans_times_mat_ok beta (W : dmat K) alpha (M X : dmat K) : good W -> good M -> good X ->
  dm W = dn M -> dm X = dm M -> dn W = dn X -> 0 < dn X \/ dn M = 0 ->
  exists W', trans_times_mat K beta W alpha M X = Some W' /\
    entries W W' (fun i j => if i <? dm W then beta *! el W i j +! alpha *! sumn (dm M) (fun l => el M l i *! el X l j) else el W i j).
Proof.
  intros G [GM1 GM2] [GX1 GX2] H1 H2 H3 Hx. pose proof G as [G1 G2]. unfold trans_times_mat.
  rewrite (proj2 (Nat.eqb_eq _ _) H1), (proj2 (Nat.eqb_eq _ _) H2). cbn [andb].
  destruct (dm W =? 0) eqn:E0.
  { apply Nat.eqb_eq in E0. exists W. split; [reflexivity|]. repeat split; auto. intros i j Hi Hj. rewrite E0. reflexivity. }
  apply Nat.eqb_neq in E0. rewrite H3.
  destruct (dgemm_el false true (dn X) (dn M) (dm X) alpha (dbuf X) (dn X) (dbuf M) (dn M) beta (dbuf W) (dmax W)) as (b & E & Ln & Hb); try lia.
  { apply fits_any. rewrite GX1. apply Nat.mul_le_mono_r. lia. }
  { apply fits_any. rewrite GM1. apply Nat.mul_le_mono_r. lia. }
  rewrite E. cbn [bind]. eexists. split; [reflexivity|]. apply entries_setbuf; auto.
  intros i j Hi Hj. rewrite H3. rewrite Hb by lia. rewrite H1. destruct (i <? dn M); [|unfold el; rewrite H3; reflexivity].
  unfold el at 1. rewrite H3, H2. unfold DenseProofs.eb. do 2 f_equal. apply sumn_ext. intros l Hl. unfold cm, el.
  rewrite (Nat.add_comm j), (Nat.add_comm i). ring.
Qed.

Lemma times_mat_trans_local_ok beta (W : dmat K) alpha (M X : dmat K) : good W -> good M -> good X ->
  dm W = dm M -> dn W = dm X -> dn M = dn X -> 0 < dm W -> 0 < dn W ->
  exists W', times_mat_trans_local K is_one beta W alpha M X = Some W' /\
    entries W W' (fun i j => if i <? dm W then beta *! el W i j +! alpha *! dot (lrow M i) (lrow X j) else el W i j).
Proof.
  intros G [GM1 GM2] [GX1 GX2] H1 H2 H3 Hm Hw. pose proof G as [G1 G2]. unfold times_mat_trans_local.
  rewrite (proj2 (Nat.eqb_neq (dm W) 0)), (proj2 (Nat.eqb_neq (dn W) 0)) by lia.
  assert (D : forall i j, dot (lrow M i) (lrow X j) = sumn (dn M) (fun l => el M i l *! el X j l)).
  { intros i j. rewrite dot_lrow by (rewrite lrow_len; lia). apply sumn_ext. intros l Hl. f_equal. unfold lrow.
    change (map (el X j) (seq 0 (dn X))) with (tab K (dn X) (el X j)). rewrite tab_nth by lia. reflexivity. }
  destruct (dn M =? 0) eqn:En.
  - apply Nat.eqb_eq in En. destruct (is_one beta) eqn:E1.
    + apply is_one_ok in E1. exists W. split; [reflexivity|]. repeat split; auto. intros i j Hi Hj.
      destruct (i <? dm W); [|reflexivity]. rewrite D, En, sumn_0, E1. ring.
    + unfold dscal. rewrite (proj2 (Nat.leb_le _ _)) by (rewrite G1; cbn; apply Nat.mul_le_mono_r; lia). cbn [bind].
      eexists. split; [reflexivity|]. apply entries_setbuf; auto. { apply tab_len. }
      intros i j Hi Hj. unfold DenseProofs.eb. rewrite tab_nth by (rewrite G1; apply idx_lt; lia). cbn [Nat.leb andb Nat.add].
      destruct (i <? dm W) eqn:Ei.
      * apply Nat.ltb_lt in Ei. rewrite (proj2 (Nat.ltb_lt _ _)) by (apply idx_lt; lia). rewrite D, En, sumn_0. unfold el. ring.
      * apply Nat.ltb_ge in Ei. rewrite (proj2 (Nat.ltb_ge _ _)); [reflexivity|]. pose proof (Nat.mul_le_mono_r _ _ (dn W) Ei). lia.
  - apply Nat.eqb_neq in En. rewrite H2.
    destruct (dgemm_el true false (dm X) (dm M) (dn M) alpha (dbuf X) (dn M) (dbuf M) (dn M) beta (dbuf W) (dmax W)) as (b & E & Ln & Hb); try lia.
    { apply fits_any. rewrite GX1, H3. apply Nat.mul_le_mono_r. lia. }
    { apply fits_any. rewrite GM1. apply Nat.mul_le_mono_r. lia. }
    rewrite E. cbn [bind]. eexists. split; [reflexivity|]. apply entries_setbuf; auto.
    intros i j Hi Hj. rewrite H2. rewrite Hb by lia. rewrite H1. destruct (i <? dm M); [|unfold el; rewrite H2; reflexivity].
    rewrite D. unfold el at 1. rewrite H2. unfold DenseProofs.eb. do 2 f_equal. apply sumn_ext. intros l Hl. unfold cm, el.
    rewrite (Nat.add_comm l (i * _)), (Nat.add_comm l (j * _)), H3. ring.
Qed.

Lemma rest_sum_mat alpha m k (rest : list (mrank K)) ws i j : mranks m k rest -> i < m -> j < k ->
  Forall2 (fun r W' => entries (r_W r) W' (fun i j => if i <? dm (r_W r) then f0 *! el (r_W r) i j +! alpha *! dot (lrow (r_M r) i) (lrow (r_X r) j) else el (r_W r) i j)) rest ws ->
  lsum (map (fun y => nth (i * k + j) y f0) (map dbuf ws)) = alpha *! dot (grow (map r_M rest) i) (grow (map r_X rest) j).
Proof.
  intros HV Hi Hj F. induction F as [|r W' rest ws (E1 & E2 & E3 & (E4 & E4') & E5) F IH].
  - cbn. ring.
  - cbn [map lsum]. rewrite !grow_cons, IH by (intros r' Hr'; apply HV; right; auto).
    destruct (HV r (or_introl eq_refl)) as (A1 & A2 & A3 & A4 & A5 & A6 & A7 & A8). destruct A3 as [A3 A3'].
    rewrite dot_app by (rewrite !lrow_len; auto).
    specialize (E5 i j). unfold el at 1 in E5. rewrite E2, A8, A7, (proj2 (Nat.ltb_lt _ _) Hi) in E5.
    rewrite E5 by lia. ring.
Qed.

Lemma mat_back_all m k (g : L) (tgt : nat -> nat -> K) (l : list (mrank K)) l2 : mranks m k l -> length g = m * k ->
  (forall i j, i < m -> j < k -> nth (i * k + j) g f0 = tgt i j) ->
  Forall2 (fun r W' => dm W' = dm (r_W r) /\ dn W' = dn (r_W r) /\ dmax W' = dmax (r_W r) /\ good W' /\
             forall i j, i < dmax (r_W r) -> m <= i -> j < k -> el W' i j = el (r_W r) i j) l l2 ->
  exists Ws, every (mat_back K (m * k) g) l2 = Some Ws /\
    Forall2 (fun r W' => entries (r_W r) W' (fun i j => if i <? m then tgt i j else el (r_W r) i j)) l Ws.
Proof.
  intros HV Lg Gi FA. induction FA as [|r W' l l2 (C1 & C2 & C3 & C4 & C5) FA IH].
  { exists []. split; [reflexivity|constructor]. }
  destruct IH as (Ws & EW & FW). { intros r' Hr'. apply HV. right. exact Hr'. }
  destruct (HV r (or_introl eq_refl)) as (B1 & B2 & [B3 B3'] & B4 & B5 & B6 & B7 & B8).
  destruct C4 as [C4 C4'].
  destruct (cpy_rows_el K k (dbuf W') 0 g 0 m) as (b & E & Ln & Hb).
  { rewrite C4, C2, B8. cbn. apply Nat.mul_le_mono_r. lia. } { rewrite Lg. lia. }
  cbn [Nat.mul] in E. exists (setbuf K W' b :: Ws). cbn [every]. unfold mat_back at 1. rewrite E. cbn [bind]. rewrite EW. cbn [bind].
  split; [reflexivity|]. constructor; [|exact FW].
  unfold entries, good. cbn [setbuf dm dn dmax dbuf]. split; [exact C1|]. split; [exact C2|]. split; [exact C3|]. split; [split; [lia|exact C4']|].
  intros i j Hi Hj. unfold el at 1. cbn [setbuf dn dbuf]. rewrite C2, B8. change (nth (i * k + j) b f0) with (eb k b i j). rewrite Hb by lia.
  cbn [Nat.leb andb Nat.add]. destruct (i <? m) eqn:Ei.
  - apply Nat.ltb_lt in Ei. rewrite Nat.sub_0_r. apply Gi; lia.
  - apply Nat.ltb_ge in Ei. rewrite <- (C5 i j) by lia. unfold el. rewrite C2, B8. reflexivity.
Qed.

Theorem times_mat_trans_ok beta alpha (r0 : mrank K) rest m k : mranks m k (r0 :: rest) ->
  exists Ws, times_mat_trans K is_one beta alpha (r0 :: rest) = Some Ws /\
    Forall2 (fun r W' => entries (r_W r) W' (fun i j => if i <? m then
        beta *! el (r_W r0) i j +! alpha *! dot (grow (map r_M (r0 :: rest)) i) (grow (map r_X (r0 :: rest)) j)
      else el (r_W r) i j)) (r0 :: rest) Ws.
Proof.
  intro HV. unfold times_mat_trans. destruct (HV r0 (or_introl eq_refl)) as (A1 & A2 & A3 & A4 & A5 & A6 & A7 & A8).
  rewrite A7, A8.
  destruct ((m =? 0) || (k =? 0)) eqn:E0.
  { eexists. split; [reflexivity|]. clear -HV E0. generalize (map r_M (r0 :: rest)), (map r_X (r0 :: rest)), (r_W r0). intros a b c.
    generalize dependent (r0 :: rest). intros l HV. induction l as [|r l IH]; constructor.
    - destruct (HV r (or_introl eq_refl)) as (B1 & B2 & B3 & B4 & B5 & B6 & B7 & B8). repeat split; auto; try apply B3.
      intros i j Hi Hj. apply orb_prop in E0. destruct E0 as [E0|E0]; apply Nat.eqb_eq in E0; [|lia]. subst m. reflexivity.
    - apply IH. intros r' Hr'. apply HV. right. exact Hr'. }
  apply orb_false_elim in E0. destruct E0 as [E0 E0']. apply Nat.eqb_neq in E0, E0'.
  destruct (times_mat_trans_local_ok beta (r_W r0) alpha (r_M r0) (r_X r0)) as (w0 & E1 & F0); auto; try lia.
  rewrite E1. cbn [bind].
  destruct (every_map (fun r => times_mat_trans_local K is_one f0 (r_W r) alpha (r_M r) (r_X r))
    (fun r W' => entries (r_W r) W' (fun i j => if i <? dm (r_W r) then f0 *! el (r_W r) i j +! alpha *! dot (lrow (r_M r) i) (lrow (r_X r) j) else el (r_W r) i j)) rest)
    as (ws & E2 & F).
  { intros r Hr. destruct (HV r (or_intror Hr)) as (B1 & B2 & B3 & B4 & B5 & B6 & B7 & B8).
    apply times_mat_trans_local_ok; auto; lia. }
  rewrite E2. cbn [bind]. cbv zeta. set (g := reduce K (m * k) (map dbuf (w0 :: ws))).
  assert (Lg : length g = m * k) by apply tab_len.
  assert (Gi : forall i j, i < m -> j < k -> nth (i * k + j) g f0 = beta *! el (r_W r0) i j +! alpha *! dot (grow (map r_M (r0 :: rest)) i) (grow (map r_X (r0 :: rest)) j)).
  { intros i j Hi Hj. unfold g, reduce. rewrite tab_nth by (apply idx_lt; lia). cbn [map lsum]. rewrite (rest_sum_mat alpha m k rest ws i j); auto.
    2: { intros r Hr. apply HV. right. exact Hr. }
    rewrite !grow_cons, dot_app by (rewrite !lrow_len; auto). destruct F0 as (C1 & C2 & C3 & C4 & C5). specialize (C5 i j).
    unfold el at 1 in C5. rewrite C2, A8, A7, (proj2 (Nat.ltb_lt _ _) Hi) in C5. destruct A3 as [A3 A3']. rewrite C5 by lia. ring. }
  assert (FA : Forall2 (fun r W' => dm W' = dm (r_W r) /\ dn W' = dn (r_W r) /\ dmax W' = dmax (r_W r) /\ good W' /\
             forall i j, i < dmax (r_W r) -> m <= i -> j < k -> el W' i j = el (r_W r) i j) (r0 :: rest) (w0 :: ws)).
  { constructor.
    - destruct F0 as (C1 & C2 & C3 & C4 & C5). repeat split; auto; try apply C4. intros i j Hi Hm Hj. rewrite C5 by lia.
      rewrite (proj2 (Nat.ltb_ge _ _)) by lia. reflexivity.
    - assert (HV' : mranks m k rest) by (intros r Hr; apply HV; right; exact Hr). clear -HV' F.
      induction F as [|r W' rest ws (C1 & C2 & C3 & C4 & C5) F IH]; constructor.
      + destruct (HV' r (or_introl eq_refl)) as (B1 & B2 & B3 & B4 & B5 & B6 & B7 & B8). repeat split; auto; try apply C4.
        intros i j Hi Hm Hj. rewrite C5 by lia. rewrite (proj2 (Nat.ltb_ge _ _)) by lia. reflexivity.
      + apply IH. intros r' Hr'. apply HV'. right. exact Hr'. }
  exact (mat_back_all m k g (fun i j => beta *! el (r_W r0) i j +! alpha *! dot (grow (map r_M (r0 :: rest)) i) (grow (map r_X (r0 :: rest)) j))
    (r0 :: rest) (w0 :: ws) HV Lg Gi FA).
Qed.
End P3.
