From Coq Require Import List Bool Arith Lia Ring Field Reals Lra.
From Verif Require Import RingKit DenseModel DenseSpec DenseProofs DenseProofs2 DenseProofs3.
Import ListNotations.
Open Scope nat_scope.

Section P4.
Variable K : cfield.
Add Field KF4 : (fth K).
Notation L := (list K).
Notation eb := (eb K).

Lemma set_hess_fr_ok (M H : dmat K) d : good M -> good H -> dm M = dm H -> dn M = dn H -> 0 < dmax H -> dn M <= dm M -> length d = dn M ->
  exists M', set_hess_fr K M H d = Some M' /\
    entries M M' (fun i j => (if i <? dm M then el H i j else el M i j) +! (if i =? j then nth i d f0 else f0)).
Proof.
  intros G GH Hm Hn HH Hsq Hd. unfold set_hess_fr. destruct (copy_from_ok K M H G GH Hm Hn HH) as (M1 & E1 & (A1 & A2 & A3 & A4 & A5)).
  rewrite E1. cbn [bind]. pose proof G as [G1 G2].
  destruct (add_diag_ok K M1 f1 d A4) as (M2 & E2 & (B1 & B2 & B3 & B4 & B5)). { lia. } { lia. }
  exists M2. split; [exact E2|]. split; [lia|]. split; [lia|]. split; [lia|]. split; [exact B4|].
  intros i j Hi Hj. rewrite B5, A5 by lia. destruct (i =? j); [ring|ring].
Qed.

Lemma fr_rows_ok (J M : dmat K) r0 c1 c2 b : good J -> length b = dmax M * dn M -> r0 + dm J <= dmax M ->
  dn J <= c1 -> c1 + dm J <= c2 -> c2 + dm J <= dn M ->
  exists b', fr_rows K J r0 c1 c2 M b = Some b' /\ length b' = length b /\
    forall i j, j < dn M -> eb (dn M) b' i j =
      if (r0 <=? i) && (i <? r0 + dm J) then
        (if j <? dn J then el J (i - r0) j else if j =? c1 + (i - r0) then fopp f1 else if j =? c2 + (i - r0) then f1 else eb (dn M) b i j)
      else eb (dn M) b i j.
Proof.
  intros [GJ1 GJ2] HL Hr Hc1 Hc2 Hc3. unfold fr_rows.
  destruct (loop_seq K (fun i b => bind (rowp K M (i + r0)) (fun p => bind (rowp K J i) (fun q =>
           bind (cpy K b p (dbuf J) q (dn J)) (fun b =>
           bind (upd K b (p + (c1 + i)) (fun _ => fopp f1)) (fun b => upd K b (p + (c2 + i)) (fun _ => f1))))))
    (fun k b' => length b' = length b /\ forall i j, j < dn M -> eb (dn M) b' i j =
      if (r0 <=? i) && (i <? r0 + k) then
        (if j <? dn J then el J (i - r0) j else if j =? c1 + (i - r0) then fopp f1 else if j =? c2 + (i - r0) then f1 else eb (dn M) b i j)
      else eb (dn M) b i j) 0 (dm J) b) as (b' & E & Ln & Hb).
  - split; [reflexivity|]. intros i j Hj. rewrite Nat.add_0_r. destruct (r0 <=? i) eqn:E1; cbn [andb]; [|reflexivity].
    apply Nat.leb_le in E1. rewrite (proj2 (Nat.ltb_ge i r0)) by lia. reflexivity.
  - intros k b0 Hk [L0 H0]. cbn [Nat.add]. rewrite !rowp_some by lia. cbn [bind].
    destruct (cpy_el K (dn M) b0 (k + r0) 0 (dbuf J) (k * dn J) (dn J)) as (b1 & E1 & L1 & H1).
    { rewrite L0, HL. pose proof (row_le (dn M) (dmax M) (k + r0)). lia. }
    { rewrite GJ1. apply row_le. lia. } { lia. }
    rewrite Nat.add_0_r in E1. rewrite E1. cbn [bind].
    destruct (upd_el K (dn M) b1 (k + r0) (c1 + k) (fun _ => fopp f1)) as (b2 & E2 & L2 & H2).
    { rewrite L1, L0, HL. apply idx_lt; lia. } { lia. }
    rewrite E2. cbn [bind].
    destruct (upd_el K (dn M) b2 (k + r0) (c2 + k) (fun _ => f1)) as (b3 & E3 & L3 & H3).
    { rewrite L2, L1, L0, HL. apply idx_lt; lia. } { lia. }
    exists b3. split; [exact E3|]. split; [lia|]. intros i j Hj. rewrite H3, H2, H1, H0 by lia.
    destruct (i =? k + r0) eqn:Ei; cbn [andb].
    + apply Nat.eqb_eq in Ei. subst i. rewrite (proj2 (Nat.leb_le r0 (k + r0))) by lia.
      rewrite (proj2 (Nat.ltb_lt (k + r0) (r0 + S k))) by lia. rewrite (proj2 (Nat.ltb_ge (k + r0) (r0 + k))) by lia. cbn [andb].
      replace (k + r0 - r0) with k by lia. rewrite Nat.sub_0_r. cbn [Nat.leb andb Nat.add].
      destruct (j =? c2 + k) eqn:J2.
      { apply Nat.eqb_eq in J2. rewrite (proj2 (Nat.ltb_ge j (dn J))) by lia. rewrite (proj2 (Nat.eqb_neq j (c1 + k))) by lia. reflexivity. }
      destruct (j =? c1 + k) eqn:J1.
      { apply Nat.eqb_eq in J1. rewrite (proj2 (Nat.ltb_ge j (dn J))) by lia. reflexivity. }
      destruct (j <? dn J) eqn:J3; [|reflexivity]. reflexivity.
    + apply Nat.eqb_neq in Ei. destruct (r0 <=? i) eqn:E4; cbn [andb]; [|reflexivity]. destruct (i <? r0 + k) eqn:E5.
      * apply Nat.ltb_lt in E5. rewrite (proj2 (Nat.ltb_lt i (r0 + S k))) by lia. reflexivity.
      * apply Nat.ltb_ge in E5. rewrite (proj2 (Nat.ltb_ge i (r0 + S k))) by lia. reflexivity.
  - exists b'. auto.
Qed.

Lemma set_jac_fr_last (M Jc Jd : dmat K) : good M -> good Jc -> good Jd -> dn Jc = dn Jd -> dm Jc + dm Jd = dm M -> 0 < dm M ->
  dn Jc + 2 * dm Jc + 2 * dm Jd = dn M ->
  exists M', set_jac_fr K M Jc Jd true = Some M' /\
    entries M M' (fun i j => if i <? dm M then fr_entry Jc Jd i j else el M i j).
Proof.
  intros G GC GD Hn Hm Hpos Hcols. pose proof G as [G1 G2]. unfold set_jac_fr.
  rewrite (proj2 (Nat.eqb_eq _ _) Hn), (proj2 (Nat.eqb_eq _ _) Hm). cbn [andb].
  destruct (set_const_ok K M f0 G Hpos) as (M1 & E1 & (A1 & A2 & A3 & (A4 & A4') & A5)). rewrite E1. cbn [bind]. cbv zeta.
  rewrite A2. rewrite (proj2 (Nat.eqb_eq _ _) Hcols).
  destruct (fr_rows_ok Jc M1 0 (dn Jc) (dn Jc + dm Jc) (dbuf M1) GC A4) as (b1 & E2 & L2 & H2); try lia.
  rewrite E2. cbn [bind].
  destruct (fr_rows_ok Jd M1 (dm Jc) (dn Jc + 2 * dm Jc) (dn Jc + 2 * dm Jc + dm Jd) b1 GD) as (b2 & E3 & L3 & H3); try lia.
  rewrite E3. cbn [bind]. eexists. split; [reflexivity|].
  unfold entries, good. cbn [setbuf dm dn dmax dbuf]. repeat split; try lia.
  intros i j Hi Hj. rewrite el_eb. cbn [setbuf dn dbuf]. rewrite A2 in *. rewrite H3, H2 by lia. cbn [Nat.leb andb Nat.add]. rewrite Nat.sub_0_r.
  rewrite <- A2. rewrite <- (el_eb K M1 i j), A5 by lia. unfold fr_entry. rewrite <- Hn.
  destruct (i <? dm M) eqn:Ei.
  - apply Nat.ltb_lt in Ei. destruct (i <? dm Jc) eqn:Ec.
    + apply Nat.ltb_lt in Ec. rewrite (proj2 (Nat.leb_gt (dm Jc) i)) by lia. reflexivity.
    + apply Nat.ltb_ge in Ec. rewrite (proj2 (Nat.leb_le (dm Jc) i)) by lia. rewrite (proj2 (Nat.ltb_lt i (dm Jc + dm Jd))) by lia. reflexivity.
  - apply Nat.ltb_ge in Ei. rewrite (proj2 (Nat.ltb_ge i (dm Jc + dm Jd))) by lia. rewrite andb_false_r.
    rewrite (proj2 (Nat.ltb_ge i (dm Jc))) by lia. reflexivity.
Qed.
Lemma set_jac_fr_other (M Jc Jd : dmat K) : good M -> good Jc -> good Jd -> dn Jc = dn Jd -> dm Jc + dm Jd = dm M -> 0 < dm M ->
  dn Jc = dn M ->
  exists M', set_jac_fr K M Jc Jd false = Some M' /\
    entries M M' (fun i j => if i <? dm M then fr_entry Jc Jd i j else el M i j).
Proof.
  intros G GC GD Hn Hm Hpos Hcols. pose proof G as [G1 G2]. unfold set_jac_fr.
  rewrite (proj2 (Nat.eqb_eq _ _) Hn), (proj2 (Nat.eqb_eq _ _) Hm). cbn [andb].
  destruct (set_const_ok K M f0 G Hpos) as (M1 & E1 & (A1 & A2 & A3 & A4 & A5)). rewrite E1. cbn [bind].
  pose proof GC as [GC1 GC2]. pose proof GD as [GD1 GD2].
  destruct (copy_rows_ok K M1 Jc (dm Jc) 0 A4 GC) as (M2 & E2 & (B1 & B2 & B3 & B4 & B5)); try lia.
  rewrite E2. cbn [bind].
  destruct (copy_rows_ok K M2 Jd (dm Jd) (dm Jc) B4 GD) as (M3 & E3 & (C1 & C2 & C3 & C4 & C5)); try lia.
  exists M3. split; [exact E3|]. split; [lia|]. split; [lia|]. split; [lia|]. split; [exact C4|].
  intros i j Hi Hj. rewrite C5, B5, A5 by lia. cbn [Nat.leb andb Nat.add]. rewrite Nat.sub_0_r. unfold fr_entry.
  rewrite (proj2 (Nat.ltb_lt j (dn Jc))) by lia. destruct (i <? dm M) eqn:Ei.
  - apply Nat.ltb_lt in Ei. destruct (i <? dm Jc) eqn:Ec.
    + apply Nat.ltb_lt in Ec. rewrite (proj2 (Nat.leb_gt (dm Jc) i)) by lia. reflexivity.
    + apply Nat.ltb_ge in Ec. rewrite (proj2 (Nat.leb_le (dm Jc) i)) by lia. rewrite (proj2 (Nat.ltb_lt i (dm Jc + dm Jd))) by lia. reflexivity.
  - apply Nat.ltb_ge in Ei. rewrite (proj2 (Nat.ltb_ge i (dm Jc + dm Jd))) by lia. rewrite andb_false_r.
    rewrite (proj2 (Nat.ltb_ge i (dm Jc))) by lia. reflexivity.
Qed.

(** what the restoration Jacobian means *)
Lemma sumn_split a b (f : nat -> K) : sumn (a + b) f = sumn a f +! sumn b (fun i => f (a + i)).
Proof.
  induction b as [|b IH]. { rewrite Nat.add_0_r. unfold sumn at 3. cbn. ring. }
  rewrite Nat.add_succ_r, !sumn_S, IH. ring.
Qed.
Lemma nth_app_l (a b : L) i : i < length a -> nth i (a ++ b) f0 = nth i a f0. Proof. intro. apply app_nth1. exact H. Qed.
Lemma nth_app_r (a b : L) i : nth (length a + i) (a ++ b) f0 = nth i b f0.
Proof. rewrite app_nth2 by lia. f_equal. lia. Qed.
Lemma sumn_unit n k (v : nat -> K) c : k < n -> sumn n (fun j => (if j =? k then c else f0) *! v j) = c *! v k.
Proof.
  intro H. rewrite (sumn_ext _ n _ (fun j => if k =? j then c *! v j else f0)).
  - apply (sumn_pick K (fun j => c *! v j)). exact H.
  - intros j Hj. rewrite (Nat.eqb_sym k j). destruct (j =? k); ring.
Qed.
Lemma sumn_none n k (v : nat -> K) c : n <= k -> sumn n (fun j => (if j =? k then c else f0) *! v j) = f0.
Proof.
  intro H. apply sumn_zero. intros j Hj. rewrite (proj2 (Nat.eqb_neq j k)) by lia. ring.
Qed.

Lemma fr_last_row (Jc Jd M' : dmat K) x pc nc pd nd i : dn Jc = dn Jd -> dn M' = dn Jc + 2 * dm Jc + 2 * dm Jd ->
  i < dm Jc + dm Jd -> (forall j, j < dn M' -> el M' i j = fr_entry Jc Jd i j) ->
  length x = dn Jc -> length pc = dm Jc -> length nc = dm Jc -> length pd = dm Jd -> length nd = dm Jd ->
  dot (lrow M' i) (x ++ pc ++ nc ++ pd ++ nd) =
    if i <? dm Jc then dot (lrow Jc i) x -! nth i pc f0 +! nth i nc f0
    else dot (lrow Jd (i - dm Jc)) x -! nth (i - dm Jc) pd f0 +! nth (i - dm Jc) nd f0.
Proof.
  intros Hn HM Hi HE Lx Lpc Lnc Lpd Lnd.
  assert (Hl : length (x ++ pc ++ nc ++ pd ++ nd) = dn M') by (rewrite !app_length; lia).
  rewrite dot_lrow by exact Hl. rewrite (sumn_ext _ _ _ (fun j => fr_entry Jc Jd i j *! nth j (x ++ pc ++ nc ++ pd ++ nd) f0)).
  2: { intros j Hj. rewrite HE by lia. reflexivity. }
  replace (dn M') with (dn Jc + (dm Jc + (dm Jc + (dm Jd + dm Jd)))) by lia. rewrite !sumn_split.
  set (mc := dm Jc) in *. set (md := dm Jd) in *. set (nb := dn Jc) in *.
  rewrite (sumn_ext _ nb _ (fun j => (if i <? mc then el Jc i j else el Jd (i - mc) j) *! nth j x f0)).
  2: { intros j Hj. rewrite nth_app_l by lia. unfold fr_entry. fold nb mc. rewrite (proj2 (Nat.ltb_lt j nb)) by lia. reflexivity. }
  rewrite (sumn_ext _ mc (fun k => fr_entry Jc Jd i (nb + k) *! nth (nb + k) (x ++ pc ++ nc ++ pd ++ nd) f0)
    (fun k => (if k =? i then (if i <? mc then fopp f1 else f0) else f0) *! nth k pc f0)).
  2: { intros k Hk. rewrite <- Lx. rewrite nth_app_r, nth_app_l by lia. rewrite Lx. unfold fr_entry. fold nb mc.
       rewrite (proj2 (Nat.ltb_ge (nb + k) nb)) by lia. destruct (i <? mc) eqn:E.
       - apply Nat.ltb_lt in E. rewrite (proj2 (Nat.eqb_neq (nb + k) (nb + mc + i))) by lia. destruct (k =? i) eqn:E2.
         + apply Nat.eqb_eq in E2. rewrite (proj2 (Nat.eqb_eq (nb + k) (nb + i))) by lia. reflexivity.
         + apply Nat.eqb_neq in E2. rewrite (proj2 (Nat.eqb_neq (nb + k) (nb + i))) by lia. reflexivity.
       - apply Nat.ltb_ge in E. rewrite (proj2 (Nat.eqb_neq (nb + k) (nb + 2 * mc + (i - mc)))) by lia.
         rewrite (proj2 (Nat.eqb_neq (nb + k) (nb + 2 * mc + dm Jd + (i - mc)))) by lia. destruct (k =? i); reflexivity. }
  rewrite (sumn_ext _ mc (fun k => fr_entry Jc Jd i (nb + (mc + k)) *! nth (nb + (mc + k)) (x ++ pc ++ nc ++ pd ++ nd) f0)
    (fun k => (if k =? i then (if i <? mc then f1 else f0) else f0) *! nth k nc f0)).
  2: { intros k Hk. rewrite <- Lx at 2. rewrite nth_app_r. rewrite <- Lpc at 2. rewrite nth_app_r, nth_app_l by lia. unfold fr_entry. fold nb mc.
       rewrite (proj2 (Nat.ltb_ge (nb + (mc + k)) nb)) by lia. destruct (i <? mc) eqn:E.
       - apply Nat.ltb_lt in E. rewrite (proj2 (Nat.eqb_neq (nb + (mc + k)) (nb + i))) by lia. destruct (k =? i) eqn:E2.
         + apply Nat.eqb_eq in E2. rewrite (proj2 (Nat.eqb_eq (nb + (mc + k)) (nb + mc + i))) by lia. reflexivity.
         + apply Nat.eqb_neq in E2. rewrite (proj2 (Nat.eqb_neq (nb + (mc + k)) (nb + mc + i))) by lia. reflexivity.
       - apply Nat.ltb_ge in E. rewrite (proj2 (Nat.eqb_neq (nb + (mc + k)) (nb + 2 * mc + (i - mc)))) by lia.
         rewrite (proj2 (Nat.eqb_neq (nb + (mc + k)) (nb + 2 * mc + dm Jd + (i - mc)))) by lia. destruct (k =? i); reflexivity. }
  rewrite (sumn_ext _ md (fun k => fr_entry Jc Jd i (nb + (mc + (mc + k))) *! nth (nb + (mc + (mc + k))) (x ++ pc ++ nc ++ pd ++ nd) f0)
    (fun k => (if k =? i - mc then (if i <? mc then f0 else fopp f1) else f0) *! nth k pd f0)).
  2: { intros k Hk. rewrite <- Lx at 2. rewrite nth_app_r. rewrite <- Lpc at 3. rewrite nth_app_r. rewrite <- Lnc at 3. rewrite nth_app_r, nth_app_l by lia.
       unfold fr_entry. fold nb mc md.
       rewrite (proj2 (Nat.ltb_ge (nb + (mc + (mc + k))) nb)) by lia. destruct (i <? mc) eqn:E.
       - apply Nat.ltb_lt in E. rewrite (proj2 (Nat.eqb_neq (nb + (mc + (mc + k))) (nb + i))) by lia.
         rewrite (proj2 (Nat.eqb_neq (nb + (mc + (mc + k))) (nb + mc + i))) by lia. destruct (k =? i - mc); reflexivity.
       - apply Nat.ltb_ge in E. rewrite (proj2 (Nat.eqb_neq (nb + (mc + (mc + k))) (nb + 2 * mc + md + (i - mc)))) by lia.
         destruct (k =? i - mc) eqn:E2.
         + apply Nat.eqb_eq in E2. rewrite (proj2 (Nat.eqb_eq (nb + (mc + (mc + k))) (nb + 2 * mc + (i - mc)))) by lia. reflexivity.
         + apply Nat.eqb_neq in E2. rewrite (proj2 (Nat.eqb_neq (nb + (mc + (mc + k))) (nb + 2 * mc + (i - mc)))) by lia. reflexivity. }
  rewrite (sumn_ext _ md (fun k => fr_entry Jc Jd i (nb + (mc + (mc + (md + k)))) *! nth (nb + (mc + (mc + (md + k)))) (x ++ pc ++ nc ++ pd ++ nd) f0)
    (fun k => (if k =? i - mc then (if i <? mc then f0 else f1) else f0) *! nth k nd f0)).
  2: { intros k Hk. rewrite <- Lx at 2. rewrite nth_app_r. rewrite <- Lpc at 3. rewrite nth_app_r. rewrite <- Lnc at 3. rewrite nth_app_r.
       rewrite <- Lpd at 2. rewrite nth_app_r.
       unfold fr_entry. fold nb mc md.
       rewrite (proj2 (Nat.ltb_ge (nb + (mc + (mc + (md + k)))) nb)) by lia. destruct (i <? mc) eqn:E.
       - apply Nat.ltb_lt in E. rewrite (proj2 (Nat.eqb_neq (nb + (mc + (mc + (md + k)))) (nb + i))) by lia.
         rewrite (proj2 (Nat.eqb_neq (nb + (mc + (mc + (md + k)))) (nb + mc + i))) by lia. destruct (k =? i - mc); reflexivity.
       - apply Nat.ltb_ge in E. rewrite (proj2 (Nat.eqb_neq (nb + (mc + (mc + (md + k)))) (nb + 2 * mc + (i - mc)))) by lia.
         destruct (k =? i - mc) eqn:E2.
         + apply Nat.eqb_eq in E2. rewrite (proj2 (Nat.eqb_eq (nb + (mc + (mc + (md + k)))) (nb + 2 * mc + md + (i - mc)))) by lia. reflexivity.
         + apply Nat.eqb_neq in E2. rewrite (proj2 (Nat.eqb_neq (nb + (mc + (mc + (md + k)))) (nb + 2 * mc + md + (i - mc)))) by lia. reflexivity. }
  destruct (i <? mc) eqn:E.
  - apply Nat.ltb_lt in E. rewrite !(sumn_unit mc i) by lia. rewrite dot_lrow by lia.
    rewrite (sumn_zero _ md (fun k => (if k =? i - mc then f0 else f0) *! nth k pd f0)) by (intros k Hk; destruct (k =? i - mc); ring).
    rewrite (sumn_zero _ md (fun k => (if k =? i - mc then f0 else f0) *! nth k nd f0)) by (intros k Hk; destruct (k =? i - mc); ring).
    fold nb. ring.
  - apply Nat.ltb_ge in E. rewrite !(sumn_unit md (i - mc)) by lia. rewrite dot_lrow by lia.
    rewrite (sumn_zero _ mc (fun k => (if k =? i then f0 else f0) *! nth k pc f0)) by (intros k Hk; destruct (k =? i); ring).
    rewrite (sumn_zero _ mc (fun k => (if k =? i then f0 else f0) *! nth k nc f0)) by (intros k Hk; destruct (k =? i); ring).
    rewrite <- Hn. fold nb. ring.
Qed.
End P4.

(** largest entries *)
Open Scope R_scope.
Lemma foldmax_ge (l : list R) v : v <= fold_left (fun v x => Rmax v (Rabs x)) l v /\
  forall x, In x l -> Rabs x <= fold_left (fun v x => Rmax v (Rabs x)) l v.
Proof.
  revert v. induction l as [|a l IH]; intro v; cbn [fold_left].
  - split; [lra|]. intros x [].
  - destruct (IH (Rmax v (Rabs a))) as [H1 H2]. pose proof (Rmax_l v (Rabs a)). pose proof (Rmax_r v (Rabs a)). split; [lra|].
    intros x [->|Hx]; [lra|auto].
Qed.
Lemma foldmax_in (l : list R) v : fold_left (fun v x => Rmax v (Rabs x)) l v = v \/
  exists x, In x l /\ fold_left (fun v x => Rmax v (Rabs x)) l v = Rabs x.
Proof.
  revert v. induction l as [|a l IH]; intro v; cbn [fold_left]; [left; reflexivity|].
  destruct (IH (Rmax v (Rabs a))) as [H|(x & Hx & H)].
  - rewrite H. unfold Rmax. destruct (Rle_dec v (Rabs a)); [right; exists a; split; [left|]; reflexivity|left; reflexivity].
  - right. exists x. split; [right; exact Hx|exact H].
Qed.
Lemma allmax_spec (l : list R) : l <> [] -> exists v, allmax l = Some v /\ In v l /\ forall x, In x l -> x <= v.
Proof.
  destruct l as [|a l]; [congruence|]. intros _. exists (fold_left Rmax l a). split; [reflexivity|].
  revert a. induction l as [|b l IH]; intro a; cbn [fold_left].
  - split; [left; reflexivity|]. intros x [->|[]]. lra.
  - destruct (IH (Rmax a b)) as [H1 H2]. split.
    + destruct H1 as [H1|H1]; [|right; right; exact H1]. rewrite <- H1. unfold Rmax. destruct (Rle_dec a b); [right; left|left]; reflexivity.
    + intros x [->|[->|Hx]].
      * pose proof (H2 (Rmax x b) (or_introl eq_refl)). pose proof (Rmax_l x b). lra.
      * pose proof (H2 (Rmax a x) (or_introl eq_refl)). pose proof (Rmax_r a x). lra.
      * apply H2. right. exact Hx.
Qed.
Lemma firstn_skipn_in (a : list R) off cnt x : (off + cnt <= length a)%nat ->
  In x (firstn cnt (skipn off a)) <-> exists p, (p < cnt)%nat /\ x = nth (off + p) a 0.
Proof.
  intro H. assert (L : length (firstn cnt (skipn off a)) = cnt) by (rewrite firstn_length, skipn_length; lia).
  assert (N : forall p, (p < cnt)%nat -> nth p (firstn cnt (skipn off a)) 0 = nth (off + p) a 0).
  { intros p Hp. transitivity (nth p (skipn off a) 0).
    - rewrite <- (firstn_skipn cnt (skipn off a)) at 2. rewrite app_nth1 by lia. reflexivity.
    - rewrite <- (firstn_skipn off a) at 2. rewrite app_nth2 by (rewrite firstn_length; lia). rewrite firstn_length. f_equal. lia. }
  split.
  - intro I. destruct (In_nth _ _ 0 I) as (p & Hp & E). exists p. split; [lia|]. rewrite <- E. symmetry. rewrite <- N by lia. reflexivity.
  - intros (p & Hp & ->). rewrite <- N by lia. apply nth_In. lia.
Qed.
Lemma dlange_spec cnt a off : (off + cnt <= length a)%nat -> exists v, dlange cnt a off = Some v /\ 0 <= v /\
  (forall p, (p < cnt)%nat -> Rabs (nth (off + p) a 0) <= v) /\
  (v = 0 \/ exists p, (p < cnt)%nat /\ v = Rabs (nth (off + p) a 0)).
Proof.
  intro H. unfold dlange. rewrite (proj2 (Nat.leb_le _ _) H). eexists. split; [reflexivity|].
  destruct (foldmax_ge (firstn cnt (skipn off a)) 0) as [H1 H2]. split; [exact H1|]. split.
  - intros p Hp. apply H2. apply firstn_skipn_in; [exact H|]. exists p. auto.
  - destruct (foldmax_in (firstn cnt (skipn off a)) 0) as [E|(x & Hx & E)]; [left; exact E|right].
    apply firstn_skipn_in in Hx; [|exact H]. destruct Hx as (p & Hp & ->). exists p. auto.
Qed.
