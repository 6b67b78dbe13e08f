(** Proofs about KktModel: the mixed dense-sparse system, the operator and the residual. *)
From Coq Require Import List Bool Arith Lia Ring Field.
From Verif Require Import RingKit KktModel KktSpec KktProofs KktProofs2.
Import ListNotations.

Section Pf.
Variable K : cfield.
Add Field kf : (fth K).
Notation vec := (nat -> K).
Notation mat := (nat -> nat -> K).
Ltac ent1 := first [ rewrite (ad_miss K) by lia | rewrite (ad_hit K) by lia | rewrite (au_miss K) by lia | rewrite (au_hit K) by lia | rewrite (at_miss K) by lia | rewrite (at_hit K) by lia ].
Ltac ent := unfold symu, add_mdm, add_mdn; cbv zeta; bdec; repeat ent1; bdec; unfold zero_mat.

Lemma sumn_sub n (f g : vec) : sumn n (fun i => f i -! g i) = sumn n f -! sumn n g.
Proof.
  rewrite (sumn_ext K n _ (fun i => f i +! (f0 -! f1) *! g i)) by (intros; ring).
  rewrite sumn_add, sumn_scale. ring.
Qed.
Lemma swap_tmv ns m (a Dv : vec) (B : mat) (y : vec) :
  sumn ns (fun j => a j /! Dv j *! tmv K m B y j) = sumn m (fun k => sumn ns (fun j => a j /! Dv j *! B k j) *! y k).
Proof.
  unfold tmv. rewrite (sumn_ext K ns _ (fun j => sumn m (fun k => a j /! Dv j *! B k j *! y k))).
  - rewrite sumn_swap. apply sumn_ext. intros k _.
    rewrite (sumn_ext K ns _ (fun j => y k *! (a j /! Dv j *! B k j))) by (intros; ring). rewrite sumn_scale. ring.
  - intros j _. rewrite <- sumn_scale. apply sumn_ext. intros. ring.
Qed.
(** elimination of the sparse variables *)
Lemma elim ns m1 m2 (a Hx rx : vec) (A B : mat) (y z : vec) : (forall j, j < ns -> Hx j <> f0) ->
  sumn ns (fun j => a j *! ((rx j -! tmv K m1 A y j -! tmv K m2 B z j) /! Hx j)) =
  sumn ns (fun j => a j *! (rx j /! Hx j)) -! sumn m1 (fun k => sumn ns (fun j => a j /! Hx j *! A k j) *! y k)
  -! sumn m2 (fun k => sumn ns (fun j => a j /! Hx j *! B k j) *! z k).
Proof.
  intro N. rewrite <- (swap_tmv ns m1 a Hx A y), <- (swap_tmv ns m2 a Hx B z), <- !sumn_sub.
  apply sumn_ext. intros j Hj. field. exact (N j Hj).
Qed.

Section M.
Variables (D : mds K) (it : iter K) (e : deltas K).
Let P := mds_prob K D.
Let ns := d_ns D. Let nd := d_nd D. Let neq := d_neq D. Let ni := d_ni D.
Let Hx := mds_hxs K D it e.
Hypothesis HS : symmetric K nd (d_Hd D).
Hypothesis HN : forall j, j < ns -> Hx j <> f0.
Let M := symu K (mds_mat K D it e).
Let N := nd + neq + ni.
Ltac mun := unfold M, mds_mat; fold ns nd neq ni P Hx.
Lemma ms_xx i j : i < nd -> j < nd -> M i j = d_Hd D i j +! (if i =? j then xdiag K P it (ns + i) +! e_wx e (ns + i) else f0).
Proof.
  intros H H'. mun. unfold symu, add_mdm, add_mdn. cbv zeta.
  destruct (Nat.eqb_spec i j) as [->|E].
  - ent. unfold cut. rewrite !Nat.sub_0_r, barrier_x_eq. ring.
  - destruct (Nat.leb_spec i j); ent; unfold cut; rewrite !Nat.sub_0_r; [ring|]. rewrite (HS j i) by assumption. ring.
Qed.
Lemma ms_xc i k : i < nd -> k < neq -> M i (nd + k) = d_Jcd D k i /\ M (nd + k) i = d_Jcd D k i.
Proof. intros H H'. mun. split; ent; rewrite !Nat.sub_0_r; replace (nd + k - nd) with k by lia; ring. Qed.
Lemma ms_xd i k : i < nd -> k < ni -> M i (nd + neq + k) = d_Jdd D k i /\ M (nd + neq + k) i = d_Jdd D k i.
Proof. intros H H'. mun. split; ent; rewrite !Nat.sub_0_r; replace (nd + neq + k - (nd + neq)) with k by lia; ring. Qed.
Definition red (A B : mat) (i k : nat) : K := sumn ns (fun j => A i j /! Hx j *! B k j).
Lemma red_sym A B i k : red A B i k = red B A k i.
Proof. apply sumn_ext. intros j Hj. field. exact (HN j Hj). Qed.
Lemma ms_cc i k : i < neq -> k < neq -> M (nd + i) (nd + k) = (f0 -! red (d_Jcs D) (d_Jcs D) i k) +! (if i =? k then f0 -! e_cc e i else f0).
Proof.
  intros H H'. mun. destruct (Nat.eqb_spec i k) as [->|E].
  - ent. replace (nd + k - nd) with k by lia. unfold red. ring.
  - unfold symu. destruct (Nat.leb_spec (nd + i) (nd + k)).
    + ent. replace (nd + k - nd) with k by lia. replace (nd + i - nd) with i by lia. unfold red. ring.
    + ent. replace (nd + k - nd) with k by lia. replace (nd + i - nd) with i by lia. rewrite red_sym. unfold red. ring.
Qed.
Lemma ms_cd i k : i < neq -> k < ni -> M (nd + i) (nd + neq + k) = f0 -! red (d_Jcs D) (d_Jds D) i k /\
  M (nd + neq + k) (nd + i) = f0 -! red (d_Jds D) (d_Jcs D) k i.
Proof.
  intros H H'. rewrite (red_sym (d_Jds D) (d_Jcs D) k i). mun.
  split; ent; replace (nd + i - nd) with i by lia; replace (nd + neq + k - (nd + neq)) with k by lia; unfold red; ring.
Qed.
Lemma ms_dd i k : i < ni -> k < ni -> M (nd + neq + i) (nd + neq + k) =
  (f0 -! red (d_Jds D) (d_Jds D) i k) +! (if i =? k then f0 -! (dd_inv K P it e i +! e_cd e i) else f0).
Proof.
  intros H H'. mun. destruct (Nat.eqb_spec i k) as [->|E].
  - ent. replace (nd + neq + k - (nd + neq)) with k by lia. unfold red. ring.
  - unfold symu. destruct (Nat.leb_spec (nd + neq + i) (nd + neq + k)).
    + ent. replace (nd + neq + k - (nd + neq)) with k by lia. replace (nd + neq + i - (nd + neq)) with i by lia. unfold red. ring.
    + ent. replace (nd + neq + k - (nd + neq)) with k by lia. replace (nd + neq + i - (nd + neq)) with i by lia. rewrite red_sym. unfold red. ring.
Qed.
(** products with the glued matrices *)
Lemma mv_glue (A B : mat) (a s : vec) i : mv K (ns + nd) (glue K ns A B) (put K ns a s) i = sumn ns (fun j => A i j *! a j) +! sumn nd (fun j => B i j *! s j).
Proof.
  unfold mv. rewrite sumn_app. f_equal; apply sumn_ext; intros j Hj.
  - rewrite put_l by exact Hj. unfold glue. bdec. reflexivity.
  - rewrite put_r. unfold glue. bdec. replace (ns + j - ns) with j by lia. reflexivity.
Qed.
Lemma tmv_glue m (A B : mat) (y : vec) j : tmv K m (glue K ns A B) y j = if j <? ns then tmv K m A y j else tmv K m B y (j - ns).
Proof. unfold tmv, glue. destruct (j <? ns); reflexivity. Qed.
Lemma mds_solve_ok S rx ryc ryd dx dyc dyd : exact K S ->
  mds_solve K S D it e (mds_mat K D it e) rx ryc ryd = Some (dx, dyc, dyd) -> xycyd_sys K P it e (dd_inv K P it e) rx ryc ryd dx dyc dyd.
Proof.
  intros EX. unfold mds_solve. fold ns nd neq ni Hx N. destruct (S N _ _) as [s|] eqn:E; [|discriminate]. intros [= <- <- <-].
  assert (R := EX _ _ _ _ E). clear E. cbv beta in R.
  set (ryc' := fun i => ryc i -! mv K ns (d_Jcs D) (fun i => rx i /! Hx i) i) in R.
  set (ryd' := fun i => ryd i -! mv K ns (d_Jds D) (fun i => rx i /! Hx i) i) in R.
  assert (R' : forall i, i < N -> sumn N (fun j => M i j *! s j) = put K nd (cut K ns rx) (put K neq ryc' ryd') i) by exact R. clear R.
  unfold N in R'. set (dyc := cut K nd s). set (dyd := cut K (nd + neq) s).
  set (dxs := fun i => (rx i -! tmv K neq (d_Jcs D) dyc i -! tmv K ni (d_Jds D) dyd i) /! Hx i).
  unfold xycyd_sys. change (nx P) with (ns + nd). change (KktModel.neq P) with neq. change (KktModel.ni P) with ni.
  change (p_Jc P) with (glue K ns (d_Jcs D) (d_Jcd D)). change (p_Jd P) with (glue K ns (d_Jds D) (d_Jdd D)).
  split; [|split]; intros i H.
  - rewrite !tmv_glue. destruct (Nat.ltb_spec i ns) as [L|L].
    + assert (E : mv K (ns + nd) (p_H P) (put K ns dxs s) i = d_Hs D i *! dxs i).
      { unfold mv. rewrite sumn_app. rewrite (sumn_zero K nd).
        - rewrite (sumn_ext K ns _ (fun j => (if i =? j then d_Hs D i else f0) *! dxs j)).
          + rewrite (sumn_diag0 K ns i (d_Hs D i) dxs L). ring.
          + intros j Hj. rewrite put_l by exact Hj. cbn [p_H P mds_prob]. fold ns. bdec1. reflexivity.
        - intros j Hj. cbn [p_H P mds_prob]. fold ns. bdec. ring. }
      rewrite E, put_l by exact L. unfold dxs at 1 2. assert (N0 := HN i L).
      revert N0. unfold Hx, mds_hxs. rewrite !barrier_x_eq. fold P. intro N0. field. exact N0.
    + assert (Hi : i - ns < nd) by lia. specialize (R' (i - ns) ltac:(lia)).
      rewrite put_l in R' by exact Hi. unfold cut in R' at 1. replace (ns + (i - ns)) with i in R' by lia. rewrite <- R'. rewrite !sumn_app.
      rewrite (sumn_ext K nd (fun j => M (i - ns) j *! s j) (fun j => (d_Hd D (i - ns) j +! (if (i - ns) =? j then xdiag K P it (ns + (i - ns)) +! e_wx e (ns + (i - ns)) else f0)) *! s j))
        by (intros; rewrite ms_xx by assumption; reflexivity).
      rewrite sumn_diag by exact Hi. replace (ns + (i - ns)) with i by lia.
      rewrite (sumn_ext K neq (fun j => M (i - ns) (nd + j) *! _) (fun k => d_Jcd D k (i - ns) *! dyc k))
        by (intros; rewrite (proj1 (ms_xc _ _ Hi H0)); reflexivity).
      rewrite (sumn_ext K ni (fun j => M (i - ns) (nd + neq + j) *! _) (fun k => d_Jdd D k (i - ns) *! dyd k))
        by (intros; rewrite (proj1 (ms_xd _ _ Hi H0)); reflexivity).
      assert (E : mv K (ns + nd) (p_H P) (put K ns dxs s) i = sumn nd (fun j => d_Hd D (i - ns) j *! s j)).
      { unfold mv. rewrite sumn_app. rewrite (sumn_zero K ns).
        - transitivity (sumn nd (fun j => d_Hd D (i - ns) j *! s j)); [|ring].
          transitivity (f0 +! sumn nd (fun j => d_Hd D (i - ns) j *! s j)); [|ring]. f_equal. apply sumn_ext.
          intros j Hj. rewrite put_r. cbn [p_H P mds_prob]. fold ns. bdec. replace (ns + j - ns) with j by lia. reflexivity.
        - intros j Hj. cbn [p_H P mds_prob]. fold ns. bdec. ring. }
      rewrite E. replace (put K ns dxs s i) with (s (i - ns)); [reflexivity|]. unfold put. bdec. reflexivity.
  - rewrite mv_glue. unfold dxs. rewrite (elim ns neq ni (fun j => d_Jcs D i j) Hx rx) by exact HN.
    specialize (R' (nd + i) ltac:(lia)). rewrite put_r, put_l in R' by exact H. unfold ryc' in R'.
    rewrite !sumn_app in R'.
    rewrite (sumn_ext K nd (fun j => M (nd + i) j *! s j) (fun j => d_Jcd D i j *! s j)) in R'
      by (intros; rewrite (proj2 (ms_xc _ _ H0 H)); reflexivity).
    rewrite (sumn_ext K neq (fun j => M (nd + i) (nd + j) *! _) (fun k => ((f0 -! red (d_Jcs D) (d_Jcs D) i k) +! (if i =? k then f0 -! e_cc e i else f0)) *! dyc k)) in R'
      by (intros; rewrite ms_cc by assumption; reflexivity).
    rewrite sumn_diag in R' by exact H.
    rewrite (sumn_ext K neq (fun k => (f0 -! red (d_Jcs D) (d_Jcs D) i k) *! dyc k) (fun k => f0 -! red (d_Jcs D) (d_Jcs D) i k *! dyc k)) in R' by (intros; ring).
    rewrite (sumn_ext K ni (fun j => M (nd + i) (nd + neq + j) *! _) (fun k => f0 -! red (d_Jcs D) (d_Jds D) i k *! dyd k)) in R'
      by (intros; rewrite (proj1 (ms_cd _ _ H H0)); unfold dyd, cut; ring).
    rewrite !sumn_sub, !(sumn_zero K _ (fun _ => f0)) in R' by reflexivity. unfold mv in R'.
    transitivity ((sumn nd (fun j => d_Jcd D i j *! s j) +! (f0 -! sumn neq (fun k => red (d_Jcs D) (d_Jcs D) i k *! dyc k) +! (f0 -! e_cc e i) *! dyc i) +! (f0 -! sumn ni (fun k => red (d_Jcs D) (d_Jds D) i k *! dyd k)))
      +! sumn ns (fun j => d_Jcs D i j *! (rx j /! Hx j))); [unfold red; ring|]. rewrite R'. ring.
  - rewrite mv_glue. unfold dxs. rewrite (elim ns neq ni (fun j => d_Jds D i j) Hx rx) by exact HN.
    specialize (R' (nd + neq + i) ltac:(lia)). rewrite put_rr in R'. unfold ryd' in R'.
    rewrite !sumn_app in R'.
    rewrite (sumn_ext K nd (fun j => M (nd + neq + i) j *! s j) (fun j => d_Jdd D i j *! s j)) in R'
      by (intros; rewrite (proj2 (ms_xd _ _ H0 H)); reflexivity).
    rewrite (sumn_ext K neq (fun j => M (nd + neq + i) (nd + j) *! _) (fun k => f0 -! red (d_Jds D) (d_Jcs D) i k *! dyc k)) in R'
      by (intros; rewrite (proj2 (ms_cd _ _ H0 H)); unfold dyc, cut; ring).
    rewrite (sumn_ext K ni (fun j => M (nd + neq + i) (nd + neq + j) *! _) (fun k => ((f0 -! red (d_Jds D) (d_Jds D) i k) +! (if i =? k then f0 -! (dd_inv K P it e i +! e_cd e i) else f0)) *! dyd k)) in R'
      by (intros; rewrite ms_dd by assumption; reflexivity).
    rewrite sumn_diag in R' by exact H.
    rewrite (sumn_ext K ni (fun k => (f0 -! red (d_Jds D) (d_Jds D) i k) *! dyd k) (fun k => f0 -! red (d_Jds D) (d_Jds D) i k *! dyd k)) in R' by (intros; ring).
    rewrite !sumn_sub, !(sumn_zero K _ (fun _ => f0)) in R' by reflexivity. unfold mv in R'.
    transitivity ((sumn nd (fun j => d_Jdd D i j *! s j) +! (f0 -! sumn neq (fun k => red (d_Jds D) (d_Jcs D) i k *! dyc k)) +! (f0 -! sumn ni (fun k => red (d_Jds D) (d_Jds D) i k *! dyd k) +! (f0 -! (dd_inv K P it e i +! e_cd e i)) *! dyd i))
      +! sumn ns (fun j => d_Jds D i j *! (rx j /! Hx j))); [unfold red; ring|]. rewrite R'. ring.
Qed.
End M.

(** the operator: applied to a direction it gives the residual exactly when the direction solves the system *)
Lemma full_op_ok P it e r w : matches K P r -> supported K P w ->
  (same K P (full_op K P it e w) r <-> newton K P it e r w).
Proof.
  intros (M1 & M2) (S1 & S2). unfold same, newton, full_op.
  cbn [r_x r_d r_yc r_yd r_xl r_xu r_dl r_du r_szl r_szu r_svl r_svu]. unfold select, mv, tmv. split.
  - intros (A & B & C). split; [|split; [|split; [exact B|split; [|split; [|split; [|split]]]]]]; intros i H.
    + exact (proj1 (A i H)).
    + destruct (C i H) as (E & _). rewrite <- E. ring.
    + destruct (C i H) as (_ & E & _). exact E.
    + destruct (A i H) as (_ & E1 & _ & E2 & _). destruct (ixl P i) eqn:Q; [split; assumption|]. exact (proj1 (S1 i H) Q).
    + destruct (A i H) as (_ & _ & E1 & _ & E2). destruct (ixu P i) eqn:Q; [split; assumption|]. exact (proj2 (S1 i H) Q).
    + destruct (C i H) as (_ & _ & E1 & _ & E2 & _). destruct (idl P i) eqn:Q; [split; assumption|]. exact (proj1 (S2 i H) Q).
    + destruct (C i H) as (_ & _ & _ & E1 & _ & E2). destruct (idu P i) eqn:Q; [split; assumption|]. exact (proj2 (S2 i H) Q).
  - intros (A & B & C & D & E1 & E2 & E3 & E4). split; [|split; [exact C|]]; intros i H.
    + specialize (E1 i H). specialize (E2 i H). destruct (M1 i H) as (Ml & Mu). split; [exact (A i H)|].
      assert (G1 : (if ixl P i then w_sxl w i -! w_x w i else f0) = r_xl r i /\ w_sxl it i *! w_zl w i +! w_zl it i *! w_sxl w i = r_szl r i).
      { destruct (ixl P i); [exact E1|]. destruct (Ml eq_refl) as [-> ->], E1 as [-> ->]. split; ring. }
      assert (G2 : (if ixu P i then w_sxu w i +! w_x w i else f0) = r_xu r i /\ w_sxu it i *! w_zu w i +! w_zu it i *! w_sxu w i = r_szu r i).
      { destruct (ixu P i); [exact E2|]. destruct (Mu eq_refl) as [-> ->], E2 as [-> ->]. split; ring. }
      tauto.
    + specialize (E3 i H). specialize (E4 i H). destruct (M2 i H) as (Ml & Mu).
      split; [rewrite <- (B i H); ring|]. split; [exact (D i H)|].
      assert (G1 : (if idl P i then w_sdl w i -! w_d w i else f0) = r_dl r i /\ w_sdl it i *! w_vl w i +! w_vl it i *! w_sdl w i = r_svl r i).
      { destruct (idl P i); [exact E3|]. destruct (Ml eq_refl) as [-> ->], E3 as [-> ->]. split; ring. }
      assert (G2 : (if idu P i then w_sdu w i +! w_d w i else f0) = r_du r i /\ w_sdu it i *! w_vu w i +! w_vu it i *! w_sdu w i = r_svu r i).
      { destruct (idu P i); [exact E4|]. destruct (Mu eq_refl) as [-> ->], E4 as [-> ->]. split; ring. }
      tauto.
Qed.
End Pf.
