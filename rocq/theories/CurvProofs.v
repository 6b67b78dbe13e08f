From Coq Require Import List Bool Arith Lia Ring Field Reals Lra.
From Verif Require Import RingKit InertiaModel KktModel KktSpec CurvModel CurvSpec.
Import ListNotations.
Close Scope R_scope. Open Scope nat_scope.

Section P.
Variable K : cfield.
Add Field KF : (fth K).
Notation vec := (nat -> K).
Lemma sumn_sub n (f g : vec) : sumn n (fun i => f i -! g i) = sumn n f -! sumn n g.
Proof. induction n as [|n IH]; [cbn; ring|]. rewrite !sumn_S, IH. ring. Qed.
Lemma sumn_opp n (f : vec) : sumn n (fun i => fopp (f i)) = fopp (sumn n f).
Proof. induction n as [|n IH]; [cbn; ring|]. rewrite !sumn_S, IH. ring. Qed.
(** sum_i x_i (A' u)_i = sum_k u_k (A x)_k *)
Lemma adj n m (A : nat -> nat -> K) (x u : vec) :
  sumn n (fun i => x i *! sumn m (fun k => A k i *! u k)) = sumn m (fun k => u k *! sumn n (fun i => A k i *! x i)).
Proof.
  rewrite (sumn_ext K n _ (fun i => sumn m (fun k => A k i *! u k *! x i))).
  2: { intros i _. rewrite <- sumn_scale. apply sumn_ext. intros; ring. }
  rewrite sumn_swap. apply sumn_ext. intros k _. rewrite <- sumn_scale. apply sumn_ext. intros; ring.
Qed.
Lemma slope_identity (P : prob K) v it e r w : kkt_violation K P v it r -> newton K P it e r w -> interior K P it ->
  slacks_fit K P v it -> duals_fit K P it ->
  slope K P v it w = fopp (curvature K P it e w) -!
    sumn (neq P) (fun k => (w_yc it k +! w_yc w k) *! (v_crhs v k -! v_c v k +! e_cc e k *! w_yc w k)) -!
    sumn (ni P) (fun k => (w_yd it k +! w_yd w k) *! (w_d it k -! v_d v k +! e_cd e k *! w_yd w k)).
Proof.
  intros (V1 & V2 & V3 & V4 & V5 & V6 & V7 & V8) (N1 & N2 & N3 & N4 & N5 & N6 & N7 & N8) (I1 & I2 & I3 & I4) (S1 & S2) (D1 & D2).
  unfold slope, curvature.
  assert (HX : forall i, i < nx P -> bar_x K P v it i *! w_x w i =
     fopp (w_x w i *! sumn (nx P) (fun j => p_H P i j *! w_x w j) +! (xdiag K P it i +! e_wx e i) *! (w_x w i *! w_x w i) +!
     w_x w i *! sumn (neq P) (fun k => p_Jc P k i *! (w_yc it k +! w_yc w k)) +!
     w_x w i *! sumn (ni P) (fun k => p_Jd P k i *! (w_yd it k +! w_yd w k)))).
  { intros i Hi. specialize (N1 i Hi). specialize (V1 i Hi).
    assert (E1 : sumn (neq P) (fun k => p_Jc P k i *! (w_yc it k +! w_yc w k)) = sumn (neq P) (fun k => p_Jc P k i *! w_yc it k) +! sumn (neq P) (fun k => p_Jc P k i *! w_yc w k)).
    { rewrite <- sumn_add. apply sumn_ext. intros; ring. }
    assert (E2 : sumn (ni P) (fun k => p_Jd P k i *! (w_yd it k +! w_yd w k)) = sumn (ni P) (fun k => p_Jd P k i *! w_yd it k) +! sumn (ni P) (fun k => p_Jd P k i *! w_yd w k)).
    { rewrite <- sumn_add. apply sumn_ext. intros; ring. }
    rewrite E1, E2. clear E1 E2. unfold bar_x, xdiag.
    assert (ZL : w_zl it i +! w_zl w i = (if ixl P i then v_mu v /! w_sxl it i -! w_zl it i /! w_sxl it i *! w_x w i else f0)).
    { specialize (V5 i Hi). specialize (N5 i Hi). destruct (S1 i Hi) as [SL _]. destruct (D1 i Hi) as [DL _]. destruct (ixl P i) eqn:B.
      - destruct V5 as [A1 A2]. destruct N5 as [B1 B2]. specialize (I1 i Hi B). specialize (SL eq_refl). 
        assert (C1 : w_sxl w i = w_x w i).
        { transitivity (w_sxl w i -! w_x w i +! (w_sxl it i +! v_xl v i -! w_x it i) +! w_x w i); [rewrite SL; ring|]. rewrite B1, A1. ring. }
        rewrite C1 in B2. assert (C2 : w_sxl it i *! (w_zl it i +! w_zl w i) = v_mu v -! w_zl it i *! w_x w i).
        { transitivity (w_sxl it i *! w_zl w i +! w_zl it i *! w_x w i +! (w_sxl it i *! w_zl it i -! v_mu v) +! v_mu v -! w_zl it i *! w_x w i); [ring|]. rewrite B2, A2. ring. }
        transitivity (w_sxl it i *! (w_zl it i +! w_zl w i) /! w_sxl it i); [field; exact I1|]. rewrite C2. field. exact I1.
      - rewrite (DL eq_refl). destruct N5 as [_ ->]. ring. }
    assert (ZU : w_zu it i +! w_zu w i = (if ixu P i then v_mu v /! w_sxu it i +! w_zu it i /! w_sxu it i *! w_x w i else f0)).
    { specialize (V6 i Hi). specialize (N6 i Hi). destruct (S1 i Hi) as [_ SL]. destruct (D1 i Hi) as [_ DL]. destruct (ixu P i) eqn:B.
      - destruct V6 as [A1 A2]. destruct N6 as [B1 B2]. specialize (I2 i Hi B). specialize (SL eq_refl). 
        assert (C1 : w_sxu w i = fopp (w_x w i)).
        { transitivity (w_sxu w i +! w_x w i +! (w_x it i +! w_sxu it i -! v_xu v i) -! w_x w i); [rewrite SL; ring|]. rewrite B1, A1. ring. }
        rewrite C1 in B2. assert (C2 : w_sxu it i *! (w_zu it i +! w_zu w i) = v_mu v +! w_zu it i *! w_x w i).
        { transitivity (w_sxu it i *! w_zu w i +! w_zu it i *! fopp (w_x w i) +! (w_sxu it i *! w_zu it i -! v_mu v) +! v_mu v +! w_zu it i *! w_x w i); [ring|]. rewrite B2, A2. ring. }
        transitivity (w_sxu it i *! (w_zu it i +! w_zu w i) /! w_sxu it i); [field; exact I2|]. rewrite C2. field. exact I2.
      - rewrite (DL eq_refl). destruct N6 as [_ ->]. ring. }
    assert (G : v_grad v i +! v_dampx v i = fopp (r_x r i) -! sumn (neq P) (fun k => p_Jc P k i *! w_yc it k) -!
       sumn (ni P) (fun k => p_Jd P k i *! w_yd it k) +! w_zl it i -! w_zu it i).
    { transitivity (v_grad v i +! v_dampx v i -! f0); [ring|]. rewrite <- V1. ring. }
    rewrite G, <- N1. clear G V1 N1.
    set (a := sumn (nx P) _). set (b := sumn (neq P) _). set (c := sumn (ni P) _). set (b' := sumn (neq P) _). set (c' := sumn (ni P) _).
    transitivity (fopp (a *! w_x w i +! e_wx e i *! w_x w i *! w_x w i +! (b +! b') *! w_x w i +! (c +! c') *! w_x w i) +!
      ((w_zl it i +! w_zl w i) -! (w_zu it i +! w_zu w i) -! (if ixl P i then v_mu v /! w_sxl it i else f0) +! (if ixu P i then v_mu v /! w_sxu it i else f0)) *! w_x w i); [ring|].
    rewrite ZL, ZU. destruct (ixl P i), (ixu P i); ring. }
  assert (HD : forall i, i < ni P -> bar_d K P v it i *! w_d w i =
     (w_yd it i +! w_yd w i) *! w_d w i -! ddiag K P it e i *! (w_d w i *! w_d w i)).
  { intros i Hi. specialize (N2 i Hi). specialize (V2 i Hi). unfold bar_d, ddiag.
    assert (ZL : w_vl it i +! w_vl w i = (if idl P i then v_mu v /! w_sdl it i -! w_vl it i /! w_sdl it i *! w_d w i else f0)).
    { specialize (V7 i Hi). specialize (N7 i Hi). destruct (S2 i Hi) as [SL _]. destruct (D2 i Hi) as [DL _]. destruct (idl P i) eqn:B.
      - destruct V7 as [A1 A2]. destruct N7 as [B1 B2]. specialize (I3 i Hi B). specialize (SL eq_refl). 
        assert (C1 : w_sdl w i = w_d w i).
        { transitivity (w_sdl w i -! w_d w i +! (w_sdl it i +! v_dl v i -! w_d it i) +! w_d w i); [rewrite SL; ring|]. rewrite B1, A1. ring. }
        rewrite C1 in B2. assert (C2 : w_sdl it i *! (w_vl it i +! w_vl w i) = v_mu v -! w_vl it i *! w_d w i).
        { transitivity (w_sdl it i *! w_vl w i +! w_vl it i *! w_d w i +! (w_sdl it i *! w_vl it i -! v_mu v) +! v_mu v -! w_vl it i *! w_d w i); [ring|]. rewrite B2, A2. ring. }
        transitivity (w_sdl it i *! (w_vl it i +! w_vl w i) /! w_sdl it i); [field; exact I3|]. rewrite C2. field. exact I3.
      - rewrite (DL eq_refl). destruct N7 as [_ ->]. ring. }
    assert (ZU : w_vu it i +! w_vu w i = (if idu P i then v_mu v /! w_sdu it i +! w_vu it i /! w_sdu it i *! w_d w i else f0)).
    { specialize (V8 i Hi). specialize (N8 i Hi). destruct (S2 i Hi) as [_ SL]. destruct (D2 i Hi) as [_ DL]. destruct (idu P i) eqn:B.
      - destruct V8 as [A1 A2]. destruct N8 as [B1 B2]. specialize (I4 i Hi B). specialize (SL eq_refl). 
        assert (C1 : w_sdu w i = fopp (w_d w i)).
        { transitivity (w_sdu w i +! w_d w i +! (w_d it i +! w_sdu it i -! v_du v i) -! w_d w i); [rewrite SL; ring|]. rewrite B1, A1. ring. }
        rewrite C1 in B2. assert (C2 : w_sdu it i *! (w_vu it i +! w_vu w i) = v_mu v +! w_vu it i *! w_d w i).
        { transitivity (w_sdu it i *! w_vu w i +! w_vu it i *! fopp (w_d w i) +! (w_sdu it i *! w_vu it i -! v_mu v) +! v_mu v +! w_vu it i *! w_d w i); [ring|]. rewrite B2, A2. ring. }
        transitivity (w_sdu it i *! (w_vu it i +! w_vu w i) /! w_sdu it i); [field; exact I4|]. rewrite C2. field. exact I4.
      - rewrite (DL eq_refl). destruct N8 as [_ ->]. ring. }
    assert (G : v_dampd v i = fopp (r_d r i) +! w_yd it i +! w_vl it i -! w_vu it i).
    { transitivity (v_dampd v i -! f0); [ring|]. rewrite <- V2. ring. }
    rewrite G, <- N2. clear G V2 N2.
    transitivity (((w_yd it i +! w_yd w i) -! e_wd e i *! w_d w i) *! w_d w i +!
      ((w_vl it i +! w_vl w i) -! (w_vu it i +! w_vu w i) -! (if idl P i then v_mu v /! w_sdl it i else f0) +! (if idu P i then v_mu v /! w_sdu it i else f0)) *! w_d w i); [ring|].
    rewrite ZL, ZU. destruct (idl P i), (idu P i); ring. }
  rewrite (sumn_ext K (nx P) _ _ HX), (sumn_ext K (ni P) _ _ HD). rewrite sumn_opp, !sumn_add, sumn_sub.
  rewrite (adj (nx P) (neq P)), (adj (nx P) (ni P)).
  rewrite (sumn_ext K (neq P) (fun k => (w_yc it k +! w_yc w k) *! sumn (nx P) (fun i => p_Jc P k i *! w_x w i))
             (fun k => (w_yc it k +! w_yc w k) *! (v_crhs v k -! v_c v k +! e_cc e k *! w_yc w k))).
  2: { intros k Hk. specialize (N3 k Hk). specialize (V3 k Hk). f_equal.
       transitivity (sumn (nx P) (fun j => p_Jc P k j *! w_x w j) -! e_cc e k *! w_yc w k +! (v_c v k -! v_crhs v k) +! (v_crhs v k -! v_c v k +! e_cc e k *! w_yc w k)); [ring|].
       rewrite N3, V3. ring. }
  rewrite (sumn_ext K (ni P) (fun k => (w_yd it k +! w_yd w k) *! sumn (nx P) (fun i => p_Jd P k i *! w_x w i))
             (fun k => (w_yd it k +! w_yd w k) *! (w_d it k -! v_d v k +! e_cd e k *! w_yd w k) +! (w_yd it k +! w_yd w k) *! w_d w k)).
  2: { intros k Hk. specialize (N4 k Hk). specialize (V4 k Hk).
       transitivity ((w_yd it k +! w_yd w k) *! (sumn (nx P) (fun j => p_Jd P k j *! w_x w j) -! w_d w k -! e_cd e k *! w_yd w k +! (v_d v k -! w_d it k) +! (w_d it k -! v_d v k +! e_cd e k *! w_yd w k +! w_d w k))); [ring|].
       rewrite N4, V4. ring. }
  rewrite sumn_add. set (a1 := sumn (nx P) _). set (a2 := sumn (nx P) _). set (a3 := sumn (neq P) _). set (a4 := sumn (ni P) _).
  set (a5 := sumn (ni P) _). set (a6 := sumn (ni P) _). ring.
Qed.
Lemma slope_feasible (P : prob K) v it e r w : kkt_violation K P v it r -> newton K P it e r w -> interior K P it ->
  slacks_fit K P v it -> duals_fit K P it -> feasible K P v it ->
  (forall i, i < neq P -> e_cc e i = f0) -> (forall i, i < ni P -> e_cd e i = f0) ->
  slope K P v it w = fopp (curvature K P it e w).
Proof.
  intros HV HN HI HS HD (F1 & F2) Hc Hd. rewrite (slope_identity P v it e r w) by assumption.
  rewrite (sumn_zero K (neq P)). 2: { intros k Hk. rewrite (F1 k Hk), (Hc k Hk). ring. }
  rewrite (sumn_zero K (ni P)). 2: { intros k Hk. rewrite (F2 k Hk), (Hd k Hk). ring. }
  ring.
Qed.
(** the curvature as the two test functions add it up *)
Lemma curvature_of (P : prob K) it e w :
  sumn (nx P) (fun i => mv K (nx P) (p_H P) (w_x w) i *! w_x w i) +!
  sumn (nx P) (fun i => (w_x w i *! barrier_x K P it i +! f1 *! (e_wx e i *! w_x w i)) *! w_x w i) +!
  sumn (ni P) (fun i => (w_d w i *! barrier_d K P it i +! f1 *! (e_wd e i *! w_d w i)) *! w_d w i) = curvature K P it e w.
Proof.
  unfold curvature. f_equal; [f_equal|]; apply sumn_ext; intros i Hi.
  - unfold mv. ring.
  - unfold barrier_x, xdiag, axdz. pose proof (fth K) as FT. destruct (ixl P i), (ixu P i); rewrite ?(Field_theory.Fdiv_def FT); ring.
  - unfold barrier_d, ddiag, axdz. pose proof (fth K) as FT. destruct (idl P i), (idu P i); rewrite ?(Field_theory.Fdiv_def FT); ring.
Qed.
End P.

Lemma rsum_nonneg n (f : nat -> R_field) : (forall i, i < n -> (0 <= f i)%R) -> (0 <= (sumn n f : R))%R.
Proof.
  induction n as [|n IH]; intro H; [cbn; lra|]. rewrite sumn_S. specialize (H n (Nat.lt_succ_diag_r n)) as Hn.
  assert (0 <= (sumn n f : R))%R by (apply IH; intros; apply H; lia). change (0 <= (sumn n f : R) + f n)%R. lra.
Qed.
Lemma twonorm_sq n a : (twonorm n a * twonorm n a = (sumn n (fun i => a i *! a i) : R))%R.
Proof. unfold twonorm. apply sqrt_sqrt. unfold dotp. apply rsum_nonneg. intros i _. change (0 <= a i * a i)%R. apply Rle_0_sqr. Qed.
Lemma curv_ok_iff P fact s w : curv_ok P fact s w = true <-> (fact * (size2 R_field P w : R) <= s)%R.
Proof.
  unfold curv_ok. rewrite !twonorm_sq. unfold size2, rltb. 
  change (fact * (sumn (nx P) (fun i => w_x w i *! w_x w i) +! sumn (ni P) (fun i => w_d w i *! w_d w i))%R)%R
    with (fact * ((sumn (nx P) (fun i => w_x w i *! w_x w i) : R) + (sumn (ni P) (fun i => w_d w i *! w_d w i) : R)))%R.
  destruct (Rlt_dec _ _) as [H|H]; cbn [negb].
  - split; [discriminate|]. intro. rewrite Rmult_comm in H. lra.
  - split; [|reflexivity]. intros _. rewrite Rmult_comm in H. lra.
Qed.
