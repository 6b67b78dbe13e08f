From Coq Require Import List Bool Arith Lia Ring Field QArith Qcanon.
From Verif Require Import RingKit.
From Verif Require Import PackModel HessModel HessSpec HessAlgModel HessAlgSpec HessAlgProofs.
Import ListNotations.
Close Scope Qc_scope. Close Scope Q_scope. Open Scope nat_scope.

Section P.
Variable K : cfield.
Add Field kf : (fth K).
Variable n : nat.
Notation vec := (nat -> K).
Notation inner := (inner K n).
Notation bfgs := (bfgs K n).
Notation defined := (defined K n).
Notation eqv := (eqv K n).
Variable solveV : nat -> (nat -> nat -> K) -> vec -> vec.
Notation hsolve := (hsolve K n solveV).

(** the factorized V solves exactly with every right-hand side *)
Definition exactV (sigma : K) (Dh : vec) (m : mem vec K) old : Prop :=
  let N := 2 * length (m_S m) in
  forall r, solves K N (upper K (vmat K n sigma Dh m old)) r (solveV N (upper K (vmat K n sigma Dh m old)) r).

Lemma solve_gen sigma Dx ps m old res r : mem_of f0 inner inner ps m -> defined sigma ps ->
  (forall p, p < n -> sigma +! Dx p <> f0) -> exactV sigma (dhinv K sigma Dx) m old ->
  (forall k, r k = vrhs K n sigma (dhinv K sigma Dx) m res k) ->
  let l := length (m_S m) in
  let z := if l =? 0 then r else solveV (2 * l) (upper K (vmat K n sigma (dhinv K sigma Dx) m old)) r in
  let x := fun p => res p *! dhinv K sigma Dx p -! (sigma *! sumn l (fun i => row K (m_S m) i p *! z i) +! sumn l (fun i => row K (m_Y m) i p *! z (l + i))) *! dhinv K sigma Dx p in
  eqv (fun p => bfgs sigma ps x p +! Dx p *! x p) res.
Proof.
  intros HM HD HN HV HR. cbv zeta. set (Dh := dhinv K sigma Dx) in *.
  assert (HDh : forall p, p < n -> (sigma +! Dx p) *! Dh p = f1).
  { intros p Hp. unfold Dh, dhinv. field. apply HN. exact Hp. }
  assert (LS : length (m_S m) = length ps) by (destruct HM as (H & _); rewrite H; apply map_length).
  unfold exactV in HV. rewrite LS in *.
  set (z := if length ps =? 0 then r else solveV (2 * length ps) (upper K (vmat K n sigma Dh m old)) r).
  assert (HZ : solves K (2 * length ps) (upper K (vmat K n sigma Dh m old)) (vrhs K n sigma Dh m res) z).
  { unfold z. destruct (Nat.eqb_spec (length ps) 0) as [E|_]; [intros i Hi; lia|]. intros i Hi. rewrite <- HR. apply HV. exact Hi. }
  pose proof (woodbury K n sigma Dx Dh ps m old HM HDh res z HZ HD) as W. cbv zeta in W.
  match goal with |- eqv (fun p => bfgs sigma ps ?y p +! _) _ => set (x := y) end. match type of W with eqv (fun p => bfgs sigma ps ?y p +! _) _ => assert (EX : eqv x y) end.
  { intros p Hp. unfold x. f_equal. f_equal. f_equal.
    - f_equal. apply sumn_ext. intros i Hi. rewrite (row_S K n ps m HM i) by exact Hi. reflexivity.
    - apply sumn_ext. intros i Hi. rewrite (row_Y K n ps m HM i) by exact Hi. reflexivity. }
  intros p Hp. refine (eq_trans _ (W p Hp)). cbv beta. rewrite (bfgs_ext K n sigma ps _ _ EX p Hp). f_equal. f_equal. exact (EX p Hp).
Qed.

Lemma hsolve_ok sigma Dx ps m old res : mem_of f0 inner inner ps m -> defined sigma ps ->
  (forall p, p < n -> sigma +! Dx p <> f0) -> exactV sigma (dhinv K sigma Dx) m old ->
  let x := hsolve sigma (dhinv K sigma Dx) m old res in
  eqv (fun p => bfgs sigma ps x p +! Dx p *! x p) res.
Proof. intros HM HD HN HV. exact (solve_gen sigma Dx ps m old res _ HM HD HN HV (fun k => eq_refl)). Qed.

(** the product X * inverse * X^T is made of solutions with the rows of X *)
Lemma sym_times_ok sigma Dx ps m old beta W alpha X i j : mem_of f0 inner inner ps m -> defined sigma ps ->
  (forall p, p < n -> sigma +! Dx p <> f0) -> exactV sigma (dhinv K sigma Dx) m old ->
  exists u, eqv (fun p => bfgs sigma ps u p +! Dx p *! u p) (X j) /\
  sym_times_inv K n solveV sigma (dhinv K sigma Dx) m old beta W alpha X i j =
  beta *! (if i <=? j then W i j else W j i) +! alpha *! inner (X i) u.
Proof.
  intros HM HD HN HV. unfold sym_times_inv. set (Dh := dhinv K sigma Dx) in *. set (l := length (m_S m)).
  set (r := fun b => if b <? l then xdz K n (fun p => sigma *! Dh p) (X j) (row K (m_S m) b) else xdz K n Dh (X j) (row K (m_Y m) (b - l))).
  assert (ER : forall k, r k = vrhs K n sigma Dh m (X j) k).
  { intros k. unfold r, vrhs. fold l. destruct (k <? l); unfold xdz, vdot; apply sumn_ext; intros; ring. }
  pose proof (solve_gen sigma Dx ps m old (X j) r HM HD HN HV ER) as U. cbv zeta in U. fold l in U. fold Dh in U.
  cbv zeta. fold r. set (z2 := if l =? 0 then r else _) in *. eexists. split; [exact U|]. clear U.
  match goal with |- _ = _ +! _ *! inner _ ?u => assert (XI : inner (X i) u
     = xdz K n Dh (X i) (X j) -! sumn l (fun b => xdz K n (fun p => sigma *! Dh p) (X i) (row K (m_S m) b) *! z2 b) -! sumn l (fun b => xdz K n Dh (X i) (row K (m_Y m) b) *! z2 (l + b))) end.
  { rewrite (inner_ext K n _ (X i) _ (fun p => (X j p *! Dh p -! sumn l (fun b => sigma *! Dh p *! row K (m_S m) b p *! z2 b)) -! sumn l (fun b => Dh p *! row K (m_Y m) b p *! z2 (l + b))) (fun p _ => eq_refl)).
    2:{ intros p Hp. rewrite (sumn_ext _ l (fun b => sigma *! Dh p *! row K (m_S m) b p *! z2 b) (fun b => (sigma *! Dh p) *! (row K (m_S m) b p *! z2 b))) by (intros; ring).
        rewrite (sumn_ext _ l (fun b => Dh p *! row K (m_Y m) b p *! z2 (l + b)) (fun b => Dh p *! (row K (m_Y m) b p *! z2 (l + b)))) by (intros; ring).
        rewrite !sumn_scale. ring. }
    rewrite !inner_sub, !inner_sum. f_equal; [f_equal|].
    - unfold xdz. apply sumn_ext. intros. ring.
    - apply sumn_ext. intros b _. unfold HessAlgSpec.inner, xdz. rewrite <- sumn_scale_r. apply sumn_ext. intros. ring.
    - apply sumn_ext. intros b _. unfold HessAlgSpec.inner, xdz. rewrite <- sumn_scale_r. apply sumn_ext. intros. ring. }
  rewrite XI. destruct (i <=? j); [ring|]. rewrite (xdz_comm K n Dh (X j)). ring.
Qed.

(** *** the product *)
Variables (sq : K -> K) (small : K -> bool) (eps : K).
Notation ab_next := (ab_next K n sq small eps).
Notation ab_all := (ab_all K n sq small eps).
Notation times_vec := (times_vec K n sq small eps).

(** the square roots taken are exact and no curvature is replaced by epsilon *)
Definition roots_ok (sigma : K) (ps : list (vec * vec)) : Prop :=
  forall a q b, ps = a ++ q :: b ->
    small (inner (snd q) (fst q)) = false /\
    sq (inner (snd q) (fst q)) *! sq (inner (snd q) (fst q)) = inner (snd q) (fst q) /\
    (forall v, v = inner (bfgs sigma a (fst q)) (fst q) -> sq v *! sq v = v).

Lemma fold_pairs (c : vec * vec -> vec -> nat -> K) (l : list (vec * vec)) : forall (a : vec) p,
  (forall q w, c q w p = w p +! c q (fun _ => f0) p) ->
  fold_left (fun (w : vec) q => c q w) l a p = a p +! lsum (map (fun q => c q (fun _ => f0) p) l).
Proof.
  induction l as [|q l IH]; intros a p H; cbn; [ring|]. rewrite IH by exact H. rewrite (H q a). ring.
Qed.

Lemma inner_scale_l c (a b : vec) : inner (fun p => c *! a p) b = c *! inner a b.
Proof. unfold HessAlgSpec.inner. rewrite <- sumn_scale. apply sumn_ext. intros. ring. Qed.
Lemma ab_all_snoc sigma ps q : ab_all sigma (ps ++ [q]) = ab_all sigma ps ++ [ab_next sigma (ab_all sigma ps) (fst q) (snd q)].
Proof. unfold HessAlgModel.ab_all. rewrite fold_left_app. reflexivity. Qed.

Lemma ab_ok sigma ps : defined sigma ps -> roots_ok sigma ps -> forall x,
  eqv (bfgs sigma ps x) (fun p => sigma *! x p +! lsum (map (fun q => inner (snd q) x *! snd q p -! inner (fst q) x *! fst q p) (ab_all sigma ps))).
Proof.
  induction ps as [|q ps IH] using rev_ind; intros HD HR x p Hp.
  - cbn. ring.
  - assert (HD' : defined sigma ps).
    { intros a r b ->. apply (HD a r (b ++ [q])). rewrite <- app_assoc. reflexivity. }
    assert (HR' : roots_ok sigma ps).
    { intros a r b ->. apply (HR a r (b ++ [q])). rewrite <- app_assoc. reflexivity. }
    destruct (HD ps q [] eq_refl) as (N1 & N2). destruct (HR ps q [] eq_refl) as (R1 & R2 & R3).
    specialize (IH HD' HR'). rewrite bfgs_snoc, ab_all_snoc, map_app, lsum_app. cbn [map lsum].
    unfold HessAlgModel.ab_next. cbv zeta. cbn [fst snd].
    set (abs := ab_all sigma ps) in *.
    change (vdot K n (snd q) (fst q)) with (inner (snd q) (fst q)). rewrite R1.
    set (a1 := fold_left _ abs _).
    assert (EA : eqv a1 (bfgs sigma ps (fst q))).
    { intros r Hr. rewrite (IH (fst q) r Hr). unfold a1.
      rewrite (fold_pairs (fun (t : vec * vec) (w : vec) => fun u => w u +! vdot K n (snd t) (fst q) *! snd t u +! (f0 -! vdot K n (fst t) (fst q)) *! fst t u)) by (intros; ring).
      f_equal. apply lsum_ext. intros t _. change (vdot K n) with inner. ring. }
    assert (EV : vdot K n a1 (fst q) = inner (bfgs sigma ps (fst q)) (fst q)).
    { apply (inner_ext K n a1 (bfgs sigma ps (fst q)) (fst q) (fst q) EA). intros ? ?; reflexivity. }
    rewrite EV. set (v := inner (bfgs sigma ps (fst q)) (fst q)) in *.
    specialize (R3 v eq_refl).
    assert (NV : v <> f0) by (unfold v; rewrite (inner_comm K n _ (fst q)); exact N1).
    assert (NS : sq v <> f0) by (intros E; rewrite E in R3; apply NV; rewrite <- R3; ring).
    set (w := inner (snd q) (fst q)) in *.
    assert (NW : w <> f0) by (unfold w; rewrite (inner_comm K n _ (fst q)); exact N2).
    assert (NT : sq w <> f0) by (intros E; rewrite E in R2; apply NW; rewrite <- R2; ring).
    unfold HessAlgSpec.bfgs_update. rewrite (IH x p Hp).
    replace (inner (fun p0 => f1 /! sq w *! snd q p0) x) with (f1 /! sq w *! inner (snd q) x) by (symmetry; apply inner_scale_l).
    replace (inner (fun p0 => f1 /! sq v *! a1 p0) x) with (f1 /! sq v *! inner (bfgs sigma ps (fst q)) x).
    2:{ rewrite inner_scale_l. f_equal. apply inner_ext; [intros r Hr; symmetry; apply EA; exact Hr|intros ? ?; reflexivity]. }
    rewrite (EA p Hp).
    replace (inner (fst q) (bfgs sigma ps (fst q))) with (sq v *! sq v) by (rewrite R3; unfold v; apply inner_comm).
    replace (inner (fst q) (snd q)) with (sq w *! sq w) by (rewrite R2; unfold w; apply inner_comm).
    field. split; assumption.
Qed.

Lemma combine_mem ps m : mem_of f0 inner inner ps m -> combine (m_S m) (m_Y m) = ps.
Proof.
  intros (HS & HY & _). rewrite HS, HY. clear. induction ps as [|[a b] ps IH]; [reflexivity|]. cbn. rewrite IH. reflexivity.
Qed.

Lemma times_vec_ok sigma Dx ps m beta y alpha x : mem_of f0 inner inner ps m -> defined sigma ps -> roots_ok sigma ps ->
  eqv (times_vec sigma Dx m beta y alpha x) (fun p => beta *! y p +! alpha *! (bfgs sigma ps x p +! Dx p *! x p)).
Proof.
  intros HM HD HR p Hp. unfold HessAlgModel.times_vec. rewrite (combine_mem ps m HM).
  rewrite (fold_pairs (fun (q : vec * vec) (w : vec) => fun p0 => w p0 +! alpha *! vdot K n (snd q) x *! snd q p0 +! (f0 -! alpha *! vdot K n (fst q) x) *! fst q p0)) by (intros; ring).
  rewrite (ab_ok sigma ps HD HR x p Hp).
  rewrite (lsum_ext K _ (fun q : vec * vec => alpha *! (inner (snd q) x *! snd q p -! inner (fst q) x *! fst q p))).
  2:{ intros q _. change (vdot K n) with inner. ring. }
  rewrite lsum_scale. ring.
Qed.

(** the newest secant equation *)
Lemma secant sigma ps s y : defined sigma (ps ++ [(s, y)]) -> eqv (bfgs sigma (ps ++ [(s, y)]) s) y.
Proof.
  intros HD p Hp. destruct (HD ps (s, y) [] eq_refl) as (N1 & N2). cbn [fst snd] in *.
  rewrite bfgs_snoc. unfold HessAlgSpec.bfgs_update. cbn [fst snd].
  rewrite (inner_comm K n (bfgs sigma ps s) s), (inner_comm K n y s). field. split; assumption.
Qed.
End P.

(** *** positive definiteness, over the rationals *)
Section Q.
Variable n : nat.
Notation vec := (nat -> Qc_field).
Notation inner := (inner Qc_field n).
Notation bfgs := (bfgs Qc_field n).
Notation eqv := (eqv Qc_field n).
Open Scope Qc_scope.
Lemma qsq (x : Qc) : 0 <= x * x.
Proof.
  destruct (Qc_dec x 0) as [[H|H]| ->].
  - replace (x * x) with ((- x) * (- x)) by ring. rewrite <- (Qcmult_0_l (- x)). apply Qcmult_le_compat_r; [|apply Qclt_le_weak in H; apply Qcopp_le_compat in H; exact H].
    apply Qclt_le_weak in H. apply Qcopp_le_compat in H. exact H.
  - rewrite <- (Qcmult_0_l x). apply Qcmult_le_compat_r; apply Qclt_le_weak; exact H.
  - rewrite Qcmult_0_l. apply Qcle_refl.
Qed.
Lemma qsq0 (x : Qc) : x * x = 0 -> x = 0.
Proof. intros H. apply Qcmult_integral in H. tauto. Qed.
Lemma qadd_nn (a b : Qc) : 0 <= a -> 0 <= b -> 0 <= a + b.
Proof. intros. replace 0 with (0 + 0) by reflexivity. apply Qcplus_le_compat; assumption. Qed.
Lemma qadd_z (a b : Qc) : 0 <= a -> 0 <= b -> a + b = 0 -> a = 0 /\ b = 0.
Proof.
  intros A B E. assert (a <= 0). { rewrite <- E. replace a with (a + 0) at 1 by ring. apply Qcplus_le_compat; [apply Qcle_refl|exact B]. }
  assert (a = 0) by (apply Qcle_antisym; assumption). subst. split; [reflexivity|]. rewrite Qcplus_0_l in E. exact E.
Qed.
Lemma qmul_nn (a b : Qc) : 0 <= a -> 0 <= b -> 0 <= a * b.
Proof. intros. rewrite <- (Qcmult_0_l b). apply Qcmult_le_compat_r; assumption. Qed.
Lemma qinv_pos (a : Qc) : 0 < a -> 0 < / a.
Proof.
  intros H. assert (NZ : a <> 0) by (intros ->; apply (Qclt_not_eq _ _ H); reflexivity).
  destruct (Qclt_le_dec 0 (/ a)) as [L|L]; [exact L|]. exfalso.
  assert (a * / a <= 0). { rewrite Qcmult_comm. rewrite <- (Qcmult_0_l a). apply Qcmult_le_compat_r; [exact L|apply Qclt_le_weak; exact H]. }
  rewrite Qcmult_inv_r in H0 by exact NZ. revert H0. unfold Qcle. cbn. unfold Qle. cbn. lia.
Qed.

Lemma qid (A c v yx d : Qc) : v <> 0 -> d <> 0 -> A - c / v * c + yx / d * yx = A - c / v * c - c / v * (c - c / v * v) + yx * yx * / d.
Proof. intros. field. split; assumption. Qed.
Lemma qsub0 (a b : Qc) : a - b = 0 -> a = b.
Proof. intros H. replace a with (a - b + b) by ring. rewrite H. ring. Qed.
Lemma qmul0 (a : Qc) : 0 * a = 0. Proof. ring. Qed.
Lemma sum_nn m (f : nat -> Qc) : (forall i, (i < m)%nat -> 0 <= f i) -> 0 <= @sumn Qc_field m f /\ (@sumn Qc_field m f = 0 -> forall i, (i < m)%nat -> f i = 0).
Proof.
  induction m as [|m IH]; intros H.
  - split; [apply Qcle_refl|lia].
  - rewrite (sumn_S Qc_field). destruct IH as (I1 & I2); [auto|]. change (@fadd Qc_field) with Qcplus.
    assert (0 <= f m) by (apply H; lia). split; [apply qadd_nn; auto|].
    intros E i Hi. apply qadd_z in E as (E1 & E2); auto. destruct (Nat.eq_dec i m) as [->|]; [exact E2|]. apply I2; auto. lia.
Qed.

Definition pd (B : vec -> vec) : Prop :=
  forall x, 0 <= inner x (B x) /\ (inner x (B x) = 0 -> eqv x (fun _ => 0)).

Lemma pd_bfgs (sigma : Qc_field) ps : 0 < sigma -> Forall (fun q => 0 < inner (fst q) (snd q)) ps ->
  pd (bfgs sigma ps) /\ HessAlgSpec.defined Qc_field n sigma ps.
Proof.
  intros HS. induction ps as [|[s y] ps IH] using rev_ind; intros HF.
  - split.
    + intros x. unfold HessAlgSpec.bfgs. cbn [fold_left].
      assert (H : forall i, (i < n)%nat -> 0 <= x i *! (sigma *! x i)).
      { intros i _. change (0 <= x i * (sigma * x i)). replace (x i * (sigma * x i)) with (sigma * (x i * x i)) by ring.
        apply qmul_nn; [apply Qclt_le_weak; exact HS|apply qsq]. }
      destruct (sum_nn n (fun i => x i *! (sigma *! x i)) H) as (H1 & H2). split; [exact H1|].
      intros E p Hp. specialize (H2 E p Hp). change (x p * (sigma * x p) = 0) in H2.
      apply qsq0. apply Qcmult_integral in H2. destruct H2 as [->|H2]; [ring|]. apply Qcmult_integral in H2.
      destruct H2 as [->| ->]; [exfalso; apply (Qclt_not_eq _ _ HS); reflexivity|ring].
    + intros a q b E. destruct a; discriminate.
  - apply Forall_app in HF as (HF1 & HF2). inversion HF2 as [|? ? HP _]; subst. cbn [fst snd] in HP.
    destruct (IH HF1) as (PD & DF).
    assert (NY : inner s y <> 0) by (intros E; rewrite E in HP; apply (Qclt_not_eq _ _ HP); reflexivity).
    assert (V0 : inner s (bfgs sigma ps s) <> 0).
    { intros E. destruct (PD s) as (_ & Z). specialize (Z E). apply NY. unfold HessAlgSpec.inner. apply (sumn_zero Qc_field).
      intros p Hp. rewrite (Z p Hp). exact (qmul0 (y p)). }
    split.
    + intros x. rewrite bfgs_snoc. unfold HessAlgSpec.bfgs_update. cbn [fst snd].
      set (v := inner s (bfgs sigma ps s)) in *. set (c := inner (bfgs sigma ps s) x). set (d := inner s y) in *.
      set (t := c /! v).
      set (x' := fun p => x p -! t *! s p).
      assert (EQ : inner x (fun p => bfgs sigma ps x p -! c /! v *! bfgs sigma ps s p +! inner y x /! d *! y p)
                   = inner x' (bfgs sigma ps x') + (inner y x * inner y x) * / d).
      { rewrite inner_add, inner_sub, !inner_scale.
        replace (inner x' (bfgs sigma ps x')) with (inner x' (fun p => bfgs sigma ps x p -! t *! bfgs sigma ps s p)) by (symmetry; exact (inner_ext Qc_field n x' x' _ _ (fun p _ => eq_refl) (bfgs_lin Qc_field n sigma ps x t s))).
        rewrite inner_sub, inner_scale.
        rewrite (inner_comm Qc_field n x' (bfgs sigma ps x)), (inner_comm Qc_field n x' (bfgs sigma ps s)). unfold x'. rewrite !inner_sub, !inner_scale.
        rewrite (inner_comm Qc_field n (bfgs sigma ps x) x).
        replace (inner (bfgs sigma ps x) s) with c by (unfold c; rewrite <- bfgs_sym; reflexivity || (rewrite (inner_comm Qc_field n (bfgs sigma ps x) s), bfgs_sym; reflexivity)).
        rewrite (inner_comm Qc_field n (bfgs sigma ps s) s). fold v. fold c.
        rewrite (inner_comm Qc_field n x (bfgs sigma ps s)), (inner_comm Qc_field n x y). fold c.
        exact (qid _ c v (inner y x) d V0 NY). }
      match goal with |- _ <= ?e /\ _ => change e with (inner x (fun p => bfgs sigma ps x p -! c /! v *! bfgs sigma ps s p +! inner y x /! d *! y p)) end. rewrite EQ. destruct (PD x') as (P1 & P2).
      assert (ND : 0 <= (inner y x * inner y x) * / d) by (apply qmul_nn; [apply qsq|apply Qclt_le_weak, qinv_pos; exact HP]).
      split; [apply qadd_nn; auto|].
      intros E. apply qadd_z in E as (E1 & E2); auto. specialize (P2 E1).
      assert (YX : inner y x = 0).
      { apply qsq0. apply Qcmult_integral in E2. destruct E2 as [E2|E2]; [exact E2|].
        exfalso. apply (Qclt_not_eq _ _ (qinv_pos d HP)). symmetry. exact E2. }
      assert (XE : eqv x (fun p => t *! s p)).
      { intros p Hp. specialize (P2 p Hp). exact (qsub0 (x p) (t * s p) P2). }
      assert (T0 : t = 0).
      { rewrite (inner_ext Qc_field n y y _ _ (fun p _ => eq_refl) XE) in YX. rewrite inner_scale, (inner_comm Qc_field n y s) in YX.
        apply Qcmult_integral in YX. destruct YX as [YX|YX]; [exact YX|contradiction]. }
      intros p Hp. rewrite (XE p Hp), T0. exact (qmul0 (s p)).
    + intros a q b E. destruct b as [|r b] using rev_ind.
      * apply app_inj_tail in E as (<- & <-). cbn [fst snd]. split; assumption.
      * rewrite app_comm_cons, app_assoc in E. apply app_inj_tail in E as (-> & _). apply (DF a q b eq_refl).
Qed.
End Q.
