From Coq Require Import List Bool Arith Lia Ring Field.
From Verif Require Import RingKit.
From Verif Require Import PackModel HessModel HessSpec HessAlgModel HessAlgSpec.
Import ListNotations.

Section P.
Variable K : cfield.
Add Field kf : (fth K).
Variable n : nat.
Notation vec := (nat -> K).
Notation inner := (inner K n).
Notation bfgs := (bfgs K n).
Notation bfgs_update := (bfgs_update K n).
Notation defined := (defined K n).

Lemma div_def (a b : K) : a /! b = a *! finv b.
Proof. exact (Field_theory.Fdiv_def (fth K) a b). Qed.
Lemma sumn_app a b (f : nat -> K) : sumn (a + b) f = sumn a f +! sumn b (fun i => f (a + i)).
Proof.
  induction b as [|b IH]; [rewrite Nat.add_0_r; unfold sumn at 3; cbn; ring|].
  rewrite Nat.add_succ_r, !sumn_S, IH. ring.
Qed.
Lemma sumn_scale_r m c (f : nat -> K) : sumn m (fun i => f i *! c) = sumn m f *! c.
Proof. apply lsum_scale_r. Qed.

Definition eqv (a b : vec) : Prop := forall p, p < n -> a p = b p.
Lemma inner_ext a a' b b' : eqv a a' -> eqv b b' -> inner a b = inner a' b'.
Proof. intros H1 H2. apply sumn_ext. intros p Hp. rewrite H1, H2 by exact Hp. reflexivity. Qed.
Lemma inner_comm a b : inner a b = inner b a.
Proof. apply sumn_ext. intros. ring. Qed.
Lemma inner_add a b c : inner a (fun p => b p +! c p) = inner a b +! inner a c.
Proof. unfold HessAlgSpec.inner. rewrite <- sumn_add. apply sumn_ext. intros. ring. Qed.
Lemma inner_scale a c b : inner a (fun p => c *! b p) = c *! inner a b.
Proof. unfold HessAlgSpec.inner. rewrite <- sumn_scale. apply sumn_ext. intros. ring. Qed.
Lemma inner_sub a b c : inner a (fun p => b p -! c p) = inner a b -! inner a c.
Proof.
  replace (inner a b -! inner a c) with (inner a b +! (f0 -! f1) *! inner a c) by ring.
  rewrite <- inner_scale, <- inner_add. apply inner_ext; intros p Hp; ring.
Qed.
Lemma inner_sum a m (f : nat -> vec) : inner a (fun p => sumn m (fun j => f j p)) = sumn m (fun j => inner a (f j)).
Proof.
  unfold HessAlgSpec.inner. rewrite sumn_swap. apply sumn_ext. intros p Hp. rewrite <- sumn_scale. reflexivity.
Qed.

Lemma bfgs_snoc sigma ps q : bfgs sigma (ps ++ [q]) = bfgs_update (bfgs sigma ps) q.
Proof. unfold HessAlgSpec.bfgs. rewrite fold_left_app. reflexivity. Qed.
Lemma bfgs_ext sigma ps : forall x x', eqv x x' -> eqv (bfgs sigma ps x) (bfgs sigma ps x').
Proof.
  induction ps as [|q ps IH] using rev_ind; intros x x' H p Hp.
  - cbn. rewrite H by exact Hp. reflexivity.
  - rewrite bfgs_snoc. unfold HessAlgSpec.bfgs_update. rewrite (IH x x' H p Hp).
    rewrite (inner_ext _ (bfgs sigma ps (fst q)) x x' (fun p _ => eq_refl) H).
    rewrite (inner_ext (snd q) (snd q) x x' (fun p _ => eq_refl) H). reflexivity.
Qed.
Lemma bfgs_lin sigma ps : forall x c t, eqv (bfgs sigma ps (fun p => x p -! c *! t p)) (fun p => bfgs sigma ps x p -! c *! bfgs sigma ps t p).
Proof.
  induction ps as [|q ps IH] using rev_ind; intros x c t p Hp.
  - cbn. ring.
  - rewrite bfgs_snoc. unfold HessAlgSpec.bfgs_update. rewrite (IH x c t p Hp).
    rewrite !inner_sub, !inner_scale, !div_def. ring.
Qed.
Lemma bfgs_sym sigma ps : forall a b, inner a (bfgs sigma ps b) = inner (bfgs sigma ps a) b.
Proof.
  induction ps as [|q ps IH] using rev_ind; intros a b.
  - unfold HessAlgSpec.bfgs. cbn [fold_left]. rewrite inner_scale, (inner_comm (fun p => sigma *! a p) b), inner_scale, (inner_comm a b). reflexivity.
  - rewrite bfgs_snoc. unfold HessAlgSpec.bfgs_update. match goal with |- _ = HessAlgSpec.inner _ _ ?u b => rewrite (inner_comm u b) end.
    rewrite !inner_add, !inner_sub, !inner_scale. rewrite IH, (inner_comm b (bfgs sigma ps a)).
    rewrite (inner_comm a (bfgs sigma ps (fst q))), (inner_comm b (bfgs sigma ps (fst q))), (inner_comm a (snd q)), (inner_comm b (snd q)).
    rewrite !div_def. ring.
Qed.

Definition dq : vec * vec := (fun _ => f0, fun _ => f0).
Definition sv (ps : list (vec * vec)) (i : nat) : vec := fst (nth i ps dq).
Definition yv (ps : list (vec * vec)) (i : nat) : vec := snd (nth i ps dq).

(** the compact representation is the BFGS matrix *)
Lemma compact sigma ps : defined sigma ps -> forall (ws wy x : vec),
  (forall i, i < length ps ->
     sumn (length ps) (fun j => sigma *! inner (sv ps i) (sv ps j) *! ws j) +!
     sumn (length ps) (fun j => if j <? i then inner (sv ps i) (yv ps j) *! wy j else f0) = sigma *! inner (sv ps i) x) ->
  (forall j, j < length ps ->
     sumn (length ps) (fun i => if j <? i then inner (sv ps i) (yv ps j) *! ws i else f0) -!
     inner (sv ps j) (yv ps j) *! wy j = inner (yv ps j) x) ->
  eqv (bfgs sigma ps x) (fun p => sigma *! x p -! sumn (length ps) (fun j => sigma *! sv ps j p *! ws j +! yv ps j p *! wy j)).
Proof.
  induction ps as [|[s y] ps IH] using rev_ind; intros HD ws wy x HS HY p Hp.
  - cbn. unfold sumn. cbn. ring.
  - assert (HD' : defined sigma ps).
    { intros a q b ->. apply (HD a q (b ++ [(s, y)])). rewrite <- app_assoc. reflexivity. }
    destruct (HD ps (s, y) [] eq_refl) as (N1 & N2). cbn [fst snd] in N1, N2.
    set (l := length ps) in *.
    assert (LL : length (ps ++ [(s, y)]) = S l) by (rewrite app_length; cbn; unfold l; lia).
    rewrite LL in *.
    assert (ES : forall i, i < l -> sv (ps ++ [(s, y)]) i = sv ps i) by (intros i Hi; unfold sv; rewrite app_nth1 by exact Hi; reflexivity).
    assert (EY : forall i, i < l -> yv (ps ++ [(s, y)]) i = yv ps i) by (intros i Hi; unfold yv; rewrite app_nth1 by exact Hi; reflexivity).
    assert (ESl : sv (ps ++ [(s, y)]) l = s) by (unfold sv; rewrite app_nth2 by (fold l; lia); fold l; rewrite Nat.sub_diag; reflexivity).
    assert (EYl : yv (ps ++ [(s, y)]) l = y) by (unfold yv; rewrite app_nth2 by (fold l; lia); fold l; rewrite Nat.sub_diag; reflexivity).
    set (om := ws l) in *. set (x' := fun p => x p -! om *! s p).
    assert (HB : eqv (bfgs sigma ps x') (fun p => sigma *! x' p -! sumn l (fun j => sigma *! sv ps j p *! ws j +! yv ps j p *! wy j))).
    { apply IH; [exact HD'| |].
      - intros i Hi. specialize (HS i ltac:(lia)). rewrite !sumn_S in HS. rewrite ESl, EYl, (ES i Hi) in HS.
        destruct (Nat.ltb_spec l i); [lia|].
        rewrite (sumn_ext _ _ _ (fun j => sigma *! inner (sv ps i) (sv ps j) *! ws j)) in HS by (intros j Hj; rewrite ES by exact Hj; reflexivity).
        rewrite (sumn_ext _ _ (fun j => if j <? i then _ else f0) (fun j => if j <? i then inner (sv ps i) (yv ps j) *! wy j else f0)) in HS by (intros j Hj; rewrite EY by exact Hj; reflexivity).
        unfold x'. rewrite inner_sub, inner_scale. fold om in HS.
        replace (sigma *! (inner (sv ps i) x -! om *! inner (sv ps i) s)) with (sigma *! inner (sv ps i) x -! sigma *! inner (sv ps i) s *! om) by ring.
        rewrite <- HS. ring.
      - intros j Hj. specialize (HY j ltac:(lia)). rewrite !sumn_S in HY. rewrite ESl in HY. rewrite (ES j Hj), (EY j Hj) in HY.
        destruct (Nat.ltb_spec j l); [|lia].
        rewrite (sumn_ext _ _ _ (fun i => if j <? i then inner (sv ps i) (yv ps j) *! ws i else f0)) in HY by (intros i Hi; rewrite ES by exact Hi; reflexivity).
        unfold x'. rewrite inner_sub, inner_scale. fold om in HY. rewrite <- HY. rewrite (inner_comm (yv ps j) s). ring. }
    assert (HZ : inner s (bfgs sigma ps x') = f0).
    { rewrite (inner_ext s s _ _ (fun p _ => eq_refl) HB). rewrite inner_sub, inner_scale, inner_sum.
      specialize (HS l ltac:(lia)). rewrite !sumn_S in HS. rewrite ESl, EYl in HS. rewrite Nat.ltb_irrefl in HS.
      rewrite (sumn_ext _ _ _ (fun j => sigma *! inner s (sv ps j) *! ws j)) in HS by (intros j Hj; rewrite ES by exact Hj; reflexivity).
      rewrite (sumn_ext _ _ (fun j => if j <? l then _ else f0) (fun j => inner s (yv ps j) *! wy j)) in HS.
      2:{ intros j Hj. rewrite EY by exact Hj. destruct (Nat.ltb_spec j l); [reflexivity|lia]. }
      rewrite (sumn_ext _ l (fun j => inner s _) (fun j => sigma *! inner s (sv ps j) *! ws j +! inner s (yv ps j) *! wy j)).
      2:{ intros j Hj. rewrite inner_add. f_equal.
          - rewrite (inner_ext s s _ (fun p => (sigma *! ws j) *! sv ps j p) (fun p _ => eq_refl)) by (intros ? ?; ring). rewrite inner_scale. ring.
          - rewrite (inner_ext s s _ (fun p => wy j *! yv ps j p) (fun p _ => eq_refl)) by (intros ? ?; ring). rewrite inner_scale. ring. }
      rewrite sumn_add. unfold x'. rewrite inner_sub, inner_scale. fold om in HS.
      replace (sigma *! (inner s x -! om *! inner s s)) with (sigma *! inner s x -! sigma *! inner s s *! om) by ring.
      rewrite <- HS. ring. }
    assert (HO : inner (bfgs sigma ps s) x = om *! inner s (bfgs sigma ps s)).
    { unfold x' in HZ. rewrite (inner_ext s s _ _ (fun p _ => eq_refl) (bfgs_lin sigma ps x om s)) in HZ. rewrite inner_sub, inner_scale, bfgs_sym in HZ.
      replace (inner (bfgs sigma ps s) x) with ((inner (bfgs sigma ps s) x -! om *! inner s (bfgs sigma ps s)) +! om *! inner s (bfgs sigma ps s)) by ring.
      rewrite HZ. ring. }
    assert (HW : inner y x = f0 -! inner s y *! wy l).
    { specialize (HY l ltac:(lia)). rewrite ESl, EYl in HY. rewrite <- HY. rewrite sumn_zero; [ring|].
      intros i Hi. destruct (Nat.ltb_spec l i); [lia|reflexivity]. }
    rewrite bfgs_snoc. unfold HessAlgSpec.bfgs_update. cbn [fst snd].
    rewrite HO, HW.
    pose proof (HB p Hp) as HBp. unfold x' in HBp. rewrite (bfgs_lin sigma ps x om s p Hp) in HBp. cbv beta in HBp.
    rewrite sumn_S, ESl, EYl. fold om.
    rewrite (sumn_ext _ l _ (fun j => sigma *! sv ps j p *! ws j +! yv ps j p *! wy j)) by (intros j Hj; rewrite ES, EY by exact Hj; reflexivity).
    replace (bfgs sigma ps x p) with ((bfgs sigma ps x p -! om *! bfgs sigma ps s p) +! om *! bfgs sigma ps s p) by ring.
    rewrite HBp. field. split; assumption.
Qed.

(** *** the solve *)
Notation hsolve := (hsolve K n).
Notation vmat := (vmat K n).
Notation vrhs := (vrhs K n).
Notation xdz := (xdz K n).

Lemma xdz_comm d a b : xdz d a b = xdz d b a.
Proof. apply sumn_ext. intros. ring. Qed.

Section Solve.
Variables (sigma : K) (Dx Dh : vec) (ps : list (vec * vec)) (m : mem vec K) (old : nat -> nat -> K).
Hypothesis HM : mem_of f0 inner inner ps m.
Hypothesis HDh : forall p, p < n -> (sigma +! Dx p) *! Dh p = f1.
Let l := length ps.

Lemma len_S : length (m_S m) = l.
Proof. destruct HM as (H & _). rewrite H. apply map_length. Qed.
Lemma row_S i : i < l -> row K (m_S m) i = sv ps i.
Proof. intros Hi. destruct HM as (H & _). unfold row, sv. rewrite H. change (fun _ : nat => f0) with (fst dq). apply map_nth. Qed.
Lemma row_Y i : i < l -> row K (m_Y m) i = yv ps i.
Proof. intros Hi. destruct HM as (_ & H & _). unfold row, yv. rewrite H. change (fun _ : nat => f0) with (snd dq). apply map_nth. Qed.
Lemma L_at i j : i < l -> j < l -> nth (i * l + j) (m_L m) f0 = if j <? i then inner (sv ps i) (yv ps j) else f0.
Proof.
  intros Hi Hj. destruct HM as (_ & _ & _ & _ & H). specialize (H i j (nth i ps dq) (nth j ps dq)).
  fold l in H. rewrite !nth_error_nth' with (d := dq) in H by assumption.
  specialize (H eq_refl eq_refl). apply nth_error_nth with (d := f0) in H. rewrite H.
  destruct (j <? i); [|reflexivity]. apply inner_comm.
Qed.
Lemma D_at i : i < l -> nth i (m_D m) f0 = inner (sv ps i) (yv ps i).
Proof.
  intros Hi. destruct HM as (_ & _ & H & _). rewrite H.
  rewrite (nth_indep _ f0 (inner (fst dq) (snd dq))) by (rewrite map_length; exact Hi).
  change (inner (fst dq) (snd dq)) with ((fun p => inner (fst p) (snd p)) dq). rewrite map_nth. reflexivity.
Qed.

(** z solves the small system, x is formed from it *)
Lemma woodbury (res z : vec) :
  solves K (2 * l) (upper K (vmat sigma Dh m old)) (vrhs sigma Dh m res) z -> defined sigma ps ->
  let x := fun p => res p *! Dh p -! (sigma *! sumn l (fun i => sv ps i p *! z i) +! sumn l (fun i => yv ps i p *! z (l + i))) *! Dh p in
  eqv (fun p => bfgs sigma ps x p +! Dx p *! x p) res.
Proof.
  intros HV HD x.
  assert (VS : forall i j, i < l -> j < l -> upper K (vmat sigma Dh m old) i j = xdz (fun p => sigma *! (sigma *! Dh p -! f1)) (sv ps i) (sv ps j)).
  { intros i j Hi Hj. unfold upper, HessAlgModel.vmat. rewrite len_S.
    destruct (Nat.leb_spec i j).
    - destruct (Nat.ltb_spec i l), (Nat.ltb_spec j l); try lia. rewrite !row_S by assumption. reflexivity.
    - destruct (Nat.ltb_spec i l), (Nat.ltb_spec j l); try lia. rewrite !row_S by assumption. apply xdz_comm. }
  assert (VSY : forall i j, i < l -> j < l -> upper K (vmat sigma Dh m old) i (l + j) =
     xdz (fun p => sigma *! Dh p) (sv ps i) (yv ps j) -! (if j <? i then inner (sv ps i) (yv ps j) else f0)).
  { intros i j Hi Hj. unfold upper, HessAlgModel.vmat. rewrite len_S.
    destruct (Nat.leb_spec i (l + j)); [|lia].
    destruct (Nat.ltb_spec i l), (Nat.ltb_spec (l + j) l); try lia. replace (l + j - l) with j by lia.
    rewrite row_S, row_Y, L_at by assumption. reflexivity. }
  assert (VYS : forall i j, i < l -> j < l -> upper K (vmat sigma Dh m old) (l + j) i = upper K (vmat sigma Dh m old) i (l + j)).
  { intros i j Hi Hj. unfold upper. destruct (Nat.leb_spec (l + j) i), (Nat.leb_spec i (l + j)); try lia. reflexivity. }
  assert (VY : forall i j, i < l -> j < l -> upper K (vmat sigma Dh m old) (l + i) (l + j) =
     xdz Dh (yv ps i) (yv ps j) +! (if i =? j then inner (sv ps i) (yv ps i) else f0)).
  { intros i j Hi Hj. unfold upper, HessAlgModel.vmat. rewrite len_S.
    assert (EQ : (l + i =? l + j) = (i =? j)) by (destruct (Nat.eqb_spec i j), (Nat.eqb_spec (l + i) (l + j)); lia || reflexivity).
    destruct (Nat.leb_spec (l + i) (l + j)).
    - destruct (Nat.ltb_spec (l + i) l), (Nat.ltb_spec (l + j) l); try lia. replace (l + i - l) with i by lia. replace (l + j - l) with j by lia.
      rewrite !row_Y, EQ, D_at by assumption. reflexivity.
    - destruct (Nat.ltb_spec (l + i) l), (Nat.ltb_spec (l + j) l); try lia. replace (l + i - l) with i by lia. replace (l + j - l) with j by lia.
      destruct (Nat.eqb_spec (l + j) (l + i)); [lia|]. destruct (Nat.eqb_spec i j); [lia|].
      rewrite !row_Y by assumption. rewrite xdz_comm. reflexivity. }
  assert (RS : forall i, i < l -> vrhs sigma Dh m res i = sigma *! xdz Dh (sv ps i) res).
  { intros i Hi. unfold HessAlgModel.vrhs. rewrite len_S. destruct (Nat.ltb_spec i l); [|lia]. rewrite row_S by assumption.
    unfold HessAlgModel.vdot, HessAlgModel.xdz. rewrite <- sumn_scale. apply sumn_ext. intros. ring. }
  assert (RY : forall i, i < l -> vrhs sigma Dh m res (l + i) = xdz Dh (yv ps i) res).
  { intros i Hi. unfold HessAlgModel.vrhs. rewrite len_S. destruct (Nat.ltb_spec (l + i) l); [lia|]. replace (l + i - l) with i by lia. rewrite row_Y by assumption.
    unfold HessAlgModel.vdot, HessAlgModel.xdz. apply sumn_ext. intros. ring. }
  (* a . x *)
  assert (AX : forall a, inner a x = xdz Dh a res -! sumn l (fun j => sigma *! xdz Dh a (sv ps j) *! z j) -! sumn l (fun j => xdz Dh a (yv ps j) *! z (l + j))).
  { intros a. unfold x.
    rewrite (inner_ext a a _ (fun p => (res p *! Dh p -! sumn l (fun j => sigma *! Dh p *! sv ps j p *! z j)) -! sumn l (fun j => Dh p *! yv ps j p *! z (l + j))) (fun p _ => eq_refl)).
    2:{ intros p Hp. rewrite (sumn_ext _ l (fun j => sigma *! Dh p *! sv ps j p *! z j) (fun j => (sigma *! Dh p) *! (sv ps j p *! z j))) by (intros; ring).
        rewrite (sumn_ext _ l (fun j => Dh p *! yv ps j p *! z (l + j)) (fun j => Dh p *! (yv ps j p *! z (l + j)))) by (intros; ring).
        rewrite !sumn_scale. ring. }
    rewrite !inner_sub, !inner_sum. f_equal; [f_equal|].
    - apply sumn_ext. intros. ring.
    - apply sumn_ext. intros j Hj. unfold HessAlgSpec.inner, HessAlgModel.xdz.
      rewrite <- (sumn_scale K n sigma), <- sumn_scale_r. apply sumn_ext. intros. ring.
    - apply sumn_ext. intros j Hj. unfold HessAlgSpec.inner, HessAlgModel.xdz.
      rewrite <- sumn_scale_r. apply sumn_ext. intros. ring. }
  assert (XD : forall c a b, xdz (fun p => c *! Dh p) a b = c *! xdz Dh a b).
  { intros. unfold HessAlgModel.xdz. rewrite <- sumn_scale. apply sumn_ext. intros. ring. }
  assert (XT : forall a b, xdz (fun p => sigma *! (sigma *! Dh p -! f1)) a b = sigma *! sigma *! xdz Dh a b -! sigma *! inner a b).
  { intros. unfold HessAlgModel.xdz, HessAlgSpec.inner. rewrite <- !sumn_scale.
    replace (sumn n (fun i => sigma *! sigma *! (a i *! Dh i *! b i)) -! sumn n (fun i => sigma *! (a i *! b i)))
      with (sumn n (fun i => sigma *! sigma *! (a i *! Dh i *! b i)) +! (f0 -! f1) *! sumn n (fun i => sigma *! (a i *! b i))) by ring.
    rewrite <- (sumn_scale K n (f0 -! f1)), <- sumn_add. apply sumn_ext. intros. ring. }
  pose (ws := fun i => f0 -! z i). pose (wy := fun i => f0 -! z (l + i)).
  assert (NEG : forall k (f : nat -> K), sumn k (fun i => f0 -! f i) = f0 -! sumn k f).
  { intros k f. replace (f0 -! sumn k f) with ((f0 -! f1) *! sumn k f) by ring. rewrite <- sumn_scale. apply sumn_ext. intros. ring. }
  assert (EB : eqv (bfgs sigma ps x) (fun p => sigma *! x p -! sumn l (fun j => sigma *! sv ps j p *! ws j +! yv ps j p *! wy j))).
  { apply compact; [exact HD| |]; fold l.
    - intros i Hi. specialize (HV i ltac:(lia)). replace (2 * l) with (l + l) in HV by lia. rewrite sumn_app, RS in HV by exact Hi.
      rewrite AX.
      rewrite (sumn_ext _ l (fun j => upper K _ i j *! z j) (fun j => sigma *! (sigma *! xdz Dh (sv ps i) (sv ps j) *! z j) +! (f0 -! f1) *! (sigma *! inner (sv ps i) (sv ps j) *! z j))) in HV.
      2:{ intros j Hj. rewrite VS, XT by assumption. ring. }
      rewrite (sumn_ext _ l (fun j => upper K _ i (l + j) *! z (l + j)) (fun j => sigma *! (xdz Dh (sv ps i) (yv ps j) *! z (l + j)) +! (f0 -! f1) *! (if j <? i then inner (sv ps i) (yv ps j) *! z (l + j) else f0))) in HV.
      2:{ intros j Hj. rewrite VSY, XD by assumption. destruct (j <? i); ring. }
      rewrite !sumn_add, !sumn_scale in HV.
      rewrite (sumn_ext _ l (fun j => _ *! ws j) (fun j => f0 -! sigma *! inner (sv ps i) (sv ps j) *! z j)) by (intros; unfold ws; ring).
      rewrite (sumn_ext _ l (fun j => if j <? i then _ else f0) (fun j => f0 -! (if j <? i then inner (sv ps i) (yv ps j) *! z (l + j) else f0))).
      2:{ intros j Hj. unfold wy. destruct (j <? i); ring. }
      rewrite !NEG. 
      match type of HV with ?lhs = _ => replace (sigma *! (xdz Dh (sv ps i) res -! sumn l (fun j => sigma *! xdz Dh (sv ps i) (sv ps j) *! z j) -! sumn l (fun j => xdz Dh (sv ps i) (yv ps j) *! z (l + j))))
        with (sigma *! xdz Dh (sv ps i) res -! sigma *! sumn l (fun j => sigma *! xdz Dh (sv ps i) (sv ps j) *! z j) -! sigma *! sumn l (fun j => xdz Dh (sv ps i) (yv ps j) *! z (l + j))) by ring end.
      rewrite <- HV. ring.
    - intros j Hj. specialize (HV (l + j) ltac:(lia)). replace (2 * l) with (l + l) in HV by lia. rewrite sumn_app, RY in HV by exact Hj.
      rewrite AX.
      rewrite (sumn_ext _ l (fun i => upper K _ (l + j) i *! z i) (fun i => (sigma *! xdz Dh (yv ps j) (sv ps i) *! z i) +! (f0 -! f1) *! (if j <? i then inner (sv ps i) (yv ps j) *! z i else f0))) in HV.
      2:{ intros i Hi. rewrite VYS, VSY, XD by assumption. rewrite (xdz_comm Dh (sv ps i)). destruct (j <? i); ring. }
      rewrite (sumn_ext _ l (fun i => upper K _ (l + j) (l + i) *! z (l + i)) (fun i => (xdz Dh (yv ps j) (yv ps i) *! z (l + i)) +! (if j =? i then inner (sv ps j) (yv ps j) *! z (l + i) else f0))) in HV.
      2:{ intros i Hi. rewrite VY by assumption. destruct (j =? i); ring. }
      rewrite !sumn_add, !sumn_scale in HV.
      rewrite (sumn_pick K (fun i => inner (sv ps j) (yv ps j) *! z (l + i)) l j Hj) in HV.
      rewrite (sumn_ext _ l (fun i => if j <? i then _ else f0) (fun i => f0 -! (if j <? i then inner (sv ps i) (yv ps j) *! z i else f0))).
      2:{ intros i Hi. unfold ws. destruct (j <? i); ring. }
      rewrite NEG. unfold wy. rewrite <- HV. ring. }
  intros p Hp. rewrite (EB p Hp). 
  rewrite (sumn_ext _ l _ (fun j => (f0 -! sigma) *! (sv ps j p *! z j) +! (f0 -! f1) *! (yv ps j p *! z (l + j)))) by (intros; unfold ws, wy; ring).
  rewrite sumn_add, !sumn_scale. unfold x.
  set (A := sumn l (fun i => sv ps i p *! z i)). set (B := sumn l (fun i => yv ps i p *! z (l + i))).
  pose proof (HDh p Hp) as HDp.
  transitivity ((sigma +! Dx p) *! Dh p *! (res p -! (sigma *! A +! B)) +! (sigma *! A +! B)); [ring|]. rewrite HDp. ring.
Qed.
End Solve.
End P.
