(** Binary64 lemmas about the errors of ErrModel: NaN. *)
From Coq Require Import List Bool ZArith.
From Verif Require Import FloatBase FloatFacts MuModel VecModel FilterModel LineSearchModel RunModel ErrModel.
Import ListNotations.

Lemma fabs_nan x : is_nan (fabs x) = is_nan x. Proof. destruct x; reflexivity. Qed.
Lemma flt_nan_l x y : is_nan x = true -> flt x y = false. Proof. destruct x; try discriminate. reflexivity. Qed.
Lemma flt_nan_r x y : is_nan y = true -> flt x y = false. Proof. destruct y; try discriminate. destruct x; reflexivity. Qed.
Lemma fadd_nan_l x y : is_nan x = true -> is_nan (fadd x y) = true. Proof. destruct x; try discriminate. reflexivity. Qed.
Lemma fsub_nan_l x y : is_nan x = true -> is_nan (fsub x y) = true. Proof. destruct x; try discriminate. reflexivity. Qed.
Lemma fsub_nan_r x y : is_nan y = true -> is_nan (fsub x y) = true. Proof. destruct y; try discriminate. destruct x; reflexivity. Qed.
Lemma nan_eq x : is_nan x = true -> x = S754_nan. Proof. destruct x; try discriminate; reflexivity. Qed.
Lemma fle_nan_r x y : is_nan y = true -> fle x y = false. Proof. destruct y; try discriminate. destruct x; reflexivity. Qed.
Lemma fle_nan x y : fle x y = true -> is_nan x = false /\ is_nan y = false.
Proof. destruct x, y; cbn; intro H; try discriminate; auto. Qed.

Lemma inf_nan_head a r : is_nan a = true -> is_nan (inf_norm Far (a :: r)) = true.
Proof.
  intro H. unfold inf_norm. assert (K : is_nan (aabs Far a) = true) by (cbn; rewrite fabs_nan; exact H).
  revert K. generalize (aabs Far a). induction r as [|x r IH]; intros n K; [exact K|]. cbn [fold_left]. cbv zeta.
  change (alt Far n (aabs Far x)) with (flt n (aabs Far x)). rewrite flt_nan_l by exact K. apply IH. exact K.
Qed.

Lemma fmax_zero_nan x : is_nan x = true -> fmax f_zero x = f_zero.
Proof. intro H. rewrite (nan_eq _ H). reflexivity. Qed.

(** fmax returns one of its arguments and bounds every one that is not NaN *)
Lemma flt_fle_false x y : is_nan x = false -> is_nan y = false -> flt x y = false -> fle y x = true.
Proof. intros Hx Hy H. rewrite flt_not_fge in H by assumption. unfold fge, fle in *. destruct (SFleb y x); [reflexivity|discriminate]. Qed.
Lemma flt_fle x y : flt x y = true -> fle x y = true.
Proof. unfold flt, fle, SFltb, SFleb. destruct (SFcompare x y) as [[]|]; intro; auto; discriminate. Qed.
Lemma fmax_l a b : is_nan a = false -> fle a (fmax a b) = true.
Proof. intro H. unfold fmax. rewrite H. destruct (is_nan b) eqn:Hb; [apply fle_refl; exact H|].
  destruct (flt a b) eqn:L; [apply flt_fle; exact L|apply fle_refl; exact H]. Qed.
Lemma fmax_r a b : is_nan b = false -> fle b (fmax a b) = true.
Proof. intro H. unfold fmax. destruct (is_nan a) eqn:Ha; [apply fle_refl; exact H|]. rewrite H.
  destruct (flt a b) eqn:L; [apply fle_refl; exact H|apply flt_fle_false; assumption]. Qed.

Lemma inf_fold_ge r : forall n, is_nan n = false ->
  let m := fold_left (fun n x => let aux := aabs Far x in if alt Far n aux then aux else n) r n in
  is_nan m = false /\ fle n m = true /\ forall x, In x r -> is_nan x = false -> fle (fabs x) m = true.
Proof.
  induction r as [|x r IH]; intros n Hn m; unfold m; clear m; cbn [fold_left].
  - split; [exact Hn|]. split; [apply fle_refl; exact Hn|]. intros ? [].
  - cbv zeta. change (alt Far n (aabs Far x)) with (flt n (fabs x)). change (aabs Far x) with (fabs x).
    destruct (flt n (fabs x)) eqn:L.
    + assert (Hx : is_nan (fabs x) = false) by (destruct (is_nan (fabs x)) eqn:Z; [rewrite flt_nan_r in L by exact Z; discriminate|reflexivity]).
      destruct (IH (fabs x) Hx) as [I1 [I2 I3]]. split; [exact I1|]. split.
      * eapply fle_trans; [apply flt_fle; exact L|exact I2].
      * intros y [<-|Hy] Ny; [exact I2|auto].
    + destruct (IH n Hn) as [I1 [I2 I3]]. split; [exact I1|]. split; [exact I2|].
      intros y [<-|Hy] Ny; [|auto]. eapply fle_trans; [|exact I2]. apply flt_fle_false; [exact Hn|rewrite fabs_nan; exact Ny|exact L].
Qed.
Definition head_ok (v : list b64) : Prop := match v with [] => True | a :: _ => is_nan a = false end.
Lemma inf_norm_ge v : head_ok v -> is_nan (inf_norm Far v) = false /\ forall x, In x v -> is_nan x = false -> fle (fabs x) (inf_norm Far v) = true.
Proof.
  destruct v as [|a r]; cbn [head_ok]; intro H; unfold inf_norm.
  - split; [reflexivity|]. intros ? [].
  - assert (K : is_nan (aabs Far a) = false) by (cbn; rewrite fabs_nan; exact H).
    destruct (inf_fold_ge r (aabs Far a) K) as [I1 [I2 I3]]. split; [exact I1|].
    intros x [<-|Hx] Nx; [exact I2|auto].
Qed.

(** the optimality error of one rank is at least every entry that is not NaN, if the first entries are not NaN *)
Lemma optim_sound D E r : head_ok (map (rx1 Far D E) r) -> head_ok (map (rd1 Far) D) ->
  (forall x, In x r -> is_nan (rx1 Far D E x) = false -> fle (fabs (rx1 Far D E x)) (nlp_optim Far D E [r]) = true) /\
  (forall d, In d D -> is_nan (rd1 Far d) = false -> fle (fabs (rd1 Far d)) (nlp_optim Far D E [r]) = true).
Proof.
  intros H1 H2. destruct (inf_norm_ge _ H1) as [N1 G1]. destruct (inf_norm_ge _ H2) as [N2 G2].
  unfold nlp_optim, over_ranks. cbn [map fold_left]. unfold optim_rank. cbn [afmax azero Far]. split.
  - intros x Hx Nx. apply fle_trans with (inf_norm Far (map (rx1 Far D E) r)).
    + apply G1; [apply in_map; exact Hx|exact Nx].
    + eapply fle_trans; [apply (fmax_r f_zero); exact N1|]. apply fmax_l.
      apply (proj2 (fle_nan _ _ (fmax_r f_zero _ N1))).
  - intros d Hd Nd. apply fle_trans with (inf_norm Far (map (rd1 Far) D)).
    + apply G2; [apply in_map; exact Hd|exact Nd].
    + apply fmax_r. exact N2.
Qed.

(** the constraint violation *)
Definition tail_ok (v : list (b64 * b64)) : Prop := forall e, In e v -> is_nan (fst e) = false.
Lemma min_fold_le (v : list (b64 * b64)) : forall n, is_nan n = false -> tail_ok v ->
  let m := fold_left (fun r e => if aeq Far (snd e) (aone Far) then (if alt Far r (fst e) then r else fst e) else r) v n in
  is_nan m = false /\ fle m n = true /\ forall e, In e v -> feq (snd e) f_one = true -> fle m (fst e) = true.
Proof.
  induction v as [|[x i] v IH]; intros n Hn T m; unfold m; clear m; cbn [fold_left].
  - split; [exact Hn|]. split; [apply fle_refl; exact Hn|]. intros ? [].
  - cbn [fst snd]. change (aeq Far i (aone Far)) with (feq i f_one). change (alt Far n x) with (flt n x).
    assert (Nx : is_nan x = false) by (apply (T (x, i)); left; reflexivity).
    assert (T' : tail_ok v) by (intros e He; apply T; right; exact He).
    destruct (feq i f_one) eqn:B; [destruct (flt n x) eqn:L|].
    + destruct (IH n Hn T') as [I1 [I2 I3]]. split; [exact I1|]. split; [exact I2|].
      intros e [<-|He] Be; [|auto]. cbn. eapply fle_trans; [exact I2|apply flt_fle; exact L].
    + destruct (IH x Nx T') as [I1 [I2 I3]]. split; [exact I1|]. split.
      * eapply fle_trans; [exact I2|apply flt_fle_false; assumption].
      * intros e [<-|He] Be; [exact I2|auto].
    + destruct (IH n Hn T') as [I1 [I2 I3]]. split; [exact I1|]. split; [exact I2|].
      intros e [<-|He] Be; [cbn [snd] in Be; congruence|auto].
Qed.
Lemma flt_zero_nan x : flt x f_zero = true -> is_nan x = false. Proof. destruct x; cbn; intro; auto; discriminate. Qed.
Lemma fopp_nan x : is_nan (fopp x) = is_nan x. Proof. destruct x; reflexivity. Qed.
Lemma cmp_opp x y : SFcompare (fopp y) (fopp x) = SFcompare x y.
Proof.
  destruct x as [[]|[]| |[] m e], y as [[]|[]| |[] m' e']; try reflexivity;
  unfold fopp, SFopp, SFcompare; cbn [negb]; rewrite (Z.compare_antisym e e'); destruct (e ?= e')%Z; try reflexivity; cbn [CompOpp];
  change (Pos.compare_cont Eq m' m) with (Pos.compare m' m); change (Pos.compare_cont Eq m m') with (Pos.compare m m');
  rewrite (Pos.compare_antisym m m'); destruct (Pos.compare m m'); reflexivity.
Qed.
Lemma fopp_le x y : fle x y = true -> fle (fopp y) (fopp x) = true.
Proof. unfold fle, SFleb. rewrite cmp_opp. auto. Qed.
Lemma viol_ge m : is_nan (viol Far m) = false /\ (is_nan m = false -> fle (fopp m) (viol Far m) = true /\ fle f_zero (viol Far m) = true).
Proof.
  unfold viol. change (alt Far m (azero Far)) with (flt m f_zero). change (aopp Far m) with (fopp m). change (azero Far) with f_zero.
  destruct (flt m f_zero) eqn:L.
  - pose proof (flt_zero_nan _ L) as N. split; [rewrite fopp_nan; exact N|]. intros _. split; [apply fle_refl; rewrite fopp_nan; exact N|].
    change f_zero with (fopp (S754_zero true)). apply fopp_le. apply flt_fle in L. destruct m; cbn in L |- *; auto.
  - split; [reflexivity|]. intro N. split; [|reflexivity].
    pose proof (flt_fle_false _ _ N (eq_refl : is_nan f_zero = false) L) as G. apply fopp_le in G. destruct m; cbn in G |- *; auto.
Qed.
Lemma viol_pat_ge (v : list (b64 * b64)) e : tail_ok v -> In e v -> feq (snd e) f_one = true ->
  fle (fopp (fst e)) (viol Far (min_pat Far v)) = true.
Proof.
  intros T He B. destruct (min_fold_le v (amaxv Far) eq_refl T) as [I1 [_ I3]]. fold (min_pat Far v) in *.
  eapply fle_trans; [apply fopp_le, (I3 e He B)|]. apply viol_ge. exact I1.
Qed.

Lemma cons_sound D E :
  head_ok (map (ryc1 Far) E) ->
  tail_ok (map (fun d => (fsub (d_val Far d) (d_l Far d), d_il Far d)) D) ->
  tail_ok (map (fun d => (fsub (d_u Far d) (d_val Far d), d_iu Far d)) D) ->
  (forall e, In e E -> is_nan (ryc1 Far e) = false -> fle (fabs (ryc1 Far e)) (cons_viol Far D E) = true) /\
  (forall d, In d D -> feq (d_il Far d) f_one = true -> fle (fopp (fsub (d_val Far d) (d_l Far d))) (cons_viol Far D E) = true) /\
  (forall d, In d D -> feq (d_iu Far d) f_one = true -> fle (fopp (fsub (d_u Far d) (d_val Far d))) (cons_viol Far D E) = true).
Proof.
  intros H1 T1 T2. destruct (inf_norm_ge _ H1) as [N1 G1]. unfold cons_viol.
  change (afmax Far) with fmax. change (azero Far) with f_zero. change (asub Far) with fsub.
  set (v1 := viol Far (min_pat Far (map (fun d => (fsub (d_val Far d) (d_l Far d), d_il Far d)) D))).
  set (v2 := viol Far (min_pat Far (map (fun d => (fsub (d_u Far d) (d_val Far d), d_iu Far d)) D))).
  assert (A0 := fmax_r f_zero _ N1). assert (Na := proj2 (fle_nan _ _ A0)).
  assert (A1 := fmax_l _ v1 Na). assert (Nb := proj2 (fle_nan _ _ A1)).
  assert (A2 := fmax_l _ v2 Nb). repeat split.
  - intros e He Ne. eapply fle_trans; [apply G1; [apply in_map; exact He|exact Ne]|].
    eapply fle_trans; [exact A0|]. eapply fle_trans; [exact A1|exact A2].
  - intros d Hd B. apply fle_trans with v1.
    + apply (viol_pat_ge _ (fsub (d_val Far d) (d_l Far d), d_il Far d)); [exact T1| |exact B].
      apply in_map_iff. exists d. auto.
    + eapply fle_trans; [|exact A2]. apply fmax_r. apply viol_ge.
  - intros d Hd B. apply fle_trans with v2.
    + apply (viol_pat_ge _ (fsub (d_u Far d) (d_val Far d), d_iu Far d)); [exact T2| |exact B].
      apply in_map_iff. exists d. auto.
    + apply fmax_r. apply viol_ge.
Qed.

(** a successful test bounds the three errors *)
Lemma success_errs P e e0 it na : fst (check_termination P e e0 it na) = Some Solve_Success ->
  fle (e_nlp e) (eps_tol P) = true /\ fle (e_optim e) (dual_tol P) = true /\ fle (e_cons e) (cons_tol P) = true /\ fle (e_complem e) (comp_tol P) = true.
Proof.
  unfold check_termination. destruct (fle (e_nlp e) (eps_tol P) && fle (e_optim e) (dual_tol P) && fle (e_cons e) (cons_tol P) && fle (e_complem e) (comp_tol P)) eqn:B.
  - intros _. repeat rewrite andb_true_iff in B. tauto.
  - destruct (max_it P <=? it)%Z; [discriminate|]. destruct e0 as [[o0 f0] c0].
    destruct (fgt (eps_rtol P) f_zero && _); [discriminate|]. destruct (accep_n P <=? _)%Z; discriminate.
Qed.

(** NaN: the first entries decide *)
Lemma add_col_nan (a y : list b64) : forall acc, is_nan acc = true -> is_nan (add_col Far acc a y) = true.
Proof.
  unfold add_col. generalize (@combine (car Far) (car Far) a y). clear a y. intro l. induction l as [|p l IH]; intros acc H; [exact H|].
  cbn [fold_left]. apply IH. apply fadd_nan_l. exact H. Qed.
Lemma rx1_nan D E x : is_nan (x_g Far x) = true -> is_nan (rx1 Far D E x) = true.
Proof. intro H. unfold rx1. apply fadd_nan_l, fsub_nan_l, add_col_nan, add_col_nan. exact H. Qed.
Lemma ryc1_nan e : is_nan (e_c Far e) = true -> is_nan (ryc1 Far e) = true.
Proof. intro H. unfold ryc1. apply fsub_nan_r. exact H. Qed.
Lemma ones_zero l : Forall (fun i => i = f_zero) l -> ones Far l = O.
Proof. intro H. unfold ones. induction H as [|i l -> _ IH]; [reflexivity|]. cbn [filter]. change (aeq Far f_zero (aone Far)) with false. exact IH. Qed.
Lemma fdiv_zero s : fdiv f_zero s = S754_zero false \/ fdiv f_zero s = S754_zero true \/ fdiv f_zero s = S754_nan.
Proof. destruct s as [[]|[]| |[]]; cbn; auto. Qed.
Lemma over_zero o c tol : (o = S754_zero false \/ o = S754_zero true \/ o = S754_nan) ->
  (c = S754_zero false \/ c = S754_zero true \/ c = S754_nan) -> fle f_zero tol = true -> fle (fmax o (fmax f_zero c)) tol = true.
Proof. intros [->|[->| ->]] [->|[->| ->]] H; cbn; destruct tol as [| | |[]]; cbn in *; auto. Qed.

Lemma nan_errs smax E (x : xvar Far) r :
  is_nan (x_g Far x) = true -> (match E with [] => True | e :: _ => is_nan (e_c Far e) = true end) ->
  Forall (fun v => x_il Far v = f_zero /\ x_iu Far v = f_zero) (x :: r) ->
  let e := errs_of smax [] E (x :: r) in
  e_optim e = f_zero /\ e_cons e = f_zero /\ e_complem e = f_zero /\ e_feas e = f_zero /\
  forall tol, fle f_zero tol = true -> fle (e_nlp e) tol = true.
Proof.
  intros Hx HE HB e.
  assert (EO : nlp_optim Far [] E [x :: r] = f_zero).
  { unfold nlp_optim, over_ranks. cbn [map fold_left]. unfold optim_rank. change (afmax Far) with fmax. change (azero Far) with f_zero.
    rewrite (fmax_zero_nan (inf_norm Far (map (rx1 Far [] E) (x :: r)))); [reflexivity|].
    cbn [map]. apply inf_nan_head. apply rx1_nan. exact Hx. }
  assert (EI : fmax f_zero (inf_norm Far (map (ryc1 Far) E)) = f_zero).
  { destruct E as [|e1 E]; [reflexivity|]. apply fmax_zero_nan. cbn [map]. apply inf_nan_head. apply ryc1_nan. exact HE. }
  assert (EC : cons_viol Far [] E = f_zero).
  { unfold cons_viol. change (afmax Far) with fmax. change (azero Far) with f_zero. rewrite EI. reflexivity. }
  assert (EF : nlp_feas Far [] E = f_zero).
  { unfold nlp_feas. change (afmax Far) with fmax. change (azero Far) with f_zero. rewrite EI. reflexivity. }
  assert (O1 : ones Far (map (x_il Far) (x :: r)) = O).
  { apply ones_zero. apply Forall_map. eapply Forall_impl; [|exact HB]. intros a [A _]. exact A. }
  assert (O2 : ones Far (map (x_iu Far) (x :: r)) = O).
  { apply ones_zero. apply Forall_map. eapply Forall_impl; [|exact HB]. intros a [_ A]. exact A. }
  assert (EM : nlp_complem Far [] [x :: r] = f_zero).
  { unfold nlp_complem, over_ranks. cbn [map fold_left]. unfold complem_rank, comp_block.
    change (map (x_il Far) (x :: r)) with (map (x_il Far) (x :: r)).
    rewrite O1, O2. reflexivity. }
  subst e. unfold errs_of. cbn [e_optim e_cons e_complem e_feas e_nlp]. rewrite EO, EC, EM, EF.
  repeat split. intros tol Ht. unfold nlp_overall. rewrite EO, EC, EM.
  change (afmax Far) with fmax. change (adiv Far) with fdiv.
  apply over_zero; [apply fdiv_zero|apply fdiv_zero|exact Ht].
Qed.

(** complementarity *)
Lemma feq_one_zero h : feq h f_one = true -> feq h f_zero = false.
Proof. destruct h as [[]|[]| |[]]; intro H; try reflexivity; vm_compute in H; discriminate. Qed.
Lemma ones_pos {A} (h : A -> car Far) l v : In v l -> feq (h v) f_one = true -> Nat.ltb 0 (ones Far (map h l)) = true.
Proof.
  intros Hv B. unfold ones. apply Nat.ltb_lt.
  assert (I : In (h v) (filter (fun i => aeq Far i (aone Far)) (map h l))).
  { apply filter_In. split; [apply in_map; exact Hv|exact B]. }
  destruct (filter (fun i => aeq Far i (aone Far)) (map h l)); [contradiction|cbn; apply Nat.lt_0_succ].
Qed.
Lemma comp_block_ge {A} (f g h : A -> car Far) l acc :
  (forall v, In v l -> is_nan (fsub f_zero (fmul (f v) (g v))) = false) -> is_nan acc = false ->
  let m := comp_block Far (map f l) (map g l) (map h l) None acc in
  is_nan m = false /\ fle acc m = true /\
  forall v, In v l -> feq (h v) f_one = true -> fle (fabs (fsub f_zero (fmul (f v) (g v)))) m = true.
Proof.
  intros N Na. cbv zeta. unfold comp_block.
  destruct (Nat.ltb 0 (ones Far (map h l))) eqn:Z0.
  2:{ split; [exact Na|]. split; [apply fle_refl; exact Na|]. intros v Hv B. rewrite (ones_pos h l v Hv B) in Z0. discriminate. }
  cbv zeta.
  set (masked := if Nat.ltb _ _ then _ else _).
  assert (M : exists m : A -> car Far, masked = map m l /\
              forall v, In v l -> (feq (h v) f_one = true -> m v = fsub f_zero (fmul (f v) (g v))) /\ is_nan (m v) = false).
  { assert (PR : map (fun p => asub Far (azero Far) (amul Far (fst (fst p)) (snd (fst p)))) (combine (combine (map f l) (map g l)) (map h l))
             = map (fun v => asub Far (azero Far) (amul Far (f v) (g v))) l).
    { clear. induction l as [|v l IH]; cbn [map combine]; [reflexivity|]. rewrite IH. reflexivity. }
    unfold masked. rewrite PR. destruct (Nat.ltb (ones Far (map h l)) (length (map h l))) eqn:F.
    - exists (fun v => sel Far (h v) (asub Far (azero Far) (amul Far (f v) (g v)))). split.
      + clear. induction l as [|v l IH]; cbn [map combine]; [reflexivity|]. rewrite IH. reflexivity.
      + intros v Hv. unfold sel. change (aeq Far (h v) (azero Far)) with (feq (h v) f_zero). split.
        * intro B. rewrite (feq_one_zero _ B). reflexivity.
        * destruct (feq (h v) f_zero); [reflexivity|exact (N v Hv)].
    - exists (fun v => asub Far (azero Far) (amul Far (f v) (g v))). split; [reflexivity|]. intros v Hv. split; [reflexivity|exact (N v Hv)]. }
  clearbody masked. destruct M as [m [-> Mm]]. change (afmax Far) with fmax.
  assert (HO : head_ok (map m l)).
  { destruct l as [|v l]; cbn [map head_ok]; [exact I|]. apply Mm. left. reflexivity. }
  destruct (inf_norm_ge _ HO) as [N1 G1]. split; [|split].
  - apply (proj2 (fle_nan _ _ (fmax_r acc _ N1))).
  - apply fmax_l. exact Na.
  - intros v Hv B. eapply fle_trans; [|apply fmax_r; exact N1]. rewrite <- (proj1 (Mm v Hv) B).
    apply G1; [apply in_map; exact Hv|apply Mm; exact Hv].
Qed.
(** the computed complementarity product *)
Definition cprod (s z : b64) : b64 := fsub f_zero (fmul s z).
Lemma complem_sound D r :
  (forall x, In x r -> is_nan (cprod (x_sl Far x) (x_zl Far x)) = false /\ is_nan (cprod (x_su Far x) (x_zu Far x)) = false) ->
  (forall d, In d D -> is_nan (cprod (d_sl Far d) (d_vl Far d)) = false /\ is_nan (cprod (d_su Far d) (d_vu Far d)) = false) ->
  let m := nlp_complem Far D [r] in
  (forall x, In x r -> (feq (x_il Far x) f_one = true -> fle (fabs (cprod (x_sl Far x) (x_zl Far x))) m = true) /\
                       (feq (x_iu Far x) f_one = true -> fle (fabs (cprod (x_su Far x) (x_zu Far x))) m = true)) /\
  (forall d, In d D -> (feq (d_il Far d) f_one = true -> fle (fabs (cprod (d_sl Far d) (d_vl Far d))) m = true) /\
                       (feq (d_iu Far d) f_one = true -> fle (fabs (cprod (d_su Far d) (d_vu Far d))) m = true)).
Proof.
  intros NX ND. cbv zeta. unfold nlp_complem, over_ranks. cbn [map fold_left]. unfold complem_rank.
  destruct (comp_block_ge (x_sl Far) (x_zl Far) (x_il Far) r (azero Far)) as [A1 [A2 A3]]; [intros v Hv; apply (NX v Hv)|reflexivity|].
  set (b1 := comp_block _ _ _ _ _ (azero Far)) in *.
  destruct (comp_block_ge (x_su Far) (x_zu Far) (x_iu Far) r b1) as [B1 [B2 B3]]; [intros v Hv; apply (NX v Hv)|exact A1|].
  set (b2 := comp_block _ _ _ _ _ b1) in *.
  destruct (comp_block_ge (d_sl Far) (d_vl Far) (d_il Far) D b2) as [C1 [C2 C3]]; [intros v Hv; apply (ND v Hv)|exact B1|].
  set (b3 := comp_block _ _ _ _ _ b2) in *.
  destruct (comp_block_ge (d_su Far) (d_vu Far) (d_iu Far) D b3) as [D1 [D2 D3]]; [intros v Hv; apply (ND v Hv)|exact C1|].
  set (b4 := comp_block _ _ _ _ _ b3) in *.
  split; intros v Hv; split; intro B.
  - eapply fle_trans; [exact (A3 v Hv B)|]. eapply fle_trans; [exact B2|]. eapply fle_trans; [exact C2|exact D2].
  - eapply fle_trans; [exact (B3 v Hv B)|]. eapply fle_trans; [exact C2|exact D2].
  - eapply fle_trans; [exact (C3 v Hv B)|exact D2].
  - exact (D3 v Hv B).
Qed.

(** a filter never contains a NaN objective *)

Lemma filter_nan F th pht : is_nan pht = true -> filter_contains F th pht = false.
Proof. intro N. rewrite (nan_eq _ N). induction F as [|[t p] F IH]; [reflexivity|]. cbn [filter_contains]. rewrite fge_nan_l, andb_false_r. exact IH. Qed.
