(** Proofs about scaling, continued: evaluation, multipliers, Jacobians. *)
From Coq Require Import List Bool Arith Lia Ring Field Permutation Sorted.
From Verif Require Import RingKit PackModel PackSpec PackProofs SparseModel SparseSpec ScaleModel FactorModel ScaleSpec ScaleProofs.
From Verif Require SparseProofs3 SparseProofs4.
Import ListNotations.
Open Scope nat_scope.

Section Pr.
Variable K : cfield.
Add Field kf2 : (fth K).

Lemma lsum_perm (a b : list K) : Permutation a b -> lsum a = lsum b.
Proof. induction 1; simpl; auto; try congruence; try ring. Qed.
Lemma lsum_idx (F : nat -> K) (l : list nat) :
  lsum (map F l) = sumn (length l) (fun k => F (nth k l 0)).
Proof.
  unfold sumn. f_equal. apply nth_ext with (d := f0) (d' := f0); [rewrite !map_length, seq_length; auto|].
  intros k Hk. rewrite map_length in Hk. erewrite nth_indep by (rewrite map_length; exact Hk).
  rewrite (map_nth F l 0 k). 
  erewrite (nth_indep (map _ (seq 0 _))) by (rewrite map_length, seq_length; exact Hk).
  rewrite (map_nth (fun k => F (nth k l 0)) (seq 0 (length l)) 0 k). rewrite seq_nth by auto. reflexivity.
Qed.
Lemma sum_split eqm inm n (F : nat -> K) : complementary eqm inm n ->
  sumn n F = sumn (length eqm) (fun k => F (nth k eqm 0)) +! sumn (length inm) (fun k => F (nth k inm 0)).
Proof.
  intro HC. unfold sumn at 1.
  rewrite <- (lsum_perm (map F (eqm ++ inm)) (map F (seq 0 n))) by (apply Permutation_map; auto).
  rewrite map_app, lsum_app, !lsum_idx. reflexivity.
Qed.
Lemma sumn_ext n (F G : nat -> K) : (forall k, k < n -> F k = G k) -> sumn n F = sumn n G.
Proof. intro H. apply lsum_ext. intros k Hk. apply in_seq in Hk. apply H. lia. Qed.
Lemma sumn_scale n (F : nat -> K) a : sumn n (fun k => a *! F k) = a *! sumn n F.
Proof. apply lsum_scale. Qed.

Lemma nth_err (l : list nat) k : k < length l -> nth_error l k = Some (nth k l 0).
Proof. intro H. apply nth_error_nth'. auto. Qed.
Lemma at_err (v : list K) k a : nth_error v k = Some a -> at_ v k = a.
Proof. intro H. apply nth_error_nth. auto. Qed.
Lemma at_some (v : list K) k : k < length v -> nth_error v k = Some (at_ v k).
Proof. intro H. apply nth_error_nth'. auto. Qed.

Lemma gather_runs {A} (v : list A) idx : (forall i, In i idx -> i < length v) -> exists l, gather v idx = Some l.
Proof.
  induction idx as [|i idx IH]; intro H; simpl; eauto.
  destruct (nth_error v i) eqn:E.
  - destruct IH as (l & ->); [intros; apply H; right; auto|]. eauto.
  - apply nth_error_None in E. specialize (H i (or_introl eq_refl)). lia.
Qed.
Lemma gather_at (v : list K) idx l : gather v idx = Some l ->
  length l = length idx /\ forall k, k < length idx -> at_ l k = at_ v (nth k idx 0).
Proof.
  intro H. apply gather_spec in H as [L N]. split; auto. intros k Hk.
  destruct (N k (nth k idx 0) (nth_err _ _ Hk)) as (a & A1 & A2). rewrite (at_err _ _ _ A1), (at_err _ _ _ A2). auto.
Qed.
Lemma merge_at (buf c d r : list K) eqm inm : complementary eqm inm (length buf) ->
  length c = length eqm -> length d = length inm -> merge buf c eqm d inm = Some r ->
  length r = length buf /\ (forall k, k < length eqm -> at_ r (nth k eqm 0) = at_ c k) /\
  (forall k, k < length inm -> at_ r (nth k inm 0) = at_ d k).
Proof.
  intros HC Lc Ld H. destruct (merge_spec K buf c d eqm inm HC Lc Ld) as (r' & R & L & P1 & P2).
  assert (r' = r) by congruence. subst r'. split; auto. split.
  - intros k Hk. apply at_err. rewrite (P1 k _ (nth_err _ _ Hk)). apply at_some. lia.
  - intros k Hk. apply at_err. rewrite (P2 k _ (nth_err _ _ Hk)). apply at_some. lia.
Qed.

(** ** evaluation of constraints *)
Lemma two_call_spec eqm inm (P : nlp K) ss b : built eqm inm P ss ->
  complementary eqm inm (length b) ->
  exists c d, two_call P (two_user b) = Vals (c, d) /\ one_call P (one_user b) = Vals (c, d) /\
    eval_c P (two_user b) = Vals c /\ eval_d P (two_user b) = Vals d /\
    length c = length eqm /\ length d = length inm /\
    (forall k, k < length eqm -> at_ c k = rowfac K s_c (n_chain P) k *! at_ b (nth k eqm 0)) /\
    (forall k, k < length inm -> at_ d k = rowfac K s_d (n_chain P) k *! at_ b (nth k inm 0)).
Proof.
  intros HB HC. pose proof (built_ok _ _ _ _ _ HB) as (S1 & S2 & _).
  apply built_inv in HB as (E1 & E2 & _). destruct (compl_facts _ _ _ HC) as (_ & _ & B1 & B2 & _ & _ & LN).
  destruct (gather_runs b eqm B1) as (c0 & G1). destruct (gather_runs b inm B2) as (d0 & G2).
  destruct (gather_at _ _ _ G1) as (L1 & N1). destruct (gather_at _ _ _ G2) as (L2 & N2).
  destruct (ch_to_spec K s_c (n_chain P) c0) as (c & A1 & A2 & A3); [rewrite L1; auto|].
  destruct (ch_to_spec K s_d (n_chain P) d0) as (d & D1 & D2 & D3); [rewrite L2; auto|].
  change (ch_to_eq K (n_chain P) c0 = Some c) in A1. change (ch_to_ineq K (n_chain P) d0 = Some d) in D1.
  assert (EC : eval_c P (two_user b) = Vals c) by (unfold eval_c; simpl; rewrite E1, G1, A1; auto).
  assert (ED : eval_d P (two_user b) = Vals d) by (unfold eval_d; simpl; rewrite E2, G2, D1; auto).
  exists c, d. split; [unfold two_call; rewrite EC, ED; auto|]. split.
  - unfold one_call. simpl. rewrite E1, E2. unfold PackModel.split. rewrite !map_length, !Nat.eqb_refl, LN, Nat.eqb_refl.
    simpl. rewrite G1, G2, A1, D1. auto.
  - split; auto. split; auto. split; [lia|]. split; [lia|].
    split; intros k Hk; [rewrite A3, N1 by lia|rewrite D3, N2 by lia]; auto.
Qed.

Lemma run_same_mode eqm inm (l : list (nlp K * list K)) :
  (forall P b, In (P, b) l -> exists ss, built eqm inm P ss /\ complementary eqm inm (length b)) ->
  eval_run TwoCalls (map (fun e => (fst e, two_user (snd e))) l) =
  eval_run OneCall (map (fun e => (fst e, one_user (snd e))) l).
Proof.
  induction l as [|[P b] l IH]; intro H; auto. simpl.
  destruct (H P b (or_introl eq_refl)) as (ss & HB & HC).
  destruct (two_call_spec _ _ _ _ _ HB HC) as (c & d & T & O & _). rewrite T, O. f_equal. apply IH.
  intros; apply H; right; auto.
Qed.
Lemma run_same eqm inm (l : list (nlp K * list K)) :
  (forall P b, In (P, b) l -> exists ss, built eqm inm P ss /\ complementary eqm inm (length b)) ->
  eval_run Unknown (map (fun e => (fst e, two_user (snd e))) l) =
  eval_run Unknown (map (fun e => (fst e, one_user (snd e))) l) /\
  forall o, In o (eval_run Unknown (map (fun e => (fst e, two_user (snd e))) l)) -> exists v, o = Vals v.
Proof.
  intro H. destruct l as [|[P b] l]; [split; [auto|intros o []]|].
  destruct (H P b (or_introl eq_refl)) as (ss & HB & HC).
  destruct (two_call_spec _ _ _ _ _ HB HC) as (c & d & T & O & EC & ED & _).
  assert (HV : forall (l : list (nlp K * list K)) m, (forall P b, In (P, b) l -> exists ss, built eqm inm P ss /\ complementary eqm inm (length b)) ->
    m = TwoCalls -> forall o, In o (eval_run m (map (fun e => (fst e, two_user (snd e))) l)) -> exists v, o = Vals v).
  { intro l0. induction l0 as [|[P0 b0] l0 IH]; intros m H0 Hm o Ho; [destruct Ho|]. simpl in Ho. subst m. simpl in Ho.
    destruct (H0 P0 b0 (or_introl eq_refl)) as (ss0 & HB0 & HC0).
    destruct (two_call_spec _ _ _ _ _ HB0 HC0) as (c0 & d0 & T0 & _). rewrite T0 in Ho. destruct Ho as [<-|Ho]; [eauto|].
    apply (IH TwoCalls); auto. intros; apply H0; right; auto. }
  assert (HL : forall P b, In (P, b) l -> exists ss, built eqm inm P ss /\ complementary eqm inm (length b)) by (intros; apply H; right; auto).
  simpl. rewrite EC, ED. change (eval_c P (one_user b)) with (@Fails (list K)). change (eval_d P (one_user b)) with (@Fails (list K)).
  rewrite O. split.
  - f_equal. apply (run_same_mode eqm inm). auto.
  - intros o [<-|Ho]; [eauto|]. apply (HV l TwoCalls); auto.
Qed.

(** the constraint values reported are the user's *)
Lemma callback_cons eqm inm (P : nlp K) ss y b c d obj r y' c' d' : built eqm inm P ss ->
  complementary eqm inm (length b) -> length (y_c y) = length eqm -> length (y_d y) = length inm ->
  two_call P (two_user b) = Vals (c, d) ->
  callback_solution P y c d obj = Some (r, y', c', d') -> r_cons r = b.
Proof.
  intros HB HC L1 L2 T H.
  destruct (two_call_spec _ _ _ _ _ HB HC) as (c1 & d1 & T1 & _ & _ & _ & Lc & Ld & C1 & D1).
  assert (E : (c1, d1) = (c, d)) by congruence. injection E as -> ->.
  destruct (compl_facts _ _ _ HC) as (_ & _ & _ & _ & _ & _ & LN). rewrite <- LN in HC.
  destruct (callback_runs K eqm inm P ss y c d obj HB HC L1 L2 Lc Ld)
    as (r0 & yc & yd & zl & zu & c0 & d0 & E & _ & _ & _ & _ & _ & _ & _ & _ & _ & X1 & X2 & X3 & X4 & _ & MB).
  assert (E0 : r0 = r) by congruence. subst r0.
  pose proof (built_ok _ _ _ _ _ HB) as (S1 & S2 & _ & N1 & N2 & _).
  assert (Lb : length (map (fun _ => f0 : K) (eqm ++ inm)) = length eqm + length inm) by (rewrite map_length, app_length; auto).
  rewrite <- Lb in HC. destruct (merge_at _ _ _ _ _ _ HC X1 X2 MB) as (M1 & M2 & M3).
  rewrite Lb in *. destruct (compl_facts _ _ _ HC) as (_ & _ & _ & _ & CV & _ & _).
  apply at_ext; [lia|]. intros i Hi. rewrite M1 in Hi.
  assert (CN : forall a x z : K, a <> f0 -> a *! x = a *! z -> x = z).
  { intros a x z Ha Hx. transitivity (finv a *! (a *! x)); [field; auto|]. rewrite Hx. field. auto. }
  destruct (CV i Hi) as [Hin|Hin]; apply (In_nth _ _ 0) in Hin as (k & Hk & <-).
  - rewrite (M2 k Hk). apply (CN (rowfac K s_c (n_chain P) k)); [apply (rowfac_nz K s_c (length eqm)); auto|].
    rewrite X3 by auto. apply C1. auto.
  - rewrite (M3 k Hk). apply (CN (rowfac K s_d (n_chain P) k)); [apply (rowfac_nz K s_d (length inm)); auto|].
    rewrite X4 by auto. apply D1. auto.
Qed.

(** ** dense Jacobians *)
Lemma d_scale_spec (M : list (list K)) inv : forall s, length M = length s ->
  exists R, d_scale_row K M s inv = Some R /\ length R = length M /\
    forall k, k < length M -> nth k R [] = map (fun x => (if inv then f1 /! at_ s k else at_ s k) *! x) (nth k M []).
Proof.
  induction M as [|r M IH]; intros [|a s] H; try discriminate.
  - exists []. split; [reflexivity|]. split; auto. intros k Hk. simpl in Hk. lia.
  - simpl in H. destruct (IH s) as (R & E & L & N); [lia|]. simpl. rewrite E. eexists. split; [reflexivity|].
    split; [simpl; lia|]. intros [|k] Hk; [reflexivity|]. simpl in Hk. apply (N k). lia.
Qed.
Lemma ch_dense_spec pick ch : forall M, sizes K pick (length M) ch ->
  exists R, ch_to_dense K pick ch M = Some R /\ length R = length M /\
    forall k, k < length M -> nth k R [] = map (fun x => rowfac K pick ch k *! x) (nth k M []).
Proof.
  unfold ch_to_dense. induction ch as [|[s|] ch IH]; intros M H; simpl.
  - exists M. split; [reflexivity|]. split; auto. intros k _. symmetry.
    transitivity (map (fun x : K => x) (nth k M [])); [apply map_ext; intro; ring|apply map_id].
  - destruct (d_scale_spec M false (pick s)) as (R & E & L & N); [symmetry; apply H; left; auto|]. rewrite E.
    destruct (IH R) as (R2 & E2 & L2 & N2); [rewrite L; intros t Ht; apply H; right; auto|].
    exists R2. split; auto. split; [lia|]. intros k Hk. rewrite N2 by lia. rewrite N by auto. rewrite map_map.
    apply map_ext. intro. ring.
  - destruct (IH M) as (R2 & E2 & L2 & N2); [intros t Ht; apply H; right; auto|]. exists R2. auto.
Qed.
Lemma rowat_map (M : list (list K)) R k j a : nth k R [] = map (fun x => a *! x) (nth k M []) ->
  rowat R k j = a *! rowat M k j.
Proof.
  intro E. unfold rowat, at_. rewrite E. replace (f0 : K) with (a *! f0) at 1 by ring. apply map_nth.
Qed.
Lemma gather_rows (J : list (list K)) idx R : gather J idx = Some R ->
  length R = length idx /\ forall k, k < length idx -> nth k R [] = nth (nth k idx 0) J [].
Proof.
  intro H. apply gather_spec in H as [L N]. split; auto. intros k Hk.
  destruct (N k (nth k idx 0) (nth_err _ _ Hk)) as (a & A1 & A2).
  rewrite (nth_error_nth _ _ _ A1), (nth_error_nth _ _ _ A2). auto.
Qed.
Lemma dense_two_spec eqm inm (P : nlp K) ss J : built eqm inm P ss -> complementary eqm inm (length J) ->
  exists Jc Jd a b, gather J eqm = Some Jc /\ gather J inm = Some Jd /\ dense_jac_two P Jc Jd = Some (a, b) /\
    length a = length eqm /\ length b = length inm /\
    (forall k, k < length eqm -> nth k a [] = map (fun x => rowfac K s_c (n_chain P) k *! x) (nth (nth k eqm 0) J [])) /\
    (forall k, k < length inm -> nth k b [] = map (fun x => rowfac K s_d (n_chain P) k *! x) (nth (nth k inm 0) J [])).
Proof.
  intros HB HC. pose proof (built_ok _ _ _ _ _ HB) as (S1 & S2 & _).
  destruct (compl_facts _ _ _ HC) as (_ & _ & B1 & B2 & _ & _ & LN).
  destruct (gather_runs J eqm B1) as (Jc & G1). destruct (gather_runs J inm B2) as (Jd & G2).
  destruct (gather_rows _ _ _ G1) as (L1 & N1). destruct (gather_rows _ _ _ G2) as (L2 & N2).
  destruct (ch_dense_spec s_c (n_chain P) Jc) as (a & A1 & A2 & A3); [rewrite L1; auto|].
  destruct (ch_dense_spec s_d (n_chain P) Jd) as (b & D1 & D2 & D3); [rewrite L2; auto|].
  exists Jc, Jd, a, b. split; auto. split; auto. unfold dense_jac_two. rewrite A1, D1. split; auto.
  split; [lia|]. split; [lia|]. split; intros k Hk; [rewrite A3, N1 by lia|rewrite D3, N2 by lia]; auto.
Qed.

(** ** multipliers *)
Lemma callback_resid eqm inm (P : nlp K) ss y g J Jc Jd Jc' Jd' c d obj r y' c' d' j :
  built eqm inm P ss -> complementary eqm inm (length J) ->
  length (y_c y) = length eqm -> length (y_d y) = length inm -> length c = length eqm -> length d = length inm ->
  gather J eqm = Some Jc -> gather J inm = Some Jd -> dense_jac_two P Jc Jd = Some (Jc', Jd') ->
  at_ (eval_grad_f P g) j +! sumn (length eqm) (fun k => rowat Jc' k j *! at_ (y_c y) k)
    +! sumn (length inm) (fun k => rowat Jd' k j *! at_ (y_d y) k) -! at_ (z_l y) j +! at_ (z_u y) j = f0 ->
  callback_solution P y c d obj = Some (r, y', c', d') ->
  resid (length J) g (rowat J) (r_lambda r) (r_zl r) (r_zu r) j =
    at_ g j -! get_obj_scale P *! at_ (eval_grad_f P g) j.
Proof.
  intros HB HC L1 L2 L3 L4 G1 G2 HJ HS HCB.
  destruct (dense_two_spec _ _ _ _ _ HB HC) as (Jc0 & Jd0 & a & b & Q1 & Q2 & Q3 & La & Lb' & A & B).
  assert (Jc0 = Jc) by congruence. assert (Jd0 = Jd) by congruence. subst Jc0 Jd0.
  assert (Ea : a = Jc') by congruence. assert (Eb : b = Jd') by congruence. subst a b.
  pose proof HC as HC0. destruct (compl_facts _ _ _ HC) as (_ & _ & _ & _ & _ & _ & LN). rewrite <- LN in HC.
  destruct (callback_runs K eqm inm P ss y c d obj HB HC L1 L2 L3 L4)
    as (r0 & yc & yd & zl & zu & c0 & d0 & E & _ & Z1 & Z2 & Y1 & Y2 & Y3 & Y4 & Z3 & Z4 & _ & _ & _ & _ & ML & _).
  assert (E0 : r0 = r) by congruence. subst r0.
  assert (Lb : length (map (fun _ => f0 : K) (eqm ++ inm)) = length eqm + length inm) by (rewrite map_length, app_length; auto).
  rewrite <- Lb in HC. destruct (merge_at _ _ _ _ _ _ HC Y1 Y2 ML) as (M1 & M2 & M3).
  unfold resid. rewrite (sum_split eqm inm (length J) _ HC0).
  set (os := get_obj_scale P) in *.
  rewrite (sumn_ext (length eqm) _ (fun k => os *! (rowat Jc' k j *! at_ (y_c y) k))).
  2:{ intros k Hk. rewrite M2, Y3 by auto. 
      assert (RJ : rowat Jc' k j = rowfac K s_c (n_chain P) k *! rowat J (nth k eqm 0) j).
      { unfold rowat at 1. rewrite (A k Hk). unfold at_. replace (f0 : K) with (rowfac K s_c (n_chain P) k *! f0) at 1 by ring.
        rewrite map_nth. reflexivity. }
      rewrite RJ. ring. }
  rewrite (sumn_ext (length inm) _ (fun k => os *! (rowat Jd' k j *! at_ (y_d y) k))).
  2:{ intros k Hk. rewrite M3, Y4 by auto. 
      assert (RJ : rowat Jd' k j = rowfac K s_d (n_chain P) k *! rowat J (nth k inm 0) j).
      { unfold rowat at 1. rewrite (B k Hk). unfold at_. replace (f0 : K) with (rowfac K s_d (n_chain P) k *! f0) at 1 by ring.
        rewrite map_nth. reflexivity. }
      rewrite RJ. ring. }
  rewrite !sumn_scale, Z1, Z2, Z3, Z4.
  set (Sc := sumn (length eqm) _) in *. set (Sd := sumn (length inm) _) in *.
  set (G := at_ (eval_grad_f P g) j) in *.
  transitivity (at_ g j +! os *! (G +! Sc +! Sd -! at_ (z_l y) j +! at_ (z_u y) j) -! os *! G); [ring|].
  rewrite HS. ring.
Qed.

Lemma grad_one eqm inm (P : nlp K) ss g j : built eqm inm P ss -> (forall s, In s ss -> s_obj s = f1) ->
  get_obj_scale P = f1 /\ at_ (eval_grad_f P g) j = at_ g j.
Proof.
  intros HB H1. apply built_inv in HB as (_ & _ & E3 & E4 & _).
  split.
  - unfold get_obj_scale. rewrite E4. destruct (length ss =? 0) eqn:E; auto.
    destruct (nth_error ss (length ss - 1)) eqn:N; auto. apply H1. eapply nth_error_In; eauto.
  - unfold eval_grad_f. rewrite ch_grad, objfac_scalings, E3.
    assert (F : fold_right (fun s a => s_obj s *! a) f1 ss = f1).
    { clear -H1. induction ss as [|s ss IH]; auto. simpl. rewrite IH by (intros; apply H1; right; auto).
      rewrite (H1 s) by (left; auto). ring. }
    rewrite F. f_equal. transitivity (map (fun x : K => x) g); [apply map_ext; intro; ring|apply map_id].
Qed.

(** ** the Hessian callback *)
Lemma hess_single eqm inm (P : nlp K) ss : built eqm inm P ss -> length ss <= 1 ->
  get_obj_scale P = objfac K (n_chain P).
Proof.
  intros HB HL. apply built_inv in HB as (_ & _ & E3 & E4 & _).
  unfold get_obj_scale. rewrite objfac_scalings, E3, E4.
  destruct ss as [|s [|t ss]]; simpl in *; [auto|ring|lia].
Qed.
Lemma match_fac eqm inm (ch : list (trans K)) :
  (forall s, In (TScale s) ch -> matching eqm inm s) ->
  (forall k, k < length eqm -> rowfac K s_cd ch (nth k eqm 0) = rowfac K s_c ch k) /\
  (forall k, k < length inm -> rowfac K s_cd ch (nth k inm 0) = rowfac K s_d ch k).
Proof.
  intro H. split; intros k Hk; induction ch as [|[s|] ch IH]; simpl; auto.
  - rewrite IH by (intros; apply H; right; auto). f_equal. unfold at_.
    destruct (H s (or_introl eq_refl)) as [M _]. specialize (M k _ (nth_err _ _ Hk)).
    destruct (nth_error (s_c s) k) eqn:E.
    + rewrite (nth_error_nth _ _ _ M), (nth_error_nth _ _ _ E). auto.
    + apply nth_error_None in M. apply nth_error_None in E. rewrite !nth_overflow by auto. auto.
  - apply IH. intros; apply H; right; auto.
  - rewrite IH by (intros; apply H; right; auto). f_equal. unfold at_.
    destruct (H s (or_introl eq_refl)) as [_ M]. specialize (M k _ (nth_err _ _ Hk)).
    destruct (nth_error (s_d s) k) eqn:E.
    + rewrite (nth_error_nth _ _ _ M), (nth_error_nth _ _ _ E). auto.
    + apply nth_error_None in M. apply nth_error_None in E. rewrite !nth_overflow by auto. auto.
  - apply IH. intros; apply H; right; auto.
Qed.
Lemma sparse_hess_spec eqm inm (P : nlp K) ss sigma leq lin hf hb hc hd :
  built eqm inm P ss -> complementary eqm inm (length hb) -> length ss <= 1 ->
  (forall s, In s ss -> matching eqm inm s) -> length leq = length eqm -> length lin = length inm ->
  two_call P (two_user hb) = Vals (hc, hd) ->
  exists sigma' lam, sparse_hess_args P sigma leq lin = Some (sigma', lam) /\ length lam = length hb /\
    combo sigma' lam hf hb =
      sigma *! eval_f P hf +! sumn (length eqm) (fun k => at_ leq k *! at_ hc k)
                           +! sumn (length inm) (fun k => at_ lin k *! at_ hd k).
Proof.
  intros HB HC HL HM L1 L2 T.
  destruct (two_call_spec _ _ _ _ _ HB HC) as (c1 & d1 & T1 & _ & _ & _ & Lc & Ld & C1 & D1).
  assert (E : (c1, d1) = (hc, hd)) by congruence. injection E as -> ->.
  pose proof (built_ok _ _ _ _ _ HB) as (_ & _ & S3 & _). pose proof (built_inv _ _ _ _ _ HB) as (E1 & E2 & E3 & _).
  destruct (compl_facts _ _ _ HC) as (_ & _ & _ & _ & _ & _ & LN).
  pose proof HC as HC0.
  assert (Lb : length (map (fun _ => f0 : K) (leq ++ lin)) = length hb) by (rewrite map_length, app_length; lia).
  rewrite <- Lb in HC. destruct (merge_spec K (map (fun _ => f0) (leq ++ lin)) leq lin eqm inm HC L1 L2) as (v & V & _).
  destruct (merge_at _ _ _ _ _ _ HC L1 L2 V) as (M1 & M2 & M3).
  destruct (ch_to_spec K s_cd (n_chain P) v) as (l & A1 & A2 & A3); [rewrite M1, Lb, <- LN; auto|].
  change (ch_to_cons K (n_chain P) v = Some l) in A1.
  unfold sparse_hess_args. rewrite E1, E2, V, A1. do 2 eexists. split; [reflexivity|]. split; [lia|].
  unfold combo. rewrite (sum_split eqm inm (length hb) _ HC0).
  destruct (match_fac eqm inm (n_chain P)) as (F1 & F2).
  { intros s Hs. apply HM. rewrite <- E3. apply in_scalings. auto. }
  destruct (compl_facts _ _ _ HC0) as (_ & _ & B1 & B2 & _ & _ & _).
  rewrite (sumn_ext (length eqm) _ (fun k => at_ leq k *! at_ hc k)).
  2:{ intros k Hk. assert (nth k eqm 0 < length v) by (rewrite M1, Lb; apply B1; apply nth_In; auto).
      rewrite A3 by auto. rewrite M2, F1, C1 by auto. ring. }
  rewrite (sumn_ext (length inm) _ (fun k => at_ lin k *! at_ hd k)).
  2:{ intros k Hk. assert (nth k inm 0 < length v) by (rewrite M1, Lb; apply B2; apply nth_In; auto).
      rewrite A3 by auto. rewrite M3, F2, D1 by auto. ring. }
  rewrite (hess_single _ _ _ _ HB HL). unfold eval_f. rewrite ch_obj. ring.
Qed.

Lemma at_app_l (a b : list K) k : k < length a -> at_ (a ++ b) k = at_ a k.
Proof. intro H. apply app_nth1. auto. Qed.
Lemma at_app_r (a b : list K) k : at_ (a ++ b) (length a + k) = at_ b k.
Proof. unfold at_. rewrite app_nth2 by lia. f_equal. lia. Qed.
Lemma sumn_add_split a b (F : nat -> K) : sumn (a + b) F = sumn a F +! sumn b (fun k => F (a + k)).
Proof.
  unfold sumn. rewrite seq_app, map_app, lsum_app. f_equal. simpl. f_equal.
  rewrite <- (Nat.add_0_r a) at 1. clear. generalize 0 as s. induction b as [|b IH]; intro s; auto.
  simpl. f_equal. rewrite <- (IH (S s)). f_equal. f_equal. lia.
Qed.
(** multipliers in block order, equalities first *)
Lemma mds_hess_spec eqm inm (P : nlp K) ss sigma leq lin hf hb hbb hc hd :
  built eqm inm P ss -> complementary eqm inm (length hb) ->
  ss = [] \/ (length ss <= 1 /\ eqm = seq 0 (length eqm) /\ inm = seq (length eqm) (length inm) /\
              forall s, In s ss -> matching eqm inm s) ->
  length leq = length eqm -> length lin = length inm ->
  gather hb (eqm ++ inm) = Some hbb ->
  two_call P (two_user hb) = Vals (hc, hd) ->
  exists sigma' lam, mds_hess_args P sigma leq lin = Some (sigma', lam) /\ length lam = length hb /\
    combo sigma' lam hf hbb =
      sigma *! eval_f P hf +! sumn (length eqm) (fun k => at_ leq k *! at_ hc k)
                           +! sumn (length inm) (fun k => at_ lin k *! at_ hd k).
Proof.
  intros HB HC HO L1 L2 HG T.
  destruct (two_call_spec _ _ _ _ _ HB HC) as (c1 & d1 & T1 & _ & _ & _ & Lc & Ld & C1 & D1).
  assert (E : (c1, d1) = (hc, hd)) by congruence. injection E as -> ->.
  pose proof (built_ok _ _ _ _ _ HB) as (_ & _ & S3 & _). pose proof (built_inv _ _ _ _ _ HB) as (E1 & E2 & E3 & _).
  destruct (compl_facts _ _ _ HC) as (_ & _ & B1 & B2 & _ & _ & LN).
  assert (Ll : length (leq ++ lin) = length eqm + length inm) by (rewrite app_length; lia).
  destruct (ch_to_spec K s_cd (n_chain P) (leq ++ lin)) as (l & A1 & A2 & A3); [rewrite Ll; auto|].
  change (ch_to_cons K (n_chain P) (leq ++ lin) = Some l) in A1.
  unfold mds_hess_args. rewrite E1, E2, L1, L2, !Nat.eqb_refl. simpl. rewrite A1.
  do 2 eexists. split; [reflexivity|]. split; [lia|].
  destruct (gather_at _ _ _ HG) as (Lg & Ng). rewrite app_length in Lg, Ng.
  assert (HF : length ss <= 1 /\ (forall k, k < length eqm -> rowfac K s_cd (n_chain P) k = rowfac K s_c (n_chain P) k) /\
     (forall k, k < length inm -> rowfac K s_cd (n_chain P) (length eqm + k) = rowfac K s_d (n_chain P) k)).
  { destruct HO as [->|(HL & Q1 & Q2 & HM)].
    - split; [simpl; lia|]. split; intros; rewrite !rowfac_scalings, E3; auto.
    - split; auto. destruct (match_fac eqm inm (n_chain P)) as (F1 & F2).
      { intros s Hs. apply HM. rewrite <- E3. apply in_scalings. auto. }
      split; intros k Hk.
      + rewrite <- (F1 k Hk). f_equal. rewrite Q1. rewrite seq_nth; auto.
      + rewrite <- (F2 k Hk). f_equal. rewrite Q2. rewrite seq_nth; auto. }
  destruct HF as (HL & F1 & F2).
  unfold combo. rewrite Lg, sumn_add_split.
  rewrite (sumn_ext (length eqm) _ (fun k => at_ leq k *! at_ hc k)).
  2:{ intros k Hk. rewrite A3 by lia. rewrite Ng by lia. rewrite at_app_l by lia. rewrite F1, C1 by auto.
      rewrite app_nth1 by auto. ring. }
  rewrite (sumn_ext (length inm) _ (fun k => at_ lin k *! at_ hd k)).
  2:{ intros k Hk. rewrite A3 by lia. rewrite Ng by lia. rewrite <- L1 at 2. rewrite at_app_r. rewrite F2, D1 by auto.
      rewrite app_nth2 by lia. replace (length eqm + k - length eqm) with k by lia. ring. }
  rewrite (hess_single _ _ _ _ HB HL). unfold eval_f. rewrite ch_obj. ring.
Qed.
End Pr.
