(** Starting point: proofs. *)
From Coq Require Import List Bool Arith Lia Permutation.
From Verif Require Import PackModel PackSpec PackProofs XformModel XformProofs StartModel StartSpec.
Import ListNotations.

Section P.
Context {A : Type}.
Notation mem := (list (option A)).
Lemma wr_full (buf : mem) v : length v = length buf -> wr A buf v = Some (map Some v).
Proof. intros H. unfold wr. rewrite H, Nat.leb_refl, skipn_all2, app_nil_r by lia. reflexivity. Qed.
Lemma wr_none (buf : mem) v : length v = 0 -> wr A buf v = Some buf.
Proof. destruct v; [reflexivity|discriminate]. Qed.
Lemma inits_some (v : list A) : inits A (map Some v) = Some v.
Proof. induction v as [|a v IH]; cbn; [reflexivity|]. rewrite IH. reflexivity. Qed.
Lemma picked_map {B C} (f : B -> C) (l : list B) : forall p, picked (map f l) p = map f (picked l p).
Proof. induction l as [|a l IH]; intros [|b p]; cbn; auto. destruct b; cbn; rewrite IH; reflexivity. Qed.
Lemma picked_all {B} (l : list B) : picked l (repeat true (length l)) = l.
Proof. induction l as [|a l IH]; cbn; [reflexivity|]. rewrite IH. reflexivity. Qed.
Lemma marks_all n : marks (repeat true n) = n.
Proof. induction n as [|n IH]; cbn; [reflexivity|]. rewrite IH. reflexivity. Qed.
Lemma gather_map {B C} (f : B -> C) (v : list B) idx : gather (map f v) idx = option_map (map f) (gather v idx).
Proof.
  induction idx as [|i idx IH]; cbn; [reflexivity|]. rewrite nth_error_map, IH.
  destruct (nth_error v i); cbn; [|reflexivity]. destruct (gather v idx); reflexivity.
Qed.
Lemma gather_total {B} (v : list B) idx : (forall i, In i idx -> i < length v) -> exists w, gather v idx = Some w.
Proof.
  induction idx as [|i idx IH]; intros H; cbn; [eauto|].
  destruct (nth_error v i) eqn:E; [|apply nth_error_None in E; specialize (H i (or_introl eq_refl)); lia].
  destruct IH as (w & ->); [intros j J; apply H; right; exact J|]. eauto.
Qed.
Lemma split_some (lam : list A) (c d : mem) cm dm n : complementary cm dm n -> length lam = n -> length c = length cm -> length d = length dm ->
  exists yc yd, split (map Some lam) c cm d dm = Some (map Some yc, map Some yd) /\ entries_at lam cm yc /\ entries_at lam dm yd.
Proof.
  intros CP L L1 L2. pose proof (Permutation_length CP) as PL. rewrite app_length, seq_length in PL.
  assert (IN : forall i, In i (cm ++ dm) -> i < length lam).
  { intros i I. apply (Permutation_in _ CP), in_seq in I. lia. }
  destruct (gather_total lam cm) as (yc & G1); [intros i I; apply IN, in_or_app; auto|].
  destruct (gather_total lam dm) as (yd & G2); [intros i I; apply IN, in_or_app; auto|].
  exists yc, yd. unfold split. rewrite L1, L2, !Nat.eqb_refl, map_length, L, PL, Nat.eqb_refl. cbn [andb].
  rewrite !gather_map, G1, G2. cbn. split; [reflexivity|].
  apply gather_spec in G1. apply gather_spec in G2. destruct G1 as (A1 & A2), G2 as (B1 & B2).
  split; (split; [assumption|]); intros k i K; [destruct (A2 k i K) as (a & E1 & E2)|destruct (B2 k i K) as (a & E1 & E2)]; congruence.
Qed.
Section X.
Variables (P : prob A) (mask : list bool) (lam0 : mem) (it : point A).
Hypothesis SH : shaped P mask lam0 it.
Lemma inv_len : exists xu, inv_x A P (i_x it) = Some xu /\ length xu = length mask.
Proof.
  destruct SH as (M & F & _ & LX & _). unfold inv_x. destruct (p_map P) as [m|].
  - subst m. destruct (expand_spec mask 0 (map Some (p_fixed P)) (i_x it)) as (f & E & L & _); [rewrite map_length; exact F|lia|].
    exists f. auto.
  - exists (i_x it). split; [reflexivity|]. rewrite LX, M, marks_all, repeat_length. reflexivity.
Qed.
Lemma to_x_some (x : list A) : length x = length mask -> to_x A P (map Some x) (i_x it) = Some (map Some (picked x mask)).
Proof.
  intros L. destruct SH as (M & F & _ & LX & _). unfold to_x. destruct (p_map P) as [m|].
  - subst m. rewrite reduce_spec by (rewrite ?map_length; assumption). rewrite picked_map. reflexivity.
  - rewrite M, <- L, picked_all. reflexivity.
Qed.
Lemma get_start_ok U V : honours (length mask) (length lam0) (length (p_inm P)) U -> honours_prim (length mask) V ->
  (f_duals U = true -> p_map P = None) ->
  exists it', get_start A P U V lam0 it = Some (f_ret U || p_ret V, f_duals U, f_slacks U, it') /\
  length (i_x it') = marks mask /\ length (i_yc it') = length (p_eqm P) /\ length (i_yd it') = length (p_inm P) /\
  (f_ret U || p_ret V = true -> exists x, i_x it' = map Some x /\ length x = marks mask /\
     x = if f_ret U then picked (f_x U) mask else picked (p_x V) mask) /\
  (f_slacks U = true -> i_d it' = map Some (f_d U)) /\
  (f_duals U = true -> i_zl it' = map Some (f_zl U) /\ i_zu it' = map Some (f_zu U) /\
     exists yc yd, i_yc it' = map Some yc /\ i_yd it' = map Some yd /\ entries_at (f_lam U) (p_eqm P) yc /\ entries_at (f_lam U) (p_inm P) yd).
Proof.
  intros (HX & HD & HS & HZL & HZU & HL & HDD) HV NR. pose proof SH as (M & F & CP & LX & LZL & LZU & LYC & LYD & LD & LVL & LVU).
  unfold get_start. destruct inv_len as (xu0 & E0 & LU). rewrite E0. cbn [bind].
  assert (FULL : f_duals U = true -> marks mask = length mask).
  { intros D. specialize (NR D). rewrite NR in M. rewrite M at 1. apply marks_all. }
  assert (X1 : exists xu1, wr A xu0 (f_x U) = Some xu1 /\ length xu1 = length mask /\ (f_ret U = true -> xu1 = map Some (f_x U))).
  { destruct (f_ret U); [exists (map Some (f_x U)); rewrite wr_full by lia; rewrite map_length; auto|exists xu0; rewrite wr_none by lia; split; [auto|split; [auto|discriminate]]]. }
  destruct X1 as (xu1 & -> & L1 & X1). cbn [bind].
  assert (ZL : exists zl, wr A (i_zl it) (f_zl U) = Some zl /\ (f_duals U = true -> zl = map Some (f_zl U))).
  { destruct (f_duals U); [exists (map Some (f_zl U)); rewrite wr_full by (rewrite FULL in LZL by reflexivity; lia); auto|exists (i_zl it); rewrite wr_none by lia; split; [auto|discriminate]]. }
  destruct ZL as (zl & -> & ZL). cbn [bind].
  assert (ZU : exists zu, wr A (i_zu it) (f_zu U) = Some zu /\ (f_duals U = true -> zu = map Some (f_zu U))).
  { destruct (f_duals U); [exists (map Some (f_zu U)); rewrite wr_full by (rewrite FULL in LZU by reflexivity; lia); auto|exists (i_zu it); rewrite wr_none by lia; split; [auto|discriminate]]. }
  destruct ZU as (zu & -> & ZU). cbn [bind].
  assert (LM : exists lam, wr A lam0 (f_lam U) = Some lam /\ (f_duals U = true -> lam = map Some (f_lam U))).
  { destruct (f_duals U); [exists (map Some (f_lam U)); rewrite wr_full by lia; auto|exists lam0; rewrite wr_none by lia; split; [auto|discriminate]]. }
  destruct LM as (lam & -> & LM). cbn [bind].
  assert (DD : exists d, wr A (i_d it) (f_d U) = Some d /\ (f_slacks U = true -> d = map Some (f_d U))).
  { destruct (f_slacks U); [exists (map Some (f_d U)); rewrite wr_full by lia; auto|exists (i_d it); rewrite wr_none by lia; split; [auto|discriminate]]. }
  destruct DD as (d & -> & DD). cbn [bind].
  assert (YY : exists yc yd, (if f_duals U then split lam (i_yc it) (p_eqm P) (i_yd it) (p_inm P) else Some (i_yc it, i_yd it)) = Some (yc, yd) /\
    length yc = length (p_eqm P) /\ length yd = length (p_inm P) /\
    (f_duals U = true -> exists yc' yd', yc = map Some yc' /\ yd = map Some yd' /\ entries_at (f_lam U) (p_eqm P) yc' /\ entries_at (f_lam U) (p_inm P) yd')).
  { destruct (f_duals U) eqn:DU.
    - rewrite (LM eq_refl). destruct (split_some (f_lam U) (i_yc it) (i_yd it) (p_eqm P) (p_inm P) (length lam0) CP HL LYC LYD) as (yc & yd & E & E1 & E2).
      exists (map Some yc), (map Some yd). split; [exact E|]. rewrite !map_length. split; [apply E1|]. split; [apply E2|]. intros _. exists yc, yd. auto.
    - exists (i_yc it), (i_yd it). split; [reflexivity|]. split; [exact LYC|]. split; [exact LYD|]. discriminate. }
  destruct YY as (yc & yd & -> & Y1 & Y2 & Y3). cbn [bind].
  assert (X2 : exists xu, (if f_ret U then Some xu1 else wr A xu1 (p_x V)) = Some xu /\
     (f_ret U || p_ret V = true -> xu = map Some (if f_ret U then f_x U else p_x V) /\ length (if f_ret U then f_x U else p_x V) = length mask)).
  { destruct (f_ret U); cbn [orb].
    - exists xu1. split; [reflexivity|]. intros _. split; [auto|exact HX].
    - unfold honours_prim in HV. destruct (p_ret V).
      + exists (map Some (p_x V)). rewrite wr_full by lia. split; [reflexivity|]. auto.
      + exists xu1. rewrite wr_none by lia. split; [reflexivity|]. discriminate. }
  destruct X2 as (xu & -> & X2). cbn [bind].
  destruct (f_ret U || p_ret V) eqn:R.
  - destruct (X2 eq_refl) as (-> & LL). rewrite to_x_some by exact LL. cbn [bind]. eexists. split; [reflexivity|].
    cbn [i_x i_yc i_yd i_d i_zl i_zu]. rewrite map_length. assert (PL : length (picked (if f_ret U then f_x U else p_x V) mask) = marks mask) by (apply picked_len; exact LL).
    split; [exact PL|]. split; [exact Y1|]. split; [exact Y2|]. split; [|split; [exact DD|]].
    + intros _. eexists. split; [reflexivity|]. split; [exact PL|]. destruct (f_ret U); reflexivity.
    + intros D. split; [auto|]. split; auto.
  - cbn [bind]. eexists. split; [reflexivity|]. cbn [i_x i_yc i_yd i_d i_zl i_zu]. split; [exact LX|]. split; [exact Y1|]. split; [exact Y2|].
    split; [discriminate|]. split; [exact DD|]. intros D. split; [auto|]. split; auto.
Qed.
Lemma get_warm_ok W V : honours_warm (length mask) (length lam0) (length (p_inm P)) W -> w_ret W = true -> p_map P = None ->
  exists yc yd, get_warm A P W V lam0 it = Some (true, Point (map Some (w_x W)) (map Some (w_d W)) (map Some (w_zl W)) (map Some (w_zu W))
     (map Some (w_vl W)) (map Some (w_vu W)) (map Some yc) (map Some yd)) /\
     entries_at (w_lam W) (p_eqm P) yc /\ entries_at (w_lam W) (p_inm P) yd.
Proof.
  intros (HX & HZL & HZU & HL & HD & HVL & HVU) R NR. rewrite R in *. pose proof SH as (M & F & CP & LX & LZL & LZU & LYC & LYD & LD & LVL & LVU).
  rewrite NR in M. assert (FM : marks mask = length mask) by (rewrite M at 1; apply marks_all).
  unfold get_warm, inv_x, to_x. rewrite NR. cbn [bind]. rewrite !wr_full by lia. cbn [bind].
  destruct (split_some (w_lam W) (i_yc it) (i_yd it) (p_eqm P) (p_inm P) (length lam0) CP HL LYC LYD) as (yc & yd & E & E1 & E2).
  rewrite E. cbn [bind]. rewrite R. cbn [orb bind]. exists yc, yd. auto.
Qed.
End X.
Lemma inits_zero zero (v : mem) : inits A (map (fun _ => Some zero) v) = Some (repeat zero (length v)).
Proof. induction v as [|a v IH]; cbn; [reflexivity|]. rewrite IH. reflexivity. Qed.
End P.
