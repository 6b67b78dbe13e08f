(** The condensed matrix is assembled correctly on every call. *)
From Coq Require Import List Bool Arith Lia Sorted Ring Field.
From Verif Require Import RingKit PackModel PackProofs SparseModel SparseSpec SparseProofs SparseProofs2
  CsrModel CsrSpec CsrProofs CsrProofs2 CsrProofs3 CsrProofs4 CsrProofs5 CsrProofs6 CondModel CondSpec.
Import ListNotations.

Section P.
Variable K : cfield.
Add Field kf : (fth K).
Notation csr := (csr K).
Notation kin := (kin K).
Notation cst := (cst K).
Notation rows := (list (list (nat * K))).

Lemma vaxpy_spec (a : K) (x y : list K) : length x = length y ->
  exists z, vaxpy K a x y = Some z /\ length z = length x /\ forall i, at_ z i = at_ y i +! a *! at_ x i.
Proof.
  intro H. unfold vaxpy. rewrite H, Nat.eqb_refl. eexists. split; [reflexivity|]. rewrite map_length, combine_length. split; [lia|].
  unfold at_. revert y H. induction x as [|u x IH]; intros [|v y] H [|i]; try discriminate; simpl; try ring. apply IH. simpl in H. lia.
Qed.
Lemma vmul_spec (x y : list K) : length x = length y ->
  exists z, vmul K x y = Some z /\ length z = length x /\ forall i, at_ z i = at_ x i *! at_ y i.
Proof.
  intro H. unfold vmul. rewrite H, Nat.eqb_refl. eexists. split; [reflexivity|]. rewrite map_length, combine_length. split; [lia|].
  unfold at_. revert y H. induction x as [|u x IH]; intros [|v y] H [|i]; try discriminate; simpl; try ring. apply IH. simpl in H. lia.
Qed.

(** patterns of sums and products depend on patterns only *)
Definition sum2 (p q : list (list nat)) (m : nat) : list (list nat) := map (fun i => merge_cols (nth i p []) (nth i q [])) (seq 0 m).
Definition prod2 (p q : list (list nat)) (m : nat) : list (list nat) :=
  map (fun i => setof (flat_map (fun j => nth j q []) (nth i p []))) (seq 0 m).
Lemma nth_pat (xs : rows) i : nth i (pattern xs) [] = map fst (nth i xs []).
Proof. unfold pattern. change [] with (map (@fst nat K) []) at 1. apply map_nth. Qed.
Lemma sum_pat2 (xs ys : rows) m : sum_pat K xs ys m = sum2 (pattern xs) (pattern ys) m.
Proof. unfold sum_pat, sum2. apply map_ext. intro i. rewrite !nth_pat. reflexivity. Qed.
Lemma prod_pat2 (xs ys : rows) m : prod_pat K xs ys m = prod2 (pattern xs) (pattern ys) m.
Proof.
  unfold prod_pat, prod2, cands. apply map_ext. intro i. f_equal. rewrite nth_pat. induction (nth i xs []) as [|e r IH]; simpl; auto.
  rewrite IH, nth_pat. reflexivity.
Qed.

Variables n m : nat.
Variable x0 : kin.
Definition agree (x : kin) : Prop :=
  inputs_ok n m x /\ same_positions (t_ent (i_h x)) (t_ent (i_h x0)) /\ same_positions (t_ent (i_j x)) (t_ent (i_j x0)).
Definition RJ (x : kin) : rows := rows_of K (t_ent (i_j x)) m.
Definition RT (x : kin) : rows := trows K (ents K (RJ x)) n.
Definition RU (x : kin) : rows := rows_of K (t_ent (i_h x)) n.
Definition RL (x : kin) : rows := trows K (ents K (RU x)) n.
Definition PD : list (list nat) := map (fun i => [i]) (seq 0 n).
Definition PP := prod2 (pattern (RT x0)) (pattern (RJ x0)) n.
Definition PUD := sum2 (pattern (RU x0)) PD n.
Definition PH := sum2 (pattern (RL x0)) PUD n.
Definition PM := sum2 PH PP n.
Lemma pat_J x : agree x -> pattern (RJ x) = pattern (RJ x0).
Proof. intros [_ [_ H]]. apply pattern_rows_of_same. exact H. Qed.
Lemma pat_T x : agree x -> pattern (RT x) = pattern (RT x0).
Proof. intro H. apply trows_pattern, ents_pattern, pat_J, H. Qed.
Lemma pat_U x : agree x -> pattern (RU x) = pattern (RU x0).
Proof. intros [_ [H _]]. apply pattern_rows_of_same. exact H. Qed.
Lemma pat_L x : agree x -> pattern (RL x) = pattern (RL x0).
Proof. intro H. apply trows_pattern, ents_pattern, pat_U, H. Qed.

Definition isz (A : csr) (a b : nat) (p : list (list nat)) : Prop := c_m A = a /\ c_n A = b /\ shape K A p.
Definition rsok (A : csr) : Prop := c_rs A = Some (removelast (c_ptr A)).
Definition Inv (s : cst) : Prop :=
  isz (s_jd s) m n (pattern (RJ x0)) /\ isz (s_jt s) n m (pattern (RT x0)) /\ rsok (s_jt s) /\
  isz (s_jtj s) n n PP /\ isz (s_up s) n n (pattern (RU x0)) /\
  isz (s_lo s) n n (pattern (RL x0)) /\ rsok (s_lo s) /\
  isz (s_dg s) n n PD /\ isz (s_ud s) n n PUD /\ isz (s_hs s) n n PH /\ isz (s_m s) n n PM.

Lemma rep_isz A rs a b p : c_m A = a -> c_n A = b -> rep K A rs -> pattern rs = p -> isz A a b p.
Proof. intros Ha Hb [H _] <-. split; auto. Qed.

(** Jacobian *)
Lemma nnz_pos A (l : list (entry K)) k : l <> [] -> (forall e, In e l -> row e < k) -> rep K A (rows_of K l k) -> 0 < c_nnz A.
Proof.
  intros Hne Hk Hr. rewrite (rep_nnz K A _ Hr).
  destruct l as [|e l]; [congruence|]. set (l' := e :: l) in *.
  assert (He : In (row e, col e, val e) (ents K (rows_of K l' k)) -> 0 < length (concat (rows_of K l' k))).
  { intro H. rewrite <- ents_len. destruct (ents K (rows_of K l' k)); [destruct H|simpl; lia]. }
  assert (Hin : In (col e, val e) (concat (rows_of K l' k))).
  { apply in_concat. exists (map (fun e => (col e, val e)) (only K (row e) l')). split.
    - unfold rows_of. apply in_map_iff. exists (row e). split; auto. apply in_seq. specialize (Hk e (or_introl eq_refl)). lia.
    - apply in_map_iff. exists e. split; auto. apply only_in. split; auto. left; auto. }
  destruct (concat (rows_of K l' k)); [destruct Hin|simpl; lia].
Qed.
Lemma J_part x a b : agree x -> isz a m n (pattern (RJ x0)) -> isz b n m (pattern (RT x0)) -> rsok b ->
  exists jd jt, form_from_numeric K a (i_j x) = Some jd /\ transpose_numeric_csr K b jd = Some jt /\
    c_m jd = m /\ c_n jd = n /\ rep K jd (RJ x) /\ c_m jt = n /\ c_n jt = m /\ rep K jt (RT x) /\ rsok jt.
Proof.
  intros Ha [A1 [A2 A3]] [B1 [B2 B3]] Hrs. assert (Ha0 := Ha).
  destruct Ha as [[I1 [I2 [I3 [I4 [I5 [I6 [I7 [I8 [I9 [I10 _]]]]]]]]]] [S1 S2]].
  rewrite <- (pat_J x Ha0) in A3. rewrite <- (pat_T x Ha0) in B3.
  destruct (form_numeric_spec K a (i_j x)) as [jd [E1 [D1 [D2 [D3 D4]]]]]; try congruence; auto.
  { rewrite I3. exact A3. }
  rewrite I3 in D1, D4. rewrite I4 in D2.
  assert (Hpos : 0 < c_nnz jd).
  { apply (nnz_pos jd (t_ent (i_j x)) m); auto. intros e He. rewrite <- I3. apply I6; auto. }
  destruct (transpose_numeric_csr_spec K b jd (RJ x)) as [jt [E2 [T1 [T2 [T3 T4]]]]]; try congruence; auto.
  { apply ordered_rows_of; auto. }
  { rewrite D2. exact B3. }
  exists jd, jt. rewrite D1 in T2. rewrite D2 in T1, T3. repeat (split; [assumption|]). exact T4.
Qed.
Lemma RJ_ordered x : agree x -> ordered (RJ x).
Proof. intros [[_ [_ [_ [_ [_ [_ [_ [H _]]]]]]]] _]. apply ordered_rows_of. exact H. Qed.
Lemma RT_ordered x : agree x -> ordered (RT x).
Proof. intro H. apply ordered_trows, ents_sorted, RJ_ordered, H. Qed.
Lemma RU_ordered x : agree x -> ordered (RU x).
Proof. intros [[_ [_ [_ [_ [_ [_ [H _]]]]]]] _]. apply ordered_rows_of. exact H. Qed.
Lemma RL_ordered x : agree x -> ordered (RL x).
Proof. intro H. apply ordered_trows, ents_sorted, RU_ordered, H. Qed.
Lemma RJ_len x : length (RJ x) = m.
Proof. unfold RJ, rows_of. rewrite map_length, seq_length. auto. Qed.
Lemma RU_len x : length (RU x) = n.
Proof. unfold RU, rows_of. rewrite map_length, seq_length. auto. Qed.

Definition weights (x : kin) (k : nat) : K := at_ (i_dd x) k +! at_ (i_wd x) k.
Lemma setof_pat_sorted p q k : Forall (StronglySorted lt) (prod2 p q k).
Proof. apply Forall_forall. intros r Hr. apply in_map_iff in Hr. destruct Hr as [i [<- _]]. apply setof_sorted. Qed.
Lemma P_part x jd jt p0 hd : agree x -> c_m jd = m -> c_n jd = n -> rep K jd (RJ x) -> c_m jt = n -> c_n jt = m -> rep K jt (RT x) ->
  isz p0 n n PP -> length hd = m -> (forall k, at_ hd k = weights x k) ->
  exists jds p ps, scale_rows K jd hd = Some jds /\ times_mat_numeric K jt f0 p0 f1 jds = Some p /\
    isz jds m n (pattern (RJ x0)) /\ c_m p = n /\ c_n p = n /\ rep K p ps /\ pattern ps = PP /\ ordered ps /\
    forall i j, i < n -> j < n -> cmat ps i j = sumn m (fun k => mat (t_ent (i_j x)) k i *! weights x k *! mat (t_ent (i_j x)) k j).
Proof.
  intros Ha J1 J2 J3 T1 T2 T3 [P1 [P2 P3]] Hl Hw.
  destruct (scale_rows_spec K jd (RJ x) hd J3) as [jds [E1 [S1 [S2 [S3 [_ S4]]]]]]; [congruence|].
  rewrite J1 in S1, S4. rewrite J2 in S2.
  destruct (shape_zip K p0 PP P3) as [ms [M1 M2]].
  assert (PS : pattern (row_scaled K (RJ x) hd m) = pattern (RJ x0)).
  { rewrite <- (pat_J x Ha). unfold row_scaled. rewrite <- (RJ_len x) at 1. apply (pattern_map_fst K (RJ x) (fun i p => snd p *! at_ hd i)). }
  assert (Om : ordered ms). { apply ordered_pattern. rewrite M2. apply setof_pat_sorted. }
  assert (Hc : forall i j, i < n -> In j (cands K (RT x) (row_scaled K (RJ x) hd m) i) -> In j (map fst (nth i ms []))).
  { intros i j Hi Hj. rewrite <- nth_pat, M2. unfold PP. rewrite <- (pat_T x Ha), <- PS, <- prod_pat2. unfold prod_pat.
    rewrite nth_map_seq by auto. apply setof_in. auto. }
  destruct (numeric_spec K jt f0 p0 f1 jds (RT x) (row_scaled K (RJ x) hd m) ms) as [p [E2 [Q1 [Q2 [_ Q4]]]]]; try congruence; auto.
  { rewrite T1. exact Hc. }
  rewrite T1 in Q1, Q4. rewrite S2 in Q2.
  exists jds, p, (prod_rows K f1 f0 (RT x) (row_scaled K (RJ x) hd m) ms n).
  assert (Lm : length ms = n) by (rewrite (rep_len K p0 ms M1); auto).
  assert (PPp : pattern (prod_rows K f1 f0 (RT x) (row_scaled K (RJ x) hd m) ms n) = PP).
  { rewrite <- M2. rewrite <- Lm. apply pattern_prod. }
  split; [auto|]. split; [auto|]. split; [apply (rep_isz _ _ _ _ _ S1 S2 S4 PS)|]. repeat (split; [auto; fail|]).
  split; [apply ordered_pattern; rewrite PPp; apply setof_pat_sorted|].
  intros i j Hi Hj. rewrite (cmat_prod K f1 f0 _ _ ms n m i j Hi); auto.
  - transitivity (sumn m (fun l => cmat (RT x) i l *! cmat (row_scaled K (RJ x) hd m) l j)); [ring|].
    apply sumn_ext. intros k Hk. rewrite cmat_row_scaled by auto. rewrite Hw. unfold RT. rewrite cmat_trows_ents by auto.
    unfold RJ. rewrite !cmat_rows_of by auto. ring.
  - intros q Hq. rewrite <- T2. apply (rep_bound K jt (RT x) i q T3 Hq).
Qed.

(** Hessian *)
Lemma diag_set_pattern (rs : rows) h k : length rs = k -> pattern (diag_set K rs h k) = pattern rs.
Proof.
  intros <-. unfold diag_set, pattern. rewrite map_map. rewrite <- (map_nth_id (map fst) rs). apply map_ext. intro i. apply dset_fst.
Qed.
Lemma H_part x u0 l0 : agree x -> isz u0 n n (pattern (RU x0)) -> isz l0 n n (pattern (RL x0)) -> rsok l0 ->
  exists u l uz, form_from_numeric K u0 (i_h x) = Some u /\ transpose_numeric_csr K l0 u = Some l /\ set_diagonal K u f0 = Some uz /\
    rep K u (RU x) /\ c_m u = n /\ c_n u = n /\
    c_m uz = n /\ c_n uz = n /\ rep K uz (diag_set K (RU x) (fun _ _ => f0) n) /\
    c_m l = n /\ c_n l = n /\ rep K l (RL x) /\ rsok l.
Proof.
  intros Ha [A1 [A2 A3]] [B1 [B2 B3]] Hrs. assert (Ha0 := Ha).
  destruct Ha as [[I1 [I2 [I3 [I4 [I5 [I6 [I7 [I8 [I9 [I10 _]]]]]]]]]] [S1 S2]].
  rewrite <- (pat_U x Ha0) in A3. rewrite <- (pat_L x Ha0) in B3.
  destruct (form_numeric_spec K u0 (i_h x)) as [u [E1 [D1 [D2 [D3 D4]]]]]; try congruence; auto.
  { rewrite I1. exact A3. }
  rewrite I1 in D1, D4. rewrite I2 in D2.
  assert (Hpos : 0 < c_nnz u).
  { apply (nnz_pos u (t_ent (i_h x)) n); auto. intros e He. rewrite <- I1. apply I5; auto. }
  destruct (transpose_numeric_csr_spec K l0 u (RU x)) as [l [E2 [T1 [T2 [T3 T4]]]]]; try congruence; auto.
  { apply ordered_rows_of; auto. }
  { rewrite D2. exact B3. }
  rewrite D1 in T2. rewrite D2 in T1, T3.
  destruct (diag_loop_spec K u (RU x) (fun _ _ => Some f0) (fun _ _ => f0) D4) as [uz [E3 [Z1 [Z2 [Z3 Z4]]]]]; auto.
  rewrite D1 in Z1, Z4. rewrite D2 in Z2.
  exists u, l, uz. repeat (split; [assumption|]). exact T4.
Qed.

Lemma S_part X Y Z xs ys a p : rep K X xs -> rep K Y ys -> c_m X = n -> c_n X = n -> c_m Y = n -> c_n Y = n ->
  a = sum2 (pattern xs) (pattern ys) n -> isz Z n n a -> p = a ->
  exists S, add_matrix_numeric K X Z f1 Y f1 = Some S /\ c_m S = n /\ c_n S = n /\ rep K S (sum_rows K f1 f1 xs ys n) /\
    pattern (sum_rows K f1 f1 xs ys n) = p.
Proof.
  intros Hx Hy X1 X2 Y1 Y2 -> [Z1 [Z2 Z3]] ->.
  destruct (sum_numeric_spec K X Z f1 Y f1 xs ys) as [S [E [S1 [S2 [_ S4]]]]]; try congruence; auto.
  { rewrite X1, sum_pat2. exact Z3. }
  exists S. rewrite X1 in S1, S4. rewrite X2 in S2. repeat (split; [auto; fail|]). rewrite sum_pattern. apply sum_pat2.
Qed.

Lemma numeric_step x s (J : nat -> junk K) : agree x -> Inv s ->
  exists s', cond_build K J (Some s) x = Some s' /\ Inv s' /\ c_m (s_m s') = n /\ c_n (s_m s') = n /\
    length (s_hd s') = m /\ (forall k, at_ (s_hd s') k = weights x k) /\
    exists rs, rep K (s_m s') rs /\ ordered rs /\ forall i j, i < n -> j < n -> cmat rs i j = condensed m x i j.
Proof.
  intros Ha [V1 [V2 [V3 [V4 [V5 [V6 [V7 [V8 [V9 [V10 V11]]]]]]]]]].
  assert (Ha0 := Ha). destruct Ha0 as [[I1 [I2 [I3 [I4 [I5 [I6 [I7 [I8 [I9 [I10 [I11 [I12 [I13 I14]]]]]]]]]]]]] _].
  unfold cond_build. rewrite I3, I2, I11, I13, !Nat.eqb_refl. cbn [andb].
  destruct (vaxpy_spec f1 (i_wd x) (i_dd x)) as [hd [Eh [Lh Nh]]]; [congruence|].
  destruct (vaxpy_spec f1 (i_wx x) (i_dx x)) as [dxw [Ed [Ld Nd]]]; [congruence|].
  rewrite I14 in Lh. rewrite I12 in Ld.
  rewrite Eh, Ed. cbn [obind fst snd].
  destruct (J_part x _ _ Ha V1 V2 V3) as [jd [jt [E1 [E2 [J1 [J2 [J3 [T1 [T2 [T3 T4]]]]]]]]]].
  rewrite E1. cbn [obind]. rewrite E2. cbn [obind].
  assert (Hw : forall k, at_ hd k = weights x k) by (intro k; rewrite Nh; unfold weights; ring).
  destruct (P_part x jd jt _ hd Ha J1 J2 J3 T1 T2 T3 V4 Lh Hw) as [jds [p [ps [E3 [E4 [Sz [Q1 [Q2 [Q3 [Q4 [Q5 Q6]]]]]]]]]]].
  rewrite E3. cbn [obind]. rewrite E4. cbn [obind].
  destruct (H_part x _ _ Ha V5 V6 V7) as [u [l [uz [E5 [E6 [E7 [U0 [U1 [U2 [Z1 [Z2 [Z3 [L1 [L2 [L3 L4]]]]]]]]]]]]]]].
  rewrite E5. cbn [obind]. rewrite E6. cbn [obind]. rewrite E7. cbn [obind].
  assert (PDe : pattern (drows K dxw) = PD) by (rewrite drows_pattern, Ld; reflexivity).
  destruct V8 as [D1 [D2 D3]].
  destruct (diag_numeric_spec K (s_dg s) dxw) as [d [E8 [DD1 [DD2 DD3]]]]; [lia|lia|rewrite PDe; exact D3|].
  rewrite Ld in DD1, DD2. rewrite E8. cbn [obind].
  assert (PZ : pattern (diag_set K (RU x) (fun _ _ => f0) n) = pattern (RU x0)).
  { rewrite diag_set_pattern by apply RU_len. apply pat_U; auto. }
  destruct (S_part uz d (s_ud s) _ _ PUD PUD Z3 DD3 Z1 Z2 DD1 DD2) as [ud [E9 [A1 [A2 [A3 A4]]]]]; auto.
  { rewrite PZ, PDe. reflexivity. }
  rewrite E9. cbn [obind].
  destruct (S_part l ud (s_hs s) _ _ PH PH L3 A3 L1 L2 A1 A2) as [hs [E10 [B1 [B2 [B3 B4]]]]]; auto.
  { rewrite (pat_L x Ha), A4. reflexivity. }
  rewrite E10. cbn [obind].
  destruct (S_part hs p (s_m s) _ _ PM PM B3 Q3 B1 B2 Q1 Q2) as [M [E11 [C1 [C2 [C3 C4]]]]]; auto.
  { rewrite B4, Q4. reflexivity. }
  rewrite E11. cbn [obind]. eexists. split; [reflexivity|]. cbn [s_m s_hd].
  split.
  { unfold Inv. cbn [s_jd s_jt s_jtj s_up s_lo s_dg s_ud s_hs s_m].
    split; [exact Sz|]. split; [apply (rep_isz _ _ _ _ _ T1 T2 T3); apply pat_T; auto|]. split; [exact T4|].
    split; [apply (rep_isz _ _ _ _ _ Q1 Q2 Q3 Q4)|]. split; [apply (rep_isz _ _ _ _ _ Z1 Z2 Z3 PZ)|].
    split; [apply (rep_isz _ _ _ _ _ L1 L2 L3); apply pat_L; auto|]. split; [exact L4|].
    split; [apply (rep_isz _ _ _ _ _ DD1 DD2 DD3 PDe)|]. split; [apply (rep_isz _ _ _ _ _ A1 A2 A3 A4)|].
    split; [apply (rep_isz _ _ _ _ _ B1 B2 B3 B4)|]. apply (rep_isz _ _ _ _ _ C1 C2 C3 C4). }
  repeat (split; [auto; fail|]). eexists. split; [exact C3|].
  assert (OZ : ordered (diag_set K (RU x) (fun _ _ => f0) n)).
  { apply ordered_pattern. rewrite diag_set_pattern by apply RU_len. apply ordered_pattern, RU_ordered; auto. }
  split.
  { apply sum_ordered; [|exact Q5]. apply sum_ordered; [apply RL_ordered; auto|]. apply sum_ordered; [exact OZ|apply ordered_drows]. }
  intros i j Hi Hj. rewrite !cmat_sum by auto. rewrite Q6 by auto. rewrite cmat_drows by lia.
  unfold RL. rewrite cmat_trows_ents by auto. unfold RU at 1. rewrite cmat_rows_of by auto.
  unfold diag_set. rewrite cmat_map by auto.
  assert (OR : StronglySorted (fun a b : nat * K => fst a < fst b) (nth i (RU x) [])).
  { assert (O := RU_ordered x Ha). unfold ordered in O. rewrite Forall_forall in O. apply O. apply nth_In. rewrite RU_len. auto. }
  rewrite (dset_look K (fun _ => f0) i j _ OR). cbv zeta.
  change (lsum (map (fun p => if fst p =? j then snd p else f0) (nth i (RU x) []))) with (cmat (RU x) i j).
  assert (CU : cmat (RU x) i j = mat (t_ent (i_h x)) i j) by (apply cmat_rows_of; auto).
  unfold condensed, symmat. unfold weights. destruct (Nat.eqb_spec j i) as [E|E].
  - subst j. rewrite Nat.eqb_refl. cbn [andb]. rewrite Nd.
    destruct (existsb (Nat.eqb i) (map fst (nth i (RU x) []))) eqn:Ex; [ring|].
    rewrite cmat_none; [ring|]. intro Hin. assert (existsb (Nat.eqb i) (map fst (nth i (RU x) [])) = true); [|congruence].
    apply existsb_exists. exists i. split; auto. apply Nat.eqb_refl.
  - cbn [andb]. destruct (Nat.eqb_spec i j); [congruence|]. rewrite CU. ring.
Qed.

Lemma add_new_split J X Y xs ys : rep K X xs -> rep K Y ys -> c_m X = n -> c_n X = n -> c_m Y = n -> c_n Y = n -> 0 < n ->
  exists Z, isz Z n n (sum2 (pattern xs) (pattern ys) n) /\ add_new K J X Y = add_matrix_numeric K X Z f1 Y f1.
Proof.
  intros Hx Hy X1 X2 Y1 Y2 Hn. unfold add_new.
  rewrite (sum_alloc_spec K J X Y xs ys) by congruence. rewrite X1, X2.
  destruct (new_csr_spec K J n n (length (concat (sum_pat K xs ys n))) Hn Hn) as [M [E [A1 [A2 [A3 A4]]]]]. rewrite E. cbn [obind].
  destruct (sum_symbolic_spec K X M Y xs ys) as [Z [E2 [Z1 [Z2 Z3]]]]; try congruence; auto.
  rewrite E2. cbn [obind]. exists Z. split; auto. split; [congruence|]. split; [congruence|]. rewrite <- sum_pat2, <- X1. exact Z3.
Qed.

Lemma first_step x (J : nat -> junk K) : agree x -> exists s, Inv s /\ cond_build K J None x = cond_build K J (Some s) x.
Proof.
  intros Ha. assert (Ha0 := Ha). destruct Ha0 as [[I1 [I2 [I3 [I4 [I5 [I6 [I7 [I8 [I9 [I10 [I11 [I12 [I13 I14]]]]]]]]]]]]] _].
  assert (Hn : 0 < n).
  { destruct (t_ent (i_h x)) as [|e l] eqn:E; [congruence|]. assert (W := I5 e). rewrite E in W. destruct (W (or_introl eq_refl)). lia. }
  destruct (vaxpy_spec f1 (i_wd x) (i_dd x)) as [hd [Eh [Lh Nh]]]; [congruence|].
  destruct (vaxpy_spec f1 (i_wx x) (i_dx x)) as [dxw [Ed [Ld Nd]]]; [congruence|].
  rewrite I14 in Lh. rewrite I12 in Ld.
  assert (Hw : forall k, at_ hd k = weights x k) by (intro k; rewrite Nh; unfold weights; ring).
  (* Jacobian, symbolic *)
  destruct (form_symbolic_spec K (J 0) (null_csr K) (i_j x)) as [a [Ea [Am [An As]]]]; auto.
  rewrite I3 in Am, As. rewrite I4 in An.
  destruct (shape_zip K a _ As) as [as' [Ra Pa]].
  assert (Pa' : pattern as' = pattern (RJ x0)) by (rewrite Pa; apply pat_J; auto).
  assert (Oa : ordered as') by (apply ordered_pattern; rewrite Pa'; rewrite <- (pat_J x Ha); apply ordered_pattern, RJ_ordered; auto).
  assert (Na : 0 < c_nnz a).
  { destruct As as [_ [As _]]. rewrite As. unfold pattern. rewrite concat_map_map, map_length.
    rewrite concat_rows_of, map_length; [destruct (t_ent (i_j x)); [congruence|simpl; lia]|apply sorted_rows; auto|].
    intros e He. rewrite <- I3. apply I6; auto. }
  destruct (transpose_symbolic_csr_spec K (J 1) (null_csr K) a as') as [b [Eb [Bm [Bn [Bs Br]]]]]; auto.
  assert (Za : isz a m n (pattern (RJ x0))) by (split; [exact Am|split; [exact An|rewrite <- (pat_J x Ha); exact As]]).
  assert (Zb : isz b n m (pattern (RT x0))).
  { split; [lia|]. split; [lia|]. rewrite An in Bs. rewrite <- (pat_T x Ha).
    replace (pattern (RT x)) with (pattern (trows K (ents K as') n)); [exact Bs|].
    apply trows_pattern, ents_pattern. rewrite Pa'. symmetry. apply pat_J; auto. }
  destruct (J_part x _ _ Ha Za Zb Br) as [jd [jt [E1 [E2 [J1 [J2 [J3 [T1 [T2 [T3 T4]]]]]]]]]].
  (* product, symbolic *)
  destruct (new_csr_spec K (J 2) n n (length (concat (prod_pat K (RT x) (RJ x) n))) Hn Hn) as [M0 [EM [A1 [A2 [A3 A4]]]]].
  assert (Eal : times_mat_alloc K (J 2) jt jd = Some M0).
  { rewrite (alloc_spec K (J 2) jt jd (RT x) (RJ x)) by (auto; lia). rewrite T1, J2. exact EM. }
  destruct (symbolic_spec K jt M0 jd (RT x) (RJ x)) as [p0 [Es [Pm [Pn Ps]]]]; [auto|auto|lia|lia|lia|auto|rewrite T1; auto|].
  assert (Zp : isz p0 n n PP).
  { split; [lia|]. split; [lia|]. rewrite T1, prod_pat2, (pat_T x Ha), (pat_J x Ha) in Ps. exact Ps. }
  destruct (P_part x jd jt p0 hd Ha J1 J2 J3 T1 T2 T3 Zp Lh Hw) as [jds [p [ps [E3 [E4 [Sz [Q1 [Q2 [Q3 [Q4 [Q5 Q6]]]]]]]]]]].
  (* Hessian, symbolic *)
  destruct (form_symbolic_spec K (J 3) (null_csr K) (i_h x)) as [u0 [Eu [Um [Un Us]]]]; auto.
  rewrite I1 in Um, Us. rewrite I2 in Un.
  assert (Zu : isz u0 n n (pattern (RU x0))) by (split; [exact Um|split; [exact Un|rewrite <- (pat_U x Ha); exact Us]]).
  destruct (form_numeric_spec K u0 (i_h x)) as [u [E5 [U1 [U2 [_ U3]]]]]; [auto|auto|lia|lia|rewrite I1; exact Us|].
  rewrite I1 in U1, U3. rewrite I2 in U2.
  assert (Nu : 0 < c_nnz u).
  { apply (nnz_pos u (t_ent (i_h x)) n); auto. intros e He. rewrite <- I1. apply I5; auto. }
  destruct (transpose_symbolic_csr_spec K (J 4) (null_csr K) u (RU x)) as [l0 [El [Lm [Ln [Ls Lr]]]]]; auto.
  { apply ordered_rows_of; auto. }
  assert (Zl : isz l0 n n (pattern (RL x0))).
  { split; [lia|]. split; [lia|]. rewrite U2 in Ls. rewrite <- (pat_L x Ha). exact Ls. }
  destruct (H_part x _ _ Ha Zu Zl Lr) as [u' [l [uz [E5' [E6 [E7 [U0 [_ [_ [Z1 [Z2 [Z3 [L1 [L2 [L3 L4]]]]]]]]]]]]]]].
  rewrite E5 in E5'. injection E5' as <-.
  (* diagonal *)
  assert (PDe : pattern (drows K dxw) = PD) by (rewrite drows_pattern, Ld; reflexivity).
  destruct (diag_symbolic_spec K (J 5) (null_csr K) dxw) as [d0 [Ed0 [D1 [D2 D3]]]]; [auto|lia|].
  destruct (diag_numeric_spec K d0 dxw) as [d [E8 [DD1 [DD2 DD3]]]]; auto.
  rewrite Ld in D1, D2, DD1, DD2.
  (* sums *)
  assert (PZ : pattern (diag_set K (RU x) (fun _ _ => f0) n) = pattern (RU x0)).
  { rewrite diag_set_pattern by apply RU_len. apply pat_U; auto. }
  destruct (add_new_split (J 6) uz d _ _ Z3 DD3 Z1 Z2 DD1 DD2 Hn) as [ud0 [Zud Eud]]. rewrite PZ, PDe in Zud.
  destruct (S_part uz d ud0 _ _ PUD PUD Z3 DD3 Z1 Z2 DD1 DD2) as [ud [E9 [B1 [B2 [B3 B4]]]]]; auto.
  { rewrite PZ, PDe. reflexivity. }
  destruct (add_new_split (J 7) l ud _ _ L3 B3 L1 L2 B1 B2 Hn) as [hs0 [Zhs Ehs]]. rewrite (pat_L x Ha), B4 in Zhs.
  destruct (S_part l ud hs0 _ _ PH PH L3 B3 L1 L2 B1 B2) as [hs [E10 [C1 [C2 [C3 C4]]]]]; auto.
  { rewrite (pat_L x Ha), B4. reflexivity. }
  destruct (add_new_split (J 8) hs p _ _ C3 Q3 C1 C2 Q1 Q2 Hn) as [m0 [Zm Em]]. rewrite C4, Q4 in Zm.
  exists (Cst a b p0 u0 l0 d0 ud0 hs0 m0 hd). split.
  - unfold Inv. cbn [s_jd s_jt s_jtj s_up s_lo s_dg s_ud s_hs s_m]. repeat (split; [assumption|]).
    split; [split; [lia|split; [lia|rewrite <- PDe; exact D3]]|]. repeat (split; [assumption|]). exact Zm.
  - unfold cond_build. rewrite I3, I2, I11, I13, !Nat.eqb_refl. cbn [andb]. rewrite Eh, Ed. cbn [obind fst snd s_jd s_jt s_jtj s_up s_lo s_dg s_ud s_hs s_m].
    rewrite Ea. cbn [obind]. rewrite Eb. cbn [obind fst snd]. rewrite E1. cbn [obind]. rewrite E2. cbn [obind].
    rewrite Eal. cbn [obind]. rewrite Es. cbn [obind]. rewrite E3. cbn [obind]. rewrite E4. cbn [obind].
    rewrite Eu. cbn [obind]. rewrite E5. cbn [obind]. rewrite El. cbn [obind]. rewrite E6. cbn [obind]. rewrite E7. cbn [obind].
    assert (EN : c_nnz l =? c_nnz uz = true).
    { apply Nat.eqb_eq. rewrite (rep_nnz K l _ L3), (rep_nnz K uz _ Z3). unfold RL.
      rewrite trows_len by (intros e He; rewrite <- U2; apply (ents_bound K u (RU x) e U3 He)). rewrite ents_len.
      rewrite <- (map_length fst (concat (RU x))), <- (map_length fst (concat (diag_set _ _ _ _))), <- !concat_map_map.
      fold (@pattern K). change (map (map fst) (RU x)) with (pattern (RU x)). change (map (map fst) (diag_set K (RU x) (fun _ _ => f0) n)) with (pattern (diag_set K (RU x) (fun _ _ => f0) n)).
      rewrite PZ, (pat_U x Ha). reflexivity. }
    rewrite EN. rewrite Ld in Ed0. rewrite Ld, Ed0. cbn [obind]. rewrite E8. cbn [obind]. rewrite Eud, E9. cbn [obind]. rewrite Ehs, E10. cbn [obind].
    rewrite Em. reflexivity.
Qed.
End P.
