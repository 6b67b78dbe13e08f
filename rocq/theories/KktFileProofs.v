(** Lemmas for C88: reading back what was written. *)
From Coq Require Import List Bool Arith ZArith QArith Qabs Qcanon Lia Lqa Permutation.
From Verif Require Import RingKit PackModel SparseModel SparseSpec CsrModel CsrSpec KktFileModel KktFileSpec.
Import ListNotations.
Local Close Scope Qc_scope. Local Close Scope Q_scope. Local Open Scope nat_scope.
Local Notation rows_t := (list (list (nat * Qc))).

(** * printing a number *)
Lemma this_Q2Qc q : (this (Q2Qc q) == q)%Q. Proof. apply Qred_correct. Qed.
Lemma fix20_bound (x : Qc) : (- Zpos (Qden x) <= 2 * (fix20 x * Zpos (Qden x) - Qnum x * e20) <= Zpos (Qden x))%Z.
Proof.
  unfold fix20. cbv zeta. set (n := (Qnum x * e20)%Z). set (d := Zpos (Qden x)). assert (D : (0 < d)%Z) by reflexivity.
  pose proof (Z.div_mod n d) as E. pose proof (Z.mod_pos_bound n d D) as B. specialize (E ltac:(lia)).
  set (q := (n / d)%Z) in *. set (r := (n mod d)%Z) in *. clearbody q r.
  destruct (Z.ltb_spec (2 * r) d); [nia|]. destruct (Z.ltb_spec d (2 * r)); [nia|]. destruct (Z.even q); nia.
Qed.
Lemma near_iff c a b : near c a b <-> (- (inject_Z (Z.of_nat c) * (1 # 200000000000000000000)) <= this a - this b <= inject_Z (Z.of_nat c) * (1 # 200000000000000000000))%Q.
Proof. unfold near. rewrite Qabs_Qle_condition. tauto. Qed.
Lemma fix20_near x : near 1 (num (TD (fix20 x))) x.
Proof.
  unfold num. pose proof (fix20_bound x) as B. set (k := fix20 x) in *. clearbody k. apply near_iff. rewrite this_Q2Qc.
  destruct x as [[n d] C]. cbn [this Qnum Qden] in *. clear C. unfold Qminus, Qplus, Qopp, Qle, Qmult, inject_Z. cbn [Qnum Qden]. unfold e20 in B. lia.
Qed.
Lemma near_refl a : near 0 a a.
Proof. apply near_iff. change (inject_Z (Z.of_nat 0)) with (0%Q). Lqa.lra. Qed.
Lemma near_plus c e (a b u v : Qc_field) : near c a b -> near e u v -> near (c + e) (a +! u) (b +! v).
Proof.
  rewrite !near_iff. intros [H1 H2] [H3 H4]. change (a +! u) with (Q2Qc (this a + this u)). change (b +! v) with (Q2Qc (this b + this v)).
  rewrite !this_Q2Qc. rewrite Nat2Z.inj_add, inject_Z_plus. set (e0 := (1 # 200000000000000000000)%Q) in *. split; Lqa.lra.
Qed.
Lemma near_0 a b : near 0 a b -> a = b.
Proof. rewrite near_iff. change (inject_Z (Z.of_nat 0)) with (0%Q). intros [H1 H2]. apply Qc_is_canon. Lqa.lra. Qed.

(** * the tokens *)
Definition dec (x : Qc) : Qc_field := num (TD (fix20 x)).
Definition decr (rows : rows_t) : list (list (nat * Qc_field)) := map (map (fun p => (fst p, dec (snd p)))) rows.
Definition mk (m nx meq mineq : nat) (rows : rows_t) : list tok :=
  [TI (Z.of_nat m); TI (Z.of_nat nx); TI (Z.of_nat meq); TI (Z.of_nat mineq); TI (Z.of_nat (length (concat rows)))]
  ++ map (fun o => TI (Z.of_nat o)) (offsets 1 rows)
  ++ map (fun p => TI (Z.of_nat (fst p + 1))) (concat rows) ++ map (fun p => TD (fix20 (snd p))) (concat rows).

Lemma offsets_len rows : forall o, length (offsets o rows) = S (length rows).
Proof. induction rows as [|r t IH]; intro o; cbn; auto. Qed.
Lemma offsets_nth rows : forall o i, i <= length rows -> nth i (offsets o rows) 0 = o + length (concat (firstn i rows)).
Proof.
  induction rows as [|r t IH]; intros o i Hi; cbn in Hi.
  - replace i with 0 by lia. cbn. lia.
  - destruct i as [|i]; cbn [offsets nth firstn concat]; [cbn; lia|]. rewrite IH by lia. rewrite app_length. lia.
Qed.
Lemma offsets_last rows : forall o, last (offsets o rows) 0 = o + length (concat rows).
Proof.
  induction rows as [|r t IH]; intro o; [cbn; lia|]. cbn [offsets concat]. rewrite app_length.
  transitivity (last (offsets (o + length r) t) 0); [destruct t; reflexivity|]. rewrite IH. lia.
Qed.

Section Read.
Variables (m nx meq mineq : nat) (rows : rows_t) (rest : list tok).
Hypothesis L : length rows = m.
Let l := mk m nx meq mineq rows ++ rest.
Let nnz := length (concat rows).
Lemma r_head : f_m l = m /\ f_nx l = nx /\ f_meq l = meq /\ f_mineq l = mineq /\ f_nnz l = nnz.
Proof. unfold f_m, f_nx, f_meq, f_mineq, f_nnz, tk, l, mk. cbn [app nth int]. rewrite !Nat2Z.id. auto. Qed.
Lemma r_rowp i : i <= m -> f_rowp l i = 1 + length (concat (firstn i rows)).
Proof.
  intro Hi. unfold f_rowp, tk, l, mk. rewrite <- !app_assoc. rewrite app_nth2 by (cbn; lia). cbn [length]. replace (5 + i - 5) with i by lia.
  rewrite app_nth1 by (rewrite map_length, offsets_len; lia). rewrite nth_indep with (d' := TI (Z.of_nat 0)) by (rewrite map_length, offsets_len; lia).
  rewrite (map_nth (fun o => TI (Z.of_nat o))), offsets_nth by lia. cbn [int]. apply Nat2Z.id.
Qed.
Lemma r_col k : k < nnz -> f_col l k = fst (nth k (concat rows) (0, Q2Qc 0)) + 1.
Proof.
  intro Hk. unfold f_col, tk. rewrite (proj1 r_head). unfold l, mk. rewrite <- !app_assoc. rewrite app_nth2 by (cbn; lia). cbn [length].
  rewrite app_nth2 by (rewrite map_length, offsets_len; lia). rewrite map_length, offsets_len, L. replace (m + 6 + k - 5 - S m) with k by lia.
  rewrite app_nth1 by (rewrite map_length; exact Hk).
  rewrite nth_indep with (d' := TI (Z.of_nat (fst (0, Q2Qc 0) + 1))) by (rewrite map_length; exact Hk).
  rewrite (map_nth (fun p : nat * Qc => TI (Z.of_nat (fst p + 1)))). cbn [int]. apply Nat2Z.id.
Qed.
Lemma r_val k : k < nnz -> f_val l k = dec (snd (nth k (concat rows) (0, Q2Qc 0))).
Proof.
  intro Hk. unfold f_val, tk. destruct r_head as (-> & _ & _ & _ & ->). unfold l, mk. rewrite <- !app_assoc. rewrite app_nth2 by (cbn; lia). cbn [length].
  rewrite app_nth2 by (rewrite map_length, offsets_len; lia). rewrite map_length, offsets_len, L.
  rewrite app_nth2 by (rewrite map_length; fold nnz; lia). rewrite map_length. fold nnz. replace (nnz + m + 6 + k - 5 - S m - nnz) with k by lia.
  rewrite app_nth1 by (rewrite map_length; exact Hk).
  rewrite nth_indep with (d' := TD (fix20 (snd (0, Q2Qc 0)))) by (rewrite map_length; exact Hk).
  rewrite (map_nth (fun p : nat * Qc => TD (fix20 (snd p)))). reflexivity.
Qed.
Lemma r_rest k : tk l (nnz + nnz + m + 6 + k) = tk rest k.
Proof.
  unfold tk, l. rewrite app_nth2; unfold mk; rewrite !app_length, !map_length, offsets_len, L; cbn [length]; fold nnz; [|lia].
  f_equal. lia.
Qed.
Lemma r_raw i j : i < m -> raw l i j = cmat (decr rows) i j.
Proof.
  intro Hi. unfold raw. rewrite (Nat.add_comm i 1). rewrite !r_rowp by lia.
  set (r := nth i rows []). assert (Er : nth_error rows i = Some r) by (apply nth_error_nth'; lia).
  destruct (nth_error_split rows i Er) as (l1 & l2 & E & E1).
  assert (F1 : firstn i rows = l1) by (rewrite E, <- E1, firstn_app, Nat.sub_diag, firstn_all; apply app_nil_r).
  assert (F2 : firstn (1 + i) rows = l1 ++ [r]).
  { replace rows with ((l1 ++ [r]) ++ l2) by (rewrite E, <- app_assoc; reflexivity). rewrite firstn_app.
    replace (1 + i) with (length (l1 ++ [r])) by (rewrite app_length; cbn; lia). rewrite firstn_all, Nat.sub_diag. apply app_nil_r. }
  rewrite F1, F2. rewrite concat_app, app_length. cbn [concat]. rewrite app_nil_r. set (a := length (concat l1)).
  replace (1 + (a + length r) - (1 + a)) with (length r) by lia.
  unfold cmat, decr. replace (nth i (map (map (fun p => (fst p, dec (snd p)))) rows) []) with (map (fun p => (fst p, dec (snd p))) r).
  2:{ symmetry. apply nth_error_nth. rewrite nth_error_map, Er. reflexivity. }
  assert (NN : nnz = a + (length r + length (concat l2))).
  { unfold nnz, a. rewrite E, concat_app, app_length. cbn [concat]. rewrite app_length. reflexivity. }
  assert (A : forall t, t < length r -> f_col l (1 + a + t - 1) = fst (nth t r (0, Q2Qc 0)) + 1 /\ f_val l (1 + a + t - 1) = dec (snd (nth t r (0, Q2Qc 0)))).
  { intros t Ht. replace (1 + a + t - 1) with (a + t) by lia. rewrite r_col, r_val by lia.
    assert (Z : nth (a + t) (concat rows) (0, Q2Qc 0) = nth t r (0, Q2Qc 0)).
    { rewrite E, concat_app. rewrite app_nth2 by (unfold a; lia). fold a. replace (a + t - a) with t by lia. cbn [concat]. apply app_nth1. exact Ht. }
    rewrite Z. auto. }
  clearbody r. clear - A. rewrite map_map. cbn [fst snd]. revert A. generalize (1 + a) as s. clear.
  induction r as [|p r IH]; intros s A; [reflexivity|]. cbn [length seq map lsum]. f_equal.
  - destruct (A 0) as [A1 A2]; [cbn; lia|]. rewrite Nat.add_0_r in A1, A2. rewrite A1, A2. cbn [nth fst snd].
    rewrite (Nat.add_comm (fst p)), (Nat.add_comm j). cbn [Nat.add Nat.eqb]. reflexivity.
  - apply (IH (S s)). intros t Ht. replace (S s + t - 1) with (s + S t - 1) by lia. destruct (A (S t)) as [A1 A2]; [cbn; lia|]. cbn [nth] in *. auto.
Qed.
End Read.

(** rounding a row *)
Lemma cmat_near (rows : rows_t) i j :
  near (length (filter (fun p => fst p =? j) (nth i rows []))) (cmat (decr rows) i j) (cmat (rows : list (list (nat * Qc_field))) i j).
Proof.
  unfold cmat, decr. change (@nth (list (nat * fcar Qc_field)) i rows []) with (@nth (list (nat * Qc)) i rows []). destruct (nth_error rows i) as [r|] eqn:E.
  - rewrite (nth_error_nth _ _ _ E). rewrite (nth_error_nth (map _ rows) i [] (x := map (fun p => (fst p, dec (snd p))) r)) by (rewrite nth_error_map, E; reflexivity).
    clear E. induction r as [|p r IH]; [apply near_refl|]. cbn [map filter]. cbn [lsum fst snd]. change (@fst nat (fcar Qc_field) p) with (@fst nat Qc p).
    destruct (fst p =? j); cbn [length].
    + apply (near_plus 1). { apply fix20_near. } exact IH.
    + apply (near_plus 0). { apply near_refl. } exact IH.
  - apply nth_error_None in E. rewrite !nth_overflow by (rewrite ?map_length; exact E). apply near_refl.
Qed.

(** * istril, istriu *)
Lemma all2_iff m P : all2 m P = true <-> forall i j, i < m -> j < m -> P i j = true.
Proof.
  unfold all2. rewrite forallb_forall. split.
  - intros H i j Hi Hj. specialize (H i). rewrite forallb_forall in H. apply H; apply in_seq; lia.
  - intros H i Hi. apply forallb_forall. intros j Hj. apply in_seq in Hi, Hj. apply H; lia.
Qed.
Lemma is0_iff x : is0 x = true <-> x = Q2Qc 0.
Proof. unfold is0. destruct (Qc_eq_dec x 0); split; intros; try discriminate; auto. Qed.
Lemma plus00 (a : Qc_field) : a +! f0 = a. Proof. change (Qcplus a (Q2Qc 0) = a). ring. Qed.
Lemma plus0a (a : Qc_field) : f0 +! a = a. Proof. change (Qcplus (Q2Qc 0) a = a). ring. Qed.
(** an upper triangular file *)
Lemma loaded_upper l i j : (forall a b, a < f_m l -> b < a -> raw l a b = f0) -> i < f_m l -> j < f_m l ->
  loaded l i j = raw l (Nat.min i j) (Nat.max i j).
Proof.
  intros U Hi Hj. unfold loaded.
  assert (TU : triu l = true).
  { apply all2_iff. intros a b Ha Hb. destruct (Nat.leb_spec a b) as [Hab|Hab]; [reflexivity|]. cbn [orb]. apply is0_iff. apply U; lia. }
  rewrite TU. destruct (tril l) eqn:TL.
  - unfold tril in TL. rewrite all2_iff in TL. destruct (Nat.ltb_spec i j).
    + rewrite (U j i) by lia. rewrite plus00. f_equal; lia.
    + destruct (Nat.eq_dec i j) as [->|N]; [rewrite plus00; f_equal; lia|]. rewrite (U i j) by lia. rewrite plus00.
      rewrite Nat.min_r, Nat.max_l by lia. symmetry. specialize (TL j i Hj Hi). rewrite (proj2 (Nat.leb_gt i j)) in TL by lia. apply is0_iff. exact TL.
  - destruct (Nat.ltb_spec j i).
    + rewrite (U i j) by lia. rewrite plus0a. f_equal; lia.
    + rewrite plus00. f_equal; lia.
Qed.
Lemma loaded_lower l i j : (forall a b, b < f_m l -> a < b -> raw l a b = f0) -> i < f_m l -> j < f_m l ->
  loaded l i j = raw l (Nat.max i j) (Nat.min i j).
Proof.
  intros U Hi Hj. unfold loaded.
  assert (TL : tril l = true).
  { apply all2_iff. intros a b Ha Hb. destruct (Nat.leb_spec b a) as [Hab|Hab]; [reflexivity|]. cbn [orb]. apply is0_iff. apply U; lia. }
  rewrite TL. destruct (Nat.ltb_spec i j).
  - rewrite (U i j) by lia. rewrite plus0a. f_equal; lia.
  - rewrite plus00. f_equal; lia.
Qed.

(** * dense matrices *)
Lemma omap_all {A B} (f : A -> option B) g l : (forall a, In a l -> f a = Some (g a)) -> omap f l = Some (map g l).
Proof. induction l as [|a l IH]; intro H; [reflexivity|]. cbn. rewrite (H a) by (left; auto). rewrite IH by (intros; apply H; right; auto). reflexivity. Qed.
Definition urow (m : nat) (M : list Qc) (i : nat) : list (nat * Qc) :=
  filter (fun p => big (snd p)) (map (fun j => (j, nth (i * m + j) M (Q2Qc 0))) (seq i (m - i))).
Lemma upper_row_ok m M i : length M = m * m -> i < m -> upper_row m M i = Some (urow m M i).
Proof.
  intros HM Hi. unfold upper_row, urow. rewrite (omap_all _ (fun j => (j, nth (i * m + j) M (Q2Qc 0)))); [reflexivity|].
  intros j Hj. apply in_seq in Hj. rewrite (nth_error_nth' M (Q2Qc 0)); [reflexivity|]. rewrite HM. nia.
Qed.
Lemma write_dense_ok m nx meq mineq M : length M = m * m ->
  exists F, write_dense m nx meq mineq M = Some F /\ concat F = mk m nx meq mineq (map (urow m M) (seq 0 m)).
Proof.
  intro HM. unfold write_dense. rewrite (omap_all _ (urow m M)) by (intros i Hi; apply in_seq in Hi; apply upper_row_ok; lia).
  rewrite offsets_last, (Nat.add_comm 1), Nat.eqb_refl. eexists. split; [reflexivity|]. cbn [concat]. rewrite app_nil_r. reflexivity.
Qed.
Lemma big_false x : big x = false -> near 1 (Q2Qc 0) x.
Proof.
  unfold big. destruct (Qlt_le_dec zero_tol (Qabs x)) as [H|H]; [discriminate|]. intros _. apply near_iff. apply Qabs_Qle_condition in H.
  rewrite this_Q2Qc. assert (Z : (zero_tol <= 1 # 200000000000000000000)%Q) by (vm_compute; discriminate).
  change (inject_Z (Z.of_nat 1)) with 1%Q. clear -H Z. set (e := (1 # 200000000000000000000)%Q) in *. Lqa.lra.
Qed.
Lemma urow_filter m M i j : i < m -> j < m ->
  filter (fun p => fst p =? j) (urow m M i) = if (i <=? j) && big (nth (i * m + j) M (Q2Qc 0)) then [(j, nth (i * m + j) M (Q2Qc 0))] else [].
Proof.
  intros Hi Hj. unfold urow. set (f := fun j => nth (i * m + j) M (Q2Qc 0)). change (nth (i * m + j) M (Q2Qc 0)) with (f j).
  change (fun j0 => (j0, nth (i * m + j0) M (Q2Qc 0))) with (fun j0 => (j0, f j0)). clearbody f.
  assert (G : forall n s, filter (fun p : nat * Qc => fst p =? j) (filter (fun p => big (snd p)) (map (fun j0 => (j0, f j0)) (seq s n))) =
    if (s <=? j) && (j <? s + n) && big (f j) then [(j, f j)] else []).
  { induction n as [|n IH]; intro s.
    - cbn [seq map filter]. destruct (Nat.leb_spec s j); destruct (Nat.ltb_spec j (s + 0)); cbn [andb]; auto; lia.
    - cbn [seq map filter snd]. destruct (Nat.eq_dec s j) as [->|N].
      + rewrite (proj2 (Nat.leb_le j j)), (proj2 (Nat.ltb_lt j (j + S n))) by lia. cbn [andb].
        destruct (big (f j)); cbn [filter fst]; rewrite ?Nat.eqb_refl, IH, (proj2 (Nat.leb_gt (S j) j)) by lia; reflexivity.
      + assert (E : (s <=? j) && (j <? s + S n) = (S s <=? j) && (j <? S s + n)).
        { destruct (Nat.leb_spec s j); destruct (Nat.leb_spec (S s) j); cbn [andb]; try lia; try reflexivity; replace (s + S n) with (S s + n) by lia; reflexivity. }
        rewrite E. destruct (big (f s)); cbn [filter fst]; rewrite ?(proj2 (Nat.eqb_neq s j) N); apply IH. }
  rewrite G. replace (j <? i + (m - i)) with true by (symmetry; apply Nat.ltb_lt; lia). rewrite andb_true_r. reflexivity.
Qed.
Lemma cmat_filter (rows : list (list (nat * Qc_field))) i j : cmat rows i j = lsum (map snd (filter (fun p => fst p =? j) (nth i rows []))).
Proof.
  unfold cmat. induction (nth i rows []) as [|p r IH]; [reflexivity|]. cbn [map filter]. cbn [lsum]. rewrite IH.
  destruct (fst p =? j); cbn [map lsum]; [reflexivity|]. apply plus0a.
Qed.
Lemma decr_nth rows i : nth i (decr rows) [] = map (fun p => (fst p, dec (snd p))) (nth i rows []).
Proof. unfold decr. change (@nil (nat * Qc_field)) with (map (fun p : nat * Qc => (fst p, dec (snd p))) []). apply map_nth. Qed.
Lemma filter_map_fst (r : list (nat * Qc)) j : filter (fun p => fst p =? j) (map (fun p => (fst p, dec (snd p))) r) = map (fun p => (fst p, dec (snd p))) (filter (fun p => fst p =? j) r).
Proof. induction r as [|p r IH]; [reflexivity|]. cbn [map filter fst]. destruct (fst p =? j); cbn [map]; [f_equal|]; exact IH. Qed.
Lemma dense_cmat m M i j : i < m -> j < m ->
  cmat (decr (map (urow m M) (seq 0 m))) i j = if (i <=? j) && big (nth (i * m + j) M (Q2Qc 0)) then dec (nth (i * m + j) M (Q2Qc 0)) else f0.
Proof.
  intros Hi Hj. rewrite cmat_filter, decr_nth. etransitivity; [apply (f_equal (fun z : list (nat * Qc_field) => lsum (map snd z))); apply filter_map_fst|]. rewrite (nth_indep _ [] (urow m M 0)) by (rewrite map_length, seq_length; exact Hi).
  rewrite map_nth, seq_nth by exact Hi. cbn [Nat.add]. rewrite urow_filter by assumption.
  destruct ((i <=? j) && big (nth (i * m + j) M (Q2Qc 0))); [|reflexivity]. cbn [map snd]. cbn [lsum fst snd]. apply plus00.
Qed.
Lemma dense_loaded m nx meq mineq M rest i j : length M = m * m -> i < m -> j < m ->
  near 1 (loaded (mk m nx meq mineq (map (urow m M) (seq 0 m)) ++ rest) i j) (sym_up m M i j).
Proof.
  intros HM Hi Hj. set (l := mk _ _ _ _ _ ++ rest).
  assert (L : length (map (urow m M) (seq 0 m)) = m) by (rewrite map_length; apply seq_length).
  pose proof (r_head m nx meq mineq (map (urow m M) (seq 0 m)) rest) as (Fm & _). fold l in Fm.
  assert (RR : forall a b, a < m -> b < m -> raw l a b = if (a <=? b) && big (nth (a * m + b) M (Q2Qc 0)) then dec (nth (a * m + b) M (Q2Qc 0)) else f0).
  { intros a b Ha Hb. unfold l. rewrite r_raw by auto. apply dense_cmat; assumption. }
  rewrite loaded_upper; rewrite ?Fm; try assumption.
  2:{ intros a b Ha Hb. rewrite RR by lia. rewrite (proj2 (Nat.leb_gt a b)) by lia. reflexivity. }
  rewrite RR by lia. rewrite (proj2 (Nat.leb_le _ _)) by lia. cbn [andb]. unfold sym_up.
  destruct (big _) eqn:B; [apply fix20_near|apply big_false; exact B].
Qed.
