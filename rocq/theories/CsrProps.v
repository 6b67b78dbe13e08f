(** C27, C28, C47: compressed-row matrices. *)
From Coq Require Import List Bool Arith Lia Ring Field Sorted QArith Qcanon.
From Verif Require Import RingKit PackModel SparseModel SparseSpec SparseProofs SparseProofs2 SparseProps
  CsrModel CsrSpec CsrProofs CsrProofs2 CsrProofs3 CsrProofs4 CsrProofs5 CsrProofs6.
Import ListNotations.
Close Scope Qc_scope. Close Scope Q_scope. Open Scope nat_scope.

(** unspecified memory of the examples *)
Definition J7 : junk Qc_field := Junk Qc_field (fun _ => 7) (fun _ => q 77).
Definition J9 : junk Qc_field := Junk Qc_field (fun _ => 9) (fun _ => q 99).

(** * C27: conversion and transposition, with any number of numeric refreshes.
    Missing from the full claim: matrices without stored entries (refuted below). *)
Theorem C27_triplet_to_csr_partial : forall (K : cfield) (J : junk K) (this : csr K) (M0 : trip K),
  wf M0 -> sorted (t_ent M0) -> t_ent M0 <> [] -> allocated K this \/ this = null_csr K ->
  exists A0, form_from_symbolic K J this M0 = Some A0 /\
  forall Ms, (forall M, In M Ms -> t_m M = t_m M0 /\ t_n M = t_n M0 /\ same_positions (t_ent M0) (t_ent M)) -> Ms <> [] ->
  exists A rows, ofold (fun M a => form_from_numeric K a M) Ms A0 = Some A /\
    c_m A = t_m M0 /\ c_n A = t_n M0 /\ stores A rows /\ ordered rows /\
    forall i j, i < t_m M0 -> cmat rows i j = mat (t_ent (last Ms M0)) i j.
Proof.
  intros K J this M0 W Hs Hne Ht.
  destruct (form_symbolic_spec K J this M0 W Hs Hne) as [A0 [E0 [Em [En Sh]]]].
  { destruct Ht as [H| ->]; auto. }
  exists A0. split; auto. intros Ms HMs HMne.
  assert (G : forall Ms A, (forall M, In M Ms -> t_m M = t_m M0 /\ t_n M = t_n M0 /\ same_positions (t_ent M0) (t_ent M)) ->
    c_m A = t_m M0 -> c_n A = t_n M0 -> shape K A (pattern (rows_of K (t_ent M0) (t_m M0))) ->
    (Ms = [] -> rep K A (rows_of K (t_ent M0) (t_m M0))) ->
    exists A', ofold (fun M a => form_from_numeric K a M) Ms A = Some A' /\ c_m A' = t_m M0 /\ c_n A' = t_n M0 /\
      rep K A' (rows_of K (t_ent (last Ms M0)) (t_m M0))).
  { clear -W Hs. intros Ms. pattern Ms. apply rev_ind.
    - intros A _ Hm Hn _ Hr. exists A. simpl. auto.
    - intros M Ms' IH A HM Hm Hn Hsh _. rewrite ofold_app. rewrite last_last.
      assert (X : exists A1, ofold (fun M a => form_from_numeric K a M) Ms' A = Some A1 /\ c_m A1 = t_m M0 /\ c_n A1 = t_n M0 /\ shape K A1 (pattern (rows_of K (t_ent M0) (t_m M0)))).
      { destruct Ms' as [|N Ns]; [exists A; simpl; auto|].
        destruct (IH A) as [A1 [E1 [M1 [N1 R1]]]]; auto; [intros; apply HM; apply in_or_app; auto|discriminate|].
        exists A1. repeat (split; [auto; fail|]). destruct R1 as [R1 _].
        assert (Hl : In (last (N :: Ns) M0) (N :: Ns)).
        { destruct (exists_last (l := N :: Ns)) as [l' [a E]]; [discriminate|]. rewrite E, last_last. apply in_or_app. right. left. auto. }
        destruct (HM (last (N :: Ns) M0)) as [_ [_ HP]]; [apply in_or_app; auto|].
        rewrite (pattern_rows_of_same K (t_ent M0) _ (t_m M0) HP). exact R1. }
      destruct X as [A1 [E1 [M1 [N1 S1]]]]. rewrite E1. simpl.
      destruct (HM M) as [Hm1 [Hn1 HP]]; [apply in_or_app; right; left; auto|].
      destruct (form_numeric_spec K A1 M) as [A2 [E2 [M2 [N2 [_ R2]]]]].
      + apply (same_wf K M0 M); auto.
      + apply (same_sorted K (t_ent M0)); auto.
      + congruence.
      + congruence.
      + rewrite Hm1, <- (pattern_rows_of_same K (t_ent M0) _ (t_m M0) HP). exact S1.
      + rewrite E2. exists A2. rewrite Hm1 in M2, R2. rewrite Hn1 in N2. auto. }
  destruct (G Ms A0) as [A [E [Hm [Hn Hr]]]]; auto; [congruence|].
  exists A, (rows_of K (t_ent (last Ms M0)) (t_m M0)). repeat (split; [auto; fail|]).
  split; [apply rep_stores; auto|].
  assert (Hl : In (last Ms M0) Ms).
  { destruct (exists_last HMne) as [l' [a Ea]]. rewrite Ea, last_last. apply in_or_app. right. left. auto. }
  destruct (HMs _ Hl) as [_ [_ HP]]. split.
  - apply ordered_rows_of. apply (same_sorted K (t_ent M0)); auto.
  - intros i j Hi. apply cmat_rows_of; auto.
Qed.
Print Assumptions C27_triplet_to_csr_partial.
Definition Tex : trip Qc_field := Trip 2 3 [(0,1,q 5); (0,2,q 6); (1,0,q 7)].
Definition Tex2 : trip Qc_field := Trip 2 3 [(0,1,q 1); (0,2,q 2); (1,0,q 3)].
Example C27_case_form : match form_from_symbolic Qc_field J7 (null_csr Qc_field) Tex with
  | Some A => match form_from_numeric Qc_field A Tex with
     | Some B => c_ptr B = [0; 2; 3] /\ c_col B = [1; 2; 0] /\ c_val B = [q 5; q 6; q 7] | None => False end
  | None => False end.
Proof. vm_compute. auto. Qed.

Theorem C27_transpose_of_triplet_partial : forall (K : cfield) (J : junk K) (this : csr K) (M0 : trip K),
  wf M0 -> sorted (t_ent M0) -> t_ent M0 <> [] -> (allocated K this /\ c_rs this = None) \/ this = null_csr K ->
  exists A0, transpose_symbolic_trip K J this M0 = Some A0 /\
  forall Ms, (forall M, In M Ms -> t_m M = t_m M0 /\ t_n M = t_n M0 /\ same_positions (t_ent M0) (t_ent M)) -> Ms <> [] ->
  exists A rows, ofold (fun M a => transpose_numeric_trip K a M) Ms A0 = Some A /\
    c_m A = t_n M0 /\ c_n A = t_m M0 /\ stores A rows /\ ordered rows /\
    forall i j, j < t_n M0 -> cmat rows j i = mat (t_ent (last Ms M0)) i j.
Proof.
  intros K J this M0 W Hs Hne Ht. unfold transpose_symbolic_trip.
  assert (B0 : forall e, In e (t_ent M0) -> col e < t_n M0 /\ row e < t_m M0) by (intros e He; destruct (W e He); auto).
  destruct (transpose_symbolic_spec K J this (t_n M0) (t_m M0) (t_ent M0) Hs B0 Hne) as [A0 [E0 [Em [En [Sh Rs]]]]].
  { destruct Ht as [[H _]| ->]; auto. }
  { destruct Ht as [[_ H]| ->]; auto. }
  exists A0. split; auto. intros Ms HMs HMne.
  assert (G : forall Ms A, (forall M, In M Ms -> t_m M = t_m M0 /\ t_n M = t_n M0 /\ same_positions (t_ent M0) (t_ent M)) ->
    c_m A = t_n M0 -> c_n A = t_m M0 -> shape K A (pattern (trows K (t_ent M0) (t_n M0))) -> c_rs A = Some (removelast (c_ptr A)) ->
    exists A', ofold (fun M a => transpose_numeric_trip K a M) Ms A = Some A' /\ c_m A' = t_n M0 /\ c_n A' = t_m M0 /\
      shape K A' (pattern (trows K (t_ent M0) (t_n M0))) /\ c_rs A' = Some (removelast (c_ptr A')) /\
      (Ms <> [] -> rep K A' (trows K (t_ent (last Ms M0)) (t_n M0)))).
  { clear -W Hs Hne. intros Ms. pattern Ms. apply rev_ind.
    - intros A _ Hm Hn HS HR. exists A. simpl. repeat (split; [auto; fail|]). congruence.
    - intros M Ms' IH A HM Hm Hn Hsh Hrs. rewrite ofold_app. rewrite last_last.
      destruct (IH A) as [A1 [E1 [M1 [N1 [S1 [R1 _]]]]]]; auto; [intros; apply HM; apply in_or_app; auto|].
      rewrite E1. simpl.
      destruct (HM M) as [Hm1 [Hn1 HP]]; [apply in_or_app; right; left; auto|].
      assert (WM : wf M) by (apply (same_wf K M0 M); auto).
      assert (EP := trows_pattern K (t_ent M0) (t_ent M) (t_n M0) HP).
      unfold transpose_numeric_trip.
      destruct (transpose_numeric_spec K A1 (t_n M) (t_m M) (t_ent M)) as [A2 [E2 [M2 [N2 [R2 Q2]]]]].
      + apply (same_sorted K (t_ent M0)); auto.
      + intros e He; destruct (WM e He); auto.
      + intro E. apply Hne. unfold same_positions in HP. rewrite E in HP. destruct (t_ent M0); [auto|discriminate].
      + congruence.
      + congruence.
      + rewrite Hn1, <- EP. exact S1.
      + exact R1.
      + rewrite E2. exists A2. rewrite Hn1 in M2, R2. rewrite Hm1 in N2. repeat (split; [auto; fail|]).
        split; [rewrite EP; apply R2|]. auto. }
  destruct (G Ms A0) as [A [E [Hm [Hn [_ [_ Hr]]]]]]; auto. specialize (Hr HMne).
  exists A, (trows K (t_ent (last Ms M0)) (t_n M0)). repeat (split; [auto; fail|]).
  split; [apply rep_stores; auto|].
  assert (Hl : In (last Ms M0) Ms).
  { destruct (exists_last HMne) as [l' [a Ea]]. rewrite Ea, last_last. apply in_or_app. right. left. auto. }
  destruct (HMs _ Hl) as [_ [_ HP]]. split.
  - apply ordered_trows. apply (same_sorted K (t_ent M0)); auto.
  - intros i j Hi. apply cmat_trows; auto.
Qed.
Print Assumptions C27_transpose_of_triplet_partial.
Example C27_case_transpose : match transpose_symbolic_trip Qc_field J7 (null_csr Qc_field) Tex with
  | Some A => match ofold (fun M a => transpose_numeric_trip Qc_field a M) [Tex; Tex2] A with
     | Some B => c_ptr B = [0; 1; 2; 3] /\ c_col B = [1; 0; 0] /\ c_val B = [q 3; q 1; q 2] | None => False end
  | None => False end.
Proof. vm_compute. auto. Qed.

Theorem C27_transpose_of_csr_partial : forall (K : cfield) (J : junk K) (this M0 : csr K) rows0,
  stores M0 rows0 -> ordered rows0 -> 0 < c_nnz M0 -> (allocated K this /\ c_rs this = None) \/ this = null_csr K ->
  exists A0, transpose_symbolic_csr K J this M0 = Some A0 /\
  forall Ms : list (csr K * list (list (nat * K))),
  (forall M, In M Ms -> c_n (fst M) = c_n M0 /\ stores (fst M) (snd M) /\ pattern (snd M) = pattern rows0) -> Ms <> [] ->
  exists A rows, ofold (fun M a => transpose_numeric_csr K a (fst M)) Ms A0 = Some A /\
    c_m A = c_n M0 /\ c_n A = c_m M0 /\ stores A rows /\ ordered rows /\
    forall i j, j < c_n M0 -> cmat rows j i = cmat (snd (last Ms (M0, rows0))) i j.
Proof.
  intros K J this M0 rows0 Hst Ho Hpos Ht. apply rep_stores in Hst.
  destruct (transpose_symbolic_csr_spec K J this M0 rows0 Hst Ho Hpos) as [A0 [E0 [Em [En [Sh Rs]]]]].
  { destruct Ht as [[H _]| ->]; auto. }
  { destruct Ht as [[_ H]| ->]; auto. }
  exists A0. split; auto. intros Ms HMs HMne.
  assert (Prop1 : forall M : csr K * list (list (nat * K)), c_n (fst M) = c_n M0 /\ stores (fst M) (snd M) /\ pattern (snd M) = pattern rows0 ->
     rep K (fst M) (snd M) /\ ordered (snd M) /\ c_nnz (fst M) = c_nnz M0 /\ c_m (fst M) = c_m M0 /\
     pattern (trows K (ents K (snd M)) (c_n M0)) = pattern (trows K (ents K rows0) (c_n M0))).
  { intros M [H1 [H2 H3]]. apply rep_stores in H2. split; auto. split; [apply ordered_pattern; rewrite H3; apply ordered_pattern; auto|].
    assert (L : length (snd M) = length rows0) by (apply (f_equal (@length _)) in H3; unfold pattern in H3; rewrite !map_length in H3; auto).
    split; [|split].
    - rewrite (rep_nnz K _ _ H2), (rep_nnz K _ _ Hst). apply (f_equal (@concat nat)) in H3. unfold pattern in H3. rewrite !concat_map_map in H3.
      apply (f_equal (@length _)) in H3. rewrite !map_length in H3. auto.
    - rewrite <- (rep_len K _ _ H2), <- (rep_len K _ _ Hst). auto.
    - apply trows_pattern, ents_pattern. auto. }
  assert (G : forall Ms A, (forall M : csr K * list (list (nat * K)), In M Ms -> c_n (fst M) = c_n M0 /\ stores (fst M) (snd M) /\ pattern (snd M) = pattern rows0) ->
    c_m A = c_n M0 -> c_n A = c_m M0 -> shape K A (pattern (trows K (ents K rows0) (c_n M0))) -> c_rs A = Some (removelast (c_ptr A)) ->
    exists A', ofold (fun M a => transpose_numeric_csr K a (fst M)) Ms A = Some A' /\ c_m A' = c_n M0 /\ c_n A' = c_m M0 /\
      shape K A' (pattern (trows K (ents K rows0) (c_n M0))) /\ c_rs A' = Some (removelast (c_ptr A')) /\
      (Ms <> [] -> rep K A' (trows K (ents K (snd (last Ms (M0, rows0)))) (c_n M0)))).
  { clear Ms HMs HMne. intros Ms. pattern Ms. apply rev_ind.
    - intros A _ Hm Hn HS HR. exists A. simpl. repeat (split; [auto; fail|]). congruence.
    - intros M Ms' IH A HM Hm Hn Hsh Hrs. rewrite ofold_app. rewrite last_last.
      destruct (IH A) as [A1 [E1 [M1 [N1 [S1 [R1 _]]]]]]; auto; [intros; apply HM; apply in_or_app; auto|].
      rewrite E1. simpl. assert (HMM := HM M ltac:(apply in_or_app; right; left; auto)). destruct HMM as [P0 [P0' P0'']].
      destruct (Prop1 M (conj P0 (conj P0' P0''))) as [P1 [P2 [P3 [P4 P5]]]].
      destruct (transpose_numeric_csr_spec K A1 (fst M) (snd M)) as [A2 [E2 [M2 [N2 [R2 Q2]]]]]; auto; try lia.
      + rewrite P0, P5. exact S1.
      + rewrite E2. exists A2. rewrite P0 in M2, R2. rewrite P4 in N2. repeat (split; [auto; fail|]).
        split; [rewrite <- P5; apply R2|]. auto. }
  destruct (G Ms A0) as [A [E [Hm [Hn [_ [_ Hr]]]]]]; auto. specialize (Hr HMne).
  exists A, (trows K (ents K (snd (last Ms (M0, rows0)))) (c_n M0)). repeat (split; [auto; fail|]).
  split; [apply rep_stores; auto|].
  assert (Hl : In (last Ms (M0, rows0)) Ms).
  { destruct (exists_last HMne) as [l' [a Ea]]. rewrite Ea, last_last. apply in_or_app. right. left. auto. }
  destruct (Prop1 _ (HMs _ Hl)) as [_ [P2 _]]. split.
  - apply ordered_trows, ents_sorted. auto.
  - intros i j Hi. apply cmat_trows_ents; auto.
Qed.
Print Assumptions C27_transpose_of_csr_partial.
Definition Cex : csr Qc_field := Csr 2 3 3 [0; 2; 3] [1; 2; 0] [q 5; q 6; q 7] None.
Example C27_case_csr : match transpose_symbolic_csr Qc_field J9 (null_csr Qc_field) Cex with
  | Some A => match transpose_numeric_csr Qc_field A Cex with
     | Some B => c_ptr B = [0; 1; 2; 3] /\ c_col B = [1; 0; 0] /\ c_val B = [q 7; q 5; q 6] | None => False end
  | None => False end.
Proof. vm_compute. auto. Qed.
(** without stored entries the row pointers keep the unspecified content of the new memory *)
Theorem C27_empty_matrix_refuted : exists (J : junk Qc_field) (M : trip Qc_field) A,
  wf M /\ sorted (t_ent M) /\ form_from_symbolic Qc_field J (null_csr Qc_field) M = Some A /\
  (forall rows, ~ stores A rows) /\ crow A 0 = None.
Proof.
  exists (Junk Qc_field (fun k => k) (fun _ => q 0)), (Trip 1 1 []), (Csr 1 1 0 [0; 1] [] [] None).
  split; [intros e []|]. split; [constructor|]. split; [reflexivity|]. split; [|reflexivity].
  intros rows [_ [_ [_ [_ [H _]]]]]. discriminate.
Qed.
Print Assumptions C27_empty_matrix_refuted.
(** the same for transposition; moreover the numeric phase then aborts *)
Theorem C27_empty_transpose_refuted : exists (J : junk Qc_field) (M : trip Qc_field) A,
  wf M /\ sorted (t_ent M) /\ transpose_symbolic_trip Qc_field J (null_csr Qc_field) M = Some A /\
  (forall rows, ~ stores A rows) /\ transpose_numeric_trip Qc_field A M = None.
Proof.
  exists (Junk Qc_field (fun k => k) (fun _ => q 0)), (Trip 1 1 []), (Csr 1 1 0 [0; 1] [] [] None).
  split; [intros e []|]. split; [constructor|]. split; [reflexivity|]. split; [|reflexivity].
  intros rows [_ [_ [_ [_ [H _]]]]]. discriminate.
Qed.
Print Assumptions C27_empty_transpose_refuted.
(** redoing the symbolic transposition on an object of the same sizes aborts *)
Theorem C27_second_symbolic_refuted : exists (J : junk Qc_field) (M : trip Qc_field) A,
  wf M /\ sorted (t_ent M) /\ transpose_symbolic_trip Qc_field J (null_csr Qc_field) M = Some A /\
  transpose_symbolic_trip Qc_field J A M = None.
Proof.
  exists J7, Tex. eexists. split.
  { intros e He. simpl in He. repeat (destruct He as [<-|He]; [vm_compute; lia|]). destruct He. }
  split.
  { repeat (constructor; [|repeat (constructor; [vm_compute; lia|]); constructor]). constructor. }
  split; vm_compute; reflexivity.
Qed.
Print Assumptions C27_second_symbolic_refuted.

(** * C28: products and sums *)
(** Missing from the full claim: products with zero rows or columns (refuted below). *)
Theorem C28_product_partial : forall (K : cfield) (J : junk K) (X Y : csr K) xs ys,
  stores X xs -> stores Y ys -> c_m Y = c_n X -> 0 < c_m X -> 0 < c_n Y ->
  exists A0 A1 ms, times_mat_alloc K J X Y = Some A0 /\ times_mat_symbolic K X A0 Y = Some A1 /\
    c_m A1 = c_m X /\ c_n A1 = c_n Y /\ c_nnz A0 = c_nnz A1 /\ stores A1 ms /\ ordered ms /\
    (forall i j, i < c_m X -> (stored ms i j <-> exists k, stored xs i k /\ stored ys k j)) /\
    forall X' Y' M xs' ys' ms' alpha beta,
      stores X' xs' -> c_n X' = c_n X -> pattern xs' = pattern xs ->
      stores Y' ys' -> c_n Y' = c_n Y -> pattern ys' = pattern ys ->
      stores M ms' -> c_n M = c_n Y -> pattern ms' = pattern ms ->
      exists R rs, times_mat_numeric K X' beta M alpha Y' = Some R /\ c_m R = c_m X /\ c_n R = c_n Y /\
        stores R rs /\ ordered rs /\ pattern rs = pattern ms /\
        forall i j, i < c_m X -> cmat rs i j = beta *! cmat ms' i j +! alpha *! sumn (c_n X) (fun k => cmat xs' i k *! cmat ys' k j).
Proof.
  intros K J X Y xs ys HX HY Hd Hm Hn. apply rep_stores in HX. apply rep_stores in HY.
  rewrite (alloc_spec K J X Y xs ys HX HY Hd).
  destruct (new_csr_spec K J (c_m X) (c_n Y) (length (concat (prod_pat K xs ys (c_m X)))) Hm Hn) as [A0 [E0 [Al [M0 [N0 Z0]]]]].
  destruct (symbolic_spec K X A0 Y xs ys HX HY Hd M0 N0 Al Z0) as [A1 [E1 [M1 [N1 S1]]]].
  destruct (shape_zip K A1 _ S1) as [ms [Rm Pm]].
  assert (Om : ordered ms).
  { apply ordered_pattern. rewrite Pm. apply Forall_forall. intros r Hr. apply in_map_iff in Hr. destruct Hr as [i [<- _]]. apply setof_sorted. }
  assert (Stm : forall i j, i < c_m X -> (stored ms i j <-> In j (cands K xs ys i))).
  { intros i j Hi. unfold stored. assert (E : map fst (nth i ms []) = nth i (pattern ms) []).
    { unfold pattern. change [] with (map (@fst nat K) []) at 2. rewrite map_nth. reflexivity. }
    rewrite E, Pm. unfold prod_pat. rewrite nth_map_seq by auto. apply setof_in. }
  exists A0, A1, ms. split; [exact E0|]. split; [exact E1|]. repeat (split; [auto; fail|]).
  split; [destruct S1 as [_ [-> _]]; exact Z0|]. split; [apply rep_stores; auto|]. split; [auto|]. split.
  { intros i j Hi. rewrite (Stm i j Hi). unfold cands, stored. rewrite in_flat_map. split.
    - intros [e [H1 H2]]. exists (fst e). split; [apply in_map; auto|auto].
    - intros [k [H1 H2]]. apply in_map_iff in H1. destruct H1 as [e [<- He]]. exists e. auto. }
  intros X' Y' M xs' ys' ms' alpha beta HX' NX' PX HY' NY' PY HM NM PM.
  apply rep_stores in HX'. apply rep_stores in HY'. apply rep_stores in HM.
  assert (Len : forall (a b : list (list (nat * K))), pattern a = pattern b -> length a = length b).
  { intros a b H. apply (f_equal (@length _)) in H. unfold pattern in H. rewrite !map_length in H. auto. }
  assert (MX : c_m X' = c_m X) by (rewrite <- (rep_len K _ _ HX'), <- (rep_len K _ _ HX); auto).
  assert (MY : c_m Y' = c_m Y) by (rewrite <- (rep_len K _ _ HY'), <- (rep_len K _ _ HY); auto).
  assert (MM : c_m M = c_m X) by (rewrite <- (rep_len K _ _ HM), (Len _ _ PM), (rep_len K _ _ Rm); auto).
  assert (Om' : ordered ms') by (apply ordered_pattern; rewrite PM; apply ordered_pattern; auto).
  assert (Nth : forall (a b : list (list (nat * K))), pattern a = pattern b -> forall i, map fst (nth i a []) = map fst (nth i b [])).
  { intros a b H i. assert (E : forall c : list (list (nat * K)), map fst (nth i c []) = nth i (pattern c) []).
    { intro c. unfold pattern. change [] with (map (@fst nat K) []) at 2. rewrite map_nth. reflexivity. }
    rewrite !E, H. reflexivity. }
  assert (Ec : forall i, cands K xs' ys' i = cands K xs ys i).
  { intro i. rewrite <- (flat_map_concat_map_fst K xs' ys' i), <- (flat_map_concat_map_fst K xs ys i).
    rewrite (Nth _ _ PX i). apply flat_map_ext. intro k. apply Nth. auto. }
  assert (Hc : forall i j, i < c_m X' -> In j (cands K xs' ys' i) -> In j (map fst (nth i ms' []))).
  { intros i j Hi Hj. rewrite (Nth _ _ PM i). apply Stm; [lia|]. rewrite <- Ec. auto. }
  destruct (numeric_spec K X' beta M alpha Y' xs' ys' ms') as [R [ER [R1 [R2 [_ R3]]]]]; auto; try lia.
  exists R, (prod_rows K alpha beta xs' ys' ms' (c_m X')). rewrite MX in *. rewrite NY' in R2.
  split; [exact ER|]. repeat (split; [auto; fail|]). split; [apply rep_stores; auto|].
  assert (PR : pattern (prod_rows K alpha beta xs' ys' ms' (c_m X)) = pattern ms).
  { rewrite <- PM. rewrite <- MM, <- (rep_len K _ _ HM). apply pattern_prod. }
  split; [apply ordered_pattern; rewrite PR; apply ordered_pattern; auto|]. split; [exact PR|].
  intros i j Hi. apply (cmat_prod K); auto. intros p Hp. rewrite <- NX'. apply (rep_bound K X' xs' i p HX' Hp).
Qed.
Print Assumptions C28_product_partial.
Definition Yex : csr Qc_field := Csr 3 2 3 [0; 1; 3; 3] [1; 0; 1] [q 2; q 3; q 4] None.
Example C28_case_product :
  match times_mat_alloc Qc_field J7 Cex Yex with
  | Some A0 => c_nnz A0 = 3 /\ match times_mat_symbolic Qc_field Cex A0 Yex with
     | Some A1 => c_ptr A1 = [0; 2; 3] /\ c_col A1 = [0; 1; 1] /\
         match times_mat_numeric Qc_field Cex (q 0) A1 (q 1) Yex with Some R => c_val R = [q 15; q 20; q 14] | None => False end
     | None => False end
  | None => False end.
Proof. vm_compute. auto. Qed.
(** with zero columns the symbolic phase writes through a null pointer *)
Theorem C28_product_zero_columns_refuted : exists (X Y : csr Qc_field) xs ys A0,
  stores X xs /\ stores Y ys /\ c_m Y = c_n X /\
  times_mat_alloc Qc_field J7 X Y = Some A0 /\ times_mat_symbolic Qc_field X A0 Y = None.
Proof.
  exists (Csr 1 1 1 [0; 1] [0] [q 1] None), (Csr 1 0 0 [0; 0] [] [] None), [[(0, q 1)]], [[]]. eexists.
  split; [|split; [|split; [reflexivity|split; [reflexivity|reflexivity]]]].
  - split; [reflexivity|]. split; [reflexivity|]. split; [reflexivity|]. split.
    + intros [|[|i]] r Hr; simpl in Hr; try discriminate. injection Hr as <-. split; reflexivity.
    + repeat (split; [reflexivity|]). repeat constructor.
  - split; [reflexivity|]. split; [reflexivity|]. split; [reflexivity|]. split.
    + intros [|[|i]] r Hr; simpl in Hr; try discriminate. injection Hr as <-. split; reflexivity.
    + repeat (split; [reflexivity|]). repeat constructor.
Qed.
Print Assumptions C28_product_zero_columns_refuted.

Theorem C28_sum_partial : forall (K : cfield) (J : junk K) (X Y : csr K) xs ys,
  stores X xs -> stores Y ys -> ordered xs -> ordered ys -> c_m X = c_m Y -> c_n X = c_n Y -> 0 < c_m X -> 0 < c_n X ->
  exists A0 A1 ms, add_matrix_alloc K J X Y = Some A0 /\ add_matrix_symbolic K X A0 Y = Some A1 /\
    c_m A1 = c_m X /\ c_n A1 = c_n X /\ c_nnz A0 = c_nnz A1 /\ stores A1 ms /\ ordered ms /\
    (forall i j, i < c_m X -> (stored ms i j <-> stored xs i j \/ stored ys i j)) /\
    forall X' Y' M xs' ys' ms' alpha beta,
      stores X' xs' -> c_n X' = c_n X -> pattern xs' = pattern xs ->
      stores Y' ys' -> c_n Y' = c_n Y -> pattern ys' = pattern ys ->
      stores M ms' -> c_n M = c_n X -> pattern ms' = pattern ms ->
      exists R rs, add_matrix_numeric K X' M alpha Y' beta = Some R /\ c_m R = c_m X /\ c_n R = c_n X /\
        stores R rs /\ ordered rs /\ pattern rs = pattern ms /\
        forall i j, i < c_m X -> cmat rs i j = alpha *! cmat xs' i j +! beta *! cmat ys' i j.
Proof.
  intros K J X Y xs ys HX HY Ox Oy Hm Hn Pm0 Pn0. apply rep_stores in HX. apply rep_stores in HY.
  rewrite (sum_alloc_spec K J X Y xs ys HX HY Hm Hn).
  destruct (new_csr_spec K J (c_m X) (c_n X) (length (concat (sum_pat K xs ys (c_m X)))) Pm0 Pn0) as [A0 [E0 [Al [M0 [N0 Z0]]]]].
  destruct (sum_symbolic_spec K X A0 Y xs ys HX HY Hm Hn Al M0 N0 Z0) as [A1 [E1 [M1 [N1 S1]]]].
  destruct (shape_zip K A1 _ S1) as [ms [Rm Pm]].
  assert (E : forall i (c : list (list (nat * K))), map fst (nth i c []) = nth i (pattern c) []).
  { intros i c. unfold pattern. change [] with (map (@fst nat K) []) at 2. rewrite map_nth. reflexivity. }
  assert (Om : ordered ms).
  { apply ordered_pattern. rewrite Pm. rewrite <- (sum_pattern K f1 f1). apply ordered_pattern. apply sum_ordered; auto. }
  exists A0, A1, ms. split; [exact E0|]. split; [exact E1|]. repeat (split; [auto; fail|]).
  split; [destruct S1 as [_ [-> _]]; exact Z0|]. split; [apply rep_stores; auto|]. split; [auto|]. split.
  { intros i j Hi. unfold stored. rewrite (E i ms), Pm. unfold sum_pat. rewrite nth_map_seq by auto. apply merge_cols_in. }
  intros X' Y' M xs' ys' ms' alpha beta HX' NX' PX HY' NY' PY HM NM PM.
  apply rep_stores in HX'. apply rep_stores in HY'. apply rep_stores in HM.
  assert (Len : forall (a b : list (list (nat * K))), pattern a = pattern b -> length a = length b).
  { intros a b H. apply (f_equal (@length _)) in H. unfold pattern in H. rewrite !map_length in H. auto. }
  assert (MX : c_m X' = c_m X) by (rewrite <- (rep_len K _ _ HX'), <- (rep_len K _ _ HX); auto).
  assert (MY : c_m Y' = c_m Y) by (rewrite <- (rep_len K _ _ HY'), <- (rep_len K _ _ HY); auto).
  assert (MM : c_m M = c_m X) by (rewrite <- (rep_len K _ _ HM), (Len _ _ PM), (rep_len K _ _ Rm); auto).
  assert (SP : sum_pat K xs' ys' (c_m X) = sum_pat K xs ys (c_m X)).
  { unfold sum_pat. apply map_ext. intro i. rewrite !E, PX, PY. reflexivity. }
  destruct (sum_numeric_spec K X' M alpha Y' beta xs' ys') as [R [ER [R1 [R2 [_ R3]]]]]; auto; try lia.
  { rewrite MX, SP, <- Pm, <- PM. apply HM. }
  exists R, (sum_rows K alpha beta xs' ys' (c_m X')). rewrite MX in *. rewrite NX' in R2.
  split; [exact ER|]. repeat (split; [auto; fail|]). split; [apply rep_stores; auto|].
  assert (PR : pattern (sum_rows K alpha beta xs' ys' (c_m X)) = pattern ms) by (rewrite sum_pattern, SP; auto).
  split; [apply ordered_pattern; rewrite PR; apply ordered_pattern; auto|]. split; [exact PR|].
  intros i j Hi. apply cmat_sum; auto.
Qed.
Print Assumptions C28_sum_partial.
Definition Cex2 : csr Qc_field := Csr 2 3 3 [0; 2; 3] [0; 2; 2] [q 1; q 2; q 3] None.
Example C28_case_sum :
  match add_matrix_alloc Qc_field J7 Cex Cex2 with
  | Some A0 => c_nnz A0 = 5 /\ match add_matrix_symbolic Qc_field Cex A0 Cex2 with
     | Some A1 => c_ptr A1 = [0; 3; 5] /\ c_col A1 = [0; 1; 2; 0; 2] /\
         match add_matrix_numeric Qc_field Cex A1 (q 1) Cex2 (q 10) with Some R => c_val R = [q 10; q 5; q 26; q 7; q 30] | None => False end
     | None => False end
  | None => False end.
Proof. vm_compute. auto. Qed.

(** * C47: in-place scaling and diagonal updates *)
Theorem C47_scaling : forall (K : cfield) (A : csr K) rows D, stores A rows ->
  (length D = c_m A -> exists A' rows', scale_rows K A D = Some A' /\ stores A' rows' /\ pattern rows' = pattern rows /\ c_n A' = c_n A /\
      forall i j, i < c_m A -> cmat rows' i j = at_ D i *! cmat rows i j) /\
  (length D = c_n A -> exists A' rows', scale_cols K A D = Some A' /\ stores A' rows' /\ pattern rows' = pattern rows /\ c_n A' = c_n A /\
      forall i j, i < c_m A -> cmat rows' i j = cmat rows i j *! at_ D j).
Proof.
  intros K A rows D H. apply rep_stores in H. assert (L := rep_len K A rows H). split; intro HD.
  - destruct (scale_rows_spec K A rows D H HD) as [A' [E [M1 [N1 [_ [_ R]]]]]].
    exists A', (row_scaled K rows D (c_m A)). split; auto. split; [apply rep_stores; auto|]. split; [|split; auto].
    + rewrite <- L. apply (pattern_map_fst K rows (fun i p => snd p *! at_ D i)).
    + intros i j Hi. rewrite cmat_row_scaled by auto. apply (Fmul_comm K).
  - destruct (scale_cols_spec K A rows D H HD) as [A' [E [M1 [N1 [_ [_ R]]]]]].
    exists A', (col_scaled K rows D (c_m A)). split; auto. split; [apply rep_stores; auto|]. split; [|split; auto].
    + rewrite <- L. apply (pattern_map_fst K rows (fun i p => snd p *! at_ D (fst p))).
    + intros i j Hi. apply cmat_col_scaled; auto.
Qed.
Print Assumptions C47_scaling.
Example C47_case_scaling :
  option_map c_val (scale_rows Qc_field Cex [q 2; q 3]) = Some [q 10; q 12; q 21] /\
  option_map c_val (scale_cols Qc_field Cex [q 2; q 3; q 4]) = Some [q 15; q 24; q 14].
Proof. vm_compute. auto. Qed.
(** diagonal updates, on matrices that store their whole diagonal; missing from the full claim:
    positions that are not stored (refuted below) *)
Theorem C47_diagonal_partial : forall (K : cfield) (A : csr K) rows D c alpha, stores A rows -> ordered rows -> c_m A = c_n A -> length D = c_m A ->
  (forall i, i < c_m A -> stored rows i i) ->
  (exists A' rows', set_diagonal K A c = Some A' /\ stores A' rows' /\ pattern rows' = pattern rows /\
      forall i j, i < c_m A -> cmat rows' i j = if i =? j then c else cmat rows i j) /\
  (exists A' rows', add_diagonal_const K A c = Some A' /\ stores A' rows' /\ pattern rows' = pattern rows /\
      forall i j, i < c_m A -> cmat rows' i j = cmat rows i j +! (if i =? j then c else f0)) /\
  (exists A' rows', add_diagonal K A alpha D = Some A' /\ stores A' rows' /\ pattern rows' = pattern rows /\
      forall i j, i < c_m A -> cmat rows' i j = cmat rows i j +! (if i =? j then alpha *! at_ D i else f0)).
Proof.
  intros K A rows D c alpha H Ho Hsq HD Hst. apply rep_stores in H. assert (L := rep_len K A rows H).
  assert (PT : forall h, pattern (diag_set K rows h (c_m A)) = pattern rows).
  { intro h. rewrite <- L. unfold diag_set, pattern. rewrite map_map. rewrite <- (map_nth_id (map fst) rows). apply map_ext. intro i. apply dset_fst. }
  assert (C : forall (h : nat -> K -> K) i j, i < c_m A -> cmat (diag_set K rows h (c_m A)) i j = if i =? j then h i (cmat rows i j) else cmat rows i j).
  { intros h i j Hi. unfold diag_set. rewrite cmat_map by auto.
    assert (OR : StronglySorted (fun a b : nat * K => fst a < fst b) (nth i rows [])).
    { unfold ordered in Ho. rewrite Forall_forall in Ho. apply Ho. apply nth_In. lia. }
    rewrite (dset_look K (h i) i j _ OR). cbv zeta. rewrite (Nat.eqb_sym j i).
    assert (Ex : existsb (Nat.eqb i) (map fst (nth i rows [])) = true).
    { apply existsb_exists. exists i. split; [apply Hst; auto|apply Nat.eqb_refl]. }
    rewrite Ex, andb_true_r. reflexivity. }
  split; [|split].
  - destruct (diag_loop_spec K A rows (fun _ _ => Some c) (fun _ _ => c) H) as [A' [E [_ [_ [_ R]]]]]; auto.
    exists A', (diag_set K rows (fun _ _ => c) (c_m A)). split; auto. split; [apply rep_stores; auto|]. split; [apply PT|].
    intros i j Hi. rewrite C by auto. reflexivity.
  - destruct (diag_loop_spec K A rows (fun _ v => Some (v +! c)) (fun _ v => v +! c) H) as [A' [E [_ [_ [_ R]]]]]; auto.
    exists A', (diag_set K rows (fun _ v => v +! c) (c_m A)). split; auto. split; [apply rep_stores; auto|]. split; [apply PT|].
    intros i j Hi. rewrite C by auto. destruct (i =? j); auto. symmetry. apply (Fadd_0_r K).
  - unfold add_diagonal. rewrite <- Hsq, HD, Nat.eqb_refl. cbn [andb].
    destruct (diag_loop_spec K A rows (fun i v => match nth_error D i with Some d => Some (v +! alpha *! d) | None => None end)
       (fun i v => v +! alpha *! at_ D i) H) as [A' [E [_ [_ [_ R]]]]].
    { intros i v Hi. rewrite nth_err_at by lia. reflexivity. }
    exists A', (diag_set K rows (fun i v => v +! alpha *! at_ D i) (c_m A)). split; auto. split; [apply rep_stores; auto|]. split; [apply PT|].
    intros i j Hi. rewrite C by auto. destruct (i =? j); auto. symmetry. apply (Fadd_0_r K).
Qed.
Print Assumptions C47_diagonal_partial.
Example C47_case_diagonal :
  option_map c_val (add_diagonal Qc_field (Csr 2 2 3 [0; 2; 3] [0; 1; 1] [q 5; q 6; q 7] None) (q 2) [q 10; q 20]) = Some [q 25; q 6; q 47].
Proof. vm_compute. auto. Qed.
(** a diagonal entry that is not stored is silently left out *)
Theorem C47_diagonal_refuted : exists (A A' : csr Qc_field) rows rows',
  stores A rows /\ ordered rows /\ add_diagonal_const Qc_field A (q 1) = Some A' /\ stores A' rows' /\ cmat rows' 0 0 = q 0.
Proof.
  exists (Csr 2 2 1 [0; 1; 1] [1] [q 5] None), (Csr 2 2 1 [0; 1; 1] [1] [q 5] None), [[(1, q 5)]; []], [[(1, q 5)]; []].
  assert (S : stores (Csr 2 2 1 [0; 1; 1] [1] [q 5] None) [[(1, q 5)]; []]).
  { split; [reflexivity|]. split; [reflexivity|]. split; [reflexivity|]. split.
    + intros [|[|[|i]]] r Hr; simpl in Hr; try discriminate; injection Hr as <-; split; reflexivity.
    + repeat (split; [reflexivity|]). repeat constructor. }
  split; auto. split; [repeat constructor|]. split; [vm_compute; reflexivity|]. split; [auto|]. vm_compute. reflexivity.
Qed.
Print Assumptions C47_diagonal_refuted.
