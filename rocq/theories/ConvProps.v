(** C29, C48: triplet to CSR conversion for the linear solvers; sorting of triplets. *)
From Coq Require Import List Bool Arith Lia Sorted Permutation Ring Field QArith Qcanon.
From Verif Require Import RingKit PackModel SparseModel SparseSpec SparseProofs SparseProofs2 SparseProps
  CsrModel CsrSpec CsrProofs CsrProofs2 CsrProofs3 CsrProofs5 CondModel ConvModel ConvSpec ConvProofs ConvProofs2 ConvProofs3.
Import ListNotations.
Close Scope Qc_scope. Close Scope Q_scope. Open Scope nat_scope.

(** an instance of std::sort for the examples: insertion sort on (key, index) *)
Fixpoint insk (p : nat * nat) (l : list (nat * nat)) : list (nat * nat) :=
  match l with [] => [p] | x :: r => if fst p <=? fst x then p :: l else x :: insk p r end.
Definition isrt (keys : list nat) : list nat := map snd (fold_right insk [] (combine keys (seq 0 (length keys)))).
Lemma insk_perm p l : Permutation (insk p l) (p :: l).
Proof. induction l as [|x r IH]; simpl; auto. destruct (fst p <=? fst x); auto. rewrite IH. constructor. Qed.
Lemma insk_sorted p l : StronglySorted (fun a b => fst a <= fst b) l -> StronglySorted (fun a b : nat * nat => fst a <= fst b) (insk p l).
Proof.
  induction 1 as [|x r H IH HF]; simpl; [repeat constructor|]. rewrite Forall_forall in HF. destruct (Nat.leb_spec (fst p) (fst x)).
  - constructor; [constructor; auto; apply Forall_forall; auto|]. constructor; auto. apply Forall_forall. intros y Hy. specialize (HF y Hy). lia.
  - constructor; auto. apply Forall_forall. intros y Hy. apply (Permutation_in _ (insk_perm p r)) in Hy. destruct Hy as [<-|Hy]; auto. lia.
Qed.
Lemma isrt_sorts : sorts isrt.
Proof.
  intro keys. unfold isrt. set (l := combine keys (seq 0 (length keys))).
  assert (P : Permutation (fold_right insk [] l) l).
  { induction l as [|x r IH]; simpl; auto. rewrite insk_perm, IH. auto. }
  assert (S : StronglySorted (fun a b : nat * nat => fst a <= fst b) (fold_right insk [] l)).
  { induction l as [|x r IH]; simpl; [constructor|]. apply insk_sorted. apply IH. clear. induction r as [|y r IH]; simpl; auto. rewrite insk_perm, IH. auto. }
  split.
  - rewrite P. unfold l. replace (map snd (combine keys (seq 0 (length keys)))) with (seq 0 (length keys)); [apply Permutation_refl|].
    clear. generalize 0. induction keys as [|k keys IH]; intro s; simpl; auto. rewrite <- IH. auto.
  - rewrite map_map.
    assert (E : forall p, In p (fold_right insk [] l) -> nth (snd p) keys 0 = fst p).
    { intros p Hp. apply (Permutation_in _ P) in Hp. unfold l in Hp. clear -Hp.
      assert (G : forall keys s p, In p (combine keys (seq s (length keys))) -> s <= snd p /\ nth (snd p - s) keys 0 = fst p).
      { clear. induction keys as [|k keys IH]; intros s p H; simpl in H; [tauto|]. destruct H as [<-|H].
        - simpl. rewrite Nat.sub_diag. auto.
        - apply IH in H. destruct H as [H1 H2]. split; [lia|]. replace (snd p - s) with (S (snd p - S s)) by lia. auto. }
      destruct (G keys 0 p Hp) as [_ H]. rewrite Nat.sub_0_r in H. auto. }
    revert S E. generalize (fold_right insk [] l). clear. intros l S E. induction S as [|x r S IH HF]; simpl; constructor.
    + apply IH. intros; apply E; right; auto.
    + rewrite Forall_forall in *. intros y Hy. apply in_map_iff in Hy. destruct Hy as [p [<- Hp]]. rewrite !E by (simpl; auto). auto.
Qed.

(** * C29: the conversion itself *)
Theorem C29_conversion : forall (K : cfield) srt (j : slot K) (A : trip K),
  sorts srt -> t_m A = t_n A -> wf A -> one_extra A ->
  exists c rows, convert K srt j A = Some c /\ stores (conv_csr K (t_n A) c (map s_val (v_arr c))) rows /\ weakly_ordered rows /\
    forall i j, i < t_n A -> cmat rows i j = mat (t_ent A) i j.
Proof.
  intros K srt j A H1 H2 H3 H4. destruct (convert_spec K srt H1 A H2 H3 H4 j) as [c [E [E1 [E2 [E3 E4]]]]].
  exists c, (R K srt A (fun k => nth k (map (@val K) (t_ent A)) f0)). split; auto. split; [|split].
  - apply rep_stores. rewrite E3, R_vals. apply R_rep; auto.
  - apply R_order. auto.
  - intros i j' Hi. rewrite R_cmat by auto. symmetry. transitivity (mat (t_ent (with_values A (map (@val K) (t_ent A)))) i j'); [rewrite (with_same K A); auto|]. apply mat_with; [assumption|apply map_length].
Qed.
Print Assumptions C29_conversion.
(** row 1 stores its diagonal before column 0, and a second diagonal entry at the end *)
Definition Aex : trip Qc_field := Trip 2 2 [(0,0,q 5); (1,1,q 7); (1,0,q 3); (1,1,q 100)].
Example C29_case : match convert Qc_field isrt (0, q 0, 0) Aex with
  | Some c => v_ptr c = [0; 1; 3] /\ map s_col (v_arr c) = [0; 0; 1] /\ map s_val (v_arr c) = [q 5; q 3; q 107]
  | None => False end.
Proof. vm_compute. auto. Qed.
Lemma C29_case_hyp : sorts isrt /\ t_m Aex = t_n Aex /\ wf Aex /\ one_extra Aex.
Proof.
  split; [apply isrt_sorts|]. split; [reflexivity|]. split.
  - intros e He. simpl in He. repeat (destruct He as [<-|He]; [vm_compute; lia|]). destruct He.
  - intros [|[|i]]; vm_compute; lia.
Qed.

(** Refreshing values through the index maps.  Missing from the full claim: rows whose diagonal is
    moved by the sort and that carry a second diagonal entry (refuted below). *)
Theorem C29_refresh_partial : forall (K : cfield) srt (j : slot K) (A : trip K) vals,
  sorts srt -> t_m A = t_n A -> wf A -> one_extra A -> diag_in_place A -> length vals = length (t_ent A) ->
  exists c v rows, convert K srt j A = Some c /\ refresh K c vals = Some v /\ stores (conv_csr K (t_n A) c v) rows /\ weakly_ordered rows /\
    forall i j, i < t_n A -> cmat rows i j = mat (t_ent (with_values A vals)) i j.
Proof.
  intros K srt j A vals H1 H2 H3 H4 H5 L. destruct (convert_spec K srt H1 A H2 H3 H4 j) as [c [E [E1 [E2 [E3 E4]]]]].
  exists c, (map snd (concat (R K srt A (fun k => nth k vals f0)))), (R K srt A (fun k => nth k vals f0)).
  split; [assumption|]. split; [apply (refresh_spec K srt H1 A H2 c vals); assumption|]. split; [|split].
  - apply rep_stores. apply R_rep; auto.
  - apply R_order. auto.
  - intros i j' Hi. rewrite R_cmat by auto. symmetry. apply mat_with; assumption.
Qed.
Print Assumptions C29_refresh_partial.
Definition Aex2 : trip Qc_field := Trip 2 2 [(0,0,q 5); (1,0,q 3); (1,1,q 7); (1,1,q 100)].
Example C29_case_refresh : match convert Qc_field isrt (0, q 0, 0) Aex2 with
  | Some c => refresh Qc_field c [q 1; q 2; q 3; q 40] = Some [q 1; q 2; q 43]
  | None => False end.
Proof. vm_compute. auto. Qed.
Lemma C29_case_refresh_hyp : t_m Aex2 = t_n Aex2 /\ wf Aex2 /\ one_extra Aex2 /\ diag_in_place Aex2.
Proof.
  split; [reflexivity|]. split; [|split].
  - intros e He. simpl in He. repeat (destruct He as [<-|He]; [vm_compute; lia|]). destruct He.
  - intros [|[|i]]; vm_compute; lia.
  - intros i. destruct i as [|[|i]]; [left; vm_compute; lia|right; vm_compute; repeat constructor|left; vm_compute; lia].
Qed.
(** the second diagonal value lands on the off-diagonal position: even a refresh with unchanged
    values gives a different matrix than the conversion did *)
Theorem C29_refresh_refuted : exists srt (A : trip Qc_field) c v rows,
  sorts srt /\ t_m A = t_n A /\ wf A /\ one_extra A /\ convert Qc_field srt (0, q 0, 0) A = Some c /\
  refresh Qc_field c (map val (t_ent A)) = Some v /\ stores (conv_csr Qc_field (t_n A) c v) rows /\
  cmat rows 1 0 <> mat (t_ent A) 1 0 /\ cmat rows 1 1 <> mat (t_ent A) 1 1.
Proof.
  destruct C29_case_hyp as [H1 [H2 [H3 H4]]].
  exists isrt, Aex, (Conv 3 [0; 1; 3] [(0, q 5, 0); (0, q 3, 2); (1, q 107, 1)] [(1, 3)]), [q 5; q 103; q 7], [[(0, q 5)]; [(0, q 103); (1, q 7)]].
  repeat (split; [assumption|]). split; [vm_compute; reflexivity|]. split; [vm_compute; reflexivity|]. split.
  - apply rep_stores. split; [|reflexivity]. unfold shape. repeat (split; [reflexivity|]). repeat constructor.
  - split; intro E; apply (f_equal this) in E; vm_compute in E; discriminate.
Qed.
Print Assumptions C29_refresh_refuted.

(** * C48: sorting a triplet matrix *)
Theorem C48_sort : forall (K : cfield) srt2 (A : trip K), sorts2 srt2 ->
  exists B, sort_trip K srt2 A = Some B /\ t_m B = t_m A /\ t_n B = t_n A /\ Permutation (t_ent B) (t_ent A) /\
    StronglySorted ple (map fst (t_ent B)) /\ (NoDup (map fst (t_ent A)) -> sorted (t_ent B)) /\
    forall i j, mat (t_ent B) i j = mat (t_ent A) i j.
Proof.
  intros K srt2 A H. destruct (H (map fst (t_ent A))) as [HP HS]. unfold sort_trip. set (d := (0, 0, f0) : entry K).
  rewrite map_length in HP.
  rewrite (omap_ok _ (fun t => nth t (t_ent A) d)).
  2:{ intros t Ht. apply nth_error_nth'. apply (Permutation_in _ HP) in Ht. apply in_seq in Ht. apply Ht. }
  cbn [obind]. eexists. split; [reflexivity|]. cbn [t_m t_n t_ent]. split; auto. split; auto.
  assert (P : Permutation (map (fun t => nth t (t_ent A) d) (srt2 (map fst (t_ent A)))) (t_ent A)).
  { assert (E0 : map (fun t => nth t (t_ent A) d) (seq 0 (length (t_ent A))) = t_ent A).
    { apply nth_ext with (d := d) (d' := d); [rewrite map_length, seq_length; auto|]. intros t Ht. rewrite map_length, seq_length in Ht. rewrite (nth_indep _ d (nth 0 (t_ent A) d)) by (rewrite map_length, seq_length; exact Ht). rewrite (map_nth (fun t => nth t (t_ent A) d)), seq_nth by exact Ht. reflexivity. }
    eapply Permutation_trans; [apply Permutation_map; exact HP|].
    exact (eq_ind _ (fun z => Permutation z (t_ent A)) (Permutation_refl _) _ (eq_sym E0)). }
  assert (E : map fst (map (fun t => nth t (t_ent A) d) (srt2 (map fst (t_ent A)))) = map (fun t => nth t (map fst (t_ent A)) (0, 0)) (srt2 (map fst (t_ent A)))).
  { rewrite map_map. apply map_ext. intro t. symmetry. change (0, 0) with (fst d). apply map_nth. }
  split; [exact P|]. split; [rewrite E; exact HS|]. split.
  - intro ND. assert (ND2 : NoDup (map fst (map (fun t => nth t (t_ent A) d) (srt2 (map fst (t_ent A)))))) by (apply (Permutation_NoDup (Permutation_sym (Permutation_map fst P))); auto).
    rewrite <- E in HS. revert HS ND2. generalize (map (fun t => nth t (t_ent A) d) (srt2 (map fst (t_ent A)))) as l. clear.
    intros l HS ND. induction l as [|e l IH]; [constructor|]. cbn [map] in *. inversion HS; subst. inversion ND; subst. constructor; [apply IH; auto|].
    rewrite Forall_forall in *. intros x Hx. specialize (H2 (fst x) (in_map fst _ _ Hx)). destruct H2 as [E|L].
    + exfalso. apply H3. rewrite E. apply in_map. auto.
    + unfold plt in L. unfold row, col. lia.
  - intros i j. unfold mat. apply lsum_perm. apply Permutation_map. exact P.
Qed.
Print Assumptions C48_sort.
(** sorting (row, column) keys for the example *)
Fixpoint insk2 (p : nat * nat * nat) (l : list (nat * nat * nat)) : list (nat * nat * nat) :=
  match l with [] => [p] | x :: r => if (fst (fst p) <? fst (fst x)) || ((fst (fst p) =? fst (fst x)) && (snd (fst p) <=? snd (fst x))) then p :: l else x :: insk2 p r end.
Definition isrt2 (keys : list (nat * nat)) : list nat := map snd (fold_right insk2 [] (combine keys (seq 0 (length keys)))).
Lemma insk2_perm p l : Permutation (insk2 p l) (p :: l).
Proof. induction l as [|x r IH]; simpl; auto. destruct (_ || _); auto. rewrite IH. constructor. Qed.
Lemma ple_iff a b : ple a b <-> fst a < fst b \/ fst a = fst b /\ snd a <= snd b.
Proof.
  destruct a as [a1 a2], b as [b1 b2]. unfold ple, plt. simpl. split.
  - intros [E|E]; [injection E as -> ->; lia|lia].
  - intro H. destruct (Nat.eq_dec a1 b1) as [->|]; [destruct (Nat.eq_dec a2 b2) as [->|]; [auto|right; lia]|right; lia].
Qed.
Lemma insk2_sorted p l : StronglySorted (fun a b => ple (fst a) (fst b)) l -> StronglySorted (fun a b : nat * nat * nat => ple (fst a) (fst b)) (insk2 p l).
Proof.
  induction 1 as [|x r H IH HF]; simpl; [repeat constructor|]. rewrite Forall_forall in HF.
  destruct (_ || _) eqn:C.
  - assert (L : ple (fst p) (fst x)).
    { apply ple_iff. apply orb_prop in C. destruct C as [C|C]; [apply Nat.ltb_lt in C; lia|]. apply andb_prop in C. destruct C as [C1 C2]. apply Nat.eqb_eq in C1. apply Nat.leb_le in C2. lia. }
    constructor; [constructor; auto; apply Forall_forall; auto|]. constructor; auto. apply Forall_forall. intros y Hy. specialize (HF y Hy). rewrite ple_iff in *. lia.
  - apply orb_false_elim in C. destruct C as [C1 C2]. apply Nat.ltb_ge in C1.
    assert (L : ple (fst x) (fst p)).
    { apply ple_iff. apply andb_false_iff in C2. destruct C2 as [C|C]; [apply Nat.eqb_neq in C; lia|apply Nat.leb_gt in C; lia]. }
    constructor; auto. apply Forall_forall. intros y Hy. apply (Permutation_in _ (insk2_perm p r)) in Hy. destruct Hy as [<-|Hy]; auto.
Qed.
Lemma isrt2_sorts : sorts2 isrt2.
Proof.
  intro keys. unfold isrt2. set (l := combine keys (seq 0 (length keys))).
  assert (P : Permutation (fold_right insk2 [] l) l).
  { induction l as [|x r IH]; simpl; auto. rewrite insk2_perm, IH. auto. }
  assert (S : StronglySorted (fun a b : nat * nat * nat => ple (fst a) (fst b)) (fold_right insk2 [] l)).
  { clear P. induction l as [|x r IH]; simpl; [constructor|]. apply insk2_sorted. apply IH. }
  split.
  - rewrite P. unfold l. replace (map snd (combine keys (seq 0 (length keys)))) with (seq 0 (length keys)); [apply Permutation_refl|].
    clear. generalize 0. induction keys as [|k keys IH]; intro s; simpl; auto. rewrite <- IH. auto.
  - rewrite map_map.
    assert (E : forall p, In p (fold_right insk2 [] l) -> nth (snd p) keys (0, 0) = fst p).
    { intros p Hp. apply (Permutation_in _ P) in Hp. unfold l in Hp. clear -Hp.
      assert (G : forall (keys : list (nat * nat)) s p, In p (combine keys (seq s (length keys))) -> s <= snd p /\ nth (snd p - s) keys (0, 0) = fst p).
      { clear. induction keys as [|k keys IH]; intros s p H; simpl in H; [tauto|]. destruct H as [<-|H].
        - simpl. rewrite Nat.sub_diag. auto.
        - apply IH in H. destruct H as [H1 H2]. split; [lia|]. replace (snd p - s) with (S (snd p - S s)) by lia. auto. }
      destruct (G keys 0 p Hp) as [_ H]. rewrite Nat.sub_0_r in H. auto. }
    revert S E. generalize (fold_right insk2 [] l). clear. intros l S E. induction S as [|x r S IH HF]; simpl; constructor.
    + apply IH. intros; apply E; right; auto.
    + rewrite Forall_forall in *. intros y Hy. apply in_map_iff in Hy. destruct Hy as [p [<- Hp]]. rewrite !E by (simpl; auto). auto.
Qed.
Example C48_case : option_map (fun B => t_ent B) (sort_trip Qc_field isrt2 (Trip 2 3 [(1,2,q 1); (0,2,q 2); (1,0,q 3); (0,1,q 4)])) =
  Some [(0,1,q 4); (0,2,q 2); (1,0,q 3); (1,2,q 1)].
Proof. vm_compute. reflexivity. Qed.
