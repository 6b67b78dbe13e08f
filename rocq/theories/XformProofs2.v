(** Lemmas about the reduced distribution and the counters after initialisation. *)
From Coq Require Import List Bool Arith ZArith Lia.
From Verif Require Import FloatBase MuModel NlpModel NlpSpec NlpProofs PackModel PackSpec PackProofs XformModel XformSpec XformProofs.
Import ListNotations.

Lemma free_count tol xs : free_in tol xs (length xs - length (filter (fixp tol) xs)).
Proof.
  assert (B : forall l, length (filter (fixp tol) l) <= length l).
  { induction l as [|e l IHl]; simpl; auto. destruct (fixp tol e); simpl; lia. }
  unfold free_in. induction xs as [|e xs IH]; [constructor|]. cbn [length filter].
  specialize (B xs). pose proof (fixp_ok tol e) as HF. destruct (fixp tol e); cbn [length].
  - apply counts_no; [|exact IH]. intro H. apply H, HF. reflexivity.
  - replace (S (length xs) - length (filter (fixp tol) xs)) with (S (length xs - length (filter (fixp tol) xs))) by lia.
    apply counts_yes; auto. intro H. apply HF in H. discriminate.
Qed.

Lemma sum_fix tol ranks : forall r,
  fold_right Z.add 0%Z (firstn r (map (fun xs => Z.of_nat (b_fix (process_bounds tol xs))) ranks)) =
  Z.of_nat (length (filter (fixp tol) (concat (firstn r ranks)))).
Proof.
  induction ranks as [|xs ranks IH]; intros [|r]; simpl; auto.
  rewrite IH, filter_app, app_length. unfold process_bounds. rewrite bounds_loop. cbn [b_fix bnds0].
  rewrite Nat.add_0_l. lia.
Qed.

Lemma distrib_spec tol (rks : list (list (b64 * b64))) fs :
  length fs = S (length rks) ->
  (forall r, r <= length rks -> nth_error fs r = Some (Z.of_nat (length (concat (firstn r rks))))) ->
  exists d, rs_distrib fs (map (fun xs => Z.of_nat (b_fix (process_bounds tol xs))) rks) = Some d /\
    length d = length fs /\
    forall r, r <= length rks -> exists n, nth_error d r = Some (Z.of_nat n) /\ free_in tol (concat (firstn r rks)) n.
Proof.
  intros HL HF. unfold rs_distrib. rewrite map_length, HL, Nat.eqb_refl.
  eexists. split; [reflexivity|]. split.
  { rewrite map_length, combine_length. simpl. rewrite prefix_len, map_length. lia. }
  intros r Hr. exists (length (concat (firstn r rks)) - length (filter (fixp tol) (concat (firstn r rks)))).
  split; [|apply free_count].
  set (nf := map _ rks). set (ps := 0%Z :: prefix_sums 0 nf).
  assert (E : nth_error ps r = Some (Z.of_nat (length (filter (fixp tol) (concat (firstn r rks)))))).
  { unfold ps. destruct r as [|r]; [reflexivity|]. simpl nth_error.
    destruct (nth_error (prefix_sums 0 nf) r) eqn:E.
    - apply prefix_nth in E. rewrite E. unfold nf. rewrite sum_fix. reflexivity.
    - apply nth_error_None in E. rewrite prefix_len in E. unfold nf in E. rewrite map_length in E. lia. }
  assert (C : forall (a b : list Z) i x y, nth_error a i = Some x -> nth_error b i = Some y -> nth_error (combine a b) i = Some (x, y)).
  { induction a as [|? a IH]; intros [|? b] [|i] x y H1 H2; simpl in *; try discriminate; auto; congruence. }
  rewrite (map_nth_error _ _ _ (C _ _ _ _ _ (HF r Hr) E)). f_equal.
  assert (length (filter (fixp tol) (concat (firstn r rks))) <= length (concat (firstn r rks))).
  { generalize (concat (firstn r rks)). induction l as [|e l IHl]; simpl; auto. destruct (fixp tol e); simpl; lia. }
  lia.
Qed.

(** counting marks *)
Lemma count_ind {A} (p : A -> bool) xs : counts (fun a => a = f_one) (map (fun e => ind (p e)) xs) (length (filter p xs)).
Proof.
  induction xs as [|e xs IH]; simpl; [constructor|]. destruct (p e); simpl; constructor; auto. discriminate.
Qed.
Lemma count_ind2 {A} (p q : A -> bool) xs :
  counts (fun a => fst a = f_one /\ snd a = f_one)
    (combine (map (fun e => ind (p e)) xs) (map (fun e => ind (q e)) xs)) (length (filter (fun e => p e && q e) xs)).
Proof.
  rewrite combine_map. induction xs as [|e xs IH]; simpl; [constructor|].
  destruct (p e), (q e); simpl; constructor; auto; simpl; intros [H1 H2]; discriminate.
Qed.
Lemma picked_map {A B} (f : A -> B) xs : forall m, picked (map f xs) m = map f (picked xs m).
Proof. induction xs as [|a xs IH]; intros [|[] m]; simpl; auto. rewrite IH. auto. Qed.
Lemma picked_all {A} (xs : list A) m : length xs = length m -> marks m = length m -> picked xs m = xs.
Proof.
  assert (B : forall m, marks m <= length m) by (induction m0 as [|[] m0 IH]; simpl; lia).
  revert m. induction xs as [|a xs IH]; intros [|[] m] HL HM; simpl in *; try discriminate; auto.
  - rewrite IH; auto; lia.
  - specialize (B m). lia.
Qed.
(** entries dropped by the mask all have property [p] *)
Lemma filter_split tol (p : b64 * b64 -> bool) xs :
  marks (mask_of tol xs) + length (filter (fixp tol) xs) = length xs ->
  (forall e, In e xs -> fixp tol e = true -> p e = true) ->
  length (filter p xs) = length (filter p (picked xs (mask_of tol xs))) + length (filter (fixp tol) xs).
Proof.
  intros H HP. pose proof (agree tol xs H) as HA. clear H.
  induction xs as [|e xs IH]; simpl; auto.
  assert (IH' : length (filter p xs) = length (filter p (picked xs (mask_of tol xs))) + length (filter (fixp tol) xs)).
  { apply IH; intros; [apply HP|apply HA]; auto; right; auto. }
  specialize (HA e (or_introl eq_refl)). rewrite HA. specialize (HP e (or_introl eq_refl)).
  destruct (fixp tol e); simpl.
  - rewrite HP by auto. simpl. rewrite IH'. lia.
  - destruct (p e); simpl; rewrite IH'; lia.
Qed.

Definition all_true (n : nat) : list bool := repeat true n.
Lemma marks_all n : marks (all_true n) = n. Proof. induction n; simpl; auto. Qed.

(** what the initialisation leaves: the surviving variables, their marks and the counters *)
Lemma finalize_spec o tol pert brp xs buf v :
  finalize_bounds o tol pert brp xs buf = Some v ->
  (forall e, In e xs -> fixp tol e = true -> lowp e = true) ->
  exists mask, length mask = length xs /\
    ((o = FxRemove -> mask = mask_of tol xs /\ marks (mask_of tol xs) + length (filter (fixp tol) xs) = length xs
                      \/ filter (fixp tol) xs = [] /\ marks mask = length mask) /\
     (o <> FxRemove -> marks mask = length mask)) /\
    length (v_xs v) = marks mask /\
    v_ixl v = picked (map (fun e => ind (lowp e)) xs) mask /\ v_ixu v = picked (map (fun e => ind (uppp e)) xs) mask /\
    v_low v = Z.of_nat (length (filter lowp (picked xs mask))) /\
    v_upp v = Z.of_nat (length (filter uppp (picked xs mask))) /\
    v_lu v = Z.of_nat (length (filter (fun e => lowp e && uppp e) (picked xs mask))) /\
    (exists f, (forall e, f e = e \/ f e = fixed_relax1 tol pert e \/ fgt brp f_zero = true /\ f e = bounds_relax1 brp e) /\ v_xs v = map f (picked xs mask)).
Proof.
  unfold finalize_bounds, process_bounds. rewrite bounds_loop. cbn [b_ixl b_ixu b_low b_upp b_lu b_fix bnds0 app].
  rewrite !Nat.add_0_l. cbn [v_low v_upp v_lu v_ixl v_ixu v_xs].
  intros HV HL.
  set (ident := all_true (length xs)).
  assert (PI : forall {B} (l : list B), length l = length xs -> picked l ident = l).
  { intros B l Hl. apply picked_all; unfold ident; rewrite ?marks_all; unfold all_true; rewrite repeat_length; auto. }
  assert (LI : length ident = length xs) by apply repeat_length.
  assert (MI : marks ident = length xs) by apply marks_all.
  assert (KEEP : forall f v1,
     v1 = VBounds (map f xs) (map (fun e => ind (lowp e)) xs) (map (fun e => ind (uppp e)) xs)
        (Z.of_nat (length (filter lowp xs))) (Z.of_nat (length (filter uppp xs)))
        (Z.of_nat (length (filter (fun e => lowp e && uppp e) xs))) ->
     (forall e, f e = e \/ f e = fixed_relax1 tol pert e \/ fgt brp f_zero = true /\ f e = bounds_relax1 brp e) ->
     v = v1 -> (o = FxRemove -> filter (fixp tol) xs = []) ->
     exists mask, length mask = length xs /\
    ((o = FxRemove -> mask = mask_of tol xs /\ marks (mask_of tol xs) + length (filter (fixp tol) xs) = length xs
                      \/ filter (fixp tol) xs = [] /\ marks mask = length mask) /\
     (o <> FxRemove -> marks mask = length mask)) /\
    length (v_xs v) = marks mask /\
    v_ixl v = picked (map (fun e => ind (lowp e)) xs) mask /\ v_ixu v = picked (map (fun e => ind (uppp e)) xs) mask /\
    v_low v = Z.of_nat (length (filter lowp (picked xs mask))) /\
    v_upp v = Z.of_nat (length (filter uppp (picked xs mask))) /\
    v_lu v = Z.of_nat (length (filter (fun e => lowp e && uppp e) (picked xs mask))) /\
    (exists f, (forall e, f e = e \/ f e = fixed_relax1 tol pert e \/ fgt brp f_zero = true /\ f e = bounds_relax1 brp e) /\ v_xs v = map f (picked xs mask))).
  { intros f v1 -> Hf -> HR. exists ident. rewrite !PI by (rewrite ?map_length; auto).
    cbn [v_low v_upp v_lu v_ixl v_ixu v_xs]. rewrite map_length.
    split; auto. split. { split; intro; [right; split; auto; lia|lia]. }
    split; auto. do 5 (split; auto). exists f. auto. }
  assert (MID : map (fun e : b64 * b64 => e) xs = xs) by apply map_id.
  destruct (0 <? length (filter (fixp tol) xs)) eqn:EF.
  2: { apply Nat.ltb_ge in EF. assert (filter (fixp tol) xs = []) by (destruct (filter (fixp tol) xs); auto; simpl in EF; lia).
       cbn iota in HV. destruct (fgt brp f_zero) eqn:EG; injection HV as HV.
       - eapply (KEEP (bounds_relax1 brp)); eauto.
       - eapply (KEEP (fun e => e)); eauto. rewrite MID. auto. }
  destruct o.
  - destruct (mk_remover tol xs (length (filter (fixp tol) xs)) buf) as [R|] eqn:ER; [|discriminate].
    assert (ER' : mk_remover tol xs (b_fix (process_bounds tol xs)) buf = Some R).
    { unfold process_bounds. rewrite bounds_loop. cbn [b_fix bnds0]. rewrite Nat.add_0_l. exact ER. }
    apply mk_remover_spec in ER' as [-> HM]. cbn [r_map] in HV.
    assert (LM : length (mask_of tol xs) = length xs) by apply map_length.
    rewrite !reduce_spec in HV; rewrite ?map_length, ?repeat_length; auto; try lia.
    rewrite !picked_map in HV. rewrite combine_map in HV.
    assert (ES : map (fun a : b64 * b64 => (fst a, snd a)) (picked xs (mask_of tol xs)) = picked xs (mask_of tol xs)).
    { etransitivity; [|apply map_id]. apply map_ext. intros [? ?]; reflexivity. }
    rewrite ES in HV.
    assert (C1 := filter_split tol lowp xs HM HL).
    assert (C2 : length (filter uppp xs) = length (filter uppp (picked xs (mask_of tol xs))) + length (filter (fixp tol) xs)).
    { apply filter_split; auto. intros e _ He. unfold fixp in He. apply andb_true_iff in He as [He _]. exact He. }
    assert (C3 : length (filter (fun e => lowp e && uppp e) xs) = length (filter (fun e => lowp e && uppp e) (picked xs (mask_of tol xs))) + length (filter (fixp tol) xs)).
    { apply filter_split; auto. intros e Hi He. rewrite (HL e Hi He). unfold fixp in He. apply andb_true_iff in He as [He _]. exact He. }
    exists (mask_of tol xs). split; auto. split. { split; [intros _; left; auto|congruence]. }
    rewrite !picked_map.
    assert (PL : length (picked xs (mask_of tol xs)) = marks (mask_of tol xs)) by (apply picked_len; auto).
    destruct (fgt brp f_zero) eqn:EG; injection HV as <-; cbn [v_low v_upp v_lu v_ixl v_ixu v_xs]; rewrite ?map_length.
    + split; auto. split; auto. split; auto. split; [lia|]. split; [lia|]. split; [lia|].
      exists (bounds_relax1 brp). auto.
    + split; auto. split; auto. split; auto. split; [lia|]. split; [lia|]. split; [lia|].
      exists (fun e => e). rewrite map_id. auto.
  - destruct (feq brp f_zero) eqn:EB.
    + assert (NG : fgt brp f_zero = false).
      { clear -EB. unfold feq, fgt, flt, SFeqb, SFltb, f_zero in *. destruct brp as [s|s| |s m e]; try destruct s; simpl in *; auto; discriminate. }
      rewrite NG in HV. injection HV as HV. eapply (KEEP (fixed_relax1 tol pert)); eauto. discriminate.
    + destruct (fgt brp f_zero) eqn:EG; injection HV as HV.
      * eapply (KEEP (bounds_relax1 brp)); eauto. discriminate.
      * eapply (KEEP (fun e => e)); eauto. { rewrite MID. auto. } discriminate.
  - destruct (feq brp f_zero) eqn:EB; [discriminate|].
    destruct (fgt brp f_zero) eqn:EG; injection HV as HV.
      * eapply (KEEP (bounds_relax1 brp)); eauto. discriminate.
      * eapply (KEEP (fun e => e)); eauto. { rewrite MID. auto. } discriminate.
Qed.
