(** C50: the primal point handed back to the user. *)
From Coq Require Import List Bool Arith ZArith Lia.
From Verif Require Import FloatBase PackModel PackSpec PackProofs NlpModel NlpSpec NlpProofs
  XformModel XformSpec XformProofs XformProofs2 DeliverModel.
Import ListNotations.
(** Without removal of fixed variables the user's array receives the solver's point.  Missing: with
    fixed variables removed, where it is false ([C50_removed_refuted]) *)
Theorem C50_getter_partial : forall x arr, length arr = length x -> user_x None (length x) x arr = Some x.
Proof.
  intros x arr H. unfold user_x, block_copy. rewrite H. cbn [Nat.add]. rewrite Nat.leb_refl. cbn [andb].
  rewrite <- H at 2. rewrite skipn_all. cbn [firstn skipn]. rewrite firstn_all, app_nil_r. reflexivity.
Qed.
Print Assumptions C50_getter_partial.
(** With [nfree] of the user's variables not fixed, and the others removed, exactly the first [nfree]
    entries of the user's array are written: with those of the full-length point *)
Theorem C50_removed_prefix : forall tol xs buf R nfree x arr,
  mk_remover tol xs (b_fix (process_bounds tol xs)) buf = Some R -> free_in tol xs nfree ->
  length x = nfree -> length arr = length xs ->
  exists mask p, keeps tol xs mask /\ full_point mask (map fst xs) x p /\
    user_x (Some R) nfree x arr = Some (firstn nfree p ++ skipn nfree arr).
Proof.
  intros tol xs buf R nfree x arr HR HF HX HA. destruct (mk_remover_spec _ _ _ _ HR) as [-> HM].
  assert (LM : length (mask_of tol xs) = length xs) by apply map_length.
  assert (EN : marks (mask_of tol xs) = nfree).
  { pose proof (counts_fun _ _ _ _ HF (free_count tol xs)). lia. }
  exists (mask_of tol xs).
  destruct (expand_spec (mask_of tol xs) 0 (map fst xs) x) as (p & P1 & P2 & P3 & P4); [rewrite map_length; lia|lia|].
  assert (NP : nfree <= length p) by lia.
  exists p. split; [apply mask_keeps; auto|]. split.
  { split; auto. split; auto. rewrite P3. simpl. rewrite firstn_all2 by lia. reflexivity. }
  unfold user_x, apply_inv_to_x. cbn [r_map r_xl]. rewrite P1. unfold block_copy. cbn [Nat.add].
  replace (nfree <=? length arr) with true by (symmetry; apply Nat.leb_le; lia).
  replace (nfree <=? length p) with true by (symmetry; apply Nat.leb_le; lia). reflexivity.
Qed.
Print Assumptions C50_removed_prefix.
(** x0 in [0,9], x1 fixed at 5, x2 in [-1,9]: the array keeps its old entry for x2, whatever that was;
    the callback is told there are two variables and gets x2 in the place of x1 *)
Definition xr : list (b64 * b64) := [(fofZ 0, fofZ 9); (fofZ 5, fofZ 5); (fofZ (-1), fofZ 9)].
Theorem C50_removed_refuted : exists R, mk_remover f_zero xr (b_fix (process_bounds f_zero xr)) [] = Some R /\
  (forall a b c, user_x (Some R) 2 [fofZ 3; fofZ 4] [a; b; c] = Some [fofZ 3; fofZ 5; c]) /\
  callback_x 2 [fofZ 3; fofZ 4] = (2, [fofZ 3; fofZ 4]).
Proof. eexists. split; [vm_compute; reflexivity|]. split; [|reflexivity]. intros. vm_compute. reflexivity. Qed.
Print Assumptions C50_removed_refuted.
Example C50_case : user_x None 2 [fofZ 3; fofZ 4] [fofZ 0; fofZ 0] = Some [fofZ 3; fofZ 4].
Proof. vm_compute. reflexivity. Qed.
Example C50_prefix_case : free_in f_zero xr 2 /\ keeps f_zero xr [true; false; true] /\
  full_point [true; false; true] (map fst xr) [fofZ 3; fofZ 4] [fofZ 3; fofZ 5; fofZ 4].
Proof.
  split; [|split].
  - unfold free_in, xr, fixed_pair. apply counts_yes; [intros [_ H]; vm_compute in H; discriminate|].
    apply counts_no; [intro H; apply H; split; reflexivity|]. apply counts_yes; [intros [_ H]; vm_compute in H; discriminate|]. apply counts_nil.
  - split; [reflexivity|]. unfold fixed_pair. intros [|[|[|i]]] l u H; try (destruct i; discriminate); injection H as <- <-; cbn [nth_error]; split.
    + discriminate. + intros [_ Q]. vm_compute in Q. discriminate. + intros _. split; reflexivity. + reflexivity.
    + discriminate. + intros [_ Q]. vm_compute in Q. discriminate.
  - repeat split.
Qed.
