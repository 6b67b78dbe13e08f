(** C35: copy kernels move exactly the selected entries. *)
From Coq Require Import List Bool Arith Permutation Lia.
From Verif Require Import PackModel PackSpec PackProofs.
Import ListNotations.

(** compress: the marked entries land, in order, at [start..]; everything else of the destination
    is untouched.  The call stays inside the destination exactly when the entries fit. *)
Theorem C35_compress : forall A (this v : list A) start sel,
  length this = length sel -> start + marks sel <= length v ->
  copy_to_w_pattern this v start sel =
    Some (firstn start v ++ picked this sel ++ skipn (start + marks sel) v).
Proof. intros. apply pack_loop_spec; auto. Qed.
Print Assumptions C35_compress.
Theorem C35_compress_needs_room : forall A (this v : list A) start sel,
  copy_to_w_pattern this v start sel <> None ->
  length this = length sel /\ (marks sel = 0 \/ start + marks sel <= length v).
Proof. intros A this v start sel. apply pack_loop_fail. Qed.
Print Assumptions C35_compress_needs_room.

(** expand: the marked positions from [ds] on receive the source entries from [ss] on, in order;
    positions before [ds], unmarked positions and marked positions beyond the count keep their value *)
Theorem C35_expand : forall A (this : list A) ss dest ds ix n,
  length dest <= length ix -> ss + n <= length this -> ds + n <= length dest ->
  exists r, starting_copy_to_w_pattern this ss dest ds ix (Some n) = Some r /\
    length r = length dest /\ firstn ds r = firstn ds dest /\
    picked (skipn ds r) (skipn ds ix) =
      firstn (min n (length (picked (skipn ds dest) (skipn ds ix)))) (skipn ss this)
      ++ skipn n (picked (skipn ds dest) (skipn ds ix)) /\
    picked (skipn ds r) (map negb (skipn ds ix)) = picked (skipn ds dest) (map negb (skipn ds ix)).
Proof. exact unpack_spec. Qed.
Print Assumptions C35_expand.

(** expanding what was compressed restores the vector *)
Theorem C35_expand_after_compress : forall A (x v y : list A) start p v',
  length x = length p -> length y = length p ->
  copy_to_w_pattern x v start p = Some v' -> start + marks p <= length v ->
  picked y (map negb p) = picked x (map negb p) ->
  starting_copy_to_w_pattern v' start y 0 p (Some (marks p)) = Some x.
Proof. exact roundtrip. Qed.
Print Assumptions C35_expand_after_compress.

Theorem C35_index_copy : forall A (this v : list A) idx r,
  copy_from_indexes this v idx = Some r ->
  length r = length this /\
  forall k i, nth_error idx k = Some i -> nth_error r k = nth_error v i /\ i < length v.
Proof.
  intros A this v idx r H. unfold copy_from_indexes in H.
  destruct (length idx =? length this) eqn:E; try discriminate. apply Nat.eqb_eq in E.
  apply gather_spec in H as [L N]. split; [lia|]. intros k i Hk.
  destruct (N k i Hk) as (a & A1 & A2). split; [congruence|]. apply nth_error_Some. congruence.
Qed.
Print Assumptions C35_index_copy.

Theorem C35_merge : forall A (this c d : list A) cm dm, complementary cm dm (length this) ->
  length c = length cm -> length d = length dm ->
  exists r, merge this c cm d dm = Some r /\ length r = length this /\
    (forall k i, nth_error cm k = Some i -> nth_error r i = nth_error c k) /\
    (forall k i, nth_error dm k = Some i -> nth_error r i = nth_error d k).
Proof. exact merge_spec. Qed.
Print Assumptions C35_merge.
Theorem C35_split_after_merge : forall A (this c d c0 d0 : list A) cm dm r,
  complementary cm dm (length this) ->
  length c = length cm -> length d = length dm -> length c0 = length cm -> length d0 = length dm ->
  merge this c cm d dm = Some r -> split r c0 cm d0 dm = Some (c, d).
Proof. exact split_merge. Qed.
Print Assumptions C35_split_after_merge.
Theorem C35_merge_after_split : forall A (v c d c' d' this : list A) cm dm,
  complementary cm dm (length v) ->
  length c = length cm -> length d = length dm -> length this = length v ->
  split v c cm d dm = Some (c', d') -> merge this c' cm d' dm = Some v.
Proof. exact merge_split. Qed.
Print Assumptions C35_merge_after_split.

(** contiguous copies between offsets *)
Theorem C35_block_copies : forall A (dst src r : list A) ds ss n,
  starting_copy_to src ss dst ds (Some n) = Some r ->
  length r = length dst /\
  (forall i, i < n -> nth_error r (ds + i) = nth_error src (ss + i)) /\
  (forall i, i < ds \/ ds + n <= i -> nth_error r i = nth_error dst i).
Proof.
  intros A dst src r ds ss n H. unfold starting_copy_to in H.
  destruct (Nat.leb_spec ss (length src)), (Nat.leb_spec ds (length dst)); simpl in H; try discriminate.
  destruct (_ && _) in H; try discriminate.
  destruct (Nat.leb_spec (n + ss) (length src)), (Nat.leb_spec (n + ds) (length dst)); simpl in H; try discriminate.
  replace (min (min n (length src - ss)) (length dst - ds)) with n in H by lia.
  apply block_spec in H. exact H.
Qed.
Print Assumptions C35_block_copies.

Theorem C35_copy_into : forall A (this v : list A) start,
  copy_from_starting this v start =
  if start + length v <=? length this
  then Some (firstn start this ++ v ++ skipn (start + length v) this) else None.
Proof.
  intros. unfold copy_from_starting, block_copy. destruct (_ <=? length this); simpl; auto.
  rewrite Nat.leb_refl, firstn_all. reflexivity.
Qed.
Print Assumptions C35_copy_into.
Theorem C35_copy_out : forall A (this v : list A) start,
  copy_to_starting this v start =
  if start + length v <=? length this then Some (firstn (length v) (skipn start this)) else None.
Proof.
  intros. unfold copy_to_starting, block_copy. destruct (_ <=? length this); simpl; auto.
  rewrite Nat.leb_refl. simpl. rewrite skipn_all, app_nil_r. reflexivity.
Qed.
Print Assumptions C35_copy_out.
Theorem C35_copy_tail : forall A (this v : list A) ds ss, ds < length this -> ss < length v ->
  starting_copy_from this ds v ss =
  if length this - ds <=? length v - ss
  then Some (firstn ds this ++ firstn (length this - ds) (skipn ss v)) else None.
Proof.
  intros A this v ds ss H1 H2. unfold starting_copy_from.
  replace (ds <? length this) with true by (symmetry; apply Nat.ltb_lt; auto).
  replace (ss <? length v) with true by (symmetry; apply Nat.ltb_lt; auto). simpl.
  replace (length this - ds =? 0) with false by (symmetry; apply Nat.eqb_neq; lia).
  replace (length v - ss =? 0) with false by (symmetry; apply Nat.eqb_neq; lia). simpl.
  destruct (Nat.leb_spec (length this - ds) (length v - ss)); auto. unfold block_copy.
  replace (ds + (length this - ds)) with (length this) by lia.
  replace (ss + (length this - ds) <=? length v) with true by (symmetry; apply Nat.leb_le; lia).
  rewrite Nat.leb_refl, skipn_all, app_nil_r. reflexivity.
Qed.
Print Assumptions C35_copy_tail.

(** [copy_from_starting_at] is documented to copy [nv] entries; for fewer entries than the vector
    holds, nothing is copied *)
Theorem C35_copy_from_starting_at_refuted :
  exists (this v : list nat) start nv,
    nv <= length this /\ start + nv <= length v /\
    copy_from_starting_at this v start nv = Some this /\
    nth_error this 0 <> nth_error v start /\ 0 < nv.
Proof. exists [7; 7; 7], [1; 2; 3], 0, 2. simpl. repeat split; try lia; congruence. Qed.
Print Assumptions C35_copy_from_starting_at_refuted.

Example C35_case_pack :
  copy_to_w_pattern [10; 11; 12; 13] [0; 0; 0; 0; 0] 1 [true; false; true; true] = Some [0; 10; 12; 13; 0]
  /\ starting_copy_to_w_pattern [0; 10; 12; 13; 0] 1 [5; 11; 5; 5] 0 [true; false; true; true] (Some 3)
     = Some [10; 11; 12; 13].
Proof. split; reflexivity. Qed.
Example C35_case_merge : complementary [2; 0] [1; 3] 4 /\
  merge [0; 0; 0; 0] [5; 6] [2; 0] [7; 8] [1; 3] = Some [6; 7; 5; 8] /\
  split [6; 7; 5; 8] [0; 0] [2; 0] [0; 0] [1; 3] = Some ([5; 6], [7; 8]).
Proof.
  split; [|split; reflexivity]. unfold complementary. simpl.
  apply NoDup_Permutation; [repeat constructor; simpl; intuition lia|repeat constructor; simpl; intuition lia|].
  intro x. simpl. intuition.
Qed.
Example C35_case_block : starting_copy_to [1; 2; 3; 4] 1 [0; 0; 0] 0 (Some 2) = Some [2; 3; 0].
Proof. reflexivity. Qed.
Example C35_case_offsets : copy_from_starting [1; 2; 3; 4] [8; 9] 1 = Some [1; 8; 9; 4] /\
  copy_to_starting [1; 2; 3; 4] [0; 0] 2 = Some [3; 4] /\
  starting_copy_from [1; 2; 3] 1 [7; 8; 9; 10] 2 = Some [1; 9; 10].
Proof. repeat split. Qed.
