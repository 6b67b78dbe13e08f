(** Lemmas about fixed-variable removal. *)
From Coq Require Import List Bool Arith ZArith Lia.
From Verif Require Import FloatBase MuModel NlpModel NlpSpec NlpProofs PackModel PackSpec PackProofs XformModel XformSpec.
Import ListNotations.

Section R.
Context {A : Type}.
Lemma skip_mid (l1 l2 : list A) a : skipn (length l1) (l1 ++ a :: l2) = a :: l2 /\ skipn (S (length l1)) (l1 ++ a :: l2) = l2.
Proof. induction l1 as [|b l1 IH]; simpl; auto. Qed.
(** the index map of a mask *)
Fixpoint ranks (it : nat) (p : list bool) : list (option nat) :=
  match p with [] => [] | true :: p' => Some it :: ranks (S it) p' | false :: p' => None :: ranks it p' end.
Lemma ranks_len p : forall it, length (ranks it p) = length p.
Proof. induction p as [|[] p IH]; intro it; simpl; auto. Qed.

Lemma expand_spec p : forall it (fx rs : list A), length fx = length p -> it + marks p <= length rs ->
  exists f, expand (ranks it p) fx rs = Some f /\ length f = length p /\
    picked f p = firstn (marks p) (skipn it rs) /\ picked f (map negb p) = picked fx (map negb p).
Proof.
  induction p as [|b p IH]; intros it fx rs HL HM.
  - exists []. destruct fx; [|discriminate]. simpl. auto.
  - destruct fx as [|x fx]; [discriminate|]. simpl in HL, HM. destruct b; simpl.
    + destruct (IH (S it) fx rs) as (f & F1 & F2 & F3 & F4); [lia|lia|].
      destruct (nth_error rs it) eqn:E; [|apply nth_error_None in E; lia].
      rewrite F1. exists (a :: f). simpl. rewrite F2, F3, F4. repeat split; auto.
      apply nth_error_split in E as (l1 & l2 & -> & <-).
      destruct (skip_mid l1 l2 a) as [-> ->]. reflexivity.
    + destruct (IH it fx rs) as (f & F1 & F2 & F3 & F4); [lia|lia|].
      rewrite F1. exists (x :: f). simpl. rewrite F2, F3, F4. auto.
Qed.

Lemma reduce_pack p : forall it (fs rs : list A), length fs = length p ->
  reduce (ranks it p) fs rs = pack_loop fs p rs it.
Proof.
  induction p as [|b p IH]; intros it fs rs HL; destruct fs as [|x fs]; try discriminate; auto.
  simpl in HL. destruct b; simpl.
  - destruct (upd rs it x); auto.
  - apply IH. lia.
Qed.

Lemma picked_len2 (x : list A) : forall p, length x = length p -> length (picked x p) = marks p.
Proof. induction x as [|a x IH]; intros [|[] p] H; simpl in *; try discriminate; auto. Qed.

Lemma reduce_spec p (fs rs : list A) : length fs = length p -> length rs = marks p ->
  reduce (ranks 0 p) fs rs = Some (picked fs p).
Proof.
  intros H1 H2. rewrite reduce_pack, pack_loop_spec by lia. simpl.
  rewrite skipn_all2 by lia. rewrite app_nil_r. reflexivity.
Qed.

Lemma mat_row_pack nrs nfs i p : forall it j (fs rs : list A), i * nfs + j + length p <= length fs ->
  mat_reduce_row nrs nfs i j (ranks it p) fs rs =
  pack_loop (firstn (length p) (skipn (i * nfs + j) fs)) p rs (i * nrs + it).
Proof.
  induction p as [|b p IH]; intros it j fs rs H; simpl in H.
  - reflexivity.
  - assert (E : exists v, nth_error fs (i * nfs + j) = Some v /\
       firstn (length (b :: p)) (skipn (i * nfs + j) fs) = v :: firstn (length p) (skipn (i * nfs + S j) fs)).
    { destruct (nth_error fs (i * nfs + j)) eqn:E; [|apply nth_error_None in E; lia].
      exists a. split; auto. replace (i * nfs + S j) with (S (i * nfs + j)) by lia.
      apply nth_error_split in E as (l1 & l2 & -> & E). rewrite <- E.
      destruct (skip_mid l1 l2 a) as [-> ->]. reflexivity. }
    destruct E as (v & E1 & E2). rewrite E2. destruct b; simpl.
    + rewrite E1. destruct (upd rs (i * nrs + it) v); auto. rewrite IH by lia. f_equal. lia.
    + rewrite IH by lia. reflexivity.
Qed.

Lemma mat_reduce_spec p (fs : list A) cnt : forall i (rs : list A),
  (i + cnt) * length p <= length fs -> (i + cnt) * marks p <= length rs ->
  mat_reduce (marks p) (length p) i cnt (ranks 0 p) fs rs =
  Some (firstn (i * marks p) rs ++
        flat_map (fun k => picked (row_of (length p) fs k) p) (seq i cnt) ++ skipn ((i + cnt) * marks p) rs).
Proof.
  induction cnt as [|c IH]; intros i rs H1 H2.
  - simpl. rewrite Nat.add_0_r, firstn_skipn. reflexivity.
  - cbn [mat_reduce]. rewrite mat_row_pack by nia. rewrite !Nat.add_0_r.
    fold (row_of (length p) fs i).
    assert (L : length (row_of (length p) fs i) = length p).
    { unfold row_of. rewrite firstn_length, skipn_length. nia. }
    rewrite pack_loop_spec by nia.
    set (rs' := firstn (i * marks p) rs ++ picked (row_of (length p) fs i) p ++ skipn (i * marks p + marks p) rs).
    pose proof (picked_len2 _ _ L) as PL.
    assert (LR : length rs' = length rs).
    { unfold rs'. rewrite !app_length, PL, firstn_length, skipn_length. nia. }
    rewrite IH by (rewrite ?LR; nia). f_equal. cbn [seq flat_map].
    assert (F : firstn (S i * marks p) rs' = firstn (i * marks p) rs ++ picked (row_of (length p) fs i) p).
    { unfold rs'. rewrite app_assoc, firstn_app, firstn_all2.
      - rewrite app_length, PL, firstn_length.
        replace (S i * marks p - (min (i * marks p) (length rs) + marks p)) with 0 by nia.
        simpl. rewrite app_nil_r. reflexivity.
      - rewrite app_length, PL, firstn_length. nia. }
    assert (S' : skipn ((S i + c) * marks p) rs' = skipn ((i + S c) * marks p) rs).
    { unfold rs'. rewrite app_assoc, skipn_app, skipn_all2.
      - rewrite app_length, PL, firstn_length, skipn_skip. simpl app. f_equal. nia.
      - rewrite app_length, PL, firstn_length. nia. }
    rewrite F, S', <- !app_assoc. reflexivity.
Qed.

Lemma mat_expand_runs (zero : A) p nrs (rs : list A) cnt : forall i, marks p <= nrs -> (i + cnt) * nrs <= length rs ->
  mat_expand zero nrs i cnt (ranks 0 p) rs <> None.
Proof.
  induction cnt as [|c IH]; intros i H1 H2; simpl; [congruence|].
  set (row := map _ _).
  assert (F : forallb (fun o : option A => match o with Some _ => true | None => false end) row = true).
  { apply forallb_forall. intros o Ho. unfold row in Ho. apply in_map_iff in Ho as (m & <- & Hm).
    destruct m as [r|]; auto. destruct (nth_error rs (i * nrs + r)) eqn:E; auto.
    apply nth_error_None in E. exfalso.
    assert (B : forall p it r, In (Some r) (ranks it p) -> r < it + marks p).
    { clear. induction p as [|[] p IH]; intros it r H; simpl in *; try tauto.
      - destruct H as [H|H]; [injection H; lia|]. apply IH in H. lia.
      - destruct H as [H|H]; [discriminate|]. apply IH in H. lia. }
    apply B in Hm. nia. }
  rewrite F. specialize (IH (S i) H1). destruct (mat_expand zero nrs (S i) c (ranks 0 p) rs); [congruence|].
  exfalso. apply IH; auto. nia.
Qed.
End R.

(** the mask of the remover *)
Definition mask_of (tol : b64) (xs : list (b64 * b64)) : list bool :=
  map (fun e => negb (close_bnds tol (fst e) (snd e))) xs.
Lemma map_loop_spec tol xs : forall it, map_loop tol it xs = (ranks it (mask_of tol xs), it + marks (mask_of tol xs)).
Proof.
  induction xs as [|[l u] xs IH]; intro it; simpl; [f_equal; lia|].
  destruct (close_bnds tol l u); simpl; rewrite IH; simpl; f_equal; lia.
Qed.

(** when the assertion of the set-up passes, "close" and "fixed" agree on every variable *)
Lemma fix_le tol xs : length (filter (fixp tol) xs) + marks (mask_of tol xs) <= length xs.
Proof.
  induction xs as [|[l u] xs IH]; simpl; auto. unfold fixp at 1. cbn [fst snd].
  destruct (has_upp u), (close_bnds tol l u); simpl; lia.
Qed.
Lemma agree tol xs : marks (mask_of tol xs) + length (filter (fixp tol) xs) = length xs ->
  forall e, In e xs -> close_bnds tol (fst e) (snd e) = fixp tol e.
Proof.
  induction xs as [|[l u] xs IH]; intros H e He; [contradiction|].
  pose proof (fix_le tol xs) as B. simpl in H. unfold fixp at 1 in H. cbn [fst snd] in H.
  destruct He as [<-|He].
  - unfold fixp. cbn [fst snd]. destruct (has_upp u), (close_bnds tol l u); simpl in *; auto; lia.
  - apply IH; auto. destruct (has_upp u), (close_bnds tol l u); simpl in *; lia.
Qed.
Lemma mask_keeps tol xs : marks (mask_of tol xs) + length (filter (fixp tol) xs) = length xs ->
  keeps tol xs (mask_of tol xs).
Proof.
  intro H. split; [apply map_length|]. intros i l u Hi.
  unfold mask_of. rewrite (map_nth_error _ _ _ Hi).
  rewrite (agree tol xs H (l, u)) by (eapply nth_error_In; eauto). rewrite <- (fixp_ok tol (l, u)).
  destruct (fixp tol (l, u)); simpl; split; intro; congruence.
Qed.

Lemma mk_remover_spec tol xs buf R :
  mk_remover tol xs (b_fix (process_bounds tol xs)) buf = Some R ->
  R = Remover (ranks 0 (mask_of tol xs)) (map fst xs) (length (filter (fixp tol) xs)) buf /\
  marks (mask_of tol xs) + length (filter (fixp tol) xs) = length xs.
Proof.
  unfold mk_remover, process_bounds. rewrite bounds_loop, map_loop_spec. cbn [b_fix bnds0]. rewrite !Nat.add_0_l.
  destruct (_ =? _) eqn:E; [|discriminate]. apply Nat.eqb_eq in E. intro H. injection H as <-. auto.
Qed.

Section Seq.
Variable uf : list b64 -> b64.
Variable ugrad : list b64 -> list b64.
Variable ujac : nat -> list b64 -> list b64.
Variable ustart : list b64.
Variables (mask : list bool) (xl : list b64) (nfix : nat).
Hypothesis HN : marks mask + nfix = length mask.
Hypothesis HX : length xl = length mask.
Hypothesis HG : forall p, length p = length mask -> length (ugrad p) = length mask.
Hypothesis HJ : forall m p, length p = length mask -> length (ujac m p) = m * length mask.
Hypothesis HS : length ustart = length mask.

Definition RR (buf : list b64) := Remover (ranks 0 mask) xl nfix buf.

Lemma full_expand x : length x = marks mask -> exists p, expand (ranks 0 mask) xl x = Some p /\ full_point mask xl x p.
Proof.
  intro H. destruct (expand_spec mask 0 xl x) as (p & P1 & P2 & P3 & P4); [auto|lia|].
  exists p. split; auto. split; auto. split; auto. rewrite P3. simpl. rewrite firstn_all2 by lia. reflexivity.
Qed.

Lemma inv_x buf x nw prev : length x = marks mask -> (nw = false -> prev = Some x) ->
  (forall y, prev = Some y -> full_point mask xl y buf) ->
  exists p, apply_inv_to_x (RR buf) x nw = Some (RR p, p) /\ full_point mask xl x p.
Proof.
  intros H1 H2 H3. unfold apply_inv_to_x. destruct nw.
  - destruct (full_expand x H1) as (p & P1 & P2). exists p. cbn [r_map r_xl r_nfix RR]. rewrite P1. auto.
  - exists buf. cbn [r_xfs RR]. auto.
Qed.

Lemma seq_spec qs : forall buf prev,
  (forall y, prev = Some y -> full_point mask xl y buf) ->
  well_flagged (marks mask) prev qs ->
  exists l, eval_seq uf ugrad ujac ustart (RR buf) qs = Some l /\
    Forall2 (good_answer uf ugrad ujac ustart mask xl) qs l.
Proof.
  assert (RN : forall buf, rs_n (RR buf) = marks mask).
  { intro buf. unfold rs_n, RR. cbn [r_map r_nfix]. rewrite ranks_len. lia. }
  induction qs as [|q qs IH]; intros buf prev HP W; [exists []; split; [reflexivity|constructor]|].
  cbn [eval_seq]. destruct q as [x nw|x nw g|x nw m J|x]; cbn [well_flagged] in W.
  - destruct W as (W1 & W2 & W3). destruct (inv_x buf x nw prev W1 W2 HP) as (p & P1 & P2).
    cbn [eval_req]. rewrite P1.
    destruct (IH p (Some x)) as (l & L1 & L2); auto. { intros y Hy. injection Hy as <-. auto. }
    rewrite L1. eexists. split; [reflexivity|]. constructor; auto. split; auto.
  - destruct W as (W1 & W0 & W2 & W3). destruct (inv_x buf x nw prev W1 W2 HP) as (p & P1 & P2).
    cbn [eval_req]. rewrite P1. cbn [r_map r_xl RR].
    destruct (full_expand g W0) as (? & E & _). rewrite E.
    rewrite reduce_spec; [|apply HG, P2|auto].
    destruct (IH p (Some x)) as (l & L1 & L2); auto. { intros y Hy. injection Hy as <-. auto. }
    rewrite L1. eexists. split; [reflexivity|]. constructor; auto. split; auto.
  - destruct W as (W1 & W0 & W2 & W3). destruct (inv_x buf x nw prev W1 W2 HP) as (p & P1 & P2).
    cbn [eval_req]. rewrite P1. rewrite RN. cbn [r_map RR].
    destruct (mat_expand f_zero (marks mask) 0 m (ranks 0 mask) J) eqn:E.
    2: { exfalso. revert E. apply mat_expand_runs; simpl; lia. }
    rewrite ranks_len.
    pose proof (HJ m p (proj1 P2)) as LJ.
    rewrite mat_reduce_spec by (simpl; lia). simpl firstn. rewrite skipn_all2 by (simpl; lia). rewrite app_nil_r. simpl app.
    destruct (IH p (Some x)) as (l' & L1 & L2); auto. { intros y Hy. injection Hy as <-. auto. }
    rewrite L1. eexists. split; [reflexivity|]. constructor; auto.
    assert (RL : forall k, k < m -> length (row_of (length mask) (ujac m p) k) = length mask).
    { intros k Hk. unfold row_of. rewrite firstn_length, skipn_length, LJ. nia. }
    cbn [good_answer]. split; auto.
    assert (GEN : forall cnt i, i + cnt <= m ->
      length (flat_map (fun k => picked (row_of (length mask) (ujac m p) k) mask) (seq i cnt)) = cnt * marks mask /\
      forall k, k < cnt -> row_of (marks mask) (flat_map (fun k => picked (row_of (length mask) (ujac m p) k) mask) (seq i cnt)) k
        = picked (row_of (length mask) (ujac m p) (i + k)) mask).
    { induction cnt as [|c IC]; intros i Hi; [split; [reflexivity|intros; lia]|].
      destruct (IC (S i) ltac:(lia)) as [I1 I2]. cbn [seq flat_map].
      pose proof (picked_len2 _ _ (RL i ltac:(lia))) as PL.
      split. { rewrite app_length, PL, I1. lia. }
      intros [|k] Hk; unfold row_of at 1.
      - simpl. rewrite firstn_app, PL, Nat.sub_diag, firstn_all2 by lia.
        simpl. rewrite app_nil_r, Nat.add_0_r. reflexivity.
      - rewrite skipn_app, PL, skipn_all2 by (rewrite PL; nia). rewrite app_nil_l.
        replace (S k * marks mask - marks mask) with (k * marks mask) by nia.
        etransitivity; [apply (I2 k); lia|]. f_equal. f_equal. lia. }
    destruct (GEN m 0 ltac:(lia)) as [G1 G2]. split; auto.
  - destruct W as (W1 & W3). destruct (inv_x buf x true prev W1 ltac:(discriminate) HP) as (p & P1 & P2).
    cbn [eval_req]. rewrite P1. cbn [r_map r_xl r_nfix RR].
    rewrite reduce_spec by auto.
    destruct (IH ustart None) as (l & L1 & L2); auto. { discriminate. }
    unfold RR in L1. rewrite L1. eexists. split; [reflexivity|]. constructor; auto. reflexivity.
Qed.
End Seq.

Lemma picked_expand_unique (mask : list bool) : forall (p q : list b64), length p = length mask -> length q = length mask ->
  picked p mask = picked q mask -> picked p (map negb mask) = picked q (map negb mask) -> p = q.
Proof.
  induction mask as [|b mask IH]; intros [|a p] [|c q] H1 H2 H3 H4; simpl in *; try discriminate; auto.
  destruct b; simpl in *; [injection H3 as -> H3|injection H4 as -> H4]; f_equal; apply IH; auto.
Qed.

(** reduced distribution over the ranks *)
Lemma prefix_nth l : forall acc r v, nth_error (prefix_sums acc l) r = Some v ->
  (v = acc + fold_right Z.add 0 (firstn (S r) l))%Z.
Proof.
  induction l as [|a l IH]; intros acc r v H; simpl in *; [destruct r; discriminate|].
  destruct r as [|r]; simpl in *.
  - injection H as <-. simpl. lia.
  - apply IH in H. rewrite H. simpl. destruct l; simpl; lia.
Qed.
Lemma prefix_len l : forall acc, length (prefix_sums acc l) = length l.
Proof. induction l; intro; simpl; auto. Qed.
