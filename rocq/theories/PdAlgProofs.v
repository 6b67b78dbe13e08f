(** Lemmas about the recourse approximation and the outer loop. *)
From Coq Require Import List Bool Arith Lia.
From Verif Require Import FloatBase FloatFacts OptProofs PdAlgModel PdAlgSpec.
Import ListNotations.

Lemma clamp_within : forall lo hi v, fle lo hi = true -> within lo hi (stdmin hi (stdmax lo v)).
Proof.
  intros lo hi v H. destruct (fle_nan _ _ H) as (N1 & N2). unfold within, stdmin, stdmax.
  destruct (flt lo v) eqn:A.
  - assert (NV : is_nan v = false) by (destruct v; auto; destruct lo as [[]|[]| |[]]; discriminate A).
    destruct (flt v hi) eqn:B.
    + split; apply flt_fle'; auto.
      * destruct (flt v lo) eqn:C; auto. exfalso. rewrite flt_not_fge in A, C by auto. apply negb_true_iff in A, C.
        destruct (fle_total lo v N1 NV) as [D|D]; unfold fge, fle in *; congruence.
      * destruct (flt hi v) eqn:C; auto. exfalso. rewrite flt_not_fge in B, C by auto. apply negb_true_iff in B, C.
        destruct (fle_total hi v N2 NV) as [D|D]; unfold fge, fle in *; congruence.
    + split; auto using fle_refl.
  - destruct (flt lo hi) eqn:B; split; auto using fle_refl.
Qed.
(** what no operation of the class changes *)
Definition same_bounds (h h' : ha) : Prop :=
  h_amin h' = h_amin h /\ h_amax h' = h_amax h /\ h_rmin h' = h_rmin h /\ h_rmax h' = h_rmax h.
Section S.
Variables (dot : list b64 -> list b64 -> b64) (nrm : list b64 -> b64).
Lemma hdo_bounds : forall o h h' r, hdo dot nrm o h = Some (h', r) -> same_bounds h h'.
Proof.
  intros o h h' r H. destruct o; cbn in H; try (injection H as <- <-; repeat split).
  destruct (update_hess_coeff dot x g f h) eqn:E; [|discriminate]. injection H as <- <-.
  unfold update_hess_coeff in E. destruct (_ && _); [|discriminate]. injection E as <-. repeat split.
Qed.
Lemma hdo_out : forall o h h' r, hdo dot nrm o h = Some (h', r) -> fle (h_amin h) (h_amax h) = true -> fle (h_rmin h) (h_rmax h) = true ->
  (forall a, r = Some a -> within (h_amin h) (h_amax h) a /\ h_alpha h' = a) /\
  (match o with ORatio0 | ORatio _ _ => within (h_rmin h) (h_rmax h) (h_ratio h') | _ => h_ratio h' = h_ratio h end) /\
  (match o with OBB | OF _ | OTr => exists a, r = Some a | _ => r = None /\ h_alpha h' = h_alpha h end).
Proof.
  intros o h h' r H A B. destruct o; cbn in H.
  2:{ destruct (update_hess_coeff dot x g f h) eqn:E; [|discriminate]. injection H as <- <-.
      unfold update_hess_coeff in E. destruct (_ && _); [|discriminate]. injection E as <-. repeat split; discriminate. }
  all: injection H as <- <-; cbn [h_ratio h_alpha set_ratio set_alpha initialize].
  - repeat split; discriminate.
  - split; [discriminate|split; [|split; reflexivity]]. unfold update_ratio0, ratio_tr5. cbn [h_ratio set_ratio]. apply clamp_within; auto.
  - split; [discriminate|split; [|split; reflexivity]]. unfold update_ratio, ratio_tr2. cbn [h_ratio set_ratio]. apply clamp_within; auto.
  - split; [|split; [reflexivity|eauto]]. intros a E. injection E as <-. split; [apply clamp_within; auto|reflexivity].
  - split; [|split; [reflexivity|eauto]]. intros a E. injection E as <-. split; [apply clamp_within; auto|reflexivity].
  - split; [|split; [reflexivity|eauto]]. intros a E. injection E as <-. split; [apply clamp_within; auto|reflexivity].
Qed.
Lemma hrun_out : forall os h h' l, hrun dot nrm os h = Some (h', l) -> fle (h_amin h) (h_amax h) = true -> fle (h_rmin h) (h_rmax h) = true ->
  same_bounds h h' /\ length l = length os /\
  forall k o hk r, nth_error os k = Some o -> nth_error l k = Some (hk, r) ->
    (match o with OBB | OF _ | OTr => exists a, r = Some a /\ within (h_amin h) (h_amax h) a | _ => r = None end) /\
    (match o with ORatio0 | ORatio _ _ => within (h_rmin h) (h_rmax h) (h_ratio hk) | _ => True end) /\
    (within (h_rmin h) (h_rmax h) (h_ratio h) -> within (h_rmin h) (h_rmax h) (h_ratio hk)) /\
    (within (h_amin h) (h_amax h) (h_alpha h) -> within (h_amin h) (h_amax h) (h_alpha hk)).
Proof.
  induction os as [|o os IH]; intros h h' l H A B; cbn in H.
  - injection H as <- <-. split; [repeat split|]. split; [reflexivity|]. intros [|k]; discriminate.
  - destruct (hdo dot nrm o h) as [[h1 r1]|] eqn:E; [|discriminate].
    destruct (hrun dot nrm os h1) as [[h2 l2]|] eqn:E2; [|discriminate]. injection H as <- <-.
    pose proof (hdo_bounds _ _ _ _ E) as SB. destruct SB as (S1 & S2 & S3 & S4).
    destruct (IH h1 h2 l2 E2) as (SB2 & LL & OUT); [congruence|congruence|].
    destruct (hdo_out _ _ _ _ E A B) as (O1 & O2 & O3).
    assert (W1 : (within (h_rmin h) (h_rmax h) (h_ratio h) -> within (h_rmin h) (h_rmax h) (h_ratio h1)) /\
                 (within (h_amin h) (h_amax h) (h_alpha h) -> within (h_amin h) (h_amax h) (h_alpha h1))).
    { split; intros X.
      - destruct o; auto; rewrite O2; auto.
      - destruct o; try (destruct O3 as (_ & ->); exact X); destruct O3 as (a & ->); destruct (O1 a eq_refl) as (Y & ->); exact Y. }
    split. { unfold same_bounds in *. destruct SB2 as (? & ? & ? & ?). repeat split; congruence. }
    split; [cbn; congruence|].
    intros [|k] o' hk r N1 N2; cbn in N1, N2.
    + injection N1 as <-. injection N2 as <- <-. split; [|split; [|exact W1]].
      * destruct o; try (apply O3); destruct O3 as (a & ->); exists a; split; auto; apply O1; auto.
      * destruct o; auto.
    + specialize (OUT k o' hk r N1 N2). rewrite S1, S2, S3, S4 in OUT. destruct OUT as (P1 & P2 & P3 & P4).
      split; [exact P1|]. split; [exact P2|]. destruct W1. split; auto.
Qed.
Lemma pass_out : forall it rv ob x g h base cv h' b' c' a, pass dot nrm it rv ob x g (h, base, cv) = Some (h', b', c', a) ->
  fle (h_amin h) (h_amax h) = true -> fle (h_rmin h) (h_rmax h) = true ->
  same_bounds h h' /\ within (h_amin h) (h_amax h) a /\ h_alpha h' = a /\
  (1 <= it -> within (h_rmin h) (h_rmax h) (h_ratio h')) /\ (it = 0 -> h_ratio h' = h_ratio h).
Proof.
  intros it rv ob x g h base cv h' b' c' a H A B. unfold pass in H. destruct it.
  - cbn in H. injection H as <- <- <- <-. split; [repeat split|]. split; [apply clamp_within; auto|]. split; [reflexivity|]. split; [lia|reflexivity].
  - destruct (update_hess_coeff dot x g rv h) as [h1|] eqn:E; [|discriminate]. cbn in H. injection H as <- <- <- <-.
    unfold update_hess_coeff in E. destruct (_ && _); [|discriminate]. injection E as <-. cbn.
    split; [repeat split|]. split; [apply clamp_within; auto|]. split; [reflexivity|]. split; [|lia]. intros _. apply clamp_within; auto.
Qed.
Lemma passes_out : forall l it h base cv r, passes dot nrm it l (h, base, cv) = Some r ->
  fle (h_amin h) (h_amax h) = true -> fle (h_rmin h) (h_rmax h) = true ->
  length r = length l /\
  forall k hk a, nth_error r k = Some (hk, a) -> within (h_amin h) (h_amax h) a /\ h_alpha hk = a /\
   (1 <= it + k -> within (h_rmin h) (h_rmax h) (h_ratio hk)) /\ (it + k = 0 -> h_ratio hk = h_ratio h).
Proof.
  induction l as [|[[[rv ob] x] g] l IH]; intros it h base cv r H A B; cbn [passes] in H.
  - injection H as <-. split; auto. intros [|k]; discriminate.
  - destruct (pass dot nrm it rv ob x g (h, base, cv)) as [[[[h1 b1] c1] a1]|] eqn:E; [|discriminate].
    destruct (passes dot nrm (S it) l (h1, b1, c1)) as [r2|] eqn:E2; [|discriminate]. injection H as <-.
    destruct (pass_out _ _ _ _ _ _ _ _ _ _ _ _ E A B) as ((S1 & S2 & S3 & S4) & P1 & P2 & P3 & P4).
    destruct (IH _ _ _ _ _ E2) as (LL & Q); [congruence|congruence|].
    split; [cbn [length]; congruence|]. intros [|k] hk a N; cbn in N.
    + injection N as <- <-. rewrite Nat.add_0_r. auto.
    + specialize (Q k hk a N). rewrite S1, S2, S3, S4 in Q. destruct Q as (Q1 & Q2 & Q3 & Q4).
      split; [exact Q1|]. split; [exact Q2|]. split; [intros; apply Q3; lia|intros; lia].
Qed.
End S.

(** the outer loop *)
Section O.
Variables (tol at_ : b64) (mx A : nat).
Hypothesis HA : 1 <= A.
(** the counter: [n] acceptable measures end at [it], and it is not more than that *)
Definition cnt (pre : list b64) (n : nat) : Prop :=
  n <= length pre /\ (forall j, length pre - n <= j -> j < length pre -> exists c, nth_error pre j = Some c /\ fle c at_ = true) /\
  (n < length pre -> exists c, nth_error pre (length pre - S n) = Some c /\ fle c at_ = false).
Lemma outer_spec : forall cs pre n, mx <= length pre + length cs -> length pre < mx -> cnt pre n -> n < A ->
  exists k, outer tol at_ mx A (length pre) n cs = Some (S k) /\ length pre <= k /\ stop_at tol at_ mx A (pre ++ cs) k /\
    forall j, length pre <= j -> j < k -> ~ stop_at tol at_ mx A (pre ++ cs) j.
Proof.
  induction cs as [|c cs IH]; intros pre n L P C NA; cbn [outer].
  - cbn in L. lia.
  - replace (mx <=? length pre) with false by (symmetry; apply Nat.leb_gt; lia).
    set (n' := if fle c at_ then S n else 0).
    assert (C' : cnt (pre ++ [c]) n').
    { destruct C as (C1 & C2 & C3). unfold cnt. rewrite app_length. cbn [length]. unfold n'. destruct (fle c at_) eqn:E.
      - split; [lia|]. split.
        + intros j J1 J2. destruct (Nat.eq_dec j (length pre)) as [->|].
          * exists c. rewrite nth_error_app2, Nat.sub_diag by lia. auto.
          * rewrite nth_error_app1 by lia. apply C2; lia.
        + intros X. replace (length pre + 1 - S (S n)) with (length pre - S n) by lia. rewrite nth_error_app1 by lia. apply C3. lia.
      - split; [lia|]. split; [intros; lia|]. intros _. exists c. replace (length pre + 1 - 1) with (length pre) by lia.
        rewrite nth_error_app2, Nat.sub_diag by lia. auto. }
    assert (NTH : nth_error (pre ++ c :: cs) (length pre) = Some c) by (rewrite nth_error_app2, Nat.sub_diag by lia; reflexivity).
    assert (ASS : pre ++ c :: cs = (pre ++ [c]) ++ cs) by (rewrite <- app_assoc; reflexivity).
    assert (LE : length (pre ++ [c]) = S (length pre)) by (rewrite app_length; cbn; lia).
    assert (NA' : n' <= A) by (unfold n'; destruct (fle c at_); lia).
    unfold stopping.
    destruct (flt c tol) eqn:E1; [|destruct (S (length pre) =? mx) eqn:E2; [|destruct (n' =? A) eqn:E3]].
    + exists (length pre). repeat split; auto; try lia. left. eauto.
    + apply Nat.eqb_eq in E2. exists (length pre). repeat split; auto; try lia. right; left; auto.
    + apply Nat.eqb_eq in E3. exists (length pre). repeat split; auto; try lia. right; right.
      destruct C' as (C1 & C2 & C3). rewrite LE in *. split; [lia|]. intros j J1 J2. rewrite ASS, nth_error_app1 by lia. apply C2; lia.
    + apply Nat.eqb_neq in E2, E3. destruct (IH (pre ++ [c]) n') as (k & K1 & K2 & K3 & K4); rewrite ?LE; auto; try (cbn in L; lia).
      rewrite LE in *. exists k. rewrite K1. split; auto. split; [lia|]. rewrite ASS. split; auto.
      intros j J1 J2. destruct (Nat.eq_dec j (length pre)) as [->|]; [|apply K4; lia].
      intros [(d & D1 & D2)|[D|(D1 & D2)]].
      * rewrite <- ASS, NTH in D1. injection D1 as <-. congruence.
      * congruence.
      * destruct C' as (C1 & C2 & C3). rewrite LE in *. destruct C3 as (d & D3 & D4); [lia|].
        destruct (D2 (length pre - n')) as (d' & D5 & D6); [lia|lia|].
        replace (S (length pre) - S n') with (length pre - n') in D3 by lia.
        rewrite nth_error_app1 in D5 by lia. congruence.
Qed.
End O.
