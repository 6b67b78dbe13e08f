(** C08 in binary64: the step lengths with rounding, overflow, infinities and NaN. *)
From Flocq Require Import Core BinarySingleNaN.
From Coq Require Import List Bool ZArith Reals.
From Verif Require Import FloatBase FloatFacts FloatBridge VecModel RegModel RegSpec FtbSpec FtbProofs.
Import ListNotations.

(** 1 - 2^-50 *)
Definition f_below_one : b64 := S754_finite false 9007199254740984 (-53).

(** for all stored vectors on all ranks, infinities and NaN included, both steps lie in [0,1], are
    at most the rounded step to the boundary of every bounded entry that has one, and are 1 or one
    of these rounded steps *)
Theorem C08_binary64 : forall tau ranks ap ad,
  posfin tau -> stored_ok (flat_map slack_vectors ranks ++ flat_map multiplier_vectors ranks) ->
  ftb_all Far f_10 tau ranks = Some (ap, ad) ->
  best_step tau (flat_map slack_vectors ranks) ap /\ best_step tau (flat_map multiplier_vectors ranks) ad.
Proof. exact all_best. Qed.
Print Assumptions C08_binary64.

(** with tau at most 1 - 2^-50 and no underflow the rounded steps keep every bounded slack and
    multiplier strictly positive, measured in exact arithmetic *)
Theorem C08_binary64_inside : forall tau ranks ap ad,
  posfin tau -> fle tau f_below_one = true ->
  stored_ok (flat_map slack_vectors ranks ++ flat_map multiplier_vectors ranks) ->
  ftb_all Far f_10 tau ranks = Some (ap, ad) ->
  forall L r, (L = flat_map slack_vectors ranks /\ r = ap) \/ (L = flat_map multiplier_vectors ranks /\ r = ad) ->
  forall x d p, entry_of L x d p -> feq p f_zero = false -> posfin x -> finite d = true ->
    (flt d f_zero = true -> no_underflow tau x d) -> strictly_inside x d r.
Proof.
  intros tau ranks ap ad Pt Ht Ok H L r HL x d p E Ep Px Fd Nu.
  destruct (all_best _ _ _ _ Pt Ok H) as [Ba Bb]. apply stored_app in Ok as [Os Om].
  destruct HL as [[-> ->]|[-> ->]].
  - apply (best_inside tau (flat_map slack_vectors ranks) ap Pt Ht Ba (best_valid _ _ _ Pt Os Ba) x d p E Ep Px (proj1 (proj2 (Os _ _ _ E))) Fd Nu).
  - apply (best_inside tau (flat_map multiplier_vectors ranks) ad Pt Ht Bb (best_valid _ _ _ Pt Om Bb) x d p E Ep Px (proj1 (proj2 (Om _ _ _ E))) Fd Nu).
Qed.
Print Assumptions C08_binary64_inside.

(** two ranks; one bounded slack moving to its bound on each, one entry NaN, one without bound *)
Definition ex_tau : b64 := S754_finite false 8917127262193582 (-53).
Definition ex_ranks : list (cone Far * cone Far * pats Far) :=
  [ (@Cone Far [fofZ 2; S754_nan] [] [] [] [f_one; f_one] [] [] [],
     @Cone Far [fofZ (-3); fofZ (-1)] [] [] [] [fofZ (-7); f_one] [] [] [],
     @Pats Far [f_one; f_one] [] [] []);
    (@Cone Far [f_one] [f_one] [] [] [f_one] [f_zero] [] [],
     @Cone Far [fofZ (-5)] [fofZ (-100)] [] [] [f_one] [f_zero] [] [],
     @Pats Far [f_one] [f_zero] [] []) ].
Lemma ex_stored : stored_ok (flat_map slack_vectors ex_ranks ++ flat_map multiplier_vectors ex_ranks).
Proof.
  intros x d p (xs & ds & ps & i & H & A & B & C). apply nth_error_In in A. apply nth_error_In in B.
  assert (HA : forall t, In t (flat_map slack_vectors ex_ranks ++ flat_map multiplier_vectors ex_ranks) ->
    forallb (fun x => vb x && (is_nan x || fle f_zero x && match x with S754_zero s => negb s | _ => true end)) (fst (fst t)) = true /\
    forallb vb (snd (fst t)) = true).
  { apply Forall_forall. repeat constructor. }
  destruct (HA _ H) as [H1 H2]. rewrite forallb_forall in H1, H2. specialize (H1 _ A). specialize (H2 _ B). cbn beta in H1.
  apply andb_prop in H1 as [H1 H3]. split; [exact H1|]. split; [exact H2|]. apply orb_prop in H3 as [H3|H3]; [left; exact H3|right].
  split; [exact H1|]. destruct x as [s|s| |s m e]; try discriminate; destruct s; try discriminate; reflexivity.
Qed.
Example C08_binary64_case : exists ap ad,
  ftb_all Far f_10 ex_tau ex_ranks = Some (ap, ad) /\
  ap = entry_step ex_tau f_one (fofZ (-5)) /\ ad = entry_step ex_tau f_one (fofZ (-7)) /\
  best_step ex_tau (flat_map slack_vectors ex_ranks) ap /\
  posfin ex_tau /\ fle ex_tau f_below_one = true /\ no_underflow ex_tau (fofZ 2) (fofZ (-3)) /\
  strictly_inside (fofZ 2) (fofZ (-3)) ap.
Proof.
  set (ap := entry_step ex_tau f_one (fofZ (-5))). set (ad := entry_step ex_tau f_one (fofZ (-7))).
  assert (H : ftb_all Far f_10 ex_tau ex_ranks = Some (ap, ad)) by (vm_compute; reflexivity).
  assert (Pt : posfin ex_tau) by (split; reflexivity). assert (T : fle ex_tau f_below_one = true) by reflexivity.
  assert (N : no_underflow ex_tau (fofZ 2) (fofZ (-3))) by (split; reflexivity).
  exists ap, ad. split; [exact H|]. do 2 (split; [reflexivity|]). split; [apply (C08_binary64 _ _ _ _ Pt ex_stored H)|].
  split; [exact Pt|]. split; [exact T|]. split; [exact N|].
  apply (C08_binary64_inside _ _ _ _ Pt T ex_stored H (flat_map slack_vectors ex_ranks) ap (or_introl (conj eq_refl eq_refl)) (fofZ 2) (fofZ (-3)) f_one);
    try reflexivity; try (split; reflexivity); auto.
  exists [fofZ 2; S754_nan], [fofZ (-3); fofZ (-1)], [f_one; f_one], 0%nat. repeat split. left. reflexivity.
Qed.

(** A NaN in the direction is ignored: the step is 1, and the new slack is NaN *)
Theorem C08_nan_direction_refuted : forall x, ftb_w_pattern Far [x] [S754_nan] ex_tau [f_one] = Some f_one /\ is_nan (fadd x (fmul f_one S754_nan)) = true.
Proof.
  intro x. split; [|destruct x; reflexivity]. cbn [ftb_w_pattern zip3 zip fold_left ftb_step]. change (ale Far (azero Far) S754_nan) with false.
  change (aeq Far f_one (azero Far)) with false. cbv iota. change (alt Far) with flt. change (adiv Far) with fdiv.
  generalize (amul Far (aopp Far ex_tau) x). intro y. destruct y; reflexivity.
Qed.
Print Assumptions C08_nan_direction_refuted.

(** When the quotient underflows, the rounded step leaves the interior: the exact new slack is negative *)
Theorem C08_underflow_refuted : exists x d tau r, posfin x /\ flt d f_zero = true /\ finite d = true /\ posfin tau /\ fle tau f_below_one = true /\
  ftb_w_pattern Far [x] [d] tau [f_one] = Some r /\ flt (fadd x (fmul r d)) f_zero = true.
Proof.
  exists (S754_finite false 7205759403792794 (-126)), (S754_finite true 4503599627370496 948), ex_tau, (S754_finite false 2 (-1074)).
  repeat split; vm_compute; reflexivity.
Qed.
Print Assumptions C08_underflow_refuted.
