(** C40, continued: where the limits do not hold. *)
From Coq Require Import List Bool QArith Qabs Qminmax ZArith Lqa.
From Coq Require Import SpecFloat.
From Verif Require Import FloatBase VecModel VecSpec VecProofs.
Import ListNotations.
Open Scope Q_scope.

(** the constants of hiopIterate.cpp 427-428 (epsilon = 2^-52, pow(epsilon, 0.75) = 2^-39) and a value of mu *)
Definition f_eps : b64 := S754_finite false 4503599627370496 (-104).
Definition f_sf : b64 := S754_finite false 4503599627370496 (-91).
Definition f_mu : b64 := S754_finite false 7205759403792794 (-56).

(** A point outside its bound (a warm start is not moved into the bounds, see C70): for every violation [d] the
    slack is lifted as usual, but the bound moves by more than [d], however large, not by the documented
    relative amount. *)
Theorem C40_outside_refuted : forall d sf mu z eps : Q, 0 < d -> 0 < sf -> 0 < mu -> 0 < z -> 0 < eps ->
  let x := 1 - d in let b := 1 in let s := lower_slack1 Qar x b 1 in
  exists s', fst (adjust_small_all Qar eps sf mu [[@Slk Qar s b z 1]]) = [[s']] /\
    0 < s' /\ d < b - adjust_lower1 Qar b x s' 1.
Proof.
  intros d sf mu z eps Hd Hsf Hmu Hz He x b s.
  assert (Hs : s == - d).
  { unfold s, lower_slack1, x, b. cbn [Qar aeq azero aadd amul aopp aone]. cbn [Qeq_bool]. change (Qeq_bool 1 0) with false. cbn. ring. }
  assert (Hsmall : 0 < eps * Qmin 1 mu).
  { destruct (Q.min_spec 1 mu) as [[_ M]|[_ M]]; rewrite M; nra. }
  pose proof (slack_elem (eps * Qmin 1 mu) sf mu s b z 1 Hsmall Hsf (or_intror (Qeq_refl 1))) as HE.
  assert (H10 : 1 == 0 -> s == 0) by (intro H; discriminate H). specialize (HE H10).
  destruct (slack1 Qar (eps * Qmin 1 mu) sf mu s b z 1) as [s' c] eqn:E1.
  destruct HE as (C1 & _ & C2). assert (Hc : c = true) by (apply C1; split; [reflexivity|rewrite Hs; lra]).
  specialize (C2 Hc). exists s'. split.
  - unfold adjust_small_all. cbn [map]. unfold mpi_min. cbn [fold_left].
    unfold adjust_small.
    assert (L : min_w_pattern Qar [@Slk Qar s b z 1] <= s).
    { apply (proj2 (min_w_pattern_le [(s, b, z, 1)] (amaxv Qar)) s b z 1 (or_introl eq_refl)). reflexivity. }
    change (alt Qar (min_w_pattern Qar [@Slk Qar s b z 1]) (amul Qar eps (afmin Qar (aone Qar) mu)))
      with (Qltb (min_w_pattern Qar [@Slk Qar s b z 1]) (eps * Qmin 1 mu)).
    rewrite (proj2 (Qltb_true (min_w_pattern Qar [@Slk Qar s b z 1]) (eps * Qmin 1 mu))).
    2: { eapply Qle_lt_trans; [exact L|]. rewrite Hs. lra. }
    cbn [map fst k_s k_b k_z k_sel]. change (amul Qar eps (afmin Qar (aone Qar) mu)) with (eps * Qmin 1 mu).
    rewrite E1. reflexivity.
  - assert (Hp : 0 < s').
    { rewrite C2. apply Q.min_glb_lt.
      - apply Qlt_le_trans with (eps * Qmin 1 mu); [exact Hsmall|]. apply Q.le_max_r.
      - assert (0 <= Qmax 0 s) by apply Q.le_max_l. assert (1 <= Qmax 1 (Qabs b)) by apply Q.le_max_l. nra. }
    split; [exact Hp|]. unfold adjust_lower1. cbn [Qar aeq azero aadd amul aopp aone]. change (Qeq_bool 1 1) with true. cbn iota.
    unfold x, b. ring_simplify. lra.
Qed.
Print Assumptions C40_outside_refuted.
Example C40_outside_case :
  fst (adjust_small_all Qar (1 # 2 ^ 52) (1 # 2 ^ 39) (1 # 100) [[@Slk Qar (lower_slack1 Qar (1 - 7) 1 1) 1 1 1]]) = [[1 # 2 ^ 39]].
Proof. vm_compute. reflexivity. Qed.

(** A bound multiplier equal to zero (supplied by the user with a warm start): in binary64 the factor 0 of an
    entry that needs no adjustment meets mu/0, and a slack that is large enough becomes NaN as soon as some other
    slack is too small.  [eps], [mu] and the scale factor are those of the code with mu = 0.1. *)
Theorem C40_zero_multiplier_refuted :
  exists (l : list (slk Far)) v, In v l /\ k_sel v = f_one /\ k_s v = f_one /\ k_z v = f_zero /\
    exists s0 s1, fst (adjust_small_all Far f_eps f_sf f_mu [l]) = [[s0; s1]] /\ l = [nth 0 l v; v] /\
      is_nan s0 = false /\ is_nan s1 = true.
Proof.
  exists [@Slk Far f_zero f_one f_one f_one; @Slk Far f_one f_one f_zero f_one], (@Slk Far f_one f_one f_zero f_one).
  split; [right; left; reflexivity|]. split; [reflexivity|]. split; [reflexivity|]. split; [reflexivity|].
  eexists _, _. split; [vm_compute; reflexivity|]. split; [reflexivity|]. split; reflexivity.
Qed.
Print Assumptions C40_zero_multiplier_refuted.
