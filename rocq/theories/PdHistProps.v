(** C73 and C31 in binary64: what the convergence measures of the primal decomposition are computed from. *)
From Coq Require Import List Bool Arith ZArith Lia.
From Verif Require Import FloatBase PdAlgModel PdAlgSpec PdProps PdHistModel PdHistSpec PdHistProofs.
Import ListNotations.

(** C73 in binary64, for all dot products and norms, problem data and option values: in every iteration of a run but the
    first the measure is the smaller of the two measures formed from this and the previous iteration, the base value is the
    master's objective less the prediction with the previous coefficient.  Missing: that the measure uses the coefficient the
    step was made with (it uses the new one, a'), see [C73_false_convergence_refuted]. *)
Theorem C73_binary64_partial : forall dot nrm n ratio amin amax tol atol base0 mx A ps k tr,
  run_hist dot nrm n ratio amin amax tol atol base0 mx A ps = Some (k, tr) ->
  length tr = k /\ k <= length ps /\
  (forall a b c, nth_error tr 0 = Some (a, b, c) -> b = base0 /\ c = f_1e20) /\
  forall j p q, S j < k -> nth_error ps j = Some p -> nth_error ps (S j) = Some q ->
  exists a b c a' b', nth_error tr j = Some (a, b, c) /\
    nth_error tr (S j) = Some (a', b', lesser (fcn_measure dot nrm a' b b' p q) (grad_measure nrm a' p q)) /\
    b' = fsub (mas_obj q) (prediction dot nrm a p q).
Proof.
  intros dot nrm n ratio amin amax tol atol base0 mx A ps k tr. unfold run_hist.
  destruct (traced _ _ _ _ _) as [t|] eqn:T; [|discriminate]. destruct (outer _ _ _ _ _ _ _) as [k'|] eqn:O; [|discriminate].
  intros [= <- <-]. pose proof (outer_len _ _ _ _ _ _ _ _ O) as (_ & L). rewrite map_length in L. pose proof (traced_length dot nrm _ _ _ _ T) as TL.
  split; [rewrite firstn_length; lia|]. split; [lia|].
  assert (FN : forall j, j < k' -> nth_error (firstn k' t) j = nth_error t j).
  { clear. revert t. induction k' as [|k IH]; intros t j H; [lia|]. destruct t as [|x t]; [destruct j; reflexivity|]. destruct j as [|j]; [reflexivity|]. cbn [firstn nth_error]. apply IH. lia. }
  split.
  - intros a b c. destruct k' as [|k']; [destruct t; discriminate|]. destruct t as [|x t]; [discriminate|]. cbn. intros [= ->].
    destruct ps as [|[[[f o] y] g] ps]; [discriminate|]. cbn [traced] in T. cbn [pass] in T.
    destruct (get_alpha_f _ _ _) as [h1 a1]. destruct (traced _ _ _ ps _); [|discriminate]. injection T as E1 E2 E3 _. auto.
  - intros j p q Hj Ep Eq. destruct (traced_pairs dot nrm ps _ _ t T j p q Ep Eq) as (a & b & c & a' & b' & c' & N1 & N2 & Eb & Ec).
    exists a, b, c, a', b'. rewrite (FN j) by lia. rewrite (FN (S j)) by lia. rewrite N1, N2, Ec. auto.
Qed.
Print Assumptions C73_binary64_partial.

(** the Barzilai-Borwein coefficient: after any history whose last two points are (x,g) and (x',g') it is the clamped quotient of
    the products of their differences *)
Theorem C31_BB_partial : forall dot nrm h0 pre mid post first x g x' g' f' h l,
  forallb silent mid = true -> forallb silent post = true ->
  (exists f, first = OInit f x g \/ first = OUpdate x g f) ->
  hrun dot nrm (pre ++ first :: mid ++ OUpdate x' g' f' :: post ++ [OBB]) h0 = Some (h, l) ->
  exists l' hk, l = l' ++ [(hk, Some (let s := minus x' x in let y := minus g' g in
    stdmin (h_amax h0) (stdmax (h_amin h0) (fdiv (dot s y) (dot s s)))))].
Proof.
  intros dot nrm h0 pre mid post first x g x' g' f' h l Sm Sp Hf E.
  assert (KB : forall os h1 h2 l1, hrun dot nrm os h1 = Some (h2, l1) -> h_amin h2 = h_amin h1 /\ h_amax h2 = h_amax h1).
  { clear. induction os as [|o os IH]; intros h1 h2 l1; cbn [hrun]; [intros [= <- <-]; auto|].
    destruct o; cbn [hdo get_alpha_BB get_alpha_f get_alpha_tr]; cbv zeta; try (unfold update_hess_coeff; destruct (_ && _); [|discriminate]);
      (destruct (hrun dot nrm os _) as [[h3 l3]|] eqn:R; [|discriminate]); intros [= <- <-]; destruct (IH _ _ _ R) as (-> & ->); split; reflexivity. }
  destruct (hrun_app _ _ _ _ _ _ _ E) as (h1 & l1 & l2 & E1 & E2 & ->). destruct (KB _ _ _ _ E1) as (M1 & X1).
  cbn [hrun] in E2.
  assert (Hh : exists h2, (match hdo dot nrm first h1 with Some (a, b) => Some (a, b) | None => None end) = Some (h2, None) /\ h_xkm1 h2 = x /\ h_gkm1 h2 = g /\ h_amin h2 = h_amin h1 /\ h_amax h2 = h_amax h1).
  { destruct Hf as (f & [-> | ->]); cbn [hdo] in *.
    - eexists. repeat split.
    - unfold update_hess_coeff in *. destruct (_ && _); [|discriminate]. eexists. repeat split. }
  destruct Hh as (h2 & Eh & X2 & G2 & M2 & XX2). destruct (hdo dot nrm first h1) as [[a b]|]; [|discriminate]. injection Eh as -> ->.
  destruct (hrun dot nrm (mid ++ _) h2) as [[h3 l3]|] eqn:E3; [|discriminate]. injection E2 as <- <-.
  destruct (hrun_app _ _ _ _ _ _ _ E3) as (h4 & l4 & l5 & E4 & E5 & ->). destruct (silent_keeps dot nrm mid Sm _ _ _ E4) as (X4 & G4 & _ & _ & M4 & XX4).
  cbn [hrun hdo] in E5. unfold update_hess_coeff in E5. destruct (_ && _); [|discriminate]. rewrite X4, G4, X2, G2 in E5. clear X4 G4 X2 G2.
  destruct (hrun dot nrm (post ++ [OBB]) _) as [[h6 l6]|] eqn:E6; [|discriminate]. injection E5 as <- <-.
  destruct (hrun_app _ _ _ _ _ _ _ E6) as (h7 & l7 & l8 & E7 & E8 & ->). destruct (silent_keeps dot nrm post Sp _ _ _ E7) as (_ & _ & S7 & Y7 & M7 & XX7).
  cbn [h_skm1 h_ykm1 h_amin h_amax] in S7, Y7, M7, XX7. cbn in E8. injection E8 as <- <-.
  eexists (l1 ++ (h2, None) :: l4 ++ (_, None) :: l7), _. rewrite <- !app_assoc. cbn [app]. rewrite <- !app_assoc. cbn [app].
  unfold clamp_alpha. rewrite S7, Y7, M7, XX7, M4, XX4, M2, XX2, M1, X1. reflexivity.
Qed.
Print Assumptions C31_BB_partial.

(** three iterations; the measures are below their initial value from the second on *)
Definition ex_hs : list iteration := [(f_one, f_two, [f_one], [f_two]); (f_half, f_two, [f_two], [f_one]); (f_quarter, f_one, [f_five], [f_half])].
Example C73_binary64_partial_case : exists k tr, run_hist ex_dot ex_nrm 1 f_one f_em5 f_1e6 f_em5 f_em5 f_one 3 10 ex_hs = Some (k, tr) /\ k = 3 /\
  map (fun e => flt (snd e) f_1e20) tr = [false; true; true] /\ map (fun e => fst (fst e)) tr = [f_two; f_34; f_half].
Proof. eexists. eexists. split; [vm_compute; reflexivity|]. split; [reflexivity|]. split; vm_compute; reflexivity. Qed.
Example C31_BB_partial_case : exists h l, hrun ex_dot ex_nrm ([] ++ OInit f_one [f_one] [f_two] :: [OF [f_two]] ++ OUpdate [f_five] [fofZ 8] f_half :: [ORatio f_one f_two] ++ [OBB]) (ha_new 1 f_one) = Some (h, l) /\
  nth_error (map snd l) 4 = Some (Some (fdiv (fofZ 24) (fofZ 16))).
Proof. eexists. eexists. split; [vm_compute; reflexivity|vm_compute; reflexivity]. Qed.
