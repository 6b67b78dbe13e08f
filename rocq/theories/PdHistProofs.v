(** Proofs about the convergence measures of the primal decomposition. *)
From Coq Require Import List Bool Arith Lia.
From Verif Require Import FloatBase PdAlgModel PdHistModel PdHistSpec.
Import ListNotations.

Section P.
Variables (dot : list b64 -> list b64 -> b64) (nrm : list b64 -> b64).
(** the approximation after iteration p with coefficient a *)
Definition after (p : iteration) (a : b64) (h : ha) : Prop :=
  h_fk h = rec_val p /\ h_xkm1 h = point p /\ h_gkm1 h = grad p /\ h_alpha h = a.

Lemma pass_after it p h b c h' b' c' a : pass dot nrm it (rec_val p) (mas_obj p) (point p) (grad p) (h, b, c) = Some (h', b', c', a) -> after p a h'.
Proof.
  unfold pass, after. destruct it as [|it].
  - cbn. intros [= <- <- <- <-]. repeat split.
  - unfold update_hess_coeff. destruct (_ && _); [|discriminate]. cbn. intros [= <- <- <- <-]. repeat split.
Qed.
Lemma combine_map {A B C} (f : A -> B) (l : list A) (r : list C) : combine (map f l) r = map (fun e => (f (fst e), snd e)) (combine l r).
Proof. revert r. induction l as [|x l IH]; intros [|y r]; cbn; [reflexivity..|]. rewrite IH. reflexivity. Qed.
Lemma pass_step it p q h a b c h' b' c' a' : after p a h ->
  pass dot nrm (S it) (rec_val q) (mas_obj q) (point q) (grad q) (h, b, c) = Some (h', b', c', a') ->
  b' = fsub (mas_obj q) (prediction dot nrm a p q) /\
  c' = lesser (fcn_measure dot nrm a' b b' p q) (grad_measure nrm a' p q).
Proof.
  intros (F & X & G & A). unfold pass. unfold update_hess_coeff. destruct (_ && _); [|discriminate]. cbn.
  intros [= <- <- <- <-]. split.
  - unfold compute_base, predicted, prediction, slope, curv. cbn. rewrite F, X, G, A. reflexivity.
  - unfold convergence_fcn, convergence_grad, fcn_measure, grad_measure, slope, curv. cbn. rewrite X, G. rewrite combine_map, map_map. reflexivity.
Qed.
Lemma traced_length l : forall it s tr, traced dot nrm it l s = Some tr -> length tr = length l.
Proof.
  induction l as [|[[[f o] x] g] l IH]; intros it s tr; cbn [traced]; [intros [= <-]; reflexivity|].
  destruct (pass _ _ _ _ _ _ _ _) as [[[[h b] c] a]|]; [|discriminate].
  destruct (traced _ _ _ _ _) eqn:E; [|discriminate]. intros [= <-]. cbn. f_equal. exact (IH _ _ _ E).
Qed.
Lemma traced_pairs l : forall it s tr, traced dot nrm it l s = Some tr -> forall k p q, nth_error l k = Some p -> nth_error l (S k) = Some q ->
  exists a b c a' b' c', nth_error tr k = Some (a, b, c) /\ nth_error tr (S k) = Some (a', b', c') /\
    b' = fsub (mas_obj q) (prediction dot nrm a p q) /\ c' = lesser (fcn_measure dot nrm a' b b' p q) (grad_measure nrm a' p q).
Proof.
  induction l as [|[[[f o] x] g] l IH]; intros it s tr T k p q Ep Eq; [destruct k; discriminate|].
  cbn [traced] in T. destruct s as [[h0 b0] c0].
  destruct (pass dot nrm it f o x g (h0, b0, c0)) as [[[[h b] c] a]|] eqn:E1; [|discriminate].
  destruct (traced _ _ _ l _) as [r|] eqn:E2; [|discriminate]. injection T as <-.
  destruct k as [|k].
  - cbn in Ep, Eq. injection Ep as <-. pose proof (pass_after it (f, o, x, g) h0 b0 c0 h b c a E1) as AF.
    destruct l as [|[[[f' o'] x'] g'] l]; [discriminate|]. cbn in Eq. injection Eq as <-. cbn [traced] in E2.
    destruct (pass dot nrm (S it) f' o' x' g' (h, b, c)) as [[[[h' b'] c'] a']|] eqn:E3; [|discriminate].
    destruct (traced _ _ _ l _) as [r'|]; [|discriminate]. injection E2 as <-.
    destruct (pass_step it (f, o, x, g) (f', o', x', g') h a b c h' b' c' a' AF E3) as (Hb & Hc).
    exists a, b, c, a', b', c'. repeat split; assumption.
  - cbn [nth_error] in *. exact (IH _ _ _ E2 k p q Ep Eq).
Qed.

(** the points of the calls *)
Definition silent (o : hop) : bool := match o with OInit _ _ _ | OUpdate _ _ _ => false | _ => true end.
Lemma hrun_app os1 : forall os2 h h' l, hrun dot nrm (os1 ++ os2) h = Some (h', l) ->
  exists h1 l1 l2, hrun dot nrm os1 h = Some (h1, l1) /\ hrun dot nrm os2 h1 = Some (h', l2) /\ l = l1 ++ l2.
Proof.
  induction os1 as [|o os1 IH]; intros os2 h h' l; cbn [app hrun].
  - intros E. exists h, [], l. repeat split. exact E.
  - destruct (hdo dot nrm o h) as [[h1 r]|]; [|discriminate]. destruct (hrun dot nrm (os1 ++ os2) h1) as [[h2 l2]|] eqn:E; [|discriminate].
    intros [= <- <-]. destruct (IH _ _ _ _ E) as (h3 & l3 & l4 & -> & E4 & ->). exists h3, ((h1, r) :: l3), l4. repeat split. exact E4.
Qed.
Lemma silent_keeps os : forallb silent os = true -> forall h h' l, hrun dot nrm os h = Some (h', l) ->
  h_xkm1 h' = h_xkm1 h /\ h_gkm1 h' = h_gkm1 h /\ h_skm1 h' = h_skm1 h /\ h_ykm1 h' = h_ykm1 h /\ h_amin h' = h_amin h /\ h_amax h' = h_amax h.
Proof.
  induction os as [|o os IH]; intros S h h' l; cbn [hrun].
  - intros [= <- <-]. repeat split.
  - cbn [forallb] in S. apply andb_prop in S. destruct S as (So & S).
    destruct o; try discriminate So; cbn [hdo get_alpha_BB get_alpha_f get_alpha_tr]; cbv zeta; (destruct (hrun dot nrm os _) as [[h2 l2]|] eqn:E; [|discriminate]); intros [= <- <-];
      destruct (IH S _ _ _ E) as (-> & -> & -> & -> & -> & ->); repeat split.
Qed.
End P.
Lemma outer_len tol atol mx A : forall cs it acc k, outer tol atol mx A it acc cs = Some k -> it <= k /\ k - it <= length cs.
Proof.
  induction cs as [|c cs IH]; intros it acc k; cbn [outer]; destruct (Nat.leb mx it).
  - intros [= <-]. cbn. lia.
  - discriminate.
  - intros [= <-]. cbn. lia.
  - destruct (stopping _ _ _ _ _ _); [intros [= <-]; cbn [length]; lia|]. intros E. apply IH in E. cbn [length]. lia.
Qed.
