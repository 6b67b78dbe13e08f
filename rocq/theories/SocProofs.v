From Coq Require Import List Bool Arith Lia Ring Field.
From Verif Require Import RingKit KktModel KktSpec KktProofs KktProofs4 SocModel SocSpec.
Import ListNotations.
Section P.
Variable K : cfield.
Add Field kf : (fth K).
Notation vec := (nat -> K).

Lemma prodl_app a b : prodl K (a ++ b) = prodl K a *! prodl K b.
Proof. induction a as [|x a IH]; cbn [app prodl]; [ring|]. rewrite IH. ring. Qed.
Lemma mix_snoc al rs a r : length rs = S (length al) -> mix K (al ++ [a]) (rs ++ [r]) = a *! mix K al rs +! r.
Proof.
  intro L. unfold mix. rewrite app_length. cbn [length]. rewrite Nat.add_1_r, sumn_S. f_equal.
  - rewrite <- sumn_scale. apply sumn_ext. intros j Hj. rewrite skipn_app. replace (j - length al) with 0 by lia. rewrite prodl_app. cbn [skipn prodl].
    rewrite app_nth1 by exact Hj. ring.
  - rewrite skipn_all2 by (rewrite app_length; cbn; lia). rewrite app_nth2, Nat.sub_diag by lia. cbn. ring.
Qed.
Lemma mix_one r : mix K [] [r] = r.
Proof. unfold mix. cbn. ring. Qed.

Lemma update_soc_ok P v it cs ds cs' ds' old : matches K P old -> (forall i, cs i = cs' i) -> (forall i, ds i = ds' i) ->
  kkt_violation K P (corrected K v it cs' ds') it (update_soc K P v it cs ds old).
Proof.
  intros M Ec Ed. destruct (resid_update_ok K P (corrected K v it cs' ds') it old M) as (A & B & C & D & E & F & G & H).
  split; [exact A|]. split; [exact B|]. split; [|split; [|split; [exact E|split; [exact F|split; [exact G|exact H]]]]].
  - intros i Hi. unfold update_soc, corrected. cbn [r_yc v_c v_crhs]. rewrite Ec. ring.
  - intros i Hi. unfold update_soc, corrected. cbn [r_yd v_d]. rewrite Ed. ring.
Qed.
Lemma corrected_ext P v it c1 d1 c2 d2 r : (forall i, c1 i = c2 i) -> (forall i, d1 i = d2 i) ->
  kkt_violation K P (corrected K v it c1 d1) it r -> kkt_violation K P (corrected K v it c2 d2) it r.
Proof.
  intros Ec Ed (A & B & C & D & E & F & G & H).
  split; [exact A|]. split; [exact B|]. split; [|split; [|split; [exact E|split; [exact F|split; [exact G|exact H]]]]].
  - intros i Hi. specialize (C i Hi). cbn [corrected v_c v_crhs] in *. rewrite <- Ec. exact C.
  - intros i Hi. specialize (D i Hi). cbn [corrected v_d] in *. rewrite <- Ed. exact D.
Qed.
Lemma infeas_matches P v it c d old : matches K P old -> matches K P (infeas_resid K P v it c d old).
Proof.
  intros (M1 & M2). split; intros i H; split; intros E; unfold infeas_resid; cbn [r_xl r_xu r_dl r_du r_szl r_szu r_svl r_svu]; unfold select.
  - split; [|apply (proj1 (M1 i H) E)]. destruct (0 <? count (nx P) (ixl P)); [|apply (proj1 (M1 i H) E)].
    destruct (count (nx P) (ixl P) <? nx P) eqn:C; [rewrite E; reflexivity|]. rewrite (count_all _ _ _ C H) in E. discriminate.
  - split; [|apply (proj2 (M1 i H) E)]. destruct (0 <? count (nx P) (ixu P)); [|apply (proj2 (M1 i H) E)].
    destruct (count (nx P) (ixu P) <? nx P) eqn:C; [rewrite E; reflexivity|]. rewrite (count_all _ _ _ C H) in E. discriminate.
  - split; [|apply (proj1 (M2 i H) E)]. destruct (0 <? count (ni P) (idl P)); [rewrite E; reflexivity|apply (proj1 (M2 i H) E)].
  - split; [|apply (proj2 (M2 i H) E)]. destruct (0 <? count (ni P) (idu P)); [rewrite E; reflexivity|apply (proj2 (M2 i H) E)].
Qed.

Section Loop.
Variable O : oracle K. Variable P : prob K. Variable v : nlpvals K. Variable it : iter K.
(** what is known of every correction *)
Definition good_corr (q : corr K) : Prop :=
  q_alpha q = o_step O (q_w q) /\ o_eval O (w_x (q_it q)) = Some (q_c q, q_d q) /\ exists t, q_it q = o_slacks O (take_step K it (q_w q) t (q_alpha q)).

Lemma loop_ok left : forall n s e h al (rc rd : nat -> list K), matches K P (s_res s) ->
  (forall i, length (rc i) = S (length al)) -> (forall i, length (rd i) = S (length al)) ->
  (forall i, s_c s i = mix K al (rc i)) -> (forall i, s_d s i = mix K al (rd i)) ->
  soc_loop K O P v it left n s = (e, h) ->
  length h <= left /\ (e = Accepted -> h <> []) /\
  forall k q, nth_error h k = Some q -> good_corr q /\ exists r, o_dirs O r = Some (q_w q) /\
    kkt_violation K P (corrected K v it
      (fun i => mix K (al ++ s_alpha s :: map q_alpha (firstn k h)) (rc i ++ (v_crhs v i -! s_ct s i) :: map (fun q => v_crhs v i -! q_c q i) (firstn k h)))
      (fun i => mix K (al ++ s_alpha s :: map q_alpha (firstn k h)) (rd i ++ (w_d (s_it s) i -! s_dt s i) :: map (fun q => w_d (q_it q) i -! q_d q i) (firstn k h)))) it r.
Proof.
  induction left as [|left IH]; intros n s e h al rc rd M Lc Ld Ec Ed E; cbn [soc_loop] in E.
  - injection E as <- <-. split; [cbn; lia|]. split; [discriminate|]. intros k q H. destruct k; discriminate.
  - destruct ((n =? 0) || o_more O n); [|injection E as <- <-; split; [cbn; lia|]; split; [discriminate|]; intros k q H; destruct k; discriminate].
    set (cs := fun i => s_alpha s *! s_c s i +! v_crhs v i -! s_ct s i) in *.
    set (ds := fun i => s_alpha s *! s_d s i +! w_d (s_it s) i -! s_dt s i) in *.
    set (r := update_soc K P v it cs ds (s_res s)) in *.
    assert (Fc : forall i, cs i = mix K (al ++ [s_alpha s]) (rc i ++ [v_crhs v i -! s_ct s i])) by (intro i; unfold cs; rewrite mix_snoc by apply Lc; rewrite Ec; ring).
    assert (Fd : forall i, ds i = mix K (al ++ [s_alpha s]) (rd i ++ [w_d (s_it s) i -! s_dt s i])) by (intro i; unfold ds; rewrite mix_snoc by apply Ld; rewrite Ed; ring).
    destruct (o_dirs O r) as [w|] eqn:EW; [|injection E as <- <-; split; [cbn; lia|]; split; [discriminate|]; intros k q H; destruct k; discriminate].
    set (tr := o_slacks O (take_step K it w (s_it s) (o_step O w))) in *.
    destruct (o_eval O (w_x tr)) as [[ct dt]|] eqn:EE; [|injection E as <- <-; split; [cbn; lia|]; split; [discriminate|]; intros k q H; destruct k; discriminate].
    set (q0 := Corr K w (o_step O w) tr ct dt) in *.
    assert (G0 : good_corr q0) by (split; [reflexivity|]; split; [exact EE|]; exists (s_it s); reflexivity).
    assert (H0 : exists r, o_dirs O r = Some (q_w q0) /\ kkt_violation K P (corrected K v it
      (fun i => mix K (al ++ [s_alpha s]) (rc i ++ [v_crhs v i -! s_ct s i])) (fun i => mix K (al ++ [s_alpha s]) (rd i ++ [w_d (s_it s) i -! s_dt s i]))) it r).
    { exists r. split; [exact EW|]. apply update_soc_ok; assumption. }
    destruct (o_good O n).
    + injection E as <- <-. split; [cbn; lia|]. split; [discriminate|]. intros k q H. destruct k as [|k]; [|destruct k; discriminate].
      injection H as <-. split; [exact G0|]. exact H0.
    + destruct (soc_loop K O P v it left (S n) _) as [e' h'] eqn:EL. injection E as <- <-.
      assert (M' : matches K P (infeas_resid K P v tr ct dt r)) by (apply infeas_matches; eapply violation_matches; apply (update_soc_ok P v it cs ds cs ds); auto).
      destruct (IH (S n) (Sst K cs ds (o_step O w) tr ct dt (infeas_resid K P v tr ct dt r)) e' h' (al ++ [s_alpha s])
                  (fun i => rc i ++ [v_crhs v i -! s_ct s i]) (fun i => rd i ++ [w_d (s_it s) i -! s_dt s i]) M') as (L1 & L2 & L3).
      * intro i. rewrite !app_length, Lc. cbn. lia.
      * intro i. rewrite !app_length, Ld. cbn. lia.
      * exact Fc.
      * exact Fd.
      * exact EL.
      * split; [cbn; lia|]. split; [discriminate|]. intros k q H. destruct k as [|k]; [injection H as <-; split; [exact G0|exact H0]|].
        cbn in H. destruct (L3 k q H) as (G & r' & R1 & R2). split; [exact G|]. exists r'. split; [exact R1|].
        cbn [s_alpha s_ct s_it s_dt] in R2. cbn [firstn map].
        refine (corrected_ext P v it _ _ _ _ r' _ _ R2); intro i; rewrite <- !app_assoc; reflexivity.
Qed.

(** affine constraints *)
Variable bc bd : vec. Variable e : deltas K.
Hypothesis Hx : keeps_xd K (o_slacks O).
Hypothesis Hs : forall r w, o_dirs O r = Some w -> newton K P it e r w.
Hypothesis He : (forall i, i < neq P -> e_cc e i = f0) /\ (forall i, i < ni P -> e_cd e i = f0).
Hypothesis Ha : forall x c d, o_eval O x = Some (c, d) -> affine_at K P bc bd x c d.
Hypothesis H0 : affine_at K P bc bd (w_x it) (v_c v) (v_d v).

Lemma sumn_lin n (A x w : nat -> K) a : sumn n (fun j => A j *! (x j +! a *! w j)) = sumn n (fun j => A j *! x j) +! a *! sumn n (fun j => A j *! w j).
Proof. rewrite <- sumn_scale, <- sumn_add. apply sumn_ext. intros j _. ring. Qed.
Definition shrunk (a : K) (t : iter K) (c d : vec) : Prop :=
  (forall i, i < neq P -> v_crhs v i -! c i = (f1 -! a) *! (v_crhs v i -! v_c v i)) /\
  (forall i, i < ni P -> w_d t i -! d i = (f1 -! a) *! (w_d it i -! v_d v i)).
Lemma shrunk_step r w a t c d : kkt_violation K P v it r -> newton K P it e r w -> (forall i, w_x t i = w_x it i +! a *! w_x w i) ->
  (forall i, w_d t i = w_d it i +! a *! w_d w i) -> affine_at K P bc bd (w_x t) c d -> shrunk a t c d.
Proof.
  intros (_ & _ & Vc & Vd & _) (_ & _ & Nc & Nd & _) Tx Td (Ac & Ad). destruct H0 as (Bc & Bd). destruct He as (Ec & Ed). split; intros i Hi.
  - rewrite (Ac i Hi). rewrite (sumn_ext _ (nx P) _ (fun j => p_Jc P i j *! (w_x it j +! a *! w_x w j))) by (intros j _; rewrite Tx; reflexivity).
    rewrite sumn_lin. specialize (Nc i Hi). specialize (Vc i Hi). rewrite (Ec i Hi) in Nc. specialize (Bc i Hi).
    set (S1 := sumn (nx P) (fun j => p_Jc P i j *! w_x it j)) in *. set (S2 := sumn (nx P) (fun j => p_Jc P i j *! w_x w j)) in *.
    assert (E2 : S2 = v_crhs v i -! v_c v i). { replace S2 with (S2 -! f0 *! w_yc w i) by ring. rewrite Nc. replace (r_yc r i) with (r_yc r i +! (v_c v i -! v_crhs v i) +! (v_crhs v i -! v_c v i)) by ring. rewrite Vc. ring. }
    rewrite E2, Bc. ring.
  - rewrite Td, (Ad i Hi). rewrite (sumn_ext _ (nx P) _ (fun j => p_Jd P i j *! (w_x it j +! a *! w_x w j))) by (intros j _; rewrite Tx; reflexivity).
    rewrite sumn_lin. specialize (Nd i Hi). specialize (Vd i Hi). rewrite (Ed i Hi) in Nd. specialize (Bd i Hi).
    set (S1 := sumn (nx P) (fun j => p_Jd P i j *! w_x it j)) in *. set (S2 := sumn (nx P) (fun j => p_Jd P i j *! w_x w j)) in *.
    assert (E2 : S2 = w_d w i +! (w_d it i -! v_d v i)). { replace S2 with ((S2 -! w_d w i -! f0 *! w_yd w i) +! w_d w i) by ring. rewrite Nd. replace (r_yd r i) with (r_yd r i +! (v_d v i -! w_d it i) +! (w_d it i -! v_d v i)) by ring. rewrite Vd. ring. }
    rewrite E2, Bd. ring.
Qed.
Lemma loop_affine left : forall n s o h, matches K P (s_res s) ->
  (forall i, i < neq P -> s_c s i = v_crhs v i -! v_c v i) -> (forall i, i < ni P -> s_d s i = w_d it i -! v_d v i) ->
  shrunk (s_alpha s) (s_it s) (s_ct s) (s_dt s) ->
  soc_loop K O P v it left n s = (o, h) ->
  forall q, In q h -> exists r, o_dirs O r = Some (q_w q) /\ kkt_violation K P v it r.
Proof.
  induction left as [|left IH]; intros n s o h M Ec Ed (Sc & Sd) E; cbn [soc_loop] in E.
  - injection E as <- <-. intros q [].
  - destruct ((n =? 0) || o_more O n); [|injection E as <- <-; intros q []].
    set (cs := fun i => s_alpha s *! s_c s i +! v_crhs v i -! s_ct s i) in *.
    set (ds := fun i => s_alpha s *! s_d s i +! w_d (s_it s) i -! s_dt s i) in *.
    set (r := update_soc K P v it cs ds (s_res s)) in *.
    assert (Fc : forall i, i < neq P -> cs i = v_crhs v i -! v_c v i).
    { intros i Hi. unfold cs. rewrite (Ec i Hi). replace (s_alpha s *! (v_crhs v i -! v_c v i) +! v_crhs v i -! s_ct s i) with (s_alpha s *! (v_crhs v i -! v_c v i) +! (v_crhs v i -! s_ct s i)) by ring. rewrite (Sc i Hi). ring. }
    assert (Fd : forall i, i < ni P -> ds i = w_d it i -! v_d v i).
    { intros i Hi. unfold ds. rewrite (Ed i Hi). replace (s_alpha s *! (w_d it i -! v_d v i) +! w_d (s_it s) i -! s_dt s i) with (s_alpha s *! (w_d it i -! v_d v i) +! (w_d (s_it s) i -! s_dt s i)) by ring. rewrite (Sd i Hi). ring. }
    assert (V : kkt_violation K P v it r).
    { destruct (update_soc_ok P v it cs ds cs ds (s_res s) M) as (A & B & _ & _ & E1 & E2 & E3 & E4); auto.
      split; [exact A|]. split; [exact B|]. split; [|split; [|split; [exact E1|split; [exact E2|split; [exact E3|exact E4]]]]].
      - intros i Hi. unfold r, update_soc. cbn [r_yc]. rewrite (Fc i Hi). ring.
      - intros i Hi. unfold r, update_soc. cbn [r_yd]. rewrite (Fd i Hi). ring. }
    destruct (o_dirs O r) as [w|] eqn:EW; [|injection E as <- <-; intros q []].
    set (tr := o_slacks O (take_step K it w (s_it s) (o_step O w))) in *.
    destruct (o_eval O (w_x tr)) as [[ct dt]|] eqn:EE; [|injection E as <- <-; intros q []].
    destruct (o_good O n).
    + injection E as <- <-. intros q [<-|[]]. exists r. auto.
    + destruct (soc_loop K O P v it left (S n) _) as [e' h'] eqn:EL. injection E as <- <-. intros q [<-|Hq]; [exists r; auto|].
      refine (IH (S n) _ e' h' _ _ _ _ EL q Hq); cbn [s_res s_c s_d s_alpha s_it s_ct s_dt].
      * apply infeas_matches. exact (violation_matches K P v it r V).
      * exact Fc.
      * exact Fd.
      * destruct (Hx (take_step K it w (s_it s) (o_step O w))) as [X1 X2].
        apply (shrunk_step r w); [exact V|apply Hs, EW| | |apply Ha, EE].
        -- intro i. unfold tr. rewrite X1. reflexivity.
        -- intro i. unfold tr. rewrite X2. reflexivity.
Qed.
End Loop.
(** the constraint rows of a Newton direction for replaced violations *)
Lemma rows_ok P v it e cs ds r w : (forall i, i < neq P -> e_cc e i = f0) -> (forall i, i < ni P -> e_cd e i = f0) ->
  kkt_violation K P (corrected K v it cs ds) it r -> newton K P it e r w ->
  (forall i, i < neq P -> sumn (nx P) (fun j => p_Jc P i j *! w_x w j) = cs i) /\
  (forall i, i < ni P -> sumn (nx P) (fun j => p_Jd P i j *! w_x w j) -! w_d w i = ds i).
Proof.
  intros Ec Ed (_ & _ & Vc & Vd & _) (_ & _ & Nc & Nd & _). cbn [corrected v_c v_d v_crhs] in Vc, Vd. split; intros i Hi.
  - specialize (Nc i Hi). specialize (Vc i Hi). rewrite (Ec i Hi) in Nc. set (S := sumn _ _) in *.
    replace S with (S -! f0 *! w_yc w i) by ring. rewrite Nc. replace (r_yc r i) with (r_yc r i +! (v_crhs v i -! cs i -! v_crhs v i) +! cs i) by ring. rewrite Vc. ring.
  - specialize (Nd i Hi). specialize (Vd i Hi). rewrite (Ed i Hi) in Nd. set (S := sumn _ _) in *.
    replace (S -! w_d w i) with (S -! w_d w i -! f0 *! w_yd w i) by ring. rewrite Nd. replace (r_yd r i) with (r_yd r i +! (w_d it i -! ds i -! w_d it i) +! ds i) by ring. rewrite Vd. ring.
Qed.
End P.
