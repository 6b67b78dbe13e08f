(** The full sparse system, continued: the assembled matrix and the solve. *)
From Coq Require Import List Bool Arith Lia Ring Field Sorted.
From Verif Require Import RingKit.
From Verif Require Import PackModel SparseModel SparseSpec SparseProofs SparseProofs3.
From Verif Require Import KktModel KktModel2 KktSpec KktProofs KktProofs2 KktProofs3 KktProofs6 KktProofs7 KktProofs8.
Import ListNotations.

Section P.
Variable K : cfield.
Add Field kf : (fth K).
Notation vec := (nat -> K).
Notation entry := (entry K).
Variables (Q : sprob K) (it : iter K) (e : deltas K) (Hx Hd : vec).
Hypothesis OK : sparse_ok K Q.
Let P := sp_prob K Q.
Let n := nx P.
Let q := neq P.
Let m := ni P.
Let H := t_ent (s_H Q).
Let Jc := t_ent (s_Jc Q).
Let Jd := t_ent (s_Jd Q).
Let ndl := marks (s_idl Q).
Let ndu := marks (s_idu Q).
Let nxl := marks (s_ixl Q).
Let nxu := marks (s_ixu Q).
Let n2 := n + q + m.
Let n3 := n2 + m.
Let n4 := n3 + ndl + ndu + nxl + nxu.
Let N := n4 + ndl + ndu + nxl + nxu.
Let Z := length H + num_offdiag K (s_H Q) + 2 * length Jc + 2 * length Jd + 2 * (m + ndl + ndu + nxl + nxu + ndl + ndu + nxl + nxu) + ndl + ndu + nxl + nxu + n3.
Lemma pl : length (s_ixl Q) = n /\ length (s_ixu Q) = n /\ length (s_idl Q) = m /\ length (s_idu Q) = m.
Proof. destruct OK as (_ & _ & _ & _ & _ & _ & _ & _ & _ & A & B & C & D). unfold n, m, P, sp_prob. cbn. auto. Qed.
Definition full_ent : list entry :=
  shifted K false true H 0 0 ++
  movedT K 0 0 H ++
  movedT K 0 n Jc ++
  movedT K 0 (n + q) Jd ++
  colb K 0 (n3 + ndl + ndu) (fopp f1) (s_ixl Q) ++
  colb K 0 (n3 + ndl + ndu + nxl) f1 (s_ixu Q) ++
  moved K n 0 Jc ++
  moved K (n + q) 0 Jd ++
  diagb K (n + q) n2 m (fun _ => fopp f1) ++
  diagb K n2 (n + q) m (fun _ => fopp f1) ++
  colb K n2 n3 (fopp f1) (s_idl Q) ++
  colb K n2 (n3 + ndl) f1 (s_idu Q) ++
  rowb K n3 n2 (fopp f1) (s_idl Q) ++
  diagb K n3 n4 ndl (fun _ => f1) ++
  rowb K (n3 + ndl) n2 f1 (s_idu Q) ++
  diagb K (n3 + ndl) (n4 + ndl) ndu (fun _ => f1) ++
  rowb K (n3 + ndl + ndu) 0 (fopp f1) (s_ixl Q) ++
  diagb K (n3 + ndl + ndu) (n4 + ndl + ndu) nxl (fun _ => f1) ++
  rowb K (n3 + ndl + ndu + nxl) 0 f1 (s_ixu Q) ++
  diagb K (n3 + ndl + ndu + nxl) (n4 + ndl + ndu + nxl) nxu (fun _ => f1) ++
  diagb K (n4) (n3) ndl (fun i => w_sdl it (nth i (selected (s_idl Q)) 0)) ++
  diagb K (n4) (n4) ndl (fun i => w_vl it (nth i (selected (s_idl Q)) 0)) ++
  diagb K (n4 + ndl) (n3 + ndl) ndu (fun i => w_sdu it (nth i (selected (s_idu Q)) 0)) ++
  diagb K (n4 + ndl) (n4 + ndl) ndu (fun i => w_vu it (nth i (selected (s_idu Q)) 0)) ++
  diagb K (n4 + ndl + ndu) (n3 + ndl + ndu) nxl (fun i => w_sxl it (nth i (selected (s_ixl Q)) 0)) ++
  diagb K (n4 + ndl + ndu) (n4 + ndl + ndu) nxl (fun i => w_zl it (nth i (selected (s_ixl Q)) 0)) ++
  diagb K (n4 + ndl + ndu + nxl) (n3 + ndl + ndu + nxl) nxu (fun i => w_sxu it (nth i (selected (s_ixu Q)) 0)) ++
  diagb K (n4 + ndl + ndu + nxl) (n4 + ndl + ndu + nxl) nxu (fun i => w_zu it (nth i (selected (s_ixu Q)) 0)) ++
  diagb K 0 0 n (fun i => f1 *! Hx i) ++
  diagb K n2 n2 m (fun i => f1 *! Hd i) ++
  diagb K n n q (fun i => fopp f1 *! e_cc e i) ++
  diagb K (n + q) (n + q) m (fun i => fopp f1 *! e_cd e i).
Ltac lens := rewrite ?app_length, ?moved_len, ?movedT_len, ?diagb_len, ?colb_len, ?rowb_len, ?offdiag_len.
Ltac side := try reflexivity; unfold num_offdiag in *; cbn [length]; lens; fold H Jc Jd; lia.
Lemma full_mat M : slots_of K N Z M -> exists R, sp_full_mat K Q it e Hx Hd M = Some R /\ t_ent R = full_ent.
Proof.
  intros (A & B & C). destruct (sz K Q OK) as (S1 & S2 & S3 & S4 & S5 & S6). destruct pl as (L1 & L2 & L3 & L4).
  fold P n q m in S1, S2, S3, S4, S5, S6. unfold sp_full_mat. cbv zeta. fold P n q m H Jc Jd ndl ndu nxl nxu. fold n2. fold n3. fold n4.
  pose proof (zero_filled K N Z M A B C) as F0.
  assert (EN : N = n4 + ndl + ndu + nxl + nxu) by reflexivity. assert (E4 : n4 = n3 + ndl + ndu + nxl + nxu) by reflexivity.
  assert (E3 : n3 = n2 + m) by reflexivity. assert (E2 : n2 = n + q + m) by reflexivity.
  assert (EZ : Z = length H + num_offdiag K (s_H Q) + 2 * length Jc + 2 * length Jd + 2 * (m + ndl + ndu + nxl + nxu + ndl + ndu + nxl + nxu) + ndl + ndu + nxl + nxu + n3) by reflexivity.
  assert (D1 : ndl = length (selected (s_idl Q))) by reflexivity. assert (D2 : ndu = length (selected (s_idu Q))) by reflexivity.
  assert (D3 : nxl = length (selected (s_ixl Q))) by reflexivity. assert (D4 : nxu = length (selected (s_ixu Q))) by reflexivity.
  assert (EO : num_offdiag K (s_H Q) = length H - length (filter (fun e : entry => row e =? col e) H)) by reflexivity.
  assert (LO : length (shifted K false true H 0 0) = num_offdiag K (s_H Q)) by (rewrite offdiag_len; reflexivity).
  clearbody n2 n3 n4 N Z ndl ndu nxl nxu.
  eapply (step_subm K N Z [] _ F0 false true (s_H Q) 0 0); try (rewrite ?shifted_movedT, ?shifted_moved; fold H Jc Jd; rewrite ?LO; side). intros r1 F1. cbn [app] in F1. fold H Jc Jd in F1.
  eapply (step_subm K N Z _ _ F1 true false (s_H Q) 0 0); try (rewrite ?shifted_movedT, ?shifted_moved; fold H Jc Jd; rewrite ?LO; side). intros r2 F2. fold H Jc Jd in F2. rewrite ?shifted_movedT, ?shifted_moved in F2.
  eapply (step_subm K N Z _ _ F2 true false (s_Jc Q) 0 n); try (rewrite ?shifted_movedT, ?shifted_moved; fold H Jc Jd; rewrite ?LO; side). intros r3 F3. fold H Jc Jd in F3. rewrite ?shifted_movedT, ?shifted_moved in F3.
  eapply (step_subm K N Z _ _ F3 true false (s_Jd Q) 0 (n + q)); try (rewrite ?shifted_movedT, ?shifted_moved; fold H Jc Jd; rewrite ?LO; side). intros r4 F4. fold H Jc Jd in F4. rewrite ?shifted_movedT, ?shifted_moved in F4.
  eapply (step_col K N Z _ _ F4 (fopp f1) 0 (n3 + ndl + ndu)); try side. intros r5 F5.
  eapply (step_col K N Z _ _ F5 f1 0 (n3 + ndl + ndu + nxl)); try side. intros r6 F6.
  eapply (step_subm K N Z _ _ F6 false false (s_Jc Q) n 0); try (rewrite ?shifted_movedT, ?shifted_moved; fold H Jc Jd; rewrite ?LO; side). intros r7 F7. fold H Jc Jd in F7. rewrite ?shifted_movedT, ?shifted_moved in F7.
  eapply (step_subm K N Z _ _ F7 false false (s_Jd Q) (n + q) 0); try (rewrite ?shifted_movedT, ?shifted_moved; fold H Jc Jd; rewrite ?LO; side). intros r8 F8. fold H Jc Jd in F8. rewrite ?shifted_movedT, ?shifted_moved in F8.
  eapply (step_diag K N Z _ _ F8 (fopp f1) (n + q) n2); try side. intros r9 F9.
  eapply (step_diag K N Z _ _ F9 (fopp f1) n2 (n + q)); try side. intros r10 F10.
  eapply (step_col K N Z _ _ F10 (fopp f1) n2 n3); try side. intros r11 F11.
  eapply (step_col K N Z _ _ F11 f1 n2 (n3 + ndl)); try side. intros r12 F12.
  eapply (step_row K N Z _ _ F12 (fopp f1) n3 n2); try side. intros r13 F13.
  eapply (step_diag K N Z _ _ F13 f1 n3 n4); try side. intros r14 F14.
  eapply (step_row K N Z _ _ F14 f1 (n3 + ndl) n2); try side. intros r15 F15.
  eapply (step_diag K N Z _ _ F15 f1 (n3 + ndl) (n4 + ndl)); try side. intros r16 F16.
  eapply (step_row K N Z _ _ F16 (fopp f1) (n3 + ndl + ndu) 0); try side. intros r17 F17.
  eapply (step_diag K N Z _ _ F17 f1 (n3 + ndl + ndu) (n4 + ndl + ndu)); try side. intros r18 F18.
  eapply (step_row K N Z _ _ F18 f1 (n3 + ndl + ndu + nxl) 0); try side. intros r19 F19.
  eapply (step_diag K N Z _ _ F19 f1 (n3 + ndl + ndu + nxl) (n4 + ndl + ndu + nxl)); try side. intros r20 F20.
  eapply (step_pat K N Z _ _ F20 (w_sdl it) (n4) (n3)); try side. intros r21 F21.
  eapply (step_pat K N Z _ _ F21 (w_vl it) (n4) (n4)); try side. intros r22 F22.
  eapply (step_pat K N Z _ _ F22 (w_sdu it) (n4 + ndl) (n3 + ndl)); try side. intros r23 F23.
  eapply (step_pat K N Z _ _ F23 (w_vu it) (n4 + ndl) (n4 + ndl)); try side. intros r24 F24.
  eapply (step_pat K N Z _ _ F24 (w_sxl it) (n4 + ndl + ndu) (n3 + ndl + ndu)); try side. intros r25 F25.
  eapply (step_pat K N Z _ _ F25 (w_zl it) (n4 + ndl + ndu) (n4 + ndl + ndu)); try side. intros r26 F26.
  eapply (step_pat K N Z _ _ F26 (w_sxu it) (n4 + ndl + ndu + nxl) (n3 + ndl + ndu + nxl)); try side. intros r27 F27.
  eapply (step_pat K N Z _ _ F27 (w_zu it) (n4 + ndl + ndu + nxl) (n4 + ndl + ndu + nxl)); try side. intros r28 F28.
  eapply (step_sub K N Z _ _ F28 0 n Hx); try side. intros r29 F29.
  eapply (step_sub K N Z _ _ F29 n2 m Hd); try side. intros r30 F30.
  eapply (step_sub K N Z _ _ F30 n q (e_cc e)); try side. intros r31 F31.
  eapply (step_sub K N Z _ _ F31 (n + q) m (e_cd e)); try side. intros r32 F32.
  assert (LT : Z = length (full_ent)).
  { unfold full_ent. rewrite !app_length, LO. lens. rewrite <- ?D1, <- ?D2, <- ?D3, <- ?D4. lia. }
  match goal with |- context [if ?b then _ else _] => replace b with true by (symmetry; apply Nat.eqb_eq; rewrite C, LT; unfold full_ent; rewrite !app_length, LO; lens; rewrite <- ?D1, <- ?D2, <- ?D3, <- ?D4; lia) end.
  exists r32. split; [reflexivity|]. assert (FE := filled_full K _ _ _ _ F32). rewrite FE.
  - unfold full_ent. rewrite <- !app_assoc. reflexivity.
  - rewrite LT. unfold full_ent. rewrite <- !app_assoc. reflexivity.
Qed.
End P.
