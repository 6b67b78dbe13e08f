(** The full sparse system: the direction it returns solves the Newton system. *)
From Coq Require Import List Bool Arith Lia Ring Field.
From Verif Require Import RingKit.
From Verif Require Import PackModel SparseModel SparseSpec SparseProofs SparseProofs3.
From Verif Require Import KktModel KktModel2 KktSpec KktProofs KktProofs2 KktProofs3 KktProofs6 KktProofs7 KktProofs8 KktProofs9 KktProofs10.
Import ListNotations.

Section P.
Variable K : cfield.
Add Field kf : (fth K).
Notation vec := (nat -> K).
Lemma put_lt n (a b : vec) i : i < n -> KktModel.put K n a b i = a i.
Proof. intros H. unfold KktModel.put. rewrite (proj2 (Nat.ltb_lt _ _)) by lia. reflexivity. Qed.
Lemma put_ge n (a b : vec) i : n <= i -> KktModel.put K n a b i = b (i - n).
Proof. intros H. unfold KktModel.put. rewrite (proj2 (Nat.ltb_ge _ _)) by lia. reflexivity. Qed.

Variables (Q : sprob K) (it : iter K) (e : deltas K) (Hx Hd : vec).
Hypothesis OK : sparse_ok K Q.
Let P := sp_prob K Q.
Let n := nx P.
Let q := neq P.
Let m := ni P.
Let Jc := t_ent (s_Jc Q).
Let Jd := t_ent (s_Jd Q).
Let ndl := marks (s_idl Q).
Let ndu := marks (s_idu Q).
Let nxl := marks (s_ixl Q).
Let nxu := marks (s_ixu Q).
Let n2 := n + q + m.
Let n3 := n2 + m.
Let n4 := n3 + ndl + ndu + nxl + nxu.
Let N := n4 + ndl + ndu + nxl + nxu.
Notation ent := (full_ent K Q it e Hx Hd).

Lemma full_solve_ok S R r old w : exact_gen K S -> t_ent R = ent ->
  (forall i, i < n -> Hx i = e_wx e i) -> (forall i, i < m -> Hd i = e_wd e i) -> supported K P old ->
  sp_full_solve K S Q R r old = Some w -> newton K P it e r w.
Proof.
  intros EX ER HX HD SU. unfold sp_full_solve. cbv zeta. fold P. fold n q m ndl ndu nxl nxu. fold n2. fold n3. fold n4. fold N.
  match goal with |- match S N _ ?v with _ => _ end = _ -> _ => set (rhs := v) end.
  destruct (S N _ _) as [s|] eqn:E; [|discriminate]. intros [= <-].
  assert (T : forall i, i < N -> rp K s ent i = rhs i).
  { intros i Hi. rewrite <- (rp_mat K N s ent i (full_in K Q it e Hx Hd OK)). rewrite <- ER. exact (EX _ _ _ _ E i Hi). }
  clear E.
  pose proof (row_x K Q it e Hx Hd OK s) as Rx. pose proof (row_yc K Q it e Hx Hd OK s) as Ryc. pose proof (row_yd K Q it e Hx Hd OK s) as Ryd.
  pose proof (row_d K Q it e Hx Hd OK s) as Rd. pose proof (row_dl K Q it e Hx Hd OK s) as Rdl. pose proof (row_du K Q it e Hx Hd OK s) as Rdu.
  pose proof (row_xl K Q it e Hx Hd OK s) as Rxl. pose proof (row_xu K Q it e Hx Hd OK s) as Rxu. pose proof (row_svl K Q it e Hx Hd OK s) as Rsvl.
  pose proof (row_svu K Q it e Hx Hd OK s) as Rsvu. pose proof (row_szl K Q it e Hx Hd OK s) as Rszl. pose proof (row_szu K Q it e Hx Hd OK s) as Rszu.
  fold P n q m ndl ndu nxl nxu in Rx, Ryc, Ryd, Rd, Rdl, Rdu, Rxl, Rxu, Rsvl, Rsvu, Rszl, Rszu.
  fold n2 in Ryc, Ryd, Rd, Rdl, Rdu, Rxl, Rxu, Rsvl, Rsvu, Rszl, Rszu. fold n2 in Rx.
  fold n3 in Rx, Ryc, Ryd, Rd, Rdl, Rdu, Rxl, Rxu, Rsvl, Rsvu, Rszl, Rszu.
  fold n4 in Rx, Ryc, Ryd, Rd, Rdl, Rdu, Rxl, Rxu, Rsvl, Rsvu, Rszl, Rszu.
  assert (EN : N = n4 + ndl + ndu + nxl + nxu) by reflexivity. assert (E4 : n4 = n3 + ndl + ndu + nxl + nxu) by reflexivity.
  assert (E3 : n3 = n2 + m) by reflexivity. assert (E2 : n2 = n + q + m) by reflexivity.
  destruct SU as (SX & SD). fold n in SX. fold m in SD.
  unfold newton. fold n q m.
  cbn [w_x w_d w_yc w_yd w_sxl w_sxu w_sdl w_sdu w_zl w_zu w_vl w_vu ixl ixu idl idu].
  change (p_Jc P) with (SparseSpec.mat Jc). change (p_Jd P) with (SparseSpec.mat Jd).
  change (ixl P) with (fun i => nth i (s_ixl Q) false) in *. change (ixu P) with (fun i => nth i (s_ixu Q) false) in *.
  change (idl P) with (fun i => nth i (s_idl Q) false) in *. change (idu P) with (fun i => nth i (s_idu Q) false) in *.
  unfold expand, cut. cbv beta.
  clearbody n2 n3 n4 N.
  Ltac rh := repeat first [rewrite put_lt by lia | rewrite put_ge by lia]; unfold compress; match goal with |- ?f _ = ?f _ => f_equal; lia | |- ?f (nth _ ?l _) = ?f (nth _ ?l _) => f_equal; f_equal; lia | _ => idtac end.
  assert (B1 : forall i, i < n -> rhs (0 + i) = r_x r i) by (intros i Hi; unfold rhs; rh).
  assert (B2 : forall i, i < q -> rhs (n + i) = r_yc r i) by (intros i Hi; unfold rhs; rh).
  assert (B3 : forall i, i < m -> rhs (n + q + i) = r_yd r i) by (intros i Hi; unfold rhs; rh).
  assert (B4 : forall i, i < m -> rhs (n2 + i) = r_d r i) by (intros i Hi; unfold rhs; rh).
  assert (B5 : forall i, i < ndl -> rhs (n3 + i) = r_dl r (nth i (selected (s_idl Q)) 0)) by (intros i Hi; unfold rhs; rh).
  assert (B6 : forall i, i < ndu -> rhs (n3 + ndl + i) = r_du r (nth i (selected (s_idu Q)) 0)) by (intros i Hi; unfold rhs; rh).
  assert (B7 : forall i, i < nxl -> rhs (n3 + ndl + ndu + i) = r_xl r (nth i (selected (s_ixl Q)) 0)) by (intros i Hi; unfold rhs; rh).
  assert (B8 : forall i, i < nxu -> rhs (n3 + ndl + ndu + nxl + i) = r_xu r (nth i (selected (s_ixu Q)) 0)) by (intros i Hi; unfold rhs; rh).
  assert (B9 : forall i, i < ndl -> rhs (n4 + i) = r_svl r (nth i (selected (s_idl Q)) 0)) by (intros i Hi; unfold rhs; rh).
  assert (B10 : forall i, i < ndu -> rhs (n4 + ndl + i) = r_svu r (nth i (selected (s_idu Q)) 0)) by (intros i Hi; unfold rhs; rh).
  assert (B11 : forall i, i < nxl -> rhs (n4 + ndl + ndu + i) = r_szl r (nth i (selected (s_ixl Q)) 0)) by (intros i Hi; unfold rhs; rh).
  assert (B12 : forall i, i < nxu -> rhs (n4 + ndl + ndu + nxl + i) = r_szu r (nth i (selected (s_ixu Q)) 0)) by (intros i Hi; unfold rhs; rh).
  clearbody rhs.
  split; [|split; [|split; [|split; [|split; [|split; [|split]]]]]]; intros i Hi.
  - rewrite <- (B1 i Hi), <- (T (0 + i)) by lia. rewrite (Rx i Hi), (HX i Hi). cbn [Nat.add]. unfold mv.
    destruct (SX i Hi) as (A1 & A2).
    destruct (nth i (s_ixl Q) false), (nth i (s_ixu Q) false); try (rewrite (proj2 (A1 eq_refl))); try (rewrite (proj2 (A2 eq_refl))); reflexivity.
  - rewrite <- (B4 i Hi), <- (T (n2 + i)) by lia. rewrite (Rd i Hi), (HD i Hi).
    destruct (SD i Hi) as (A1 & A2).
    destruct (nth i (s_idl Q) false), (nth i (s_idu Q) false); try (rewrite (proj2 (A1 eq_refl))); try (rewrite (proj2 (A2 eq_refl))); ring.
  - rewrite <- (B2 i Hi), <- (T (n + i)) by lia. rewrite (Ryc i Hi). reflexivity.
  - rewrite <- (B3 i Hi), <- (T (n + q + i)) by lia. rewrite (Ryd i Hi). reflexivity.
  - destruct (SX i Hi) as (A1 & _). destruct (nth i (s_ixl Q) false) eqn:M; [|exact (A1 eq_refl)].
    destruct (sel_count _ _ M) as (C1 & C2). set (k := count i _) in *. change (length (selected (s_ixl Q))) with nxl in C1.
    rewrite <- (f_equal (r_xl r) C2), <- (f_equal (r_szl r) C2), <- (B7 k C1), <- (B11 k C1), <- !T by lia. rewrite (Rxl k C1), (Rszl k C1), C2. cbn [Nat.add]. split; ring.
  - destruct (SX i Hi) as (_ & A1). destruct (nth i (s_ixu Q) false) eqn:M; [|exact (A1 eq_refl)].
    destruct (sel_count _ _ M) as (C1 & C2). set (k := count i _) in *. change (length (selected (s_ixu Q))) with nxu in C1.
    rewrite <- (f_equal (r_xu r) C2), <- (f_equal (r_szu r) C2), <- (B8 k C1), <- (B12 k C1), <- !T by lia. rewrite (Rxu k C1), (Rszu k C1), C2. cbn [Nat.add]. split; ring.
  - destruct (SD i Hi) as (A1 & _). destruct (nth i (s_idl Q) false) eqn:M; [|exact (A1 eq_refl)].
    destruct (sel_count _ _ M) as (C1 & C2). set (k := count i _) in *. change (length (selected (s_idl Q))) with ndl in C1.
    rewrite <- (f_equal (r_dl r) C2), <- (f_equal (r_svl r) C2), <- (B5 k C1), <- (B9 k C1), <- !T by lia. rewrite (Rdl k C1), (Rsvl k C1), C2. cbn [Nat.add]. split; ring.
  - destruct (SD i Hi) as (_ & A1). destruct (nth i (s_idu Q) false) eqn:M; [|exact (A1 eq_refl)].
    destruct (sel_count _ _ M) as (C1 & C2). set (k := count i _) in *. change (length (selected (s_idu Q))) with ndu in C1.
    rewrite <- (f_equal (r_du r) C2), <- (f_equal (r_svu r) C2), <- (B6 k C1), <- (B10 k C1), <- !T by lia. rewrite (Rdu k C1), (Rsvu k C1), C2. cbn [Nat.add]. split; ring.
Qed.
End P.
