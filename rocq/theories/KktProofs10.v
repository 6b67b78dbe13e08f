(** The full sparse system, end: the solve. *)
From Coq Require Import List Bool Arith Lia Ring Field Sorted.
From Verif Require Import RingKit.
From Verif Require Import PackModel SparseModel SparseSpec SparseProofs SparseProofs3.
From Verif Require Import KktModel KktModel2 KktSpec KktProofs KktProofs2 KktProofs3 KktProofs6 KktProofs7 KktProofs8 KktProofs9.
Import ListNotations.

Section P.
Variable K : cfield.
Add Field kf : (fth K).
Notation vec := (nat -> K).
Notation entry := (entry K).
Variables (Q : sprob K) (it : iter K) (e : deltas K) (Hx Hd : vec).
Hypothesis OK : sparse_ok K Q.
Let P := sp_prob K Q.
Let n := nx P.
Let q := neq P.
Let m := ni P.
Let H := t_ent (s_H Q).
Let Jc := t_ent (s_Jc Q).
Let Jd := t_ent (s_Jd Q).
Let ndl := marks (s_idl Q).
Let ndu := marks (s_idu Q).
Let nxl := marks (s_ixl Q).
Let nxu := marks (s_ixu Q).
Let n2 := n + q + m.
Let n3 := n2 + m.
Let n4 := n3 + ndl + ndu + nxl + nxu.
Let N := n4 + ndl + ndu + nxl + nxu.
Let Z := length H + num_offdiag K (s_H Q) + 2 * length Jc + 2 * length Jd + 2 * (m + ndl + ndu + nxl + nxu + ndl + ndu + nxl + nxu) + ndl + ndu + nxl + nxu + n3.
Notation ent := (full_ent K Q it e Hx Hd).
Lemma full_in x : In x ent -> col x < N.
Proof.
  destruct (pl K Q OK) as (L1 & L2 & L3 & L4). fold P n m in L1, L2, L3, L4.
  assert (EN : N = n4 + ndl + ndu + nxl + nxu) by reflexivity. assert (E4 : n4 = n3 + ndl + ndu + nxl + nxu) by reflexivity.
  assert (E3 : n3 = n2 + m) by reflexivity. assert (E2 : n2 = n + q + m) by reflexivity.
  assert (D1 : ndl = length (selected (s_idl Q))) by reflexivity. assert (D2 : ndu = length (selected (s_idu Q))) by reflexivity.
  assert (D3 : nxl = length (selected (s_ixl Q))) by reflexivity. assert (D4 : nxu = length (selected (s_ixu Q))) by reflexivity.
  unfold full_ent. fold P n q m H Jc Jd ndl ndu nxl nxu. fold n2. fold n3. fold n4. clearbody n2 n3 n4 N ndl ndu nxl nxu. rewrite !in_app_iff.
  intros X. repeat (destruct X as [X|X]; [
    first [ apply diagb_in in X; lia | apply colb_in in X; lia | apply rowb_in in X; lia
          | apply (movedT_in K H n n (WH K Q OK)) in X; lia | apply (movedT_in K Jc q n (WJc K Q OK)) in X; lia | apply (movedT_in K Jd m n (WJd K Q OK)) in X; lia
          | apply (moved_in K Jc q n (WJc K Q OK)) in X; lia | apply (moved_in K Jd m n (WJd K Q OK)) in X; lia
          | unfold shifted in X; apply in_map_iff in X; destruct X as (y & <- & X); apply filter_In in X; destruct X as (X & _); apply (WH K Q OK) in X; fold P n in X; rewrite col_mk; lia ]|]).
  apply diagb_in in X; lia.
Qed.
Lemma rp_full s i : rp K s ent i = (rp K s (shifted K false true H 0 0) i +! rp K s (movedT K 0 0 H) i) +!
    rp K s (movedT K 0 n Jc) i +!
    rp K s (movedT K 0 (n + q) Jd) i +!
    rp K s (colb K 0 (n3 + ndl + ndu) (fopp f1) (s_ixl Q)) i +!
    rp K s (colb K 0 (n3 + ndl + ndu + nxl) f1 (s_ixu Q)) i +!
    rp K s (moved K n 0 Jc) i +!
    rp K s (moved K (n + q) 0 Jd) i +!
    rp K s (diagb K (n + q) n2 m (fun _ => fopp f1)) i +!
    rp K s (diagb K n2 (n + q) m (fun _ => fopp f1)) i +!
    rp K s (colb K n2 n3 (fopp f1) (s_idl Q)) i +!
    rp K s (colb K n2 (n3 + ndl) f1 (s_idu Q)) i +!
    rp K s (rowb K n3 n2 (fopp f1) (s_idl Q)) i +!
    rp K s (diagb K n3 n4 ndl (fun _ => f1)) i +!
    rp K s (rowb K (n3 + ndl) n2 f1 (s_idu Q)) i +!
    rp K s (diagb K (n3 + ndl) (n4 + ndl) ndu (fun _ => f1)) i +!
    rp K s (rowb K (n3 + ndl + ndu) 0 (fopp f1) (s_ixl Q)) i +!
    rp K s (diagb K (n3 + ndl + ndu) (n4 + ndl + ndu) nxl (fun _ => f1)) i +!
    rp K s (rowb K (n3 + ndl + ndu + nxl) 0 f1 (s_ixu Q)) i +!
    rp K s (diagb K (n3 + ndl + ndu + nxl) (n4 + ndl + ndu + nxl) nxu (fun _ => f1)) i +!
    rp K s (diagb K (n4) (n3) ndl (fun i => w_sdl it (nth i (selected (s_idl Q)) 0))) i +!
    rp K s (diagb K (n4) (n4) ndl (fun i => w_vl it (nth i (selected (s_idl Q)) 0))) i +!
    rp K s (diagb K (n4 + ndl) (n3 + ndl) ndu (fun i => w_sdu it (nth i (selected (s_idu Q)) 0))) i +!
    rp K s (diagb K (n4 + ndl) (n4 + ndl) ndu (fun i => w_vu it (nth i (selected (s_idu Q)) 0))) i +!
    rp K s (diagb K (n4 + ndl + ndu) (n3 + ndl + ndu) nxl (fun i => w_sxl it (nth i (selected (s_ixl Q)) 0))) i +!
    rp K s (diagb K (n4 + ndl + ndu) (n4 + ndl + ndu) nxl (fun i => w_zl it (nth i (selected (s_ixl Q)) 0))) i +!
    rp K s (diagb K (n4 + ndl + ndu + nxl) (n3 + ndl + ndu + nxl) nxu (fun i => w_sxu it (nth i (selected (s_ixu Q)) 0))) i +!
    rp K s (diagb K (n4 + ndl + ndu + nxl) (n4 + ndl + ndu + nxl) nxu (fun i => w_zu it (nth i (selected (s_ixu Q)) 0))) i +!
    rp K s (diagb K 0 0 n (fun i => f1 *! Hx i)) i +!
    rp K s (diagb K n2 n2 m (fun i => f1 *! Hd i)) i +!
    rp K s (diagb K n n q (fun i => fopp f1 *! e_cc e i)) i +!
    rp K s (diagb K (n + q) (n + q) m (fun i => fopp f1 *! e_cd e i)) i.
Proof. unfold full_ent. fold P n q m H Jc Jd ndl ndu nxl nxu. fold n2. fold n3. fold n4. rewrite !rp_app. ring. Qed.
Ltac hm1 := first [ rewrite hit_diag by lia | rewrite hit_row by lia | rewrite hit_col by lia
  | rewrite (hit_moved K Jc q n (WJc K Q OK)) by lia | rewrite (hit_moved K Jd m n (WJd K Q OK)) by lia
  | rewrite (hit_movedT K Jc q n (WJc K Q OK)) by lia | rewrite (hit_movedT K Jd m n (WJd K Q OK)) by lia
  | rewrite miss_diag by lia | rewrite miss_row by lia | rewrite miss_col by lia
  | rewrite (miss_moved K Jc q n (WJc K Q OK)) by lia | rewrite (miss_moved K Jd m n (WJd K Q OK)) by lia
  | rewrite (miss_movedT K Jc q n (WJc K Q OK)) by lia | rewrite (miss_movedT K Jd m n (WJd K Q OK)) by lia ].
Section Rows.
Variable s : vec.
Ltac start := destruct (pl K Q OK) as (L1 & L2 & L3 & L4); fold P n m in L1, L2, L3, L4;
  assert (EN : N = n4 + ndl + ndu + nxl + nxu) by reflexivity; assert (E4 : n4 = n3 + ndl + ndu + nxl + nxu) by reflexivity;
  assert (E3 : n3 = n2 + m) by reflexivity; assert (E2 : n2 = n + q + m) by reflexivity;
  assert (D1 : ndl = length (selected (s_idl Q))) by reflexivity; assert (D2 : ndu = length (selected (s_idu Q))) by reflexivity;
  assert (D3 : nxl = length (selected (s_ixl Q))) by reflexivity; assert (D4 : nxu = length (selected (s_ixu Q))) by reflexivity;
  rewrite rp_full; rewrite (rp_offdiag K s H), (rp_H K Q OK s); fold P n; clearbody n2 n3 n4 N ndl ndu nxl nxu.
Lemma row_x i : i < n -> rp K s ent (0 + i) =
   mv K n (p_H P) s i +! Hx i *! s i +! sumn q (fun k => SparseSpec.mat Jc k i *! s (n + k)) +! sumn m (fun k => SparseSpec.mat Jd k i *! s (n + q + k)) -!
   (if nth i (s_ixl Q) false then s (n3 + ndl + ndu + count i (fun j => nth j (s_ixl Q) false)) else f0) +! (if nth i (s_ixu Q) false then s (n3 + ndl + ndu + nxl + count i (fun j => nth j (s_ixu Q) false)) else f0).
Proof. intros Hi. start. rewrite (proj2 (Nat.ltb_lt _ _)) by lia. repeat hm1. cbn [Nat.add]. destruct (nth i (s_ixl Q) false), (nth i (s_ixu Q) false); ring. Qed.
Lemma row_yc i : i < q -> rp K s ent (n + i) =
   sumn n (fun j => SparseSpec.mat Jc i j *! s j) -! e_cc e i *! s (n + i).
Proof. intros Hi. start. rewrite (proj2 (Nat.ltb_ge _ _)) by lia. repeat hm1. cbn [Nat.add]. ring. Qed.
Lemma row_yd i : i < m -> rp K s ent (n + q + i) =
   sumn n (fun j => SparseSpec.mat Jd i j *! s j) -! s (n2 + i) -! e_cd e i *! s (n + q + i).
Proof. intros Hi. start. rewrite (proj2 (Nat.ltb_ge _ _)) by lia. repeat hm1. cbn [Nat.add]. ring. Qed.
Lemma row_d i : i < m -> rp K s ent (n2 + i) =
   Hd i *! s (n2 + i) -! s (n + q + i) -! (if nth i (s_idl Q) false then s (n3 + count i (fun j => nth j (s_idl Q) false)) else f0) +! (if nth i (s_idu Q) false then s (n3 + ndl + count i (fun j => nth j (s_idu Q) false)) else f0).
Proof. intros Hi. start. rewrite (proj2 (Nat.ltb_ge _ _)) by lia. repeat hm1. cbn [Nat.add]. destruct (nth i (s_idl Q) false), (nth i (s_idu Q) false); ring. Qed.
Lemma row_dl i : i < ndl -> rp K s ent (n3 + i) =
   s (n4 + i) -! s (n2 + nth i (selected (s_idl Q)) 0).
Proof. intros Hi. start. rewrite (proj2 (Nat.ltb_ge _ _)) by lia. repeat hm1. cbn [Nat.add]. ring. Qed.
Lemma row_du i : i < ndu -> rp K s ent (n3 + ndl + i) =
   s (n4 + ndl + i) +! s (n2 + nth i (selected (s_idu Q)) 0).
Proof. intros Hi. start. rewrite (proj2 (Nat.ltb_ge _ _)) by lia. repeat hm1. cbn [Nat.add]. ring. Qed.
Lemma row_xl i : i < nxl -> rp K s ent (n3 + ndl + ndu + i) =
   s (n4 + ndl + ndu + i) -! s (nth i (selected (s_ixl Q)) 0).
Proof. intros Hi. start. rewrite (proj2 (Nat.ltb_ge _ _)) by lia. repeat hm1. cbn [Nat.add]. ring. Qed.
Lemma row_xu i : i < nxu -> rp K s ent (n3 + ndl + ndu + nxl + i) =
   s (n4 + ndl + ndu + nxl + i) +! s (nth i (selected (s_ixu Q)) 0).
Proof. intros Hi. start. rewrite (proj2 (Nat.ltb_ge _ _)) by lia. repeat hm1. cbn [Nat.add]. ring. Qed.
Lemma row_svl i : i < ndl -> rp K s ent (n4 + i) =
   w_sdl it (nth i (selected (s_idl Q)) 0) *! s (n3 + i) +! w_vl it (nth i (selected (s_idl Q)) 0) *! s (n4 + i).
Proof. intros Hi. start. rewrite (proj2 (Nat.ltb_ge _ _)) by lia. repeat hm1. cbn [Nat.add]. ring. Qed.
Lemma row_svu i : i < ndu -> rp K s ent (n4 + ndl + i) =
   w_sdu it (nth i (selected (s_idu Q)) 0) *! s (n3 + ndl + i) +! w_vu it (nth i (selected (s_idu Q)) 0) *! s (n4 + ndl + i).
Proof. intros Hi. start. rewrite (proj2 (Nat.ltb_ge _ _)) by lia. repeat hm1. cbn [Nat.add]. ring. Qed.
Lemma row_szl i : i < nxl -> rp K s ent (n4 + ndl + ndu + i) =
   w_sxl it (nth i (selected (s_ixl Q)) 0) *! s (n3 + ndl + ndu + i) +! w_zl it (nth i (selected (s_ixl Q)) 0) *! s (n4 + ndl + ndu + i).
Proof. intros Hi. start. rewrite (proj2 (Nat.ltb_ge _ _)) by lia. repeat hm1. cbn [Nat.add]. ring. Qed.
Lemma row_szu i : i < nxu -> rp K s ent (n4 + ndl + ndu + nxl + i) =
   w_sxu it (nth i (selected (s_ixu Q)) 0) *! s (n3 + ndl + ndu + nxl + i) +! w_zu it (nth i (selected (s_ixu Q)) 0) *! s (n4 + ndl + ndu + nxl + i).
Proof. intros Hi. start. rewrite (proj2 (Nat.ltb_ge _ _)) by lia. repeat hm1. cbn [Nat.add]. ring. Qed.
End Rows.
End P.
