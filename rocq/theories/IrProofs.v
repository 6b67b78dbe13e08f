(** Facts about one call and about sequences of calls. *)
From Flocq Require Import Core.Core IEEE754.BinarySingleNaN.
From Coq Require Import Reals Lra List Bool Arith ZArith Lia.
From Verif Require Import FloatBase FloatFacts FloatBridge KrylovModel KrylovSpec KrylovProofs KrylovProps ErrFloatProofs IrModel IrSpec.
Import ListNotations.

Lemma fdiv_self x : vb x = true -> finite x = true -> val x <> 0%R -> fdiv x x = fofZ 1.
Proof.
  intros V F N. pose proof (fdiv_val x x V V N) as D.
  assert (O1 : vb (fofZ 1) = true) by reflexivity. assert (F1 : finite (fofZ 1) = true) by reflexivity.
  assert (V1 : val (fofZ 1) = 1%R). { unfold val, SF2R, fofZ. cbn. unfold F2R. cbn. lra. }
  assert (Q : (val x / val x)%R = val (fofZ 1)) by (rewrite V1; field; exact N).
  rewrite Q, (rne_val _ O1 F1) in D. specialize (D (val_lt_emax _ O1)). destruct D as (D1 & D2).
  pose proof (vb_fdiv x x V V) as VD.
  rewrite <- (B2SF_toB (fdiv x x) VD), <- (B2SF_toB (fofZ 1) O1). f_equal.
  apply B2R_Bsign_inj.
  - rewrite fin_toB, D2. exact F.
  - rewrite fin_toB. exact F1.
  - rewrite !val_toB. exact D1.
  - assert (P : (0 < B2R (toB (fdiv x x) VD))%R) by (rewrite val_toB, D1, V1; lra).
    assert (P1 : (0 < B2R (toB (fofZ 1) O1))%R) by (rewrite val_toB, V1; lra).
    clear - P P1. destruct (toB (fdiv x x) VD) as [s|s| |s m e Hb]; try (exfalso; cbn in P; lra).
    destruct (toB (fofZ 1) O1) as [s'|s'| |s' m' e' Hb']; try (exfalso; cbn in P1; lra).
    destruct s; [exfalso; revert P; apply Rle_not_lt, F2R_le_0; cbn; lia|].
    destruct s'; [exfalso; revert P1; apply Rle_not_lt, F2R_le_0; cbn; lia|]. reflexivity.
Qed.

Section Any.
Variable V : Type.
Variables (axpy : b64 -> V -> V -> V) (scale : b64 -> V -> V) (dot : V -> V -> b64) (nrm : V -> b64) (zero : V -> V).
Notation ir_call := (ir_call V axpy scale dot nrm zero).
Notation ir_calls := (ir_calls V axpy scale dot nrm zero).
Notation soft_more := (soft_more V axpy scale dot nrm zero).
Notation soft_dirs := (soft_dirs V axpy scale dot nrm zero).
Notation relative := (relative V axpy scale nrm).

Lemma put_same (h : nat -> V) o v : put V h o v o = v.
Proof. unfold put. rewrite Nat.eqb_refl. reflexivity. Qed.
Lemma put_other (h : nat -> V) o v i : i <> o -> put V h o v i = h i.
Proof. intros N. unfold put. destruct (Nat.eqb_spec i o); [contradiction|reflexivity]. Qed.

Lemma ir_tol_below o (c : call V) : below_both (ir_tol V o c) (fmul (c_mu c) (o_fac o)) (o_min o).
Proof.
  unfold below_both, ir_tol. destruct (flt (o_min o) (fmul (c_mu c) (o_fac o))) eqn:E.
  - split; [auto|]. intros N1 N2. split; [apply flt_fle; exact E|apply fle_refl; exact N2].
  - split; [auto|]. intros N1 N2. split; [apply fle_refl; exact N1|]. apply flt_fle_false; assumption.
Qed.

(** one call that writes to the object asked for *)
Lemma ir_call_ok o c s : h_b s = None \/ h_b s = Some (c_dir c) ->
  let '(ok, s', w) := ir_call o c s in
  (h_b s' = None \/ h_b s' = Some (c_dir c)) /\ (forall i, i <> c_dir c -> h_val s' i = h_val s i) /\
  ((o_maxit o <= 0)%Z -> (h_val s' (c_dir c), ok) = c_C c (c_rhs c) /\ w = None) /\
  ((0 < o_maxit o)%Z -> ok = true /\ exists conv, w = Some conv /\ (conv = true -> relative (c_A c) (ir_tol V o c) (c_rhs c) (h_val s' (c_dir c)))).
Proof.
  intros H. unfold IrModel.ir_call. destruct (Z.leb_spec (o_maxit o) 0).
  - destruct (c_C c (c_rhs c)) as (v, ok). cbn [h_b h_val]. split; [exact H|]. split; [intros i N; apply put_other; exact N|].
    split; [|lia]. intros _. rewrite put_same. auto.
  - replace (match h_b s with Some b => b | None => c_dir c end) with (c_dir c) by (destruct H as [-> | ->]; reflexivity).
    destruct (bi_solve V axpy scale dot nrm zero (c_A c) (Some (prec_op V c)) None (ir_solver V o c) (c_rhs c)) as [[[s' x] ok] k] eqn:B.
    cbn [h_b h_val]. split; [auto|]. split; [intros i N; apply put_other; exact N|]. split; [lia|]. intros _. split; [reflexivity|].
    exists ok. split; [reflexivity|]. intros ->. rewrite put_same.
    destruct (C32_success_partial V axpy scale dot nrm zero (c_A c) (Some (prec_op V c)) None (ir_solver V o c) (c_rhs c) s' x k (or_intror B)) as [(Z0 & X & _)|(_ & M)].
    + left. auto.
    + right. exact M.
Qed.
(** a call whose vectors belong to another object *)
Lemma ir_call_other o c s b : (0 < o_maxit o)%Z -> h_b s = Some b -> c_dir c <> b ->
  let '(ok, s', w) := ir_call o c s in ok = true /\ h_b s' = Some b /\ (forall i, i <> b -> h_val s' i = h_val s i).
Proof.
  intros P Hb N. unfold IrModel.ir_call. destruct (Z.leb_spec (o_maxit o) 0); [lia|]. rewrite Hb.
  destruct (bi_solve V axpy scale dot nrm zero (c_A c) (Some (prec_op V c)) None (ir_solver V o c) (c_rhs c)) as [[[s' x] ok] k].
  cbn [h_b h_val]. split; [reflexivity|]. split; [reflexivity|]. intros i Ni. apply put_other. exact Ni.
Qed.

Lemma soft_more_repeated o dir soft l s : (0 < o_maxit o)%Z -> h_b s = Some dir -> soft <> dir ->
  fst (soft_more o soft l s) = repeat (h_val s soft) (length l) /\ h_val (snd (soft_more o soft l s)) soft = h_val s soft.
Proof.
  intros P. revert s. induction l as [|c l IH]; intros s Hb N; [split; reflexivity|].
  cbn [IrModel.soft_more length repeat].
  pose proof (ir_call_other o (Call V (c_A c) (c_C c) (c_mu c) (c_rhs c) soft) s dir P Hb N) as O.
  destruct (ir_call o (Call V (c_A c) (c_C c) (c_mu c) (c_rhs c) soft) s) as [[ok s1] w]. destruct O as (_ & O2 & O3).
  destruct (IH s1 O2 N) as (I1 & I2). destruct (soft_more o soft l s1) as (r, s') eqn:E. cbn [fst snd] in *.
  rewrite (O3 soft N) in *. rewrite I1. auto.
Qed.
Lemma soft_more_off o soft l s : (o_maxit o <= 0)%Z ->
  fst (soft_more o soft l s) = map (fun c => fst (c_C c (c_rhs c))) l.
Proof.
  intros P. revert s. induction l as [|c l IH]; intros s; [reflexivity|]. cbn [IrModel.soft_more map].
  unfold IrModel.ir_call. destruct (Z.leb_spec (o_maxit o) 0); [|lia]. cbn [c_C c_rhs c_dir].
  destruct (c_C c (c_rhs c)) as (v, ok) eqn:C.
  match goal with |- context [soft_more o soft l ?s1] => specialize (IH s1); destruct (soft_more o soft l s1) as (r, s') end.
  cbn [fst] in *. rewrite IH. cbn [h_val]. rewrite put_same. reflexivity.
Qed.

(** an exact linear solve is kept *)
Lemma bi_exact A C tol maxit b :
  0 < maxit -> feq (nrm b) f_zero = false ->
  fle (nrm b) (fmul tol (nrm b)) = false -> fle f_zero (fmul tol (nrm b)) = true ->
  resid V axpy scale (A 0 (zero b)) b = b -> (forall k, A k (C b) = b) ->
  axpy c_one (C b) (zero b) = C b -> nrm (axpy c_m1 b b) = f_zero -> nrm (resid V axpy scale b b) = f_zero ->
  vb (dot b b) = true -> finite (dot b b) = true -> val (dot b b) <> 0%R -> feq (dot b b) f_zero = false -> fgt (fabs (dot b b)) c_1e40 = false ->
  exists s', bi_solve V axpy scale dot nrm zero A (Some (fun _ => C)) None (Solver V tol maxit 0 1 f_zero f_zero None) b = (s', C b, true, 4) /\ k_iter V s' = 1.
Proof.
  intros M NZ NT T0 R0 AC AX N1 N2 Vd Fd Zd Ed Gd. unfold bi_solve. rewrite NZ. cbn [k_x0 k_tol k_maxit k_iter tolb].
  rewrite R0. unfold tolb. cbn [k_tol]. rewrite NT. destruct maxit as [|m]; [lia|]. cbn [bi_loop].
  unfold bi_iter. cbn [b_x b_res b_pk b_v b_rho b_om b_al b_stag b_more b_nmin b_xmin b_imin b_abs b_calls b_b app_op].
  rewrite Ed, Gd. cbn [orb Nat.eqb negb andb app_op]. rewrite AC, Ed, Gd. cbn [orb].
  rewrite (fdiv_self _ Vd Fd Zd). change (fgt (fabs (fofZ 1)) f_1e20) with false. cbv iota.
  change (fofZ 1) with c_one. rewrite AX. change (fopp c_one) with c_m1.
  set (stag := if flt _ _ then _ else _).
  assert (L : Nat.leb maxstagsteps stag = false) by (unfold stag; destruct (flt _ _); reflexivity).
  unfold bcheck. rewrite N1, T0. cbn [orb]. rewrite AC, N2, T0.
  cbn [be_flag be_st be_iter b_x b_abs b_calls Nat.eqb]. eexists. split; [reflexivity|]. reflexivity.
Qed.
End Any.
