From Coq Require Import List Bool Arith ZArith Lia.
From Verif Require Import FloatBase KrylovModel KrylovSpec.

Section P.
Variable V : Type.
Variables (axpy : b64 -> V -> V -> V) (scale : b64 -> V -> V) (dot : V -> V -> b64) (nrm : V -> b64) (zero : V -> V).
Variables (A : nat -> V -> V) (ML MR : option (nat -> V -> V)).

Notation pcg_iter := (pcg_iter V axpy scale dot nrm A ML MR).
Notation pcg_loop := (pcg_loop V axpy scale dot nrm A ML MR).
Notation pcg_solve := (pcg_solve V axpy scale dot nrm zero A ML MR).
Notation bi_iter := (bi_iter V axpy scale dot nrm A ML MR).
Notation bi_loop := (bi_loop V axpy scale dot nrm A ML MR).
Notation bi_solve := (bi_solve V axpy scale dot nrm zero A ML MR).
Notation bcheck := (bcheck V axpy scale nrm A).
Notation residual_of := (residual_of V axpy scale nrm A).

Definition one (M : option (nat -> V -> V)) : nat := match M with Some _ => 1 | None => 0 end.
(** operator calls of one application of both preconditioners *)
Definition pc : nat := one ML + one MR.

Lemma app_op_calls M k v k' y : app_op V M k v = (k', y) -> k' = k + one M.
Proof. unfold app_op. destruct M; intros H; injection H as <- _; cbn; lia. Qed.

(** *** conjugate gradients *)
Definition pend_ok (b : V) (tb : b64) (ii : nat) (s : pcg V) (e : ended V) : Prop :=
  let st := e_st V e in
  e_ii V e = ii /\ e_iter V e = 2 * (ii + 1) /\
  (e_flag V e = 0 \/ e_flag V e = 3 \/ e_flag V e = 4) /\
  (e_flag V e = 0 -> residual_of b (p_x V st) (p_abs V st) /\ fle (p_abs V st) tb = true) /\
  p_calls V st <= p_calls V s + pc + 2 /\
  (p_imin V st = p_imin V s \/ p_imin V st = ii).
Definition pnext_ok (ii : nat) (s s' : pcg V) : Prop :=
  p_calls V s' <= p_calls V s + pc + 2 /\ (p_imin V s' = p_imin V s \/ p_imin V s' = ii).

Lemma pcg_iter_ok b tb ii s :
  match pcg_iter b tb ii s with inl e => pend_ok b tb ii s e | inr s' => pnext_ok ii s s' end.
Proof.
  unfold KrylovModel.pcg_iter.
  destruct (app_op V ML (p_calls V s) (p_res V s)) as [k1 y] eqn:E1.
  destruct (app_op V MR k1 y) as [k2 z] eqn:E2.
  apply app_op_calls in E1. apply app_op_calls in E2.
  set (rho := dot (p_res V s) z).
  destruct (feq rho f_zero || fgt (fabs rho) f_1e20).
  { unfold pend_ok, pc; cbn [e_ii e_iter e_flag e_st p_calls p_imin]; repeat split; auto; try lia; intros; discriminate. }
  destruct (negb (ii =? 0) && (feq (fdiv rho (p_rho V s)) f_zero || fgt (fabs (fdiv rho (p_rho V s))) f_1e20)).
  { unfold pend_ok, pc; cbn [e_ii e_iter e_flag e_st p_calls p_imin]; repeat split; auto; try lia; intros; discriminate. }
  set (pk := if ii =? 0 then z else _).
  set (qk := A k2 pk).
  destruct (fle (dot pk qk) f_zero || fgt (fabs (dot pk qk)) f_1e20).
  { unfold pend_ok, pc; cbn [e_ii e_iter e_flag e_st p_calls p_imin]; repeat split; auto; try lia; intros; discriminate. }
  set (alpha := fdiv rho (dot pk qk)).
  destruct (fgt (fabs alpha) f_1e20).
  { unfold pend_ok, pc; cbn [e_ii e_iter e_flag e_st p_calls p_imin]; repeat split; auto; try lia; intros; discriminate. }
  set (stag := if flt _ _ then S (p_stag V s) else 0).
  set (x := axpy alpha pk (p_x V s)).
  set (res := axpy (fopp alpha) qk (p_res V s)).
  destruct (fle (nrm res) tb || (maxstagsteps <=? stag) || negb (p_more V s =? 0)); cbn [andb].
  - destruct (fle (nrm (resid V axpy scale (A (S k2) x) b)) tb) eqn:EF.
    { unfold pend_ok, pc; cbn [e_ii e_iter e_flag e_st p_calls p_imin p_abs p_x]; repeat split; auto; try lia.
      exists (S k2). reflexivity. }
    destruct (maxmsteps <=? S (p_more V s)).
    { unfold pend_ok, pc; cbn [e_ii e_iter e_flag e_st p_calls p_imin]; repeat split; auto; try lia; intros; discriminate. }
    destruct (maxstagsteps <=? (if (maxstagsteps <=? stag) && (p_more V s =? 0) then 0 else stag)).
    + unfold pend_ok, pc; cbn [e_ii e_iter e_flag e_st p_calls p_imin]; repeat split; auto; try lia; try (intros; discriminate).
      match goal with |- context[if ?c then ii else _] => destruct c end; auto.
    + unfold pnext_ok, pc; cbn [p_calls p_imin]; split; [lia|].
      match goal with |- context[if ?c then ii else _] => destruct c end; auto.
  - destruct (maxstagsteps <=? stag).
    + unfold pend_ok, pc; cbn [e_ii e_iter e_flag e_st p_calls p_imin]; repeat split; auto; try lia; try (intros; discriminate).
      match goal with |- context[if ?c then ii else _] => destruct c end; auto.
    + unfold pnext_ok, pc; cbn [p_calls p_imin]; split; [lia|].
      match goal with |- context[if ?c then ii else _] => destruct c end; auto.
Qed.

Definition loop_ok (b : V) (tb : b64) (oi ii fuel : nat) (s : pcg V) (e : ended V) : Prop :=
  let st := e_st V e in
  e_ii V e <= ii + fuel /\
  (e_flag V e = 0 \/ e_flag V e = 1 \/ e_flag V e = 3 \/ e_flag V e = 4) /\
  (e_flag V e = 0 -> residual_of b (p_x V st) (p_abs V st) /\ fle (p_abs V st) tb = true /\ 2 * ii < e_iter V e <= 2 * (ii + fuel)) /\
  p_calls V st <= p_calls V s + (pc + 2) * fuel /\
  (p_imin V st = p_imin V s \/ p_imin V st < ii + fuel).

Lemma pcg_loop_ok b tb oi fuel : forall ii s, loop_ok b tb oi ii fuel s (pcg_loop b tb oi fuel ii s).
Proof.
  induction fuel as [|fuel IH]; intros ii s; cbn [KrylovModel.pcg_loop].
  - unfold loop_ok; cbn [e_ii e_iter e_flag e_st]; split; [lia|]; split; [auto|]; split; [discriminate|]; split; [lia|auto].
  - pose proof (pcg_iter_ok b tb ii s) as HI. destruct (pcg_iter b tb ii s) as [e|s'].
    + destruct HI as (I1 & I2 & I3 & I4 & I5 & I6). unfold loop_ok.
      split; [lia|]. split; [tauto|]. split.
      { intros F. destruct (I4 F). split; [|split]; auto; lia. }
      split; [nia|]. destruct I6; [left|right]; lia.
    + destruct HI as (N1 & N2). destruct (IH (S ii) s') as (I1 & I2 & I3 & I4 & I5).
      unfold loop_ok. split; [lia|]. split; [assumption|]. split.
      { intros F. destruct (I3 F) as (? & ? & ?). split; [|split]; auto; lia. }
      split; [nia|]. destruct I5 as [I5|I5]; [|right; lia]. destruct N2; [left|right]; lia.
Qed.

(** what either solver is shown to do; [c] operator calls at most *)
Definition solve_ok (s : solver V) (b : V) (per : nat) (out : solver V * V * bool * nat) : Prop :=
  let '(s', x, ok, calls) := out in
  (ok = true -> k_flag V s' = 0 /\ k_iter V s' <= 2 * k_maxit V s /\
     ((feq (nrm b) f_zero = true /\ x = b /\ k_iter V s' = 0 /\ calls = 0 /\ k_x0 V s' = k_x0 V s) \/
      (residual_of b x (k_abs V s') /\ fle (k_abs V s') (fmul (k_tol V s) (nrm b)) = true /\
       k_rel V s' = fdiv (k_abs V s') (nrm b) /\ k_x0 V s' = Some x /\ feq (nrm b) f_zero = false))) /\
  (ok = false -> (k_flag V s' = 1 \/ k_flag V s' = 3 \/ k_flag V s' = 4) /\ k_iter V s' <= 2 * (k_maxit V s + 1) /\
     feq (nrm b) f_zero = false /\ k_rel V s' = fdiv (k_abs V s') (nrm b)) /\
  calls <= per * k_maxit V s + 2 /\
  k_tol V s' = k_tol V s /\ k_maxit V s' = k_maxit V s.

Lemma pcg_solve_ok s b : solve_ok s b (pc + 2) (pcg_solve s b).
Proof.
  unfold KrylovModel.pcg_solve, solve_ok.
  destruct (feq (nrm b) f_zero) eqn:EZ.
  { cbn. split; [|split; [|split; [lia|split; reflexivity]]]; [|discriminate]. intros _. split; [reflexivity|]. split; [lia|]. left. auto. }
  set (x0 := match k_x0 V s with Some x => x | None => zero b end).
  destruct (fle (nrm (resid V axpy scale (A 0 x0) b)) (tolb V s (nrm b))) eqn:EF.
  { cbn. split; [|split; [discriminate|split; [lia|split; reflexivity]]]. intros _. split; [reflexivity|]. split; [lia|].
    right. split; [exists 0; reflexivity|]. auto. }
  set (s0 := Pcg V x0 _ b c_one 0 0 _ x0 0 _ 1).
  pose proof (pcg_loop_ok b (tolb V s (nrm b)) (k_iter V s) (k_maxit V s) 0 s0) as HL.
  set (e := KrylovModel.pcg_loop V axpy scale dot nrm A ML MR b (tolb V s (nrm b)) (k_iter V s) (k_maxit V s) 0 s0) in *.
  clearbody e.
  destruct HL as (L1 & L2 & L3 & L4 & L5). cbn [s0 p_calls p_imin] in L4, L5. unfold s0 in L4, L5; cbn [p_calls p_imin] in L4, L5.
  destruct (e_flag V e =? 0) eqn:E0.
  - apply Nat.eqb_eq in E0. destruct (L3 E0) as (R1 & R2 & R3). cbn [k_flag k_iter k_abs k_rel k_tol k_maxit k_x0].
    split; [|split; [discriminate|split; [lia|split; reflexivity]]]. intros _. split; [reflexivity|]. split; [lia|].
    right. auto.
  - apply Nat.eqb_neq in E0.
    destruct (fle (nrm (resid V axpy scale (A (p_calls V (e_st V e)) (p_xmin V (e_st V e))) b)) (p_abs V (e_st V e)));
      cbn [k_flag k_iter k_abs k_rel k_tol k_maxit k_x0];
      (split; [discriminate|split; [|split; [lia|split; reflexivity]]]); intros _; (split; [tauto|]); (split; [lia|auto]).
Qed.

(** *** BiCGStab *)
Lemma bcheck_ok b x tb r stag more k r' ab stag' more' k' out :
  bcheck b x tb r stag more k = (r', ab, stag', more', k', out) ->
  k' <= S k /\ (out = Some 0 -> residual_of b x ab /\ fle ab tb = true) /\ (out = None \/ out = Some 0 \/ out = Some 3).
Proof.
  unfold KrylovModel.bcheck.
  destruct (fle (nrm r) tb || (maxstagsteps <=? stag) || negb (more =? 0)).
  - destruct (fle (nrm (resid V axpy scale (A k x) b)) tb) eqn:EF.
    + intros H; injection H as <- <- <- <- <- <-. split; [lia|]. split; [|auto]. intros _. split; [exists k; reflexivity|exact EF].
    + destruct (maxmsteps <=? S more); intros H; injection H as <- <- <- <- <- <-; (split; [lia|]); (split; [discriminate|auto]).
  - intros H; injection H as <- <- <- <- <- <-. split; [lia|]. split; [discriminate|auto].
Qed.

Definition bend_ok (tb : b64) (ii : nat) (s : bst V) (e : bended V) : Prop :=
  let st := be_st V e in
  be_ii V e = ii /\ 2 * ii < be_iter V e <= 2 * (ii + 1) /\
  (be_flag V e = 0 \/ be_flag V e = 3 \/ be_flag V e = 4) /\
  (be_flag V e = 0 -> residual_of (b_b V s) (b_x V st) (b_abs V st) /\ fle (b_abs V st) tb = true) /\
  b_calls V st <= b_calls V s + 2 * pc + 4 /\
  (b_imin V st = b_imin V s \/ b_imin V st <= 2 * (ii + 1)).
Definition bnext_ok (ii : nat) (s s' : bst V) : Prop :=
  b_calls V s' <= b_calls V s + 2 * pc + 4 /\ (b_imin V s' = b_imin V s \/ b_imin V s' <= 2 * (ii + 1)) /\ b_b V s' = b_b V s.

Ltac quick := unfold bend_ok, pc; cbn [be_ii be_iter be_flag be_st b_calls b_imin b_abs b_x]; repeat split; auto; try lia; try (intros; discriminate).
Ltac imins := repeat match goal with |- context[if ?c then _ else _] => destruct c end; first [left; reflexivity | right; lia].

Lemma bi_iter_ok rt tb ii s :
  match bi_iter rt tb ii s with inl e => bend_ok tb ii s e | inr s' => bnext_ok ii s s' end.
Proof.
  unfold KrylovModel.bi_iter.
  set (rho := dot rt (b_res V s)).
  destruct (feq rho f_zero || fgt (fabs rho) c_1e40); [quick|].
  set (beta := fmul _ _).
  destruct (negb (ii =? 0) && (feq beta f_zero || fgt (fabs beta) c_1e40)); [quick|].
  set (pk := if ii =? 0 then b_res V s else _).
  destruct (app_op V ML (b_calls V s) pk) as [k1 ph1] eqn:E1.
  destruct (app_op V MR k1 ph1) as [k2 ph] eqn:E2.
  apply app_op_calls in E1. apply app_op_calls in E2.
  set (v := A k2 ph).
  destruct (feq (dot rt v) f_zero || fgt (fabs (dot rt v)) c_1e40); [quick|].
  set (al := fdiv rho (dot rt v)).
  destruct (fgt (fabs al) f_1e20); [quick|].
  set (stag := if flt _ _ then S (b_stag V s) else 0).
  set (x := axpy al ph (b_x V s)).
  destruct (bcheck (b_b V s) x tb (axpy (fopp al) v (b_res V s)) stag (b_more V s) (S k2)) as [[[[[sk ab] stag1] more1] k3] out] eqn:EC.
  apply bcheck_ok in EC. destruct EC as (C1 & C2 & C3).
  destruct out as [[|f]|].
  - destruct (C2 eq_refl). quick.
  - destruct C3 as [C3|[C3|C3]]; try discriminate. injection C3 as ->. quick.
  - clear C2 C3. destruct (maxstagsteps <=? stag1); [quick|].
    destruct (app_op V ML k3 sk) as [k4 ph2] eqn:E3.
    destruct (app_op V MR k4 ph2) as [k5 ph3] eqn:E4.
    apply app_op_calls in E3. apply app_op_calls in E4.
    set (t := A k5 ph3).
    destruct (feq (dot t t) f_zero || fgt (fabs (dot t t)) f_1e20); [quick; imins|].
    set (om := fdiv (dot t sk) (dot t t)).
    destruct (fgt (fabs om) f_1e20); [quick; imins|].
    set (stag2 := if flt _ _ then S stag1 else 0).
    set (x2 := axpy om ph3 x).
    destruct (bcheck (b_b V s) x2 tb (axpy (fopp om) t sk) stag2 more1 (S k5)) as [[[[[res ab2] stag3] more2] k6] out] eqn:EC.
    apply bcheck_ok in EC. destruct EC as (D1 & D2 & D3).
    destruct out as [[|f]|].
    + destruct (D2 eq_refl). quick; imins.
    + destruct D3 as [D3|[D3|D3]]; try discriminate. injection D3 as ->. quick; imins.
    + destruct (maxstagsteps <=? stag3); [quick; imins|].
      unfold bnext_ok, pc; cbn [b_calls b_imin b_b]. split; [lia|]. split; [imins|reflexivity].
Qed.

Definition bloop_ok (tb : b64) (ii fuel : nat) (s : bst V) (e : bended V) : Prop :=
  let st := be_st V e in
  be_ii V e <= ii + fuel /\
  (be_flag V e = 0 \/ be_flag V e = 1 \/ be_flag V e = 3 \/ be_flag V e = 4) /\
  (be_flag V e = 0 -> residual_of (b_b V s) (b_x V st) (b_abs V st) /\ fle (b_abs V st) tb = true /\ 2 * ii < be_iter V e <= 2 * (ii + fuel)) /\
  b_calls V st <= b_calls V s + (2 * pc + 4) * fuel /\
  (b_imin V st = b_imin V s \/ b_imin V st <= 2 * (ii + fuel)).

Lemma bi_loop_ok rt tb oi fuel : forall ii s, bloop_ok tb ii fuel s (bi_loop rt tb oi fuel ii s).
Proof.
  induction fuel as [|fuel IH]; intros ii s; cbn [KrylovModel.bi_loop].
  - unfold bloop_ok; cbn [be_ii be_iter be_flag be_st]; split; [lia|]; split; [auto|]; split; [discriminate|]; split; [lia|auto].
  - pose proof (bi_iter_ok rt tb ii s) as HI. destruct (bi_iter rt tb ii s) as [e|s'].
    + destruct HI as (I1 & I2 & I3 & I4 & I5 & I6). unfold bloop_ok.
      split; [lia|]. split; [tauto|]. split.
      { intros F. destruct (I4 F). split; [|split]; auto; lia. }
      split; [nia|]. destruct I6; [left|right]; lia.
    + destruct HI as (N1 & N2 & N3). destruct (IH (S ii) s') as (I1 & I2 & I3 & I4 & I5). rewrite N3 in I3.
      unfold bloop_ok. split; [lia|]. split; [assumption|]. split.
      { intros F. destruct (I3 F) as (? & ? & ?). split; [|split]; auto; lia. }
      split; [nia|]. destruct I5 as [I5|I5]; [|right; lia]. destruct N2; [left|right]; lia.
Qed.

Lemma bi_solve_ok s b : solve_ok s b (2 * pc + 4) (bi_solve s b).
Proof.
  unfold KrylovModel.bi_solve, solve_ok.
  destruct (feq (nrm b) f_zero) eqn:EZ.
  { cbn [k_flag k_iter k_abs k_rel k_tol k_maxit k_x0]. split; [|split; [|split; [lia|split; reflexivity]]]; [|discriminate]. intros _. split; [reflexivity|]. split; [lia|]. left. auto. }
  set (x0 := match k_x0 V s with Some x => x | None => zero b end).
  destruct (fle (nrm (resid V axpy scale (A 0 x0) b)) (tolb V s (nrm b))) eqn:EF.
  { cbn [k_flag k_iter k_abs k_rel k_tol k_maxit k_x0]. split; [|split; [discriminate|split; [lia|split; reflexivity]]]. intros _. split; [reflexivity|]. split; [lia|].
    right. split; [exists 0; reflexivity|]. auto. }
  set (s0 := Bst V x0 _ b b c_one c_one c_one 0 0 _ x0 0 _ 1 b).
  pose proof (bi_loop_ok (resid V axpy scale (A 0 x0) b) (tolb V s (nrm b)) (k_iter V s) (k_maxit V s) 0 s0) as HL.
  set (e := KrylovModel.bi_loop V axpy scale dot nrm A ML MR _ (tolb V s (nrm b)) (k_iter V s) (k_maxit V s) 0 s0) in *.
  clearbody e.
  destruct HL as (L1 & L2 & L3 & L4 & L5). unfold s0 in L3, L4, L5; cbn [b_calls b_imin b_b] in L3, L4, L5.
  destruct (be_flag V e =? 0) eqn:E0.
  - apply Nat.eqb_eq in E0. destruct (L3 E0) as (R1 & R2 & R3). cbn [k_flag k_iter k_abs k_rel k_tol k_maxit k_x0].
    split; [|split; [discriminate|split; [lia|split; reflexivity]]]. intros _. split; [reflexivity|]. split; [lia|].
    right. auto.
  - apply Nat.eqb_neq in E0.
    destruct (fle (nrm (resid V axpy scale (A (b_calls V (be_st V e)) (b_xmin V (be_st V e))) (b_b V (be_st V e)))) (b_abs V (be_st V e)));
      cbn [k_flag k_iter k_abs k_rel k_tol k_maxit k_x0];
      (split; [discriminate|split; [|split; [lia|split; reflexivity]]]); intros _; (split; [tauto|]); (split; [lia|auto]).
Qed.
End P.
