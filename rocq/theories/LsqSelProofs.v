(** Proofs for [LsqSelModel]. *)
From Coq Require Import List Bool Arith Reals.
From Verif Require Import LinSelModel LinSelSpec LinSelProofs InertiaModel LsqModel LsqSelModel LsqSelSpec.
Import ListNotations.
Local Close Scope R_scope. Local Open Scope nat_scope.

Ltac cases_b b := destruct b as [c p st g rs cu mg gp rj]; destruct c, p, st, g, rs.
Ltac fin H := cbn in *; repeat match goal with
  | H : _ /\ _ |- _ => destruct H
  | H : _ \/ _ |- _ => destruct H
  | H : False |- _ => destruct H
  | H : Cur _ = Cur _ |- _ => injection H as H
  | H : Some _ = Some _ |- _ => injection H as H
  end; subst; try discriminate; try reflexivity; auto 10.

(** the decidable form of [choice] *)
Fixpoint first_b (b : build) (order : list solver) : option solver :=
  match order with [] => None | s :: r => if avail b s then Some s else first_b b r end.
Definition choice_b (b : build) (order : list solver) (l : option solver) : option solver :=
  match l with Some t => if existsb (seqb t) order && avail b t then Some t else None | None => first_b b order end.

Lemma first_b_ok b order s : first_b b order = Some s <-> first_of b order s.
Proof.
  induction order as [|a r IH]; cbn [first_b].
  - split; [discriminate | intro H; destruct (first_of_nil b s H)].
  - rewrite first_of_cons. destruct (avail b a) eqn:A.
    + split; [intro H; injection H as <-; auto | intros [[_ ->]|[H _]]; [reflexivity | discriminate H]].
    + rewrite IH. split; [auto | intros [[H _]|[_ H]]; [discriminate H | exact H]].
Qed.
Lemma choice_b_ok b order l s : choice_b b order l = Some s <-> choice b order l s.
Proof.
  destruct l as [t|]; cbn [choice_b choice]; [|apply first_b_ok].
  assert (E : existsb (seqb t) order = true <-> In t order).
  { rewrite existsb_exists. split; [intros (x & Hx & E); apply seqb_eq in E; subst; exact Hx
      | intro H; exists t; split; [exact H | apply seqb_eq; reflexivity]]. }
  destruct (existsb (seqb t) order) eqn:X; destruct (avail b t) eqn:A; cbn; split; intro H;
    try discriminate H; try (injection H as <-; repeat split; auto; apply E; reflexivity);
    try (destruct H as (-> & Hin & Av); first [reflexivity | discriminate Av | apply E in Hin; discriminate Hin]).
Qed.

Lemma lsq_cpu_ok b l ic s :
  sel_lsq b Cpu l ic = Cur (Some s) <-> choice b lsq_cpu_order l s /\ (s = STRUMPACK -> ic = false).
Proof.
  rewrite <- choice_b_ok.
  cases_b b; destruct l as [[]|]; destruct ic; destruct s; cbn; split; intro H;
    try discriminate H; try (split; [reflexivity|]; intro E; first [reflexivity | discriminate E]);
    destruct H as [H1 H2]; first [reflexivity | discriminate H1 | discriminate (H2 eq_refl)].
Qed.
Lemma none_fits_b b order l : none_fits b order l <-> choice_b b order l = None.
Proof.
  unfold none_fits. split.
  - intro H. destruct (choice_b b order l) as [s|] eqn:E; [|reflexivity]. apply choice_b_ok in E. destruct (H s E).
  - intros H s E. apply choice_b_ok in E. rewrite H in E. discriminate E.
Qed.
Lemma lsq_cpu_none b l ic :
  sel_lsq b Cpu l ic = Cur None <-> none_fits b lsq_cpu_order l /\ avail b STRUMPACK = false.
Proof.
  rewrite none_fits_b.
  cases_b b; destruct l as [[]|]; destruct ic; cbn; split; intro H; try discriminate H; try (split; reflexivity);
    destruct H as [H1 H2]; first [reflexivity | discriminate H1 | discriminate H2].
Qed.

Lemma lsq_dev_auto b mode ic s : mode = Hybrid \/ mode = CAuto ->
  sel_lsq b mode None ic = Cur (Some s) <-> first_of b lsq_device_order s /\ (avail b RESOLVE = true -> ic = false).
Proof.
  intro M. rewrite <- first_b_ok. destruct M as [-> | ->];
  (cases_b b; destruct ic; destruct s; cbn; split; intro H;
    try discriminate H; try (split; [reflexivity|]; intro E; first [reflexivity | discriminate E]);
    destruct H as [H1 H2]; first [reflexivity | discriminate H1 | discriminate (H2 eq_refl)]).
Qed.
Lemma lsq_dev_request b mode t ic : mode = Hybrid \/ mode = CAuto -> (avail b RESOLVE = true -> ic = false) ->
  In t lsq_device_order -> avail b t = true ->
  (t = PARDISO -> avail b MA57 = false) -> (t = GINKGO -> avail b MA57 = false /\ avail b PARDISO = false) ->
  sel_lsq b mode (Some t) ic = Cur (Some t).
Proof.
  intros M A I V P G. cases_b b; destruct t; destruct ic; cbn in *; destruct M as [-> | ->];
    try discriminate V; try (discriminate (A eq_refl)); try (discriminate (P eq_refl));
    try (destruct (G eq_refl) as [G1 G2]; first [discriminate G1 | discriminate G2]); try reflexivity;
    exfalso; repeat (destruct I as [I|I]; [discriminate I|]); destruct I.
Qed.
(** what is used on a device is what was named or found by auto, or Ginkgo *)
Lemma lsq_dev_sound b mode l ic s : sel_lsq b mode l ic = Cur (Some s) -> mode <> Cpu ->
  choice b lsq_device_order l s \/ (s = GINKGO /\ avail b GINKGO = true /\ none_fits b lsq_device_order l).
Proof.
  intros H M. rewrite <- choice_b_ok, none_fits_b.
  cases_b b; destruct l as [[]|]; destruct ic; destruct mode; try (destruct (M eq_refl)); cbn in *; try discriminate H;
    injection H as <-; auto.
Qed.
Lemma lsq_gpu b l ic : sel_lsq b Gpu l ic = Abort.
Proof. cases_b b; destruct l as [[]|]; destruct ic; reflexivity. Qed.
Lemma lsq_resolve_ic b mode l : avail b RESOLVE = true -> mode <> Cpu -> sel_lsq b mode l true = Abort.
Proof.
  intros V M. destruct mode; [| destruct (M eq_refl) | |]; cbn in V; cbn; unfold lsq_device; rewrite V; cbn; try reflexivity.
  destruct (negb _); reflexivity.
Qed.
Lemma start_no_solver b mode l ic upd me mi ymax : sel_lsq b mode l ic = Cur None ->
  start_duals b mode l ic upd me mi ymax = Some ((fun _ => 0%R), (fun _ => 0%R)).
Proof. intro H. unfold start_duals. rewrite H. reflexivity. Qed.
Lemma rinfnorm_ge n v y : (0 <= y)%R -> (forall k, k < n -> (Rabs (v k) <= y)%R) -> (rinfnorm n v <= y)%R.
Proof.
  intros P H. unfold rinfnorm.
  assert (A : forall k, In k (seq 0 n) -> (Rabs (v k) <= y)%R).
  { intros k Hk. apply in_seq in Hk. apply H. destruct Hk as [_ Hk]. exact Hk. }
  revert A. generalize 0%R P. induction (seq 0 n) as [|j r IH]; intros a Pa A; cbn [fold_left]; [exact Pa|].
  apply IH; [apply Rmax_lub; [exact Pa | apply A; left; reflexivity] | intros k Hk; apply A; right; exact Hk].
Qed.
Lemma start_solver b mode l ic upd me mi ymax s ok yc yd : sel_lsq b mode l ic = Cur (Some s) ->
  upd s (fun _ => 0%R) (fun _ => 0%R) = (ok, yc, yd) ->
  start_duals b mode l ic upd me mi ymax =
    Some (if rltb ymax (if rltb (rinfnorm mi yd) (rinfnorm me yc) then rinfnorm me yc else rinfnorm mi yd) || negb ok
          then ((fun _ => 0%R), (fun _ => 0%R)) else (yc, yd)).
Proof.
  intros H E. unfold start_duals. rewrite H. cbn [negb null]. unfold initial_duals. rewrite E.
  destruct (_ || _)%bool; reflexivity.
Qed.
Lemma lsq_cpu_abort b l ic :
  sel_lsq b Cpu l ic = Abort <->
  avail b STRUMPACK = true /\
  ((exists t, l = Some t /\ none_fits b lsq_cpu_order l) \/ (choice b lsq_cpu_order l STRUMPACK /\ ic = true)).
Proof.
  assert (F : (exists t, l = Some t /\ none_fits b lsq_cpu_order l) <->
    is_auto l = false /\ choice_b b lsq_cpu_order l = None).
  { rewrite <- none_fits_b. split; [intros (t & -> & N); auto | intros [A N]; destruct l as [t|]; [eauto | discriminate A]]. }
  rewrite F, <- choice_b_ok. clear F.
  cases_b b; destruct l as [[]|]; destruct ic; cbn; split; intro H; try discriminate H;
    try (split; [reflexivity|]; first [right; split; reflexivity | left; split; reflexivity]);
    destruct H as [H1 [[H2 H3]|[H2 H3]]]; first [reflexivity | discriminate H1 | discriminate H2 | discriminate H3].
Qed.
Lemma lsq_dev_abort b mode l ic : mode = Hybrid \/ mode = CAuto ->
  sel_lsq b mode l ic = Abort <->
  (avail b RESOLVE = true /\ ic = true) \/
  exists t s, l = Some t /\ first_of b [MA57; PARDISO] s /\ s <> t /\
    ((t = RESOLVE \/ t = STRUMPACK) -> avail b t = false).
Proof.
  intro M.
  assert (E : (exists t s, l = Some t /\ first_of b [MA57; PARDISO] s /\ s <> t /\
      ((t = RESOLVE \/ t = STRUMPACK) -> avail b t = false)) <->
    match l with
    | None => False
    | Some t => match first_b b [MA57; PARDISO] with
                | Some s => seqb s t = false /\ (seqb t RESOLVE || seqb t STRUMPACK) && avail b t = false
                | None => False
                end
    end).
  { split.
    - intros (t & s & -> & F & N & V). apply first_b_ok in F. rewrite F. split.
      + destruct (seqb s t) eqn:X; [apply seqb_eq in X; contradiction | reflexivity].
      + destruct (seqb t RESOLVE) eqn:X1; [apply seqb_eq in X1; rewrite V by auto; reflexivity|].
        destruct (seqb t STRUMPACK) eqn:X2; [apply seqb_eq in X2; rewrite V by auto; reflexivity|]. reflexivity.
    - destruct l as [t|]; [|intros []]. destruct (first_b b [MA57; PARDISO]) as [s|] eqn:F; [|intros []].
      intros [N V]. exists t, s. split; [reflexivity|]. split; [apply first_b_ok, F|]. split.
      + intro X. apply seqb_eq in X. rewrite X in N. discriminate N.
      + intros [-> | ->]; exact V. }
  rewrite E. clear E.
  destruct M as [-> | ->];
  (cases_b b; destruct l as [[]|]; destruct ic; cbn; split; intro H; try discriminate H; try reflexivity;
    try (left; split; reflexivity); try (right; split; reflexivity);
    destruct H as [[H1 H2]|H]; try discriminate H1; try discriminate H2; try (destruct H as [H1 H2]; discriminate);
    try (destruct H)).
Qed.
