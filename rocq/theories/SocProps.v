(** C89: second-order corrections. *)
From Coq Require Import List Bool Arith QArith Qcanon Lia Ring Field.
From Verif Require Import RingKit KktModel KktSpec KktProofs4 SocModel SocSpec SocProofs.
From Verif Require VecModel.
Import ListNotations.
Local Close Scope Qc_scope. Local Close Scope Q_scope. Local Open Scope nat_scope.

(** every corrected direction solves the Newton system of the current point with the combined constraint violations; its
    step is the one the fraction-to-the-boundary rule gives for it; the user's constraints are evaluated at the
    corrected point *)
Theorem C89_corrected_direction : forall (K : cfield) (O : oracle K) P v it max_soc alpha tr ct dt res o h,
  matches K P res -> keeps_xd K (o_slacks O) -> soc K O P v it max_soc alpha tr ct dt res = (o, h) ->
  length h <= max_soc /\ (o = Accepted -> h <> []) /\
  forall k q, nth_error h k = Some q ->
    q_alpha q = o_step O (q_w q) /\
    (forall i, w_x (q_it q) i = w_x it i +! q_alpha q *! w_x (q_w q) i) /\ (forall i, w_d (q_it q) i = w_d it i +! q_alpha q *! w_d (q_w q) i) /\
    o_eval O (w_x (q_it q)) = Some (q_c q, q_d q) /\
    exists r, o_dirs O r = Some (q_w q) /\
      kkt_violation K P (corrected K v it (fun i => mix K (steps K alpha (firstn k h)) (eq_viol K v ct (firstn k h) i))
                                          (fun i => mix K (steps K alpha (firstn k h)) (in_viol K v it tr dt (firstn k h) i))) it r.
Proof.
  intros K O P v it ms alpha tr ct dt res o h M Hx E. unfold soc in E.
  destruct (loop_ok K O P v it ms 0 (Sst K (fun i => v_crhs v i -! v_c v i) (fun i => w_d it i -! v_d v i) alpha tr ct dt res) o h [] (fun i => [v_crhs v i -! v_c v i]) (fun i => [w_d it i -! v_d v i]) M (fun _ => eq_refl) (fun _ => eq_refl)
     (fun i => eq_sym (mix_one K _)) (fun i => eq_sym (mix_one K _)) E) as (L1 & L2 & L3).
  split; [exact L1|]. split; [exact L2|]. intros k q Hq. destruct (L3 k q Hq) as ((G1 & G2 & t & G3) & R).
  destruct (Hx (take_step K it (q_w q) t (q_alpha q))) as [X1 X2].
  split; [exact G1|]. split; [intro i; rewrite G3, X1; reflexivity|]. split; [intro i; rewrite G3, X2; reflexivity|]. split; [exact G2|]. exact R.
Qed.
Print Assumptions C89_corrected_direction.

(** so, with a solver that returns solutions and without dual regularization, the correction removes the combined violations to first order *)
Theorem C89_linearized : forall (K : cfield) (O : oracle K) P v it e max_soc alpha tr ct dt res o h,
  matches K P res -> keeps_xd K (o_slacks O) -> (forall r w, o_dirs O r = Some w -> newton K P it e r w) ->
  (forall i, i < neq P -> e_cc e i = f0) -> (forall i, i < ni P -> e_cd e i = f0) ->
  soc K O P v it max_soc alpha tr ct dt res = (o, h) ->
  forall k q, nth_error h k = Some q ->
    (forall i, i < neq P -> sumn (nx P) (fun j => p_Jc P i j *! w_x (q_w q) j) = mix K (steps K alpha (firstn k h)) (eq_viol K v ct (firstn k h) i)) /\
    (forall i, i < ni P -> sumn (nx P) (fun j => p_Jd P i j *! w_x (q_w q) j) -! w_d (q_w q) i = mix K (steps K alpha (firstn k h)) (in_viol K v it tr dt (firstn k h) i)).
Proof.
  intros K O P v it e ms alpha tr ct dt res o h M Hx Hs Ec Ed E k q Hq.
  destruct (C89_corrected_direction K O P v it ms alpha tr ct dt res o h M Hx E) as (_ & _ & H). destruct (H k q Hq) as (_ & _ & _ & _ & r & R1 & R2).
  exact (rows_ok K P v it e _ _ r _ Ec Ed R2 (Hs r _ R1)).
Qed.
Print Assumptions C89_linearized.

(** for affine constraints corrections change nothing: each corrected direction solves the Newton system of the direction it replaces *)
Theorem C89_affine : forall (K : cfield) (O : oracle K) P v it e bc bd max_soc r0 w0 alpha tr ct dt res o h,
  matches K P res -> keeps_xd K (o_slacks O) -> (forall r w, o_dirs O r = Some w -> newton K P it e r w) ->
  (forall i, i < neq P -> e_cc e i = f0) -> (forall i, i < ni P -> e_cd e i = f0) ->
  (forall x c d, o_eval O x = Some (c, d) -> affine_at K P bc bd x c d) -> affine_at K P bc bd (w_x it) (v_c v) (v_d v) ->
  kkt_violation K P v it r0 -> newton K P it e r0 w0 ->
  (forall i, w_x tr i = w_x it i +! alpha *! w_x w0 i) -> (forall i, w_d tr i = w_d it i +! alpha *! w_d w0 i) -> o_eval O (w_x tr) = Some (ct, dt) ->
  soc K O P v it max_soc alpha tr ct dt res = (o, h) ->
  forall q, In q h -> exists r, newton K P it e r (q_w q) /\ kkt_violation K P v it r.
Proof.
  intros K O P v it e bc bd ms r0 w0 alpha tr ct dt res o h M Hx Hs Ec Ed Ha H0 V0 N0 Tx Td Et E q Hq.
  destruct (loop_affine K O P v it bc bd e Hx Hs (conj Ec Ed) Ha H0 ms 0 (Sst K (fun i => v_crhs v i -! v_c v i) (fun i => w_d it i -! v_d v i) alpha tr ct dt res) o h M
     (fun _ _ => eq_refl) (fun _ _ => eq_refl) (shrunk_step K P v it bc bd e (conj Ec Ed) H0 r0 w0 alpha tr ct dt V0 N0 Tx Td (Ha _ _ _ Et)) E q Hq) as (r & R1 & R2).
  exists r. split; [apply Hs, R1|exact R2].
Qed.
Print Assumptions C89_affine.

(** *** one variable x >= 0 and one equality c(x) = 0 at x = 1, sxl = zl = 1, mu = 1/10, with
    c(x) = 1/2 + u - 513/32 u^2 + 63/16 u^3, u = x - 1, Hessian 1 *)
Section Ex.
Let F := Qc_field.
Definition z0 : nat -> Qc_field := fun _ => Q2Qc 0.
Definition kst (a : Q) : nat -> Qc_field := fun _ => Q2Qc a.
Definition exP : prob Qc_field := Prob Qc_field 1 1 0 (fun _ _ => Q2Qc 1) (fun _ _ => Q2Qc 1) (fun _ _ => Q2Qc 0)
  (fun _ => true) (fun _ => false) (fun _ => false) (fun _ => false).
Definition exIt : iter Qc_field := Iter Qc_field (kst 1) z0 z0 z0 (kst 1) z0 z0 z0 (kst 1) z0 z0 z0.
Definition exV : nlpvals Qc_field := Vals Qc_field z0 (kst (1 # 2)) z0 z0 z0 z0 z0 z0 (Q2Qc (1 # 10)) z0 z0.
Definition exC (x : nat -> Qc_field) : nat -> Qc_field := fun _ =>
  let u := (x O - Q2Qc 1)%Qc in (Q2Qc (1 # 2) + u - Q2Qc (513 # 32) * u * u + Q2Qc (63 # 16) * u * u * u)%Qc.
(** the solution of the Newton system *)
Definition exDir (r : resid Qc_field) : iter Qc_field :=
  let dx := r_yc r in let ds := fun i => (r_xl r i + dx i)%Qc in let dz := fun i => (r_szl r i - ds i)%Qc in
  Iter Qc_field dx z0 (fun i => (r_x r i - dx i + dz i)%Qc) z0 ds z0 z0 z0 dz z0 z0 z0.
(** hiopVectorPar.cpp 1037-1059 with tau = 0.99, one component at value 1 *)
Definition exFtb (d : Qc) : Qc := match VecModel.ftb_w_pattern VecModel.Qar [1%Q] [this d] (99 # 100)%Q [1%Q] with Some a => Q2Qc a | None => Q2Qc 0 end.
Definition exO : oracle Qc_field := Oracle Qc_field (fun r => Some (exDir r)) (fun w => exFtb (w_sxl w 0))
  (fun t => Iter Qc_field (w_x t) (w_d t) (w_yc t) (w_yd t) (w_x t) (w_sxu t) (w_sdl t) (w_sdu t) (w_zl t) (w_zu t) (w_vl t) (w_vu t))
  (fun x => Some (exC x, z0)) (fun _ => true) (fun _ => true).
Definition exE : deltas Qc_field := Deltas Qc_field z0 z0 z0 z0.
Definition exW : iter Qc_field := exDir (resid_update Qc_field exP exV exIt (resid0 Qc_field)).
Definition exT : iter Qc_field := take_step Qc_field exIt exW exIt (exFtb (w_sxl exW 0)).
Lemma exDir_newton : forall r w, o_dirs exO r = Some w -> newton Qc_field exP exIt exE r w.
Proof.
  intros r w E. injection E as <-. unfold newton. cbn [nx neq ni exP p_H p_Jc p_Jd ixl ixu idl idu exIt exE e_wx e_cc exDir w_x w_d w_yc w_yd w_sxl w_sxu w_zl w_zu sumn].
  split; [|split; [|split; [|split; [|split; [|split; [|split]]]]]]; intros i Hi; try lia; (destruct i; [|lia]); cbn; unfold z0, kst.
  - change (@eq Qc ((1 * r_yc r O + 0) + 0 * r_yc r O + (1 * (r_x r O - r_yc r O + (r_szl r O - (r_xl r O + r_yc r O))) + 0) + 0 - (r_szl r O - (r_xl r O + r_yc r O)) + 0)%Qc (r_x r O)). ring.
  - change (@eq Qc ((1 * r_yc r O + 0) - 0 * (r_x r O - r_yc r O + (r_szl r O - (r_xl r O + r_yc r O))))%Qc (r_yc r O)). ring.
  - split; [change (@eq Qc (r_xl r O + r_yc r O - r_yc r O)%Qc (r_xl r O)); ring|].
    change (@eq Qc (1 * (r_szl r O - (r_xl r O + r_yc r O)) + 1 * (r_xl r O + r_yc r O))%Qc (r_szl r O)). ring.
  - split; reflexivity.
Qed.
(** Full statement: after an accepted correction multipliers are moved by a step for which the fraction-to-the-boundary rule holds.
    Refuted: they move along the corrected direction with the dual step length of the direction it replaced. *)
Theorem C89_dual_step_refuted : exists q,
  (forall r w, o_dirs exO r = Some w -> newton Qc_field exP exIt exE r w) /\ matches Qc_field exP (resid0 Qc_field) /\
  soc Qc_field exO exP exV exIt 4 (exFtb (w_sxl exW 0)) exT (exC (w_x exT)) z0 (resid0 Qc_field) = (Accepted, [q]) /\
  exFtb (w_zl exW 0) = Q2Qc 1 /\ exFtb (w_zl (q_w q) 0) = Q2Qc (99 # 490) /\
  (w_zl exIt O + exFtb (w_zl exW O) * w_zl (q_w q) O)%Qc = Q2Qc (- 39 # 10) /\ q_c q 0 = Q2Qc 0.
Proof.
  eexists. split; [exact exDir_newton|]. split; [apply resid0_matches|]. split; [reflexivity|].
  split; [apply Qc_is_canon; vm_compute; reflexivity|]. split; [apply Qc_is_canon; vm_compute; reflexivity|].
  split; apply Qc_is_canon; vm_compute; reflexivity.
Qed.
Print Assumptions C89_dual_step_refuted.
Example C89_case : keeps_xd Qc_field (o_slacks exO) /\
  mix Qc_field (steps Qc_field (exFtb (w_sxl exW 0)) []) (eq_viol Qc_field exV (exC (w_x exT)) [] 0) = Q2Qc 4 /\ w_x exT 0 = Q2Qc (1 # 2).
Proof. split; [intro t; split; reflexivity|]. split; apply Qc_is_canon; vm_compute; reflexivity. Qed.
(** the affine case: c(x) = x - 1/2 *)
Definition exOa : oracle Qc_field := Oracle Qc_field (fun r => Some (exDir r)) (fun w => exFtb (w_sxl w 0)) (fun t => t)
  (fun x => Some (fun _ => (x O - Q2Qc (1 # 2))%Qc, z0)) (fun _ => false) (fun _ => true).
Example C89_affine_case : affine_at Qc_field exP (kst (- 1 # 2)) z0 (w_x exIt) (v_c exV) (v_d exV) /\
  (forall x c d, o_eval exOa x = Some (c, d) -> affine_at Qc_field exP (kst (- 1 # 2)) z0 x c d) /\
  exists h, soc Qc_field exOa exP exV exIt 2 (exFtb (w_sxl exW 0)) exT (fun _ => (w_x exT O - Q2Qc (1 # 2))%Qc) z0 (resid0 Qc_field) = (NotAccepted, h) /\ length h = 2 /\
    (forall q0 : corr Qc_field, nth_error h 0 = Some q0 -> w_x (q_w q0) 0 = Q2Qc (- 1 # 2)).
Proof.
  split; [|split].
  - split; intros i Hi; cbn in Hi; [|lia]. apply Qc_is_canon. vm_compute. reflexivity.
  - intros x c d E. injection E as <- <-. split; intros i Hi; cbn in Hi; [|lia]. destruct i; [|lia].
    cbn [sumn nx exP p_Jc]. change (@eq Qc (x O - Q2Qc (1 # 2))%Qc (Q2Qc (- 1 # 2) + (1 * x O + 0))%Qc).
    replace (Q2Qc (- 1 # 2)) with (- Q2Qc (1 # 2))%Qc by (apply Qc_is_canon; reflexivity). ring.
  - eexists. split; [reflexivity|]. split; [reflexivity|]. intros q0 E. injection E as <-. apply Qc_is_canon. vm_compute. reflexivity.
Qed.
End Ex.
