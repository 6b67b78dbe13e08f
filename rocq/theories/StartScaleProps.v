(** C69: what the starting multipliers supplied by the user mean to the solver. *)
From Coq Require Import List Bool Arith Lia QArith Qcanon.
From Verif Require Import RingKit PackModel PackSpec PackProofs XformProofs SparseModel SparseSpec ScaleModel ScaleSpec ScaleProofs ScaleProofs2 ScaleProofs3 FactorModel.
From Verif Require Import StartModel StartSpec StartProofs StartProps.
Import ListNotations.
Close Scope Qc_scope. Close Scope Q_scope. Open Scope nat_scope.

Lemma entries_len {A} (v : list A) idx w : entries_at v idx w -> length w = length idx.
Proof. intros [H _]. exact H. Qed.
Lemma entries_nth {K : cfield} (v : list K) idx w k : entries_at v idx w -> k < length idx -> at_ w k = at_ v (nth k idx 0).
Proof.
  intros [L H] Hk. specialize (H k (nth k idx 0) (nth_err _ _ Hk)).
  destruct (nth_error w k) eqn:E; [|apply nth_error_None in E; lia].
  rewrite (at_err _ _ _ _ E). symmetry. apply at_err. symmetry. exact H.
Qed.

Section Helpers.
Variable K : cfield.
Add Field StartScaleField : (fth K).
Lemma map_one (l : list K) : map (fun x => f1 *! x) l = l.
Proof. transitivity (map (fun x : K => x) l); [apply map_ext; intro; ring|apply map_id]. Qed.
Lemma regroup (a b c z w r : K) : a +! (b +! c) -! z +! w = r -> a +! b +! c -! z +! w = r.
Proof. intros <-. ring. Qed.
End Helpers.

(** If the supplied multipliers make the gradient of the user's Lagrangian zero, the multipliers the solver starts with
    make the gradient of the Lagrangian of the functions it evaluates zero.  Missing from the full claim: problems the
    solver scales, for which it is false; and removed variables ([C70_removed_duals_refuted]) *)
Theorem C69_supplied_multipliers_partial : forall (K : cfield) E (P : prob K) (N : nlp K) mask U W V lam0 it s g J Jc Jd Jc' Jd' j,
  shaped P mask lam0 it -> honours (length mask) (length lam0) (length (p_inm P)) U -> honours_prim (length mask) V ->
  f_duals U = true -> p_map P = None -> length J = length lam0 ->
  e_small E (e_px E (supplied f0 mask U V)) (e_pd E (if f_slacks U then f_d U else e_d E (e_px E (supplied f0 mask U V)))) = false ->
  built (p_eqm P) (p_inm P) N [] ->
  starting_procedure K f0 E P false U W V lam0 it = Started s ->
  gather J (p_eqm P) = Some Jc -> gather J (p_inm P) = Some Jd -> dense_jac_two N Jc Jd = Some (Jc', Jd') ->
  resid (length J) g (rowat J) (f_lam U) (f_zl U) (f_zu U) j = f0 ->
  at_ (eval_grad_f N g) j +! sumn (length (o_yc s)) (fun k => rowat Jc' k j *! at_ (o_yc s) k)
    +! sumn (length (o_yd s)) (fun k => rowat Jd' k j *! at_ (o_yd s) k) -! at_ (o_zl s) j +! at_ (o_zu s) j = f0.
Proof.
  intros K E P N mask U W V lam0 it s g J Jc Jd Jc' Jd' j SH HU HV DU PM LJ SM HB ST G1 G2 HJ HR.
  destruct (C70_cold_start_partial K f0 E P mask U W V lam0 it SH HU HV (fun _ => PM) SM) as (_ & _ & _ & H).
  destruct (H s ST) as (_ & _ & _ & H'). rewrite DU in H'. destruct H' as (-> & -> & _ & _ & EC & ED). clear H.
  destruct SH as (_ & _ & HC & _). rewrite <- LJ in HC.
  destruct (dense_two_spec _ _ _ _ _ _ HB HC) as (Jc0 & Jd0 & a & b & Q1 & Q2 & Q3 & La & Lb & A & B).
  assert (Jc0 = Jc) by congruence. assert (Jd0 = Jd) by congruence. subst Jc0 Jd0.
  assert (a = Jc') by congruence. assert (b = Jd') by congruence. subst a b.
  destruct (grad_one K _ _ N [] g j HB) as (_ & ->); [intros ? []|].
  destruct (built_inv _ _ _ _ _ HB) as (_ & _ & SC & _).
  rewrite (entries_len _ _ _ EC), (entries_len _ _ _ ED).
  unfold resid in HR. rewrite (sum_split K _ _ (length J) _ HC) in HR.
  rewrite (sumn_ext K (length (p_eqm P)) _ (fun k => rowat J (nth k (p_eqm P) 0) j *! at_ (f_lam U) (nth k (p_eqm P) 0))).
  2:{ intros k Hk. rewrite (entries_nth _ _ _ _ EC Hk). f_equal. unfold rowat. rewrite (A k Hk), rowfac_scalings, SC. cbn [fold_right].
      rewrite map_one. reflexivity. }
  rewrite (sumn_ext K (length (p_inm P)) _ (fun k => rowat J (nth k (p_inm P) 0) j *! at_ (f_lam U) (nth k (p_inm P) 0))).
  2:{ intros k Hk. rewrite (entries_nth _ _ _ _ ED Hk). f_equal. unfold rowat. rewrite (B k Hk), rowfac_scalings, SC. cbn [fold_right].
      rewrite map_one. reflexivity. }
  apply regroup. exact HR.
Qed.
Print Assumptions C69_supplied_multipliers_partial.

(** ** cases *)
Definition qn (z : Z) : Qc_field := Q2Qc (inject_Z z).
Definition qP : prob Qc_field := Prob [1] [0] None [qn 0].
Definition mem0 (n : nat) : list (option Qc_field) := repeat None n.
Definition qIt : point Qc_field := Point (mem0 1) (mem0 1) (mem0 1) (mem0 1) (mem0 1) (mem0 1) (mem0 1) (mem0 1).
Definition qE : steps Qc_field :=
  Steps (fun _ => true) (fun _ => [qn 5]) (fun x => x) (fun x => x) (fun _ _ => false) (fun _ => [qn 1]) (fun _ => [qn 1])
    ([qn 1], [qn 1], [qn 1], [qn 1]) (fun _ => None) (fun _ _ _ => true).
(** gradient 200, constraint gradients 1 (inequality) and 2 (equality), multipliers 7 and -100, bound multipliers 8 and 1 *)
Definition qU : ufull Qc_field := UFull true [qn 3] true [qn 8] [qn 1] [qn 7; qn (-100)] false [].
Definition qW : uwarm Qc_field := UWarm false [] [] [] [] [] [] [].
Definition qV : uprim Qc_field := UPrim false [].
Definition qN : nlp Qc_field := Nlp [TOther] None [1] [0] [] [].
Lemma qShaped : shaped qP [true] (mem0 2) qIt.
Proof. repeat split. unfold complementary. cbn. apply Permutation.perm_swap. Qed.
Example C69_case : shaped qP [true] (mem0 2) qIt /\ honours 1 2 1 qU /\ built [1] [0] qN [] /\
  resid 2 [qn 200] (rowat [[qn 1]; [qn 2]]) (f_lam qU) (f_zl qU) (f_zu qU) 0 = qn 0 /\
  exists s, starting_procedure Qc_field (qn 0) qE qP false qU qW qV (mem0 2) qIt = Started s /\ o_yc s = [qn (-100)] /\ o_yd s = [qn 7].
Proof.
  split; [apply qShaped|]. split; [repeat split; cbn; auto|].
  split; [apply b_start; intros t [<-|[]]; reflexivity|].
  split; [apply Qc_is_canon; vm_compute; reflexivity|]. eexists. split; [reflexivity|]. split; reflexivity.
Qed.

(** The same start on the problem scaled by the solver (gradient above the threshold 100, objective factor 1/2): the
    supplied multipliers are stationary for the user's functions, but what the solver starts with is not for its own *)
Definition qO : sopts := SOpts (qn 100) (qn 0) (qn 0) (qn 0).
Definition the {A} (d : A) (o : option A) : A := match o with Some a => a | None => d end.
Definition qR := the (qN, false, [], [], []) (apply_scaling qO qN [qn 1] [qn 0] [qn 9] [qn 200] [[qn 2]] [[qn 1]]).
Theorem C69_scaled_refuted : exists N r l u s Jc Jd,
  apply_scaling qO qN [qn 1] [qn 0] [qn 9] [qn 200] [[qn 2]] [[qn 1]] = Some (N, true, r, l, u) /\
  starting_procedure Qc_field (qn 0) qE qP false qU qW qV (mem0 2) qIt = Started s /\
  dense_jac_two N [[qn 2]] [[qn 1]] = Some (Jc, Jd) /\
  resid 2 [qn 200] (rowat [[qn 1]; [qn 2]]) (f_lam qU) (f_zl qU) (f_zu qU) 0 = qn 0 /\
  at_ (eval_grad_f N [qn 200]) 0 +! rowat Jc 0 0 *! at_ (o_yc s) 0 +! rowat Jd 0 0 *! at_ (o_yd s) 0 -! at_ (o_zl s) 0 +! at_ (o_zu s) 0 = qn (-100).
Proof.
  exists (fst (fst (fst (fst qR)))), (snd (fst (fst qR))), (snd (fst qR)), (snd qR).
  exists (Start0 [qn 3] [qn 5] [qn 8] [qn 1] [qn 1] [qn 1] [qn (-100)] [qn 7]).
  exists (fst (the ([], []) (dense_jac_two (fst (fst (fst (fst qR)))) [[qn 2]] [[qn 1]]))), (snd (the ([], []) (dense_jac_two (fst (fst (fst (fst qR)))) [[qn 2]] [[qn 1]]))).
  split; [vm_compute; reflexivity|]. split; [reflexivity|]. split; [vm_compute; reflexivity|].
  split; apply Qc_is_canon; vm_compute; reflexivity.
Qed.
Print Assumptions C69_scaled_refuted.

(** Restarting from the multipliers reported at the end: with the objective factor 1 and the constraint factor 1/2 the
    solver's multiplier 6 is reported (correctly) as 3, and a restart from what was reported uses 3 *)
Definition qs : scaling Qc_field := Scaling (qn 1) [Q2Qc (1 # 2)] [qn 1] [qn 1; Q2Qc (1 # 2)].
Theorem C69_restart_refuted : exists N r y' c' d' s,
  N = Nlp [TOther; TScale qs] (Some qs) [1] [0] [] [] /\
  callback_solution N (Duals [qn 6] [qn 7] [qn 8] [qn 1]) [qn 0] [qn 0] (qn 0) = Some (r, y', c', d') /\
  starting_procedure Qc_field (qn 0) qE qP false (UFull true [qn 3] true (r_zl r) (r_zu r) (r_lambda r) false []) qW qV (mem0 2) qIt = Started s /\
  o_zl s = [qn 8] /\ o_yd s = [qn 7] /\ o_yc s = [qn 3].
Proof.
  exists (Nlp [TOther; TScale qs] (Some qs) [1] [0] [] []).
  exists (Report [qn 8] [qn 1] [qn 0; qn 0] [qn 7; qn 3] (qn 0)).
  do 4 eexists. split; [reflexivity|]. split; [vm_compute; reflexivity|]. split; [reflexivity|]. repeat split.
Qed.
Print Assumptions C69_restart_refuted.
