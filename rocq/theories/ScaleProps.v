(** C20-C23, C51: scaling, evaluation through it, and what is reported to the user. *)
From Coq Require Import List Bool Arith ZArith Lia Sorted Permutation QArith Qcanon.
From Verif Require Import RingKit PackModel PackSpec PackProofs SparseModel SparseSpec SparseProps
  ScaleModel FactorModel ScaleSpec ScaleProofs ScaleProofs2 ScaleProofs3.
Import ListNotations.
Close Scope Qc_scope. Close Scope Q_scope. Open Scope nat_scope.

(** * C20: the objective reported *)
(** getObjective returns the user's objective whatever transformations have been appended *)
Theorem C20_getter : forall (K : cfield) eqm inm (P : nlp K) ss f, built eqm inm P ss ->
  user_obj P (eval_f P f) = f.
Proof. intros. eapply getter_obj; eauto. Qed.
Print Assumptions C20_getter.
(** the solution callback reports the user's objective as long as at most one scaling was appended,
    i.e. in the first solve.  Missing: later solves with the same object, see [C20_callback_refuted] *)
Theorem C20_callback_partial : forall (K : cfield) eqm inm (P : nlp K) ss y c d f,
  built eqm inm P ss -> length ss <= 1 -> complementary eqm inm (length eqm + length inm) ->
  length (y_c y) = length eqm -> length (y_d y) = length inm -> length c = length eqm -> length d = length inm ->
  exists r y' c' d', callback_solution P y c d (eval_f P f) = Some (r, y', c', d') /\ r_obj r = f.
Proof. exact callback_obj. Qed.
Print Assumptions C20_callback_partial.
(** the constraint values reported are those of the user's functions, in the user's order, for any
    number of scalings *)
Theorem C20_constraint_values : forall (K : cfield) eqm inm (P : nlp K) ss y b c d obj r y' c' d',
  built eqm inm P ss -> complementary eqm inm (length b) ->
  length (y_c y) = length eqm -> length (y_d y) = length inm ->
  two_call P (two_user b) = Vals (c, d) ->
  callback_solution P y c d obj = Some (r, y', c', d') -> r_cons r = b.
Proof. exact callback_cons. Qed.
Print Assumptions C20_constraint_values.

Lemma qneq (a b : Qc) : Qeq_bool (this a) (this b) = false -> a <> b.
Proof. intros H ->. rewrite (proj2 (Qeq_bool_iff (this b) (this b)) (Qeq_refl _)) in H. discriminate. Qed.
(** the default options, with max_grad = 100 *)
Definition o100 : sopts := SOpts (q 100) (q 0) (q 0) (q 0).
Definition P0 (eqm inm : list nat) : nlp Qc_field := Nlp [TOther] None eqm inm [] [].
Lemma built0 eqm inm : built eqm inm (P0 eqm inm) [].
Proof. apply b_start. intros t [<-|[]]. auto. Qed.
Definition res_nlp {K : cfield} {A B C D} (x : nlp K * A * B * C * D) : nlp K := fst (fst (fst (fst x))).
Definition res_rep {K : cfield} {B C D} (x : report K * B * C * D) : report K := fst (fst (fst x)).
Definition get {A} (d : A) (o : option A) : A := match o with Some a => a | None => d end.
Definition is_some {A} (o : option A) : bool := match o with Some _ => true | None => false end.
Lemma get_some {A} (d : A) (o : option A) : is_some o = true -> o = Some (get d o).
Proof. destruct o; [reflexivity|discriminate]. Qed.
Ltac got := apply get_some; vm_compute; reflexivity.
Definition getv {A} (d : A) (o : outcome A) : A := match o with Vals a => a | _ => d end.
Definition is_vals {A} (o : outcome A) : bool := match o with Vals _ => true | _ => false end.
Lemma getv_some {A} (d : A) (o : outcome A) : is_vals o = true -> o = Vals (getv d o).
Proof. destruct o; [discriminate|discriminate|reflexivity]. Qed.
Ltac gotv := apply getv_some; vm_compute; reflexivity.
Definition dres : nlp Qc_field * bool * list Qc_field * list Qc_field * list Qc_field := (P0 [] [], false, [], [], []).
Definition drep : report Qc_field * duals Qc_field * list Qc_field * list Qc_field := (Report [] [] [] [] (q 0), Duals [] [] [] [], [], []).
(** two solves with the same object: gradient 200 at the start, objective 6 at the solution; the
    second solve appends a scaling with factor 1 and the callback reports 3 *)
Theorem C20_callback_refuted : exists R1 R2 rep,
  apply_scaling o100 (P0 [] []) [] [] [] [q 200] [] [] = Some R1 /\
  apply_scaling o100 (res_nlp R1) [] [] [] (eval_grad_f (res_nlp R1) [q 200]) [] [] = Some R2 /\
  callback_solution (res_nlp R2) (Duals [] [] [] []) [] [] (eval_f (res_nlp R2) (q 6)) = Some rep /\
  r_obj (res_rep rep) <> q 6.
Proof.
  exists (get dres (apply_scaling o100 (P0 [] []) [] [] [] [q 200] [] [])).
  set (R1 := get dres _).
  exists (get dres (apply_scaling o100 (res_nlp R1) [] [] [] (eval_grad_f (res_nlp R1) [q 200]) [] [])).
  set (R2 := get dres (apply_scaling o100 (res_nlp R1) _ _ _ _ _ _)).
  exists (get drep (callback_solution (res_nlp R2) (Duals [] [] [] []) [] [] (eval_f (res_nlp R2) (q 6)))).
  split; [got|]. split; [got|]. split; [got|]. apply qneq; vm_compute; reflexivity.
Qed.
Print Assumptions C20_callback_refuted.
(** three constraints, the middle one an inequality *)
Definition qh : Qc_field := Q2Qc (1 # 2).
Definition s1 : scaling Qc_field := Scaling qh [q 2; q 4] [q 8] [q 2; q 8; q 4].
Definition P1 : nlp Qc_field := Nlp [TOther; TScale s1] (Some s1) [0; 2] [1] [] [].
Lemma s1_usable : usable 3 s1.
Proof.
  split; [apply qneq; vm_compute; reflexivity|].
  split; [intros a [<-|[<-|[]]]; apply qneq; vm_compute; reflexivity|].
  split; [intros a [<-|[]]; apply qneq; vm_compute; reflexivity|].
  split; [intros a [<-|[<-|[<-|[]]]]; apply qneq; vm_compute; reflexivity|]. reflexivity.
Qed.
Lemma P1_built : built [0; 2] [1] P1 [s1].
Proof.
  apply (b_add Qc_field [0; 2] [1] (P0 [0; 2] [1]) [] s1 [q 1; q 1] [q 1] [q 1] P1 [q 2; q 4] [q 8] [q 8]);
    auto using built0, s1_usable.
Qed.
Lemma compl3 : complementary [0; 2] [1] 3.
Proof. unfold complementary. simpl. apply perm_skip. apply perm_swap. Qed.
Example C20_case : exists h rep,
  two_call P1 (two_user [q 5; q 6; q 7]) = Vals h /\ map this (fst h) = [10; 28]%Q /\
  callback_solution P1 (Duals [q 1; q 1] [q 1] [q 0] [q 0]) (fst h) (snd h) (eval_f P1 (q 10)) = Some rep /\
  map this (r_cons (res_rep rep)) = [5; 6; 7]%Q /\ this (r_obj (res_rep rep)) = 10%Q /\ this (eval_f P1 (q 10)) = 5%Q.
Proof.
  exists (getv ([], []) (two_call P1 (two_user [q 5; q 6; q 7]))). set (h := getv _ _).
  exists (get drep (callback_solution P1 (Duals [q 1; q 1] [q 1] [q 0] [q 0]) (fst h) (snd h) (eval_f P1 (q 10)))).
  split; [gotv|]. split; [vm_compute; reflexivity|]. split; [got|]. split; [vm_compute; reflexivity|]. split; vm_compute; reflexivity.
Qed.

(** * C21: the multipliers reported *)
(** If the solver's multipliers are stationary for the scaled functions the solver evaluates, the
    stationarity residual of the reported multipliers for the user's functions is exactly
    g - s*(scaled g) with [s] the last objective factor: the multipliers are multiplied by [s] where
    they should be divided by the product of the objective factors *)
Theorem C21_callback_residual : forall (K : cfield) eqm inm (P : nlp K) ss y g J Jc Jd Jc' Jd' c d obj r y' c' d' j,
  built eqm inm P ss -> complementary eqm inm (length J) ->
  length (y_c y) = length eqm -> length (y_d y) = length inm -> length c = length eqm -> length d = length inm ->
  gather J eqm = Some Jc -> gather J inm = Some Jd -> dense_jac_two P Jc Jd = Some (Jc', Jd') ->
  at_ (eval_grad_f P g) j +! sumn (length eqm) (fun k => rowat Jc' k j *! at_ (y_c y) k)
    +! sumn (length inm) (fun k => rowat Jd' k j *! at_ (y_d y) k) -! at_ (z_l y) j +! at_ (z_u y) j = f0 ->
  callback_solution P y c d obj = Some (r, y', c', d') ->
  resid (length J) g (rowat J) (r_lambda r) (r_zl r) (r_zu r) j =
    at_ g j -! get_obj_scale P *! at_ (eval_grad_f P g) j.
Proof. exact callback_resid. Qed.
Print Assumptions C21_callback_residual.
(** hence the claim holds when every objective factor is one.  Missing: other objective factors,
    for which it is false ([C21_callback_refuted]) *)
Theorem C21_callback_partial : forall (K : cfield) eqm inm (P : nlp K) ss y g J Jc Jd Jc' Jd' c d obj r y' c' d' j,
  built eqm inm P ss -> complementary eqm inm (length J) -> (forall s, In s ss -> s_obj s = f1) ->
  length (y_c y) = length eqm -> length (y_d y) = length inm -> length c = length eqm -> length d = length inm ->
  gather J eqm = Some Jc -> gather J inm = Some Jd -> dense_jac_two P Jc Jd = Some (Jc', Jd') ->
  at_ (eval_grad_f P g) j +! sumn (length eqm) (fun k => rowat Jc' k j *! at_ (y_c y) k)
    +! sumn (length inm) (fun k => rowat Jd' k j *! at_ (y_d y) k) -! at_ (z_l y) j +! at_ (z_u y) j = f0 ->
  callback_solution P y c d obj = Some (r, y', c', d') ->
  resid (length J) g (rowat J) (r_lambda r) (r_zl r) (r_zu r) j = f0.
Proof.
  intros K eqm inm P ss y g J Jc Jd Jc' Jd' c d obj r y' c' d' j HB HC H1 L1 L2 L3 L4 G1 G2 HJ HS HCB.
  rewrite (callback_resid K eqm inm P ss y g J Jc Jd Jc' Jd' c d obj r y' c' d' j); auto.
  destruct (grad_one K eqm inm P ss g j HB H1) as [E1 E2]. apply minus_mul_one; auto.
Qed.
Print Assumptions C21_callback_partial.
(** the dual-solution getter is right without scaling.  Missing: with scaling, see below *)
Theorem C21_getter_partial : forall (K : cfield) eqm inm (P : nlp K) y g J zl zu lam P' j,
  built eqm inm P [] -> complementary eqm inm (length J) ->
  length (y_c y) = length eqm -> length (y_d y) = length inm ->
  get_dual_solutions P y = Some (zl, zu, lam, P') ->
  at_ g j +! sumn (length eqm) (fun k => rowat J (nth k eqm 0) j *! at_ (y_c y) k)
    +! sumn (length inm) (fun k => rowat J (nth k inm 0) j *! at_ (y_d y) k) -! at_ (z_l y) j +! at_ (z_u y) j = f0 ->
  resid (length J) g (rowat J) lam zl zu j = f0.
Proof. exact getter_plain. Qed.
Print Assumptions C21_getter_partial.
(** one variable, one equality with Jacobian 1, gradient 200: scale factor 1/2; the solver's
    multiplier -100 is reported as -50 *)
Theorem C21_callback_refuted : exists R rep,
  apply_scaling o100 (P0 [0] []) [q 1] [] [] [q 200] [[q 1]] [] = Some R /\
  at_ (eval_grad_f (res_nlp R) [q 200]) 0 +! at_ [q 1] 0 *! q (-100) = q 0 /\
  callback_solution (res_nlp R) (Duals [q (-100)] [] [q 0] [q 0]) [q 0] [] (q 0) = Some rep /\
  resid 1 [q 200] (rowat [[q 1]]) (r_lambda (res_rep rep)) (r_zl (res_rep rep)) (r_zu (res_rep rep)) 0 <> q 0.
Proof.
  exists (get dres (apply_scaling o100 (P0 [0] []) [q 1] [] [] [q 200] [[q 1]] [])).
  set (R := get dres _).
  exists (get drep (callback_solution (res_nlp R) (Duals [q (-100)] [] [q 0] [q 0]) [q 0] [] (q 0))).
  split; [got|]. split; [apply Qc_is_canon; vm_compute; reflexivity|]. split; [got|]. apply qneq; vm_compute; reflexivity.
Qed.
Print Assumptions C21_callback_refuted.
(** with a scaling active the getter's constraint multipliers do not depend on the solver's: for
    whatever the work vector holds, one of two stationary points is reported wrongly *)
Theorem C21_getter_independent : forall (K : cfield) eqm inm (P : nlp K) ss y y', built eqm inm P ss -> ss <> [] ->
  z_l y = z_l y' -> z_u y = z_u y' -> get_dual_solutions P y = get_dual_solutions P y'.
Proof. exact getter_ignores. Qed.
Print Assumptions C21_getter_independent.
Definition sh : scaling Qc_field := Scaling (q 1) [q 1] [] [q 1].
Theorem C21_getter_refuted : forall t : Qc,
  let P := Nlp [TScale sh] (Some sh) [0] [] [t] [] in
  exists g y zl zu lam P', get_dual_solutions P y = Some (zl, zu, lam, P') /\
    at_ (eval_grad_f P g) 0 +! at_ [q 1] 0 *! at_ (y_c y) 0 = q 0 /\
    resid 1 g (rowat [[q 1]]) lam zl zu 0 <> q 0.
Proof.
  intro t. intro P.
  assert (H : forall z : Z, exists lam P', get_dual_solutions P (Duals [q (- z)] [] [q 0] [q 0]) = Some (vscale Qc_field (q 1) [q 0], vscale Qc_field (q 1) [q 0], lam, P') /\
     resid (K:=Qc_field) 1 [q z] (rowat [[q 1]]) lam (vscale Qc_field (q 1) [q 0]) (vscale Qc_field (q 1) [q 0]) 0 = Qcplus (q z) t).
  { intro z. do 2 eexists. split; [reflexivity|]. cbn [resid rowat at_ nth sumn lsum map seq vscale]. unfold resid, rowat, at_, sumn, vscale. simpl.
    change (get_obj_scale P) with (q 1). generalize (q z). intro w. unfold q, inject_Z. ring. }
  destruct (Qc_eq_dec (Qcplus (q 0) t) (q 0)) as [E|E].
  - destruct (H 1%Z) as (lam & P' & H1 & H2). exists [q 1], (Duals [q (-1)] [] [q 0] [q 0]). do 4 eexists.
    split; [exact H1|]. split; [apply Qc_is_canon; vm_compute; reflexivity|]. rewrite H2. intro F.
    assert (X : @eq Qc (q 1) (q 0)).
    { transitivity (Qcminus (Qcplus (q 1) t) (Qcplus (q 0) t)); [unfold q, inject_Z; ring|].
      change (Qcplus (q 1) t = q 0) in F. rewrite F, E. unfold q, inject_Z. ring. }
    apply (f_equal this) in X. vm_compute in X. discriminate.
  - destruct (H 0%Z) as (lam & P' & H1 & H2). exists [q 0], (Duals [q 0] [] [q 0] [q 0]). do 4 eexists.
    split; [exact H1|]. split; [apply Qc_is_canon; vm_compute; reflexivity|]. rewrite H2. exact E.
Qed.
Print Assumptions C21_getter_refuted.
(** objective factor one, constraint factors 2 and 8 *)
Definition s2 : scaling Qc_field := Scaling (q 1) [q 2] [q 8] [q 8; q 2].
Example C21_case : exists rep,
  callback_solution (Nlp [TScale s2] (Some s2) [1] [0] [] []) (Duals [q 3] [q 1] [q 0] [q 0]) [q 0] [q 0] (q 0) = Some rep /\
  r_lambda (res_rep rep) = [q 8; q 6] /\
  resid 2 [q (-20)] (rowat [[q 1]; [q 2]]) (r_lambda (res_rep rep)) (r_zl (res_rep rep)) (r_zu (res_rep rep)) 0 = q 0.
Proof.
  exists (get drep (callback_solution (Nlp [TScale s2] (Some s2) [1] [0] [] []) (Duals [q 3] [q 1] [q 0] [q 0]) [q 0] [q 0] (q 0))).
  split; [got|]. split; [vm_compute; reflexivity|]. apply Qc_is_canon. vm_compute. reflexivity.
Qed.
Example C21_getter_case : exists P',
  get_dual_solutions (P0 [1] [0]) (Duals [q 3] [q 1] [q 7] [q 0]) = Some ([q 7], [q 0], [q 1; q 3], P') /\
  resid 2 [q 0] (rowat [[q 1]; [q 2]]) [q 1; q 3] [q 7] [q 0] 0 = q 0.
Proof. eexists. split; vm_compute; reflexivity. Qed.

(** * C22: what the Hessian callback receives *)
(** For the general sparse interface: whatever linear quantities [hf], [hb] (second derivatives, in
    the user's order) the user combines with the factor and the multipliers received, the result is
    that of the Lagrangian of the scaled functions the solver evaluates.  Missing: more than one
    scaling, and factors limited from below ([C22_rerun_refuted], [C22_limited_refuted]) *)
Theorem C22_sparse_partial : forall (K : cfield) eqm inm (P : nlp K) ss sigma leq lin hf hb hc hd,
  built eqm inm P ss -> complementary eqm inm (length hb) -> length ss <= 1 ->
  (forall s, In s ss -> matching eqm inm s) -> length leq = length eqm -> length lin = length inm ->
  two_call P (two_user hb) = Vals (hc, hd) ->
  exists sigma' lam, sparse_hess_args P sigma leq lin = Some (sigma', lam) /\ length lam = length hb /\
    combo sigma' lam hf hb =
      sigma *! eval_f P hf +! sumn (length eqm) (fun k => at_ leq k *! at_ hc k)
                           +! sumn (length inm) (fun k => at_ lin k *! at_ hd k).
Proof. exact sparse_hess_spec. Qed.
Print Assumptions C22_sparse_partial.
(** For the mixed dense-sparse interface the multipliers come in block order (equalities first):
    right without scaling, or when the user's own order is the block order *)
Theorem C22_mds_partial : forall (K : cfield) eqm inm (P : nlp K) ss sigma leq lin hf hb hbb hc hd,
  built eqm inm P ss -> complementary eqm inm (length hb) ->
  ss = [] \/ (length ss <= 1 /\ eqm = seq 0 (length eqm) /\ inm = seq (length eqm) (length inm) /\
              forall s, In s ss -> matching eqm inm s) ->
  length leq = length eqm -> length lin = length inm ->
  gather hb (eqm ++ inm) = Some hbb ->
  two_call P (two_user hb) = Vals (hc, hd) ->
  exists sigma' lam, mds_hess_args P sigma leq lin = Some (sigma', lam) /\ length lam = length hb /\
    combo sigma' lam hf hbb =
      sigma *! eval_f P hf +! sumn (length eqm) (fun k => at_ leq k *! at_ hc k)
                           +! sumn (length inm) (fun k => at_ lin k *! at_ hd k).
Proof. exact mds_hess_spec. Qed.
Print Assumptions C22_mds_partial.
(** inequality first, then an equality; scale factors 1/4 for the inequality, 1 for the equality: the
    mixed dense-sparse code scales the equality's multiplier with the inequality's factor *)
Theorem C22_mds_refuted : exists R sl h,
  apply_scaling o100 (P0 [1] [0]) [q 0] [q 0] [q 0] [q 1] [[q 1]] [[q 400]] = Some R /\
  mds_hess_args (res_nlp R) (q 1) [q 1] [q 0] = Some sl /\
  two_call (res_nlp R) (two_user [q 5; q 8]) = Vals h /\
  combo (fst sl) (snd sl) (q 0) [q 8; q 5] <> at_ [q 1] 0 *! at_ (fst h) 0 +! at_ [q 0] 0 *! at_ (snd h) 0.
Proof.
  exists (get dres (apply_scaling o100 (P0 [1] [0]) [q 0] [q 0] [q 0] [q 1] [[q 1]] [[q 400]])).
  set (R := get dres _).
  exists (get (q 0, []) (mds_hess_args (res_nlp R) (q 1) [q 1] [q 0])).
  exists (getv ([], []) (two_call (res_nlp R) (two_user [q 5; q 8]))).
  split; [got|]. split; [got|]. split; [gotv|]. apply qneq; vm_compute; reflexivity.
Qed.
Print Assumptions C22_mds_refuted.
(** a second solve with the same object: the objective factor handed over is 1 although the
    objective is still scaled by 1/2 *)
Theorem C22_rerun_refuted : exists R1 R2 sl,
  apply_scaling o100 (P0 [] []) [] [] [] [q 200] [] [] = Some R1 /\
  apply_scaling o100 (res_nlp R1) [] [] [] (eval_grad_f (res_nlp R1) [q 200]) [] [] = Some R2 /\
  sparse_hess_args (res_nlp R2) (q 1) [] [] = Some sl /\
  combo (fst sl) (snd sl) (q 4) [] <> q 1 *! eval_f (res_nlp R2) (q 4).
Proof.
  exists (get dres (apply_scaling o100 (P0 [] []) [] [] [] [q 200] [] [])).
  set (R1 := get dres _).
  exists (get dres (apply_scaling o100 (res_nlp R1) [] [] [] (eval_grad_f (res_nlp R1) [q 200]) [] [])).
  set (R2 := get dres (apply_scaling o100 (res_nlp R1) _ _ _ _ _ _)).
  exists (get (q 0, []) (sparse_hess_args (res_nlp R2) (q 1) [] [])).
  split; [got|]. split; [got|]. split; [got|]. apply qneq; vm_compute; reflexivity.
Qed.
Print Assumptions C22_rerun_refuted.
(** with a lower limit 1/2 on the factors and a row of size 1000 the factor used for the constraint
    is 1/2, the one used for its multiplier in the Hessian is 1/10 *)
Theorem C22_limited_refuted : exists R sl h,
  apply_scaling (SOpts (q 100) (Q2Qc (1 # 2)) (q 0) (q 0)) (P0 [0] []) [q 0] [] [] [q 1] [[q 1000]] [] = Some R /\
  sparse_hess_args (res_nlp R) (q 1) [q 1] [] = Some sl /\
  two_call (res_nlp R) (two_user [q 10]) = Vals h /\
  combo (fst sl) (snd sl) (q 0) [q 10] <> at_ [q 1] 0 *! at_ (fst h) 0.
Proof.
  exists (get dres (apply_scaling (SOpts (q 100) (Q2Qc (1 # 2)) (q 0) (q 0)) (P0 [0] []) [q 0] [] [] [q 1] [[q 1000]] [])).
  set (R := get dres _).
  exists (get (q 0, []) (sparse_hess_args (res_nlp R) (q 1) [q 1] [])).
  exists (getv ([], []) (two_call (res_nlp R) (two_user [q 10]))).
  split; [got|]. split; [got|]. split; [gotv|]. apply qneq; vm_compute; reflexivity.
Qed.
Print Assumptions C22_limited_refuted.
(** the interface documentation promises [lambda_eq, lambda_ineq] for the sparse interface too; a user
    who reads the multipliers that way gets another function's Hessian as soon as an inequality
    precedes an equality *)
Theorem C22_documented_order_refuted : exists sl h,
  sparse_hess_args (P0 [1] [0]) (q 1) [q 1] [q 0] = Some sl /\
  two_call (P0 [1] [0]) (two_user [q 5; q 8]) = Vals h /\
  combo (fst sl) (snd sl) (q 0) [q 8; q 5] <> at_ [q 1] 0 *! at_ (fst h) 0 +! at_ [q 0] 0 *! at_ (snd h) 0.
Proof.
  exists (get (q 0, []) (sparse_hess_args (P0 [1] [0]) (q 1) [q 1] [q 0])).
  exists (getv ([], []) (two_call (P0 [1] [0]) (two_user [q 5; q 8]))).
  split; [got|]. split; [gotv|]. apply qneq; vm_compute; reflexivity.
Qed.
Print Assumptions C22_documented_order_refuted.
(** the factors the constructor computes satisfy [matching] when max_con_grad is 0 (its default) and
    no factor is below the lower limit *)
Theorem C22_factors_match : forall o g Jc Jd eqm inm s, qlt q0 (max_grad o) = true -> max_con_grad o = q0 ->
  complementary eqm inm (length Jc + length Jd) ->
  (forall f, In f (row_factors o (row_max_abs Jc) ++ row_factors o (row_max_abs Jd)) -> qle (min_grad o) f) ->
  new_scaling o g Jc Jd eqm inm = Some s -> matching eqm inm s.
Proof. exact new_scaling_matching. Qed.
Print Assumptions C22_factors_match.
Example C22_case : exists sl h,
  sparse_hess_args P1 (q 3) [q 1; q 2] [q 5] = Some sl /\ map this (snd sl) = [2; 40; 8]%Q /\
  two_call P1 (two_user [q 1; q 10; q 100]) = Vals h /\ matching [0; 2] [1] s1 /\
  this (combo (fst sl) (snd sl) (q 4) [q 1; q 10; q 100]) = 1208%Q.
Proof.
  exists (get (q 0, []) (sparse_hess_args P1 (q 3) [q 1; q 2] [q 5])), (getv ([], []) (two_call P1 (two_user [q 1; q 10; q 100]))).
  split; [got|]. split; [vm_compute; reflexivity|]. split; [gotv|].
  split; [|vm_compute; reflexivity].
  split; intros [|[|k]] i H; simpl in H; try (destruct k; discriminate); try discriminate; injection H as <-; reflexivity.
Qed.
Definition s3 : scaling Qc_field := Scaling (q 1) [q 8] [q 2] [q 8; q 2].
Example C22_mds_case : exists sg lam hc hd,
  mds_hess_args (Nlp [TScale s3] (Some s3) [0] [1] [] []) (q 1) [q 1] [q 5] = Some (sg, lam) /\
  two_call (Nlp [TScale s3] (Some s3) [0] [1] [] []) (two_user [q 1; q 10]) = Vals (hc, hd) /\
  combo sg lam (q 0) [q 1; q 10] = q (8 + 100) /\ hc = [q 8] /\ hd = [q 20].
Proof. do 4 eexists. split; [vm_compute; reflexivity|]. split; [vm_compute; reflexivity|]. vm_compute. auto. Qed.
Example C22_factors_case : exists s, new_scaling o100 [q 1] [[q 200]] [[q 1]] [1] [0] = Some s /\
  map this (s_cd s) = [1; 1 # 2]%Q /\ map this (s_c s) = [1 # 2]%Q.
Proof.
  exists (get s1 (new_scaling o100 [q 1] [[q 200]] [[q 1]] [1] [0])).
  split; [got|]. split; vm_compute; reflexivity.
Qed.

(** * C23: one call or two *)
(** over any history of evaluations (the chain may have grown in between), a user who evaluates by
    index set and a user who evaluates everything at once give the solver the same values *)
Theorem C23_residuals : forall (K : cfield) eqm inm (l : list (nlp K * list K)),
  (forall P b, In (P, b) l -> exists ss, built eqm inm P ss /\ complementary eqm inm (length b)) ->
  eval_run Unknown (map (fun e => (fst e, two_user (snd e))) l) =
  eval_run Unknown (map (fun e => (fst e, one_user (snd e))) l) /\
  forall o, In o (eval_run Unknown (map (fun e => (fst e, two_user (snd e))) l)) -> exists v, o = Vals v.
Proof. exact run_same. Qed.
Print Assumptions C23_residuals.
(** a user with index-set evaluation whose code reports an error at the very first point is taken
    for a one-call user from then on: later evaluations fail although the user's code would succeed *)
Theorem C23_first_error_refuted : exists b,
  eval_run Unknown [(P1, UCons (fun _ => None) None); (P1, two_user b)] = [Fails; Fails] /\
  exists v, eval_run Unknown [(P1, two_user b)] = [Vals v].
Proof. exists [q 5; q 6; q 7]. split; [vm_compute; reflexivity|]. eexists. vm_compute. reflexivity. Qed.
Print Assumptions C23_first_error_refuted.
(** a failure of only one of the two index-set calls at the first point leaves no trace: every later
    evaluation gives what it would have given had the failure not happened *)
Theorem C23_half_failure_recovers : forall (K : cfield) eqm inm (P : nlp K) u (l : list (nlp K * list K)),
  (eval_c P u = Fails /\ exists d, eval_d P u = Vals d) \/ ((exists c, eval_c P u = Vals c) /\ eval_d P u = Fails) ->
  (forall P b, In (P, b) l -> exists ss, built eqm inm P ss /\ complementary eqm inm (length b)) ->
  eval_run Unknown ((P, u) :: map (fun e => (fst e, two_user (snd e))) l) =
  Fails :: eval_run Unknown (map (fun e => (fst e, two_user (snd e))) l).
Proof.
  intros K eqm inm P u l H B.
  assert (E : eval_run TwoCalls (map (fun e => (fst e, two_user (snd e))) l) =
              eval_run Unknown (map (fun e => (fst e, two_user (snd e))) l)).
  { destruct l as [|[P0 b] l]; [reflexivity|]. destruct (B P0 b (or_introl eq_refl)) as (ss & HB & HC).
    destruct (two_call_spec _ _ _ _ _ _ HB HC) as (c & d & T & _ & EC & ED & _).
    cbn [map fst snd eval_run]. unfold eval_c_d at 1 2. rewrite T, EC, ED. reflexivity. }
  cbn [eval_run]. unfold eval_c_d at 1.
  destruct H as [(C & d & D)|((c & C) & D)]; rewrite C, D; f_equal; exact E.
Qed.
Print Assumptions C23_half_failure_recovers.
Example C23_half_failure_case : exists v,
  eval_c P1 (UCons (fun l => if Nat.eqb (length l) 2 then None else Some (map (fun _ => q 1) l)) None) = Fails /\
  eval_d P1 (UCons (fun l => if Nat.eqb (length l) 2 then None else Some (map (fun _ => q 1) l)) None) = Vals v /\
  exists w, eval_run Unknown [(P1, UCons (fun l => if Nat.eqb (length l) 2 then None else Some (map (fun _ => q 1) l)) None);
                              (P1, two_user [q 5; q 6; q 7])] = [Fails; Vals w].
Proof. eexists. split; [vm_compute; reflexivity|]. split; [vm_compute; reflexivity|]. eexists. vm_compute. reflexivity. Qed.
(** sparse Jacobian blocks: for any one-call user and any two-call user with the same Jacobian *)
Theorem C23_sparse_jacobian : forall (K : cfield) eqm inm (P : nlp K) ss Jc0 Jd0 J Jc Jd,
  built eqm inm P ss -> complementary eqm inm (t_m J) -> StronglySorted lt eqm -> StronglySorted lt inm ->
  wf J -> row_sorted (t_ent J) ->
  t_m Jc0 = length eqm -> t_n Jc0 = t_n J -> length (t_ent Jc0) = row_count K J eqm ->
  t_m Jd0 = length inm -> t_n Jd0 = t_n J -> length (t_ent Jd0) = row_count K J inm ->
  length (t_ent J) = length (t_ent Jc0) + length (t_ent Jd0) ->
  wf Jc -> wf Jd -> t_m Jc = length eqm -> t_m Jd = length inm ->
  (forall k j, k < length eqm -> mat (t_ent Jc) k j = mat (t_ent J) (nth k eqm 0) j) ->
  (forall k j, k < length inm -> mat (t_ent Jd) k j = mat (t_ent J) (nth k inm 0) j) ->
  exists a b a2 b2, sparse_jac_one P Jc0 Jd0 J = Some (a, b) /\ sparse_jac_two P Jc Jd = Some (a2, b2) /\
    (forall k j, k < length eqm -> mat (t_ent a) k j = mat (t_ent a2) k j) /\
    (forall k j, k < length inm -> mat (t_ent b) k j = mat (t_ent b2) k j).
Proof.
  intros. destruct (sparse_one_two K eqm inm P ss Jc0 Jd0 J Jc Jd) as (a & b & a2 & b2 & E1 & E2 & E3 & E4); auto.
  exists a, b, a2, b2. split; auto. split; auto. split; intros; [apply E3|apply E4]; auto.
Qed.
Print Assumptions C23_sparse_jacobian.
(** mixed dense-sparse Jacobian blocks *)
Theorem C23_mds_jacobian : forall (K : cfield) eqm inm (P : nlp K) ss Jc0 Jd0 (J : trip K) Jc Jd (D : list (list K)),
  built eqm inm P ss -> complementary eqm inm (t_m J) -> length D = t_m J -> StronglySorted lt eqm -> StronglySorted lt inm ->
  wf J -> row_sorted (t_ent J) ->
  t_m Jc0 = length eqm -> t_n Jc0 = t_n J -> length (t_ent Jc0) = row_count K J eqm ->
  t_m Jd0 = length inm -> t_n Jd0 = t_n J -> length (t_ent Jd0) = row_count K J inm ->
  length (t_ent J) = length (t_ent Jc0) + length (t_ent Jd0) ->
  wf Jc -> wf Jd -> t_m Jc = length eqm -> t_m Jd = length inm ->
  (forall k j, k < length eqm -> mat (t_ent Jc) k j = mat (t_ent J) (nth k eqm 0) j) ->
  (forall k j, k < length inm -> mat (t_ent Jd) k j = mat (t_ent J) (nth k inm 0) j) ->
  exists a b a2 b2 x y Dc Dd, gather D eqm = Some Dc /\ gather D inm = Some Dd /\
    mds_jac_one P Jc0 Jd0 (J, D) = Some ((a, x), (b, y)) /\
    mds_jac_two P (Jc, Dc) (Jd, Dd) = Some ((a2, x), (b2, y)) /\
    (forall k j, k < length eqm -> mat (t_ent a) k j = mat (t_ent a2) k j) /\
    (forall k j, k < length inm -> mat (t_ent b) k j = mat (t_ent b2) k j).
Proof.
  intros K eqm inm P ss Jc0 Jd0 J Jc Jd D HB HC HD. intros.
  destruct (sparse_one_two K eqm inm P ss Jc0 Jd0 J Jc Jd) as (a & b & a2 & b2 & E1 & E2 & E3 & E4); auto.
  assert (HC' := HC). rewrite <- HD in HC'.
  destruct (dense_two_spec K eqm inm P ss D HB HC') as (Dc & Dd & x & y & G1 & G2 & T & _).
  exists a, b, a2, b2, x, y, Dc, Dd. split; auto. split; auto.
  destruct (compl_facts _ _ _ HC') as (_ & _ & _ & _ & _ & _ & LN).
  pose proof (built_inv K eqm inm P ss HB) as (N1 & N2 & _).
  unfold sparse_jac_one in E1. rewrite N1, N2 in E1.
  destruct (length (t_ent J) =? length (t_ent Jc0) + length (t_ent Jd0)); try discriminate.
  unfold mds_jac_one, mds_jac_two, d_copy_rows. cbn [fst snd]. rewrite N1, N2.
  replace (length eqm <=? length D) with true by (symmetry; apply Nat.leb_le; lia).
  replace (length inm <=? length D) with true by (symmetry; apply Nat.leb_le; lia).
  destruct (copy_rows_from K Jc0 J eqm) as [r1|]; try discriminate.
  destruct (copy_rows_from K Jd0 J inm) as [r2|]; try discriminate.
  rewrite G1, G2. cbn [fst snd]. rewrite E1, E2, T. split; auto. split; auto. split; intros; [apply E3|apply E4]; auto.
Qed.
Print Assumptions C23_mds_jacobian.
(** dense Jacobian blocks agree when nothing is scaled.  Missing: with scaling, where the one-call
    path divides by the factors instead of multiplying *)
Theorem C23_dense_jacobian_partial : forall (K : cfield) eqm inm (P : nlp K) ss J, built eqm inm P ss ->
  complementary eqm inm (length J) -> ss = [] ->
  exists Jc Jd, gather J eqm = Some Jc /\ gather J inm = Some Jd /\
    dense_jac_one P J = dense_jac_two P Jc Jd /\ dense_jac_one P J <> None.
Proof. exact dense_one_inv. Qed.
Print Assumptions C23_dense_jacobian_partial.
Theorem C23_dense_refuted : exists R x y,
  apply_scaling o100 (P0 [0] []) [q 0] [] [] [q 1] [[q 200]] [] = Some R /\
  dense_jac_one (res_nlp R) [[q 200]] = Some x /\ dense_jac_two (res_nlp R) [[q 200]] [] = Some y /\
  rowat (fst x) 0 0 = q 400 /\ rowat (fst y) 0 0 = q 100.
Proof.
  exists (get dres (apply_scaling o100 (P0 [0] []) [q 0] [] [] [q 1] [[q 200]] [])).
  set (R := get dres _).
  exists (get ([], []) (dense_jac_one (res_nlp R) [[q 200]])), (get ([], []) (dense_jac_two (res_nlp R) [[q 200]] [])).
  split; [got|]. split; [got|]. split; [got|]. split; apply Qc_is_canon; vm_compute; reflexivity.
Qed.
Print Assumptions C23_dense_refuted.
Example C23_case : exists v, eval_run Unknown [(P0 [0;2] [1], one_user [q 1; q 2; q 3]); (P1, one_user [q 1; q 2; q 3])]
  = [Vals ([q 1; q 3], [q 2]); Vals v] /\ v = ([q 2; q 12], [q 16]).
Proof. eexists. split; [vm_compute; reflexivity|]. vm_compute. reflexivity. Qed.
(** a 3 x 2 Jacobian; rows 0 and 2 are equalities *)
Definition exJ : trip Qc_field := Trip 3 2 [(0,0,q 1); (1,0,q 2); (1,1,q 3); (2,1,q 4)].
Definition exJc : trip Qc_field := Trip 2 2 [(0,0,q 0); (0,0,q 0)].
Definition exJd : trip Qc_field := Trip 1 2 [(0,0,q 0); (0,0,q 0)].
Example C23_sparse_case : exists ab,
  sparse_jac_one P1 exJc exJd exJ = Some ab /\
  t_ent (fst ab) = [(0,0,q 2); (1,1,q 16)] /\ t_ent (snd ab) = [(0,0,q 16); (0,1,q 24)] /\
  row_count Qc_field exJ [0; 2] = 2 /\ row_count Qc_field exJ [1] = 2.
Proof.
  exists (get (exJ, exJ) (sparse_jac_one P1 exJc exJd exJ)). split; [got|].
  do 3 (split; [vm_compute; reflexivity|]). vm_compute. reflexivity.
Qed.
Example C23_mds_case : exists r,
  mds_jac_one P1 exJc exJd (exJ, [[q 5]; [q 6]; [q 7]]) = Some r /\
  snd (fst r) = [[q 10]; [q 28]] /\ snd (snd r) = [[q 48]].
Proof.
  exists (get ((exJ, []), (exJ, [])) (mds_jac_one P1 exJc exJd (exJ, [[q 5]; [q 6]; [q 7]]))). split; [got|].
  split; vm_compute; reflexivity.
Qed.
Example C23_dense_case : dense_jac_one (P0 [1] [0]) [[q 1; q 2]; [q 3; q 4]] = Some ([[q 3; q 4]], [[q 1; q 2]]) /\
  complementary [1] [0] 2.
Proof. split; [vm_compute; reflexivity|]. unfold complementary. simpl. apply perm_swap. Qed.

(** * C51: automatic scaling limits the gradients *)
(** the scaled objective gradient is at most the target in every component, unless the factor is at
    its lower limit; the factor is positive, and at most one with the default options *)
Theorem C51_objective : forall o g, qlt q0 (max_grad o) = true -> qle q0 (max_obj_grad o) -> qle q0 (min_grad o) ->
  Qclt q0 (obj_factor o g) /\
  (obj_factor o g = min_grad o \/
   forall x, In x g -> let M := if qlt q0 (max_obj_grad o) then max_obj_grad o else max_grad o in
     qle (Qcopp M) (Qcmult (obj_factor o g) x) /\ qle (Qcmult (obj_factor o g) x) M) /\
  (max_obj_grad o = q0 -> qle (min_grad o) q1 -> qle (obj_factor o g) q1).
Proof. intros o g H1 H2 H3. apply obj_factor_spec; auto. apply qlt_true. auto. Qed.
Print Assumptions C51_objective.
(** the same for every row of either Jacobian block of the scaling that is built *)
Theorem C51_constraints : forall o g Jc Jd eqm inm s, qle q0 (max_con_grad o) -> qle q0 (max_obj_grad o) -> qle q0 (min_grad o) ->
  qlt q0 (max_grad o) = true -> complementary eqm inm (length Jc + length Jd) ->
  new_scaling o g Jc Jd eqm inm = Some s ->
  usable (length eqm + length inm) s /\ s_obj s = obj_factor o g /\
  length (s_c s) = length Jc /\ length (s_d s) = length Jd /\
  forall k f r, (nth_error (s_c s) k = Some f /\ nth_error Jc k = Some r \/ nth_error (s_d s) k = Some f /\ nth_error Jd k = Some r) ->
    Qclt q0 f /\
    (f = min_grad o \/ forall x, In x r -> let M := if qlt q0 (max_con_grad o) then max_con_grad o else max_grad o in
       qle (Qcopp M) (Qcmult f x) /\ qle (Qcmult f x) M) /\
    (max_con_grad o = q0 -> qle (min_grad o) q1 -> qle f q1).
Proof.
  intros o g Jc Jd eqm inm s H1 H2 H3 H4 HC H.
  destruct (new_scaling_facts o g Jc Jd eqm inm s H1 H2 H3 H4 HC H) as (U & L1 & L2 & L3 & L4 & E & B1 & B2).
  apply qlt_true in H4. split; auto. split; auto. split; [rewrite L3; exact L1|]. split; [rewrite L4; exact L2|].
  intros k f r [[A B]|[A B]].
  - destruct (block_factors_spec o Jc (s_c s) H4 H1 H3 B1) as (_ & F). exact (F k f r A B).
  - destruct (block_factors_spec o Jd (s_d s) H4 H1 H3 B2) as (_ & F). exact (F k f r A B).
Qed.
Print Assumptions C51_constraints.
(** the start of a solve either leaves the problem alone or appends exactly the scaling above and
    multiplies the right-hand sides and the inequality bounds by its factors *)
Theorem C51_apply : forall o P ss rhs dl du g Jc Jd P' b r l u eqm inm,
  qle q0 (max_con_grad o) -> qle q0 (max_obj_grad o) -> qle q0 (min_grad o) -> qlt q0 (max_grad o) = true ->
  built eqm inm P ss -> complementary eqm inm (length Jc + length Jd) ->
  length rhs = length eqm -> length dl = length inm -> length du = length inm ->
  apply_scaling o P rhs dl du g Jc Jd = Some (P', b, r, l, u) ->
  (b = false /\ P' = P /\ r = rhs /\ l = dl /\ u = du) \/
  (b = true /\ exists s, new_scaling o g Jc Jd eqm inm = Some s /\ built eqm inm P' (ss ++ [s]) /\
     cmult Qc_field rhs (s_c s) = Some r /\ cmult Qc_field dl (s_d s) = Some l /\ cmult Qc_field du (s_d s) = Some u).
Proof. exact apply_scaling_built. Qed.
Print Assumptions C51_apply.
(** with scaling_max_con_grad set, constraints whose Jacobian vanishes at the starting point divide
    by zero *)
Theorem C51_zero_jacobian_refuted :
  apply_scaling (SOpts (q 100) (q 0) (q 0) (q 10)) (P0 [0] []) [q 1] [] [] [q 200] [[q 0]] [] = None /\
  complementary [0] [] 1.
Proof. split; [vm_compute; reflexivity|]. unfold complementary. simpl. apply Permutation_refl. Qed.
Print Assumptions C51_zero_jacobian_refuted.
Example C51_case : exists s, new_scaling o100 [q (-400); q 3] [[q 200; q (-50)]] [[q 1; q 7]] [1] [0] = Some s /\
  this (s_obj s) = (1 # 4)%Q /\ map this (s_c s) = [1 # 2]%Q /\ map this (s_d s) = [1%Q] /\ complementary [1] [0] 2.
Proof.
  exists (get s1 (new_scaling o100 [q (-400); q 3] [[q 200; q (-50)]] [[q 1; q 7]] [1] [0])).
  split; [got|]. do 3 (split; [vm_compute; reflexivity|]). unfold complementary. simpl. apply perm_swap.
Qed.
Example C51_apply_case :
  (exists R, apply_scaling o100 (P0 [1] [0]) [q 8] [q 1] [q 2] [q (-400); q 3] [[q 200; q (-50)]] [[q 1; q 7]] = Some R /\
     map this (snd (fst (fst R))) = [4%Q] /\ snd (fst (fst (fst R))) = true) /\
  apply_scaling o100 (P0 [1] [0]) [q 8] [q 1] [q 2] [q (-40); q 3] [[q 20; q (-50)]] [[q 1; q 7]] = Some (P0 [1] [0], false, [q 8], [q 1], [q 2]).
Proof.
  split; [|vm_compute; reflexivity].
  exists (get dres (apply_scaling o100 (P0 [1] [0]) [q 8] [q 1] [q 2] [q (-400); q 3] [[q 200; q (-50)]] [[q 1; q 7]])).
  split; [got|]. split; vm_compute; reflexivity.
Qed.
