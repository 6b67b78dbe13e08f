(** C90: what the per-iteration callbacks are given. *)
From Coq Require Import List Bool Arith ZArith Lia Sorted Permutation QArith Qcanon.
From Verif Require Import RingKit PackModel PackSpec PackProofs SparseModel SparseSpec SparseProps
  ScaleModel FactorModel ScaleSpec ScaleProofs ScaleProofs2 ScaleProofs3 ScaleProps IterCbModel IterCbProofs.
Import ListNotations.
Close Scope Qc_scope. Close Scope Q_scope. Open Scope nat_scope.

(** While no scaling is in force: the objective and the constraint values are those of the user's
    functions at the iterate, every constraint at the user's position, and the multiplier of every
    constraint is the solver's.  Missing: a scaled problem ([C90_scaled], [C90_scaled_refuted]) *)
Theorem C90_unscaled_partial : forall (K : cfield) eqm inm (P : nlp K) x s y b c d f lb,
  built eqm inm P [] -> complementary eqm inm (length b) ->
  length (y_c y) = length eqm -> length (y_d y) = length inm ->
  two_call P (two_user b) = Vals (c, d) ->
  exists r, callback_iterate P x s y c d (eval_f P f) lb = Some r /\
    i_obj r = f /\ i_logbar r = lb /\ i_x r = x /\ i_zl r = z_l y /\ i_zu r = z_u y /\ i_s r = s /\ i_cons r = b /\
    length (i_lambda r) = length b /\
    (forall k, k < length eqm -> at_ (i_lambda r) (nth k eqm 0) = at_ (y_c y) k) /\
    (forall k, k < length inm -> at_ (i_lambda r) (nth k inm 0) = at_ (y_d y) k).
Proof. exact iterate_plain. Qed.
Print Assumptions C90_unscaled_partial.

(** and they are then the values the solution callback is given at the same iterate, which leaves the
    iterate as it is *)
Theorem C90_as_solution_partial : forall (K : cfield) eqm inm (P : nlp K) x s y b c d obj lb,
  built eqm inm P [] -> complementary eqm inm (length b) ->
  length (y_c y) = length eqm -> length (y_d y) = length inm ->
  two_call P (two_user b) = Vals (c, d) ->
  exists r q, callback_iterate P x s y c d obj lb = Some r /\ callback_solution P y c d obj = Some (q, y, c, d) /\
    i_obj r = r_obj q /\ i_zl r = r_zl q /\ i_zu r = r_zu q /\ i_cons r = r_cons q /\ i_lambda r = r_lambda q.
Proof. exact iterate_as_solution. Qed.
Print Assumptions C90_as_solution_partial.

(** With one scaling in force the objective is the user's and the constraint values are the user's
    times the scaling factors *)
Theorem C90_scaled : forall (K : cfield) eqm inm (P : nlp K) t x s y b c d f lb,
  built eqm inm P [t] -> complementary eqm inm (length b) ->
  length (y_c y) = length eqm -> length (y_d y) = length inm ->
  two_call P (two_user b) = Vals (c, d) ->
  exists r, callback_iterate P x s y c d (eval_f P f) lb = Some r /\ i_obj r = f /\
    length (i_cons r) = length b /\
    (forall k, k < length eqm -> at_ (i_cons r) (nth k eqm 0) = at_ (s_c t) k *! at_ b (nth k eqm 0)) /\
    (forall k, k < length inm -> at_ (i_cons r) (nth k inm 0) = at_ (s_d t) k *! at_ b (nth k inm 0)).
Proof. exact iterate_single. Qed.
Print Assumptions C90_scaled.

Definition dit : itrep Qc_field := ItRep (q 0) (q 0) [] [] [] [] [] [].
(** three constraints without scaling *)
Example C90_case : exists h r,
  built [0; 2] [1] (P0 [0; 2] [1]) [] /\ complementary [0; 2] [1] 3 /\
  two_call (P0 [0; 2] [1]) (two_user [q 5; q 6; q 7]) = Vals h /\
  callback_iterate (P0 [0; 2] [1]) [q 1] [q 6] (Duals [q 10; q 20] [q 30] [q 0] [q 0]) (fst h) (snd h)
    (eval_f (P0 [0; 2] [1]) (q 9)) (q 8) = Some r /\
  map this (i_cons r) = [5; 6; 7]%Q /\ map this (i_lambda r) = [10; 30; 20]%Q /\ this (i_obj r) = 9%Q.
Proof.
  exists (getv ([], []) (two_call (P0 [0; 2] [1]) (two_user [q 5; q 6; q 7]))). set (h := getv _ _).
  exists (get dit (callback_iterate (P0 [0; 2] [1]) [q 1] [q 6] (Duals [q 10; q 20] [q 30] [q 0] [q 0]) (fst h) (snd h)
    (eval_f (P0 [0; 2] [1]) (q 9)) (q 8))).
  split; [apply built0|]. split; [apply compl3|]. split; [gotv|]. split; [got|]. repeat split; vm_compute; reflexivity.
Qed.
(** the same constraints scaled by 2, 8 and 4 *)
Example C90_scaled_case : exists h r,
  built [0; 2] [1] P1 [s1] /\ two_call P1 (two_user [q 5; q 6; q 7]) = Vals h /\
  callback_iterate P1 [q 1] [q 6] (Duals [q 10; q 20] [q 30] [q 0] [q 0]) (fst h) (snd h) (eval_f P1 (q 9)) (q 8) = Some r /\
  map this (i_cons r) = [10; 48; 28]%Q /\ this (i_obj r) = 9%Q.
Proof.
  exists (getv ([], []) (two_call P1 (two_user [q 5; q 6; q 7]))). set (h := getv _ _).
  exists (get dit (callback_iterate P1 [q 1] [q 6] (Duals [q 10; q 20] [q 30] [q 0] [q 0]) (fst h) (snd h) (eval_f P1 (q 9)) (q 8))).
  split; [apply P1_built|]. split; [gotv|]. split; [got|]. repeat split; vm_compute; reflexivity.
Qed.

(** gradient 200 and one equality with Jacobian 200 and value 6 at the iterate: the default scaling
    halves both, the callback of the last iteration is given the constraint value 3 and the solution
    callback, at the same iterate, 6; and the solver's multiplier -1, which is right for the user's
    problem here, is given as it is to the first and halved twice to the second *)
Theorem C90_scaled_refuted : exists R h r rep,
  apply_scaling o100 (P0 [0] []) [q 1] [] [] [q 200] [[q 200]] [] = Some R /\
  two_call (res_nlp R) (two_user [q 6]) = Vals h /\
  callback_iterate (res_nlp R) [q 1] [] (Duals [q (-1)] [] [q 0] [q 0]) (fst h) (snd h) (q 0) (q 0) = Some r /\
  callback_solution (res_nlp R) (Duals [q (-1)] [] [q 0] [q 0]) (fst h) (snd h) (q 0) = Some rep /\
  i_cons r <> [q 6] /\ r_cons (res_rep rep) = [q 6] /\
  at_ [q 200] 0 +! at_ [q 200] 0 *! at_ (i_lambda r) 0 = q 0 /\ r_lambda (res_rep rep) <> i_lambda r.
Proof.
  exists (get dres (apply_scaling o100 (P0 [0] []) [q 1] [] [] [q 200] [[q 200]] [])). set (R := get dres _).
  exists (getv ([], []) (two_call (res_nlp R) (two_user [q 6]))). set (h := getv _ _).
  exists (get dit (callback_iterate (res_nlp R) [q 1] [] (Duals [q (-1)] [] [q 0] [q 0]) (fst h) (snd h) (q 0) (q 0))).
  set (r := get dit _).
  exists (get drep (callback_solution (res_nlp R) (Duals [q (-1)] [] [q 0] [q 0]) (fst h) (snd h) (q 0))).
  set (rep := get drep _).
  split; [got|]. split; [gotv|]. split; [got|]. split; [got|].
  assert (N : forall a b : Qc_field, Qeq_bool (this a) (this b) = false -> [a] <> [b]).
  { intros a b H E. injection E as E. revert E. apply qneq. exact H. }
  split.
  { replace (i_cons r) with [at_ (i_cons r) 0]; [apply N; vm_compute; reflexivity|].
    destruct (i_cons r) as [|a [|? ?]] eqn:E; vm_compute in E; try discriminate. reflexivity. }
  split.
  { replace (r_cons (res_rep rep)) with [at_ (r_cons (res_rep rep)) 0].
    - f_equal.
    - destruct (r_cons (res_rep rep)) as [|a [|? ?]] eqn:E; vm_compute in E; try discriminate. reflexivity. }
  split; [apply Qc_is_canon; vm_compute; reflexivity|].
  intro E. assert (F : at_ (r_lambda (res_rep rep)) 0 = at_ (i_lambda r) 0) by (rewrite E; reflexivity).
  revert F. apply qneq. vm_compute. reflexivity.
Qed.
Print Assumptions C90_scaled_refuted.

(** the callback for all internal iterates: with host callbacks and device memory it is given the duals
    of the slack bounds as the duals of the variable bounds, and uninitialised memory as the duals of
    the slack bounds; the copy is only possible when there are as many inequalities as variables *)
Theorem C90_full_host : forall (K : cfield) (mem : nat -> list K) a r, (forall n, length (mem n) = n) ->
  callback_full true mem a = Some r ->
  g_x r = g_x a /\ g_yc r = g_yc a /\ g_yd r = g_yd a /\ g_s r = g_s a /\
  g_zl r = g_vl a /\ g_zu r = g_vu a /\ g_vl r = mem (length (g_yd a)) /\ g_vu r = mem (length (g_yd a)) /\
  length (g_vl a) = length (g_x a) /\ length (g_vu a) = length (g_x a).
Proof. exact full_host. Qed.
Print Assumptions C90_full_host.
Definition full1 : fullrep Qc_field := FullRep [q 1] [q 2] [q 3] [] [q 4] [q 5] [q 6] [q 7].
Definition full2 : fullrep Qc_field := FullRep [q 1; q 1] [q 2; q 2] [q 3; q 3] [] [q 4] [q 5] [q 6] [q 7].
(** one variable and one inequality: the wrong duals; two variables and one inequality: an assert *)
Theorem C90_full_refuted : 
  (exists r, callback_full true (fun n => repeat (q 0) n) full1 = Some r /\
    g_zl r <> g_zl full1 /\ g_vl r <> g_vl full1) /\
  callback_full true (fun n => repeat (q 0) n) full2 = None /\
  callback_full false (fun n => repeat (q 0) n) full2 = Some full2.
Proof.
  split; [|split; reflexivity]. eexists. split; [reflexivity|]. cbn.
  assert (N : forall a b : Qc_field, Qeq_bool (this a) (this b) = false -> [a] <> [b]).
  { intros a b H E. injection E as E. revert E. apply qneq. exact H. }
  split; apply N; vm_compute; reflexivity.
Qed.
Print Assumptions C90_full_refuted.
Example C90_full_case : (forall n, length (repeat (q 0) n) = n) /\
  callback_full true (fun n => repeat (q 0) n) full1 = Some (FullRep [q 1] [q 6] [q 7] [] [q 4] [q 5] [q 0] [q 0]).
Proof. split; [intro; apply repeat_length|reflexivity]. Qed.
