(** Theorems on the C and Fortran interface: C38, C55, C56, C57. *)
From Coq Require Import ZArith List Bool Lia.
From Verif Require Import FortModel FortSpec FortProofs.
Import ListNotations.
Open Scope Z_scope.

(** C38, Jacobian.  Whatever storage the solver starts from, for every user
    routine meeting its contract and every sequence of requests (values,
    Jacobians, Hessians, new solves) nothing aborts, the Jacobian the solver
    holds has the 0-based version of the user's 1-based pattern with the values
    at the last point, and the user was called once for the pattern and then
    once per evaluation for values, never in another way. *)
Theorem C38_jacobian : forall V U (fp : fprob V U) jr jc jv hr hc hv J H u es,
  matrix_routine (f_jac fp) jr jc jv ->
  matrix_routine (f_hess fp) hr hc hv ->
  sized (length jr) J -> sized (length hr) H ->
  (forall H', In (EvSolve H') es -> sized (length hr) H') ->
  exists s, serve_all fp (sst0 J H u) es = Some s /\
    (jac_points es <> [] ->
       holds (ss_jac s) jr jc jv (jac_points es) /\
       ss_jseen s = pattern_call :: repeat value_call (length (jac_points es))) /\
    (jac_points es = [] -> ss_jac s = J /\ ss_jseen s = []).
Proof.
  intros V U fp jr jc jv hr hc hv J H u es MJ MH SJ SH SE.
  destruct (run_weak fp jr jc jv hr hc hv MJ MH es (sst0 J H u))
    as (s & E & _ & _ & A).
  { apply start_jinv. exact SJ. }
  { split; [exact SH|left; reflexivity]. }
  { exact SE. }
  exists s. split; [exact E|]. cbn [sst0 ss_njac ss_jac ss_jseen] in A.
  destruct (jac_points es) as [|p ps] eqn:EP.
  - split; [congruence|]. intros _. cbn [added] in A. tauto.
  - split; [|congruence]. intros _. cbn [added] in A. destruct A as (_ & Ai & Aj & Av & Al).
    split; [|exact Al]. intros q. rewrite Ai, Aj.
    split; [apply minus1_zero_based|]. split; [apply minus1_zero_based|]. apply Av.
Qed.
Print Assumptions C38_jacobian.

(** C38, Hessian, same statement within one solve. *)
Theorem C38_hessian : forall V U (fp : fprob V U) jr jc jv hr hc hv J H u es,
  matrix_routine (f_jac fp) jr jc jv ->
  matrix_routine (f_hess fp) hr hc hv ->
  sized (length jr) J -> sized (length hr) H ->
  one_solve es ->
  exists s, serve_all fp (sst0 J H u) es = Some s /\
    (hess_points es <> [] ->
       holds (ss_hess s) hr hc hv (hess_points es) /\
       ss_hseen s = pattern_call :: repeat value_call (length (hess_points es))) /\
    (hess_points es = [] -> ss_hess s = H /\ ss_hseen s = []).
Proof.
  intros V U fp jr jc jv hr hc hv J H u es MJ MH SJ SH OS.
  destruct (run_hess fp jr jc jv hr hc hv MJ MH es (sst0 J H u))
    as (s & E & _ & _ & A).
  { apply start_jinv. exact SJ. }
  { apply start_hinv. exact SH. }
  { exact OS. }
  exists s. split; [exact E|]. cbn [sst0 ss_nhess ss_hess ss_hseen] in A.
  destruct (hess_points es) as [|p ps] eqn:EP.
  - split; [congruence|]. intros _. cbn [added] in A. tauto.
  - split; [|congruence]. intros _. cbn [added] in A. destruct A as (_ & Ai & Aj & Av & Al).
    split; [|exact Al]. intros q. rewrite Ai, Aj.
    split; [apply minus1_zero_based|]. split; [apply minus1_zero_based|]. apply Av.
Qed.
Print Assumptions C38_hessian.

(** C38, problem data: the sizes, bounds and starting point given at creation
    are what the solver is told, whatever it had in its arrays; entries beyond
    the announced size are left alone. *)
Theorem C38_problem_data :
  forall V U n m je ji h (xl xu cl cu x0 : list V) (fj fh : routine V U) old a b c d,
  0 <= n -> 0 <= m ->
  length xl = Z.to_nat n -> length xu = Z.to_nat n -> length x0 = Z.to_nat n ->
  length cl = Z.to_nat m -> length cu = Z.to_nat m ->
  length a = Z.to_nat n -> length b = Z.to_nat n ->
  length c = Z.to_nat m -> length d = Z.to_nat m ->
  exists fp, create n m je ji h xl xu cl cu x0 fj fh old = Some fp /\
    get_sizes fp = (n, m) /\
    get_blocks fp = (n, je, ji, h) /\
    get_vars fp n a b = Some (xl, xu) /\
    get_cons fp m c d = Some (cl, cu) /\
    get_start fp n a = Some x0.
Proof.
  intros V U n m je ji h xl xu cl cu x0 fj fh old a b c d Hn Hm L1 L2 L3 L4 L5 L6 L7 L8 L9.
  unfold create.
  rewrite !copy_fresh by lia.
  eexists. split; [reflexivity|].
  unfold get_sizes, get_blocks, get_vars, get_cons, get_start. cbn [f_n f_m f_xlow f_xupp f_clow f_cupp f_x0 f_nnz_eq f_nnz_ineq f_nnz_hess].
  rewrite !Z.eqb_refl.
  rewrite !copy_all by (rewrite ?firstn_length; lia).
  assert (F : forall (l : list V) k, length l = k -> firstn k l = l)
    by (intros l k <-; apply firstn_all).
  assert (S : forall (l : list V) k, length l = k -> skipn k l = [])
    by (intros l k <-; apply skipn_all).
  rewrite !(F _ _ L1), !(F _ _ L2), !(F _ _ L3), !(F _ _ L4), !(F _ _ L5).
  rewrite !(S _ _ L6), !(S _ _ L7), !(S _ _ L8), !(S _ _ L9), !app_nil_r.
  auto 10.
Qed.
Print Assumptions C38_problem_data.

(** A user with a 2 by 3 Jacobian [(1,1),(2,3)] and Hessian [(1,2)], with values
    depending on the point; it counts its calls. *)
Definition uj (u : nat) (p : point Z) (a : fargs Z) : nat * fargs Z :=
  (S u, FA (a_task a) (a_n a) (a_m a) (a_newx a) (a_nnz a)
           (if a_task a =? 0 then Some [1; 2] else a_i a)
           (if a_task a =? 0 then Some [1; 3] else a_j a)
           (if a_task a =? 0 then a_v a else Some [nth 0 (p_x p) 0; 7])).
Definition uh (u : nat) (p : point Z) (a : fargs Z) : nat * fargs Z :=
  (S u, FA (a_task a) (a_n a) (a_m a) (a_newx a) (a_nnz a)
           (if a_task a =? 0 then Some [1] else a_i a)
           (if a_task a =? 0 then Some [2] else a_j a)
           (if a_task a =? 0 then a_v a
            else Some [match p_obj p with Some o => o | None => 0 end + nth 0 (p_lam p) 0])).
Definition ufp : fprob Z nat := FP 3 2 1 1 1 [0;0;0] [9;9;9] [0;0] [5;5] [1;1;1] uj uh.
Definition uJ : trip Z := TR [50; 60] [70; 80] [0; 0].
Definition uH : trip Z := TR [90] [95] [0].

Lemma uj_ok : matrix_routine uj [1;2] [1;3] (fun p => [nth 0 (p_x p) 0; 7]).
Proof.
  split; [|split; [|split; [reflexivity|reflexivity]]].
  - intros u p a li lj T I J Li Lj N. unfold uj. rewrite T. cbn. auto.
  - intros u p a lv T I L N. unfold uj. rewrite T. cbn. auto.
Qed.
Lemma uh_ok : matrix_routine uh [1] [2]
  (fun p => [match p_obj p with Some o => o | None => 0 end + nth 0 (p_lam p) 0]).
Proof.
  split; [|split; [|split; [reflexivity|reflexivity]]].
  - intros u p a li lj T I J Li Lj N. unfold uh. rewrite T. cbn. auto.
  - intros u p a lv T I L N. unfold uh. rewrite T. cbn. auto.
Qed.

Example C38_jacobian_case :
  exists s, serve_all ufp (sst0 uJ uH 0%nat)
              [EvCons; EvJac [4;0;0] true; EvHess [4;0;0] false 2 [3;3] true; EvJac [5;0;0] true] = Some s /\
    ss_jac s = TR [0; 1] [0; 2] [5; 7] /\ ss_hess s = TR [0] [1] [5] /\ ss_u s = 5%nat /\
    ss_jseen s = [pattern_call; value_call; value_call].
Proof. eexists. split; [reflexivity|]. auto. Qed.

(** The hypotheses of the two theorems hold for this user. *)
Example C38_hessian_case :
  matrix_routine (f_jac ufp) [1;2] [1;3] (fun p => [nth 0 (p_x p) 0; 7]) /\
  matrix_routine (f_hess ufp) [1] [2]
    (fun p => [match p_obj p with Some o => o | None => 0 end + nth 0 (p_lam p) 0]) /\
  sized 2 uJ /\ sized 1 uH /\
  one_solve [EvCons; EvJac [4;0;0] true; EvHess [4;0;0] false 2 [3;3] true; EvJac [5;0;0] true].
Proof.
  split; [exact uj_ok|]. split; [exact uh_ok|].
  split; [cbv; auto|]. split; [cbv; auto|].
  intros H' [E|[E|[E|[E|[]]]]]; discriminate.
Qed.

Example C38_problem_data_case :
  exists fp, create 3 2 1 1 1 [1;2;3] [4;5;6] [7;8] [9;9] [2;2;2] uj uh 0 = Some fp /\
    get_vars fp 3 [0;0;0] [0;0;0] = Some ([1;2;3], [4;5;6]) /\ get_start fp 3 [0;0;0] = Some [2;2;2].
Proof. eexists. split; [reflexivity|]. auto. Qed.

(** C55, the part that holds: the Jacobian of every solve of the same problem
    object is the user's (missing: the Hessian). *)
Theorem C55_jacobian_every_solve_partial :
  forall V U (fp : fprob V U) jr jc jv hr hc hv J H u es1 H2 es2,
  matrix_routine (f_jac fp) jr jc jv ->
  matrix_routine (f_hess fp) hr hc hv ->
  sized (length jr) J -> sized (length hr) H -> sized (length hr) H2 ->
  one_solve es1 -> one_solve es2 ->
  jac_points es2 <> [] ->
  exists s, serve_all fp (sst0 J H u) (es1 ++ EvSolve H2 :: es2) = Some s /\
    holds (ss_jac s) jr jc jv (jac_points es2).
Proof.
  intros V U fp jr jc jv hr hc hv J H u es1 H2 es2 MJ MH SJ SH SH2 O1 O2 NE.
  assert (JP : forall a b : list (event V), jac_points (a ++ b) = jac_points a ++ jac_points b).
  { induction a as [|e a IH]; intros b; [reflexivity|].
    destruct e; cbn; rewrite ?IH; reflexivity. }
  destruct (C38_jacobian V U fp jr jc jv hr hc hv J H u (es1 ++ EvSolve H2 :: es2) MJ MH SJ SH)
    as (s & E & A & _).
  { intros H' I. apply in_app_or in I. destruct I as [I|[I|I]].
    - exfalso. exact (O1 H' I).
    - injection I as <-. exact SH2.
    - exfalso. exact (O2 H' I). }
  exists s. split; [exact E|].
  rewrite JP in A. cbn [jac_points] in A.
  destruct A as (Ah & _).
  { intros Z. apply app_eq_nil in Z. tauto. }
  assert (LA : forall (l2 l1 : list (point V)) q, l2 <> [] -> last (l1 ++ l2) q = last l2 q).
  { intros l2 l1 q Hne. induction l1 as [|a l1 IH]; [reflexivity|].
    cbn [app]. destruct (l1 ++ l2) as [|b l] eqn:El.
    - apply app_eq_nil in El. tauto.
    - change (last (a :: b :: l) q) with (last (b :: l) q). exact IH. }
  intros q. specialize (Ah q). rewrite LA in Ah by exact NE. exact Ah.
Qed.
Print Assumptions C55_jacobian_every_solve_partial.

Example C55_jacobian_every_solve_partial_case :
  exists s, serve_all ufp (sst0 uJ uH 0%nat)
              ([EvJac [4;0;0] true] ++ EvSolve uH :: [EvJac [5;0;0] true]) = Some s /\
    ss_jac s = TR [0; 1] [0; 2] [5; 7].
Proof. eexists. split; [reflexivity|]. auto. Qed.

(** C55 refuted for the Hessian: for every user, after a solve that evaluated a
    Hessian, a second solve of the same problem object works with whatever
    indices its fresh storage contained, however many Hessians it evaluates. *)
Theorem C55_second_solve_refuted :
  forall V U (fp : fprob V U) jr jc jv hr hc hv J H u es1 H2 es2,
  matrix_routine (f_jac fp) jr jc jv ->
  matrix_routine (f_hess fp) hr hc hv ->
  sized (length jr) J -> sized (length hr) H -> sized (length hr) H2 ->
  one_solve es1 -> one_solve es2 -> hess_points es1 <> [] ->
  exists s, serve_all fp (sst0 J H u) (es1 ++ EvSolve H2 :: es2) = Some s /\
    t_i (ss_hess s) = t_i H2 /\ t_j (ss_hess s) = t_j H2.
Proof.
  intros V U fp jr jc jv hr hc hv J H u es1 H2 es2 MJ MH SJ SH SH2 O1 O2 NE.
  destruct (run_hess fp jr jc jv hr hc hv MJ MH es1 (sst0 J H u))
    as (s1 & E1 & J1 & Hi1 & A1).
  { apply start_jinv. exact SJ. } { apply start_hinv. exact SH. } { exact O1. }
  rewrite serve_all_app, E1. cbn [serve_all serve].
  match goal with |- context [serve_all fp ?st es2] => set (s2 := st) end.
  destruct (run_after fp jr jc jv hr hc hv MJ MH es2 s2) as (s & E & A).
  { exact J1. }
  { split; [exact SH2|]. right. cbn. destruct (hess_points es1); [congruence|]. apply A1. }
  { cbn. destruct (hess_points es1); [congruence|]. apply A1. }
  { exact O2. }
  exists s. split; [exact E|exact A].
Qed.
Print Assumptions C55_second_solve_refuted.

Example C55_second_solve_refuted_case :
  exists s, serve_all ufp (sst0 uJ uH 0%nat)
     ([EvHess [4;0;0] true 2 [3;3] true] ++ EvSolve uH :: [EvHess [4;0;0] true 2 [3;3] true]) = Some s /\
    ss_hess s = TR [90] [95] [5].
Proof. eexists. split; [reflexivity|]. auto. Qed.

(** C56, the part that holds: constraint values.  A user that recomputes only
    when told that the point is new returns the right constraint values for every
    sequence of points whose flags are honest. *)
Theorem C56_constraints_partial : forall V R (g : list V -> R) xs u,
  honest None xs ->
  map fst (snd (c_evals KCons (caching g) u xs)) = map (fun p => g (fst p)) xs.
Proof.
  intros V R g xs u Hh. apply (caching_cons R g xs None u Hh). intros x E. discriminate.
Qed.
Print Assumptions C56_constraints_partial.

Example C56_constraints_partial_case :
  honest None [([3], true); ([3], false); ([4], true)] /\
  map fst (snd (c_evals KCons (caching (fun x => nth 0 x 0 * 10)) 1
     [([3], true); ([3], false); ([4], true)])) = [30; 30; 40].
Proof. split; [cbn; repeat split; congruence|reflexivity]. Qed.

(** C56 refuted for the objective and its gradient: the flag always arrives as
    0, so the same user returns its initial memory at every point. *)
Theorem C56_objective_refuted : forall V R (g : list V -> R) k xs u,
  k = KObj \/ k = KGrad ->
  map fst (snd (c_evals k (caching g) u xs)) = map (fun _ => u) xs.
Proof. intros V R g k xs u K. apply caching_stale. exact K. Qed.
Print Assumptions C56_objective_refuted.

Example C56_objective_refuted_case :
  honest None [([3], true); ([4], true)] /\
  map fst (snd (c_evals KObj (caching (fun x => nth 0 x 0 * 10)) 1 [([3], true); ([4], true)])) = [1; 1] /\
  [1; 1] <> map (fun p : list Z * bool => nth 0 (fst p) 0 * 10) [([3], true); ([4], true)].
Proof. split; [cbn; repeat split; congruence|]. split; [reflexivity|discriminate]. Qed.

(** C57 refuted: whatever error codes the user's routine returns, the solver is
    told that every evaluation succeeded. *)
Theorem C57_failure_refuted : forall V U R k (cb : callback V U R) xs u,
  Forall (fun p => snd p = true) (snd (c_evals k cb u xs)).
Proof. intros. apply evals_true. Qed.
Print Assumptions C57_failure_refuted.

Example C57_failure_refuted_case :
  snd (c_evals KObj (fun (u : nat) (x : list Z) (f : Z) => (u, 0, -1)) 0%nat [([3], true); ([4], true)])
  = [(0, true); (0, true)].
Proof. reflexivity. Qed.
