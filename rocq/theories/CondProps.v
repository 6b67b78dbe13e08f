(** C46: the condensed linear system of the sparse solver. *)
From Coq Require Import List Bool Arith Lia Ring Field Sorted QArith Qcanon.
From Verif Require Import RingKit PackModel SparseModel SparseSpec SparseProofs SparseProps
  CsrModel CsrSpec CsrProps CondModel CondSpec CondProofs CondProofs2.
Import ListNotations.
Close Scope Qc_scope. Close Scope Q_scope. Open Scope nat_scope.

(** Missing from the full claim: an empty Hessian or an empty Jacobian (refuted below). *)
Theorem C46_condensed_matrix_partial : forall (K : cfield) n m (J : nat -> nat -> junk K) x0 xs,
  inputs_ok n m x0 ->
  Forall (fun x => inputs_ok n m x /\ same_positions (t_ent (i_h x)) (t_ent (i_h x0)) /\ same_positions (t_ent (i_j x)) (t_ent (i_j x0))) xs ->
  exists s rows, cond_builds K J (x0 :: xs) = Some (Some s) /\ c_m (s_m s) = n /\ c_n (s_m s) = n /\ stores (s_m s) rows /\ ordered rows /\
    forall i j, i < n -> j < n -> cmat rows i j = condensed m (last xs x0) i j /\ cmat rows j i = cmat rows i j.
Proof.
  intros K n m J x0 xs H0 Hxs. destruct (builds_ok K n m J x0 xs H0 Hxs) as [s [E [G1 [G2 [_ [_ [rs [G3 [G4 G5]]]]]]]]].
  exists s, rs. do 5 (split; [assumption|]). intros i j Hi Hj. rewrite !G5 by auto. split; auto. apply condensed_sym.
Qed.
Print Assumptions C46_condensed_matrix_partial.

Theorem C46_condensed_solve_partial : forall (K : cfield) n m (J : nat -> nat -> junk K) x0 xs solver s rx rd ryd dx dd dyd,
  inputs_ok n m x0 ->
  Forall (fun x => inputs_ok n m x /\ same_positions (t_ent (i_h x)) (t_ent (i_h x0)) /\ same_positions (t_ent (i_j x)) (t_ent (i_j x0))) xs ->
  exact_solver solver -> length rx = n -> length rd = m -> length ryd = m ->
  let x := last xs x0 in
  cond_builds K J (x0 :: xs) = Some (Some s) -> cond_solve K solver s (i_j x) rx rd ryd = Some (dx, dd, dyd) ->
  length dx = n /\ length dd = m /\ length dyd = m /\
  (forall i, i < n -> mv n (symmat (t_ent (i_h x))) dx i +! (at_ (i_dx x) i +! at_ (i_wx x) i) *! at_ dx i +!
      sumn m (fun k => mat (t_ent (i_j x)) k i *! at_ dyd k) = at_ rx i) /\
  (forall k, k < m -> (at_ (i_dd x) k +! at_ (i_wd x) k) *! at_ dd k -! at_ dyd k = at_ rd k) /\
  (forall k, k < m -> sumn n (fun j => mat (t_ent (i_j x)) k j *! at_ dx j) -! at_ dd k = at_ ryd k).
Proof.
  intros K n m J x0 xs solver s rx rd ryd dx dd dyd H0 Hxs Hs L1 L2 L3 x E S.
  destruct (builds_ok K n m J x0 xs H0 Hxs) as [s' [E' G]]. rewrite E in E'. injection E' as <-.
  apply (solve_ok K n m x s solver rx rd ryd); auto. unfold x.
  destruct (exists_last (l := x0 :: xs)) as [l [a El]]; [discriminate|].
  rewrite <- (last_cons xs x0 x0), El, last_last.
  assert (Ha : In a (x0 :: xs)) by (rewrite El; apply in_or_app; right; left; auto).
  destruct Ha as [<-|Ha]; auto. rewrite Forall_forall in Hxs. apply Hxs. auto.
Qed.
Print Assumptions C46_condensed_solve_partial.

(** two builds with different numbers: n = 2 variables, m = 1 inequality *)
Definition kx1 : kin Qc_field := Kin (Trip 2 2 [(0,0,q 4); (0,1,q 1); (1,1,q 3)]) (Trip 1 2 [(0,0,q 1); (0,1,q 2)]) [q 1; q 2] [q 5] [q 0; q 0] [q 0].
Definition kx2 : kin Qc_field := Kin (Trip 2 2 [(0,0,q 1); (0,1,q 2); (1,1,q 5)]) (Trip 1 2 [(0,0,q 3); (0,1,q 1)]) [q 2; q 2] [q 1] [q 1; q 1] [q 1].
Example C46_case : match cond_builds Qc_field (fun i _ => if i =? 0 then J7 else J9) [kx1; kx2] with
  | Some (Some s) => c_ptr (s_m s) = [0; 2; 4] /\ c_col (s_m s) = [0; 1; 0; 1] /\ c_val (s_m s) = [q 22; q 8; q 8; q 10] /\
      (** a one-entry "solver" result is checked by the theorem; here the exact solution for rhs (30,18) is (1,1) *)
      cond_solve Qc_field (fun _ r => if Qc_eq_bool (at_ r 0) (q 30) && Qc_eq_bool (at_ r 1) (q 18) then Some [q 1; q 1] else None)
        s (i_j kx2) [q 24; q 16] [q 2] [q 0] = Some ([q 1; q 1], [q 4], [q 6])
  | _ => False end.
Proof. vm_compute. auto. Qed.
Lemma C46_case_hyp : inputs_ok 2 1 kx1 /\ inputs_ok 2 1 kx2.
Proof.
  assert (B : forall e : entry Qc_field, forall l m n, In e l -> Forall (fun e => row e < m /\ col e < n) l -> row e < m /\ col e < n).
  { intros e l m n He Hf. rewrite Forall_forall in Hf. auto. }
  unfold inputs_ok; cbn [i_h i_j i_dx i_dd i_wx i_wd kx1 kx2 t_m t_n t_ent length];
  repeat split; auto; try discriminate;
  try (match goal with
       | H : In ?e _ |- _ < _ => apply (B _ _ 2 2) in H; [vm_compute in H |- *; lia | repeat (constructor; [vm_compute; lia|]); constructor] end; fail);
  try (match goal with
       | H : In ?e _ |- _ < _ => apply (B _ _ 1 2) in H; [vm_compute in H |- *; lia | repeat (constructor; [vm_compute; lia|]); constructor] end; fail);
  repeat (constructor; [|repeat (constructor; [vm_compute; lia|]); constructor]); constructor.
Qed.

(** an empty Hessian (linear objective) makes the assembly abort *)
Theorem C46_empty_hessian_refuted : exists (J : nat -> nat -> junk Qc_field) (x : kin Qc_field),
  t_ent (i_h x) = [] /\ wf (i_h x) /\ wf (i_j x) /\ sorted (t_ent (i_j x)) /\ t_ent (i_j x) <> [] /\ cond_builds Qc_field J [x] = None.
Proof.
  exists (fun _ _ => J7), (Kin (Trip 1 1 []) (Trip 1 1 [(0,0,q 1)]) [q 1] [q 1] [q 0] [q 0]).
  split; auto. split; [intros e []|]. split.
  { intros e He. simpl in He. destruct He as [<-|[]]. vm_compute. lia. }
  split; [repeat constructor|]. split; [discriminate|]. vm_compute. reflexivity.
Qed.
Print Assumptions C46_empty_hessian_refuted.
