(** Proofs about the dense solve of the quasi-Newton direction. *)
From Coq Require Import List Bool Arith ZArith Lia.
From Verif Require Import RingKit KktModel KktModel2 KktSpec.
From Verif Require Import RefinModel RefinSpec.
Import ListNotations.

Section Any.
Variable T : Type.
Notation vec := (nat -> T).
Notation mat := (nat -> nat -> T).
Variable B : kernels T.

(** a pass that starts after n refinements ends at X, whatever x held *)
Lemma passes_ok N X A b : forall k n fuel x M, n + k = max_refin -> k < fuel ->
  exists M', passes T B fuel N X A b (RState T x M n) = Some (RState T X M' (if k_small B N (k_resid B N A b X) then n else max_refin)).
Proof.
  induction k as [|k IH]; intros n fuel x M E L; (destruct fuel as [|fuel]; [lia|]); cbn [passes]; unfold pass; cbn [s_x s_M s_n];
    destruct (k_small B N (k_resid B N A b X)) eqn:ES; try (exists M; reflexivity).
  - replace (max_refin <=? n) with true by (symmetry; apply Nat.leb_le; lia). exists M. replace n with max_refin by lia. reflexivity.
  - replace (max_refin <=? n) with false by (symmetry; apply Nat.leb_gt; lia).
    apply IH; lia.
Qed.
Lemma solve_refin_ok mem x0 N A b : N > 0 ->
  solve_refin T B mem x0 N A b = Some (0%Z, snd (k_posvx B N A b mem), if k_small B N (k_resid B N A b (snd (k_posvx B N A b mem))) then 0 else 3).
Proof.
  intros L. unfold solve_refin. destruct N as [|N]; [lia|]. cbn [Nat.eqb].
  destruct (passes_ok (S N) (snd (k_posvx B (S N) A b mem)) A b 3 0 (max_refin + 1) x0 A) as (M' & E); [reflexivity|unfold max_refin; lia|].
  rewrite E. reflexivity.
Qed.
Lemma refin_solver_ok mem x0 N A b : refin_solver T B mem x0 N A b = Some (if N =? 0 then b else snd (k_posvx B N A b mem)).
Proof.
  unfold refin_solver. destruct N as [|N]; [reflexivity|]. rewrite solve_refin_ok by lia. reflexivity.
Qed.
End Any.

Section Exact.
Variable K : cfield.
Notation vec := (nat -> K).
Notation mat := (nat -> nat -> K).
(** the solve restricted to the systems on which DPOSVX succeeds *)
Definition guarded (B : kernels K) (mem x0 : vec) : dsolver K := fun N A b =>
  if (N =? 0) || Z.eqb (fst (k_posvx B N A b mem)) 0 then refin_solver K B mem x0 N A b else None.
Lemma guarded_exact B mem x0 : posvx_ok K (k_posvx B) -> exact K (guarded B mem x0).
Proof.
  intros OK N A b s. unfold guarded. rewrite refin_solver_ok. destruct N as [|N]; [intros _ i Hi; lia|]. cbn [Nat.eqb orb].
  destruct (k_posvx B (S N) A b mem) as [info x] eqn:E. cbn [fst snd]. destruct (Z.eqb info 0) eqn:Z0; [|discriminate].
  intros [= <-]. apply Z.eqb_eq in Z0. apply (proj1 (OK _ _ _ _ _ _ E)). auto.
Qed.
Lemma lowrank_guarded B mem x0 solveV (P : prob K) it sigma m old Wold r w :
  (forall b, neq P + ni P > 0 -> fst (k_posvx B (neq P + ni P) (lr_mat K solveV P it sigma m old Wold) b mem) = 0%Z) ->
  lowrank_refin K B mem x0 solveV P it sigma m old Wold r = Some w -> lowrank K solveV (guarded B mem x0) P it sigma m old Wold r = Some w.
Proof.
  intros H. unfold lowrank_refin, lowrank, xycyd_dir.
  assert (E : forall rx ryc ryd, lr_solve K solveV (guarded B mem x0) P it sigma m old Wold rx ryc ryd = lr_solve K solveV (refin_solver K B mem x0) P it sigma m old Wold rx ryc ryd).
  { intros. unfold lr_solve, guarded. cbv zeta.
    match goal with |- context [k_posvx B ?n ?A ?b mem] => replace ((n =? 0) || Z.eqb (fst (k_posvx B n A b mem)) 0) with true; [reflexivity|];
      destruct (n =? 0) eqn:E0; [reflexivity|]; apply Nat.eqb_neq in E0; rewrite (H b) by lia; reflexivity end. }
  cbv zeta. rewrite E. exact (fun h => h).
Qed.
End Exact.
