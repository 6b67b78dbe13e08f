(** C47: the library's own check of the storage order of a CSR matrix. *)
From Coq Require Import List Bool Arith Sorted Lia QArith Qcanon.
From Verif Require Import RingKit SparseModel SparseSpec CsrModel CsrSpec CsrProofs CsrProofs2 CsrProofs3 SparseProps.
Import ListNotations.
Close Scope Qc_scope. Close Scope Q_scope. Open Scope nat_scope.

Lemma sorted_map {A} (f : A -> nat) l : StronglySorted (fun a b => f a < f b) l <-> StronglySorted lt (map f l).
Proof.
  induction l as [|a l IH]; [split; constructor|]. cbn [map]. split; intros H; inversion H; subst; constructor; try (apply IH; assumption).
  - apply Forall_forall. intros y Hy. apply in_map_iff in Hy. destruct Hy as (x & <- & Hx). rewrite Forall_forall in *. auto.
  - apply Forall_forall. intros x Hx. match goal with F : Forall _ (map f l) |- _ => rewrite Forall_forall in F; apply F end. apply in_map. exact Hx.
Qed.
(** The check answers true exactly when the columns of every row strictly increase (no duplicates), for every stored matrix. *)
Theorem C47_check_ordered : forall (K : cfield) (A : csr K) rows, stores A rows ->
  exists b, check_csr_is_ordered K A = Some b /\ (b = true <-> ordered rows).
Proof.
  intros K A rows S. assert (C : crows A = Some rows) by (apply crows_ok, rep_stores; exact S).
  unfold check_csr_is_ordered. rewrite C. eexists. split; [reflexivity|]. rewrite forallb_forall. unfold ordered. rewrite Forall_forall.
  split; intros H r Hr; specialize (H r Hr).
  - apply sorted_map. apply incr_iff. exact H.
  - apply incr_iff. apply (sorted_map fst). exact H.
Qed.
(** a matrix with a duplicated position and one without *)
Example C47_check_case :
  check_csr_is_ordered Qc_field (Csr 2 3 3 [0; 2; 3] [0; 2; 1] [q 5; q 6; q 7] None) = Some true /\
  check_csr_is_ordered Qc_field (Csr 2 3 3 [0; 2; 3] [2; 2; 1] [q 5; q 6; q 7] None) = Some false /\
  stores (Csr 2 3 3 [0; 2; 3] [2; 2; 1] [q 5; q 6; q 7] None) [[(2, q 5); (2, q 6)]; [(1, q 7)]].
Proof.
  split; [reflexivity|]. split; [reflexivity|]. unfold stores. cbn. repeat (split; [reflexivity|]). split.
  - intros [|[|[|i]]] r Hr; cbn in Hr; try discriminate; injection Hr as <-; split; reflexivity.
  - repeat (split; [reflexivity|]). repeat constructor.
Qed.
Print Assumptions C47_check_ordered.
