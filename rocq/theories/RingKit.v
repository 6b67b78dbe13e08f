(** Exact arithmetic for the algebraic kernels: any field (stdlib [field_theory], Leibniz equality).
    [double] is modelled by an arbitrary field, i.e. rounding is not modelled in the files that use
    this one.  The instance [Qc_field] (canonical rationals) is used for the concrete cases. *)
From Coq Require Import List Bool Arith Lia Ring Field Field_theory Qcanon.
Import ListNotations.
Close Scope Qc_scope.

Open Scope nat_scope.

Record cfield := CField {
  fcar :> Type;
  f0 : fcar; f1 : fcar;
  fadd : fcar -> fcar -> fcar; fmul : fcar -> fcar -> fcar;
  fsub : fcar -> fcar -> fcar; fopp : fcar -> fcar;
  fdiv : fcar -> fcar -> fcar; finv : fcar -> fcar;
  fth : field_theory f0 f1 fadd fmul fsub fopp fdiv finv eq }.
Arguments f0 {_}. Arguments f1 {_}. Arguments fadd {_}. Arguments fmul {_}. Arguments fsub {_}.
Arguments fopp {_}. Arguments fdiv {_}. Arguments finv {_}.

Infix "+!" := fadd (at level 50, left associativity).
Infix "-!" := fsub (at level 50, left associativity).
Infix "*!" := fmul (at level 40, left associativity).
Infix "/!" := fdiv (at level 40, left associativity).

(** canonical rationals *)
Definition Qc_field : cfield := CField Qc _ _ _ _ _ _ _ _ Qcft.

(** [for(x in l) s = f(x,s)] with failure *)
Fixpoint ofold {A S : Type} (f : A -> S -> option S) (l : list A) (s : S) : option S :=
  match l with
  | [] => Some s
  | x :: r => match f x s with Some s' => ofold f r s' | None => None end
  end.

Lemma ofold_app {A S} (f : A -> S -> option S) l1 l2 s :
  ofold f (l1 ++ l2) s = match ofold f l1 s with Some s' => ofold f l2 s' | None => None end.
Proof. revert s. induction l1 as [|x l1 IH]; intro s; simpl; auto. destruct (f x s); auto. Qed.
Lemma ofold_ext {A S} (f g : A -> S -> option S) l s :
  (forall x s, In x l -> f x s = g x s) -> ofold f l s = ofold g l s.
Proof.
  revert s. induction l as [|x l IH]; intros s H; simpl; auto. rewrite H by (left; auto).
  destruct (g x s); auto. apply IH. intros. apply H. right. auto.
Qed.
Lemma ofold_flat {A B S} (g : A -> list B) (f : B -> S -> option S) l s :
  ofold (fun a => ofold f (g a)) l s = ofold f (flat_map g l) s.
Proof.
  revert s. induction l as [|x l IH]; intro s; simpl; auto. rewrite ofold_app.
  destruct (ofold f (g x) s); auto.
Qed.
Lemma ofold_map {A B S} (g : A -> B) (f : B -> S -> option S) l s :
  ofold (fun a => f (g a)) l s = ofold f (map g l) s.
Proof. revert s. induction l as [|x l IH]; intro s; simpl; auto. destruct (f (g x) s); auto. Qed.

Section Sums.
Variable K : cfield.
Add Field kfield : (fth K).

Fixpoint lsum (l : list K) : K := match l with [] => f0 | x :: r => x +! lsum r end.
(** sum of [f 0 .. f (n-1)] *)
Definition sumn (n : nat) (f : nat -> K) : K := lsum (map f (seq 0 n)).

Lemma lsum_app l1 l2 : lsum (l1 ++ l2) = lsum l1 +! lsum l2.
Proof. induction l1 as [|x l1 IH]; simpl; [ring|]. rewrite IH. ring. Qed.
Lemma lsum_add {A} (f g : A -> K) l : lsum (map (fun a => f a +! g a) l) = lsum (map f l) +! lsum (map g l).
Proof. induction l as [|x l IH]; simpl; [ring|]. rewrite IH. ring. Qed.
Lemma lsum_scale {A} (f : A -> K) c l : lsum (map (fun a => c *! f a) l) = c *! lsum (map f l).
Proof. induction l as [|x l IH]; simpl; [ring|]. rewrite IH. ring. Qed.
Lemma lsum_scale_r {A} (f : A -> K) c l : lsum (map (fun a => f a *! c) l) = lsum (map f l) *! c.
Proof. induction l as [|x l IH]; simpl; [ring|]. rewrite IH. ring. Qed.
Lemma lsum_zero {A} (f : A -> K) l : (forall a, In a l -> f a = f0) -> lsum (map f l) = f0.
Proof.
  induction l as [|x l IH]; simpl; intro H; auto. rewrite H by auto. rewrite IH by auto. ring.
Qed.
Lemma lsum_ext {A} (f g : A -> K) l : (forall a, In a l -> f a = g a) -> lsum (map f l) = lsum (map g l).
Proof. intro H. f_equal. apply map_ext_in. auto. Qed.
Lemma lsum_swap {A B} (f : A -> B -> K) la lb :
  lsum (map (fun a => lsum (map (f a) lb)) la) = lsum (map (fun b => lsum (map (fun a => f a b) la)) lb).
Proof.
  induction la as [|x la IH]; simpl.
  - symmetry. apply lsum_zero. auto.
  - rewrite IH, <- lsum_add. reflexivity.
Qed.
Lemma lsum_flat {A B} (f : B -> K) (g : A -> list B) l :
  lsum (map f (flat_map g l)) = lsum (map (fun a => lsum (map f (g a))) l).
Proof. induction l as [|x l IH]; simpl; auto. rewrite map_app, lsum_app, IH. reflexivity. Qed.
(** the sum picks the only index that matches *)
Lemma lsum_pick (f : nat -> K) l i : NoDup l -> In i l ->
  lsum (map (fun j => if Nat.eqb i j then f j else f0) l) = f i.
Proof.
  induction l as [|x l IH]; intros Hd Hi; [destruct Hi|]. inversion Hd; subst. simpl.
  destruct (Nat.eqb_spec i x) as [->|Hn].
  - rewrite lsum_zero; [ring|]. intros a Ha. destruct (Nat.eqb_spec x a); [subst; tauto|reflexivity].
  - destruct Hi as [->|Hi]; [congruence|]. rewrite IH by auto. ring.
Qed.
Lemma sumn_pick (f : nat -> K) n i : (i < n) -> sumn n (fun j => if Nat.eqb i j then f j else f0) = f i.
Proof. intro H. apply lsum_pick; [apply seq_NoDup|]. apply in_seq. lia. Qed.
Lemma sumn_ext n f g : (forall i, (i < n) -> f i = g i) -> sumn n f = sumn n g.
Proof. intro H. apply lsum_ext. intros a Ha. apply in_seq in Ha. apply H. lia. Qed.
Lemma sumn_zero n f : (forall i, (i < n) -> f i = f0) -> sumn n f = f0.
Proof. intro H. apply lsum_zero. intros a Ha. apply in_seq in Ha. apply H. lia. Qed.
Lemma sumn_add n f g : sumn n (fun i => f i +! g i) = sumn n f +! sumn n g.
Proof. apply lsum_add. Qed.
Lemma sumn_scale n c f : sumn n (fun i => c *! f i) = c *! sumn n f.
Proof. apply lsum_scale. Qed.
Lemma sumn_swap n m f : sumn n (fun i => sumn m (f i)) = sumn m (fun j => sumn n (fun i => f i j)).
Proof. apply lsum_swap. Qed.
Lemma sumn_S n f : sumn (S n) f = sumn n f +! f n.
Proof. unfold sumn. rewrite seq_S, map_app, lsum_app. simpl. ring. Qed.
End Sums.
Arguments lsum {_}. Arguments sumn {_}.
