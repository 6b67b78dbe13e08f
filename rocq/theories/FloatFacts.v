(** Order facts about binary64 comparison used by the proofs. *)
From Coq Require Import ZArith Bool Lia.
From Verif Require Import FloatBase.

(** [key x y] style lexicographic comparison of (sign, exponent, mantissa). *)
Ltac fcrush :=
  repeat match goal with
  | |- context [Pos.compare_cont Eq ?a ?b] => change (Pos.compare_cont Eq a b) with (Pos.compare a b)
  | H : context [Pos.compare_cont Eq ?a ?b] |- _ => change (Pos.compare_cont Eq a b) with (Pos.compare a b) in H
  | |- context [Z.compare ?a ?b] => destruct (Z.compare_spec a b)
  | H : context [Z.compare ?a ?b] |- _ => destruct (Z.compare_spec a b)
  | |- context [Pos.compare ?a ?b] => destruct (Pos.compare_spec a b)
  | H : context [Pos.compare ?a ?b] |- _ => destruct (Pos.compare_spec a b)
  end; simpl in *; subst; try reflexivity; try discriminate; try lia.

Lemma fle_trans x y z : fle x y = true -> fle y z = true -> fle x z = true.
Proof.
  unfold fle, SFleb, SFcompare.
  destruct x as [[]|[]| |[] ? ?], y as [[]|[]| |[] ? ?], z as [[]|[]| |[] ? ?];
    intros H1 H2; try reflexivity; try discriminate; fcrush.
Qed.

Lemma fge_trans x y z : fge x y = true -> fge y z = true -> fge x z = true.
Proof. unfold fge. intros H1 H2. apply (fle_trans z y x); assumption. Qed.

Lemma fle_refl x : is_nan x = false -> fle x x = true.
Proof.
  unfold fle, SFleb, SFcompare; destruct x as [[]|[]| |[] ? ?]; intros H;
    try reflexivity; try discriminate; fcrush.
Qed.

Lemma fge_refl x : is_nan x = false -> fge x x = true.
Proof. exact (fle_refl x). Qed.

Lemma fle_total x y : is_nan x = false -> is_nan y = false -> fle x y = true \/ fle y x = true.
Proof.
  unfold fle, SFleb, SFcompare.
  destruct x as [[]|[]| |[] ? ?], y as [[]|[]| |[] ? ?]; intros H1 H2;
    try discriminate; auto; fcrush; auto.
Qed.

Lemma flt_not_fge x y : is_nan x = false -> is_nan y = false -> flt x y = negb (fge x y).
Proof.
  unfold flt, fge, SFleb, SFltb, SFcompare.
  destruct x as [[]|[]| |[] ? ?], y as [[]|[]| |[] ? ?]; intros H1 H2;
    try discriminate; auto; fcrush; auto.
Qed.

Lemma fge_nan_l x : fge S754_nan x = false.
Proof. unfold fge, SFleb, SFcompare; destruct x as [[]|[]| |[] ? ?]; reflexivity. Qed.

Lemma fge_nan_r x : fge x S754_nan = false.
Proof. unfold fge, SFleb, SFcompare; destruct x as [[]|[]| |[] ? ?]; reflexivity. Qed.
