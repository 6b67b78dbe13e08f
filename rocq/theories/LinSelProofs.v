(** Proofs for [LinSelModel]. *)
From Coq Require Import List Bool Arith ZArith QArith Lia.
From Verif Require Import LinSelModel LinSelSpec.
Import ListNotations.
Local Close Scope Q_scope. Local Open Scope nat_scope.

Lemma seqb_eq a b : seqb a b = true <-> a = b.
Proof. split; [destruct a, b; intro H; try discriminate H; reflexivity | intros ->; destruct b; reflexivity]. Qed.

Lemma first_of_nil b s : ~ first_of b [] s.
Proof. intros (l1 & l2 & H & _). destruct l1; discriminate H. Qed.

Lemma first_of_cons b a l s : first_of b (a :: l) s <-> (avail b a = true /\ s = a) \/ (avail b a = false /\ first_of b l s).
Proof.
  split.
  - intros (l1 & l2 & H & A & N). destruct l1 as [|c l1].
    + cbn in H. injection H as -> ->. left. split; [exact A | reflexivity].
    + cbn in H. injection H as -> ->. right. split; [apply N; left; reflexivity|].
      exists l1, l2. split; [reflexivity|]. split; [exact A|]. intros t Ht. apply N. right. exact Ht.
  - intros [[A ->]|[A (l1 & l2 & -> & B & N)]].
    + exists [], l. split; [reflexivity|]. split; [exact A|]. intros t [].
    + exists (a :: l1), l2. split; [reflexivity|]. split; [exact B|].
      intros t [<-|Ht]; [exact A | apply N; exact Ht].
Qed.

Ltac brk :=
  repeat match goal with
  | H : _ \/ _ |- _ => destruct H
  | H : _ /\ _ |- _ => destruct H
  | H : true = false |- _ => discriminate H
  | H : false = true |- _ => discriminate H
  end; subst.

Lemma sel_cpu_ok b l ic s :
  sel_xy b Cpu l ic false = Cur (Some s) <-> choice b cpu_order l s /\ inertia_ok s ic.
Proof.
  unfold choice, cpu_order, inertia_ok, sel_xy, attempt.
  destruct l as [t|].
  - destruct t; cbn -[avail];
      (destruct (avail b MA57) eqn:A1; destruct (avail b PARDISO) eqn:A2; destruct (avail b STRUMPACK) eqn:A3;
       destruct (avail b GINKGO) eqn:A4; destruct ic; cbn -[avail]); split; intro H;
      try discriminate H;
      try (injection H as <-; rewrite ?A1, ?A2, ?A3, ?A4; intuition discriminate);
      try (destruct H as [(-> & K & V) I];
           first [ reflexivity | exfalso; congruence
                 | exfalso; assert (true = false) by (apply I; auto); discriminate
                 | exfalso; intuition discriminate ]).
  - rewrite !first_of_cons. pose proof (first_of_nil b s) as FN.
    cbn -[avail first_of].
    destruct (avail b MA57) eqn:A1; destruct (avail b PARDISO) eqn:A2; destruct (avail b STRUMPACK) eqn:A3;
      destruct (avail b GINKGO) eqn:A4; destruct ic; cbn -[avail first_of]; split; intro H;
      try discriminate H;
      try (injection H as <-; intuition discriminate);
      try (destruct H as [D I]; brk; first [ reflexivity | exfalso; contradiction
           | exfalso; assert (true = false) by (apply I; auto); discriminate ]).
Qed.

Lemma sel_cpu_same b l ic : sel_xdy b Cpu l ic false = sel_xy b Cpu l ic false.
Proof. reflexivity. Qed.

Lemma sel_hybrid_ok b l ic s :
  sel_xy b Hybrid l ic false = Cur (Some s) <-> choice b hybrid_order l s /\ inertia_ok s ic.
Proof.
  unfold choice, hybrid_order, inertia_ok, sel_xy, attempt.
  destruct l as [t|].
  - destruct t; cbn -[avail];
      (destruct (avail b MA57) eqn:A1; destruct (avail b PARDISO) eqn:A2; destruct (avail b STRUMPACK) eqn:A3;
       destruct (avail b RESOLVE) eqn:A4; destruct ic; cbn -[avail]); split; intro H;
      try discriminate H;
      try (injection H as <-; rewrite ?A1, ?A2, ?A3, ?A4; intuition discriminate);
      try (destruct H as [(-> & K & V) I];
           first [ reflexivity | exfalso; congruence
                 | exfalso; assert (true = false) by (apply I; auto); discriminate
                 | exfalso; intuition discriminate ]).
  - rewrite !first_of_cons. pose proof (first_of_nil b s) as FN.
    cbn -[avail first_of].
    destruct (avail b MA57) eqn:A1; destruct (avail b PARDISO) eqn:A2; destruct (avail b STRUMPACK) eqn:A3;
      destruct (avail b RESOLVE) eqn:A4; destruct ic; cbn -[avail first_of]; split; intro H;
      try discriminate H;
      try (injection H as <-; intuition discriminate);
      try (destruct H as [D I]; brk; first [ reflexivity | exfalso; contradiction
           | exfalso; assert (true = false) by (apply I; auto); discriminate ]).
Qed.

(** * runs *)
Section Runs.
Variables (b : build) (p : prob) (o : opts) (l : lmode) (mu0 : Q).

(** an invariant of the state at the start of an iteration, and a property of the events *)
Lemma run_ind (I : Z -> st -> Prop) (P : event -> Prop) :
  (forall iter mu p1 p2 s, I iter s ->
     Forall P (fst (iteration b p o l mu0 iter mu p1 p2 s)) /\
     forall s', snd (iteration b p o l mu0 iter mu p1 p2 s) = Some s' -> I (iter + 1)%Z s') ->
  forall w iter s, I iter s ->
    Forall P (fst (run b p o l mu0 iter w s)) /\
    forall s', snd (run b p o l mu0 iter w s) = Some s' -> I (iter + Z.of_nat (length w))%Z s'.
Proof.
  intros Hs w. induction w as [|[[mu p1] p2] w IH]; intros iter s Hi.
  - cbn. split; [constructor|]. intros s' [= <-]. rewrite Z.add_0_r. exact Hi.
  - cbn [run length]. destruct (Hs iter mu p1 p2 s Hi) as [H1 H2].
    destruct (iteration b p o l mu0 iter mu p1 p2 s) as [es [s'|]] eqn:E; cbn [fst snd] in *.
    + destruct (IH (iter + 1)%Z s' (H2 s' eq_refl)) as [J1 J2].
      destruct (run b p o l mu0 (iter + 1) w s') as [l' r] eqn:R; cbn [fst snd] in *.
      split; [apply Forall_app; split; assumption|].
      intros s2 H. replace (iter + Z.of_nat (S (length w)))%Z with (iter + 1 + Z.of_nat (length w))%Z by lia.
      apply J2. exact H.
    + split; [exact H1 | intros s' H; discriminate H].
Qed.

(** an invariant of the state inside the loop over the passes *)
Lemma passes_ind (J : st -> Prop) (P : event -> Prop) fq iter mu :
  (forall s, J s -> J (safer mu0 iter s)) ->
  (forall s v sf, J s -> (sf = s_safe s \/ (fq = false /\ sf = true)) -> J (with_safe s sf v)) ->
  (forall s v, J (safer mu0 iter s) -> J s ->
     create b o (s_cls (safer mu0 iter s)) (s_safe (safer mu0 iter s)) (s_ic (safer mu0 iter s)) (s_sol (safer mu0 iter s)) = Cur (Some v) ->
     P (let s1 := safer mu0 iter s in Ev iter (s_cls s1) (s_safe s1) v (s_mu s1) mu (s_ic s1))) ->
  forall ps s, J s ->
    Forall P (fst (passes b o mu0 fq iter mu ps s)) /\
    forall s', snd (passes b o mu0 fq iter mu ps s) = Some s' -> J s'.
Proof.
  intros Hsafer Hwith He ps. induction ps as [|q ps IH]; intros s Hj.
  - cbn. split; [constructor|]. intros s' [= <-]. exact Hj.
  - cbn [passes]. pose proof (Hsafer s Hj) as Hj1.
    destruct (create b o _ _ _ _) as [[v|]|] eqn:C; cbn [fst snd];
      [|split; [constructor | intros s' H; discriminate H] ..].
    pose proof (He s v Hj1 Hj C) as Hev. cbn zeta in Hev.
    destruct (after_pass fq (s_safe (safer mu0 iter s)) q) as [|sf|] eqn:A; cbn [fst snd].
    + split; [constructor; [exact Hev | constructor]|]. intros s' [= <-]. apply Hwith; [exact Hj1 | left; reflexivity].
    + assert (Hsf : sf = s_safe (safer mu0 iter s) \/ (fq = false /\ sf = true)).
      { destruct q; cbn in A; try discriminate A;
          destruct (s_safe (safer mu0 iter s)); destruct fq; cbn in A; try discriminate A;
          injection A as <-; auto. }
      destruct (IH (with_safe (safer mu0 iter s) sf (Some v)) (Hwith _ _ _ Hj1 Hsf)) as [K1 K2].
      destruct (passes b o mu0 fq iter mu ps _) as [es r]; cbn [fst snd] in *.
      split; [constructor; assumption | exact K2].
    + split; [constructor; [exact Hev | constructor] | intros s' H; discriminate H].
Qed.
End Runs.
