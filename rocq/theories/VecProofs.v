From Coq Require Import List Bool QArith Qabs Qminmax ZArith Lia Lqa Psatz.
From Verif Require Import FloatBase VecModel VecSpec.
Import ListNotations.
Open Scope Q_scope.

Lemma Qltb_true x y : Qltb x y = true <-> x < y.
Proof.
  unfold Qltb. rewrite negb_true_iff. split; intro H.
  - destruct (Qlt_le_dec x y) as [|L]; auto. apply Qle_bool_iff in L. congruence.
  - destruct (Qle_bool y x) eqn:E; auto. apply Qle_bool_iff in E. lra.
Qed.
Lemma Qltb_false x y : Qltb x y = false <-> y <= x.
Proof.
  unfold Qltb. rewrite negb_false_iff. apply Qle_bool_iff.
Qed.
Lemma Qleb_false x y : Qle_bool x y = false <-> y < x.
Proof.
  split; intro H.
  - destruct (Qlt_le_dec y x) as [|L]; auto. apply Qle_bool_iff in L. congruence.
  - destruct (Qle_bool x y) eqn:E; auto. apply Qle_bool_iff in E. lra.
Qed.
Lemma Qeqb_false x y : Qeq_bool x y = false <-> ~ x == y.
Proof.
  split; intro H.
  - apply Qeq_bool_neq; auto.
  - destruct (Qeq_bool x y) eqn:E; auto. apply Qeq_bool_iff in E. contradiction.
Qed.
Lemma Qeqb_true x y : Qeq_bool x y = true <-> x == y.
Proof. apply Qeq_bool_iff. Qed.

(** case analysis on every boolean test of the goal, turned into rational (in)equalities *)
Ltac qcase b :=
  let E := fresh "E" in
  lazymatch b with
  | Qltb ?x ?y => destruct (Qltb x y) eqn:E; [apply Qltb_true in E | apply Qltb_false in E]
  | Qle_bool ?x ?y => destruct (Qle_bool x y) eqn:E; [apply Qle_bool_iff in E | apply Qleb_false in E]
  | Qeq_bool ?x ?y => destruct (Qeq_bool x y) eqn:E; [apply Qeqb_true in E | apply Qeqb_false in E]
  | negb ?c => qcase c; cbn [negb]
  | andb ?c ?d => qcase c; cbn [andb]
  end.
Ltac qif := repeat (match goal with |- context [if ?b then _ else _] => qcase b end; cbn [andb negb]).

Lemma zip_nth {A B} (a : list A) (b : list B) l : zip a b = Some l ->
  forall i x y, nth_error l i = Some (x, y) <-> nth_error a i = Some x /\ nth_error b i = Some y.
Proof.
  revert b l. induction a as [|x0 a IH]; intros [|y0 b] l H i x y; simpl in H; try discriminate.
  - injection H as <-. destruct i; simpl; split; intro; try discriminate; intuition discriminate.
  - destruct (zip a b) eqn:E; try discriminate. injection H as <-.
    destruct i; simpl.
    + split; [intro H; injection H as <- <-; auto | intros [H1 H2]; congruence].
    + apply IH; auto.
Qed.
Lemma zip_len {A B} (a : list A) (b : list B) : length a = length b <-> exists l, zip a b = Some l.
Proof.
  revert b. induction a as [|x a IH]; intros [|y b]; simpl; split; intro H;
    try discriminate; try (destruct H; discriminate); eauto.
  - injection H as H. apply IH in H as [l ->]. eauto.
  - destruct H as [l H]. destruct (zip a b) eqn:E; try discriminate. f_equal. apply IH. eauto.
Qed.
Lemma zip3_nth {A B C} (a : list A) (b : list B) (c : list C) l : zip3 a b c = Some l ->
  forall i x y z, nth_error l i = Some (x, y, z) <->
    nth_error a i = Some x /\ nth_error b i = Some y /\ nth_error c i = Some z.
Proof.
  unfold zip3. destruct (zip a b) as [m|] eqn:E; try discriminate. intros H i x y z.
  rewrite (zip_nth _ _ _ H i (x, y) z), (zip_nth _ _ _ E i x y). tauto.
Qed.

Lemma ftb_unfold (x d ix : list Q) tau : ftb_w_pattern Qar x d tau ix =
  match @zip3 Q Q Q x d ix with Some l => Some (fold_left (ftb_step Qar tau) l 1) | None => None end.
Proof. reflexivity. Qed.
Lemma duals_unfold (z x ix : list Q) mu kappa : adjust_duals Qar z x ix mu kappa =
  match @zip3 Q Q Q z x ix with Some l => Some (map (adj_dual1 Qar mu kappa) l) | None => None end.
Proof. reflexivity. Qed.

Lemma div_key tau x d a : d < 0 -> (a <= (- tau) * x / d <-> (1 - tau) * x <= x + a * d).
Proof.
  intro Hd. assert (Hd' : 0 < - d) by lra.
  assert (E : (- tau) * x / d == tau * x / (- d)) by (field; lra).
  rewrite E. split; intro H.
  - apply (Qmult_le_r _ _ (- d)) in H; auto.
    assert (E2 : tau * x / - d * - d == tau * x) by (field; lra).
    rewrite E2 in H. lra.
  - apply (Qmult_le_r _ _ (- d)); auto.
    assert (E2 : tau * x / - d * - d == tau * x) by (field; lra).
    rewrite E2. lra.
Qed.

Definition elem_ok (tau a : Q) (e : Q * Q * Q) : Prop :=
  let '(x, d, p) := e in ~ p == 0 -> (1 - tau) * x <= x + a * d.

Lemma elem_mono tau a a' e : 0 < tau -> 0 <= a' -> a' <= a -> (let '(x,d,p) := e in ~ p==0 -> 0 < x) ->
  elem_ok tau a e -> elem_ok tau a' e.
Proof.
  destruct e as [[x d] p]. simpl. intros Ht H0 Ha Hx H Hp. specialize (H Hp). specialize (Hx Hp).
  destruct (Qlt_le_dec d 0); nra.
Qed.

Lemma ftb_fold tau l : 0 < tau ->
  (forall x d p, In (x, d, p) l -> ~ p == 0 -> 0 < x) ->
  forall a0, 0 < a0 ->
  let a := fold_left (ftb_step Qar tau) l a0 in
  0 < a /\ a <= a0 /\ (forall e, In e l -> elem_ok tau a e) /\
  (forall a', 0 <= a' -> a' <= a0 -> (forall e, In e l -> elem_ok tau a' e) -> a' <= a).
Proof.
  intros Ht. induction l as [|[[x d] p] l IH]; intros Hx a0 Ha0; simpl.
  - repeat split; auto; try lra; intros; contradiction.
  - assert (Hs : 0 < ftb_step Qar tau a0 (x, d, p) /\ ftb_step Qar tau a0 (x, d, p) <= a0 /\
                 elem_ok tau (ftb_step Qar tau a0 (x, d, p)) (x, d, p) /\
                 forall a', a' <= a0 -> elem_ok tau a' (x, d, p) -> a' <= ftb_step Qar tau a0 (x,d,p)).
    { assert (Hxp : ~ p == 0 -> 0 < x) by (apply (Hx x d p); simpl; auto).
      cbn [ftb_step Qar ale aeq azero alt adiv amul aopp elem_ok].
      qif.
      - repeat split; auto; try lra; intro Hp; specialize (Hxp Hp); nra.
      - repeat split; auto; try lra; try (intro Hp; contradiction).
      - specialize (Hxp E0).
        assert (Hp : 0 < (- tau) * x / d).
        { assert (E2 : (- tau) * x / d == tau * x * / (- d)) by (field; lra).
          rewrite E2. apply Qmult_lt_0_compat; [nra|]. apply Qinv_lt_0_compat. lra. }
        repeat split; auto; try lra.
        + intros _. apply div_key; auto. lra.
        + intros a' Ha' H. apply div_key; auto.
      - specialize (Hxp E0). repeat split; auto; try lra.
        intros _. apply div_key; auto. }
    destruct Hs as (S1 & S2 & S3 & S4).
    destruct (IH (fun x d p Hin => Hx x d p (or_intror Hin)) _ S1) as (I1 & I2 & I3 & I4).
    set (a := fold_left _ _ _) in *.
    repeat split; auto; try lra.
    intros e [<-|He]; [|apply I3; auto].
      apply (elem_mono tau (ftb_step Qar tau a0 (x, d, p))); auto; try lra.
      apply (Hx x d p). simpl; auto.
Qed.

Lemma ftb_correct (x d ix : list Q) tau a : 0 < tau -> tau < 1 -> interior x ix ->
  ftb_w_pattern Qar x d tau ix = Some a -> largest_in_unit (fun a => keeps_fraction tau a x d ix) a.
Proof.
  intros Ht Ht1 Hin H. rewrite ftb_unfold in H.
  destruct (zip3 x d ix) as [l|] eqn:E; try discriminate.
  assert (H' : fold_left (ftb_step Qar tau) l 1 = a) by congruence. clear H. rename H' into H.
  pose proof (zip3_nth _ _ _ _ E) as N.
  destruct (ftb_fold tau l Ht) with (a0 := 1) as (F1 & F2 & F3 & F4).
  - intros x0 d0 p0 Hl Hp. apply In_nth_error in Hl as [i Hi]. apply N in Hi as (Ha & Hb & Hc).
    apply (Hin i x0 p0); auto.
  - reflexivity.
  - rewrite H in *. split; [repeat split; auto|].
    + intros i xi di pi Ha Hb Hc Hp.
      assert (Hl : In (xi, di, pi) l) by (eapply nth_error_In; apply N; eauto).
      apply (F3 _ Hl); auto.
    + intros a' H0 H1 Hk. apply F4; auto; try lra.
      intros [[x0 d0] p0] Hl. apply In_nth_error in Hl as [i Hi]. apply N in Hi as (Ha & Hb & Hc).
      intro Hp. apply (Hk i x0 d0 p0); auto.
Qed.

(** the step never depends on unselected entries *)
Lemma ftb_runs (x d ix : list Q) tau : length x = length d -> length x = length ix ->
  exists a, ftb_w_pattern Qar x d tau ix = Some a.
Proof.
  intros H1 H2. rewrite ftb_unfold. unfold zip3.
  destruct (proj1 (zip_len x d) H1) as [m Hm]. rewrite Hm.
  assert (length m = length ix).
  { rewrite <- H2. clear -Hm. revert d m Hm. induction x as [|x0 x IH]; intros [|d0 d] m; simpl;
      try discriminate; intro H; [injection H as <-; auto|].
    destruct (zip x d) eqn:E; try discriminate. injection H as <-. simpl. f_equal. eauto. }
  destruct (proj1 (zip_len m ix) H) as [l Hl]. rewrite Hl. eauto.
Qed.

Lemma le_cancel x a b : 0 < x -> x * a <= x * b -> a <= b.
Proof. intros Hx H. apply (Qmult_le_l _ _ x); auto. Qed.

(** ** dual adjustment *)
Lemma adj_elem (mu kappa z x ix : Q) : 0 < mu -> 1 <= kappa -> 0 < x -> ix == 1 ->
  let z' := adj_dual1 Qar mu kappa (z, x, ix) in
  (mu / kappa <= x * z' /\ x * z' <= kappa * mu) /\
  (mu / kappa <= x * z -> x * z <= kappa * mu -> z' == z).
Proof.
  intros Hm Hk Hx Hi. cbv zeta.
  assert (E1 : mu / kappa == x * (mu / x / kappa)) by (field; split; lra).
  assert (E2 : kappa * mu == x * (mu / x * kappa)) by (field; lra).
  rewrite E1, E2.
  assert (L : mu / x / kappa <= mu / x * kappa).
  { apply (Qmult_le_l _ _ x); auto. rewrite <- E1, <- E2.
    assert (E3 : mu / kappa == mu * / kappa) by reflexivity.
    assert (0 < / kappa) by (apply Qinv_lt_0_compat; lra).
    assert (/ kappa <= 1).
    { apply (Qmult_le_l _ _ kappa); [lra|]. rewrite Qmult_inv_r by lra. lra. }
    rewrite E3. nra. }
  cbn [adj_dual1 Qar aeq aone alt ale adiv amul].
  qif; try contradiction; simpl.
  - split; [split|].
    + lra.
    + apply (Qmult_le_l _ _ x); auto.
    + intros H _. apply le_cancel in H; auto. lra.
  - split; [split|].
    + lra.
    + apply (Qmult_le_l _ _ x); auto.
    + intros H H'. apply le_cancel in H; auto; apply le_cancel in H'; auto. lra.
  - split; [split|].
    + apply (Qmult_le_l _ _ x); auto.
    + lra.
    + intros H H'. apply le_cancel in H'; auto. lra.
  - split; [split|].
    + apply (Qmult_le_l _ _ x); auto.
    + apply (Qmult_le_l _ _ x); auto.
    + reflexivity.
Qed.

Lemma zip3_map_nth {A B C D} (f : A * B * C -> D) a b c l : zip3 a b c = Some l ->
  forall i r, nth_error (map f l) i = Some r ->
  exists x y z, nth_error a i = Some x /\ nth_error b i = Some y /\ nth_error c i = Some z /\ r = f (x, y, z).
Proof.
  intros H i r Hr. rewrite nth_error_map in Hr. destruct (nth_error l i) as [[[x y] z]|] eqn:E; try discriminate.
  simpl in Hr. injection Hr as <-. apply (zip3_nth _ _ _ _ H) in E as (?&?&?). eauto 10.
Qed.

Lemma zip3_length {A B C} (a : list A) (b : list B) (c : list C) l : zip3 a b c = Some l ->
  length l = length a /\ length b = length a /\ length c = length a.
Proof.
  assert (Z : forall X Y (u : list X) (v : list Y) w, zip u v = Some w ->
             length w = length u /\ length v = length u).
  { clear. intros X Y. induction u as [|x u IH]; intros [|y v] w; simpl; try discriminate; intro H.
    - injection H as <-; auto.
    - destruct (zip u v) eqn:E; try discriminate. injection H as <-. simpl.
      destruct (IH _ _ E). split; congruence. }
  unfold zip3. destruct (zip a b) eqn:E; try discriminate. intro H.
  apply Z in E, H. intuition congruence.
Qed.

Lemma duals_correct (z x ix : list Q) (mu kappa : Q) (z' : list Q) : 0 < mu -> 1 <= kappa ->
  interior x ix -> adjust_duals Qar z x ix mu kappa = Some z' ->
  length z' = length z /\
  forall i zi xi pi zi', nth_error z i = Some zi -> nth_error x i = Some xi -> nth_error ix i = Some pi ->
    nth_error z' i = Some zi' ->
    (pi == 1 -> mu / kappa <= xi * zi' <= kappa * mu) /\
    (pi == 1 -> mu / kappa <= xi * zi <= kappa * mu -> zi' == zi) /\
    (pi == 0 -> zi' = zi).
Proof.
  intros Hm Hk Hin H. rewrite duals_unfold in H.
  destruct (zip3 z x ix) as [l|] eqn:E; try discriminate. injection H as <-.
  split. { rewrite map_length. apply (zip3_length _ _ _ _ E). }
  intros i zi xi pi zi' Hz Hx Hp Hz'.
  destruct (zip3_map_nth _ _ _ _ _ E _ _ Hz') as (z0 & x0 & p0 & H1 & H2 & H3 & ->).
  assert (z0 = zi) by congruence. assert (x0 = xi) by congruence. assert (p0 = pi) by congruence. subst.
  split; [|split].
  - intro P1. assert (Hx0 : 0 < xi) by (apply (Hin i xi pi); auto; lra).
    apply (adj_elem mu kappa zi xi pi Hm Hk Hx0 P1).
  - intros P1 [Q1 Q2]. assert (Hx0 : 0 < xi) by (apply (Hin i xi pi); auto; lra).
    apply (adj_elem mu kappa zi xi pi Hm Hk Hx0 P1); auto.
  - intro P0. cbn [adj_dual1 Qar aeq aone]. qif; auto. lra.
Qed.

(** ** projection *)
Lemma small_pos : 0 < Q_small.
Proof. reflexivity. Qed.

Lemma qmin_cases a b : (Qmin a b == a /\ a <= b) \/ (Qmin a b == b /\ b <= a).
Proof. destruct (Q.min_spec a b) as [[? ?]|[? ?]]; [left|right]; split; auto; lra. Qed.
Lemma qmax_cases a b : (Qmax a b == b /\ a <= b) \/ (Qmax a b == a /\ b <= a).
Proof. destruct (Q.max_spec a b) as [[? ?]|[? ?]]; [left|right]; split; auto; lra. Qed.

(** what the projection does to one variable *)
Lemma proj_elem (k1 k2 : Q) (v : bvar Qar) : 0 < k1 -> Q_small < k1 -> 0 < k2 -> k2 < 1 # 2 ->
  let has_l := negb (Qeq_bool (b_ixl v) 0) in let has_u := negb (Qeq_bool (b_ixu v) 0) in
  (has_l = true -> has_u = true -> b_xl v <= b_xu v -> Q_small < k2 * (b_xu v - b_xl v)) ->
  match project1 Qar k1 k2 (b_x v) (b_xl v) (b_ixl v) (b_xu v) (b_ixu v) with
  | None => has_l = true /\ has_u = true /\ b_xu v < b_xl v
  | Some y => (has_l = true -> b_xl v < y) /\ (has_u = true -> y < b_xu v) /\
      (has_l = false -> has_u = false -> y = b_x v) /\
      ((has_l = true -> b_xl v + k1 * Qmax 1 (Qabs (b_xl v)) <= b_x v) ->
       (has_u = true -> b_x v <= b_xu v - k1 * Qmax 1 (Qabs (b_xu v)) - Q_small) -> y == b_x v)
  end.
Proof.
  destruct v as [x xl il xu iu]. cbn [b_x b_xl b_ixl b_xu b_ixu].
  intros Hk1 Hs Hk2 Hk2'.
  set (hl := negb (Qeq_bool il 0)). set (hu := negb (Qeq_bool iu 0)). intro Hgap.
  set (ml := k1 * Qmax 1 (Qabs xl)). set (mu := k1 * Qmax 1 (Qabs xu)).
  assert (Hml : k1 <= ml). { unfold ml. assert (1 <= Qmax 1 (Qabs xl)) by apply Q.le_max_l. nra. }
  assert (Hmu : k1 <= mu). { unfold mu. assert (1 <= Qmax 1 (Qabs xu)) by apply Q.le_max_l. nra. }
  unfold project1. cbn [Qar aeq azero alt asub amul asmall aadd afmin afmax aone aabs].
  fold ml mu. fold hl hu.
  assert (Sm := small_pos). revert Hs Hgap Sm. generalize Q_small. intros sm Hs Hgap Sm.
  clearbody hl hu ml mu.
  destruct hl eqn:El, hu eqn:Eu; cbn [andb].
  - destruct (Qltb xu xl) eqn:E0; [apply Qltb_true in E0; auto | apply Qltb_false in E0].
    specialize (Hgap eq_refl eq_refl E0).
    set (aux := k2 * (xu - xl) - sm).
    assert (Ha : 0 < aux) by (unfold aux; lra).
    assert (Ha2 : 2 * aux < xu - xl) by (unfold aux; nra).
    destruct (qmin_cases ml aux) as [[M1 M1']|[M1 M1']], (qmin_cases mu aux) as [[M2 M2']|[M2 M2']];
    clearbody aux; qif;
    (split; [intros _; lra|split; [intros _; lra|split; [discriminate|]]]);
    intros H H0; specialize (H eq_refl); specialize (H0 eq_refl); lra.
  - destruct (qmax_cases x (xl + ml - sm)) as [[M M']|[M M']];
    (split; [intros _; lra|split; [discriminate|split; [discriminate|]]]);
    intros H H0; specialize (H eq_refl); lra.
  - destruct (qmin_cases x (xu - mu - sm)) as [[M M']|[M M']];
    (split; [discriminate|split; [intros _; lra|split; [discriminate|]]]);
    intros H H0; specialize (H0 eq_refl); lra.
  - split; [discriminate|split; [discriminate|split; [auto|reflexivity]]].
Qed.

Definition to_bvar (v : bounded_var) : bvar Qar :=
  let '(x, (l, il), (u, iu)) := v in @Bvar Qar x l il u iu.

Lemma nz_bool p : negb (Qeq_bool p 0) = true <-> ~ p == 0.
Proof.
  rewrite negb_true_iff. apply Qeqb_false.
Qed.
Lemma nz_bool_false p : negb (Qeq_bool p 0) = false <-> p == 0.
Proof. rewrite negb_false_iff. apply Qeqb_true. Qed.

Lemma project_correct (k1 k2 : Q) (l : list bounded_var) :
  Q_small < k1 -> 0 < k2 -> k2 < 1 # 2 ->
  (forall v, In v l -> has_lower v -> has_upper v -> lower v <= upper v ->
     Q_small < k2 * (upper v - lower v)) ->
  let '(xs, ok) := project_loop Qar k1 k2 (map to_bvar l) in
  length xs = length l /\
  (ok = false <-> exists v, In v l /\ inconsistent v) /\
  (ok = true -> Forall2 (fun v y => strictly_inside v y /\
                   (~ has_lower v -> ~ has_upper v -> y = start v) /\
                   (well_inside k1 Q_small v -> y == start v)) l xs).
Proof.
  intros Hs Hk2 Hk2'. assert (Hk1 : 0 < k1) by (pose proof small_pos; eapply Qlt_trans; eauto).
  induction l as [|v l IH]; intro Hg; simpl.
  - split; [auto|]. split; [|constructor]. split; [discriminate|]. intros (v & [] & _).
  - specialize (IH (fun v Hv => Hg v (or_intror Hv))).
    pose proof (proj_elem k1 k2 (to_bvar v) Hk1 Hs Hk2 Hk2') as P.
    specialize (Hg v (or_introl eq_refl)).
    destruct v as [[x [xl il]] [xu iu]]. cbn [to_bvar b_x b_xl b_ixl b_xu b_ixu] in *.
    unfold has_lower, has_upper, lower, upper in Hg. cbv zeta in P.
    rewrite <- !nz_bool in Hg. specialize (P Hg).
    destruct (project1 Qar k1 k2 x xl il xu iu) as [y|]; rewrite ?nz_bool, ?nz_bool_false in P.
    + destruct P as (P1 & P2 & P3 & P4).
      destruct (project_loop Qar k1 k2 (map to_bvar l)) as [xs ok]. destruct IH as (I1 & I2 & I3).
      split; [exact (f_equal S I1)|]. split.
      * rewrite I2. split; intros (w & Hw & Hi); [exists w; auto|].
        destruct Hw as [<-|Hw]; [|exists w; auto].
        exfalso. destruct Hi as (B1 & B2 & B3). unfold has_lower, has_upper, lower, upper in *.
        specialize (P1 B1). specialize (P2 B2).
        assert (xl < xu) by (eapply Qlt_trans; eauto). eapply Qlt_irrefl. eapply Qlt_trans; eauto.
      * intro Hok. constructor; auto. split; [split; auto|]. split.
        -- unfold has_lower, has_upper. intros N1 N2. apply P3.
           ++ destruct (Qeq_dec il 0); tauto.
           ++ destruct (Qeq_dec iu 0); tauto.
        -- intros [W1 W2]. apply P4; auto.
    + split; [simpl; rewrite !map_length; auto|]. split.
      * split; auto. intros _. exists (x, (xl, il), (xu, iu)). split; auto.
      * discriminate.
Qed.

(** ** slack adjustment *)
Lemma if_max a b : (if Qltb a b then b else a) == Qmax a b.
Proof. destruct (qmax_cases a b) as [[M M']|[M M']]; rewrite M; qif; lra. Qed.
Lemma if_min a b m n : a == m -> b == n -> (if Qltb b a then b else a) == Qmin m n.
Proof. intros. destruct (qmin_cases m n) as [[M M']|[M M']]; rewrite M; qif; lra. Qed.

Lemma slack_elem (small sf mu s b z sel : Q) : 0 < small -> 0 < sf -> indicator sel -> (sel == 0 -> s == 0) ->
  let '(s', cnt) := slack1 Qar small sf mu s b z sel in
  (cnt = true <-> sel == 1 /\ s < small) /\
  (cnt = false -> s' == (if Qltb s 0 then 0 else s)) /\
  (cnt = true -> s' == Qmin (Qmax (mu / z) small) (Qmax 0 s + sf * Qmax 1 (Qabs b))).
Proof.
  intros Hsm Hsf Hsel H0. unfold slack1.
  cbn [Qar aeq azero alt asub amul asmall aadd afmin afmax aone aabs adiv aopp].
  assert (HA : 0 <= Qabs b) by apply Qabs_nonneg.
  destruct Hsel as [Z|Z].
  - specialize (H0 Z).
    assert (A : Qeq_bool sel 1 = false) by (apply Qeqb_false; rewrite Z; discriminate).
    assert (B : Qeq_bool sel 0 = true) by (apply Qeqb_true; auto).
    rewrite A, B. rewrite (proj2 (Qltb_false 0 0)) by lra.
    rewrite (proj2 (Qltb_false 0 s)) by lra. rewrite (proj2 (Qltb_false s 0)) by lra.
    rewrite (proj2 (Qltb_false 0 s)) by lra.
    split; [split; [discriminate|intros [? ?]; lra]|]. split; [|discriminate]. intros _.
    qif; try lra; nra.
  - assert (A : Qeq_bool sel 1 = true) by (apply Qeqb_true; auto).
    assert (B : Qeq_bool sel 0 = false) by (apply Qeqb_false; rewrite Z; discriminate).
    rewrite A, B.
    destruct (Qlt_le_dec s small) as [L|L].
    + rewrite (proj2 (Qltb_false 0 (s + - small))) by lra.
      rewrite (proj2 (Qltb_false 0 (s + - small))) by lra.
      rewrite (proj2 (Qltb_true (s + - small) 0)) by lra.
      split; [split; auto|]. split; [discriminate|]. intros _.
      apply if_min.
      * rewrite (if_max (mu / z) small). ring.
      * rewrite (if_max 1 (Qabs b)).
        rewrite <- (if_max 0 s).
        assert (F : (if Qltb s 0 then 0 else s) == (if Qltb 0 s then s else 0)) by (qif; lra).
        rewrite F. ring.
    + destruct (Qltb 0 (s + - small)) eqn:E.
      * rewrite (proj2 (Qltb_false 0 0)) by lra.
        split; [split; [discriminate|intros [? ?]; lra]|]. split; [|discriminate]. intros _.
        qif; try lra; nra.
      * apply Qltb_false in E.
        rewrite (proj2 (Qltb_false (s + - small) 0)) by lra.
        rewrite ?(proj2 (Qltb_false 0 (s + - small))) by lra.
        split; [split; [discriminate|intros [? ?]; lra]|]. split; [|discriminate]. intros _.
        qif; try lra; nra.
Qed.

Definition to_slk (v : slack_data) : slk Qar := let '(s, b, z, sel) := v in @Slk Qar s b z sel.

Lemma slack_elem_spec small sf mu v : 0 < small -> 0 < sf -> 0 < mu -> slack_wf v ->
  let r := slack1 Qar small sf mu (k_s (to_slk v)) (k_b (to_slk v)) (k_z (to_slk v)) (k_sel (to_slk v)) in
  slack_moved small sf mu v (fst r) /\ (snd r = true <-> small_slack small v).
Proof.
  destruct v as [[[s b] z] sel]. intros Hsm Hsf Hmu (Hi & H0 & H1).
  cbn [to_slk k_s k_b k_z k_sel].
  pose proof (slack_elem small sf mu s b z sel Hsm Hsf Hi H0) as P.
  destruct (slack1 Qar small sf mu s b z sel) as [s' cnt]. cbn [fst snd]. destruct P as (P1 & P2 & P3).
  split; [|exact P1]. unfold slack_moved, small_slack. split.
  - intro N. assert (C : cnt = false) by (destruct cnt; auto; exfalso; apply N, P1; auto).
    rewrite (P2 C). qif; try reflexivity.
    destruct Hi as [Z|Z]; [specialize (H0 Z); lra|]. destruct (H1 Z). lra.
  - intros [Z L]. rewrite (P3 (proj2 P1 (conj Z L))). destruct (H1 Z) as [S0 Z0].
    set (q := mu / z). set (m := Qmax 1 (Qabs b)).
    assert (Hm : 1 <= m) by apply Q.le_max_l.
    assert (Hsm' : 0 < sf * m) by nra.
    clearbody q. set (w := sf * m) in *. clearbody w.
    destruct (qmax_cases q small) as [[M1 M1']|[M1 M1']];
    destruct (qmax_cases 0 s) as [[M2 M2']|[M2 M2']];
    destruct (qmin_cases (Qmax q small) (Qmax 0 s + w)) as [[M3 M3']|[M3 M3']];
    (split; [lra|split; [lra|split; [lra|split; [lra|]]]]);
    first [left; lra | right; lra].
Qed.

Lemma min_w_pattern_le (l : list slack_data) : forall r0 : Q,
  let r := fold_left (fun (r : Q) (v : slk Qar) => if Qeq_bool (k_sel v) 1
                        then (if Qltb r (k_s v) then r else k_s v) else r) (map to_slk l) r0 in
  r <= r0 /\ forall s b z sel, In (s, b, z, sel) l -> sel == 1 -> r <= s.
Proof.
  induction l as [|[[[s b] z] sel] l IH]; intro r0; simpl.
  - split; [lra|]. intros; contradiction.
  - set (r1 := if Qeq_bool sel 1 then if Qltb r0 s then r0 else s else r0).
    assert (H1 : r1 <= r0 /\ (sel == 1 -> r1 <= s)).
    { unfold r1. qif; split; intros; try lra; contradiction. }
    destruct (IH r1) as [I1 I2]. split; [lra|].
    intros s2 b2 z2 sel2 [E|Hin] Hs; [injection E as <- <- <- <-; destruct H1; specialize (H0 Hs); lra|].
    eapply I2; eauto.
Qed.
Lemma mpi_min_le (g : Q) gs : mpi_min Qar g gs <= g /\ forall x, In x gs -> mpi_min Qar g gs <= x.
Proof.
  unfold mpi_min. cbn [Qar afmin car]. revert g. induction gs as [|y gs IH]; intro g; simpl.
  - split; [lra|]. intros x [].
  - destruct (IH (Qmin g y)) as [I1 I2]. pose proof (Q.le_min_l g y). pose proof (Q.le_min_r g y).
    split; [lra|]. intros x [<-|Hx]; [lra|]. apply I2; auto.
Qed.

Lemma adjust_local small sf mu (l : list slack_data) : 0 < small -> 0 < sf -> 0 < mu -> Forall slack_wf l ->
  Forall2 (slack_moved small sf mu) l
    (map (fun v => fst (slack1 Qar small sf mu (k_s v) (k_b v) (k_z v) (k_sel v))) (map to_slk l)).
Proof.
  intros Hsm Hsf Hmu H. induction H as [|v l Hv H IH]; simpl; constructor; auto.
  apply slack_elem_spec; auto.
Qed.

Lemma adjust_all_correct (eps sf mu : Q) (ranks : list (list slack_data)) :
  0 < eps -> 0 < sf -> 0 < mu -> (forall r, In r ranks -> Forall slack_wf r) ->
  Forall2 (Forall2 (slack_moved (eps * Qmin 1 mu) sf mu)) ranks
          (fst (adjust_small_all Qar eps sf mu (map (map to_slk) ranks))).
Proof.
  intros He Hsf Hmu Hwf. unfold adjust_small_all.
  rewrite map_map. destruct ranks as [|r0 ranks]; [constructor|].
  cbn [map]. set (g := mpi_min Qar _ _).
  assert (Hg : forall r s b z sel, In r (r0 :: ranks) -> In (s, b, z, sel) r -> sel == 1 -> g <= s).
  { intros r s b z sel Hr Hin Hs.
    assert (L : min_w_pattern Qar (map to_slk r) <= s) by (eapply (min_w_pattern_le r); eauto).
    assert (G : g <= min_w_pattern Qar (map to_slk r)).
    { unfold g. destruct Hr as [<-|Hr]; [exact (proj1 (mpi_min_le _ _))|]. apply (proj2 (mpi_min_le _ _)).
      apply (in_map (fun x => min_w_pattern Qar (map to_slk x))). auto. }
    eapply Qle_trans; eauto. }
  clearbody g.
  assert (Hsmall : 0 < eps * Qmin 1 mu).
  { destruct (qmin_cases 1 mu) as [[M _]|[M _]]; rewrite M; nra. }
  change (map (adjust_small Qar eps sf mu g) (map (map to_slk) (r0 :: ranks)))
    with (map (adjust_small Qar eps sf mu g) (map (map to_slk) (r0 :: ranks))).
  cbn [fst]. change (adjust_small Qar eps sf mu g (map to_slk r0) ::
     map (adjust_small Qar eps sf mu g) (map (map to_slk) ranks))
    with (map (adjust_small Qar eps sf mu g) (map (map to_slk) (r0 :: ranks))).
  rewrite !map_map.
  assert (G : forall rs, (forall r, In r rs -> In r (r0 :: ranks)) ->
     Forall2 (Forall2 (slack_moved (eps * Qmin 1 mu) sf mu)) rs
       (map (fun x => fst (adjust_small Qar eps sf mu g (map to_slk x))) rs)).
  2: { apply G; auto. }
  induction rs as [|r rs IH]; intro Hsub; simpl; constructor.
  2: { apply IH. intros; apply Hsub; simpl; auto. }
  assert (Hr : In r (r0 :: ranks)) by (apply Hsub; simpl; auto).
  unfold adjust_small. cbn [Qar amul afmin aone alt].
  destruct (Qltb g (eps * Qmin 1 mu)) eqn:E; cbn [fst].
  - apply adjust_local; auto.
  - apply Qltb_false in E. rewrite map_map.
    assert (K : forall s b z sel, In (s, b, z, sel) r -> sel == 1 -> eps * Qmin 1 mu <= s).
    { intros. eapply Qle_trans; eauto. }
    clear -K. induction r as [|[[[s b] z] sel] r IH]; simpl; constructor.
    + unfold slack_moved, small_slack. split; [reflexivity|].
      intros [Z L]. exfalso. assert (eps * Qmin 1 mu <= s) by (eapply K; simpl; eauto). lra.
    + apply IH. intros. eapply K; simpl; eauto.
Qed.

(** ** step length of a whole iterate *)
Definition longest (tau : Q) (L : list triple) (a : Q) : Prop :=
  largest_in_unit (fun a => forall t, In t L -> t_keeps tau a t) a.

Lemma keeps_mono tau a a' t : 0 < tau -> 0 <= a' -> a' <= a -> t_interior t -> t_keeps tau a t -> t_keeps tau a' t.
Proof.
  destruct t as [[x d] p]. intros Ht H0 Ha Hi Hk i xi di pi H1 H2 H3 Hp.
  specialize (Hk i xi di pi H1 H2 H3 Hp). specialize (Hi i xi pi H1 H3 Hp).
  destruct (Qlt_le_dec di 0); nra.
Qed.

Lemma longest_app tau L1 L2 a b : 0 < tau -> (forall t, In t (L1 ++ L2) -> t_interior t) ->
  longest tau L1 a -> longest tau L2 b -> longest tau (L1 ++ L2) (Qmin a b).
Proof.
  intros Ht Hi [(A1 & A2 & A3) A4] [(B1 & B2 & B3) B4].
  destruct (qmin_cases a b) as [[M M']|[M M']].
  - split; [split; [lra|split; [lra|]]|].
    + intros t Hin. apply in_app_or in Hin as H. destruct H as [H|H].
      * apply (keeps_mono tau a); auto; lra.
      * apply (keeps_mono tau b); auto; lra.
    + intros a' H0 H1 Hk. rewrite M. apply A4; auto. intros. apply Hk, in_or_app; auto.
  - split; [split; [lra|split; [lra|]]|].
    + intros t Hin. apply in_app_or in Hin as H. destruct H as [H|H].
      * apply (keeps_mono tau a); auto; lra.
      * apply (keeps_mono tau b); auto; lra.
    + intros a' H0 H1 Hk. rewrite M. apply B4; auto. intros. apply Hk, in_or_app; auto.
Qed.
Lemma longest_ext tau L a b : 0 < tau -> (forall t, In t L -> t_interior t) -> a == b -> longest tau L a -> longest tau L b.
Proof.
  intros Ht Hi E [(A1 & A2 & A3) A4]. split; [split; [lra|split; [lra|]]|].
  - intros t Hin. apply (keeps_mono tau a); auto; lra.
  - intros. rewrite <- E. auto.
Qed.
Lemma longest_one tau x d p a : 0 < tau -> tau < 1 -> t_interior (x, d, p) ->
  ftb_w_pattern Qar x d tau p = Some a -> longest tau [(x, d, p)] a.
Proof.
  intros Ht Ht1 Hi H. pose proof (ftb_correct x d p tau a Ht Ht1 Hi H) as [(A1 & A2 & A3) A4].
  split; [split; [auto|split; [auto|]]|].
  - intros t [<-|[]]. exact A3.
  - intros a' H0 H1 Hk. apply A4; auto. apply (Hk (x, d, p)). simpl; auto.
Qed.

(** the four slack (dual) vectors of a rank with their directions and patterns *)
Definition prim_triples (r : cone Qar * cone Qar * pats Qar) : list triple :=
  let '(it, dir, p) := r in
  [(c_sxl it, c_sxl dir, p_xl p); (c_sxu it, c_sxu dir, p_xu p);
   (c_sdl it, c_sdl dir, p_dl p); (c_sdu it, c_sdu dir, p_du p)].
Definition dual_triples (r : cone Qar * cone Qar * pats Qar) : list triple :=
  let '(it, dir, p) := r in
  [(c_zl it, c_zl dir, p_xl p); (c_zu it, c_zu dir, p_xu p);
   (c_vl it, c_vl dir, p_dl p); (c_vu it, c_vu dir, p_du p)].

Lemma four tau t1 t2 t3 t4 a1 a2 a3 a4 : 0 < tau ->
  (forall t, In t [t1; t2; t3; t4] -> t_interior t) ->
  longest tau [t1] a1 -> longest tau [t2] a2 -> longest tau [t3] a3 -> longest tau [t4] a4 ->
  longest tau [t1; t2; t3; t4] (Qmin (Qmin (Qmin (Qmin 10 a1) a2) a3) a4).
Proof.
  intros Ht Hi H1 H2 H3 H4.
  assert (G1 : longest tau [t1] (Qmin 10 a1)).
  { apply (longest_ext tau _ a1); auto.
    - intros t [<-|[]]. apply Hi. simpl; auto.
    - destruct H1 as [(A1 & A2 & _) _]. destruct (qmin_cases 10 a1) as [[M M']|[M M']]; rewrite M; lra. }
  assert (G2 : longest tau ([t1] ++ [t2]) (Qmin (Qmin 10 a1) a2)).
  { apply longest_app; auto. intros t Hin. apply Hi. simpl in *; tauto. }
  assert (G3 : longest tau (([t1] ++ [t2]) ++ [t3]) (Qmin (Qmin (Qmin 10 a1) a2) a3)).
  { apply longest_app; auto. intros t Hin. apply Hi. simpl in *; tauto. }
  apply (longest_app tau (([t1] ++ [t2]) ++ [t3]) [t4]); auto.
Qed.

Lemma local_pair (tau : Q) it dir p a b : 0 < tau -> tau < 1 ->
  (forall t, In t (prim_triples (it, dir, p) ++ dual_triples (it, dir, p)) -> t_interior t) ->
  ftb_local_pair Qar (10 : Q) it dir p tau = Some (a, b) ->
  longest tau (prim_triples (it, dir, p)) a /\ longest tau (dual_triples (it, dir, p)) b.
Proof.
  intros Ht Ht1 Hi H. unfold ftb_local_pair in H.
  repeat match type of H with
  | context [match ftb_w_pattern ?K ?x ?d ?t ?i with _ => _ end] =>
     let E := fresh "E" in destruct (ftb_w_pattern K x d t i) eqn:E; [|discriminate]
  end.
  injection H as <- <-. cbn [prim_triples dual_triples app] in *.
  split; apply four; auto; try (intros t' Hin; apply Hi; simpl in *; tauto);
    (apply longest_one; [assumption|assumption|apply Hi; simpl; tauto|assumption]).
Qed.

Lemma mpi_longest tau (LL : list (list triple)) : forall L a al, 0 < tau ->
  (forall t, In t (L ++ concat LL) -> t_interior t) ->
  longest tau L a -> Forall2 (longest tau) LL al ->
  longest tau (L ++ concat LL) (mpi_min Qar a al).
Proof.
  induction LL as [|L2 LL IH]; intros L a al Ht Hi Ha Hal; inversion Hal; subst; simpl.
  - rewrite app_nil_r. exact Ha.
  - rewrite app_assoc. apply (IH (L ++ L2) (Qmin a y) l'); auto.
    + rewrite <- app_assoc. exact Hi.
    + apply longest_app; auto. intros t Hin. apply Hi. simpl. rewrite app_assoc. apply in_or_app; auto.
Qed.

Lemma all_some_map {A B} (f : A -> option B) l r : all_some (map f l) = Some r -> Forall2 (fun x y => f x = Some y) l r.
Proof.
  revert r. induction l as [|x l IH]; intros r H; simpl in H.
  - injection H as <-. constructor.
  - destruct (f x) eqn:E; try discriminate. destruct (all_some (map f l)) eqn:E2; try discriminate.
    injection H as <-. constructor; auto.
Qed.

Lemma ftb_all_correct (tau : Q) ranks ap ad : 0 < tau -> tau < 1 ->
  (forall t, In t (flat_map prim_triples ranks ++ flat_map dual_triples ranks) -> t_interior t) ->
  ftb_all Qar (10 : Q) tau ranks = Some (ap, ad) ->
  longest tau (flat_map prim_triples ranks) ap /\ longest tau (flat_map dual_triples ranks) ad.
Proof.
  intros Ht Ht1 Hi H. unfold ftb_all in H.
  destruct (all_some _) as [[|[a b] rest]|] eqn:E; try discriminate.
  injection H as <- <-. apply all_some_map in E. inversion E as [|r0 ? rs ? Hr0 Hrs]; subst. clear E.
  destruct r0 as [[it dir] p]. cbn [fst snd] in Hr0.
  assert (HiP : forall t, In t (flat_map prim_triples ((it, dir, p) :: rs)) -> t_interior t)
    by (intros; apply Hi, in_or_app; auto).
  assert (HiD : forall t, In t (flat_map dual_triples ((it, dir, p) :: rs)) -> t_interior t)
    by (intros; apply Hi, in_or_app; auto).
  cbn [flat_map] in *. rewrite !flat_map_concat_map in *.
  apply local_pair in Hr0 as [Pa Pb]; auto.
  2: { intros t Hin. apply in_app_or in Hin as [Hin|Hin]; [apply HiP|apply HiD]; apply in_or_app; auto. }
  assert (R : Forall2 (longest tau) (map prim_triples rs) (map fst rest) /\
              Forall2 (longest tau) (map dual_triples rs) (map snd rest)).
  { assert (HiP' : forall t, In t (concat (map prim_triples rs)) -> t_interior t)
      by (intros; apply HiP, in_or_app; auto).
    assert (HiD' : forall t, In t (concat (map dual_triples rs)) -> t_interior t)
      by (intros; apply HiD, in_or_app; auto).
    clear -Hrs HiP' HiD' Ht Ht1. induction Hrs as [|[[i0 d0] p0] [a0 b0] rs rest H H2 IH]; simpl; [split; constructor|].
    cbn [fst snd] in H. apply local_pair in H as [Qa Qb]; auto.
    - destruct IH as [IH1 IH2].
      + intros; apply HiP'; simpl; tauto.
      + intros; apply HiD'; simpl; tauto.
      + split; constructor; auto.
    - intros t Hin. apply in_app_or in Hin as [Hin|Hin]; [apply HiP'|apply HiD']; simpl; simpl in Hin; tauto. }
  destruct R as [R1 R2]. split; apply mpi_longest; auto.
Qed.

(** ** the returned count *)
Definition is_small (thr : Q) (v : slack_data) : bool :=
  let '(s, _, _, sel) := v in Qeq_bool sel 1 && Qltb s thr.
Lemma is_small_spec thr v : is_small thr v = true <-> small_slack thr v.
Proof.
  destruct v as [[[s b] z] sel]. unfold is_small, small_slack.
  rewrite andb_true_iff, Qeqb_true, Qltb_true. tauto.
Qed.

Lemma adjust_all_count (eps sf mu : Q) (ranks : list (list slack_data)) :
  0 < eps -> 0 < sf -> 0 < mu -> (forall r, In r ranks -> Forall slack_wf r) ->
  snd (adjust_small_all Qar eps sf mu (map (map to_slk) ranks)) =
  length (filter (is_small (eps * Qmin 1 mu)) (concat ranks)).
Proof.
  intros He Hsf Hmu Hwf. unfold adjust_small_all.
  rewrite map_map. destruct ranks as [|r0 ranks]; [reflexivity|].
  cbn [map]. set (g := mpi_min Qar _ _).
  assert (Hg : forall r s b z sel, In r (r0 :: ranks) -> In (s, b, z, sel) r -> sel == 1 -> g <= s).
  { intros r s b z sel Hr Hin Hs.
    assert (L : min_w_pattern Qar (map to_slk r) <= s) by (eapply (min_w_pattern_le r); eauto).
    assert (G : g <= min_w_pattern Qar (map to_slk r)).
    { unfold g. destruct Hr as [<-|Hr]; [exact (proj1 (mpi_min_le _ _))|]. apply (proj2 (mpi_min_le _ _)).
      apply (in_map (fun x => min_w_pattern Qar (map to_slk x))). auto. }
    eapply Qle_trans; eauto. }
  clearbody g.
  assert (Hsmall : 0 < eps * Qmin 1 mu).
  { destruct (qmin_cases 1 mu) as [[M _]|[M _]]; rewrite M; nra. }
  cbn [snd].
  change (adjust_small Qar eps sf mu g (map to_slk r0) ::
     map (adjust_small Qar eps sf mu g) (map (map to_slk) ranks))
    with (map (adjust_small Qar eps sf mu g) (map (map to_slk) (r0 :: ranks))).
  rewrite !map_map.
  assert (G : forall rs, (forall r, In r rs -> In r (r0 :: ranks)) ->
     fold_right Nat.add 0%nat (map (fun x => snd (adjust_small Qar eps sf mu g (map to_slk x))) rs) =
     length (filter (is_small (eps * Qmin 1 mu)) (concat rs))).
  2: { apply (G (r0 :: ranks)); auto. }
  induction rs as [|r rs IH]; intro Hsub; [reflexivity|]. cbn [map fold_right concat].
  rewrite filter_app, app_length, IH by (intros; apply Hsub; simpl; auto). f_equal.
  assert (Hr : In r (r0 :: ranks)) by (apply Hsub; simpl; auto).
  unfold adjust_small. cbn [Qar amul afmin aone alt].
  specialize (Hwf r Hr). clear IH Hsub.
  destruct (Qltb g (eps * Qmin 1 mu)) eqn:E; cbn [snd].
  - clear Hr. induction Hwf as [|v r Hv Hwf IH]; [reflexivity|]. cbn [map filter].
    destruct (slack_elem_spec (eps * Qmin 1 mu) sf mu v Hsmall Hsf Hmu Hv) as [_ C].
    rewrite <- is_small_spec in C.
    destruct C as [C1 C2].
    destruct (snd (slack1 _ _ _ _ _ _ _ _)), (is_small (eps * Qmin 1 mu) v).
    + cbn [length]. f_equal. exact IH.
    + discriminate (C1 eq_refl).
    + discriminate (C2 eq_refl).
    + exact IH.
  - apply Qltb_false in E.
    assert (K : forall s b z sel, In (s, b, z, sel) r -> sel == 1 -> eps * Qmin 1 mu <= s).
    { intros. eapply Qle_trans; eauto. }
    clear -K. symmetry. induction r as [|[[[s b] z] sel] r IH]; simpl; auto.
    assert (F : Qeq_bool sel 1 && Qltb s (eps * Qmin 1 mu) = false).
    { destruct (Qeq_bool sel 1) eqn:E1; simpl; auto. apply Qeqb_true in E1.
      apply Qltb_false. eapply K; simpl; eauto. }
    rewrite F. apply IH. intros; eapply K; simpl; eauto.
Qed.
