From Coq Require Import List Bool ZArith String Ascii Lia.
From Verif Require Import FloatBase OptModel OptSpec OptProofs OptProofs2 OptProofs3 OptProofs4 OptFileModel OptFileSpec.
Import ListNotations.
Open Scope string_scope.

Lemma space_ok a : is_space a = true <-> blank_char a.
Proof.
  unfold is_space, blank_char. rewrite orb_true_iff, andb_true_iff, Nat.eqb_eq, !Nat.leb_le. split; intros [H|H]; auto.
  - left. rewrite <- (ascii_nat_embedding a), H. reflexivity.
  - left. subst. reflexivity.
Qed.
Lemma space_no a : is_space a = false <-> ~ blank_char a.
Proof. rewrite <- space_ok. destruct (is_space a); split; intuition discriminate. Qed.
Lemma each_nil P : each P "". Proof. intros [|i] a H; discriminate. Qed.
Lemma each_cons (P : ascii -> Prop) a s : each P (String a s) <-> P a /\ each P s.
Proof.
  split.
  - intro H. split; [exact (H 0 a eq_refl)|]. intros i b Hb. exact (H (S i) b Hb).
  - intros [H1 H2] [|i] b Hb; [injection Hb as <-; exact H1|exact (H2 i b Hb)].
Qed.
Lemma app_nil_s (s : string) : s ++ "" = s.
Proof. induction s; simpl; congruence. Qed.
Lemma app_assoc_s (a b c : string) : (a ++ b) ++ c = a ++ b ++ c.
Proof. induction a; simpl; congruence. Qed.

Lemma ltrim_blank b s : blank b -> ltrim (b ++ s) = ltrim s.
Proof. induction b as [|a b IH]; intro H; [reflexivity|]. apply each_cons in H as [H1 H2]. cbn. rewrite (proj2 (space_ok a) H1). auto. Qed.
Lemma ltrim_word s : (forall a, String.get 0 s = Some a -> ~ blank_char a) -> ltrim s = s.
Proof. destruct s as [|a s]; [reflexivity|]. intro H. cbn. rewrite (proj2 (space_no a) (H a eq_refl)). reflexivity. Qed.
Lemma ltrim_split s : exists b, s = b ++ ltrim s /\ blank b.
Proof.
  induction s as [|a s IH]; [exists ""; split; [reflexivity|apply each_nil]|]. cbn. destruct (is_space a) eqn:E.
  - destruct IH as (b & H1 & H2). exists (String a b). split; [cbn; congruence|]. apply each_cons. split; [apply space_ok; exact E|exact H2].
  - exists "". split; [reflexivity|apply each_nil].
Qed.
Lemma ltrim_head s a : String.get 0 (ltrim s) = Some a -> ~ blank_char a.
Proof. induction s as [|c s IH]; [discriminate|]. cbn. destruct (is_space c) eqn:E; [exact IH|]. intro H. injection H as <-. apply space_no. exact E. Qed.
Lemma word_of w r : each (fun a => ~ blank_char a) w -> (forall a, String.get 0 r = Some a -> blank_char a) -> word (w ++ r) = (w, r).
Proof.
  intros H R. induction w as [|a w IH].
  - cbn. destruct r as [|a r]; [reflexivity|]. cbn. rewrite (proj2 (space_ok a) (R a eq_refl)). reflexivity.
  - apply each_cons in H as [H1 H2]. cbn. rewrite (proj2 (space_no a) H1), (IH H2). reflexivity.
Qed.
Lemma word_split s : let (w, r) := word s in s = w ++ r /\ each (fun a => ~ blank_char a) w /\ (forall a, String.get 0 r = Some a -> blank_char a).
Proof.
  induction s as [|a s IH]; cbn; [split; [reflexivity|split; [apply each_nil|discriminate]]|].
  destruct (is_space a) eqn:E.
  - split; [reflexivity|]. split; [apply each_nil|]. intros b H. injection H as <-. apply space_ok. exact E.
  - destruct (word s) as [w r]. destruct IH as (H1 & H2 & H3). split; [cbn; congruence|]. split; [|exact H3].
    apply each_cons. split; [apply space_no; exact E|exact H2].
Qed.

Lemma parse_iff line n v : parse_line line = Some (n, v) <-> line_says line n v.
Proof.
  split.
  - unfold parse_line. destruct (ltrim_split line) as (b1 & E & B1). destruct (ltrim line) as [|a s] eqn:L; [discriminate|].
    assert (NB : ~ blank_char a) by (apply (ltrim_head line); rewrite L; reflexivity).
    destruct (Ascii.eqb a "#") eqn:C; [discriminate|]. pose proof (word_split (String a s)) as W.
    destruct (word (String a s)) as [nm rest] eqn:WE. destruct W as (W1 & W2 & W3).
    destruct (ltrim_split rest) as (b2 & E2 & B2). pose proof (word_split (ltrim rest)) as V. destruct (word (ltrim rest)) as [value rest2] eqn:VE.
    destruct V as (V1 & V2 & V3). destruct value as [|c value]; [discriminate|]. intro H. injection H as <- <-.
    assert (N0 : exists s', nm = String a s').
    { cbn in WE. rewrite (proj2 (space_no a) NB) in WE. destruct (word s). injection WE as <- _. eauto. }
    destruct N0 as [s' ->].
    exists b1, b2, rest2. split; [|split; [exact B1|split; [exact B2|split; [|split; [|split; [|split]]]]]].
    + rewrite E. f_equal. rewrite W1. f_equal. rewrite E2. f_equal. exact V1.
    + intros ->. cbn in E2. rewrite E2 in W3. rewrite V1 in W3. specialize (W3 c eq_refl). apply each_cons in V2 as [V2 _]. contradiction.
    + split; [discriminate|exact W2].
    + split; [discriminate|exact V2].
    + cbn. intro H. injection H as ->. discriminate C.
    + exact V3.
  - intros (b1 & b2 & rest & -> & B1 & B2 & NB2 & [N1 N2] & [V1 V2] & H0 & R). unfold parse_line. rewrite ltrim_blank by exact B1.
    destruct n as [|a n]; [contradiction N1; reflexivity|].
    rewrite ltrim_word by (intros c H; cbn in H; injection H as <-; apply each_cons in N2; tauto).
    cbn [String.append]. destruct (Ascii.eqb_spec a "#") as [->|NE]; [contradiction H0; reflexivity|].
    change (String a (n ++ b2 ++ v ++ rest)) with (String a n ++ (b2 ++ v ++ rest)).
    rewrite word_of; [|exact N2|intros c H; destruct b2 as [|c' b2]; [contradiction NB2; reflexivity|]; cbn in H; injection H as <-; apply each_cons in B2; tauto].
    rewrite ltrim_blank by exact B2. rewrite ltrim_word.
    2: { intros c H. destruct v as [|c' v]; [contradiction V1; reflexivity|]. cbn in H. injection H as <-. apply each_cons in V2. tauto. }
    rewrite word_of by assumption. destruct v as [|c v]; [contradiction V1; reflexivity|reflexivity].
Qed.
Lemma says_unique line n v n' v' : line_says line n v -> line_says line n' v' -> n = n' /\ v = v'.
Proof. intros H1 H2. apply parse_iff in H1, H2. rewrite H1 in H2. injection H2 as <- <-. auto. Qed.
Lemma nothing_iff line : (forall n v, ~ line_says line n v) <-> blank line \/ comment line \/ one_word line.
Proof.
  assert (P : (forall n v, ~ line_says line n v) <-> parse_line line = None).
  { split.
    - intro H. destruct (parse_line line) as [[n v]|] eqn:E; [|reflexivity]. apply parse_iff in E. destruct (H _ _ E).
    - intros E n v H. apply parse_iff in H. congruence. }
  rewrite P. clear P. split.
  - unfold parse_line. destruct (ltrim_split line) as (b1 & E & B1). destruct (ltrim line) as [|a s] eqn:L.
    + intros _. left. rewrite E, app_nil_s. exact B1.
    + destruct (Ascii.eqb_spec a "#") as [->|NE]; [intros _; right; left; exists b1, s; split; [exact E|exact B1]|].
      pose proof (word_split (String a s)) as W. assert (NB : ~ blank_char a) by (apply (ltrim_head line); rewrite L; reflexivity).
      destruct (word (String a s)) as [nm rest] eqn:WE. destruct W as (W1 & W2 & W3).
      destruct (ltrim_split rest) as (b2 & E2 & B2). pose proof (word_split (ltrim rest)) as V. destruct (word (ltrim rest)) as [value rest2] eqn:VE.
      destruct V as (V1 & V2 & V3). destruct value as [|c value]; [|discriminate]. intros _. right. right.
      assert (LE : ltrim rest = "").
      { destruct (ltrim rest) as [|c r] eqn:LR; [reflexivity|]. cbn in V1. subst rest2. specialize (V3 c eq_refl).
        exfalso. apply (ltrim_head rest c); [rewrite LR; reflexivity|exact V3]. }
      rewrite LE, app_nil_s in E2. subst b2.
      exists b1, nm, rest. split; [rewrite E, W1; reflexivity|]. split; [exact B1|]. split; [exact B2|]. split; [|exact W2].
      intros ->. cbn in WE. rewrite (proj2 (space_no a) NB) in WE. destruct (word s); discriminate.
  - intros [B|[(b & r & -> & B)|(b1 & nm & b2 & -> & B1 & B2 & N1 & N2)]]; unfold parse_line.
    + rewrite <- (app_nil_s line), ltrim_blank by exact B. reflexivity.
    + rewrite ltrim_blank by exact B. reflexivity.
    + rewrite ltrim_blank by exact B1. destruct nm as [|a nm]; [contradiction N1; reflexivity|].
      rewrite ltrim_word by (intros c H; cbn in H; injection H as <-; apply each_cons in N2; tauto).
      cbn [String.append]. destruct (Ascii.eqb a "#"); [reflexivity|].
      change (String a (nm ++ b2)) with (String a nm ++ b2).
      rewrite word_of; [|exact N2|intros c H; exact (B2 0 c H)].
      rewrite <- (app_nil_s b2), ltrim_blank by exact B2. reflexivity.
Qed.

(** ** the file as calls *)
Section Calls.
Variable c : config.
Variable pn : string -> option b64.
Variable pi : string -> option Z.
Hypothesis pn_ok : forall s v, pn s = Some v -> is_nan v = false.
Notation regs := (nlp_options c).
Notation lg := (legal (fun _ => false) regs).
Lemma step_legal l t t' : lg t -> load_line (ensure_nlp c) pn pi l t = Some t' -> lg t'.
Proof.
  intros H E. destruct (load_line_ok (fun _ => false) regs (ensure_nlp c) (touched c) (consistent c) (nlp_ens c) (nlp_skip c) pn pi pn_ok l t H) as (t1 & A & B & _). congruence.
Qed.
Lemma find_kind t n : lg t -> match find n regs, find n t with
  | Some r, Some e => same_decl (o_val r) (o_val e) | None, None => True | _, _ => False end.
Proof.
  intro H. destruct (find n regs) as [r|] eqn:E.
  - destruct (legal_find _ _ _ _ _ H E) as (e & -> & S & _). exact S.
  - destruct (find n t) as [e|] eqn:E'; [|exact Logic.I]. destruct (legal_find_rev _ _ _ _ _ H E') as (r & A & _). congruence.
Qed.
Lemma load_calls ls ops : file_calls regs pn pi ls ops -> forall t, lg t -> load_file (ensure_nlp c) pn pi ls t = run (ensure_nlp c) ops t.
Proof.
  induction 1 as [|l ls ops N F IH|l n v ls ops S E F IH|l n v x d lb ub f r ls ops S E P F IH|l n v d lb ub f r ls ops S E P F IH
    |l n v x d lb ub f r ls ops S E P F IH|l n v d lb ub f r ls ops S E P F IH|l n v d range f r ls ops S E F IH]; intros t H; [reflexivity| | | | | | |];
    cbn [load_file run do_op];
    pose proof (step_legal l t) as SL; unfold load_line in *;
    [destruct (parse_line l) as [[n v]|] eqn:PL; [apply parse_iff in PL; destruct (N _ _ PL)|exact (IH t H)]|..];
    apply parse_iff in S; rewrite S in *; pose proof (find_kind t n H) as K; rewrite E in K;
    destruct (find n t) as [[[? ? ?|? ? ?|? ?] f0 r0]|] eqn:FT; try contradiction K; try rewrite P in *; try exact (IH t H).
  - destruct (set_numeric _ _ _ _ _) as [t1|] eqn:A; [|reflexivity]. apply IH. eapply SL; eauto.
  - destruct (set_integer _ _ _ _ _) as [t1|] eqn:A; [|reflexivity]. apply IH. eapply SL; eauto.
  - destruct (set_string _ _ _ _ _) as [t1|] eqn:A; [|reflexivity]. apply IH. eapply SL; eauto.
Qed.
Lemma calls_exist ls : exists ops, file_calls regs pn pi ls ops.
Proof.
  induction ls as [|l ls [ops IH]]; [exists []; constructor|].
  destruct (parse_line l) as [[n v]|] eqn:PL.
  - pose proof PL as S. apply parse_iff in S. destruct (find n regs) as [[[d lb ub|d lb ub|d range] f r]|] eqn:E.
    + destruct (pn v) as [x|] eqn:P; eexists; [eapply fc_num|eapply fc_nonum]; eauto.
    + destruct (pi v) as [x|] eqn:P; eexists; [eapply fc_int|eapply fc_noint]; eauto.
    + eexists. eapply fc_str; eauto.
    + eexists. eapply fc_unknown; eauto.
  - exists ops. apply fc_nothing; [|exact IH]. intros n v H. apply parse_iff in H. congruence.
Qed.
Lemma calls_unique ls ops : file_calls regs pn pi ls ops -> forall ops', file_calls regs pn pi ls ops' -> ops' = ops.
Proof.
  induction 1; intros ops' H'; inversion H'; subst; try reflexivity;
    try (exfalso; match goal with A : forall n v, ~ line_says ?l n v, B : line_says ?l _ _ |- _ => exact (A _ _ B) end);
    try (match goal with A : line_says ?l _ _, B : line_says ?l _ _ |- _ => destruct (says_unique _ _ _ _ _ A B); subst end); try congruence; auto;
    try (f_equal; auto; congruence).
Qed.
End Calls.

Lemma lower_ok s : lower_case_of s (lower s).
Proof.
  induction s as [|a s [L IH]]; [split; [reflexivity|intros [|i] a H; discriminate]|]. split; [cbn; congruence|].
  intros [|i] b H; [|exact (IH i b H)]. injection H as <-. exists (lower_char a). split; [reflexivity|]. unfold lower_char.
  destruct (Nat.leb_spec 65 (nat_of_ascii a)), (Nat.leb_spec (nat_of_ascii a) 90); cbn [andb]; split; intro; try lia; try reflexivity.
  apply nat_ascii_embedding. lia.
Qed.
Lemma get_ext s : forall s', String.length s = String.length s' -> (forall i, String.get i s = String.get i s') -> s = s'.
Proof. induction s as [|a s IH]; intros [|b s'] L H; try discriminate; [reflexivity|]. pose proof (H 0) as E. injection E as ->. f_equal. apply IH; [injection L; auto|]. intro i. exact (H (S i)). Qed.
Lemma get_len s : forall i a, String.get i s = Some a -> (i < String.length s)%nat.
Proof. induction s as [|c s IH]; intros [|i] a H; try discriminate; cbn; [lia|]. apply IH in H. lia. Qed.
Lemma get_some s : forall i, (i < String.length s)%nat -> exists a, String.get i s = Some a.
Proof. induction s as [|c s IH]; intros [|i] H; cbn in *; try lia; [eauto|]. apply IH. lia. Qed.
Lemma lower_unique s s1 s2 : lower_case_of s s1 -> lower_case_of s s2 -> s1 = s2.
Proof.
  intros [L1 H1] [L2 H2]. apply get_ext; [congruence|]. intro i. destruct (Nat.lt_ge_cases i (String.length s)) as [L|L].
  - destruct (get_some _ _ L) as [a Ha]. destruct (H1 i a Ha) as (b1 & -> & U1 & V1). destruct (H2 i a Ha) as (b2 & -> & U2 & V2). f_equal.
    destruct (Nat.le_gt_cases 65 (nat_of_ascii a)), (Nat.le_gt_cases (nat_of_ascii a) 90); try (rewrite V1, V2 by lia; reflexivity).
    rewrite <- (ascii_nat_embedding b1), <- (ascii_nat_embedding b2), U1, U2 by lia. reflexivity.
  - destruct (String.get i s1) eqn:A; [apply get_len in A; lia|]. destruct (String.get i s2) eqn:B; [apply get_len in B; lia|]. reflexivity.
Qed.

(** ** integers *)
Open Scope Z_scope.
Lemma digit_iff a d : digit a = Some d <-> digit_char d a.
Proof.
  unfold digit, digit_char. destruct ((48 <=? _) && _) eqn:E.
  - apply andb_prop in E as [E1 E2]. apply Z.leb_le in E1, E2. split; [intro H; injection H as <-; lia|intros [? ?]; f_equal; lia].
  - split; [discriminate|]. intros [? ?]. apply andb_false_iff in E as [E|E]; apply Z.leb_gt in E; lia.
Qed.
Definition no_digit_first (s : string) : Prop := forall a d, String.get 0 s = Some a -> ~ digit_char d a.
Lemma digits_dec s l r : decimal s l -> no_digit_first r -> forall acc, digits (s ++ r) acc = acc * 10 ^ Z.of_nat (List.length l) + dec_value l.
Proof.
  intros D N. induction D as [|d a s l Da D IH]; intro acc.
  - cbn [String.append List.length dec_value]. destruct r as [|a r]; cbn; [lia|]. destruct (digit a) as [d|] eqn:E; [|lia].
    apply digit_iff in E. destruct (N a d eq_refl E).
  - cbn [String.append digits]. rewrite (proj2 (digit_iff a d) Da), IH. cbn [List.length dec_value]. rewrite Nat2Z.inj_succ, Z.pow_succ_r by lia. lia.
Qed.
Lemma digits_split s : exists ds l r, s = ds ++ r /\ decimal ds l /\ no_digit_first r /\ ((exists a d, String.get 0 s = Some a /\ digit a = Some d) <-> l <> []).
Proof.
  induction s as [|a s (ds & l & r & -> & D & N & _)].
  - exists "", [], "". split; [reflexivity|]. split; [constructor|]. split; [intros ? ? ?; discriminate|]. split; [intros (? & ? & H & _); discriminate|intros []; reflexivity].
  - destruct (digit a) as [d|] eqn:E.
    + exists (String a ds), (d :: l), r. split; [reflexivity|]. split; [constructor; [apply digit_iff; exact E|exact D]|]. split; [exact N|].
      split; [discriminate|]. intros _. exists a, d. auto.
    + exists "", [], (String a (ds ++ r)). split; [reflexivity|]. split; [constructor|]. split.
      * intros b d H X. injection H as <-. apply digit_iff in X. congruence.
      * split; [intros (b & d & H & X); injection H as <-; congruence|intros []; reflexivity].
Qed.
Lemma read_nat_iff z s v : read_nat z s = Some v <-> exists ds l r, s = ds ++ r /\ decimal ds l /\ no_digit_first r /\ l <> [] /\ v = z * dec_value l /\ -2147483648 <= v <= 2147483647.
Proof.
  split.
  - destruct s as [|a s]; [discriminate|]. unfold read_nat. destruct (digit a) as [d|] eqn:E; [|discriminate]. cbv zeta.
    destruct (digits_split (String a s)) as (ds & l & r & E1 & D & N & F). rewrite E1, (digits_dec ds l r D N).
    intro H. exists ds, l, r. split; [reflexivity|]. split; [exact D|]. split; [exact N|]. split; [apply F; exists a, d; auto|].
    destruct (_ && _) eqn:R; [|discriminate]. injection H as <-. apply andb_prop in R as [R1 R2]. apply Z.leb_le in R1, R2. split; lia.
  - intros (ds & l & r & -> & D & N & NE & -> & R). destruct D as [|d a ds l Da D]; [contradiction NE; reflexivity|].
    cbn [String.append read_nat]. rewrite (proj2 (digit_iff a d) Da). cbv zeta. change (String a (ds ++ r)) with (String a ds ++ r)%string.
    rewrite (digits_dec (String a ds) (d :: l) r) by (try constructor; assumption). rewrite Z.mul_0_l, Z.add_0_l.
    rewrite (proj2 (Z.leb_le _ _)), (proj2 (Z.leb_le _ _)) by lia. reflexivity.
Qed.
Lemma sign_char a d : digit_char d a -> a <> "-"%char /\ a <> "+"%char.
Proof. intros [H1 H2]. split; intros ->; [change (Z.of_nat (nat_of_ascii "-")) with 45 in H2|change (Z.of_nat (nat_of_ascii "+")) with 43 in H2]; lia. Qed.
Lemma read_iff s v : read_int s = Some v <-> exists w r, s = (w ++ r)%string /\ writes_int w v /\ no_digit_first r /\ -2147483648 <= v <= 2147483647.
Proof.
  split.
  - destruct s as [|a s]; [discriminate|]. unfold read_int.
    destruct (Ascii.eqb_spec a "-") as [->|N1]; [|destruct (Ascii.eqb_spec a "+") as [->|N2]]; intro H; apply read_nat_iff in H as (ds & l & r & E & D & N & NE & -> & R).
    + exists ("-" ++ ds)%string, r. split; [cbn; congruence|]. split; [|auto]. exists "-"%string, (-1), ds, l. repeat split; auto. right. right. auto.
    + exists ("+" ++ ds)%string, r. split; [cbn; congruence|]. split; [|auto]. exists "+"%string, 1, ds, l. repeat split; auto. right. left. auto.
    + exists ds, r. split; [exact E|]. split; [|auto]. exists ""%string, 1, ds, l. repeat split; auto. left. auto.
  - intros (w & r & -> & (sg & z & ds & l & -> & S & D & NE & ->) & N & R).
    assert (X : read_nat z (ds ++ r) = Some (z * dec_value l)) by (apply read_nat_iff; exists ds, l, r; auto 10).
    destruct S as [[-> ->]|[[-> ->]|[-> ->]]]; try exact X. cbn [String.append].
    destruct D as [|d a ds l Da D]; [contradiction NE; reflexivity|]. destruct (sign_char _ _ Da) as [A1 A2]. cbn [String.append read_int].
    destruct (Ascii.eqb_spec a "-"); [contradiction|]. destruct (Ascii.eqb_spec a "+"); [contradiction|]. exact X.
Qed.
