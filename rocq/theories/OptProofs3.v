(** Histories of file lines and calls. *)
From Coq Require Import List Bool ZArith String Ascii Lia.
From Verif Require Import FloatBase FloatFacts OptModel OptSpec OptProofs OptProofs2.
Import ListNotations.
Open Scope string_scope.

(** ** One request at a time *)
Definition step_event (s : bool * value) (e : event) : bool * value :=
  let (file, cur) := s in let (f, ov) := e in
  if file && negb f then s else (file || f, match ov with Some w => w | None => cur end).
Lemma counts_ext evs evs' i : counts evs i -> counts (evs ++ evs') i.
Proof.
  intros (f & v & A & B). exists f, v.
  assert (Li : i < List.length evs) by (apply nth_error_Some; congruence).
  split; [rewrite nth_error_app1; auto|]. destruct B as [B|B]; auto. right. intros j v' J.
  rewrite nth_error_app1 by lia. auto.
Qed.
Lemma counts_ext_rev evs evs' i : i < List.length evs -> counts (evs ++ evs') i -> counts evs i.
Proof.
  intros Li (f & v & A & B). rewrite nth_error_app1 in A by auto. exists f, v. split; auto.
  destruct B as [B|B]; auto. right. intros j v' J. rewrite <- (nth_error_app1 evs evs') by lia. auto.
Qed.
Lemma winner_fold d evs : let s := fold_left step_event evs (false, d) in
  (fst s = true <-> exists j v, nth_error evs j = Some (true, v)) /\ winner d evs (snd s).
Proof.
  induction evs as [|e evs IH] using rev_ind; cbn zeta.
  - split; [split; [discriminate|intros ([|?] & v & E); discriminate]|]. right. split; auto. intros [|?] g v _; discriminate.
  - rewrite fold_left_app. cbn [fold_left]. cbn zeta in IH. destruct (fold_left step_event evs (false, d)) as [file cur].
    cbn [fst snd] in IH. destruct IH as [IF IW]. destruct e as [f ov]. unfold step_event.
    assert (NE : nth_error (evs ++ [(f, ov)]) (List.length evs) = Some (f, ov)).
    { rewrite nth_error_app2 by lia. rewrite PeanoNat.Nat.sub_diag. auto. }
    assert (DJ : forall j x, nth_error (evs ++ [(f, ov)]) j = Some x -> j < List.length evs \/ j = List.length evs /\ x = (f, ov)).
    { intros j x E. assert (j < List.length (evs ++ [(f, ov)])) by (apply nth_error_Some; congruence).
      rewrite app_length in H. simpl in H. destruct (Compare_dec.lt_dec j (List.length evs)); auto.
      right. assert (j = List.length evs) by lia. subst. split; auto. congruence. }
    assert (FX : (file || f = true <-> exists j v, nth_error (evs ++ [(f, ov)]) j = Some (true, v))).
    { rewrite orb_true_iff, IF. split.
      - intros [(j & v & E)|E]; [exists j, v; rewrite nth_error_app1; auto; apply nth_error_Some; congruence|].
        subst. exists (List.length evs), ov. auto.
      - intros (j & v & E). destruct (DJ j _ E) as [L|[_ E']]; [|injection E' as <- <-; auto].
        rewrite nth_error_app1 in E by auto. eauto. }
    destruct (file && negb f) eqn:B; cbn [fst snd].
    + apply andb_true_iff in B. destruct B as [-> B]. destruct f; [discriminate|]. split; [exact FX|].
      assert (NC : ~ counts (evs ++ [(false, ov)]) (List.length evs)).
      { intros (f & v & A & [C|C]); rewrite NE in A; injection A as <- <-; [discriminate|].
        destruct (proj1 IF eq_refl) as (j & v' & E). assert (j < List.length evs) by (apply nth_error_Some; congruence).
        apply (C j v'); auto. rewrite nth_error_app1; auto. }
      destruct IW as [(i & g & C & N & W)|[W ->]].
      * left. exists i, g. split; [apply counts_ext; auto|].
        assert (i < List.length evs) by (apply nth_error_Some; congruence).
        split; [rewrite nth_error_app1; auto|]. intros j g' v J CJ E. destruct (DJ _ _ E) as [L|[-> _]]; [|auto].
        apply (W j g' v); auto; [eapply counts_ext_rev; eauto|]. rewrite <- E, nth_error_app1; auto.
      * right. split; auto. intros j g v CJ E. destruct (DJ _ _ E) as [L|[-> _]]; [|auto].
        apply (W j g v); [eapply counts_ext_rev; eauto|]. rewrite <- E, nth_error_app1; auto.
    + split; [exact FX|].
      assert (YC : counts (evs ++ [(f, ov)]) (List.length evs)).
      { exists f, ov. split; auto. destruct f; auto. right. intros j v' J E. rewrite nth_error_app1 in E by auto.
        assert (file = true) by (apply IF; eauto). subst. discriminate. }
      destruct ov as [w|].
      * left. exists (List.length evs), f. split; auto. split; auto. intros j g v J _ E.
        destruct (DJ _ _ E) as [L|[L _]]; lia.
      * destruct IW as [(i & g & C & N & W)|[W ->]].
        -- left. exists i, g. split; [apply counts_ext; auto|].
           assert (i < List.length evs) by (apply nth_error_Some; congruence).
           split; [rewrite nth_error_app1; auto|]. intros j g' v J CJ E. destruct (DJ _ _ E) as [L|[_ E']]; [|discriminate].
           apply (W j g' v); auto; [eapply counts_ext_rev; eauto|]. rewrite <- E, nth_error_app1; auto.
        -- right. split; auto. intros j g v CJ E. destruct (DJ _ _ E) as [L|[_ E']]; [|discriminate].
           apply (W j g v); [eapply counts_ext_rev; eauto|]. rewrite <- E, nth_error_app1; auto.
Qed.

Section Gen.
Variable skip : string -> bool.
Variable regs : table.
Variable ens : table -> option table.
Variable touched : string -> Prop.
Variable good : table -> Prop.
Notation legal := (legal skip regs).
Hypothesis ens_ok : forall t, legal t -> exists t', ens t = Some t' /\ legal t' /\ good t' /\
  (forall n, ~ touched n -> find n t' = find n t).
Hypothesis regs_legal : legal regs.

(** what a request does to the table before the consistency pass *)
Inductive req (t : table) : string -> option value -> bool -> table -> Prop :=
| req_num n v f old lb ub f0 r0 : find n t = Some (Opt (VNum old lb ub) f0 r0) -> f0 && negb f = false ->
    req t n (valid_num v lb ub) f
      (put n (Opt (VNum (match valid_num v lb ub with Some _ => v | None => old end) lb ub)
                  (if f then true else f0) (if f then r0 else true)) t)
| req_int n v f old lb ub f0 r0 : find n t = Some (Opt (VInt old lb ub) f0 r0) -> f0 && negb f = false ->
    req t n (valid_int v lb ub) f
      (put n (Opt (VInt (match valid_int v lb ub with Some _ => v | None => old end) lb ub) (if f then true else f0) r0) t)
| req_str n v f old range f0 r0 : find n t = Some (Opt (VStr old range) f0 r0) -> f0 && negb f = false ->
    req t n (valid_str (lower v) range) f
      (put n (Opt (VStr (match valid_str (lower v) range with Some _ => lower v | None => old end) range) (if f then true else f0) r0) t).

Lemma num_cases v lb ub : is_nan v = false -> is_nan lb = false -> is_nan ub = false ->
  (flt v lb || fgt v ub) = match valid_num v lb ub with Some _ => false | None => true end.
Proof.
  intros A B C. unfold valid_num, fgt. fold (flt ub v).
  rewrite !flt_not_fge by auto. unfold fge. fold (fle lb v) (fle v ub).
  destruct (fle lb v), (fle v ub); auto.
Qed.
Lemma int_cases v lb ub : ((v <? lb) || (ub <? v))%Z = match valid_int v lb ub with Some _ => false | None => true end.
Proof. unfold valid_int. rewrite !Z.ltb_antisym. destruct (lb <=? v)%Z, (v <=? ub)%Z; auto. Qed.
Lemma in_range_str_sym v range : in_range_str v range = existsb (String.eqb v) range.
Proof. unfold in_range_str. induction range as [|r l IH]; simpl; auto. rewrite IH, String.eqb_sym. auto. Qed.
Lemma str_cases v range : negb (in_range_str v range) && negb (match range with [] => true | _ => false end)
  = match valid_str v range with Some _ => false | None => true end.
Proof.
  rewrite in_range_str_sym. unfold valid_str. destruct range as [|r l]; auto.
  destruct (existsb (String.eqb v) (r :: l)); auto.
Qed.

(** the NaN-free numbers *)
Definition op_ok (o : op) : Prop := match o with SetNum _ v _ => is_nan v = false | _ => True end.
(** a call: blocked by the file, not about a registered option of the type, or a request *)
Definition op_name (o : op) : string :=
  match o with SetNum n _ _ => n | SetInt n _ _ => n | SetStr n _ _ => n | SetLog => "" end.
Definition op_file (o : op) : bool :=
  match o with SetNum _ _ f => f | SetInt _ _ f => f | SetStr _ _ f => f | SetLog => true end.
Definition op_fits (o : op) (v : oval) : bool :=
  match o, v with SetNum _ _ _, VNum _ _ _ => true | SetInt _ _ _, VInt _ _ _ => true | SetStr _ _ _, VStr _ _ => true | _, _ => false end.
Lemma legal_bounds t n v lb ub f r : legal t -> skip n = false -> find n t = Some (Opt (VNum v lb ub) f r) ->
  is_nan lb = false /\ is_nan ub = false.
Proof.
  intros H S E. destruct (legal_find_rev _ _ _ _ _ H E) as (o & _ & _ & R). destruct (R S) as [A B].
  apply fle_nan in A, B. tauto.
Qed.
Hypothesis skip_str : forall n v, skip n = true -> find n regs = Some v -> exists d range, o_val v = VStr d range.
Lemma bounds t n v lb ub f r : legal t -> find n t = Some (Opt (VNum v lb ub) f r) -> is_nan lb = false /\ is_nan ub = false.
Proof.
  intros H E. destruct (skip n) eqn:S; [|eapply legal_bounds; eauto].
  destruct (legal_find_rev _ _ _ _ _ H E) as ([o f' r'] & F & D & _). destruct (skip_str _ _ S F) as (d & range & Q).
  simpl in *. subst. destruct D.
Qed.
Lemma req_legal t n ov f t1 : legal t -> req t n ov f t1 -> legal t1.
Proof.
  intros H R. destruct R as [n v f old lb ub f0 r0 E _|n v f old lb ub f0 r0 E _|n v f old range f0 r0 E _];
    destruct (legal_find_rev _ _ _ _ _ H E) as (o & _ & _ & RG);
    (eapply legal_put; [exact H|exact E|simpl; auto|intro S; specialize (RG S); simpl in *]).
  - unfold valid_num. destruct (fle lb v && fle v ub) eqn:B; auto. apply andb_true_iff in B. auto.
  - unfold valid_int. destruct ((lb <=? v) && (v <=? ub))%Z eqn:B; auto. apply andb_true_iff in B. lia.
  - unfold valid_str. destruct range as [|r l]; auto.
    destruct (existsb (String.eqb (lower v)) (r :: l)) eqn:B; auto. right. apply existsb_exists in B.
    destruct B as (x & I & Q). apply String.eqb_eq in Q. subst. auto.
Qed.
Lemma do_op_cases o t : legal t -> op_ok o ->
  (exists old f0 r0, find (op_name o) t = Some (Opt old f0 r0) /\ op_fits o old = true /\ f0 && negb (op_file o) = true /\
     do_op ens o t = Some t) \/
  (match find (op_name o) t with Some e => op_fits o (o_val e) = false | None => True end /\ do_op ens o t = ens t) \/
  (exists ov t1 old f0 r0, find (op_name o) t = Some (Opt old f0 r0) /\ op_fits o old = true /\ req t (op_name o) ov (op_file o) t1 /\
     call_event (op_name o) old o = [(op_file o, ov)] /\ do_op ens o t = ens t1).
Proof.
  intros H OK. destruct o as [n v f|n v f|n v f|]; cbn [do_op op_name op_file op_ok] in *.
  - unfold set_numeric. destruct (find n t) as [[[old lb ub|old lb ub|old range] f0 r0]|] eqn:E;
      try (right; left; split; auto; fail).
    destruct (f0 && negb f) eqn:B; [left; do 3 eexists; split; [reflexivity|]; auto|]. right; right.
    destruct (bounds _ _ _ _ _ _ _ H E) as [N1 N2].
    do 5 eexists. split; [reflexivity|]. split; [reflexivity|]. split; [eapply req_num; eauto|]. split; [|].
    + cbn [call_event]. rewrite String.eqb_refl. reflexivity.
    + rewrite (num_cases v lb ub OK N1 N2). destruct (valid_num v lb ub); reflexivity.
  - unfold set_integer. destruct (find n t) as [[[old lb ub|old lb ub|old range] f0 r0]|] eqn:E;
      try (right; left; split; auto; fail).
    destruct (f0 && negb f) eqn:B; [left; do 3 eexists; split; [reflexivity|]; auto|]. right; right.
    do 5 eexists. split; [reflexivity|]. split; [reflexivity|]. split; [eapply req_int; eauto|]. split; [|].
    + cbn [call_event]. rewrite String.eqb_refl. reflexivity.
    + rewrite int_cases. destruct (valid_int v lb ub); reflexivity.
  - unfold set_string. destruct (find n t) as [[[old lb ub|old lb ub|old range] f0 r0]|] eqn:E;
      try (right; left; split; auto; fail).
    destruct (f0 && negb f) eqn:B; [left; do 3 eexists; split; [reflexivity|]; auto|]. right; right.
    do 5 eexists. split; [reflexivity|]. split; [reflexivity|]. split; [eapply req_str; eauto|]. split; [|].
    + cbn [call_event]. rewrite String.eqb_refl. reflexivity.
    + rewrite str_cases. destruct (valid_str (lower v) range); reflexivity.
  - right; left. split; [|reflexivity]. destruct (find "" t) as [e|]; auto.
Qed.
Lemma do_op_ok o t : legal t -> op_ok o -> exists t', do_op ens o t = Some t' /\ legal t' /\ (good t -> good t').
Proof.
  intros H OK. destruct (do_op_cases o t H OK) as [(old & f0 & r0 & _ & _ & _ & ->)|[[_ ->]|(ov & t1 & old & f0 & r0 & E & F & R & _ & ->)]].
  - exists t. auto.
  - destruct (ens_ok t H) as (t' & A & B & C & _). exists t'. auto.
  - destruct (ens_ok t1 (req_legal _ _ _ _ _ H R)) as (t' & A & B & C & _). exists t'. auto.
Qed.

(** effect on one option outside the consistency rules *)
Definition state_of (n : string) (t : table) (s : bool * value) : Prop :=
  exists o, find n t = Some o /\ o_file o = fst s /\ value_of (o_val o) = snd s.
Lemma req_find t n ov f t1 m : req t n ov f t1 -> m <> n -> find m t1 = find m t.
Proof. intros R N. destruct R; apply find_put_other; auto. Qed.
Lemma req_state t n ov f t1 s : req t n ov f t1 -> state_of n t s -> state_of n t1 (step_event s (f, ov)).
Proof.
  intros R (o & E & F & V). destruct s as [file cur]. simpl in F, V. subst.
  destruct R as [n v f old lb ub f0 r0 E' B|n v f old lb ub f0 r0 E' B|n v f old range f0 r0 E' B];
    rewrite E' in E; injection E as <-; unfold step_event; cbn [o_file o_val value_of]; rewrite B;
    (eexists; split; [apply find_put_same; congruence|]); cbn [o_file o_val value_of fst snd];
    (split; [destruct f0, f; auto|]).
  - unfold valid_num. destruct (fle lb v && fle v ub); auto.
  - unfold valid_int. destruct ((lb <=? v) && (v <=? ub))%Z; auto.
  - unfold valid_str. destruct (match range with [] => true | _ => _ end); auto.
Qed.
Lemma call_other n o d : op_name o <> n \/ op_fits o d = false -> call_event n d o = [].
Proof.
  intros [N|N]; destruct o as [m v f|m v f|m v f|], d; simpl in *; try discriminate; auto;
    (destruct (String.eqb_spec m n); [contradiction|auto]).
Qed.
Lemma fits_same o a b : same_decl a b -> op_fits o a = op_fits o b.
Proof. destruct o, a, b; simpl; auto; contradiction. Qed.
Lemma event_same o n a b : same_decl a b -> call_event n a o = call_event n b o.
Proof. destruct o, a, b; simpl; try contradiction; try reflexivity; [intros [-> ->]|intros [-> ->]|intros ->]; auto. Qed.
Lemma ens_state n t t' s : (forall m, ~ touched m -> find m t' = find m t) -> ~ touched n -> state_of n t s -> state_of n t' s.
Proof. intros F N (o & E & Q). exists o. rewrite F; auto. Qed.
Lemma do_op_state o t t' n d s : legal t -> op_ok o -> do_op ens o t = Some t' -> find n regs = Some d -> ~ touched n ->
  state_of n t s -> state_of n t' (fold_left step_event (call_event n (o_val d) o) s).
Proof.
  intros H OK R D N S.
  destruct (legal_find _ _ _ _ _ H D) as (e & E & SD & _).
  destruct (do_op_cases o t H OK) as [(old & f0 & r0 & E1 & F1 & B1 & Q)|[[F1 Q]|(ov & t1 & old & f0 & r0 & E1 & F1 & RQ & CE & Q)]];
    rewrite R in Q.
  - injection Q as ->. destruct (String.eqb_spec (op_name o) n) as [EN|NN]; [|rewrite call_other by auto; exact S].
    rewrite EN in E1. rewrite E in E1. injection E1 as ->. simpl in SD.
    destruct S as ([v' f' r'] & E' & F' & V'). rewrite E in E'. injection E' as -> -> ->. simpl in F', V'.
    destruct s as [file cur]. simpl in F', V'. subst file cur.
    assert (X : exists ov, call_event n (o_val d) o = [(op_file o, ov)] \/ call_event n (o_val d) o = []).
    { destruct o as [m v f|m v f|m v f|], (o_val d); simpl; try (exists None; auto; fail);
        simpl in EN; subst; rewrite String.eqb_refl; eauto. }
    destruct X as (ov & [-> | ->]); [|exists (Opt v' f' r'); auto]. cbn [fold_left step_event]. rewrite B1. exists (Opt v' f' r'); auto.
  - rewrite call_other.
    + destruct (ens_ok t H) as (t2 & A & _ & _ & F). rewrite A in Q. injection Q as ->. eapply ens_state; eauto.
    + destruct (String.eqb_spec (op_name o) n) as [<-|NN]; auto. rewrite E in F1. right. rewrite (fits_same o _ _ SD). auto.
  - destruct (ens_ok t1 (req_legal _ _ _ _ _ H RQ)) as (t2 & A & _ & _ & F). rewrite A in Q. injection Q as ->.
    eapply ens_state; eauto. destruct (String.eqb_spec (op_name o) n) as [EN|NN].
    + rewrite EN in *. rewrite E in E1. injection E1 as ->. simpl in SD.
      rewrite (event_same _ _ _ _ SD), CE. cbn [fold_left]. eapply req_state; eauto.
    + rewrite call_other by auto. destruct S as (oo & EE & Q). exists oo. split; auto. rewrite <- EE. eapply req_find; eauto.
Qed.
Lemma run_ok ops t : legal t -> Forall op_ok ops -> exists t', run ens ops t = Some t' /\ legal t' /\ (good t -> good t') /\
  (forall n d s, find n regs = Some d -> ~ touched n -> state_of n t s ->
     state_of n t' (fold_left step_event (flat_map (call_event n (o_val d)) ops) s)).
Proof.
  revert t. induction ops as [|o ops IH]; intros t H F; cbn [run].
  - exists t. repeat (split; auto).
  - inversion F; subst. destruct (do_op_ok o t H H2) as (t1 & A & B & C). rewrite A.
    destruct (IH t1 B H3) as (t' & A' & B' & C' & D'). exists t'. split; auto. split; auto. split; auto.
    intros n d s Hd Hn S. cbn [flat_map]. rewrite fold_left_app. apply D'; auto. exact (do_op_state o t t1 n d s H H2 A Hd Hn S).
Qed.
(** lines of the file are calls with the last argument true *)
Variable pn : string -> option b64.
Variable pi : string -> option Z.
Hypothesis pn_ok : forall s v, pn s = Some v -> is_nan v = false.
Lemma load_line_ok l t : legal t -> exists t', load_line ens pn pi l t = Some t' /\ legal t' /\
  (forall n d s, find n regs = Some d -> ~ touched n -> state_of n t s ->
     state_of n t' (fold_left step_event (line_event pn pi n (o_val d) l) s)).
Proof.
  intro H. unfold load_line, line_event. destruct (parse_line l) as [[m w]|]; [|exists t; auto].
  destruct (find m t) as [[[old lb ub|old lb ub|old range] f0 r0]|] eqn:E.
  - destruct (pn w) as [v|] eqn:P.
    + destruct (do_op_ok (SetNum m v true) t H (pn_ok _ _ P)) as (t' & A & B & _). exists t'. split; auto. split; auto.
      intros n d s D N S. pose proof (do_op_state _ _ _ n d s H (pn_ok _ _ P : op_ok (SetNum m v true)) A D N S) as Q.
      cbn [call_event] in Q. destruct (String.eqb_spec m n) as [->|]; [|destruct (o_val d); exact Q].
      destruct (legal_find _ _ _ _ _ H D) as (e & E' & SD & _). rewrite E in E'. injection E' as <-. simpl in SD.
      destruct (o_val d); try contradiction. exact Q.
    + exists t. split; auto. split; auto. intros n d s D N S. destruct (String.eqb_spec m n) as [->|]; [|exact S].
      destruct (legal_find _ _ _ _ _ H D) as (e & E' & SD & _). rewrite E in E'. injection E' as <-. simpl in SD.
      destruct (o_val d); try contradiction. exact S.
  - destruct (pi w) as [v|] eqn:P.
    + destruct (do_op_ok (SetInt m v true) t H Logic.I) as (t' & A & B & _). exists t'. split; auto. split; auto.
      intros n d s D N S. pose proof (do_op_state _ _ _ n d s H (Logic.I : op_ok (SetInt m v true)) A D N S) as Q.
      cbn [call_event] in Q. destruct (String.eqb_spec m n) as [->|]; [|destruct (o_val d); exact Q].
      destruct (legal_find _ _ _ _ _ H D) as (e & E' & SD & _). rewrite E in E'. injection E' as <-. simpl in SD.
      destruct (o_val d); try contradiction. exact Q.
    + exists t. split; auto. split; auto. intros n d s D N S. destruct (String.eqb_spec m n) as [->|]; [|exact S].
      destruct (legal_find _ _ _ _ _ H D) as (e & E' & SD & _). rewrite E in E'. injection E' as <-. simpl in SD.
      destruct (o_val d); try contradiction. exact S.
  - destruct (do_op_ok (SetStr m w true) t H Logic.I) as (t' & A & B & _). exists t'. split; auto. split; auto.
    intros n d s D N S. pose proof (do_op_state _ _ _ n d s H (Logic.I : op_ok (SetStr m w true)) A D N S) as Q.
    cbn [call_event] in Q. destruct (String.eqb_spec m n) as [->|]; [|destruct (o_val d); exact Q].
    destruct (legal_find _ _ _ _ _ H D) as (e & E' & SD & _). rewrite E in E'. injection E' as <-. simpl in SD.
    destruct (o_val d); try contradiction. exact Q.
  - exists t. split; auto. split; auto. intros n d s D N S. destruct (String.eqb_spec m n) as [->|]; [|exact S].
    destruct (legal_find _ _ _ _ _ H D) as (e & E' & _). congruence.
Qed.
Lemma load_file_ok ls t : legal t -> exists t', load_file ens pn pi ls t = Some t' /\ legal t' /\
  (forall n d s, find n regs = Some d -> ~ touched n -> state_of n t s ->
     state_of n t' (fold_left step_event (flat_map (line_event pn pi n (o_val d)) ls) s)).
Proof.
  revert t. induction ls as [|l ls IH]; intros t H; cbn [load_file].
  - exists t. repeat (split; auto).
  - destruct (load_line_ok l t H) as (t1 & A & B & C). rewrite A.
    destruct (IH t1 B) as (t' & A' & B' & C'). exists t'. split; auto. split; auto.
    intros n d s Hd Hn S. cbn [flat_map]. rewrite fold_left_app. apply C'; auto.
Qed.
(** the life of the object *)
Lemma life_ok ls ops : Forall op_ok ops -> exists t0 t, construct ens pn pi regs ls = Some t0 /\ run ens ops t0 = Some t /\
  legal t0 /\ legal t /\ good t0 /\ good t /\
  (forall n d, find n regs = Some (Opt d false false) -> ~ touched n ->
     exists w, val n t = Some w /\
       winner (value_of d) (flat_map (line_event pn pi n d) ls ++ flat_map (call_event n d) ops) w).
Proof.
  intro F. destruct (load_file_ok ls regs regs_legal) as (t1 & A & B & C).
  destruct (ens_ok t1 B) as (t0 & A0 & B0 & G0 & F0). destruct (run_ok ops t0 B0 F) as (t & A2 & B2 & G2 & C2).
  exists t0, t. unfold construct. rewrite A. repeat (split; auto).
  intros n d D N.
  assert (S0 : state_of n regs (false, value_of d)) by (eexists; split; [exact D|]; auto).
  pose proof (C n _ _ D N S0) as S1. pose proof (ens_state n t1 t0 _ F0 N S1) as S2. pose proof (C2 n _ _ D N S2) as S3.
  rewrite <- fold_left_app in S3. cbn [o_val] in S3.
  destruct (winner_fold (value_of d) (flat_map (line_event pn pi n d) ls ++ flat_map (call_event n d) ops)) as [_ W].
  eexists. split; [|exact W]. destruct S3 as (o & E & _ & V). unfold val. rewrite E. simpl. congruence.
Qed.
End Gen.
