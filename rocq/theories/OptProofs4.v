(** The two options classes. *)
From Coq Require Import List Bool ZArith String Ascii Lia.
From Verif Require Import FloatBase FloatFacts OptModel OptSpec OptProofs OptProofs2 OptProofs3.
Import ListNotations.
Open Scope string_scope.

(** ** The registered defaults *)
Definition in_rangeb (v : oval) : bool :=
  match v with
  | VNum v lb ub => fle lb v && fle v ub
  | VInt v lb ub => ((lb <=? v) && (v <=? ub))%Z
  | VStr v range => match range with [] => true | _ => existsb (String.eqb v) range end
  end.
Lemma in_rangeb_ok v : in_rangeb v = true -> in_range v.
Proof.
  destruct v as [v lb ub|v lb ub|v range]; simpl; intro H.
  - apply andb_true_iff in H. auto.
  - apply andb_true_iff in H. lia.
  - destruct range as [|r l]; auto. right. apply existsb_exists in H. destruct H as (x & I & E).
    apply String.eqb_eq in E. subst. auto.
Qed.
Lemma legal_self skip regs : forallb (fun e => skip (fst e) || in_rangeb (o_val (snd e))) regs = true -> legal skip regs regs.
Proof.
  induction regs as [|[n o] regs IH]; simpl; [constructor|]. intro H. apply andb_true_iff in H. destruct H as [A B].
  constructor; [|apply IH; auto]. simpl. split; auto. split; [apply same_decl_refl|]. intro S. rewrite S in A. apply in_rangeb_ok. auto.
Qed.
Lemma nlp_legal c : legal (fun _ => false) (nlp_options c) (nlp_options c).
Proof. apply legal_self. destruct c as [[] [] [] [] [] [] []]; vm_compute; reflexivity. Qed.
Definition accum (n : string) : bool := String.eqb n "accum_local".
Lemma pridec_legal c : legal accum (pridec_options c) (pridec_options c).
Proof. apply legal_self. destruct c as [[] [] [] [] [] [] []]; vm_compute; reflexivity. Qed.

(** ** PriDec *)
Definition pridec_rel (t : table) : Prop := is_user_defined "acceptable_tolerance" t = true ->
  exists v eps, get_num "acceptable_tolerance" t = Some v /\ get_num "tolerance" t = Some eps /\ flt v eps = false.
Lemma pridec_ok c t : legal accum (pridec_options c) t ->
  exists t', ensure_pridec t = Some t' /\ legal accum (pridec_options c) t' /\ pridec_rel t' /\
    (forall n, ~ n = "acceptable_tolerance" -> find n t' = find n t).
Proof.
  intro H.
  destruct (legal_num _ _ t "tolerance" _ _ _ H eq_refl eq_refl) as (e & f1 & r1 & E1 & A1 & B1).
  destruct (legal_num _ _ t "acceptable_tolerance" _ _ _ H eq_refl eq_refl) as (v & f & r & E & A & B).
  unfold ensure_pridec, raise_tol. rewrite (gn_eq _ _ _ _ _ _ _ E1). cbn [bind]. rewrite (gn_eq _ _ _ _ _ _ _ E). cbn [bind].
  unfold pridec_rel.
  destruct (flt v e) eqn:F; cbn [andb]; [destruct (is_user_defined "acceptable_tolerance" t) eqn:U|].
  - rewrite (set_num_ok _ _ _ _ _ _ _ e E A1 B1). eexists. split; [reflexivity|]. split; [|split].
    + eapply legal_put; [exact H|exact E|simpl; auto|]. intros _. simpl. auto.
    + intros _. exists e, e. unfold get_num. rewrite find_put_same by congruence. rewrite find_put_other by discriminate.
      rewrite E1. split; auto. split; auto. apply fle_flt. apply fle_refl. destruct (fle_nan _ _ A1); auto.
    + intros n N. apply find_put_other. auto.
  - exists t. split; auto. split; auto. split; auto. congruence.
  - exists t. split; auto. split; auto. split; auto. intros _. exists v, e.
    rewrite (gn_eq _ _ _ _ _ _ _ E1), (gn_eq _ _ _ _ _ _ _ E). auto.
Qed.
Lemma pridec_id c t : legal accum (pridec_options c) t -> pridec_rel t -> ensure_pridec t = Some t.
Proof.
  intros H R.
  destruct (legal_num _ _ t "tolerance" _ _ _ H eq_refl eq_refl) as (e & f1 & r1 & E1 & A1 & B1).
  destruct (legal_num _ _ t "acceptable_tolerance" _ _ _ H eq_refl eq_refl) as (v & f & r & E & A & B).
  unfold ensure_pridec. rewrite (gn_eq _ _ _ _ _ _ _ E1). cbn [bind]. eapply raise_id; [exact (gn_eq _ _ _ _ _ _ _ E)|].
  intro U. destruct (R U) as (v' & e' & V1 & V2 & V3). rewrite (gn_eq _ _ _ _ _ _ _ E1) in V2. rewrite (gn_eq _ _ _ _ _ _ _ E) in V1. congruence.
Qed.
Lemma pridec_skip c n v : accum n = true -> find n (pridec_options c) = Some v -> exists d range, o_val v = VStr d range.
Proof. intro H. apply String.eqb_eq in H. subst. intro E. injection E as <-. simpl. eauto. Qed.

(** ** NLP *)
Section N.
Variable c : config.
Notation regs := (nlp_options c).
Notation legal := (legal (fun _ => false) regs).
Notation ens := (ensure_nlp c).
Lemma nlp_ens t : legal t -> exists t', ens t = Some t' /\ legal t' /\ consistent c t' /\
  (forall n, ~ touched c n -> find n t' = find n t).
Proof. intro H. destruct (ensure_ok c t H) as (t' & A & [E1 E2 E3 E4 E5]). exists t'. auto. Qed.
Lemma nlp_skip n v : (fun _ : string => false) n = true -> find n regs = Some v -> exists d range, o_val v = VStr d range.
Proof. discriminate. Qed.

(** requests that change nothing *)
Lemma ignored t o : legal t -> consistent c t -> op_ok o ->
  match find (op_name o) t with Some e => op_fits o (o_val e) = false | None => True end -> do_op ens o t = Some t.
Proof.
  intros H C OK X.
  destruct (do_op_cases (fun _ => false) regs ens nlp_skip o t H OK)
    as [(old & f0 & r0 & E & _ & B & ->)|[[_ ->]|(ov & t1 & old & f0 & r0 & E & F & _)]]; auto.
  - apply ensure_id; auto.
  - rewrite E in X. simpl in X. congruence.
Qed.
Definition flags_only (n : string) (t t1 : table) : Prop :=
  exists o o', find n t = Some o /\ t1 = put n o' t /\ o_val o' = o_val o.
Lemma req_invalid t n f t1 : req t n None f t1 -> flags_only n t t1.
Proof.
  intro R. inversion R; subst; (eexists; eexists; split; [eassumption|]; split; [reflexivity|]; simpl);
    match goal with H : _ = None |- _ => rewrite H; auto end.
Qed.
Lemma flags_reads n t t1 : flags_only n t t1 ->
  (forall m, get_num m t1 = get_num m t) /\ (forall m, get_str m t1 = get_str m t) /\ (forall m, val m t1 = val m t) /\
  (forall m, m <> n -> is_user_defined m t1 = is_user_defined m t).
Proof.
  intros ([v f r] & [v' f' r'] & E & -> & V). simpl in V. subst v'.
  assert (NN : find n t <> None) by congruence.
  assert (D : forall m, m = n \/ m <> n) by (intro m; destruct (String.eqb_spec m n); auto).
  split; [|split; [|split]].
  1-3: intro m; unfold get_num, get_str, val; destruct (D m) as [->|Hm]; [rewrite find_put_same, E by auto; reflexivity|rewrite find_put_other by auto; auto].
  intros m Hm. unfold is_user_defined. rewrite find_put_other by auto. auto.
Qed.
Lemma invalid_values t o old f0 r0 : legal t -> consistent c t -> op_ok o ->
  find (op_name o) t = Some (Opt old f0 r0) -> call_event (op_name o) old o = [(op_file o, None)] ->
  ~ In (op_name o) ["acceptable_tolerance"; "dual_tol"; "cons_tol"; "comp_tol"; "Hessian"; "callback_mem_space"] ->
  exists t', do_op ens o t = Some t' /\ forall m, val m t' = val m t.
Proof.
  intros H C OK E CE N.
  destruct (do_op_cases (fun _ => false) regs ens nlp_skip o t H OK)
    as [(old' & f0' & r0' & E' & _ & B & ->)|[[_ ->]|(ov & t1 & old' & f0' & r0' & E' & F & RQ & CE' & ->)]]; [eauto| |].
  - exists t. split; auto. apply ensure_id; auto.
  - rewrite E in E'. injection E' as <- <- <-. rewrite CE in CE'. injection CE' as <-.
    destruct (flags_reads _ _ _ (req_invalid _ _ _ _ RQ)) as (R1 & R2 & R3 & R4).
    assert (L1 : legal t1) by (eapply req_legal; eauto).
    rewrite (ensure_like c t t1 L1 C R1 R2).
    + destruct (axom_ok c t1 L1) as (t' & -> & (_ & V & _) & _). exists t'. split; auto. intro m. rewrite V. auto.
    + intros n I. apply R4. intro. subst. auto.
Qed.
Lemma put_same n o t : find n t = Some o -> put n o t = t.
Proof. intro E. apply put_id. exact E. Qed.
Lemma invalid_quiet t o old f0 r0 : legal t -> consistent c t -> op_ok o -> op_file o = false ->
  match o with SetNum _ _ _ => False | _ => True end ->
  find (op_name o) t = Some (Opt old f0 r0) -> call_event (op_name o) old o = [(op_file o, None)] -> do_op ens o t = Some t.
Proof.
  intros H C OK FF NN E CE.
  destruct (do_op_cases (fun _ => false) regs ens nlp_skip o t H OK)
    as [(old' & f0' & r0' & E' & _ & B & ->)|[[_ ->]|(ov & t1 & old' & f0' & r0' & E' & F & RQ & CE' & ->)]]; [auto| |].
  - apply ensure_id; auto.
  - rewrite E in E'. injection E' as <- <- <-. rewrite CE in CE'. injection CE' as <-. rewrite FF in *.
    assert (t1 = t).
    { inversion RQ; subst; rewrite E in *;
        match goal with H : Some _ = Some _ |- _ => injection H; intros; subst end;
        try (destruct o; simpl in *; (contradiction || discriminate));
        match goal with H : _ = None |- _ => rewrite H end; apply put_same; auto. }
    subst. apply ensure_id; auto.
Qed.

(** ** file flags *)
Definition file_flag (n : string) (t : table) : bool := match find n t with Some o => o_file o | None => false end.
Lemma ens_flag n t t' : legal t -> ens t = Some t' -> ~ In n chkpnt_opts -> file_flag n t' = file_flag n t.
Proof.
  intros H E N. destruct (ensure_ok c t H) as (t2 & A & [_ _ _ F _]). rewrite E in A. injection A as <-.
  specialize (F n N). unfold file_flag. destruct (find n t), (find n t'); simpl in F; congruence.
Qed.
Lemma req_flag t n ov f t1 m : req t n ov f t1 -> file_flag m t1 = (if String.eqb n m then file_flag m t || f else file_flag m t).
Proof.
  intro R. unfold file_flag.
  destruct R as [n v f old lb ub f0 r0 E' B|n v f old lb ub f0 r0 E' B|n v f old range f0 r0 E' B];
    (destruct (String.eqb_spec n m) as [<-|N]; [|rewrite find_put_other by auto; auto]);
    rewrite find_put_same by congruence; rewrite E'; simpl; destruct f, f0; auto.
Qed.
Lemma op_flag o t t' n : legal t -> op_ok o -> do_op ens o t = Some t' -> ~ In n chkpnt_opts ->
  file_flag n t = true -> file_flag n t' = true.
Proof.
  intros H OK R N F.
  destruct (do_op_cases (fun _ => false) regs ens nlp_skip o t H OK)
    as [(old' & f0' & r0' & E' & _ & B & Q)|[[_ Q]|(ov & t1 & old' & f0' & r0' & E' & FF & RQ & CE' & Q)]]; rewrite R in Q.
  - injection Q as ->. auto.
  - symmetry in Q. rewrite (ens_flag n t t' H Q N). auto.
  - symmetry in Q. rewrite (ens_flag n t1 t' (req_legal _ _ _ _ _ _ _ H RQ) Q N), (req_flag _ _ _ _ _ n RQ), F. destruct (String.eqb _ n); auto.
Qed.
Lemma op_sets_flag o t t' old f0 r0 : legal t -> op_ok o -> op_file o = true -> do_op ens o t = Some t' ->
  find (op_name o) t = Some (Opt old f0 r0) -> op_fits o old = true -> ~ In (op_name o) chkpnt_opts ->
  file_flag (op_name o) t' = true.
Proof.
  intros H OK OF R E FT N.
  destruct (do_op_cases (fun _ => false) regs ens nlp_skip o t H OK)
    as [(old' & f0' & r0' & E' & _ & B & Q)|[[X Q]|(ov & t1 & old' & f0' & r0' & E' & FF & RQ & CE' & Q)]]; rewrite R in Q.
  - rewrite OF, andb_false_r in B. discriminate.
  - rewrite E in X. simpl in X. congruence.
  - symmetry in Q. rewrite (ens_flag _ t1 t' (req_legal _ _ _ _ _ _ _ H RQ) Q N), (req_flag _ _ _ _ _ _ RQ), String.eqb_refl, OF, orb_true_r. auto.
Qed.
Variable pn : string -> option b64.
Variable pi : string -> option Z.
Hypothesis pn_ok : forall s v, pn s = Some v -> is_nan v = false.
Lemma line_flag l t t' n d : legal t -> load_line ens pn pi l t = Some t' -> find n regs = Some d -> ~ In n chkpnt_opts ->
  file_flag n t = true \/ line_event pn pi n (o_val d) l <> [] -> file_flag n t' = true.
Proof.
  intros H R D N X.
  assert (Y : forall o, op_ok o -> op_file o = true -> load_line ens pn pi l t = do_op ens o t ->
     (line_event pn pi n (o_val d) l <> [] -> op_name o = n /\ exists e, find n t = Some e /\ op_fits o (o_val e) = true) ->
     file_flag n t' = true).
  { intros o OK OF Q W. rewrite R in Q. symmetry in Q. destruct X as [X|X]; [eapply op_flag; eauto|].
    destruct (W X) as (<- & [v f r] & E & FT). eapply op_sets_flag; eauto. }
  assert (FN : exists e, find n t = Some e /\ same_decl (o_val d) (o_val e)).
  { destruct (legal_find _ _ _ _ _ H D) as (e & E & S & _). eauto. }
  unfold load_line, line_event in *. destruct (parse_line l) as [[m w]|]; [|injection R as <-; destruct X as [X|X]; [auto|contradiction]].
  destruct (String.eqb_spec m n) as [->|NE].
  2:{ assert (F : file_flag n t = true) by (destruct X as [X|X]; [auto|contradiction]).
      assert (Z : forall o, op_ok o -> do_op ens o t = Some t' -> file_flag n t' = true) by (intros; eapply op_flag; eauto).
      destruct (find m t) as [[[old lb ub|old lb ub|old range] f0 r0]|] eqn:E; [| | |congruence].
      - destruct (pn w) as [v|] eqn:P; [|congruence]. exact (Z (SetNum m v true) (pn_ok _ _ P) R).
      - destruct (pi w) as [v|] eqn:P; [|congruence]. exact (Z (SetInt m v true) Logic.I R).
      - exact (Z (SetStr m w true) Logic.I R). }
  destruct FN as (e & E & S). rewrite E in *. destruct e as [ov f r]. simpl in S.
  destruct (o_val d), ov; simpl in S; try contradiction.
  - destruct (pn w) as [v'|] eqn:P; [|injection R as <-; destruct X as [X|X]; [auto|contradiction]].
    apply (Y (SetNum n v' true)); auto; [exact (pn_ok _ _ P)|]. intros _. split; auto. eexists; split; [reflexivity|auto].
  - destruct (pi w) as [v'|] eqn:P; [|injection R as <-; destruct X as [X|X]; [auto|contradiction]].
    apply (Y (SetInt n v' true)); auto; [exact Logic.I|]. intros _. split; auto. eexists; split; [reflexivity|auto].
  - apply (Y (SetStr n w true)); auto; [exact Logic.I|]. intros _. split; auto. eexists; split; [reflexivity|auto].
Qed.
Lemma file_flag_load ls t t' n d : legal t -> load_file ens pn pi ls t = Some t' -> find n regs = Some d -> ~ In n chkpnt_opts ->
  file_flag n t = true \/ flat_map (line_event pn pi n (o_val d)) ls <> [] -> file_flag n t' = true.
Proof.
  revert t. induction ls as [|l ls IH]; intros t H R D N X; cbn [load_file flat_map] in *.
  - injection R as <-. destruct X as [X|X]; [auto|contradiction].
  - destruct (load_line_ok (fun _ => false) regs ens (touched c) (consistent c) nlp_ens nlp_skip pn pi pn_ok l t H) as (t1 & A & B & _).
    rewrite A in R. apply (IH t1 B R D N).
    destruct (line_event pn pi n (o_val d) l) as [|e es] eqn:LE.
    + destruct X as [X|X]; [left; exact (line_flag l t t1 n d H A D N (or_introl X))|right; exact X].
    + left. apply (line_flag l t t1 n d H A D N). right. rewrite LE. discriminate.
Qed.
Lemma flag_run ops t t' n : legal t -> Forall op_ok ops -> run ens ops t = Some t' -> ~ In n chkpnt_opts ->
  file_flag n t = true -> file_flag n t' = true.
Proof.
  revert t. induction ops as [|o ops IH]; intros t H F R N X; cbn [run] in R.
  - injection R as <-. auto.
  - inversion F; subst. destruct (do_op_ok (fun _ => false) regs ens (touched c) (consistent c) nlp_ens nlp_skip o t H H2) as (t1 & A & B & _).
    rewrite A in R. apply (IH t1 B H3 R N). exact (op_flag o t t1 n H H2 A N X).
Qed.
Lemma flag_blocks o t old f0 r0 : op_ok o -> legal t -> find (op_name o) t = Some (Opt old f0 r0) -> op_fits o old = true ->
  op_file o = false -> file_flag (op_name o) t = true -> do_op ens o t = Some t.
Proof.
  intros OK H E FT OF X. unfold file_flag in X. rewrite E in X. simpl in X. subst f0.
  destruct o as [n v f|n v f|n v f|]; simpl in *; subst; try discriminate;
    [unfold set_numeric|unfold set_integer|unfold set_string]; rewrite E; destruct old; try discriminate; auto.
Qed.
End N.
