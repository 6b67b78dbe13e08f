(** Lemmas about the options table. *)
From Coq Require Import List Bool ZArith String Lia.
From Verif Require Import FloatBase FloatFacts OptModel OptSpec.
Import ListNotations.
Open Scope string_scope.

Lemma find_put_same n o t : find n t <> None -> find n (put n o t) = Some o.
Proof.
  induction t as [|[m p] t IH]; simpl; [congruence|].
  destruct (String.eqb_spec n m); simpl.
  - subst. rewrite String.eqb_refl. auto.
  - intro H. destruct (String.eqb_spec n m); [congruence|]. apply IH. auto.
Qed.
Lemma find_put_other n m o t : n <> m -> find n (put m o t) = find n t.
Proof.
  intro H. induction t as [|[k p] t IH]; simpl; auto.
  destruct (String.eqb_spec m k); simpl.
  - subst. destruct (String.eqb_spec n k); [congruence|]. auto.
  - destruct (String.eqb_spec n k); auto.
Qed.
Lemma put_id n o t : find n t = Some o -> put n o t = t.
Proof.
  induction t as [|[k p] t IH]; simpl; auto. destruct (String.eqb n k); intro H.
  - injection H as ->. auto.
  - rewrite IH; auto.
Qed.
Lemma put_put n o o' t : put n o (put n o' t) = put n o t.
Proof.
  induction t as [|[k p] t IH]; simpl; auto. destruct (String.eqb n k) eqn:E; simpl; rewrite E; auto. rewrite IH. auto.
Qed.
Lemma same_decl_refl v : same_decl v v.
Proof. destruct v; simpl; auto. Qed.
Lemma same_decl_trans a b c : same_decl a b -> same_decl b c -> same_decl a c.
Proof. destruct a, b, c; simpl; try tauto; try (intros [-> ->]; auto); intros ->; auto. Qed.
Lemma same_decl_sym a b : same_decl a b -> same_decl b a.
Proof. destruct a, b; simpl; try tauto; try (intros [-> ->]; auto); intros ->; auto. Qed.

Section Legal.
Variable skip : string -> bool.
Variable regs : table.
Notation legal := (legal skip regs).
Lemma legal_find t n r : legal t -> find n regs = Some r ->
  exists o, find n t = Some o /\ same_decl (o_val r) (o_val o) /\ (skip n = false -> in_range (o_val o)).
Proof.
  intro H. induction H as [|[a r'] [b o'] regs' t' (E & S & I) H IH]; simpl; [discriminate|].
  simpl in E. subst b. destruct (String.eqb_spec n a) as [->|Hn]; [|exact IH].
  intro E. injection E as ->. exists o'. auto.
Qed.
Lemma legal_find_rev t n o : legal t -> find n t = Some o ->
  exists r, find n regs = Some r /\ same_decl (o_val r) (o_val o) /\ (skip n = false -> in_range (o_val o)).
Proof.
  intro H. induction H as [|[a r'] [b o'] regs' t' (E & S & I) H IH]; simpl; [discriminate|].
  simpl in E. subst b. destruct (String.eqb_spec n a) as [->|Hn]; [|exact IH].
  intro E. injection E as ->. exists r'. auto.
Qed.
Lemma legal_put t n o o' : legal t -> find n t = Some o -> same_decl (o_val o) (o_val o') ->
  (skip n = false -> in_range (o_val o')) -> legal (put n o' t).
Proof.
  intro H. induction H as [|[a r'] [b p'] regs' t' (E & S & I) H IH]; simpl; [discriminate|].
  simpl in E. subst b. destruct (String.eqb_spec n a) as [->|Hn].
  - intro E. injection E as ->. intros D R. constructor; auto. simpl. split; auto. split; auto.
    eapply same_decl_trans; eauto.
  - intros E D R. constructor; [simpl; auto|]. apply IH; auto.
Qed.
Lemma legal_str t n d range : legal t -> skip n = false ->
  find n regs = Some (Opt (VStr d range) false false) -> match range with [] => False | _ => True end ->
  exists v f r, find n t = Some (Opt (VStr v range) f r) /\ In v range.
Proof.
  intros H HS HF HR. destruct (legal_find t n _ H HF) as ([[| |v range'] f r] & E & S & I); simpl in S; try contradiction.
  subst range'. exists v, f, r. split; auto. destruct (I HS) as [->|]; [contradiction|auto].
Qed.
Lemma legal_num t n d lb ub : legal t -> skip n = false ->
  find n regs = Some (Opt (VNum d lb ub) false false) ->
  exists v f r, find n t = Some (Opt (VNum v lb ub) f r) /\ fle lb v = true /\ fle v ub = true.
Proof.
  intros H HS HF. destruct (legal_find t n _ H HF) as ([[v l u| |] f r] & E & S & I); simpl in S; try contradiction.
  destruct S as [<- <-]. exists v, f, r. split; auto. apply (I HS).
Qed.

(** what a step may do to the table *)
Definition good (eps : value) (ms : string) (T : list string) (t t' : table) : Prop :=
  legal t' /\
  (forall n, ~ In n T -> find n t' = find n t) /\
  (forall n, is_user_defined n t' = is_user_defined n t) /\
  (forall n, option_map o_file (find n t') = option_map o_file (find n t)) /\
  (forall n, val n t' = val n t \/ exists v, val n t' = Some v /\ corrected eps ms n v).
Lemma good_refl eps ms T t : legal t -> good eps ms T t t.
Proof. intro H. split; auto. Qed.
Lemma good_put eps ms n o o' t : legal t -> find n t = Some o -> same_decl (o_val o) (o_val o') ->
  (skip n = false -> in_range (o_val o')) -> o_file o' = o_file o -> o_run o' = o_run o ->
  corrected eps ms n (value_of (o_val o')) -> good eps ms [n] t (put n o' t).
Proof.
  intros H HF HD HR F1 F2 HC.
  assert (NN : find n t <> None) by congruence.
  split; [eapply legal_put; eauto|]. split; [intros m Hm; apply find_put_other; intro; subst; apply Hm; left; auto|].
  assert (D : forall m, m = n \/ m <> n) by (intro m; destruct (String.eqb_spec m n); auto).
  split.
  { intro m. unfold is_user_defined. destruct (D m) as [->|Hm]; [rewrite find_put_same, HF by auto; congruence|].
    rewrite find_put_other; auto. }
  split.
  { intro m. destruct (D m) as [->|Hm]; [rewrite find_put_same, HF by auto; simpl; congruence|].
    rewrite find_put_other; auto. }
  intro m. unfold val. destruct (D m) as [->|Hm]; [|left; rewrite find_put_other; auto].
  right. exists (value_of (o_val o')). rewrite find_put_same by auto. auto.
Qed.
Lemma good_trans eps ms T1 T2 t1 t2 t3 : good eps ms T1 t1 t2 -> good eps ms T2 t2 t3 -> good eps ms (T1 ++ T2) t1 t3.
Proof.
  intros (A1 & A2 & A3 & A4 & A5) (B1 & B2 & B3 & B4 & B5). split; auto. split.
  { intros n Hn. rewrite B2, A2; auto; intro; apply Hn; apply in_or_app; auto. }
  split; [intro; rewrite B3; auto|]. split; [intro; rewrite B4; auto|].
  intro n. destruct (B5 n) as [E|E]; [|auto]. destruct (A5 n) as [E'|(v & E' & C)]; [left; congruence|].
  right. exists v. split; auto. congruence.
Qed.
Lemma good_weaken eps ms T T' t t' : good eps ms T t t' -> incl T T' -> good eps ms T' t t'.
Proof. intros (A1 & A2 & A3 & A4 & A5) HI. split; auto. split; auto. Qed.
End Legal.

Lemma gs_eq n v range f r t : find n t = Some (Opt (VStr v range) f r) -> get_str n t = Some v.
Proof. unfold get_str. intros ->. auto. Qed.
Lemma gn_eq n v lb ub f r t : find n t = Some (Opt (VNum v lb ub) f r) -> get_num n t = Some v.
Proof. unfold get_num. intros ->. auto. Qed.
Lemma gs_same n t t' : find n t' = find n t -> get_str n t' = get_str n t.
Proof. unfold get_str. intros ->. auto. Qed.
Lemma gn_same n t t' : find n t' = find n t -> get_num n t' = get_num n t.
Proof. unfold get_num. intros ->. auto. Qed.
Lemma set_str_ok n v range f r t w : find n t = Some (Opt (VStr v range) f r) -> lower w = w -> In w range ->
  set_val_str n w t = Some (put n (Opt (VStr w range) f r) t).
Proof.
  intros H L I. unfold set_val_str. rewrite H, L.
  replace (in_range_str w range) with true; auto. symmetry. unfold in_range_str. apply existsb_exists. exists w.
  rewrite String.eqb_refl. auto.
Qed.
Lemma fle_nan a b : fle a b = true -> is_nan a = false /\ is_nan b = false.
Proof. destruct a as [[]|[]| |[] ? ?], b as [[]|[]| |[] ? ?]; simpl; auto; discriminate. Qed.
Lemma fle_flt a b : fle a b = true -> flt b a = false.
Proof. intro H. destruct (fle_nan a b H). rewrite flt_not_fge by auto. unfold fge. fold (fle a b). rewrite H. auto. Qed.
Lemma flt_fle' a b : is_nan a = false -> is_nan b = false -> flt b a = false -> fle a b = true.
Proof. intros A B H. rewrite flt_not_fge in H by auto. unfold fge in H. fold (fle a b) in H. destruct (fle a b); auto. Qed.
Lemma set_num_ok n v lb ub f r t w : find n t = Some (Opt (VNum v lb ub) f r) -> fle lb w = true -> fle w ub = true ->
  set_val_num n w t = Some (put n (Opt (VNum w lb ub) f r) t).
Proof.
  intros H A B. unfold set_val_num. rewrite H. unfold fgt. fold (flt ub w). rewrite (fle_flt _ _ A), (fle_flt _ _ B). auto.
Qed.

Section Nlp.
Variable c : config.
Notation regs := (nlp_options c).
Notation legal := (legal (fun _ => false) regs).
Notation good := (good (fun _ => false) regs).
Ltac cases I := simpl in I; repeat (destruct I as [<-|I]); try contradiction.
Ltac str t H n v f r E J := destruct (legal_str _ regs t n _ _ H eq_refl eq_refl Logic.I) as (v & f & r & E & J).
Ltac num t H n v f r E A B := destruct (legal_num _ regs t n _ _ _ H eq_refl eq_refl) as (v & f & r & E & A & B).

(** tolerances: *)
Definition tols := ["acceptable_tolerance"; "dual_tol"; "cons_tol"; "comp_tol"].
Lemma raise_ok n t eps f0 r0 lb0 ub0 : legal t -> In n tols ->
  find "tolerance" t = Some (Opt (VNum eps lb0 ub0) f0 r0) ->
  exists t', raise_tol n eps t = Some t' /\ (forall ms, good (Num eps) ms [n] t t') /\
    (is_user_defined n t' = true -> exists v, get_num n t' = Some v /\ flt v eps = false).
Proof.
  intros H HI HT.
  num t H "tolerance" e f1 r1 E1 A1 B1. rewrite HT in E1. injection E1 as -> -> -> -> ->.
  assert (X : exists v f r lb ub, find n t = Some (Opt (VNum v lb ub) f r) /\ fle lb v = true /\ fle v ub = true /\
            fle lb e = true /\ fle e ub = true).
  { cases HI; (match goal with |- context [find ?n t] => num t H n v f r E A B end;
      do 5 eexists; (split; [exact E|]); (split; [exact A|]); (split; [exact B|]); split;
      first [eapply fle_trans; [|exact A1]; vm_compute; reflexivity | eapply fle_trans; [exact B1|]; vm_compute; reflexivity]). }
  destruct X as (v & f & r & lb & ub & E & A & B & A' & B').
  unfold raise_tol. rewrite (gn_eq _ _ _ _ _ _ _ E). cbn [bind].
  destruct (flt v e) eqn:F; cbn [andb].
  - destruct (is_user_defined n t) eqn:U.
    + rewrite (set_num_ok _ _ _ _ _ _ _ e E A' B'). eexists. split; [reflexivity|]. split.
      * intro ms. eapply good_put; eauto; simpl; auto. left. auto.
      * intros _. exists e. unfold get_num. rewrite find_put_same by congruence. split; auto.
        apply fle_flt. apply fle_refl. destruct (fle_nan _ _ A'); auto.
    + eexists. split; [reflexivity|]. split; [intro; apply good_refl; auto|]. congruence.
  - eexists. split; [reflexivity|]. split; [intro; apply good_refl; auto|]. intros _. exists v.
    rewrite (gn_eq _ _ _ _ _ _ _ E). auto.
Qed.

Ltac fin := simpl; repeat (first [left; reflexivity | right]).
Ltac stay := eexists; split; [reflexivity|]; split; [intros; apply good_refl; auto|].
Ltac chg E := rewrite (set_str_ok _ _ _ _ _ _ _ E) by (vm_compute; auto 12); eexists; split; [reflexivity|];
  split; [intros; eapply good_put; [eassumption|exact E|vm_compute; reflexivity|intros _; right; vm_compute; auto 12|reflexivity|reflexivity|right; fin]|].
Ltac gsput := unfold get_str; rewrite ?find_put_same by congruence; rewrite ?find_put_other by discriminate.

Definition rel_kkt t := get_str "Hessian" t = Some "quasinewton_approx" -> is_user_defined "Hessian" t = true ->
     get_str "KKTLinsys" t = Some "auto" \/ get_str "KKTLinsys" t = Some "condensed".
Lemma kkt_ok t : legal t -> exists t', fix_kkt t = Some t' /\ (forall eps ms, good eps ms ["KKTLinsys"] t t') /\ rel_kkt t'.
Proof.
  intro H. str t H "Hessian" h fh rh Eh Ih. str t H "KKTLinsys" k fk rk Ek Ik.
  unfold fix_kkt, rel_kkt. rewrite (gs_eq _ _ _ _ _ _ Eh), (gs_eq _ _ _ _ _ _ Ek). cbn [bind].
  destruct (is_user_defined "Hessian" t) eqn:U.
  - cases Ih; [|stay; rewrite (gs_eq _ _ _ _ _ _ Eh); discriminate]. cbn [String.eqb Ascii.eqb Bool.eqb].
    cases Ik; cbn -[set_val_str];
      try (stay; rewrite (gs_eq _ _ _ _ _ _ Ek); intros; auto; fail).
    all: chg Ek; intros; left; gsput; auto.
  - rewrite andb_false_r. assert (R : exists t', (if String.eqb h "quasinewton_approx" then Some t else Some t) = Some t' /\ t' = t)
      by (destruct (String.eqb h _); eauto).
    destruct R as (t' & -> & ->). stay. congruence.
Qed.
Lemma kkt_id t : legal t -> rel_kkt t -> fix_kkt t = Some t.
Proof.
  intros H R. str t H "Hessian" h fh rh Eh Ih. str t H "KKTLinsys" k fk rk Ek Ik.
  unfold fix_kkt, rel_kkt in *. rewrite (gs_eq _ _ _ _ _ _ Eh), (gs_eq _ _ _ _ _ _ Ek) in *. cbn [bind].
  destruct (String.eqb_spec h "quasinewton_approx"); auto. subst. destruct (is_user_defined "Hessian" t) eqn:U; [|rewrite andb_false_r; auto].
  destruct (R eq_refl eq_refl) as [Q|Q]; injection Q as ->; reflexivity.
Qed.

Ltac gs := rewrite ?(fun n v range f r t (E : find n t = Some (Opt (VStr v range) f r)) => gs_eq n v range f r t E).
Definition rel_duals t := get_str "Hessian" t = Some "analytical_exact" -> get_str "duals_update_type" t = Some "linear".
Lemma duals_ok t : legal t -> exists t', fix_duals t = Some t' /\ (forall eps ms, good eps ms ["duals_update_type"] t t') /\ rel_duals t'.
Proof.
  intro H. str t H "Hessian" h fh rh Eh Ih. str t H "duals_update_type" k fk rk Ek Ik.
  unfold fix_duals, rel_duals. rewrite (gs_eq _ _ _ _ _ _ Eh), (gs_eq _ _ _ _ _ _ Ek). cbn [bind].
  cases Ih; cbn [String.eqb Ascii.eqb Bool.eqb].
  - stay. rewrite (gs_eq _ _ _ _ _ _ Eh). discriminate.
  - cases Ik; cbn -[set_val_str].
    + chg Ek. intros _. gsput. auto.
    + stay. rewrite (gs_eq _ _ _ _ _ _ Ek). auto.
Qed.
Lemma duals_id t : legal t -> rel_duals t -> fix_duals t = Some t.
Proof.
  intros H R. str t H "Hessian" h fh rh Eh Ih. str t H "duals_update_type" k fk rk Ek Ik.
  unfold fix_duals, rel_duals in *. rewrite (gs_eq _ _ _ _ _ _ Eh), (gs_eq _ _ _ _ _ _ Ek) in *. cbn [bind].
  destruct (String.eqb_spec h "analytical_exact"); auto. subst. specialize (R eq_refl). injection R as ->. reflexivity.
Qed.

Definition rel_sparse t := exists sp, get_str "linear_solver_sparse" t = Some sp /\
    (get_str "KKTLinsys" t = Some "full" -> In sp ["resolve"; "pardiso"; "strumpack"; "auto"]) /\
    (get_str "KKTLinsys" t = Some "condensed" -> In sp ["cusolver-chol"; "auto"]) /\
    (cuda c = false -> sp <> "resolve" /\ sp <> "cusolver-chol") /\
    (ginkgo c = true -> cuda c = false -> sp = "ginkgo" -> get_str "ginkgo_exec" t <> Some "cuda") /\
    (ginkgo c = true -> hip c = false -> sp = "ginkgo" -> get_str "ginkgo_exec" t <> Some "hip").
Lemma solver_ok t kkt fk rk sp fs rs : legal t ->
  find "KKTLinsys" t = Some (Opt (VStr kkt ["auto"; "xycyd"; "xdycyd"; "full"; "condensed"; "normaleqn"]) fk rk) ->
  find "linear_solver_sparse" t = Some (Opt (VStr sp ["auto"; "ma57"; "pardiso"; "strumpack"; "resolve"; "ginkgo"; "cusolver-chol"]) fs rs) ->
  In sp ["auto"; "ma57"; "pardiso"; "strumpack"; "resolve"; "ginkgo"; "cusolver-chol"] ->
  exists t' sp', bind (fix_solver kkt sp t) (fun t => fix_solver_cuda c sp t) = Some t' /\
    (forall eps ms, good eps ms ["linear_solver_sparse"] t t') /\
    get_str "linear_solver_sparse" t' = Some sp' /\ (sp' = "auto" \/ sp' = sp) /\
    (kkt = "full" -> In sp' ["resolve"; "pardiso"; "strumpack"; "auto"]) /\
    (kkt = "condensed" -> In sp' ["cusolver-chol"; "auto"]) /\
    (cuda c = false -> sp' <> "resolve" /\ sp' <> "cusolver-chol").
Proof.
  intros H Ek Es Is.
  assert (A : exists t1 sp1, fix_solver kkt sp t = Some t1 /\ (forall eps ms, good eps ms ["linear_solver_sparse"] t t1) /\
     find "linear_solver_sparse" t1 = Some (Opt (VStr sp1 ["auto"; "ma57"; "pardiso"; "strumpack"; "resolve"; "ginkgo"; "cusolver-chol"]) fs rs) /\
     (sp1 = "auto" \/ sp1 = sp) /\
    (kkt = "full" -> In sp1 ["resolve"; "pardiso"; "strumpack"; "auto"]) /\
    (kkt = "condensed" -> In sp1 ["cusolver-chol"; "auto"])).
  { assert (S : set_val_str "linear_solver_sparse" "auto" t = Some (put "linear_solver_sparse" (Opt (VStr "auto" ["auto"; "ma57"; "pardiso"; "strumpack"; "resolve"; "ginkgo"; "cusolver-chol"]) fs rs) t))
      by (apply (set_str_ok _ _ _ _ _ _ _ Es); vm_compute; auto).
    assert (P : exists t1 sp1, set_val_str "linear_solver_sparse" "auto" t = Some t1 /\ (forall eps ms, good eps ms ["linear_solver_sparse"] t t1) /\
     find "linear_solver_sparse" t1 = Some (Opt (VStr sp1 ["auto"; "ma57"; "pardiso"; "strumpack"; "resolve"; "ginkgo"; "cusolver-chol"]) fs rs) /\ sp1 = "auto").
    { rewrite S. do 2 eexists. split; [reflexivity|]. split.
      - intros. eapply good_put; [eassumption|exact Es|vm_compute; reflexivity|intros _; right; vm_compute; auto 12|reflexivity|reflexivity|right; fin].
      - rewrite find_put_same by congruence. auto. }
    clear S. unfold fix_solver.
    destruct (String.eqb_spec kkt "full") as [->|N1].
    - destruct (oneof sp ["resolve"; "pardiso"; "strumpack"; "auto"]) eqn:O; cbn [negb].
      + exists t, sp. split; auto. split; [intros; apply good_refl; auto|]. split; auto. split; auto. split; [|discriminate].
        intros _. unfold oneof in O. apply existsb_exists in O. destruct O as (y & Y1 & Y2). apply String.eqb_eq in Y2. subst. auto.
      + destruct P as (t1 & sp1 & P1 & P2 & P3 & ->). exists t1, "auto". split; auto. split; auto. split; auto. split; auto.
        split; [simpl; auto|discriminate].
    - destruct (String.eqb_spec kkt "condensed") as [->|N2].
      + destruct (oneof sp ["cusolver-chol"; "auto"]) eqn:O; cbn [negb].
        * exists t, sp. split; auto. split; [intros; apply good_refl; auto|]. split; auto. split; auto. split; [discriminate|].
          intros _. unfold oneof in O. apply existsb_exists in O. destruct O as (y & Y1 & Y2). apply String.eqb_eq in Y2. subst. auto.
        * destruct P as (t1 & sp1 & P1 & P2 & P3 & ->). exists t1, "auto". split; auto. split; auto. split; auto. split; auto.
          split; [discriminate|simpl; auto].
      + exists t, sp. split; auto. split; [intros; apply good_refl; auto|]. split; auto. split; auto. split; congruence. }
  destruct A as (t1 & sp1 & -> & G1 & E1 & D1 & F1 & F2). cbn [bind]. unfold fix_solver_cuda.
  assert (L1 : legal t1) by (apply (G1 (Str "") "")).
  destruct (cuda c) eqn:CU; cbn [negb andb].
  { exists t1, sp1. split; auto. split; auto. rewrite (gs_eq _ _ _ _ _ _ E1). split; auto. split; auto. split; auto. split; auto. discriminate. }
  destruct (oneof sp ["resolve"; "cusolver-chol"]) eqn:O.
  - rewrite (set_str_ok _ _ _ _ _ _ "auto" E1) by (vm_compute; auto). do 2 eexists. split; [reflexivity|]. split.
    + intros eps ms. apply (good_weaken _ _ _ _ (["linear_solver_sparse"] ++ ["linear_solver_sparse"])); [|intros x; simpl; tauto].
      eapply good_trans; [apply G1|]. eapply good_put; [eassumption|exact E1|vm_compute; reflexivity|intros _; right; vm_compute; auto 12|reflexivity|reflexivity|right; fin].
    + unfold get_str. rewrite find_put_same by congruence. split; [reflexivity|]. split; auto.
      split; [simpl; auto|]. split; [simpl; auto|]. intros _. split; discriminate.
  - exists t1, sp1. split; auto. split; auto. rewrite (gs_eq _ _ _ _ _ _ E1). split; auto. split; auto. split; auto. split; auto.
    intros _. destruct D1 as [->| ->]; [split; discriminate|]. split; intros ->; vm_compute in O; discriminate.
Qed.
Lemma sparse_ok t : legal t -> exists t', fix_sparse c t = Some t' /\
  (forall eps ms, good eps ms ["linear_solver_sparse"; "ginkgo_exec"] t t') /\ rel_sparse t'.
Proof.
  intro H. str t H "KKTLinsys" k fk rk Ek Ik. str t H "linear_solver_sparse" sp fs rs Es Is.
  destruct (solver_ok t k fk rk sp fs rs H Ek Es Is) as (t2 & sp' & P & G & S & D & F1 & F2 & F3).
  unfold fix_sparse. rewrite (gs_eq _ _ _ _ _ _ Ek), (gs_eq _ _ _ _ _ _ Es). cbn [bind].
  destruct (fix_solver k sp t) as [t1|]; [|discriminate]. cbn [bind] in P |- *. rewrite P. cbn [bind].
  assert (L2 : legal t2) by (apply (G (Str "") "")).
  assert (K2 : get_str "KKTLinsys" t2 = Some k).
  { rewrite <- (gs_eq _ _ _ _ _ _ Ek). apply gs_same. apply (G (Str "") ""). simpl. intuition discriminate. }
  assert (X : exists t', fix_ginkgo c sp t2 = Some t' /\ (forall eps ms, good eps ms ["ginkgo_exec"] t2 t') /\
     (ginkgo c = true -> cuda c = false -> sp = "ginkgo" -> get_str "ginkgo_exec" t' <> Some "cuda") /\
     (ginkgo c = true -> hip c = false -> sp = "ginkgo" -> get_str "ginkgo_exec" t' <> Some "hip")).
  { unfold fix_ginkgo. destruct (ginkgo c); [|stay; split; discriminate].
    str t2 L2 "ginkgo_exec" gx fe re Ee Ie. rewrite (gs_eq _ _ _ _ _ _ Ee). cbn [bind].
    destruct (String.eqb_spec sp "ginkgo") as [Q|Q]; [|rewrite !andb_false_r; cbn [andb bind]; stay; split; congruence].
    rewrite !andb_true_r.
    cases Ie; destruct (cuda c), (hip c); cbn -[set_val_str];
      first [ stay; rewrite (gs_eq _ _ _ _ _ _ Ee); split; congruence
            | chg Ee; gsput; split; congruence
            | rewrite (set_str_ok _ _ _ _ _ _ "reference" Ee) by (vm_compute; auto 12); cbn [bind];
              eexists; split; [reflexivity|]; split;
              [intros; eapply good_put; [eassumption|exact Ee|vm_compute; reflexivity|intros _; right; vm_compute; auto 12|reflexivity|reflexivity|right; fin]
              |gsput; split; congruence] ]. }
  destruct X as (t' & -> & G' & R1 & R2). exists t'. split; auto. split.
  { intros eps ms. eapply good_weaken; [eapply good_trans; [apply G|apply G']|]. simpl. intros x; simpl; tauto. }
  assert (SS : forall n, n <> "ginkgo_exec" -> get_str n t' = get_str n t2).
  { intros n Hn. apply gs_same. apply (G' (Str "") ""). simpl. intuition congruence. }
  exists sp'. rewrite !SS by discriminate. rewrite S, K2. split; auto. split; [intro Q; injection Q as ->; auto|].
  split; [intro Q; injection Q as ->; auto|]. split; auto.
  split; intros A B Q; [apply R1|apply R2]; auto; destruct D; congruence.
Qed.
Lemma sparse_id t : legal t -> rel_sparse t -> fix_sparse c t = Some t.
Proof.
  intros H (sp & S & F1 & F2 & F3 & F4 & F5). str t H "KKTLinsys" k fk rk Ek Ik. str t H "ginkgo_exec" gx fe re Ee Ie.
  unfold fix_sparse. rewrite (gs_eq _ _ _ _ _ _ Ek) in *. rewrite S. cbn [bind].
  assert (O : forall s l, In s l -> oneof s l = true).
  { intros s l I. unfold oneof. apply existsb_exists. exists s. rewrite String.eqb_refl. auto. }
  unfold fix_solver.
  replace (if String.eqb k "full" then _ else _) with (Some t).
  2:{ destruct (String.eqb_spec k "full") as [->|N1].
      - rewrite O; auto.
      - destruct (String.eqb_spec k "condensed") as [->|N2]; auto. rewrite O; auto. }
  cbn [bind]. unfold fix_solver_cuda.
  replace (negb (cuda c) && oneof sp ["resolve"; "cusolver-chol"]) with false.
  2:{ destruct (cuda c); auto. destruct (F3 eq_refl) as [A B]. simpl.
      destruct (String.eqb_spec sp "resolve"); [contradiction|]. destruct (String.eqb_spec sp "cusolver-chol"); [contradiction|]. auto. }
  cbn [bind]. unfold fix_ginkgo. destruct (ginkgo c); auto. rewrite (gs_eq _ _ _ _ _ _ Ee) in *. cbn [bind].
  destruct (String.eqb_spec sp "ginkgo") as [->|]; [|rewrite !andb_false_r; auto].
  destruct (String.eqb_spec gx "cuda") as [->|].
  - destruct (cuda c); [|destruct (F4 eq_refl eq_refl eq_refl); auto]. simpl. rewrite !andb_false_r. auto.
  - rewrite !andb_false_r. cbn [bind]. destruct (String.eqb_spec gx "hip") as [->|]; [|rewrite !andb_false_r; auto].
    destruct (hip c); [auto|destruct (F5 eq_refl eq_refl eq_refl); auto].
Qed.

Definition rel_ordering t := cuda c = true -> eigen c = false -> get_str "linear_solver_sparse_ordering" t <> Some "symamd-eigen".
Lemma ordering_ok t : legal t -> exists t', fix_ordering c t = Some t' /\
  (forall eps ms, good eps ms ["linear_solver_sparse_ordering"] t t') /\ rel_ordering t'.
Proof.
  intro H. str t H "linear_solver_sparse_ordering" k fk rk Ek Ik. unfold fix_ordering, rel_ordering.
  destruct (cuda c); [|stay; discriminate]. destruct (eigen c); [stay; discriminate|]. cbn [andb negb].
  rewrite (gs_eq _ _ _ _ _ _ Ek). cbn [bind]. destruct (String.eqb_spec k "symamd-eigen") as [->|N].
  - chg Ek. intros. gsput. discriminate.
  - stay. rewrite (gs_eq _ _ _ _ _ _ Ek). congruence.
Qed.
Lemma ordering_id t : legal t -> rel_ordering t -> fix_ordering c t = Some t.
Proof.
  intros H R. str t H "linear_solver_sparse_ordering" k fk rk Ek Ik. unfold fix_ordering, rel_ordering in *.
  destruct (cuda c); auto. destruct (eigen c); auto. cbn [andb negb]. rewrite (gs_eq _ _ _ _ _ _ Ek) in *. cbn [bind].
  destruct (String.eqb_spec k "symamd-eigen") as [->|N]; auto. destruct R; auto.
Qed.

Lemma mem_opt t n : n = "mem_space" \/ n = "callback_mem_space" -> legal t ->
  exists v f r, find n t = Some (Opt (VStr v (mem_range c)) f r) /\ In v (mem_range c).
Proof.
  intros [->| ->] H.
  - apply (legal_str _ regs t "mem_space" "default" (mem_range c) H eq_refl eq_refl). unfold mem_range; destruct (raja c); exact Logic.I.
  - apply (legal_str _ regs t "callback_mem_space" "default" (mem_range c) H eq_refl eq_refl). unfold mem_range; destruct (raja c); exact Logic.I.
Qed.
Definition rel_raja t := raja c = false -> get_str "compute_mode" t <> Some "gpu" /\ get_str "mem_space" t = Some "default".
Lemma raja_ok t : legal t -> exists t', fix_raja c t = Some t' /\
  (forall eps ms, good eps ms ["compute_mode"; "mem_space"] t t') /\ rel_raja t'.
Proof.
  intro H. str t H "compute_mode" k fk rk Ek Ik. destruct (mem_opt t "mem_space" (or_introl eq_refl) H) as (m & fm & rm & Em & Im).
  unfold fix_raja, rel_raja. destruct (raja c) eqn:RJ; [stay; discriminate|].
  unfold mem_range in Em, Im. rewrite RJ in Em, Im. destruct Im as [<-|[]].
  rewrite (gs_eq _ _ _ _ _ _ Ek). cbn [bind]. destruct (String.eqb_spec k "gpu") as [->|N].
  - rewrite (set_str_ok _ _ _ _ _ _ "hybrid" Ek) by (vm_compute; auto 12). cbn [bind].
    unfold get_str at 1. rewrite find_put_other, Em by discriminate. cbn -[put find].
    eexists. split; [reflexivity|]. split.
    + intros. eapply good_weaken; [eapply good_put; [eassumption|exact Ek|vm_compute; reflexivity|intros _; right; vm_compute; auto 12|reflexivity|reflexivity|right; fin]|].
      intros x; simpl; tauto.
    + intros _. gsput. rewrite Em. split; [discriminate|auto].
  - cbn [bind]. rewrite (gs_eq _ _ _ _ _ _ Em). cbn [bind]. cbn. stay. intros _.
    rewrite (gs_eq _ _ _ _ _ _ Ek), (gs_eq _ _ _ _ _ _ Em). split; congruence.
Qed.
Lemma raja_id t : legal t -> rel_raja t -> fix_raja c t = Some t.
Proof.
  intros H R. str t H "compute_mode" k fk rk Ek Ik. unfold fix_raja, rel_raja in *. destruct (raja c); auto.
  destruct (R eq_refl) as [A B]. rewrite (gs_eq _ _ _ _ _ _ Ek) in *. cbn [bind].
  destruct (String.eqb_spec k "gpu"); [congruence|]. cbn [bind]. rewrite B. cbn [bind]. auto.
Qed.

Definition rel_callback t := exists m cb, get_str "mem_space" t = Some m /\ get_str "callback_mem_space" t = Some cb /\
    (is_user_defined "callback_mem_space" t = true -> m <> "device" -> cb = m) /\
    (cb = "um" -> m <> "device") /\ (cb = "default" -> m = "default").
Lemma callback_ok t m : legal t -> get_str "mem_space" t = Some m -> exists t', fix_callback t = Some t' /\
  (forall eps, good eps m ["callback_mem_space"] t t') /\ rel_callback t'.
Proof.
  intros H Hm. destruct (mem_opt t "mem_space" (or_introl eq_refl) H) as (m' & fm & rm & Em & Im).
  destruct (mem_opt t "callback_mem_space" (or_intror eq_refl) H) as (cb & fc & rc & Ec & Ic).
  rewrite (gs_eq _ _ _ _ _ _ Em) in Hm. injection Hm as ->.
  unfold fix_callback. rewrite (gs_eq _ _ _ _ _ _ Em), (gs_eq _ _ _ _ _ _ Ec). cbn [bind].
  assert (LM : lower m = m).
  { unfold mem_range in Im. destruct (raja c); simpl in Im; repeat (destruct Im as [<-|Im]); try reflexivity; contradiction. }
  assert (P : exists t', set_val_str "callback_mem_space" m t = Some t' /\ (forall eps, good eps m ["callback_mem_space"] t t') /\ rel_callback t').
  { rewrite (set_str_ok _ _ _ _ _ _ m Ec LM Im). eexists. split; [reflexivity|]. split.
    - intros. eapply good_put; [eassumption|exact Ec|reflexivity|intros _; right; exact Im|reflexivity|reflexivity|right; fin].
    - exists m, m. gsput. rewrite Em. repeat split; auto. intros ->. discriminate. }
  destruct (String.eqb_spec m cb) as [->|N]; cbn [negb].
  - stay. exists cb, cb. rewrite (gs_eq _ _ _ _ _ _ Em), (gs_eq _ _ _ _ _ _ Ec). repeat split; auto. intros ->. discriminate.
  - destruct (is_user_defined "callback_mem_space" t && negb (String.eqb m "device") || String.eqb cb "um" && String.eqb m "device") eqn:B; auto.
    apply orb_false_iff in B. destruct B as [B1 B2].
    destruct (String.eqb_spec cb "default") as [->|N2]; auto.
    stay. exists m, cb. rewrite (gs_eq _ _ _ _ _ _ Em), (gs_eq _ _ _ _ _ _ Ec). split; auto. split; auto. split.
    { intros U D. rewrite U in B1. destruct (String.eqb_spec m "device"); [contradiction|discriminate]. }
    split; [|contradiction]. intros -> ->. discriminate.
Qed.
Lemma callback_id t : legal t -> rel_callback t -> fix_callback t = Some t.
Proof.
  intros H (m & cb & Hm & Hc & R1 & R2 & R3). unfold fix_callback. rewrite Hm, Hc. cbn [bind].
  destruct (String.eqb_spec m cb) as [->|N]; auto. cbn [negb].
  destruct (is_user_defined "callback_mem_space" t) eqn:U; cbn [andb].
  - destruct (String.eqb_spec m "device") as [->|ND]; cbn [negb orb andb]; [|destruct N; symmetry; auto].
    rewrite andb_true_r. destruct (String.eqb_spec cb "um") as [->|]; [destruct R2; auto|].
    destruct (String.eqb_spec cb "default") as [->|]; auto. discriminate (R3 eq_refl).
  - cbn [orb]. destruct (String.eqb_spec cb "um") as [->|]; cbn [andb].
    + destruct (String.eqb_spec m "device") as [->|]; [destruct R2; auto|]. auto.
    + destruct (String.eqb_spec cb "default") as [->|]; auto. destruct N. auto.
Qed.

Definition rel_gpu t := gpu c = false -> get_str "compute_mode" t = Some "cpu".
Lemma gpu_ok t : legal t -> exists t', fix_gpu c t = Some t' /\
  (forall eps ms, good eps ms ["compute_mode"] t t') /\ rel_gpu t' /\
  (get_str "compute_mode" t' = get_str "compute_mode" t \/ get_str "compute_mode" t' = Some "cpu").
Proof.
  intro H. str t H "compute_mode" k fk rk Ek Ik. unfold fix_gpu, rel_gpu. destruct (gpu c); [stay; split; [discriminate|auto]|].
  rewrite (gs_eq _ _ _ _ _ _ Ek). cbn [bind].
  assert (P : set_val_str "compute_mode" "cpu" t = Some (put "compute_mode" (Opt (VStr "cpu" ["auto"; "cpu"; "hybrid"; "gpu"]) fk rk) t))
    by (apply (set_str_ok _ _ _ _ _ _ "cpu" Ek); vm_compute; auto).
  assert (Q : get_str "compute_mode" (put "compute_mode" (Opt (VStr "cpu" ["auto"; "cpu"; "hybrid"; "gpu"]) fk rk) t) = Some "cpu")
    by (gsput; auto).
  assert (G : forall eps ms, good eps ms ["compute_mode"] t (put "compute_mode" (Opt (VStr "cpu" ["auto"; "cpu"; "hybrid"; "gpu"]) fk rk) t)).
  { intros. eapply good_put; [eassumption|exact Ek|vm_compute; reflexivity|intros _; right; vm_compute; auto 12|reflexivity|reflexivity|right; fin]. }
  cases Ik; cbn [String.eqb Ascii.eqb Bool.eqb bind]; repeat (rewrite ?P, ?Q, ?(gs_eq _ _ _ _ _ _ Ek); cbn [String.eqb Ascii.eqb Bool.eqb bind]);
    (eexists; split; [reflexivity|]; split; [first [exact G|intros; apply good_refl; auto]|]; rewrite ?Q, ?(gs_eq _ _ _ _ _ _ Ek); auto).
Qed.
Lemma gpu_id t : legal t -> rel_gpu t -> fix_gpu c t = Some t.
Proof.
  intros H R. unfold fix_gpu, rel_gpu in *. destruct (gpu c); auto. specialize (R eq_refl). rewrite R.
  cbn [bind String.eqb Ascii.eqb Bool.eqb]. rewrite R. cbn [bind String.eqb Ascii.eqb Bool.eqb]. rewrite R. auto.
Qed.

Definition rel_fixed t := get_str "compute_mode" t = Some "gpu" -> get_str "fixed_var" t <> Some "remove".
Lemma fixed_ok t : legal t -> exists t', fix_fixed t = Some t' /\
  (forall eps ms, good eps ms ["fixed_var"] t t') /\ rel_fixed t'.
Proof.
  intro H. str t H "compute_mode" k fk rk Ek Ik. str t H "fixed_var" v fv rv Ev Iv. unfold fix_fixed, rel_fixed.
  rewrite (gs_eq _ _ _ _ _ _ Ek), (gs_eq _ _ _ _ _ _ Ev). cbn [bind].
  destruct (String.eqb_spec k "gpu") as [->|]; [|stay; rewrite (gs_eq _ _ _ _ _ _ Ek); congruence].
  destruct (String.eqb_spec v "remove") as [->|].
  - chg Ev. intros. gsput. discriminate.
  - stay. rewrite (gs_eq _ _ _ _ _ _ Ev). congruence.
Qed.
Lemma fixed_id t : legal t -> rel_fixed t -> fix_fixed t = Some t.
Proof.
  intros H R. str t H "compute_mode" k fk rk Ek Ik. str t H "fixed_var" v fv rv Ev Iv. unfold fix_fixed, rel_fixed in *.
  rewrite (gs_eq _ _ _ _ _ _ Ek), (gs_eq _ _ _ _ _ _ Ev) in *. cbn [bind].
  destruct (String.eqb_spec k "gpu") as [->|]; auto. destruct (String.eqb_spec v "remove") as [->|]; auto. destruct R; auto.
Qed.

Definition rel_acceptor t := exists sp, get_str "linear_solver_sparse" t = Some sp /\
  (get_str "KKTLinsys" t = Some "full" \/ In sp ["strumpack"; "resolve"] -> get_str "fact_acceptor" t = Some "inertia_free").
Lemma acceptor_ok t : legal t -> exists t', fix_acceptor t = Some t' /\
  (forall eps ms, good eps ms ["fact_acceptor"] t t') /\ rel_acceptor t'.
Proof.
  intro H. str t H "KKTLinsys" k fk rk Ek Ik. str t H "linear_solver_sparse" s fs rs Es Is. str t H "fact_acceptor" a fa ra Ea Ia.
  unfold fix_acceptor, rel_acceptor.
  rewrite (gs_eq _ _ _ _ _ _ Ek), (gs_eq _ _ _ _ _ _ Es), (gs_eq _ _ _ _ _ _ Ea). cbn [bind].
  destruct (String.eqb k "full" || oneof s ["strumpack"; "resolve"]) eqn:B.
  - cases Ia; cbn [String.eqb Ascii.eqb Bool.eqb].
    + chg Ea. exists s. gsput. rewrite Es. auto.
    + stay. exists s. rewrite (gs_eq _ _ _ _ _ _ Es), (gs_eq _ _ _ _ _ _ Ea). auto.
  - stay. exists s. rewrite (gs_eq _ _ _ _ _ _ Es), (gs_eq _ _ _ _ _ _ Ek). split; auto.
    apply orb_false_iff in B. destruct B as [B1 B2]. intros [Q|Q].
    + injection Q as ->. discriminate.
    + destruct Q as [<-|[<-|[]]]; discriminate.
Qed.
Lemma acceptor_id t : legal t -> rel_acceptor t -> fix_acceptor t = Some t.
Proof.
  intros H (s & S & R). str t H "KKTLinsys" k fk rk Ek Ik. unfold fix_acceptor.
  rewrite (gs_eq _ _ _ _ _ _ Ek) in *. rewrite S. cbn [bind].
  destruct (String.eqb_spec k "full") as [->|]; cbn [orb].
  - rewrite R; auto.
  - unfold oneof. simpl. destruct (String.eqb_spec s "strumpack") as [->|]; cbn [orb]; [rewrite R; simpl; auto|].
    destruct (String.eqb_spec s "resolve") as [->|]; cbn [orb]; [rewrite R; simpl; auto|]. auto.
Qed.

Definition rel_moving t := exists r a, get_num "moving_lim_rel" t = Some r /\ get_num "moving_lim_abs" t = Some a /\ feq f_zero (fmul r a) = true.
Lemma zero_mul a ub : fle f_zero a = true -> fle a (L ub 0) = true -> feq f_zero (fmul f_zero a) = true.
Proof. destruct a as [[]|[]| |[] m e]; vm_compute; intros; congruence. Qed.
Lemma moving_ok t : legal t -> exists t', fix_moving t = Some t' /\
  (forall eps ms, good eps ms ["moving_lim_rel"] t t') /\ rel_moving t'.
Proof.
  intro H. num t H "moving_lim_rel" r fr rr Er Ar Br. num t H "moving_lim_abs" a fa ra Ea Aa Ba.
  unfold fix_moving, rel_moving. rewrite (gn_eq _ _ _ _ _ _ _ Er), (gn_eq _ _ _ _ _ _ _ Ea). cbn [bind].
  destruct (feq f_zero (fmul r a)) eqn:F; cbn [negb].
  - stay. exists r, a. rewrite (gn_eq _ _ _ _ _ _ _ Er), (gn_eq _ _ _ _ _ _ _ Ea). auto.
  - rewrite (set_num_ok _ _ _ _ _ _ _ f_zero Er) by (vm_compute; reflexivity). eexists. split; [reflexivity|]. split.
    + intros. eapply good_put; [eassumption|exact Er|split; reflexivity|intros _; split; vm_compute; reflexivity|reflexivity|reflexivity|right; fin].
    + exists f_zero, a. unfold get_num. rewrite find_put_same by congruence. rewrite find_put_other by discriminate. rewrite Ea.
      split; auto. split; auto. eapply (zero_mul a (10 ^ 9)%positive); eauto. eapply fle_trans; [exact Ba|]. vm_compute. reflexivity.
Qed.
Lemma moving_id t : rel_moving t -> fix_moving t = Some t.
Proof. intros (r & a & A & B & F). unfold fix_moving. rewrite A, B. cbn [bind]. rewrite F. auto. Qed.
End Nlp.
