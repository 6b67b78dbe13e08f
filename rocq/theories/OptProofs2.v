(** The consistency pass as a whole. *)
From Coq Require Import List Bool ZArith String Ascii Lia.
From Verif Require Import FloatBase FloatFacts OptModel OptSpec OptProofs.
Import ListNotations.
Open Scope string_scope.

Section Nlp.
Variable c : config.
Notation regs := (nlp_options c).
Notation legal := (legal (fun _ => false) regs).
Notation good := (good (fun _ => false) regs).

(** relations depend on the entries they read *)
Definition same (l : list string) (t t' : table) : Prop := forall n, In n l -> find n t' = find n t.
Lemma same_gs l t t' n : same l t t' -> In n l -> get_str n t' = get_str n t.
Proof. intros S I. apply gs_same. auto. Qed.
Lemma same_gn l t t' n : same l t t' -> In n l -> get_num n t' = get_num n t.
Proof. intros S I. apply gn_same. auto. Qed.
Lemma same_ud l t t' n : same l t t' -> In n l -> is_user_defined n t' = is_user_defined n t.
Proof. intros S I. unfold is_user_defined. rewrite (S n I). auto. Qed.
Ltac inl := simpl; auto 8.
Ltac ext S := rewrite ?(same_gs _ _ _ "Hessian" S), ?(same_gs _ _ _ "KKTLinsys" S), ?(same_gs _ _ _ "duals_update_type" S),
  ?(same_gs _ _ _ "linear_solver_sparse" S), ?(same_gs _ _ _ "ginkgo_exec" S), ?(same_gs _ _ _ "linear_solver_sparse_ordering" S),
  ?(same_gs _ _ _ "compute_mode" S), ?(same_gs _ _ _ "mem_space" S), ?(same_gs _ _ _ "callback_mem_space" S),
  ?(same_gs _ _ _ "fixed_var" S), ?(same_gs _ _ _ "fact_acceptor" S), ?(same_gn _ _ _ "moving_lim_rel" S),
  ?(same_gn _ _ _ "moving_lim_abs" S), ?(same_ud _ _ _ "Hessian" S), ?(same_ud _ _ _ "callback_mem_space" S) by inl; auto.
Lemma ext_kkt t t' : same ["Hessian"; "KKTLinsys"] t t' -> rel_kkt t -> rel_kkt t'.
Proof. intros S. unfold rel_kkt. ext S. Qed.
Lemma ext_duals t t' : same ["Hessian"; "duals_update_type"] t t' -> rel_duals t -> rel_duals t'.
Proof. intros S. unfold rel_duals. ext S. Qed.
Lemma ext_sparse t t' : same ["linear_solver_sparse"; "KKTLinsys"; "ginkgo_exec"] t t' -> rel_sparse c t -> rel_sparse c t'.
Proof. intros S. unfold rel_sparse. ext S. Qed.
Lemma ext_ordering t t' : same ["linear_solver_sparse_ordering"] t t' -> rel_ordering c t -> rel_ordering c t'.
Proof. intros S. unfold rel_ordering. ext S. Qed.
Lemma ext_callback t t' : same ["mem_space"; "callback_mem_space"] t t' -> rel_callback t -> rel_callback t'.
Proof. intros S. unfold rel_callback. ext S. Qed.
Lemma ext_gpu t t' : same ["compute_mode"] t t' -> rel_gpu c t -> rel_gpu c t'.
Proof. intros S. unfold rel_gpu. ext S. Qed.
Lemma ext_fixed t t' : same ["compute_mode"; "fixed_var"] t t' -> rel_fixed t -> rel_fixed t'.
Proof. intros S. unfold rel_fixed. ext S. Qed.
Lemma ext_acceptor t t' : same ["KKTLinsys"; "linear_solver_sparse"; "fact_acceptor"] t t' -> rel_acceptor t -> rel_acceptor t'.
Proof. intros S. unfold rel_acceptor. ext S. Qed.
Lemma ext_moving t t' : same ["moving_lim_rel"; "moving_lim_abs"] t t' -> rel_moving t -> rel_moving t'.
Proof. intros S. unfold rel_moving. ext S. Qed.

(** the last step only clears flags *)
Definition cleared (t t' : table) : Prop :=
  legal t' /\ (forall n, val n t' = val n t) /\ (forall n, ~ In n chkpnt_opts -> find n t' = find n t) /\
  (axom c = true -> t' = t).
Lemma clear_ok n t : legal t -> legal (clear_flags n t) /\ (forall m, val m (clear_flags n t) = val m t) /\
  (forall m, m <> n -> find m (clear_flags n t) = find m t) /\ is_user_defined n (clear_flags n t) = false /\
  (forall m, is_user_defined m t = false -> is_user_defined m (clear_flags n t) = false).
Proof.
  intro H. unfold clear_flags. destruct (find n t) as [o|] eqn:E.
  - assert (NN : find n t <> None) by congruence.
    destruct (legal_find_rev _ regs t n o H E) as (o0 & E0 & D & R).
    assert (Dm : forall m, m = n \/ m <> n) by (intro m; destruct (String.eqb_spec m n); auto).
    split; [eapply legal_put; [exact H|exact E|apply same_decl_refl|exact R]|]. split.
    { intro m. unfold val. destruct (Dm m) as [->|Hm]; [rewrite find_put_same, E by auto; reflexivity|].
      rewrite find_put_other; auto. }
    split; [intros; apply find_put_other; auto|]. split; [unfold is_user_defined; rewrite find_put_same by auto; auto|].
    intros m. unfold is_user_defined. destruct (Dm m) as [->|Hm]; [rewrite find_put_same by auto; auto|].
    rewrite find_put_other; auto.
  - repeat split; auto. unfold is_user_defined. rewrite E. auto.
Qed.
Lemma clear_list l t : legal t -> let t' := fold_left (fun t n => clear_flags n t) l t in
  legal t' /\ (forall m, val m t' = val m t) /\ (forall m, ~ In m l -> find m t' = find m t) /\
  (forall m, In m l \/ is_user_defined m t = false -> is_user_defined m t' = false).
Proof.
  revert t. induction l as [|n l IH]; intros t H; cbn [fold_left].
  - repeat split; auto. intros m [[]|]; auto.
  - destruct (clear_ok n t H) as (A & B & C & D & E). destruct (IH _ A) as (A' & B' & C' & D').
    split; auto. split; [intro; rewrite B'; auto|]. split.
    + intros m Hm. rewrite C', C; auto; intro; apply Hm; simpl; auto.
    + intros m [[->|I]|I]; apply D'; auto.
Qed.
Definition rel_axom t := axom c = false -> forall n, In n chkpnt_opts -> is_user_defined n t = false.
Lemma axom_ok t : legal t -> exists t', fix_axom c t = Some t' /\ cleared t t' /\ rel_axom t'.
Proof.
  intro H. unfold fix_axom, rel_axom. destruct (axom c) eqn:X.
  { exists t. split; auto. split; [split; auto; repeat split; auto|discriminate]. }
  destruct (clear_list chkpnt_opts t H) as (A & B & C & D).
  destruct (existsb (fun n => is_user_defined n t) chkpnt_opts) eqn:E.
  - eexists. split; [reflexivity|]. split; [split; auto; split; auto; split; [auto|congruence]|]. intros _ n I. apply D. auto.
  - exists t. split; auto. split; [split; auto; repeat split; auto|]. intros _ n I.
    destruct (is_user_defined n t) eqn:U; auto. rewrite <- E. symmetry. apply existsb_exists. exists n. auto.
Qed.
Lemma axom_id t : rel_axom t -> fix_axom c t = Some t.
Proof.
  intro R. unfold fix_axom. destruct (axom c) eqn:X; auto. 
  replace (existsb _ chkpnt_opts) with false; auto. symmetry. specialize (R X).
  destruct (existsb (fun n => is_user_defined n t) chkpnt_opts) eqn:E; auto. apply existsb_exists in E.
  destruct E as (n & I & U). rewrite (R n I) in U. discriminate.
Qed.

Lemma raise_id n t eps v : get_num n t = Some v -> (is_user_defined n t = true -> flt v eps = false) -> raise_tol n eps t = Some t.
Proof.
  intros E F. unfold raise_tol. rewrite E. cbn [bind]. destruct (is_user_defined n t); [rewrite F; auto|rewrite andb_false_r; auto].
Qed.
(** the entries that differ after a pass *)
Definition touched (n : string) : Prop := In n rule_targets \/ axom c = false /\ In n chkpnt_opts.
Record ensured (t t' : table) : Prop := {
  en_legal : legal t';
  en_consistent : consistent c t';
  en_frame : forall n, ~ touched n -> find n t' = find n t;
  en_file : forall n, ~ In n chkpnt_opts -> option_map o_file (find n t') = option_map o_file (find n t);
  en_val : exists eps ms, val "tolerance" t = Some eps /\ get_str "mem_space" t' = Some ms /\
     forall n, val n t' = val n t \/ exists v, val n t' = Some v /\ corrected eps ms n v }.
Ltac notin := simpl; intuition discriminate.
Lemma ensure_ok t : legal t -> exists t', ensure_nlp c t = Some t' /\ ensured t t'.
Proof.
  intro H. destruct (legal_num _ regs t "tolerance" _ _ _ H eq_refl eq_refl) as (eps & fe & re & Et & At & Bt).
  unfold ensure_nlp. rewrite (gn_eq _ _ _ _ _ _ _ Et). cbn [bind].
  destruct (raise_ok c "acceptable_tolerance" t eps _ _ _ _ H ltac:(inl) Et) as (t1 & -> & G1 & R1). cbn [bind].
  pose proof (proj1 (G1 "")) as H1.
  assert (E1 : find "tolerance" t1 = find "tolerance" t) by (apply (G1 ""); notin). rewrite Et in E1.
  destruct (raise_ok c "dual_tol" t1 eps _ _ _ _ H1 ltac:(inl) E1) as (t2 & -> & G2 & R2). cbn [bind].
  pose proof (proj1 (G2 "")) as H2.
  assert (E2 : find "tolerance" t2 = find "tolerance" t1) by (apply (G2 ""); notin). rewrite E1 in E2.
  destruct (raise_ok c "cons_tol" t2 eps _ _ _ _ H2 ltac:(inl) E2) as (t3 & -> & G3 & R3). cbn [bind].
  pose proof (proj1 (G3 "")) as H3.
  assert (E3 : find "tolerance" t3 = find "tolerance" t2) by (apply (G3 ""); notin). rewrite E2 in E3.
  destruct (raise_ok c "comp_tol" t3 eps _ _ _ _ H3 ltac:(inl) E3) as (t4 & -> & G4 & R4). cbn [bind].
  pose proof (proj1 (G4 "")) as H4.
  assert (E4 : find "tolerance" t4 = find "tolerance" t3) by (apply (G4 ""); notin). rewrite E3 in E4.
  destruct (kkt_ok c t4 H4) as (t5 & -> & G5 & R5). cbn [bind]. pose proof (proj1 (G5 (Num eps) "")) as H5.
  destruct (duals_ok c t5 H5) as (t6 & -> & G6 & R6). cbn [bind]. pose proof (proj1 (G6 (Num eps) "")) as H6.
  destruct (sparse_ok c t6 H6) as (t7 & -> & G7 & R7). cbn [bind]. pose proof (proj1 (G7 (Num eps) "")) as H7.
  destruct (ordering_ok c t7 H7) as (t8 & -> & G8 & R8). cbn [bind]. pose proof (proj1 (G8 (Num eps) "")) as H8.
  destruct (raja_ok c t8 H8) as (t9 & -> & G9 & R9). cbn [bind]. pose proof (proj1 (G9 (Num eps) "")) as H9.
  destruct (mem_opt c t9 "mem_space" (or_introl eq_refl) H9) as (ms & fm & rm & Em & Im).
  destruct (callback_ok c t9 ms H9 (gs_eq _ _ _ _ _ _ Em)) as (ta & -> & Ga & Ra). cbn [bind].
  pose proof (proj1 (Ga (Num eps))) as Ha.
  assert (C2 : get_str "compute_mode" ta = get_str "compute_mode" t9) by (apply gs_same; apply (Ga (Num eps)); notin).
  destruct (gpu_ok c ta Ha) as (tb & -> & Gb & Rb & Rb'). cbn [bind]. pose proof (proj1 (Gb (Num eps) "")) as Hb.
  destruct (fixed_ok c tb Hb) as (td & -> & Gd & Rd). cbn [bind]. pose proof (proj1 (Gd (Num eps) "")) as Hd.
  destruct (acceptor_ok c td Hd) as (te & -> & Ge & Re). cbn [bind]. pose proof (proj1 (Ge (Num eps) "")) as He.
  destruct (moving_ok c te He) as (tf & -> & Gf & Rf). cbn [bind]. pose proof (proj1 (Gf (Num eps) "")) as Hf.
  destruct (axom_ok tf Hf) as (t' & -> & (Hg & Vg & Fg & Xg) & Rg).
  exists t'. split; auto.
  (* what remains to be done after each step *)
  assert (Kf := Gf (Num eps) ms).
  assert (Ke := good_trans _ _ _ _ _ _ _ _ _ (Ge (Num eps) ms) Kf).
  assert (Kd := good_trans _ _ _ _ _ _ _ _ _ (Gd (Num eps) ms) Ke).
  assert (Kb := good_trans _ _ _ _ _ _ _ _ _ (Gb (Num eps) ms) Kd).
  assert (Ka := good_trans _ _ _ _ _ _ _ _ _ (Ga (Num eps)) Kb).
  assert (K9 := good_trans _ _ _ _ _ _ _ _ _ (G9 (Num eps) ms) Ka).
  assert (K8 := good_trans _ _ _ _ _ _ _ _ _ (G8 (Num eps) ms) K9).
  assert (K7 := good_trans _ _ _ _ _ _ _ _ _ (G7 (Num eps) ms) K8).
  assert (K6 := good_trans _ _ _ _ _ _ _ _ _ (G6 (Num eps) ms) K7).
  assert (K5 := good_trans _ _ _ _ _ _ _ _ _ (G5 (Num eps) ms) K6).
  assert (K4 := good_trans _ _ _ _ _ _ _ _ _ (G4 ms) K5).
  assert (K3 := good_trans _ _ _ _ _ _ _ _ _ (G3 ms) K4).
  assert (K2 := good_trans _ _ _ _ _ _ _ _ _ (G2 ms) K3).
  assert (K1 := good_trans _ _ _ _ _ _ _ _ _ (G1 ms) K2).
  clear G1 G2 G3 G4 G5 G6 G7 G8 G9 Ga Gb Gd Ge Gf.
  assert (FR : forall T a n, good (Num eps) ms T a tf -> ~ In n T -> ~ In n chkpnt_opts -> find n t' = find n a).
  { intros T a n G N1 N2. rewrite Fg by auto. apply G. auto. }
  assert (SM : forall T a l, good (Num eps) ms T a tf -> (forall n, In n l -> ~ In n T /\ ~ In n chkpnt_opts) -> same l a t').
  { intros T a l G N n I. eapply FR; [exact G| |]; apply N; auto. }
  assert (UD : forall T a n, good (Num eps) ms T a tf -> ~ In n chkpnt_opts -> is_user_defined n t' = is_user_defined n a).
  { intros T a n G N. unfold is_user_defined. rewrite Fg by auto. apply G. }
  split; auto.
  2:{ intros n Hn. destruct (in_dec string_dec n chkpnt_opts) as [I|I].
      - rewrite Xg; [apply K1; cbn -[In] in *|]. 2:{ destruct (axom c) eqn:X; auto. destruct Hn. right. auto. }
        intro I'. apply Hn. left. revert I'. simpl. tauto.
      - eapply FR; [exact K1| |auto]. intro I'. apply Hn. left. revert I'. simpl. tauto. }
  2:{ intros n Hn. rewrite Fg by auto. apply K1. }
  2:{ exists (Num eps), ms. split; [unfold val; rewrite Et; auto|]. split.
      - rewrite <- (gs_eq _ _ _ _ _ _ Em). apply gs_same. eapply FR; [exact Ka| |]; notin.
      - intro n. rewrite Vg. apply K1. }
  assert (TOL : get_num "tolerance" t' = Some eps).
  { rewrite <- (gn_eq _ _ _ _ _ _ _ Et). apply gn_same. eapply FR; [exact K1| |]; notin. }
  assert (TT : forall n T a, good (Num eps) ms T a tf -> ~ In n T -> ~ In n chkpnt_opts ->
     (is_user_defined n a = true -> exists v, get_num n a = Some v /\ flt v eps = false) ->
     is_user_defined n t' = true -> exists v eps0, get_num n t' = Some v /\ get_num "tolerance" t' = Some eps0 /\ flt v eps0 = false).
  { intros n T a G N1 N2 R U. rewrite (UD _ _ _ G N2) in U. destruct (R U) as (v & V1 & V2). exists v, eps.
    rewrite TOL. rewrite (gn_same n a t'); auto. eapply FR; eauto. }
  split.
  { intros n [<-|[<-|[<-|[<-|[]]]]].
    - eapply TT; [exact K2| | |exact R1]; notin.
    - eapply TT; [exact K3| | |exact R2]; notin.
    - eapply TT; [exact K4| | |exact R3]; notin.
    - eapply TT; [exact K5| | |exact R4]; notin. }
  Ltac nn := let n := fresh in let J := fresh in intros n J; simpl in J; repeat (destruct J as [<-|J]); try contradiction; split; simpl; intuition discriminate.
  split; [refine (ext_kkt t5 t' _ R5); eapply SM; [exact K6|nn]|].
  split; [refine (ext_duals t6 t' _ R6); eapply SM; [exact K7|nn]|].
  split.
  { assert (A : rel_sparse c t') by (refine (ext_sparse t7 t' _ R7); eapply SM; [exact K8|nn]).
    assert (B : rel_acceptor t') by (refine (ext_acceptor te t' _ Re); eapply SM; [exact Kf|nn]).
    destruct A as (sp & A1 & A2 & A3 & A4 & A5 & A6). destruct B as (sp' & B1 & B2).
    assert (sp' = sp) by congruence. subst sp'. exists sp. auto 10. }
  split; [refine (ext_ordering t8 t' _ R8); eapply SM; [exact K9|nn]|].
  split.
  { intro RJ. destruct (R9 RJ) as [A B].
    assert (C1 : get_str "compute_mode" t' = get_str "compute_mode" tb) by (apply gs_same; eapply FR; [exact Kd| |]; notin).
    assert (C3 : get_str "mem_space" t' = get_str "mem_space" t9) by (apply gs_same; eapply FR; [exact Ka| |]; notin).
    rewrite C1, C3. split; auto. destruct Rb' as [-> | ->]; [rewrite C2; auto|discriminate]. }
  split; [refine (ext_callback ta t' _ Ra); eapply SM; [exact Kb|nn]|].
  split; [refine (ext_gpu tb t' _ Rb); eapply SM; [exact Kd|nn]|].
  split; [refine (ext_fixed td t' _ Rd); eapply SM; [exact Ke|nn]|].
  split; [|exact Rg].
  refine (ext_moving tf t' _ Rf). intros n I. apply Fg. simpl in I. intros J. repeat (destruct I as [<-|I]); simpl in J; intuition discriminate.
Qed.
(** a pass over a table that reads like a consistent one only clears the flags *)
Lemma ensure_like t0 t : legal t -> consistent c t0 ->
  (forall n, get_num n t = get_num n t0) -> (forall n, get_str n t = get_str n t0) ->
  (forall n, In n ["acceptable_tolerance"; "dual_tol"; "cons_tol"; "comp_tol"; "Hessian"; "callback_mem_space"] ->
     is_user_defined n t = is_user_defined n t0) -> ensure_nlp c t = fix_axom c t.
Proof.
  intros H (T & K & D & SP & O & RJ & CB & GP & FX & MV & AX) GN GS UD.
  destruct (legal_num _ regs t "tolerance" _ _ _ H eq_refl eq_refl) as (eps & fe & re & Et & At & Bt).
  unfold ensure_nlp. pose proof (gn_eq _ _ _ _ _ _ _ Et) as Ge. rewrite Ge. cbn [bind].
  assert (RI : forall n, In n tols -> raise_tol n eps t = Some t).
  { intros n I.
    assert (X : exists v, get_num n t = Some v).
    { simpl in I. repeat (destruct I as [<-|I]); try contradiction;
        match goal with |- exists v, get_num ?n _ = _ =>
          destruct (legal_num _ regs t n _ _ _ H eq_refl eq_refl) as (v & f & r & E & A & B); exists v; exact (gn_eq _ _ _ _ _ _ _ E) end. }
    destruct X as (v & V). eapply raise_id; [exact V|]. rewrite UD by (simpl in I |- *; intuition auto).
    intro U. destruct (T n I U) as (v' & e' & V1 & V2 & V3). rewrite <- GN in V1, V2. congruence. }
  do 4 (rewrite RI by (simpl; auto 8); cbn [bind]).
  destruct SP as (sp & S1 & S2 & S3 & S4 & S5 & S6 & S7). rewrite <- ?GS, <- ?GN in *.
  rewrite (kkt_id c t H) by (unfold rel_kkt; rewrite UD by (simpl; auto 8); exact K). cbn [bind].
  rewrite (duals_id c t H D). cbn [bind].
  rewrite (sparse_id c t H) by (exists sp; auto 8). cbn [bind].
  rewrite (ordering_id c t H O). cbn [bind]. rewrite (raja_id c t H RJ). cbn [bind].
  rewrite (callback_id c t H).
  2:{ destruct CB as (m & cb & C1 & C2 & C3). exists m, cb. rewrite UD by (simpl; auto 8). auto. }
  cbn [bind].
  rewrite (gpu_id c t H GP). cbn [bind]. rewrite (fixed_id c t H FX). cbn [bind].
  rewrite (acceptor_id c t H) by (exists sp; auto). cbn [bind]. rewrite (moving_id t); [reflexivity|].
  destruct MV as (r & a & M1 & M2 & M3). exists r, a. auto.
Qed.
Lemma ensure_id t : legal t -> consistent c t -> ensure_nlp c t = Some t.
Proof.
  intros H C. rewrite (ensure_like t t H C); auto. apply axom_id. unfold rel_axom. apply C.
Qed.
End Nlp.
