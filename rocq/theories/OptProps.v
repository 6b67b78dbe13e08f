(** Theorems about the options object: C13, C14, C15. *)
From Coq Require Import List Bool ZArith String Ascii Lia.
From Verif Require Import FloatBase FloatFacts OptModel OptSpec OptProofs OptProofs2 OptProofs3 OptProofs4.
Import ListNotations.
Open Scope string_scope.

Lemma no_nan_ok pn ops : no_nan pn ops -> Forall op_ok ops.
Proof. intros [_ H]. apply Forall_forall. intros [n v f|n v f|n v f|] I; simpl; eauto. Qed.
Lemma nlp_life c pn pi ls ops t : no_nan pn ops -> life (ensure_nlp c) (nlp_options c) pn pi ls ops t ->
  legal (fun _ => false) (nlp_options c) t /\ consistent c t.
Proof.
  intros N (t0 & A & B).
  destruct (life_ok _ _ _ _ _ (nlp_ens c) (nlp_legal c) (nlp_skip c) pn pi (proj1 N) ls ops (no_nan_ok _ _ N))
    as (t0' & t' & A' & B' & _ & L & _ & C & _).
  rewrite A in A'. injection A' as <-. rewrite B in B'. injection B' as <-. auto.
Qed.

(** a tiny configuration and readers for the examples: text "1e-2" etc. *)
Definition cfg0 := Config false false false false false false true.
Definition ex_num (s : string) : option b64 :=
  if String.eqb s "1e-6" then Some (L 4722366482869645 (-72)) else if String.eqb s "7" then Some (L 7881299347898368 (-50)) else None.
Definition ex_int (s : string) : option Z := if String.eqb s "7" then Some 7%Z else if String.eqb s "-3" then Some (-3)%Z else None.
Lemma ex_num_ok s v : ex_num s = Some v -> is_nan v = false.
Proof. unfold ex_num. destruct (String.eqb s "1e-6"); [|destruct (String.eqb s "7")]; intro E; inversion E; reflexivity. Qed.
Definition f1e2 := L 5764607523034235 (-59).
Definition get_t (o : option table) : table := match o with Some t => t | None => [] end.

(** *** C13: options stay registered, typed and in range *)
Theorem C13_legal c pn pi ls ops : no_nan pn ops ->
  exists t, life (ensure_nlp c) (nlp_options c) pn pi ls ops t /\ legal (fun _ => false) (nlp_options c) t.
Proof.
  intro N.
  destruct (life_ok _ _ _ _ _ (nlp_ens c) (nlp_legal c) (nlp_skip c) pn pi (proj1 N) ls ops (no_nan_ok _ _ N))
    as (t0 & t & A & B & _ & L & _). exists t. split; [exists t0|]; auto.
Qed.
Example C13_case : exists t, life (ensure_nlp cfg0) (nlp_options cfg0) ex_num ex_int
     ["tolerance 1e-6"; "# comment"; " max_iter   7 # trailing"; "mu0 7"; "Hessian nonsense"; "unknown 3"]
     [SetNum "mu0" f1e2 false; SetNum "tau_min" f1e2 false; SetInt "verbosity_level" 5 false; SetStr "fixed_var" "RELAX" false; SetLog] t /\
   get_num "tolerance" t = Some (L 4722366482869645 (-72)) /\ get_int "max_iter" t = Some 7%Z /\
   get_num "mu0" t = Some (L 7881299347898368 (-50)) /\ get_num "tau_min" t = Some (L 8917127262193582 (-53)) /\
   get_int "verbosity_level" t = Some 5%Z /\ get_str "fixed_var" t = Some "relax" /\ get_str "Hessian" t = Some "quasinewton_approx".
Proof.
  set (t0 := construct (ensure_nlp cfg0) ex_num ex_int (nlp_options cfg0)
     ["tolerance 1e-6"; "# comment"; " max_iter   7 # trailing"; "mu0 7"; "Hessian nonsense"; "unknown 3"]).
  set (r := run (ensure_nlp cfg0)
     [SetNum "mu0" f1e2 false; SetNum "tau_min" f1e2 false; SetInt "verbosity_level" 5 false; SetStr "fixed_var" "RELAX" false; SetLog] (get_t t0)).
  exists (get_t r). split; [exists (get_t t0); split; vm_compute; reflexivity|]. repeat split; vm_compute; reflexivity.
Qed.
Example C13_hyp_case : no_nan ex_num [SetNum "mu0" f1e2 false].
Proof. split; [exact ex_num_ok|]. intros n v f [E|[]]. injection E as <- <- <-. reflexivity. Qed.
Print Assumptions C13_legal.

(** the primal decomposition options: "accum_local" is exempt, see below *)
Theorem C13_pridec_partial c pn pi ls ops : no_nan pn ops ->
  exists t, life ensure_pridec (pridec_options c) pn pi ls ops t /\
    legal (fun n => String.eqb n "accum_local") (pridec_options c) t /\ pridec_consistent t /\ ensure_pridec t = Some t.
Proof.
  intro N.
  destruct (life_ok _ _ _ _ _ (pridec_ok c) (pridec_legal c) (pridec_skip c) pn pi (proj1 N) ls ops (no_nan_ok _ _ N))
    as (t0 & t & A & B & _ & L & _ & R & _). exists t. split; [exists t0; auto|]. split; [exact L|]. split; [exact R|].
  eapply pridec_id; eauto.
Qed.
Example C13_pridec_case : exists t, life ensure_pridec (pridec_options cfg0) ex_num ex_int ["acceptable_tolerance 1e-6"] [SetNum "tolerance" f1e2 false; SetStr "accum_local" "yes" false] t /\
   get_num "acceptable_tolerance" t = Some f1e2 /\ get_str "accum_local" t = Some "yes".
Proof.
  set (t0 := construct ensure_pridec ex_num ex_int (pridec_options cfg0) ["acceptable_tolerance 1e-6"]).
  set (r := run ensure_pridec [SetNum "tolerance" f1e2 false; SetStr "accum_local" "yes" false] (get_t t0)).
  exists (get_t r). split; [exists (get_t t0); split; vm_compute; reflexivity|]. repeat split; vm_compute; reflexivity.
Qed.
Print Assumptions C13_pridec_partial.
(** the default of "accum_local" is not one of its values *)
Theorem C13_accum_local_refuted : exists t v range, life ensure_pridec (pridec_options cfg0) ex_num ex_int [] [] t /\
  find "accum_local" t = Some (Opt (VStr v range) false false) /\ range <> [] /\ ~ In v range.
Proof.
  exists (get_t (construct ensure_pridec ex_num ex_int (pridec_options cfg0) [])), "false", ["yes"; "no"].
  split; [eexists; split; [vm_compute; reflexivity|vm_compute; reflexivity]|]. split; [vm_compute; reflexivity|].
  split; [discriminate|]. simpl. intuition discriminate.
Qed.
Print Assumptions C13_accum_local_refuted.
(** NaN passes the range test *)
Theorem C13_nan_refuted : exists t v lb ub f r,
  life (ensure_nlp cfg0) (nlp_options cfg0) ex_num ex_int [] [SetNum "mu0" S754_nan false] t /\
  find "mu0" t = Some (Opt (VNum v lb ub) f r) /\ ~ (fle lb v = true /\ fle v ub = true).
Proof.
  set (t0 := construct (ensure_nlp cfg0) ex_num ex_int (nlp_options cfg0) []).
  exists (get_t (run (ensure_nlp cfg0) [SetNum "mu0" S754_nan false] (get_t t0))). do 5 eexists.
  split; [exists (get_t t0); split; vm_compute; reflexivity|]. split; [vm_compute; reflexivity|]. vm_compute. intros [? ?]. discriminate.
Qed.
Print Assumptions C13_nan_refuted.

(** requests for options that do not exist or are of another type change nothing *)
Theorem C13_ignored c pn pi ls ops t n : no_nan pn ops -> life (ensure_nlp c) (nlp_options c) pn pi ls ops t ->
  (get_num n t = None -> forall v f, is_nan v = false -> do_op (ensure_nlp c) (SetNum n v f) t = Some t) /\
  (get_int n t = None -> forall v f, do_op (ensure_nlp c) (SetInt n v f) t = Some t) /\
  (get_str n t = None -> forall v f, do_op (ensure_nlp c) (SetStr n v f) t = Some t).
Proof.
  intros N H. destruct (nlp_life _ _ _ _ _ _ N H) as [L C].
  split; [|split]; intros G v f; try intro NN; apply (ignored c); auto; try exact Logic.I; cbn [op_name];
    unfold get_num, get_int, get_str in G; destruct (find n t) as [[[]]|]; auto; discriminate.
Qed.
Example C13_ignored_case : let t := get_t (construct (ensure_nlp cfg0) ex_num ex_int (nlp_options cfg0) []) in
  get_num "max_iter" t = None /\ get_int "no such option" t = None /\ get_int "max_iter" t = Some 3000%Z.
Proof. vm_compute. auto. Qed.
Print Assumptions C13_ignored.

(** out-of-range requests: at runtime an integer or string one changes nothing at all; any request
    for an option other than the four tolerances, "Hessian" and "callback_mem_space" changes no value *)
Theorem C13_invalid_partial c pn pi ls ops t : no_nan pn ops -> life (ensure_nlp c) (nlp_options c) pn pi ls ops t ->
  (forall n v old lb ub f0 r0, find n t = Some (Opt (VInt old lb ub) f0 r0) -> ~ (lb <= v <= ub)%Z ->
     do_op (ensure_nlp c) (SetInt n v false) t = Some t) /\
  (forall n v old range f0 r0, find n t = Some (Opt (VStr old range) f0 r0) -> range <> [] -> ~ In (lower v) range ->
     do_op (ensure_nlp c) (SetStr n v false) t = Some t) /\
  (forall n, ~ In n ["acceptable_tolerance"; "dual_tol"; "cons_tol"; "comp_tol"; "Hessian"; "callback_mem_space"] ->
     (forall v old lb ub f0 r0 f, find n t = Some (Opt (VNum old lb ub) f0 r0) -> is_nan v = false ->
        fle lb v = false \/ fle v ub = false ->
        exists t', do_op (ensure_nlp c) (SetNum n v f) t = Some t' /\ forall m, val m t' = val m t) /\
     (forall v old lb ub f0 r0 f, find n t = Some (Opt (VInt old lb ub) f0 r0) -> ~ (lb <= v <= ub)%Z ->
        exists t', do_op (ensure_nlp c) (SetInt n v f) t = Some t' /\ forall m, val m t' = val m t) /\
     (forall v old range f0 r0 f, find n t = Some (Opt (VStr old range) f0 r0) -> range <> [] -> ~ In (lower v) range ->
        exists t', do_op (ensure_nlp c) (SetStr n v f) t = Some t' /\ forall m, val m t' = val m t)).
Proof.
  intros N H. destruct (nlp_life _ _ _ _ _ _ N H) as [L C].
  assert (VI : forall v lb ub, ~ (lb <= v <= ub)%Z -> valid_int v lb ub = None).
  { intros v lb ub X. unfold valid_int. destruct (lb <=? v)%Z eqn:A, (v <=? ub)%Z eqn:B; auto. destruct X. lia. }
  assert (VS : forall v range, range <> [] -> ~ In v range -> valid_str v range = None).
  { intros v range X Y. unfold valid_str. destruct range as [|a l]; [contradiction|].
    destruct (existsb (String.eqb v) (a :: l)) eqn:B; auto. apply existsb_exists in B. destruct B as (x & I & Q).
    apply String.eqb_eq in Q. subst. contradiction. }
  assert (VN : forall v lb ub, fle lb v = false \/ fle v ub = false -> valid_num v lb ub = None).
  { intros v lb ub [X|X]; unfold valid_num; rewrite X; [|rewrite andb_false_r]; auto. }
  split; [|split; [|intros n NI; split; [|split]]].
  - intros. eapply (invalid_quiet c t (SetInt n v false)); eauto; try exact Logic.I. cbn [op_name op_file call_event].
    rewrite String.eqb_refl, VI; auto.
  - intros. eapply (invalid_quiet c t (SetStr n v false)); eauto; try exact Logic.I. cbn [op_name op_file call_event].
    rewrite String.eqb_refl, VS; auto.
  - intros. eapply (invalid_values c t (SetNum n v f)); eauto; try exact Logic.I. cbn [op_name op_file call_event].
    rewrite String.eqb_refl, VN; auto.
  - intros. eapply (invalid_values c t (SetInt n v f)); eauto; try exact Logic.I. cbn [op_name op_file call_event].
    rewrite String.eqb_refl, VI; auto.
  - intros. eapply (invalid_values c t (SetStr n v f)); eauto; try exact Logic.I. cbn [op_name op_file call_event].
    rewrite String.eqb_refl, VS; auto.
Qed.
Example C13_invalid_case : let t := get_t (construct (ensure_nlp cfg0) ex_num ex_int (nlp_options cfg0) []) in
  do_op (ensure_nlp cfg0) (SetInt "max_iter" (-3) false) t = Some t /\
  do_op (ensure_nlp cfg0) (SetStr "fixed_var" "sometimes" false) t = Some t /\
  get_num "mu0" (get_t (do_op (ensure_nlp cfg0) (SetNum "mu0" f_zero false) t)) = get_num "mu0" t.
Proof. vm_compute. auto. Qed.
Print Assumptions C13_invalid_partial.
(** an out-of-range value given for a tolerance still marks it as given by the user, and the
    consistency pass then overwrites it *)
Theorem C13_invalid_refuted : exists t t' v v', life (ensure_nlp cfg0) (nlp_options cfg0) ex_num ex_int [] [SetNum "tolerance" f1e2 false] t /\
  do_op (ensure_nlp cfg0) (SetNum "acceptable_tolerance" (L 5629499534213120 (-40)) false) t = Some t' /\
  valid_num (L 5629499534213120 (-40)) (L 6338253001141147 (-99)) (L 7205759403792794 (-56)) = None /\
  get_num "acceptable_tolerance" t = Some v /\ get_num "acceptable_tolerance" t' = Some v' /\ feq v v' = false.
Proof.
  set (t0 := construct (ensure_nlp cfg0) ex_num ex_int (nlp_options cfg0) []).
  set (t := get_t (run (ensure_nlp cfg0) [SetNum "tolerance" f1e2 false] (get_t t0))).
  exists t, (get_t (do_op (ensure_nlp cfg0) (SetNum "acceptable_tolerance" (L 5629499534213120 (-40)) false) t)). do 2 eexists.
  split; [exists (get_t t0); split; vm_compute; reflexivity|].
  split; [vm_compute; reflexivity|]. split; [vm_compute; reflexivity|]. split; [vm_compute; reflexivity|].
  split; [vm_compute; reflexivity|]. vm_compute. reflexivity.
Qed.
Print Assumptions C13_invalid_refuted.

(** *** C14: file before runtime, last one wins *)
(** for every option that no consistency rule touches, the value after any history is the one of the
    last valid request that counts, requests of the file making later runtime requests not count *)
Theorem C14_precedence_partial c pn pi ls ops t n d : no_nan pn ops -> life (ensure_nlp c) (nlp_options c) pn pi ls ops t ->
  find n (nlp_options c) = Some (Opt d false false) -> ~ In n rule_targets -> (axom c = true \/ ~ In n chkpnt_opts) ->
  exists w, val n t = Some w /\
    winner (value_of d) (flat_map (line_event pn pi n d) ls ++ flat_map (call_event n d) ops) w.
Proof.
  intros N (t0 & A & B) D NT CK.
  destruct (life_ok _ _ _ _ _ (nlp_ens c) (nlp_legal c) (nlp_skip c) pn pi (proj1 N) ls ops (no_nan_ok _ _ N))
    as (t0' & t' & A' & B' & _ & _ & _ & _ & W).
  rewrite A in A'. injection A' as <-. rewrite B in B'. injection B' as <-. apply W; auto.
  intros [I|[X I]]; [auto|]. destruct CK; [congruence|auto].
Qed.
Theorem C14_pridec_precedence_partial c pn pi ls ops t n d : no_nan pn ops -> life ensure_pridec (pridec_options c) pn pi ls ops t ->
  find n (pridec_options c) = Some (Opt d false false) -> n <> "acceptable_tolerance" ->
  exists w, val n t = Some w /\
    winner (value_of d) (flat_map (line_event pn pi n d) ls ++ flat_map (call_event n d) ops) w.
Proof.
  intros N (t0 & A & B) D NT.
  destruct (life_ok _ _ _ _ _ (pridec_ok c) (pridec_legal c) (pridec_skip c) pn pi (proj1 N) ls ops (no_nan_ok _ _ N))
    as (t0' & t' & A' & B' & _ & _ & _ & _ & W).
  rewrite A in A'. injection A' as <-. rewrite B in B'. injection B' as <-. apply W; auto.
Qed.
Example C14_case : (flat_map (line_event ex_num ex_int "mu0" (VNum (L 4503599627370496 (-52)) (L 8112963841460668 (-106)) (L 8796093022208000 (-43)))) ["mu0 7"; "mu0 nonsense"]
    ++ flat_map (call_event "mu0" (VNum (L 4503599627370496 (-52)) (L 8112963841460668 (-106)) (L 8796093022208000 (-43)))) [SetNum "mu0" f1e2 false; SetInt "mu0" 3 true; SetNum "mu0" f_zero true])%list
  = [(true, Some (Num (L 7881299347898368 (-50)))); (false, Some (Num f1e2)); (true, None)] /\
  winner (Num f_zero) [(true, Some (Num (L 7881299347898368 (-50)))); (false, Some (Num f1e2)); (true, None)] (Num (L 7881299347898368 (-50))).
Proof.
  split; [vm_compute; reflexivity|]. left. exists 0, true. split; [|split; [reflexivity|]].
  - exists true, (Some (Num (L 7881299347898368 (-50)))). auto.
  - intros j g v J CJ E. destruct j as [|[|[|[|j]]]]; try lia; try discriminate.
    injection E as <- <-. destruct CJ as (f & v & E & [->|X]); [discriminate|]. apply (X 0 (Some (Num (L 7881299347898368 (-50))))); auto.
Qed.
Print Assumptions C14_precedence_partial.
Print Assumptions C14_pridec_precedence_partial.
(** for every option, also those of the rules: after the file made a request for it, runtime calls
    for it change nothing, however many calls came in between *)
Theorem C14_file_blocks c pn pi ls ops t n d : no_nan pn ops -> life (ensure_nlp c) (nlp_options c) pn pi ls ops t ->
  find n (nlp_options c) = Some d -> ~ In n chkpnt_opts -> flat_map (line_event pn pi n (o_val d)) ls <> [] ->
  (forall v, is_nan v = false -> do_op (ensure_nlp c) (SetNum n v false) t = Some t) /\
  (forall v, do_op (ensure_nlp c) (SetInt n v false) t = Some t) /\
  (forall v, do_op (ensure_nlp c) (SetStr n v false) t = Some t).
Proof.
  intros N H D NC FE. destruct (nlp_life _ _ _ _ _ _ N H) as [L C]. destruct H as (t0 & A & B).
  assert (FF : file_flag n t = true).
  { unfold construct in A. destruct (load_file (ensure_nlp c) pn pi ls (nlp_options c)) as [t1|] eqn:E; [|discriminate].
    destruct (load_file_ok (fun _ => false) (nlp_options c) (ensure_nlp c) (touched c) (consistent c) (nlp_ens c) (nlp_skip c) pn pi (proj1 N) ls _ (nlp_legal c))
      as (t1' & E' & L1 & _). rewrite E in E'. injection E' as <-.
    destruct (nlp_ens c t1 L1) as (t0' & A' & L0 & _). rewrite A in A'. injection A' as <-.
    apply (flag_run c ops t0 t n L0 (no_nan_ok _ _ N) B NC). rewrite (ens_flag c n t1 t0 L1 A NC).
    apply (file_flag_load c pn pi (proj1 N) ls (nlp_options c) t1 n d (nlp_legal c) E D NC). right. exact FE. }
  destruct (legal_find _ _ _ _ _ L D) as ([v f r] & E & _).
  assert (X : forall o, op_ok o -> op_name o = n -> op_file o = false -> do_op (ensure_nlp c) o t = Some t).
  { intros o OK <- OF. destruct (op_fits o v) eqn:FT.
    - eapply (flag_blocks c o t v f r); eauto.
    - apply (ignored c); auto. rewrite E. exact FT. }
  split; [|split]; intros; apply X; auto; exact Logic.I.
Qed.
Example C14_file_blocks_case : line_event ex_num ex_int "KKTLinsys" (VStr "auto" ["auto"; "xycyd"; "xdycyd"; "full"; "condensed"; "normaleqn"]) "KKTLinsys Full # dense" = [(true, Some (Str "full"))] /\
  find "KKTLinsys" (nlp_options cfg0) = Some (Opt (VStr "auto" ["auto"; "xycyd"; "xdycyd"; "full"; "condensed"; "normaleqn"]) false false).
Proof. vm_compute. auto. Qed.
Print Assumptions C14_file_blocks.
(** a call changes other options only to the values the consistency rules install *)
Theorem C14_no_cross c pn pi ls ops t o t' : no_nan pn (o :: ops) -> life (ensure_nlp c) (nlp_options c) pn pi ls ops t ->
  do_op (ensure_nlp c) o t = Some t' ->
  exists eps ms, val "tolerance" t' = Some eps /\ get_str "mem_space" t' = Some ms /\
    forall m, ~ asks_for o m -> val m t' = val m t \/ exists v, val m t' = Some v /\ corrected eps ms m v.
Proof.
  intros N H R. assert (N' : no_nan pn ops) by (split; [apply N|intros; eapply N; right; eauto]).
  destruct (nlp_life _ _ _ _ _ _ N' H) as [L C].
  assert (OK : op_ok o) by (pose proof (no_nan_ok _ _ N) as F; inversion F; auto).
  assert (E : forall t1, legal (fun _ => false) (nlp_options c) t1 -> ensure_nlp c t1 = Some t' ->
     (forall m, ~ asks_for o m -> find m t1 = find m t) -> 
    exists eps ms, val "tolerance" t' = Some eps /\ get_str "mem_space" t' = Some ms /\
      forall m, ~ asks_for o m -> val m t' = val m t \/ exists v, val m t' = Some v /\ corrected eps ms m v).
  { intros t1 L1 E1 F1. destruct (ensure_ok c t1 L1) as (t2 & A & [_ _ FR _ (eps & ms & V1 & V2 & V3)]).
    rewrite E1 in A. injection A as <-. exists eps, ms. split; [|split; auto].
    - unfold val in *. rewrite FR; auto. intros [I|[_ I]]; simpl in I; intuition discriminate.
    - intros m Hm. destruct (V3 m) as [V|V]; auto. left. rewrite V. unfold val. rewrite F1; auto. }
  destruct (do_op_cases (fun _ => false) _ (ensure_nlp c) (nlp_skip c) o t L OK)
    as [(old & f0 & r0 & _ & _ & _ & Q)|[[_ Q]|(ov & t1 & old & f0 & r0 & E' & FF & RQ & CE' & Q)]]; rewrite R in Q; symmetry in Q.
  - apply (E t); auto. rewrite (ensure_id c t L C). injection Q as <-. auto.
  - apply (E t); auto.
  - apply (E t1); auto; [eapply req_legal; eauto|]. intros m Hm. eapply req_find; eauto. intro. subst. apply Hm.
    destruct o; simpl; auto. discriminate.
Qed.
Example C14_no_cross_case : let t := get_t (construct (ensure_nlp cfg0) ex_num ex_int (nlp_options cfg0) []) in
  let t' := get_t (do_op (ensure_nlp cfg0) (SetStr "Hessian" "analytical_exact" false) t) in
  get_str "duals_update_type" t = Some "lsq" /\ get_str "duals_update_type" t' = Some "linear".
Proof. vm_compute. auto. Qed.
Print Assumptions C14_no_cross.
(** string values are stored in lower case, also file names *)
Theorem C14_case_refuted : exists t, life (ensure_nlp cfg0) (nlp_options cfg0) ex_num ex_int [] [SetStr "checkpoint_file" "State.chk" false] t /\
  get_str "checkpoint_file" t <> Some "State.chk".
Proof.
  set (t0 := construct (ensure_nlp cfg0) ex_num ex_int (nlp_options cfg0) []).
  exists (get_t (run (ensure_nlp cfg0) [SetStr "checkpoint_file" "State.chk" false] (get_t t0))).
  split; [exists (get_t t0); split; vm_compute; reflexivity|]. vm_compute. discriminate.
Qed.
Print Assumptions C14_case_refuted.
(** without checkpointing support built in, a checkpoint option of the file is overwritten at runtime *)
Definition cfg1 := Config false false false false false false false.
Theorem C14_checkpoint_refuted : exists t0 t, construct (ensure_nlp cfg1) ex_num ex_int (nlp_options cfg1) ["checkpoint_save_every_N_iter 7"] = Some t0 /\
  get_int "checkpoint_save_every_N_iter" t0 = Some 7%Z /\ do_op (ensure_nlp cfg1) (SetInt "checkpoint_save_every_N_iter" 9 false) t0 = Some t /\
  get_int "checkpoint_save_every_N_iter" t = Some 9%Z.
Proof.
  set (t0 := construct (ensure_nlp cfg1) ex_num ex_int (nlp_options cfg1) ["checkpoint_save_every_N_iter 7"]).
  exists (get_t t0), (get_t (do_op (ensure_nlp cfg1) (SetInt "checkpoint_save_every_N_iter" 9 false) (get_t t0))).
  repeat split; vm_compute; reflexivity.
Qed.
Print Assumptions C14_checkpoint_refuted.
(** an out-of-range value in the file blocks valid runtime values *)
Theorem C14_invalid_file_refuted : exists t0 t, construct (ensure_nlp cfg0) ex_num ex_int (nlp_options cfg0) ["max_iter -3"] = Some t0 /\
  get_int "max_iter" t0 = Some 3000%Z /\ do_op (ensure_nlp cfg0) (SetInt "max_iter" 9 false) t0 = Some t /\ get_int "max_iter" t = Some 3000%Z.
Proof.
  set (t0 := construct (ensure_nlp cfg0) ex_num ex_int (nlp_options cfg0) ["max_iter -3"]).
  exists (get_t t0), (get_t (do_op (ensure_nlp cfg0) (SetInt "max_iter" 9 false) (get_t t0))).
  repeat split; vm_compute; reflexivity.
Qed.
Print Assumptions C14_invalid_file_refuted.

(** *** C15: the consistency pass *)
Theorem C15_pass c t : legal (fun _ => false) (nlp_options c) t ->
  exists t', ensure_nlp c t = Some t' /\ legal (fun _ => false) (nlp_options c) t' /\ consistent c t' /\ ensure_nlp c t' = Some t'.
Proof.
  intro H. destruct (ensure_ok c t H) as (t' & A & [L C _ _ _]). exists t'. split; auto. split; auto. split; auto. apply ensure_id; auto.
Qed.
Theorem C15_frame c t t' : legal (fun _ => false) (nlp_options c) t -> ensure_nlp c t = Some t' ->
  (forall n, ~ In n rule_targets -> val n t' = val n t) /\
  exists eps ms, val "tolerance" t = Some eps /\ get_str "mem_space" t' = Some ms /\
    forall n, val n t' = val n t \/ exists v, val n t' = Some v /\ corrected eps ms n v.
Proof.
  intros H E. destruct (ensure_ok c t H) as (t2 & A & [L C FR _ (eps & ms & V1 & V2 & V3)]). rewrite E in A. injection A as <-.
  split; [|exists eps, ms; auto]. intros n N. destruct (V3 n) as [V|(v & V & X)]; auto.
  destruct N. destruct X as [[I _]|I]; [simpl in *; intuition auto|]. simpl in I. repeat (destruct I as [Q|I]; [injection Q as <- _; simpl; auto 20|]). contradiction.
Qed.
Example C15_case : let t := put "KKTLinsys" (Opt (VStr "condensed" ["auto"; "xycyd"; "xdycyd"; "full"; "condensed"; "normaleqn"]) true false)
      (put "linear_solver_sparse" (Opt (VStr "ma57" ["auto"; "ma57"; "pardiso"; "strumpack"; "resolve"; "ginkgo"; "cusolver-chol"]) true false) (nlp_options cfg0)) in
  legal (fun _ => false) (nlp_options cfg0) t /\
  get_str "linear_solver_sparse" (get_t (ensure_nlp cfg0 t)) = Some "auto" /\ get_str "KKTLinsys" (get_t (ensure_nlp cfg0 t)) = Some "condensed".
Proof.
  cbn zeta. split; [|vm_compute; auto].
  eapply (legal_put _ _ _ "KKTLinsys").
  - eapply (legal_put _ _ _ "linear_solver_sparse"); [apply nlp_legal|vm_compute; reflexivity|reflexivity|intros _; right; vm_compute; auto 8].
  - vm_compute; reflexivity.
  - reflexivity.
  - intros _. right. vm_compute. auto 8.
Qed.
Print Assumptions C15_pass.
Print Assumptions C15_frame.
Theorem C15_pridec c t : legal (fun n => String.eqb n "accum_local") (pridec_options c) t ->
  exists t', ensure_pridec t = Some t' /\ legal (fun n => String.eqb n "accum_local") (pridec_options c) t' /\
    pridec_consistent t' /\ ensure_pridec t' = Some t' /\ (forall n, n <> "acceptable_tolerance" -> find n t' = find n t).
Proof.
  intro H. destruct (pridec_ok c t H) as (t' & A & L & R & F). exists t'. split; auto. split; [exact L|]. split; [exact R|].
  split; [|exact F]. eapply pridec_id; eauto.
Qed.
Example C15_pridec_case : legal (fun n => String.eqb n "accum_local") (pridec_options cfg0) (pridec_options cfg0).
Proof. apply pridec_legal. Qed.
Print Assumptions C15_pridec.
(** a tolerance left at its default may end up below "tolerance" *)
Theorem C15_tolerance_refuted : exists t a e, life (ensure_nlp cfg0) (nlp_options cfg0) ex_num ex_int [] [SetNum "tolerance" f1e2 false] t /\
  get_num "acceptable_tolerance" t = Some a /\ get_num "tolerance" t = Some e /\ flt a e = true.
Proof.
  set (t0 := construct (ensure_nlp cfg0) ex_num ex_int (nlp_options cfg0) []).
  exists (get_t (run (ensure_nlp cfg0) [SetNum "tolerance" f1e2 false] (get_t t0))). do 2 eexists.
  split; [exists (get_t t0); split; vm_compute; reflexivity|]. repeat split; vm_compute; reflexivity.
Qed.
Print Assumptions C15_tolerance_refuted.
(** the Hessian approximation set at runtime does not exclude the full linear system *)
Theorem C15_hessian_refuted : exists t, life (ensure_nlp cfg0) (nlp_options cfg0) ex_num ex_int []
    [SetStr "Hessian" "quasinewton_approx" false; SetStr "KKTLinsys" "full" false] t /\
  get_str "Hessian" t = Some "quasinewton_approx" /\ get_str "KKTLinsys" t = Some "full".
Proof.
  set (t0 := construct (ensure_nlp cfg0) ex_num ex_int (nlp_options cfg0) []).
  exists (get_t (run (ensure_nlp cfg0) [SetStr "Hessian" "quasinewton_approx" false; SetStr "KKTLinsys" "full" false] (get_t t0))).
  split; [exists (get_t t0); split; vm_compute; reflexivity|]. split; vm_compute; reflexivity.
Qed.
Print Assumptions C15_hessian_refuted.
(** both move limits can be active when their product underflows *)
Definition f_tiny := L 4503599627370496 (-652).
Theorem C15_moving_refuted : exists t r a, life (ensure_nlp cfg0) (nlp_options cfg0) ex_num ex_int []
    [SetNum "moving_lim_rel" f_tiny false; SetNum "moving_lim_abs" f_tiny false] t /\
  get_num "moving_lim_rel" t = Some r /\ get_num "moving_lim_abs" t = Some a /\ flt f_zero r = true /\ flt f_zero a = true.
Proof.
  set (t0 := construct (ensure_nlp cfg0) ex_num ex_int (nlp_options cfg0) []).
  exists (get_t (run (ensure_nlp cfg0) [SetNum "moving_lim_rel" f_tiny false; SetNum "moving_lim_abs" f_tiny false] (get_t t0))). do 2 eexists.
  split; [exists (get_t t0); split; vm_compute; reflexivity|]. repeat split; vm_compute; reflexivity.
Qed.
Print Assumptions C15_moving_refuted.
(** the documented order of the elastic-mode relaxations is not enforced *)
Theorem C15_elastic_refuted : exists t i f, life (ensure_nlp cfg0) (nlp_options cfg0) ex_num ex_int []
    [SetNum "elastic_mode_bound_relax_final" (L 7205759403792794 (-56)) false] t /\
  get_num "elastic_mode_bound_relax_initial" t = Some i /\ get_num "elastic_mode_bound_relax_final" t = Some f /\ flt i f = true.
Proof.
  set (t0 := construct (ensure_nlp cfg0) ex_num ex_int (nlp_options cfg0) []).
  exists (get_t (run (ensure_nlp cfg0) [SetNum "elastic_mode_bound_relax_final" (L 7205759403792794 (-56)) false] (get_t t0))). do 2 eexists.
  split; [exists (get_t t0); split; vm_compute; reflexivity|]. repeat split; vm_compute; reflexivity.
Qed.
Print Assumptions C15_elastic_refuted.
