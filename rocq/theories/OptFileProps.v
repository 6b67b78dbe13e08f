(** C85: what the options file does. *)
From Coq Require Import List Bool ZArith String Ascii Lia.
From Verif Require Import FloatBase FloatFacts OptModel OptSpec OptProofs OptProofs2 OptProofs3 OptProofs4 OptProps OptFileModel OptFileSpec OptFileProofs.
Import ListNotations.
Open Scope string_scope.

(** a line is read as a name and a value exactly when its first two words are these and it is no comment *)
Theorem C85_line : forall line n v, parse_line line = Some (n, v) <-> line_says line n v.
Proof. exact parse_iff. Qed.
Print Assumptions C85_line.
Example C85_line_case : line_says "  max_iter 7 # cap" "max_iter" "7" /\ parse_line "  max_iter 7 # cap" = Some ("max_iter", "7").
Proof. split; [apply C85_line|]; reflexivity. Qed.

(** the lines that say nothing are the blank ones, the comments and those with a single word *)
Theorem C85_ignored : forall line, (forall n v, ~ line_says line n v) <-> blank line \/ comment line \/ one_word line.
Proof. exact nothing_iff. Qed.
Print Assumptions C85_ignored.
Example C85_ignored_case : (forall n v, ~ line_says " # max_iter 7" n v) /\ comment " # max_iter 7" /\ (forall n v, ~ line_says "max_iter" n v).
Proof.
  assert (H : forall l, parse_line l = None -> forall n v, ~ line_says l n v) by (intros l E n v S; apply C85_line in S; congruence).
  split; [apply H; reflexivity|]. split; [|apply H; reflexivity]. exists " ", " max_iter 7". split; [reflexivity|].
  intros [|[|i]] a E; try discriminate. injection E as <-. left. reflexivity.
Qed.

(** constructing the object with a file is the same as making, on the registered defaults, one call
    per line that names a registered option and gives a readable value, in the order of the lines and
    with the "from file" flag; there is exactly one such list of calls *)
Theorem C85_calls : forall c pn pi ls, (forall s v, pn s = Some v -> is_nan v = false) ->
  exists ops, file_calls (nlp_options c) pn pi ls ops /\ (forall ops', file_calls (nlp_options c) pn pi ls ops' -> ops' = ops) /\
    construct (ensure_nlp c) pn pi (nlp_options c) ls = run (ensure_nlp c) (ops ++ [SetLog]) (nlp_options c).
Proof.
  intros c pn pi ls N. destruct (calls_exist c pn pi ls) as [ops F]. exists ops. split; [exact F|]. split; [intros ops'; apply (calls_unique c pn pi ls ops F)|].
  unfold construct. rewrite (load_calls c pn pi N ls ops F _ (nlp_legal c)).
  assert (G : forall t, match run (ensure_nlp c) ops t with Some t' => ensure_nlp c t' | None => None end = run (ensure_nlp c) (ops ++ [SetLog]) t).
  { clear. induction ops as [|o ops IH]; intro t; cbn [run app do_op].
    - destruct (ensure_nlp c t); reflexivity.
    - destruct (do_op (ensure_nlp c) o t); [apply IH|reflexivity]. }
  apply G.
Qed.
Print Assumptions C85_calls.
Example C85_calls_case : file_calls (nlp_options cfg0) ex_num read_int
    ["# my options"; "max_iter 12"; ""; "no_such_option 3"; "tolerance abc"; " KKTLinsys	Full now"]
    [SetInt "max_iter" 12 true; SetStr "KKTLinsys" "Full" true] /\
  exists t, construct (ensure_nlp cfg0) ex_num read_int (nlp_options cfg0)
    ["# my options"; "max_iter 12"; ""; "no_such_option 3"; "tolerance abc"; " KKTLinsys	Full now"] = Some t /\
    get_int "max_iter" t = Some 12%Z /\ get_str "KKTLinsys" t = Some "full".
Proof.
  set (ls := ["# my options"; "max_iter 12"; ""; "no_such_option 3"; "tolerance abc"; " KKTLinsys	Full now"]).
  assert (H : forall l, parse_line l = None -> forall n v, ~ line_says l n v) by (intros l E n v S; apply C85_line in S; congruence).
  split.
  - apply fc_nothing; [apply H; reflexivity|]. eapply fc_int; [apply C85_line; reflexivity|vm_compute; reflexivity|reflexivity|].
    apply fc_nothing; [apply H; reflexivity|]. eapply fc_unknown; [apply C85_line; reflexivity|vm_compute; reflexivity|].
    eapply fc_nonum; [apply C85_line; reflexivity|vm_compute; reflexivity|reflexivity|].
    eapply fc_str; [apply C85_line; reflexivity|vm_compute; reflexivity|]. constructor.
  - exists (get_t (construct (ensure_nlp cfg0) ex_num read_int (nlp_options cfg0) ls)). repeat split; vm_compute; reflexivity.
Qed.

(** a text option without a list of values takes the text with A-Z replaced by a-z; one with a list
    takes it exactly when that text is in the list, and keeps its value otherwise *)
Theorem C85_text : forall ens n v old range f r t, find n t = Some (Opt (VStr old range) f r) ->
  exists lv, lower_case_of v lv /\ (forall lv', lower_case_of v lv' -> lv' = lv) /\
    ((range = [] \/ In lv range) -> set_string ens n v true t = ens (put n (Opt (VStr lv range) true r) t)) /\
    (~ (range = [] \/ In lv range) -> set_string ens n v true t = ens (put n (Opt (VStr old range) true r) t)).
Proof.
  intros ens n v old range f r t E. exists (lower v). split; [apply lower_ok|]. split; [intros lv' H; exact (lower_unique v lv' (lower v) H (lower_ok v))|].
  unfold set_string. rewrite E. replace (f && negb true) with false by (destruct f; reflexivity). cbv zeta iota.
  assert (R : in_range_str (lower v) range = true <-> In (lower v) range).
  { unfold in_range_str. rewrite existsb_exists. split; [intros (x & I & X); apply String.eqb_eq in X; congruence|intro I; exists (lower v); rewrite String.eqb_refl; auto]. }
  split; intro H.
  - replace (negb (in_range_str (lower v) range) && _) with false; [reflexivity|]. symmetry. apply andb_false_iff.
    destruct H as [->|I]; [right; reflexivity|left; rewrite (proj2 R I); reflexivity].
  - replace (negb (in_range_str (lower v) range) && _) with true; [reflexivity|]. symmetry. apply andb_true_iff. split; apply negb_true_iff.
    + destruct (in_range_str (lower v) range); [|reflexivity]. destruct H. right. apply R. reflexivity.
    + destruct range; [destruct H; left; reflexivity|reflexivity].
Qed.
Print Assumptions C85_text.
Example C85_text_case : lower_case_of "FulL_7z" "full_7z".
Proof. exact (lower_ok "FulL_7z"). Qed.

(** what is read as an integer: the longest start of the word that is a decimal number, if there is
    one and it fits an int *)
Theorem C85_integer_partial : forall s v, read_int s = Some v <->
  exists w rest, s = w ++ rest /\ writes_int w v /\ (forall a d, String.get 0 rest = Some a -> ~ digit_char d a) /\ (-2147483648 <= v <= 2147483647)%Z.
Proof. exact read_iff. Qed.
Print Assumptions C85_integer_partial.
Example C85_integer_case : read_int "-120" = Some (-120)%Z /\ writes_int "-120" (-120) /\ read_int "4000000000" = None /\ read_int "=" = None.
Proof.
  split; [reflexivity|]. split; [|split; reflexivity]. exists "-", (-1)%Z, "120", [1; 2; 0]%Z. split; [reflexivity|].
  split; [right; right; auto|]. split; [repeat (constructor; [split; [lia|reflexivity]|]); constructor|]. split; [discriminate|reflexivity].
Qed.

(** a value that is no integer is not rejected: "max_iter 1e3" limits the run to one iteration *)
Theorem C85_scientific_refuted : (forall v, ~ writes_int "1e3" v) /\
  exists t, construct (ensure_nlp cfg0) ex_num read_int (nlp_options cfg0) ["max_iter 1e3"] = Some t /\ get_int "max_iter" t = Some 1%Z.
Proof.
  split.
  - intros v (sg & z & ds & l & E & S & D & _ & _). destruct S as [[-> _]|[[-> _]|[-> _]]]; try discriminate. cbn in E. subst ds.
    inversion D as [|d a s l' Da D']. subst. inversion D' as [|d' a s l'' Db D'']. subst. destruct Db as [X1 X2].
    change (Z.of_nat (nat_of_ascii "e")) with 101%Z in X2. lia.
  - exists (get_t (construct (ensure_nlp cfg0) ex_num read_int (nlp_options cfg0) ["max_iter 1e3"])). split; vm_compute; reflexivity.
Qed.
Print Assumptions C85_scientific_refuted.
