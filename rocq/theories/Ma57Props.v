(** C86: the MA57 wrapper: which matrix MA57 is given, and how the factorization loop ends. *)
From Coq Require Import List Bool Arith ZArith Lia QArith Qcanon.
From Verif Require Import RingKit SparseModel SparseSpec CsrModel CsrSpec CsrProofs2 Ma57Model Ma57Spec Ma57Proofs Ma57Proofs2.
Import ListNotations.
Close Scope Qc_scope. Close Scope Q_scope. Open Scope nat_scope.

(** numbers of the examples *)
Definition q (k : Z) : Qc_field := Q2Qc (inject_Z k).

(** CSR class: for every sequence of changes of the matrix values, factorizations and solves, each MA57 call
    is given 1-based lower-triangle positions that MA57 reads as the symmetric matrix with the lower
    triangle of the right matrix: the current one for a factorization, the one last factorized for a
    solve.  A solve before the first factorization fails. *)
Theorem C86_given : forall (K : cfield) n (A0 : csr K) rs0 ops opr,
  0 < n -> like n rs0 A0 rs0 -> Forall2 (same_op (like n rs0)) ops opr ->
  exists w, new_csr_wrap A0 = Some w /\
  match about rs0 None opr with
  | None => runs fact_csr solve_csr w A0 ops = None
  | Some l => exists evs, runs fact_csr solve_csr w A0 ops = Some evs /\
      Forall2 (fun e p => is_fact e = fst p /\ lower_one_based n (given e) /\
                          forall i j, reading (given e) i j = lower_sym (snd p) i j) evs l
  end.
Proof.
  intros K n A0 rs0 ops opr N L F. destruct (like_facts K n rs0 A0 rs0 L) as (C & M & Nn & _ & Ln).
  unfold new_csr_wrap. rewrite C, M. eexists. split; [reflexivity|].
  pose proof (runs_csr K n rs0 N ops opr F A0 rs0 None [] None L eq_refl) as R. rewrite R. clear R.
  assert (P : forall opr cur last l, length cur = n -> match last with Some m => length m = n | None => True end ->
     (forall ops, Forall2 (same_op (like n rs0)) ops opr -> about cur last opr = Some l -> Forall (fun p => length (snd p) = n) l)).
  { clear. induction opr as [|o t IH]; intros cur last l Hc Hl ops F E; [injection E as <-; constructor|].
    inversion_clear F as [|x y xs ys Hx Hxs]. destruct o as [B| |].
    - destruct x as [A| |]; cbn in Hx; try contradiction. cbn in E. refine (IH B last l _ Hl xs Hxs E). destruct Hx as [S [M _]]. destruct S as [S _]. congruence.
    - cbn in E. destruct (about cur (Some cur) t) as [l'|] eqn:E'; [|discriminate]. injection E as <-. constructor; [exact Hc|]. apply (IH cur (Some cur) l' Hc Hc xs Hxs E').
    - cbn in E. destruct last as [m|]; [|discriminate]. destruct (about cur (Some m) t) as [l'|] eqn:E'; [|discriminate]. injection E as <-. constructor; [exact Hl|]. apply (IH cur (Some m) l' Hc Hl xs Hxs E'). }
  destruct (about rs0 None opr) as [l|] eqn:E; [|reflexivity]. exists (map (ev K) l). split; [reflexivity|].
  specialize (P opr rs0 None l Ln I ops F E). clear -P.
  induction P as [|[k m] t H HP IH]; cbn [map]; constructor; [|exact IH]. cbn in H.
  split; [destruct k; reflexivity|].
  assert (G : given (ev K (k, m)) = low_rows 0 m) by (destruct k; reflexivity). rewrite G.
  split; [apply low_triangle; lia|intros i j; apply reading_lower_sym].
Qed.
Print Assumptions C86_given.

(** both documented storages are understood as intended: full symmetric storage as the matrix itself,
    lower-triangular storage as the symmetric matrix it stands for *)
Theorem C86_storage : forall (K : cfield) n (A0 : csr K) rs0, 0 < n -> like n rs0 A0 rs0 ->
  exists w l, new_csr_wrap A0 = Some w /\ runs fact_csr solve_csr w A0 [Factor] = Some [Fact l] /\
  (symmetric n rs0 -> forall i j, i < n -> j < n -> reading l i j = cmat rs0 i j) /\
  (lower_only rs0 -> forall i j, i < n -> j < n -> reading l i j = completion rs0 i j).
Proof.
  intros K n A0 rs0 N L. destruct (C86_given K n A0 rs0 [Factor] [Factor] N L) as [w [W E]]; [repeat constructor|]. cbn [about option_map] in E.
  destruct E as [evs [E F]]. inversion F as [|e p es ps [H1 [H2 H3]] HF]; subst. inversion HF; subst. cbn in H1.
  destruct e as [l|l]; [|discriminate]. exists w, l. split; [exact W|]. split; [exact E|]. cbn [given snd] in H3. split.
  - intros S i j Hi Hj. rewrite H3. unfold lower_sym. destruct (j <=? i); [reflexivity|apply S; assumption].
  - intros S i j Hi Hj. rewrite H3. unfold lower_sym, completion.
    assert (Z : forall a b, a < b -> cmat rs0 a b = f0).
    { intros a b Hab. unfold cmat. apply lsum_zero. intros p Hp. destruct (Nat.eqb_spec (fst p) b) as [Eb|]; [|reflexivity].
      assert (stored rs0 a b) as St by (unfold stored; rewrite <- Eb; apply in_map; exact Hp). apply S in St. lia. }
    destruct (Nat.eqb_spec i j) as [->|Nij]; [rewrite Nat.leb_refl; reflexivity|].
    destruct (Nat.leb_spec j i); [rewrite (Z j i) by lia; symmetry; apply plus0r|rewrite (Z i j) by lia; symmetry; apply plus0l].
Qed.
Print Assumptions C86_storage.
(** the rows of a 2 x 2 matrix stored in full, with three sets of values *)
Definition fullrows (a b c : Z) : list (list (nat * Qc_field)) := [[(0, q a); (1, q b)]; [(0, q b); (1, q c)]].
Definition full (a b c : Z) : csr Qc_field := Csr 2 2 4 [0; 2; 4] [0; 1; 0; 1] [q a; q b; q b; q c] None.
Lemma full_like a b c a' b' c' : like 2 (fullrows a' b' c') (full a b c) (fullrows a b c).
Proof.
  split; [|repeat split]. split; [reflexivity|]. split; [reflexivity|]. split; [reflexivity|]. split.
  - intros [|[|[|i]]] r H; cbn in H; try discriminate; injection H as <-; split; reflexivity.
  - repeat (split; [reflexivity|]). repeat constructor.
Qed.
Example C86_given_case :
  Forall2 (same_op (like 2 (fullrows 4 1 3))) [Factor; Update (full 5 2 6); Solve; Factor; Solve] [Factor; Update (fullrows 5 2 6); Solve; Factor; Solve] /\
  about (fullrows 4 1 3) None [Factor; Update (fullrows 5 2 6); Solve; Factor; Solve] =
    Some [(true, fullrows 4 1 3); (false, fullrows 4 1 3); (true, fullrows 5 2 6); (false, fullrows 5 2 6)] /\
  match new_csr_wrap (full 4 1 3) with
  | Some w => runs fact_csr solve_csr w (full 4 1 3) [Factor; Update (full 5 2 6); Solve; Factor; Solve] =
     Some [Fact [(1,1,q 4); (2,1,q 1); (2,2,q 3)]; Sol [(1,1,q 4); (2,1,q 1); (2,2,q 3)];
           Fact [(1,1,q 5); (2,1,q 2); (2,2,q 6)]; Sol [(1,1,q 5); (2,1,q 2); (2,2,q 6)]]
  | None => False end /\ symmetric 2 (fullrows 4 1 3).
Proof.
  split; [repeat (apply Forall2_cons; [first [exact I|apply full_like]|]); apply Forall2_nil|]. split; [reflexivity|]. split; [reflexivity|].
  intros [|[|i]] [|[|j]] Hi Hj; try lia; reflexivity.
Qed.

(** an upper-triangular CSR matrix, which other solvers take, is silently understood as its diagonal *)
Theorem C86_upper_refuted : forall (K : cfield) n (A0 : csr K) rs0, 0 < n -> like n rs0 A0 rs0 -> upper_only rs0 ->
  exists w l, new_csr_wrap A0 = Some w /\ runs fact_csr solve_csr w A0 [Factor] = Some [Fact l] /\
  forall i j, reading l i j = if i =? j then cmat rs0 i i else f0.
Proof.
  intros K n A0 rs0 N L U. destruct (C86_given K n A0 rs0 [Factor] [Factor] N L) as [w [W E]]; [repeat constructor|]. cbn [about option_map] in E.
  destruct E as [evs [E F]]. inversion F as [|e p es ps [H1 [H2 H3]] HF]; subst. inversion HF; subst. cbn in H1.
  destruct e as [l|l]; [|discriminate]. exists w, l. split; [exact W|]. split; [exact E|]. cbn [given snd] in H3.
  intros i j. rewrite H3. unfold lower_sym.
  assert (Z : forall a b, b < a -> cmat rs0 a b = f0).
  { intros a b Hab. unfold cmat. apply lsum_zero. intros p Hp. destruct (Nat.eqb_spec (fst p) b) as [Eb|]; [|reflexivity].
    assert (stored rs0 a b) as St by (unfold stored; rewrite <- Eb; apply in_map; exact Hp). apply U in St. lia. }
  destruct (Nat.eqb_spec i j) as [->|Nij]; [rewrite Nat.leb_refl; reflexivity|].
  destruct (Nat.leb_spec j i); apply Z; lia.
Qed.
Print Assumptions C86_upper_refuted.
Definition upper : csr Qc_field := Csr 2 2 3 [0; 2; 3] [0; 1; 1] [q 4; q 1; q 3] None.
Definition upperrows : list (list (nat * Qc_field)) := [[(0, q 4); (1, q 1)]; [(1, q 3)]].
Example C86_upper_case : like 2 upperrows upper upperrows /\ upper_only upperrows /\ completion upperrows 0 1 = q 1 /\
  match new_csr_wrap upper with
  | Some w => runs fact_csr solve_csr w upper [Factor] = Some [Fact [(1,1,q 4); (2,2,q 3)]]
  | None => False end.
Proof.
  split; [|split; [|split; [apply Qc_is_canon; vm_compute; reflexivity|reflexivity]]].
  - split; [|repeat split]. split; [reflexivity|]. split; [reflexivity|]. split; [reflexivity|]. split.
    + intros [|[|[|i]]] r H; cbn in H; try discriminate; injection H as <-; split; reflexivity.
    + repeat (split; [reflexivity|]). repeat constructor.
  - intros [|[|i]] j H; unfold stored in H; cbn in H; try (destruct i; cbn in H); lia.
Qed.

(** the positions are taken from the first matrix factorized: after a change of pattern with as many
    entries in the lower triangle, the new values are given with the old positions *)
Theorem C86_pattern_refuted : exists (A B : csr Qc_field) ra rb w l,
  like 3 ra A ra /\ like 3 rb B rb /\ lower_only ra /\ lower_only rb /\ new_csr_wrap A = Some w /\
  runs fact_csr solve_csr w A [Factor; Update B; Factor] = Some l /\
  exists e, nth_error l 1 = Some (Fact e) /\ reading e 2 0 <> lower_sym rb 2 0.
Proof.
  exists (Csr 3 3 4 [0; 1; 3; 4] [0; 0; 1; 2] [q 1; q 5; q 2; q 3] None), (Csr 3 3 4 [0; 1; 2; 4] [0; 1; 0; 2] [q 1; q 2; q 7; q 3] None),
    [[(0, q 1)]; [(0, q 5); (1, q 2)]; [(2, q 3)]], [[(0, q 1)]; [(1, q 2)]; [(0, q 7); (2, q 3)]].
  eexists. eexists. split; [|split; [|split; [|split; [|split; [reflexivity|split; [reflexivity|]]]]]].
  - split; [|repeat split]. split; [reflexivity|]. split; [reflexivity|]. split; [reflexivity|]. split.
    + intros [|[|[|[|i]]]] r H; cbn in H; try discriminate; injection H as <-; split; reflexivity.
    + repeat (split; [reflexivity|]). repeat constructor.
  - split; [|repeat split]. split; [reflexivity|]. split; [reflexivity|]. split; [reflexivity|]. split.
    + intros [|[|[|[|i]]]] r H; cbn in H; try discriminate; injection H as <-; split; reflexivity.
    + repeat (split; [reflexivity|]). repeat constructor.
  - intros [|[|[|i]]] j H; unfold stored in H; cbn in H; try (destruct i; cbn in H); lia.
  - intros [|[|[|i]]] j H; unfold stored in H; cbn in H; try (destruct i; cbn in H); lia.
  - eexists. split; [reflexivity|]. intro H. apply (f_equal this) in H. vm_compute in H. discriminate H.
Qed.
Print Assumptions C86_pattern_refuted.

(** triplet class: every call is given all triplets with 1-based positions, read by MA57 as the symmetric
    matrix of which one triangle is stored; a solve is about the current values *)
Theorem C86_triplet : forall (K : cfield) n (A0 : trip K) l0 ops opr,
  0 < n -> liket n l0 A0 l0 -> Forall2 (same_op (liket n l0)) ops opr ->
  match about_now l0 false opr with
  | None => runs fact_trip solve_trip (new_trip_wrap n (length l0)) A0 ops = None
  | Some l => exists evs, runs fact_trip solve_trip (new_trip_wrap n (length l0)) A0 ops = Some evs /\
      Forall2 (fun e p => is_fact e = fst p /\ forall i j, reading (given e) i j = symmat (snd p) i j) evs l
  end.
Proof.
  intros K n A0 l0 ops opr N L F. pose proof (runs_trip K n l0 N ops opr F A0 l0 None [] false L eq_refl) as R. unfold new_trip_wrap. rewrite R. clear R.
  destruct (about_now l0 false opr) as [l|]; [|reflexivity]. exists (map (evt K) l). split; [reflexivity|].
  clear. induction l as [|[k m] t IH]; cbn [map]; constructor; [|exact IH].
  split; [destruct k; reflexivity|]. intros i j. assert (G : given (evt K (k, m)) = one_based K m) by (destruct k; reflexivity). rewrite G. apply reading_trip.
Qed.
Print Assumptions C86_triplet.
Definition tl (a b c : Z) : list (entry Qc_field) := [(0,0,q a); (1,0,q b); (1,1,q c)].
Example C86_triplet_case :
  liket 2 (tl 4 1 3) (Trip 2 2 (tl 4 1 3)) (tl 4 1 3) /\ liket 2 (tl 4 1 3) (Trip 2 2 (tl 5 2 6)) (tl 5 2 6) /\
  runs fact_trip solve_trip (new_trip_wrap 2 3) (Trip 2 2 (tl 4 1 3)) [Factor; Solve; Update (Trip 2 2 (tl 5 2 6)); Factor] =
   Some [Fact [(1,1,q 4); (2,1,q 1); (2,2,q 3)]; Sol [(1,1,q 4); (2,1,q 1); (2,2,q 3)]; Fact [(1,1,q 5); (2,1,q 2); (2,2,q 6)]].
Proof. split; [repeat split|]. split; [repeat split|]. reflexivity. Qed.
(** with the triplet class, the iterative refinement of a solve after a change of the matrix uses another
    matrix than the factors *)
Theorem C86_refinement_refuted : exists (A B : trip Qc_field) l0 l1 f s,
  liket 2 l0 A l0 /\ liket 2 l0 B l1 /\
  runs fact_trip solve_trip (new_trip_wrap 2 (length l0)) A [Factor; Update B; Solve] = Some [Fact f; Sol s] /\
  about l0 None [Factor; Update l1; Solve] = Some [(true, l0); (false, l0)] /\ reading s 0 0 <> symmat l0 0 0.
Proof.
  exists (Trip 2 2 (tl 4 1 3)), (Trip 2 2 (tl 5 2 6)), (tl 4 1 3), (tl 5 2 6). eexists. eexists.
  split; [repeat split|]. split; [repeat split|]. split; [reflexivity|]. split; [reflexivity|]. intro H. apply (f_equal this) in H. vm_compute in H. discriminate H.
Qed.
Print Assumptions C86_refinement_refuted.

(** * The factorization loop *)
Local Open Scope Z_scope.
(** the new size for a request [k] is [k] plus 5% rounded down, although computed in binary64, up to the
    largest request; above it the conversion to int is undefined *)
Theorem C86_sizes : forall k, 0 <= k <= 2147483647 ->
  (k <= max_request -> grow k = Some (21 * k / 20)) /\ (max_request < k -> grow k = None).
Proof. intros k H. split; intro B; [apply grow_some; lia|apply grow_none; lia]. Qed.
Print Assumptions C86_sizes.
Example C86_sizes_case : grow 1000 = Some 1050 /\ grow 19 = Some 19 /\ grow max_request = Some 2147483647 /\ grow (max_request + 1) = None.
Proof. vm_compute. auto. Qed.

(** the factorization ends: if MA57BD, whenever it asks for workspace, asks for more than it had and never
    more than [R] reals and [I] integers, the loop makes at most one call per missing word plus one, never
    shrinks a workspace nor grows it beyond 105% of what may be asked for, and returns what the last call
    says: its number of negative eigenvalues, or -1 exactly for a rank deficient matrix *)
Theorem C86_loop_ends_partial : forall R I bd dbg fr fi fuel,
  tame R I bd -> R <= max_request -> I <= max_request -> 0 <= fr <= max_request -> 0 <= fi <= max_request ->
  Z.max 0 (R - 21 * fr / 20) + Z.max 0 (I - 21 * fi / 20) < Z.of_nat fuel ->
  exists c lr li, let a := bd c lr li in
    first_fact dbg fr fi bd fuel = Return (S c) lr li (if i_code a =? 4 then -1 else i_neg a) /\
    (i_code a = 0 \/ i_code a = 4) /\
    Z.of_nat c <= Z.max 0 (R - 21 * fr / 20) + Z.max 0 (I - 21 * fi / 20) /\
    21 * fr / 20 <= lr <= Z.max (21 * fr / 20) (21 * R / 20) /\ 21 * fi / 20 <= li <= Z.max (21 * fi / 20) (21 * I / 20).
Proof.
  intros R I bd dbg fr fi fuel T HR HI Hr Hi Hf.
  destruct (grow_some fr Hr) as [G1 B1]. destruct (grow_some fi Hi) as [G2 B2]. unfold first_fact. rewrite G1, G2.
  set (r := 21 * fr / 20) in *. set (i := 21 * fi / 20) in *.
  replace (r <? 0) with false by (symmetry; apply Z.ltb_ge; lia). replace (i <? 0) with false by (symmetry; apply Z.ltb_ge; lia). cbn [orb].
  destruct (loop_ends R I bd dbg T HR HI fuel 0 r i) as (d & lr & li & H1 & H2 & H3 & H4 & H5); [lia|lia|unfold room; lia|].
  exists d, lr, li. cbv zeta. rewrite Nat.add_0_l in *. split; [exact H1|]. split; [exact H3|]. unfold room in H2. lia.
Qed.
Print Assumptions C86_loop_ends_partial.
(** a routine needing 2000 reals and 300 integers, told in two steps *)
Definition bd_ex (c : nat) (lr li : Z) : info :=
  if lr <? 1500 then Info (-3) 1500 0 0 else if lr <? 2000 then Info (-3) 2000 0 0 else if li <? 300 then Info (-4) 0 300 0 else Info 0 0 0 7.
Example C86_loop_case : tame 2000 300 bd_ex /\ first_fact true 1000 100 bd_ex 2000 = Return 4 2100 315 7.
Proof.
  split; [|vm_compute; reflexivity]. intros c lr li Hr Hi. unfold bd_ex.
  destruct (Z.ltb_spec lr 1500); [cbn; right; right; left; lia|]. destruct (Z.ltb_spec lr 2000); [cbn; right; right; left; lia|].
  destruct (Z.ltb_spec li 300); [cbn; right; right; right; lia|cbn; left; lia].
Qed.

(** without those assumptions the loop may never end or may abort: a request below 20 that is not above
    the current size; an unknown error code without asserts; any warning other than rank deficiency with
    asserts; a request above the largest one *)
Theorem C86_loop_ends_refuted :
  (exists bd k, (forall c lr li, i_code (bd c lr li) = -3 /\ i_real (bd c lr li) = k) /\ forall dbg fuel, first_fact dbg k k bd fuel = Running) /\
  (exists bd, (forall c lr li, i_code (bd c lr li) = -2) /\ forall fuel, first_fact false 100 100 bd fuel = Running) /\
  (exists bd, (forall c lr li, i_code (bd c lr li) = 1) /\ forall fuel, first_fact true 100 100 bd (S fuel) = Abort) /\
  (exists bd, tame 2100000000 100 bd /\ forall dbg fuel, first_fact dbg 100 100 bd (S fuel) = Undefined).
Proof.
  split; [|split; [|split]].
  - exists (fun _ _ _ => Info (-3) 12 0 0), 12. split; [intros; split; reflexivity|]. intros dbg fuel. unfold first_fact.
    replace (grow 12) with (Some 12) by (vm_compute; reflexivity). cbn [Z.ltb Z.compare orb]. apply (loop_stuck dbg _ 12); [lia|]. intros; split; reflexivity.
  - exists (fun _ _ _ => Info (-2) 0 0 0). split; [reflexivity|]. intro fuel. unfold first_fact. replace (grow 100) with (Some 105) by (vm_compute; reflexivity).
    cbn [Z.ltb Z.compare orb]. apply (loop_unknown _ (-2)); try lia. reflexivity.
  - exists (fun _ _ _ => Info 1 0 0 0). split; [reflexivity|]. intro fuel. unfold first_fact. replace (grow 100) with (Some 105) by (vm_compute; reflexivity). reflexivity.
  - exists (fun _ lr _ => if lr <? 2100000000 then Info (-3) 2100000000 0 0 else Info 0 0 0 0). split.
    + intros c lr li Hr Hi. destruct (Z.ltb_spec lr 2100000000); [cbn; right; right; left; lia|cbn; left; lia].
    + intros dbg fuel. unfold first_fact. replace (grow 100) with (Some 105) by (vm_compute; reflexivity). cbn [Z.ltb Z.compare Pos.compare Pos.compare_cont orb loop i_code i_real Z.eqb].
      replace (grow 2100000000) with (@None Z) by (vm_compute; reflexivity). reflexivity.
Qed.
Print Assumptions C86_loop_ends_refuted.
