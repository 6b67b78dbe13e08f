(** C39 (Kron reduction), C58 (assembling a complex sparse matrix), C59 (slices), C60 and C61 (failures and
    second use of a reduction object). *)
From Coq Require Import List Bool Arith Lia Sorted Permutation Ring Field Field_theory QArith Qcanon.
From Verif Require Import RingKit KronModel KronSpec KronProofs KronProofs2 KronProofs3.
Import ListNotations.
Close Scope Qc_scope. Close Scope Q_scope. Open Scope nat_scope.

(** complex numbers with rational parts, for the concrete cases *)
Section Gauss.
Local Open Scope Qc_scope.
Definition gauss := (Qc * Qc)%type.
Definition gadd (a b : gauss) : gauss := (fst a + fst b, snd a + snd b).
Definition gmul (a b : gauss) : gauss := (fst a * fst b - snd a * snd b, fst a * snd b + snd a * fst b).
Definition gopp (a : gauss) : gauss := (- fst a, - snd a).
Definition gsub (a b : gauss) : gauss := (fst a - fst b, snd a - snd b).
Definition ginv (a : gauss) : gauss := let d := fst a * fst a + snd a * snd a in (fst a / d, - snd a / d).
Definition gdiv (a b : gauss) : gauss := gmul a (ginv b).
Lemma sq_sum_zero (a b : Qc) : a * a + b * b = 0 -> a = 0 /\ b = 0.
Proof.
  intro H.
  assert (P : forall x : Qc, 0 <= x * x).
  { intro x. destruct (Qclt_le_dec x 0) as [L|L].
    - replace (x * x) with ((- x) * (- x)) by ring. assert (0 <= - x) by (replace 0 with (-0) by ring; apply Qcopp_le_compat, Qclt_le_weak, L).
      replace 0 with (0 * - x) by ring. apply Qcmult_le_compat_r; auto.
    - replace 0 with (0 * x) by ring. apply Qcmult_le_compat_r; auto. }
  assert (Z : forall x y : Qc, 0 <= x -> 0 <= y -> x + y = 0 -> x = 0).
  { intros x y Hx Hy E. apply Qcle_antisym; auto. rewrite <- E. rewrite <- (Qcplus_0_r x) at 1. apply Qcplus_le_compat; auto. apply Qcle_refl. }
  assert (S : forall x : Qc, x * x = 0 -> x = 0) by (intros x E; destruct (Qcmult_integral _ _ E); auto).
  split; apply S.
  - apply (Z _ (b * b)); auto.
  - apply (Z _ (a * a)); auto. rewrite <- H. ring.
Qed.
Lemma g_ft : field_theory ((0, 0) : gauss) (1, 0) gadd gmul gsub gopp gdiv ginv eq.
Proof.
  constructor.
  - constructor; intros; unfold gadd, gmul, gsub, gopp; try (destruct x); try (destruct y); try (destruct z); simpl; f_equal; ring.
  - intro H. injection H as H. discriminate H.
  - reflexivity.
  - intros [a b] H. unfold gmul, ginv. simpl.
    assert (D : a * a + b * b <> 0). { intro E. apply sq_sum_zero in E as [-> ->]. congruence. }
    f_equal; field; exact D.
Qed.
End Gauss.
Definition G : cfield := CField gauss _ _ _ _ _ _ _ _ g_ft.
(** the number a + b*i *)
Definition gz (a b : Z) : G := (Q2Qc (inject_Z a), Q2Qc (inject_Z b)).

Section Ring.
Variable K : cfield.
Add Field kkf : (fth K).
Lemma mul_assoc (a b c : K) : a *! b *! c = a *! (b *! c).
Proof. ring. Qed.
Lemma plain (a : K) : f1 *! f0 +! f1 *! a = a.
Proof. ring. Qed.
Lemma times_opp_zero (a : K) : a *! fopp f0 = f0.
Proof. ring. Qed.
End Ring.

(** C58: sort_indexes followed by sum_up_duplicates leaves the matrix unchanged and stores each position once, in row
    order.  The second function is proved right for every outcome the sort may have (std::sort may put equal positions
    in any order). *)
Theorem C58_assemble : forall (K : cfield) (raw : list (nat * nat * K)),
  (forall sorted, Permutation raw sorted -> weakly_row_major sorted ->
     row_major (sum_up_duplicates sorted) /\
     (forall i j, dense (sum_up_duplicates sorted) i j = dense raw i j) /\
     (forall m n, inside m n raw -> inside m n (sum_up_duplicates sorted))) /\
  Permutation raw (sort_indexes raw) /\ weakly_row_major (sort_indexes raw).
Proof.
  intros K raw. split; [|split; [apply sort_perm|apply sort_weak]].
  intros sorted P W. split; [now apply sum_major|]. split.
  - intros i j. rewrite sum_dense. symmetry. now apply dense_perm.
  - intros m n I. apply sum_inside. unfold inside in *. rewrite Forall_forall in *. intros e He. apply I. now rewrite P.
Qed.
Print Assumptions C58_assemble.
Example C58_case :
  sum_up_duplicates (sort_indexes [(1, 0, gz 1 1); (0, 2, gz 2 0); (1, 0, gz 3 (-4)); (0, 1, gz 5 0)])
  = [(0, 1, gz 5 0); (0, 2, gz 2 0); (1, 0, gz 1 1 +! gz 3 (-4))].
Proof. reflexivity. Qed.

(** C59: the slices *)
Theorem C59_slice : forall (K : cfield) (A : smat K) rows cols,
  row_major (sm_e A) -> index_list (sm_m A) rows -> index_list (sm_n A) cols ->
  exists S, new_slice A rows cols = Some S /\ sm_m S = length rows /\ sm_n S = length cols /\
    row_major (sm_e S) /\ inside (length rows) (length cols) (sm_e S) /\
    (forall i j, i < length rows -> j < length cols -> dense (sm_e S) i j = block (dense (sm_e A)) rows cols i j).
Proof. intros K A rows cols H R C. apply slice_spec; auto. apply C. Qed.
Print Assumptions C59_slice.

Theorem C59_symmetric_slice : forall (K : cfield) (A : smat K) idxs,
  row_major (sm_e A) -> sm_n A = sm_m A -> index_list (sm_m A) idxs ->
  exists S, new_slice_sym_sym A idxs = Some S /\ sm_m S = length idxs /\ sm_n S = length idxs /\
    row_major (sm_e S) /\ inside (length idxs) (length idxs) (sm_e S) /\
    (forall i j, i < length idxs -> j < length idxs -> j < i -> dense (sm_e S) i j = f0) /\
    (forall i j, i < length idxs -> j < length idxs ->
       from_upper (dense (sm_e S)) i j = block (from_upper (dense (sm_e A))) idxs idxs i j).
Proof.
  intros K A idxs H E R. destruct (slice_sym_sym_spec K A idxs H R) as [S [H1 [H2 [H3 [H4 [H5 H6]]]]]].
  { right. rewrite E. apply R. }
  exists S. do 5 (split; [assumption|]). split.
  - intros i j Hi Hj L. rewrite H6 by auto. destruct (Nat.leb_spec i j); [lia|reflexivity].
  - intros i j Hi Hj. unfold from_upper, block. destruct (Nat.leb_spec i j).
    + rewrite H6 by auto. destruct (Nat.leb_spec i j); [|lia].
      destruct (Nat.eq_dec i j) as [->|N]; [now rewrite Nat.leb_refl|].
      assert (L : nth i idxs 0 < nth j idxs 0) by (apply incr_nth; auto; [apply R|lia]).
      destruct (Nat.leb_spec (nth i idxs 0) (nth j idxs 0)); [reflexivity|lia].
    + rewrite H6 by auto. destruct (Nat.leb_spec j i); [|lia].
      assert (L : nth j idxs 0 < nth i idxs 0) by (apply incr_nth; auto; apply R).
      destruct (Nat.leb_spec (nth i idxs 0) (nth j idxs 0)); [lia|reflexivity].
Qed.
Print Assumptions C59_symmetric_slice.

(** missing: without the condition on the order of the index lists the result is wrong, see below *)
Theorem C59_slice_of_symmetric_partial : forall (K : cfield) (A : smat K) rows cols,
  row_major (sm_e A) -> sm_n A = sm_m A -> index_list (sm_m A) rows -> index_list (sm_m A) cols ->
  (forall ki kj, kj < ki -> ki < length rows -> kj < length cols -> nth kj cols 0 < nth ki rows 0) ->
  exists es, new_slice_sym A rows cols = Some (length rows, length cols, map Some es) /\
    inside (length rows) (length cols) es /\ weakly_row_major es /\
    (forall i j, i < length rows -> j < length cols -> dense es i j = block (from_upper (dense (sm_e A))) rows cols i j).
Proof.
  intros K A rows cols H E R C Q. apply slice_sym_spec; auto.
  - rewrite E. exact C.
  - apply C.
  - rewrite E. apply R.
Qed.
Print Assumptions C59_slice_of_symmetric_partial.

(** an off-diagonal block: one stored entry is not copied and its place in the result is never written *)
Theorem C59_slice_of_symmetric_refuted : exists (A : smat G) rows cols es,
  row_major (sm_e A) /\ sm_n A = sm_m A /\ index_list (sm_m A) rows /\ index_list (sm_m A) cols /\
  block (from_upper (dense (sm_e A))) rows cols 1 0 <> f0 /\
  new_slice_sym A rows cols = Some (2, 2, es) /\ In None es /\ (forall v, ~ In (Some (1, 0, v)) es).
Proof.
  exists (SM 4 4 [(0, 0, gz 1 0); (1, 2, gz 0 1)]), [0; 1], [2; 3], [None].
  split; [constructor; repeat constructor|]. split; [reflexivity|].
  split; [split; repeat constructor|]. split; [split; repeat constructor|].
  split; [intro H; vm_compute in H; discriminate H|]. split; [reflexivity|]. split; [left; reflexivity|].
  intros v [H|[]]. discriminate H.
Qed.
Print Assumptions C59_slice_of_symmetric_refuted.

(** of two elements stored at the same position a slice keeps the first only *)
Theorem C59_duplicates_refuted : exists (A S : smat G), weakly_row_major (sm_e A) /\
  new_slice A [0; 1] [0; 1] = Some S /\ dense (sm_e S) 0 1 <> block (dense (sm_e A)) [0; 1] [0; 1] 0 1.
Proof.
  exists (SM 2 2 [(0, 1, gz 1 0); (0, 1, gz 2 0)]), (SM 2 2 [(0, 1, gz 1 0)]).
  split; [constructor; [repeat constructor|]; constructor; [right; reflexivity|constructor]|].
  split; [reflexivity|]. intro H. vm_compute in H. discriminate H.
Qed.
Print Assumptions C59_duplicates_refuted.
Example C59_case :
  new_slice (SM 4 4 [(0, 0, gz 1 0); (0, 2, gz 0 1); (1, 1, gz 5 0); (2, 3, gz 2 2); (3, 0, gz 7 0)]) [0; 2; 3] [0; 3]
  = Some (SM 3 2 [(0, 0, gz 1 0); (1, 1, gz 2 2); (2, 0, gz 7 0)]) /\
  new_slice_sym_sym (SM 4 4 [(0, 0, gz 1 0); (0, 2, gz 0 1); (1, 1, gz 5 0); (2, 3, gz 2 2)]) [0; 2; 3]
  = Some (SM 3 3 [(0, 0, gz 1 0); (0, 1, gz 0 1); (1, 2, gz 2 2)]) /\
  new_slice_sym (SM 4 4 [(0, 0, gz 1 0); (0, 2, gz 0 1); (1, 1, gz 5 0); (2, 3, gz 2 2)]) [0; 2; 3] [0; 2; 3]
  = Some (3, 3, [Some (0, 0, gz 1 0); Some (0, 1, gz 0 1); Some (1, 0, gz 0 1); Some (1, 2, gz 2 2); Some (2, 1, gz 2 2)]).
Proof. repeat split; reflexivity. Qed.

(** C39: the reduced matrix *)
Theorem C39_schur_complement : forall (K : cfield) n (raw : list (nat * nat * K)) fact sol nonaux aux (W : dmat K) (N : nat -> nat -> K),
  (forall i j, dense raw i j = dense raw j i) ->
  index_list n nonaux -> index_list n aux ->
  dm_m W = length nonaux -> dm_n W = length nonaux ->
  left_inverse (length aux) N (block (dense raw) aux aux) ->
  can_solve fact sol (length aux) (block (dense raw) aux aux) ->
  exists k R, go fact sol None nonaux aux (SM n n (sum_up_duplicates (sort_indexes raw))) W = Some (k, R, true) /\
    dm_m R = length nonaux /\ dm_n R = length nonaux /\
    forall i j, i < length nonaux -> j < length nonaux ->
      dm_f R i j = block (dense raw) nonaux nonaux i j -!
        sumn (length aux) (fun p => sumn (length aux) (fun q =>
          block (dense raw) nonaux aux i p *! N p q *! block (dense raw) aux nonaux q j)).
Proof.
  intros K n raw fact sol nonaux aux W N SY NA AX D1 D2 LI CS.
  assert (M : row_major (sum_up_duplicates (sort_indexes raw))) by (apply sum_major, sort_weak).
  assert (DE : forall i j, dense (sum_up_duplicates (sort_indexes raw)) i j = dense raw i j).
  { intros. rewrite sum_dense. symmetry. apply dense_perm, sort_perm. }
  destruct (go_spec K fact sol nonaux aux (SM n n (sum_up_duplicates (sort_indexes raw))) W) as [X [R [E [X1 [X2 [R1 [R2 [HX HR]]]]]]]]; auto.
  { intros e I F. apply CS; auto. intros. rewrite F by auto. apply DE. }
  simpl sm_e in HX, HR. exists (Some (negate X)), R. split; [exact E|]. split; [exact R1|]. split; [exact R2|].
  intros i j Hi Hj. rewrite HR by auto. unfold block. rewrite DE. f_equal. apply sumn_ext. intros p Hp.
  assert (HX' : forall q, q < length aux -> sumn (length aux) (fun l => block (dense raw) aux aux q l *! dm_f X l j) = block (dense raw) aux nonaux q j).
  { intros q Hq. specialize (HX q j Hq Hj). unfold block in *. rewrite <- DE, <- HX. apply sumn_ext. intros. rewrite DE. reflexivity. }
  rewrite (schur_of K (length aux) (block (dense raw) aux aux) N (fun p => dm_f X p j) (fun q => block (dense raw) aux nonaux q j) LI HX' p Hp).
  rewrite DE, <- sumn_scale. apply sumn_ext. intros q Hq. unfold block. rewrite (SY (nth p aux 0)). symmetry. apply mul_assoc.
Qed.
Print Assumptions C39_schur_complement.

(** C39: recovering the voltages.  Missing: an empty set of retained buses, see below *)
Theorem C39_voltages_partial : forall (K : cfield) n (raw : list (nat * nat * K)) fact sol nonaux aux (W : dmat K),
  (forall i j, dense raw i j = dense raw j i) ->
  index_list n nonaux -> index_list n aux -> Permutation (nonaux ++ aux) (seq 0 n) -> nonaux <> [] ->
  dm_m W = length nonaux -> dm_n W = length nonaux ->
  can_solve fact sol (length aux) (block (dense raw) aux aux) ->
  exists k R, go fact sol None nonaux aux (SM n n (sum_up_duplicates (sort_indexes raw))) W = Some (k, R, true) /\
    forall x out, exists z, apply_nonaux_to_aux k (length nonaux) x (length aux) out = Some z /\
      forall v, (forall k, k < length nonaux -> v (nth k nonaux 0) = x k) ->
                (forall k, k < length aux -> v (nth k aux 0) = z k) ->
        (forall k, k < length aux -> current n (dense raw) v (nth k aux 0) = f0) /\
        (forall k, k < length nonaux -> current n (dense raw) v (nth k nonaux 0) = sumn (length nonaux) (fun c => dm_f R k c *! x c)).
Proof.
  intros K n raw fact sol nonaux aux W SY NA AX P NE D1 D2 CS.
  assert (M : row_major (sum_up_duplicates (sort_indexes raw))) by (apply sum_major, sort_weak).
  assert (DE : forall i j, dense (sum_up_duplicates (sort_indexes raw)) i j = dense raw i j).
  { intros. rewrite sum_dense. symmetry. apply dense_perm, sort_perm. }
  destruct (go_spec K fact sol nonaux aux (SM n n (sum_up_duplicates (sort_indexes raw))) W) as [X [R [E [X1 [X2 [R1 [R2 [HX HR]]]]]]]]; auto.
  { intros e I F. apply CS; auto. intros. rewrite F by auto. apply DE. }
  simpl sm_e in HX, HR. exists (Some (negate X)), R. split; [exact E|]. intros x out.
  unfold apply_nonaux_to_aux. simpl. rewrite X1, X2, !Nat.eqb_refl. simpl. eexists. split; [reflexivity|].
  intros v V1 V2.
  apply (kron_voltages K n (dense raw) nonaux aux (dm_f X) (dm_f R) x (dtimes_vec (negate X) x out) v P); auto.
  - intros i c Hi Hc. specialize (HX i c Hi Hc). unfold block in *. rewrite DE in HX. rewrite <- HX. apply sumn_ext. intros. rewrite DE. reflexivity.
  - intros r c Hr Hc. rewrite HR by auto. unfold block. rewrite DE. f_equal. apply sumn_ext. intros. rewrite DE. reflexivity.
  - intros k Hk. unfold dtimes_vec. simpl. rewrite X1, X2.
    destruct (Nat.eqb_spec (length aux) 0); [lia|]. destruct (Nat.eqb_spec (length nonaux) 0); [destruct nonaux; [congruence|discriminate]|].
    simpl. destruct (Nat.ltb_spec k (length aux)); [reflexivity|lia].
Qed.
Print Assumptions C39_voltages_partial.

Add Field gf : (fth G).
(** a solver for one unknown, for the concrete cases *)
Definition sol1 (e : list (nat * nat * G)) (b : list G) : option (list G) :=
  match b with [b0] => Some [b0 /! dense e 0 0] | _ => None end.
Lemma sol1_ok (M : nat -> nat -> G) : M 0 0 <> f0 -> can_solve (fun _ => true) sol1 1 M.
Proof.
  intros H e I F. split; [reflexivity|]. intros [|b0 [|]] L; try discriminate L.
  exists [b0 /! dense e 0 0]. split; [reflexivity|]. split; [reflexivity|]. intros i Hi. assert (i = 0) by lia. subst i.
  assert (D : dense e 0 0 <> f0) by (rewrite F; auto). unfold sumn. cbn [seq map lsum nth]. revert D. generalize (dense e 0 0). intros d D.
  field. exact D.
Qed.

(** nothing retained: the voltages handed back are what the array held before, and the auxiliary equations fail *)
Theorem C39_nothing_retained_refuted : exists (raw : list (nat * nat * G)) k R z,
  (forall i j, dense raw i j = dense raw j i) /\ can_solve (fun _ => true) sol1 1 (block (dense raw) [0] [0]) /\
  go (fun _ => true) sol1 None [] [0] (SM 1 1 (sum_up_duplicates (sort_indexes raw))) (DM 0 0 (fun _ _ => f0)) = Some (k, R, true) /\
  apply_nonaux_to_aux k 0 (fun _ => f0) 1 (fun _ => f1) = Some z /\ current 1 (dense raw) z 0 <> f0.
Proof.
  exists [(0, 0, gz 2 1)]. do 2 eexists. exists (fun _ => f1).
  split. { intros i j. rewrite !dense_cons. destruct (0 =? i), (0 =? j); reflexivity. }
  split. { apply sol1_ok. intro H. vm_compute in H. discriminate H. }
  split; [reflexivity|]. split; [reflexivity|]. intro H. vm_compute in H. discriminate H.
Qed.
Print Assumptions C39_nothing_retained_refuted.

(** three buses in a line with admittances 1+2i and 3-i; the one in the middle is eliminated *)
Definition line : list (nat * nat * G) :=
  [(0, 0, gz 1 2); (0, 1, gz (-1) (-2)); (1, 0, gz (-1) (-2)); (1, 1, gz 1 2); (1, 1, gz 3 (-1)); (1, 2, gz (-3) 1); (2, 1, gz (-3) 1); (2, 2, gz 3 (-1))].
Lemma line_sym i j : dense line i j = dense line j i.
Proof.
  destruct i as [|[|[|i]]], j as [|[|[|j]]]; try reflexivity; unfold dense, line; cbn [map Nat.eqb lsum]; ring.
Qed.
Example C39_case :
  exists k R, go (fun _ => true) sol1 None [0; 2] [1] (SM 3 3 (sum_up_duplicates (sort_indexes line))) (DM 2 2 (fun _ _ => f0)) = Some (k, R, true) /\
    dm_f R 0 1 = fopp ((gz 1 2 *! gz 3 (-1)) /! (gz 1 2 +! gz 3 (-1))) /\
    forall x out, exists z, apply_nonaux_to_aux k 2 x 1 out = Some z /\
      forall v, (forall k, k < 2 -> v (nth k [0; 2] 0) = x k) -> (forall k, k < 1 -> v (nth k [1] 0) = z k) ->
        current 3 (dense line) v 1 = f0.
Proof.
  assert (NZ : gz 1 2 +! gz 3 (-1) <> f0) by (intro H; vm_compute in H; discriminate H).
  assert (D11 : dense line 1 1 = gz 1 2 +! gz 3 (-1)) by (unfold dense, line; cbn [map Nat.eqb lsum]; ring).
  assert (CS : can_solve (fun _ => true) sol1 (length [1]) (block (dense line) [1] [1])).
  { apply sol1_ok. unfold block. cbn [nth]. rewrite D11. exact NZ. }
  assert (I1 : index_list 3 [0; 2]) by (split; repeat constructor).
  assert (I2 : index_list 3 [1]) by (split; repeat constructor).
  assert (PM : Permutation ([0; 2] ++ [1]) (seq 0 3)).
  { simpl. constructor. apply perm_swap. }
  destruct (C39_voltages_partial G 3 line (fun _ => true) sol1 [0; 2] [1] (DM 2 2 (fun _ _ => f0)) line_sym I1 I2 PM ltac:(discriminate) eq_refl eq_refl CS) as [k [R [E V]]].
  destruct (C39_schur_complement G 3 line (fun _ => true) sol1 [0; 2] [1] (DM 2 2 (fun _ _ => f0)) (fun _ _ => f1 /! dense line 1 1) line_sym I1 I2 eq_refl eq_refl) as [k' [R' [E' [_ [_ S]]]]].
  { intros i j Hi Hj. simpl in Hi, Hj. assert (i = 0) by lia. assert (j = 0) by lia. subst. unfold sumn, block. cbn [seq length map lsum nth Nat.eqb]. rewrite D11. field. exact NZ. }
  { exact CS. }
  rewrite E in E'. injection E' as <- <-.
  exists k, R. split; [exact E|]. split.
  - rewrite S by (simpl; lia). unfold sumn, block. cbn [seq length map lsum nth]. rewrite D11.
    unfold dense, line. cbn [map Nat.eqb lsum]. change (gz (-1) (-2)) with (fopp (gz 1 2)). change (gz (-3) 1) with (fopp (gz 3 (-1))). field. exact NZ.
  - intros x out. destruct (V x out) as [z [Z1 Z2]]. exists z. split; [exact Z1|]. intros v V1 V2. exact (proj1 (Z2 v V1 V2) 0 (Nat.lt_0_succ 0)).
Qed.

(** C60: a failed factorization is reported and nothing else changes *)
Theorem C60_factorization_failure_partial : forall (K : cfield) fact sol k nonaux aux (Y : smat K) (W : dmat K),
  row_major (sm_e Y) -> sm_n Y = sm_m Y -> index_list (sm_m Y) nonaux -> index_list (sm_m Y) aux ->
  (forall e, inside (length aux) (length aux) e ->
     (forall i j, i < length aux -> j < length aux -> dense e i j = block (dense (sm_e Y)) aux aux i j) -> fact e = false) ->
  go fact sol k nonaux aux Y W = Some (k, W, false).
Proof.
  intros K fact sol k nonaux aux Y W H SQ NA AX F. unfold go.
  destruct (slice_spec K Y nonaux nonaux) as [Yaa [E1 _]]; auto; [right; now rewrite SQ|apply NA|].
  destruct (slice_spec K Y aux aux) as [Ybb [E2 [M2 [N2 [R2 [I2 F2]]]]]]; auto; [right; now rewrite SQ|apply AX|].
  destruct (slice_spec K Y aux nonaux) as [Yba [E3 _]]; auto; [right; now rewrite SQ|apply NA|].
  rewrite E1, E2, E3, F by auto. reflexivity.
Qed.
Print Assumptions C60_factorization_failure_partial.

(** a failed solve is not: the reduction returns true, and the reduced matrix is the block of the retained buses,
    as if the eliminated ones were not connected *)
Theorem C60_solve_failure_refuted : forall (K : cfield) fact sol nonaux aux (Y : smat K) (W : dmat K),
  row_major (sm_e Y) -> sm_n Y = sm_m Y -> index_list (sm_m Y) nonaux -> index_list (sm_m Y) aux ->
  dm_m W = length nonaux -> dm_n W = length nonaux ->
  (forall e, fact e = true) -> (forall e b, sol e b = None) ->
  exists k R, go fact sol None nonaux aux Y W = Some (k, R, true) /\
    forall i j, i < length nonaux -> j < length nonaux -> dm_f R i j = block (dense (sm_e Y)) nonaux nonaux i j.
Proof.
  intros K fact sol nonaux aux Y W H SQ NA AX D1 D2 F SO. unfold go.
  destruct (slice_spec K Y nonaux nonaux) as [Yaa [E1 [M1 [N1 [R1 [I1 F1]]]]]]; auto; [right; now rewrite SQ|apply NA|].
  destruct (slice_spec K Y aux aux) as [Ybb [E2 [M2 [N2 [R2 [I2 F2]]]]]]; auto; [right; now rewrite SQ|apply AX|].
  destruct (slice_spec K Y aux nonaux) as [Yba [E3 [M3 [N3 [R3 [I3 F3]]]]]]; auto; [right; now rewrite SQ|apply NA|].
  rewrite E1, E2, E3, F.
  set (X0 := DM (sm_m Yba) (sm_n Yba) (fun _ _ => f0)).
  assert (S : exists b, solve_mat sol Ybb Yba X0 = Some (X0, b)).
  { unfold solve_mat.
    replace ((dm_n X0 =? sm_n Yba) && (sm_n Ybb =? sm_m Yba) && (sm_n Ybb =? dm_m X0)) with true
      by (symmetry; rewrite !andb_true_iff, !Nat.eqb_eq; simpl; repeat split; congruence).
    destruct (sm_n Ybb =? 0); [eauto|]. destruct (dm_n X0) as [|k0]; [simpl; eauto|]. cbn [Nat.eqb solve_cols].
    destruct (gather_col (sm_n Ybb) 0 (sm_e Yba)) as [rhs l1]. rewrite SO. eauto. }
  destruct S as [b ->].
  destruct (trans_times_spec K Yba W f1 (negate X0)) as [W1 [EW1 [DW11 [DW12 FW1]]]]; try (simpl; congruence).
  rewrite EW1.
  destruct (add_sparse_spec K W1 f1 Yaa) as [W2 [EW2 [D21 [D22 FW2]]]]; try congruence.
  rewrite EW2. do 2 eexists. split; [reflexivity|]. intros i j Hi Hj.
  rewrite FW2, FW1 by (simpl; lia). rewrite F1 by auto. rewrite sumn_zero.
  - apply plain.
  - intros p Hp. simpl. apply times_opp_zero.
Qed.
Print Assumptions C60_solve_failure_refuted.
Example C60_case :
  exists k R, go (fun _ => true) (fun _ _ => None) None [0; 2] [1] (SM 3 3 (sum_up_duplicates (sort_indexes line))) (DM 2 2 (fun _ _ => f0)) = Some (k, R, true) /\
    dm_f R 0 1 = f0 /\ fopp ((gz 1 2 *! gz 3 (-1)) /! (gz 1 2 +! gz 3 (-1))) <> f0.
Proof.
  destruct (C60_solve_failure_refuted G (fun _ => true) (fun _ _ => None) [0; 2] [1] (SM 3 3 (sum_up_duplicates (sort_indexes line))) (DM 2 2 (fun _ _ => f0))) as [k [R [E H]]]; try reflexivity.
  - apply sum_major, sort_weak.
  - split; repeat constructor.
  - split; repeat constructor.
  - exists k, R. split; [exact E|]. split; [rewrite H by (simpl; lia); unfold block; cbn [sm_e]; rewrite sum_dense, <- (dense_perm G _ _ _ _ (sort_perm G line)); unfold dense, line; cbn [map Nat.eqb lsum nth]; ring|].
    intro Q. vm_compute in Q. discriminate Q.
Qed.

(** C61: after a failed factorization the object is as before, so another reduction works *)
Theorem C61_after_failure_partial : forall (K : cfield) fact sol k nonaux aux (Y : smat K) (W : dmat K) k' W',
  go fact sol k nonaux aux Y W = Some (k', W', false) ->
  k' = k /\ W' = W.
Proof.
  intros K fact sol k nonaux aux Y W k' W' H. unfold go in H.
  destruct (new_slice Y nonaux nonaux); [|discriminate]. destruct (new_slice Y aux aux); [|discriminate]. destruct (new_slice Y aux nonaux); [|discriminate].
  destruct (fact (sm_e s0)); [|injection H as <- <-; auto]. destruct k; [discriminate|].
  destruct (solve_mat _ _ _ _) as [[X b]|]; [|discriminate]. destruct (trans_times_mat _ _ _ _); [|discriminate]. destruct (add_sparse _ _ _); discriminate.
Qed.
Print Assumptions C61_after_failure_partial.

(** after a successful one every further reduction whose factorization succeeds aborts on an assertion *)
Theorem C61_second_use_refuted : forall (K : cfield) fact sol k nonaux aux (Y : smat K) (W : dmat K) k' W' fact' sol' nonaux' aux' (Y' : smat K) (W2 : dmat K),
  go fact sol k nonaux aux Y W = Some (k', W', true) -> (forall e, fact' e = true) ->
  go fact' sol' k' nonaux' aux' Y' W2 = None.
Proof.
  intros K fact sol k nonaux aux Y W k' W' fact' sol' nonaux' aux' Y' W2 H F.
  assert (S : exists M, k' = Some M).
  { unfold go in H.
    destruct (new_slice Y nonaux nonaux); [|discriminate]. destruct (new_slice Y aux aux); [|discriminate]. destruct (new_slice Y aux nonaux); [|discriminate].
    destruct (fact (sm_e s0)); [|discriminate]. destruct k; [discriminate|].
    destruct (solve_mat _ _ _ _) as [[X b]|]; [|discriminate]. destruct (trans_times_mat _ _ _ _); [|discriminate]. destruct (add_sparse _ _ _); [|discriminate].
    injection H as <- <-. eauto. }
  destruct S as [M ->]. unfold go.
  destruct (new_slice Y' nonaux' nonaux'); auto. destruct (new_slice Y' aux' aux'); auto. destruct (new_slice Y' aux' nonaux'); auto.
  rewrite F. reflexivity.
Qed.
Print Assumptions C61_second_use_refuted.
Example C61_case : exists k R,
  go (fun _ => true) sol1 None [0; 2] [1] (SM 3 3 (sum_up_duplicates (sort_indexes line))) (DM 2 2 (fun _ _ => f0)) = Some (k, R, true) /\
  go (fun _ => true) sol1 k [0; 2] [1] (SM 3 3 (sum_up_duplicates (sort_indexes line))) (DM 2 2 (fun _ _ => f0)) = None /\
  go (fun _ => false) sol1 k [0; 2] [1] (SM 3 3 (sum_up_duplicates (sort_indexes line))) R = Some (k, R, false).
Proof.
  destruct C39_case as [k [R [E _]]]. exists k, R. split; [exact E|]. split.
  - exact (C61_second_use_refuted _ _ _ _ _ _ _ _ _ _ _ _ _ _ _ _ E (fun _ => eq_refl)).
  - apply C60_factorization_failure_partial; auto; [apply sum_major, sort_weak| |]; split; repeat constructor.
Qed.
