(** Lemmas about the solve with several right-hand sides and the Kron reduction itself. *)
From Coq Require Import List Bool Arith Lia Sorted Permutation Ring Field.
From Verif Require Import RingKit KronModel KronSpec KronProofs KronProofs2.
Import ListNotations.
Open Scope nat_scope.

Section P.
Variable K : cfield.
Add Field kf : (fth K).
Notation elem := (nat * nat * K)%type.
Notation lookup := (lookup K). Notation orz := (orz K).

Lemma find_from_spec row col (l : list elem) : row_major l ->
  snd (find_from row col l) = dense l row col /\
  exists p, l = p ++ fst (find_from row col l) /\ (forall e, In e p -> fst (fst e) < row \/ (fst (fst e) = row /\ snd (fst e) < col)).
Proof.
  intro H. unfold find_from. destruct (skip_rows_app K row l) as [p [E P]].
  assert (M : row_major (skip_rows row l)) by (rewrite E in H; exact (row_major_app K p _ H)).
  destruct (skip_cols_app K row col (skip_rows row l)) as [p2 [E2 P2]].
  pose proof (skip_cols_head K row col (skip_rows row l) M (skip_rows_ge K row l H)) as HD.
  assert (L : lookup l row col = lookup (skip_rows row l) row col).
  { rewrite E at 1. apply lookup_app. intros e He X. apply P in He. rewrite X in He. simpl in He. lia. }
  rewrite dense_lookup by auto. rewrite L, HD. split.
  - destruct (skip_cols row col (skip_rows row l)) as [|[[i j] v] t]; auto. destruct ((i =? row) && (j =? col)); auto.
  - exists (p ++ p2). split.
    + transitivity (p ++ p2 ++ skip_cols row col (skip_rows row l)); [rewrite <- E2; exact E|]. rewrite app_assoc. f_equal.
      destruct (skip_cols row col (skip_rows row l)) as [|[[i j] v] t]; auto. destruct ((i =? row) && (j =? col)); auto.
    + intros e He. apply in_app_or in He as [He|He]; auto.
Qed.
Lemma dense_suffix (p l : list elem) i j : (forall e, In e p -> fst e <> (i, j)) -> dense (p ++ l) i j = dense l i j.
Proof. intro H. rewrite dense_app, (dense_none K p) by auto. ring. Qed.
Lemma gather_spec : forall n row col (l : list elem), row_major l ->
  length (gather n row col l) = n /\ forall r, r < n -> nth r (gather n row col l) f0 = dense l (row + r) col.
Proof.
  induction n as [|n IH]; intros row col l H; simpl; [split; auto; lia|].
  destruct (find_from_spec row col l H) as [V [p [E P]]]. destruct (find_from row col l) as [l1 v]. simpl in V, E.
  assert (M : row_major l1) by (rewrite E in H; exact (row_major_app K p _ H)).
  destruct (IH (S row) col l1 M) as [I1 I2]. simpl. split; [now rewrite I1|].
  intros [|r] Hr; simpl; [rewrite Nat.add_0_r; exact V|]. rewrite I2 by lia.
  replace (row + S r) with (S row + r) by lia. rewrite E. symmetry. apply dense_suffix.
  intros e He X. apply P in He. rewrite X in He. simpl in He. lia.
Qed.
Lemma gather_col_spec n col (l0 : list elem) : row_major l0 ->
  length (fst (gather_col n col l0)) = n /\
  (forall r, r < n -> nth r (fst (gather_col n col l0)) f0 = dense l0 r col) /\
  exists p, l0 = p ++ snd (gather_col n col l0) /\ (forall e, In e p -> fst (fst e) = 0 /\ snd (fst e) < col).
Proof.
  intro H. unfold gather_col. destruct n as [|n]; simpl.
  - split; auto. split; [lia|]. exists []. simpl. tauto.
  - destruct (find_from_spec 0 col l0 H) as [V [p [E P]]]. destruct (find_from 0 col l0) as [l1 v]. simpl in V, E.
    assert (M : row_major l1) by (rewrite E in H; exact (row_major_app K p _ H)).
    destruct (gather_spec n 1 col l1 M) as [I1 I2]. simpl. split; [now rewrite I1|]. split.
    + intros [|r] Hr; simpl; [exact V|]. rewrite I2 by lia. rewrite E. symmetry. apply dense_suffix.
      intros e He X. apply P in He. rewrite X in He. simpl in He. lia.
    + exists p. split; auto. intros e He. apply P in He. lia.
Qed.

Lemma solve_cols_spec sol (Ybb : smat K) : solves (sm_n Ybb) sol (sm_e Ybb) ->
  forall k col (l0 : list elem) X, row_major l0 ->
  exists X', solve_cols sol Ybb k col l0 X = (X', true) /\ dm_m X' = dm_m X /\ dm_n X' = dm_n X /\
    (forall r c, c < col \/ col + k <= c -> dm_f X' r c = dm_f X r c) /\
    (forall i c, i < sm_n Ybb -> col <= c -> c < col + k ->
       sumn (sm_n Ybb) (fun j => dense (sm_e Ybb) i j *! dm_f X' j c) = dense l0 i c).
Proof.
  intro S. induction k as [|k IH]; intros col l0 X H; cbn [solve_cols].
  - exists X. repeat split; auto. intros. lia.
  - destruct (gather_col_spec (sm_n Ybb) col l0 H) as [G1 [G2 [p [E P]]]].
    destruct (gather_col (sm_n Ybb) col l0) as [rhs l1]. simpl in G1, G2, E.
    destruct (S rhs G1) as [s [Es [Ls Hs]]]. rewrite Es.
    assert (M : row_major l1) by (rewrite E in H; exact (row_major_app K p _ H)).
    match goal with |- context [solve_cols sol Ybb k (Datatypes.S col) l1 ?Y] => set (X1 := Y) end.
    destruct (IH (Datatypes.S col) l1 X1 M) as [X' [Q [D1 [D2 [F1 F2]]]]].
    exists X'. split; [exact Q|]. split; [rewrite D1; reflexivity|]. split; [rewrite D2; reflexivity|]. split.
    + intros r c Hc. rewrite F1 by lia. simpl. destruct (Nat.eqb_spec c col); [lia|reflexivity].
    + intros i c Hi H1 H2. destruct (Nat.eq_dec c col) as [->|N].
      * rewrite <- G2 by auto. rewrite <- Hs by auto. apply sumn_ext. intros j Hj. f_equal. rewrite F1 by lia. simpl.
        rewrite Nat.eqb_refl. destruct (Nat.ltb_spec j (sm_n Ybb)); [reflexivity|lia].
      * rewrite F2 by lia. rewrite E. symmetry. apply dense_suffix. intros e He X2. apply P in He. rewrite X2 in He. simpl in He. lia.
Qed.
Lemma solve_mat_spec sol (Ybb B : smat K) X : solves (sm_n Ybb) sol (sm_e Ybb) -> row_major (sm_e B) ->
  dm_n X = sm_n B -> sm_n Ybb = sm_m B -> sm_n Ybb = dm_m X ->
  exists X', solve_mat sol Ybb B X = Some (X', true) /\ dm_m X' = dm_m X /\ dm_n X' = dm_n X /\
    (forall i c, i < sm_n Ybb -> c < dm_n X ->
       sumn (sm_n Ybb) (fun j => dense (sm_e Ybb) i j *! dm_f X' j c) = dense (sm_e B) i c).
Proof.
  intros S H E1 E2 E3. unfold solve_mat. 
  replace ((dm_n X =? sm_n B) && (sm_n Ybb =? sm_m B) && (sm_n Ybb =? dm_m X)) with true
    by (symmetry; rewrite !andb_true_iff, !Nat.eqb_eq; auto).
  destruct (Nat.eqb_spec (sm_n Ybb) 0) as [Z|Z].
  - exists X. repeat split; auto. intros. lia.
  - destruct (Nat.eqb_spec (dm_n X) 0) as [Z2|Z2].
    + exists X. repeat split; auto. intros. lia.
    + destruct (solve_cols_spec sol Ybb S (dm_n X) 0 (sm_e B) X H) as [X' [Q [D1 [D2 [_ F]]]]].
      exists X'. rewrite Q, D1, D2. split; [reflexivity|]. split; [congruence|]. split; [reflexivity|]. intros. apply F; auto; lia.
Qed.

Lemma weigh_rows (l : list elem) m n r (g : nat -> K) : inside m n l ->
  lsum (map (fun e : elem => let '(i, j, v) := e in if r =? j then v *! g i else f0) l) = sumn m (fun i => dense l i r *! g i).
Proof.
  induction l as [|[[a b] v] l IH]; intro H; simpl.
  - symmetry. apply sumn_zero. intros. rewrite dense_nil. ring.
  - inversion H as [|? ? [H1 _] H2]; subst. simpl in H1. rewrite IH by auto.
    rewrite (sumn_ext K m (fun i => dense ((a, b, v) :: l) i r *! g i) (fun i => (if a =? i then (if r =? b then v *! g i else f0) else f0) +! dense l i r *! g i)).
    + rewrite sumn_add. rewrite (sumn_pick K (fun i => if r =? b then v *! g i else f0)) by auto. reflexivity.
    + intros i _. rewrite dense_cons. rewrite (Nat.eqb_sym b r). destruct (a =? i), (r =? b); simpl; ring.
Qed.
Lemma ttm_spec alpha (X : dmat K) (es : list elem) : forall (W : dmat K), inside (dm_m X) (dm_m W) es -> dm_n W = dm_n X ->
  exists W', ofold (ttm_step alpha X) es W = Some W' /\ dm_m W' = dm_m W /\ dm_n W' = dm_n W /\
    forall r c, c < dm_n X -> dm_f W' r c = dm_f W r c +! alpha *! lsum (map (fun e : elem => let '(i, j, v) := e in if r =? j then v *! dm_f X i c else f0) es).
Proof.
  induction es as [|[[a b] v] es IH]; intros W H N; cbn [ofold].
  - exists W. repeat split; auto. intros. simpl. ring.
  - inversion H as [|? ? [H1 H2] H3]; subst. simpl in H1, H2. unfold ttm_step at 1.
    destruct (Nat.ltb_spec a (dm_m X)); [|lia]. destruct (Nat.ltb_spec b (dm_m W)); [|lia]. cbn [andb].
    match goal with |- context [ofold _ es ?W0] => destruct (IH W0) as [W' [E [D1 [D2 F]]]]; auto end.
    exists W'. split; [exact E|]. split; [exact D1|]. split; [exact D2|]. intros r c Hc. rewrite F by auto. simpl.
    destruct (Nat.ltb_spec c (dm_n X)); [|lia]. rewrite andb_true_r. destruct (r =? b); ring.
Qed.
Lemma trans_times_spec (A : smat K) (W : dmat K) alpha X : inside (sm_m A) (sm_n A) (sm_e A) ->
  sm_m A = dm_m X -> sm_n A = dm_m W -> dm_n W = dm_n X ->
  exists W', trans_times_mat A W alpha X = Some W' /\ dm_m W' = dm_m W /\ dm_n W' = dm_n W /\
    forall r c, c < dm_n X -> dm_f W' r c = alpha *! sumn (sm_m A) (fun i => dense (sm_e A) i r *! dm_f X i c).
Proof.
  intros H E1 E2 E3. unfold trans_times_mat.
  replace ((sm_m A =? dm_m X) && (sm_n A =? dm_m W) && (dm_n W =? dm_n X)) with true
    by (symmetry; rewrite !andb_true_iff, !Nat.eqb_eq; auto).
  destruct (ttm_spec alpha X (sm_e A) (DM (dm_m W) (dm_n W) (fun _ _ => f0))) as [W' [Q [D1 [D2 F]]]]; auto.
  - simpl. rewrite <- E1, <- E2. exact H.
  - exists W'. split; [exact Q|]. split; [exact D1|]. split; [exact D2|]. intros r c Hc. rewrite F by auto. cbn [dm_f].
    rewrite (weigh_rows (sm_e A) (sm_m A) (sm_n A) r (fun i => dm_f X i c)) by auto. ring.
Qed.
Lemma add_sparse_spec (W : dmat K) alpha (X : smat K) : inside (sm_m X) (sm_n X) (sm_e X) ->
  dm_m W = dm_n W -> sm_m X = sm_n X -> dm_m W = sm_m X ->
  exists W', add_sparse W alpha X = Some W' /\ dm_m W' = dm_m W /\ dm_n W' = dm_n W /\
    forall r c, dm_f W' r c = dm_f W r c +! alpha *! dense (sm_e X) r c.
Proof.
  intros H E1 E2 E3. unfold add_sparse.
  replace ((dm_m W =? dm_n W) && (sm_m X =? sm_n X) && (dm_m W =? sm_m X)) with true
    by (symmetry; rewrite !andb_true_iff, !Nat.eqb_eq; auto).
  assert (H' : inside (dm_m W) (dm_n W) (sm_e X)) by (rewrite <- E1, E3; rewrite <- E2 in H; exact H).
  clear H E1 E2 E3. revert W H'. induction (sm_e X) as [|[[a b] v] es IH]; intros W H; cbn [ofold].
  - exists W. repeat split; auto. intros. rewrite dense_nil. ring.
  - inversion H as [|? ? [H1 H2] H3]; subst. simpl in H1, H2.
    destruct (Nat.ltb_spec a (dm_m W)); [|lia]. destruct (Nat.ltb_spec b (dm_n W)); [|lia]. cbn [andb].
    match goal with |- context [ofold _ es ?W0] => destruct (IH W0) as [W' [E [D1 [D2 F]]]]; auto end.
    exists W'. split; [exact E|]. split; [exact D1|]. split; [exact D2|]. intros r c. rewrite F, dense_cons. cbn [dm_f].
    rewrite (Nat.eqb_sym r a), (Nat.eqb_sym c b). destruct ((a =? r) && (b =? c)); ring.
Qed.

(** the whole reduction: X is Ybb^-1 Yba in the sense that Ybb X = Yba *)
Lemma go_spec fact sol nonaux aux (Y : smat K) (W : dmat K) :
  row_major (sm_e Y) -> sm_n Y = sm_m Y -> index_list (sm_m Y) nonaux -> index_list (sm_m Y) aux ->
  dm_m W = length nonaux -> dm_n W = length nonaux ->
  can_solve fact sol (length aux) (block (dense (sm_e Y)) aux aux) ->
  exists (X R : dmat K), go fact sol None nonaux aux Y W = Some (Some (negate X), R, true) /\
    dm_m X = length aux /\ dm_n X = length nonaux /\ dm_m R = length nonaux /\ dm_n R = length nonaux /\
    (forall i c, i < length aux -> c < length nonaux ->
       sumn (length aux) (fun j => block (dense (sm_e Y)) aux aux i j *! dm_f X j c) = block (dense (sm_e Y)) aux nonaux i c) /\
    (forall r c, r < length nonaux -> c < length nonaux ->
       dm_f R r c = block (dense (sm_e Y)) nonaux nonaux r c -! sumn (length aux) (fun i => block (dense (sm_e Y)) aux nonaux i r *! dm_f X i c)).
Proof.
  intros H SQ NA AX DW1 DW2 CS. unfold go.
  destruct (slice_spec K Y nonaux nonaux) as [Yaa [E1 [M1 [N1 [R1 [I1 F1]]]]]]; auto; [right; now rewrite SQ|apply NA|].
  destruct (slice_spec K Y aux aux) as [Ybb [E2 [M2 [N2 [R2 [I2 F2]]]]]]; auto; [right; now rewrite SQ|apply AX|].
  destruct (slice_spec K Y aux nonaux) as [Yba [E3 [M3 [N3 [R3 [I3 F3]]]]]]; auto; [right; now rewrite SQ|apply NA|].
  rewrite E1, E2, E3.
  destruct (CS (sm_e Ybb) I2 F2) as [Ff Fs]. rewrite Ff.
  rewrite <- N2 in Fs.
  destruct (solve_mat_spec sol Ybb Yba (DM (sm_m Yba) (sm_n Yba) (fun _ _ => f0)) Fs R3) as [X [EX [DX1 [DX2 FX]]]]; try (simpl; congruence).
  rewrite EX. simpl in DX1, DX2, FX.
  destruct (trans_times_spec Yba W f1 (negate X)) as [W1 [EW1 [DW11 [DW12 FW1]]]]; try (simpl; congruence).
  rewrite EW1.
  destruct (add_sparse_spec W1 f1 Yaa) as [W2 [EW2 [D21 [D22 FW2]]]]; try congruence.
  rewrite EW2. exists X, W2. split; [reflexivity|]. do 4 (split; [congruence|]). split.
  - intros i c Hi Hc. unfold block. rewrite <- (F3 i c) by auto. rewrite <- FX by (congruence || lia). rewrite N2. apply sumn_ext. intros j Hj.
    rewrite F2 by auto. reflexivity.
  - intros r c Hr Hc. rewrite FW2, FW1 by (simpl; lia). rewrite F1 by auto. unfold block.
    rewrite M3. simpl.
    rewrite (sumn_ext K (length aux) (fun i => dense (sm_e Yba) i r *! fopp (dm_f X i c)) (fun i => fopp f1 *! (dense (sm_e Y) (nth i aux 0) (nth r nonaux 0) *! dm_f X i c))).
    + rewrite sumn_scale. ring.
    + intros i Hi. rewrite F3 by auto. ring.
Qed.

(** Schur complement *)
Lemma schur_of nb (Ybb N : nat -> nat -> K) (x b : nat -> K) : left_inverse nb N Ybb ->
  (forall i, i < nb -> sumn nb (fun j => Ybb i j *! x j) = b i) ->
  forall k, k < nb -> x k = sumn nb (fun l => N k l *! b l).
Proof.
  intros L H k Hk.
  rewrite (sumn_ext K nb (fun l => N k l *! b l) (fun l => sumn nb (fun j => N k l *! (Ybb l j *! x j)))).
  2:{ intros l Hl. rewrite sumn_scale, H by auto. reflexivity. }
  rewrite sumn_swap.
  rewrite (sumn_ext K nb _ (fun j => if k =? j then x j else f0)).
  - symmetry. apply sumn_pick. auto.
  - intros j Hj. rewrite (sumn_ext K nb _ (fun i => x j *! (N k i *! Ybb i j))) by (intros; ring).
    rewrite sumn_scale, L by auto. destruct (k =? j); ring.
Qed.

(** splitting a sum over all buses into the two groups *)
Lemma sum_list (l : list nat) (f : nat -> K) : lsum (map f l) = sumn (length l) (fun k => f (nth k l 0)).
Proof. unfold sumn. rewrite (list_nth l) at 1. rewrite map_map. reflexivity. Qed.
Lemma sum_split n (a b : list nat) (f : nat -> K) : Permutation (a ++ b) (seq 0 n) ->
  sumn n f = sumn (length a) (fun k => f (nth k a 0)) +! sumn (length b) (fun k => f (nth k b 0)).
Proof.
  intro P. unfold sumn at 1. rewrite <- (lsum_perm' K _ _ (Permutation_map f P)). rewrite map_app, lsum_app, !sum_list. reflexivity.
Qed.
Lemma kron_voltages n (Y : nat -> nat -> K) nonaux aux (X R : nat -> nat -> K) (x z v : nat -> K) :
  Permutation (nonaux ++ aux) (seq 0 n) -> (forall i j, i < n -> j < n -> Y i j = Y j i) ->
  (forall i c, i < length aux -> c < length nonaux ->
       sumn (length aux) (fun j => block Y aux aux i j *! X j c) = block Y aux nonaux i c) ->
  (forall r c, r < length nonaux -> c < length nonaux ->
       R r c = block Y nonaux nonaux r c -! sumn (length aux) (fun i => block Y aux nonaux i r *! X i c)) ->
  (forall k, k < length aux -> z k = sumn (length nonaux) (fun c => fopp (X k c) *! x c)) ->
  (forall k, k < length nonaux -> v (nth k nonaux 0) = x k) ->
  (forall k, k < length aux -> v (nth k aux 0) = z k) ->
  (forall k, k < length aux -> current n Y v (nth k aux 0) = f0) /\
  (forall k, k < length nonaux -> current n Y v (nth k nonaux 0) = sumn (length nonaux) (fun c => R k c *! x c)).
Proof.
  intros P SY HX HR HZ V1 V2.
  assert (IN1 : forall k, k < length nonaux -> nth k nonaux 0 < n).
  { intros k Hk. assert (I : In (nth k nonaux 0) (seq 0 n)). { rewrite <- P. apply in_or_app. left. apply nth_In. auto. } apply in_seq in I. lia. }
  assert (IN2 : forall k, k < length aux -> nth k aux 0 < n).
  { intros k Hk. assert (I : In (nth k aux 0) (seq 0 n)). { rewrite <- P. apply in_or_app. right. apply nth_In. auto. } apply in_seq in I. lia. }
  assert (C : forall i, current n Y v i = sumn (length nonaux) (fun c => (Y i (nth c nonaux 0) -! sumn (length aux) (fun k => Y i (nth k aux 0) *! X k c)) *! x c)).
  { intro i. unfold current. rewrite (sum_split n nonaux aux _ P).
    rewrite (sumn_ext K (length nonaux) _ (fun k => Y i (nth k nonaux 0) *! x k)) by (intros k Hk; rewrite V1 by auto; reflexivity).
    rewrite (sumn_ext K (length aux) _ (fun k => sumn (length nonaux) (fun c => Y i (nth k aux 0) *! (fopp (X k c) *! x c))))
      by (intros k Hk; rewrite V2, HZ by auto; rewrite sumn_scale; reflexivity).
    rewrite sumn_swap, <- sumn_add. apply sumn_ext. intros c Hc.
    rewrite (sumn_ext K (length aux) (fun i0 => Y i (nth i0 aux 0) *! (fopp (X i0 c) *! x c)) (fun k => fopp (x c) *! (Y i (nth k aux 0) *! X k c))) by (intros; ring).
    rewrite sumn_scale. ring. }
  split; intros k Hk; rewrite C.
  - apply sumn_zero. intros c Hc. specialize (HX k c Hk Hc). unfold block in HX. rewrite HX. ring.
  - apply sumn_ext. intros c Hc. rewrite HR by auto. unfold block. f_equal. f_equal. apply sumn_ext. intros i Hi.
    rewrite (SY (nth k nonaux 0) (nth i aux 0)) by auto. reflexivity.
Qed.
End P.
