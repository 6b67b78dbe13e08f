(** Lemmas about the model of complex sparse matrices and of the Kron reduction. *)
From Coq Require Import List Bool Arith Lia Sorted Permutation Ring Field.
From Verif Require Import RingKit KronModel KronSpec.
Import ListNotations.
Open Scope nat_scope.

Section P.
Variable K : cfield.
Add Field kf : (fth K).
Notation elem := (nat * nat * K)%type.

(** the first value stored at a position *)
Fixpoint lookup (l : list elem) (i j : nat) : option K :=
  match l with
  | [] => None
  | (a, b, v) :: r => if (a =? i) && (b =? j) then Some v else lookup r i j
  end.
Definition orz (o : option K) : K := match o with Some v => v | None => f0 end.

Lemma dense_cons a b v (l : list elem) i j :
  dense ((a, b, v) :: l) i j = (if (a =? i) && (b =? j) then v else f0) +! dense l i j.
Proof. unfold dense. simpl. destruct (a =? i), (b =? j); reflexivity. Qed.
Lemma dense_app (l1 l2 : list elem) i j : dense (l1 ++ l2) i j = dense l1 i j +! dense l2 i j.
Proof. unfold dense. rewrite map_app, lsum_app. reflexivity. Qed.
Lemma dense_nil i j : dense (@nil elem) i j = f0.
Proof. reflexivity. Qed.

Lemma lsum_perm' (l l' : list K) : Permutation l l' -> lsum l = lsum l'.
Proof. induction 1; simpl; auto. - now rewrite IHPermutation. - ring. - congruence. Qed.
Lemma dense_perm (l l' : list elem) i j : Permutation l l' -> dense l i j = dense l' i j.
Proof. intro H. unfold dense. apply lsum_perm', Permutation_map, H. Qed.

Lemma dense_none (l : list elem) i j : (forall e, In e l -> fst e <> (i, j)) -> dense l i j = f0.
Proof.
  intro H. unfold dense. apply lsum_zero. intros [[a b] v] Hi. specialize (H _ Hi). simpl in H.
  destruct (Nat.eqb_spec a i); auto. destruct (Nat.eqb_spec b j); auto. subst. congruence.
Qed.
Lemma lookup_none (l : list elem) i j : (forall e, In e l -> fst e <> (i, j)) -> lookup l i j = None.
Proof.
  induction l as [|[[a b] v] l IH]; simpl; intro H; auto.
  destruct (Nat.eqb_spec a i); simpl; [destruct (Nat.eqb_spec b j); simpl|].
  - subst. exfalso. apply (H (i, j, v)); auto.
  - apply IH. intros; apply H; auto.
  - apply IH. intros; apply H; auto.
Qed.
Lemma lookup_app (p l : list elem) i j : (forall e, In e p -> fst e <> (i, j)) -> lookup (p ++ l) i j = lookup l i j.
Proof.
  induction p as [|[[a b] v] p IH]; simpl; intro H; auto.
  destruct (Nat.eqb_spec a i); simpl; [destruct (Nat.eqb_spec b j); simpl|].
  - subst. exfalso. apply (H (i, j, v)); auto.
  - apply IH. intros; apply H; auto.
  - apply IH. intros; apply H; auto.
Qed.

Lemma pos_lt_neq (a b : elem) : pos_lt a b -> fst a <> fst b.
Proof. unfold pos_lt. intros H E. rewrite E in H. lia. Qed.
Lemma row_major_cons e (l : list elem) : row_major (e :: l) -> row_major l /\ Forall (pos_lt e) l.
Proof. intro H. inversion H; subst; auto. Qed.
Lemma dense_lookup (l : list elem) i j : row_major l -> dense l i j = orz (lookup l i j).
Proof.
  induction l as [|[[a b] v] l IH]; intro H; auto. apply row_major_cons in H as [H1 H2].
  rewrite dense_cons. simpl. destruct ((a =? i) && (b =? j)) eqn:E.
  - apply andb_true_iff in E as [E1 E2]. apply Nat.eqb_eq in E1, E2. subst. simpl.
    rewrite dense_none; [ring|]. intros e He E. rewrite Forall_forall in H2. apply H2 in He. apply pos_lt_neq in He. simpl in He. congruence.
  - rewrite IH by auto. ring.
Qed.
Lemma row_major_app (p l : list elem) : row_major (p ++ l) -> row_major l.
Proof. induction p as [|e p IH]; simpl; auto. intro H. apply row_major_cons in H as [H _]. auto. Qed.

(** ** sorting and summing *)
Lemma before_iff (a b : elem) : before a b = true <-> pos_lt a b.
Proof.
  destruct a as [[i1 j1] v], b as [[i2 j2] w]. unfold before, pos_lt. simpl.
  destruct (Nat.ltb_spec i1 i2); [split; auto|]. destruct (Nat.ltb_spec i2 i1).
  - split; [discriminate|lia].
  - rewrite Nat.ltb_lt. lia.
Qed.
Lemma before_false (a b : elem) : before a b = false <-> pos_le b a.
Proof.
  destruct a as [[i1 j1] v], b as [[i2 j2] w]. unfold before, pos_le, pos_lt. simpl.
  destruct (Nat.ltb_spec i1 i2); [split; [discriminate|intros [H1|H1]; [lia|injection H1; lia]]|]. destruct (Nat.ltb_spec i2 i1).
  - split; auto.
  - rewrite Nat.ltb_ge. split; intro H1.
    + destruct (Nat.eq_dec j1 j2); [right; f_equal; lia|left; lia].
    + destruct H1 as [H1|H1]; [lia|injection H1; lia].
Qed.
Lemma pos_le_trans (a b c : elem) : pos_le a b -> pos_le b c -> pos_le a c.
Proof.
  destruct a as [[i1 j1] v], b as [[i2 j2] w], c as [[i3 j3] u]. unfold pos_le, pos_lt. simpl.
  intros [H1|H1] [H2|H2]; try injection H1 as -> ->; try injection H2 as -> ->; auto; left; lia.
Qed.
Lemma insert_perm (a : elem) l : Permutation (a :: l) (insert_ent a l).
Proof.
  induction l as [|b l IH]; simpl; auto. destruct (before b a); auto.
  rewrite perm_swap. constructor. auto.
Qed.
Lemma sort_perm (l : list elem) : Permutation l (sort_indexes l).
Proof. induction l as [|a l IH]; simpl; auto. rewrite <- insert_perm. constructor. exact IH. Qed.
Lemma insert_weak (a : elem) l : weakly_row_major l -> weakly_row_major (insert_ent a l).
Proof.
  unfold weakly_row_major. induction l as [|b l IH]; simpl; intro H.
  - repeat constructor.
  - destruct (before b a) eqn:E.
    + inversion H; subst. constructor; auto. apply before_iff in E.
      apply Forall_forall. intros x Hx. rewrite <- insert_perm in Hx. destruct Hx as [->|Hx]; [left; auto|].
      rewrite Forall_forall in H3. auto.
    + apply before_false in E. constructor; auto. inversion H; subst. constructor; auto.
      rewrite Forall_forall in *. intros x Hx. eapply pos_le_trans; eauto.
Qed.
Lemma sort_weak (l : list elem) : weakly_row_major (sort_indexes l).
Proof. induction l as [|a l IH]; simpl; [constructor|]. apply insert_weak; auto. Qed.
Lemma sort_id (l : list elem) : row_major l -> sort_indexes l = l.
Proof.
  induction l as [|a l IH]; intro H; auto. apply row_major_cons in H as [H1 H2]. simpl. rewrite IH by auto.
  destruct l as [|b l]; auto. simpl. inversion H2; subst.
  destruct (before b a) eqn:E; auto. apply before_iff in E. unfold pos_lt in *. lia.
Qed.

Lemma sum_from_dense (l : list elem) : forall ci cj acc i j,
  dense (sum_from ci cj acc l) i j = (if (ci =? i) && (cj =? j) then acc else f0) +! dense l i j.
Proof.
  induction l as [|[[a b] v] l IH]; intros; cbn [sum_from].
  - rewrite dense_cons. reflexivity.
  - destruct ((a =? ci) && (b =? cj)) eqn:E.
    + apply andb_true_iff in E as [E1 E2]. apply Nat.eqb_eq in E1, E2. subst. rewrite IH, dense_cons.
      destruct ((ci =? i) && (cj =? j)); ring.
    + rewrite dense_cons, IH, dense_cons. ring.
Qed.
Lemma sum_dense (l : list elem) i j : dense (sum_up_duplicates l) i j = dense l i j.
Proof. destruct l as [|[[a b] v] l]; auto. simpl sum_up_duplicates. rewrite sum_from_dense, dense_cons. reflexivity. Qed.
Lemma sum_from_major (l : list elem) : forall ci cj acc,
  weakly_row_major ((ci, cj, acc) :: l) ->
  row_major (sum_from ci cj acc l) /\ (forall e, In e (sum_from ci cj acc l) -> pos_le (ci, cj, acc) e).
Proof.
  unfold weakly_row_major. induction l as [|[[a b] v] l IH]; intros ci cj acc H; cbn [sum_from].
  - split; [repeat constructor|]. intros e [<-|[]]. right. reflexivity.
  - inversion H as [|? ? H1 H2]; subst. inversion H2 as [|? ? H3 H4]; subst. destruct ((a =? ci) && (b =? cj)) eqn:E.
    + apply andb_true_iff in E as [E1 E2]. apply Nat.eqb_eq in E1, E2. subst.
      destruct (IH ci cj (acc +! v)) as [G1 G2].
      * inversion H1; subst. constructor; auto.
      * split; auto.
    + destruct (IH a b v H1) as [G1 G2].
      assert (L : pos_lt (ci, cj, acc) (a, b, v)).
      { destruct H3 as [H3|H3]; auto. simpl in H3. injection H3 as -> ->. rewrite !Nat.eqb_refl in E. discriminate. }
      split.
      * constructor; auto. apply Forall_forall. intros e He. apply G2 in He.
        clear -L He. destruct e as [[x y] w]. unfold pos_le, pos_lt in He, L |- *. cbn [fst snd] in He, L |- *. destruct He as [He|He]; [lia|injection He as E1 E2; lia].
      * intros e [<-|He]; [right; reflexivity|]. apply G2 in He. eapply pos_le_trans; [left; exact L|exact He].
Qed.
Lemma sum_major (l : list elem) : weakly_row_major l -> row_major (sum_up_duplicates l).
Proof. destruct l as [|[[a b] v] l]; intro H; [constructor|]. apply sum_from_major. exact H. Qed.
Lemma sum_from_inside m n (l : list elem) : forall ci cj acc,
  inside m n ((ci, cj, acc) :: l) -> inside m n (sum_from ci cj acc l).
Proof.
  unfold inside. induction l as [|[[a b] v] l IH]; intros ci cj acc H; cbn [sum_from].
  - exact H.
  - inversion H as [|? ? H1 H2]; subst. inversion H2 as [|? ? H3 H4]; subst. destruct ((a =? ci) && (b =? cj)); [apply IH; constructor; auto|].
    constructor; auto.
Qed.
Lemma sum_inside m n (l : list elem) : inside m n l -> inside m n (sum_up_duplicates l).
Proof. destruct l as [|[[a b] v] l]; intro H; [constructor|]. apply sum_from_inside. exact H. Qed.

(** ** the scans *)
Lemma skip_rows_app row (l : list elem) : exists p, l = p ++ skip_rows row l /\ (forall e, In e p -> fst (fst e) < row).
Proof.
  induction l as [|[[a b] v] l IH]; simpl; [exists []; simpl; intuition|].
  destruct (Nat.ltb_spec a row) as [L|L]; [|exists []; simpl; intuition].
  destruct IH as [p [E H]]. exists ((a, b, v) :: p). simpl. rewrite <- E. split; auto. intros e [<-|He]; auto.
Qed.
Lemma skip_rows_ge row (l : list elem) : row_major l -> forall e, In e (skip_rows row l) -> row <= fst (fst e).
Proof.
  induction l as [|[[a b] v] l IH]; simpl; intros H e He; [tauto|].
  apply row_major_cons in H as [H1 H2]. destruct (Nat.ltb_spec a row) as [L|L]; [apply IH; auto|].
  destruct He as [<-|He]; simpl; auto. rewrite Forall_forall in H2. apply H2 in He. unfold pos_lt in He. simpl in He. lia.
Qed.
Lemma skip_cols_app row col (l : list elem) : exists p, l = p ++ skip_cols row col l /\ (forall e, In e p -> fst (fst e) = row /\ snd (fst e) < col).
Proof.
  induction l as [|[[a b] v] l IH]; simpl; [exists []; simpl; intuition|].
  destruct ((a =? row) && (b <? col)) eqn:L; [|exists []; simpl; intuition].
  apply andb_true_iff in L as [L1 L2]. apply Nat.eqb_eq in L1. apply Nat.ltb_lt in L2.
  destruct IH as [p [E H]]. exists ((a, b, v) :: p). simpl. rewrite <- E. split; auto. intros e [<-|He]; auto.
Qed.
(** what the first element left by the scan says about position (row, col) *)
Lemma skip_cols_head row col (l : list elem) : row_major l -> (forall e, In e l -> row <= fst (fst e)) ->
  lookup l row col = match skip_cols row col l with
                     | (i, j, v) :: _ => if (i =? row) && (j =? col) then Some v else None
                     | [] => None
                     end.
Proof.
  intros H G. destruct (skip_cols_app row col l) as [p [E P]].
  assert (L : lookup l row col = lookup (skip_cols row col l) row col).
  { rewrite E at 1. apply lookup_app. intros e He X. apply P in He. rewrite X in He. simpl in He. lia. }
  rewrite L. clear L.
  destruct (skip_cols row col l) as [|[[i j] v] t] eqn:F; auto. simpl.
  destruct ((i =? row) && (j =? col)) eqn:Q; auto.
  assert (NH : (i =? row) && (j <? col) = false).
  { clear -F. revert F. induction l as [|[[a b] w] l IH]; simpl; [discriminate|].
    destruct ((a =? row) && (b <? col)) eqn:L; auto. intro F. injection F as -> -> -> ->. exact L. }
  apply lookup_none. intros e He X.
  assert (R : row_major ((i, j, v) :: t)) by (rewrite E in H; exact (row_major_app p _ H)).
  assert (Gi : row <= i). { apply (G (i, j, v)). rewrite E. apply in_or_app. right. left. reflexivity. }
  apply row_major_cons in R as [_ R]. rewrite Forall_forall in R. apply R in He. unfold pos_lt in He. rewrite X in He. simpl in He.
  destruct (Nat.eqb_spec i row); simpl in *; [|lia]. apply Nat.ltb_ge in NH. apply Nat.eqb_neq in Q. lia.
Qed.

Definition found (l : list elem) (row : nat) (p : nat * nat) : list (nat * K) :=
  match lookup l row (snd p) with Some v => [(fst p, v)] | None => [] end.
Lemma scan_cols_spec row : forall cs (l : list elem), row_major l -> (forall e, In e l -> row <= fst (fst e)) ->
  StronglySorted lt (map snd cs) ->
  fst (scan_cols row cs l) = flat_map (found l row) cs /\
  exists p, l = p ++ snd (scan_cols row cs l) /\ (forall e, In e p -> fst (fst e) = row).
Proof.
  induction cs as [|[kj col] cs IH]; intros l H G C; simpl.
  - split; auto. exists []. simpl. intuition.
  - inversion C as [|? ? C1 C2]; subst.
    pose proof (skip_cols_head row col l H G) as HD.
    destruct (skip_cols_app row col l) as [p [E P]].
    set (l1 := skip_cols row col l) in *.
    assert (M1 : row_major l1) by (rewrite E in H; exact (row_major_app p _ H)).
    assert (G1 : forall e, In e l1 -> row <= fst (fst e)) by (intros e He; apply G; rewrite E; apply in_or_app; auto).
    assert (Miss : scan_cols row cs l1 = scan_cols row cs l1 ->
       lookup l row col = None ->
       fst (scan_cols row cs l1) = found l row (kj, col) ++ flat_map (found l row) cs /\
       (exists p0, l = p0 ++ snd (scan_cols row cs l1) /\ (forall e, In e p0 -> fst (fst e) = row))).
    { intros _ N. destruct (IH l1 M1 G1 C1) as [I1 [p' [E' P']]]. split.
      - rewrite I1. unfold found at 2. simpl. rewrite N. simpl. rewrite !flat_map_concat_map. f_equal. apply map_ext_in.
        intros [k c] Hin. unfold found. simpl. rewrite E at 1. rewrite lookup_app; auto.
        intros e He X. apply P in He. rewrite X in He. simpl in He.
        rewrite Forall_forall in C2. specialize (C2 c (in_map snd _ _ Hin)). lia.
      - exists (p ++ p'). split.
        + rewrite <- app_assoc, <- E'. exact E.
        + intros e He. apply in_app_or in He as [He|He]; auto. apply P in He. tauto. }
    destruct l1 as [|[[i j] v] t] eqn:F.
    + apply Miss; auto.
    + destruct ((i =? row) && (j =? col)) eqn:Q.
      * apply andb_true_iff in Q as [Q1 Q2]. apply Nat.eqb_eq in Q1, Q2. subst i j.
        apply row_major_cons in M1 as [M2 M3].
        assert (G2 : forall e, In e t -> row <= fst (fst e)) by (intros e He; apply G1; right; auto).
        destruct (IH t M2 G2 C1) as [I1 [p' [E' P']]].
        destruct (scan_cols row cs t) as [out l2]. simpl in *. split.
        -- unfold found at 1. simpl. rewrite HD. simpl. f_equal. rewrite I1. rewrite !flat_map_concat_map. f_equal. apply map_ext_in.
           intros [k c] Hin. unfold found. simpl. rewrite E at 1.
           rewrite Forall_forall in C2. specialize (C2 c (in_map snd _ _ Hin)).
           rewrite lookup_app; [|intros e He X; apply P in He; rewrite X in He; simpl in He; lia].
           simpl. rewrite Nat.eqb_refl. destruct (Nat.eqb_spec col c); [lia|]. reflexivity.
        -- exists (p ++ (row, col, v) :: p'). split.
           ++ rewrite <- app_assoc. simpl. rewrite <- E'. exact E.
           ++ intros e He. apply in_app_or in He as [He|[<-|He]]; auto. apply P in He. tauto.
      * apply Miss; auto.
Qed.

Definition taken (l : list elem) (colsof : nat -> nat -> list (nat * nat)) (q : nat * nat) : list elem :=
  flat_map (fun p => match lookup l (snd q) (snd p) with Some v => [(fst q, fst p, v)] | None => [] end) (colsof (fst q) (snd q)).
Lemma map_found (l : list elem) (ki row : nat) (cs : list (nat * nat)) :
  map (fun p : nat * K => (ki, fst p, snd p)) (flat_map (found l row) cs)
  = flat_map (fun p => match lookup l row (snd p) with Some v => [(ki, fst p, v)] | None => [] end) cs.
Proof.
  induction cs as [|p cs IH]; simpl; auto. rewrite map_app, IH. f_equal. unfold found. destruct (lookup l row (snd p)); reflexivity.
Qed.
Lemma scan_rows_spec colsof : forall rs (l : list elem), row_major l ->
  StronglySorted lt (map snd rs) ->
  (forall q, In q rs -> StronglySorted lt (map snd (colsof (fst q) (snd q)))) ->
  scan_rows rs colsof l = flat_map (taken l colsof) rs.
Proof.
  induction rs as [|[ki row] rs IH]; intros l H R C; simpl; auto.
  inversion R as [|? ? R1 R2]; subst.
  destruct (skip_rows_app row l) as [p [E P]].
  assert (M1 : row_major (skip_rows row l)) by (rewrite E in H; exact (row_major_app p _ H)).
  pose proof (C (ki, row) (or_introl eq_refl)) as C0. simpl in C0.
  destruct (scan_cols_spec row (colsof ki row) (skip_rows row l) M1 (skip_rows_ge row l H) C0) as [S1 [p2 [E2 P2]]].
  destruct (scan_cols row (colsof ki row) (skip_rows row l)) as [out l2]. simpl in S1, E2.
  assert (L : forall i c, row <= i -> lookup (skip_rows row l) i c = lookup l i c).
  { intros i c Hi. rewrite E at 2. rewrite lookup_app; auto. intros e He X. apply P in He. rewrite X in He. simpl in He. lia. }
  assert (L2 : forall i c, row < i -> lookup l2 i c = lookup l i c).
  { intros i c Hi. rewrite <- (L i c) by lia. rewrite E2. rewrite lookup_app; auto. intros e He X. apply P2 in He. rewrite X in He. simpl in He. lia. }
  f_equal.
  - rewrite S1, map_found. unfold taken. simpl. rewrite !flat_map_concat_map. f_equal. apply map_ext. intros q. rewrite L by auto. reflexivity.
  - rewrite IH; auto.
    + rewrite !flat_map_concat_map. f_equal. apply map_ext_in. intros q Hq.
      unfold taken. rewrite !flat_map_concat_map. f_equal. apply map_ext. intros q'.
      rewrite L2; auto. rewrite Forall_forall in R2. apply R2. apply in_map. exact Hq.
    + rewrite E2 in M1. exact (row_major_app p2 _ M1).
    + intros q Hq. apply C. right. exact Hq.
Qed.
End P.
