(** Loops over the rows: scaling, diagonal updates, product and sum. *)
From Coq Require Import List Bool Arith Lia Sorted Ring Field.
From Verif Require Import RingKit PackModel PackProofs SparseModel SparseSpec SparseProofs SparseProofs2 CsrModel CsrSpec CsrProofs CsrProofs2 CsrProofs3.
Import ListNotations.

Lemma skipn_nth {A} (l : list A) i d : i < length l -> skipn i l = nth i l d :: skipn (S i) l.
Proof. revert i. induction l as [|x l IH]; intros [|i] H; simpl in *; try lia; auto. apply IH. lia. Qed.
Lemma firstn_S_nth {A} (l : list A) i d : i < length l -> firstn (S i) l = firstn i l ++ [nth i l d].
Proof. revert i. induction l as [|x l IH]; intros [|i] H; cbn [firstn nth length app] in *; try lia; auto. f_equal. apply IH. lia. Qed.

Section P.
Variable K : cfield.
Add Field kf : (fth K).
Notation entry := (entry K).
Notation csr := (csr K).
Notation junk := (junk K).
Notation rows := (list (list (nat * K))).

(** * one row *)
Fixpoint mapst {T} (f : nat -> K -> T -> option (K * T)) (r : list (nat * K)) (s : T) : option (list K * T) :=
  match r with
  | [] => Some ([], s)
  | (j, v) :: r' => match f j v s with
                    | Some (v', s') => match mapst f r' s' with Some (vs, s2) => Some (v' :: vs, s2) | None => None end
                    | None => None
                    end
  end.
Lemma upd_row_spec {T} (f : nat -> K -> T -> option (K * T)) r : forall cp cq pre post s vs s',
  length cp = length pre -> mapst f r s = Some (vs, s') ->
  upd_row K f (cp ++ map fst r ++ cq) (length pre) (length pre + length r) (pre ++ map snd r ++ post, s) = Some (pre ++ vs ++ post, s').
Proof.
  unfold upd_row. induction r as [|[j v] r IH]; intros cp cq pre post s vs s' Hl Hm.
  - simpl in Hm. injection Hm as <- <-. simpl. rewrite Nat.add_0_r, Nat.sub_diag. reflexivity.
  - simpl in Hm. destruct (f j v s) as [[v' s2]|] eqn:Ef; [|discriminate]. destruct (mapst f r s2) as [[vs2 s3]|] eqn:Em; [|discriminate].
    injection Hm as <- <-.
    replace (length pre + length ((j, v) :: r) - length pre) with (S (length r)) by (simpl; lia).
    cbn [seq ofold map].
    assert (E1 : nth_error (cp ++ (fst (j, v) :: map fst r) ++ cq) (length pre) = Some j).
    { rewrite nth_error_app2 by lia. rewrite Hl, Nat.sub_diag. reflexivity. }
    assert (E2 : nth_error (pre ++ (snd (j, v) :: map snd r) ++ post) (length pre) = Some v).
    { rewrite nth_error_app2 by lia. rewrite Nat.sub_diag. reflexivity. }
    rewrite E1, E2, Ef. cbn [app snd fst]. rewrite upd_app_mid.
    specialize (IH (cp ++ [j]) cq (pre ++ [v']) post s2 vs2 s3).
    rewrite !app_length in IH. cbn [length] in IH. specialize (IH ltac:(lia) Em).
    replace (length pre + 1 + length r - (length pre + 1)) with (length r) in IH by lia.
    rewrite Nat.add_1_r in IH. rewrite <- !app_assoc in IH. exact IH.
Qed.

(** * all rows *)
Definition off (rs : rows) (i : nat) : nat := length (concat (firstn i rs)).
Lemma concat_split (rs : rows) i : i < length rs -> concat rs = concat (firstn i rs) ++ nth i rs [] ++ concat (skipn (S i) rs).
Proof.
  intro H. rewrite <- (firstn_skipn i rs) at 1. rewrite concat_app, (skipn_nth rs i []) by auto. reflexivity.
Qed.
Lemma rep_ptr A rs i : rep K A rs -> i < c_m A ->
  nth_error (c_ptr A) i = Some (off rs i) /\ nth_error (c_ptr A) (S i) = Some (off rs i + length (nth i rs [])).
Proof.
  intros H Hi. assert (L := rep_len K A rs H). apply rep_stores in H. destruct H as [_ [_ [_ [H _]]]].
  apply H. apply nth_error_nth'. lia.
Qed.

Lemma row_loop {T ST} (mk : list K -> T -> ST) A rs (step : nat -> ST -> option ST) (P : nat -> T -> Prop) (out : nat -> list K) (v0 : rows) :
  rep K A rs -> pattern v0 = pattern rs ->
  (forall i pre post s, i < c_m A -> P i s -> length pre = off rs i ->
     exists s', step i (mk (pre ++ map snd (nth i v0 []) ++ post) s) = Some (mk (pre ++ out i ++ post) s') /\
       P (S i) s' /\ length (out i) = length (nth i rs [])) ->
  forall s0, P 0 s0 -> exists s', ofold step (seq 0 (c_m A)) (mk (map snd (concat v0)) s0) = Some (mk (concat (map out (seq 0 (c_m A)))) s') /\
     P (c_m A) s'.
Proof.
  intros Hr Hp Hstep s0 H0. assert (L := rep_len K A rs Hr).
  assert (Lv : length v0 = length rs). { apply (f_equal (@length _)) in Hp. unfold pattern in Hp. rewrite !map_length in Hp. auto. }
  assert (G : forall n i s pre, i + n = c_m A -> P i s -> length pre = off rs i ->
    exists s', ofold step (seq i n) (mk (pre ++ map snd (concat (skipn i v0))) s) =
      Some (mk (pre ++ concat (map out (seq i n))) s') /\ P (c_m A) s').
  { induction n as [|n IH]; intros i s pre Hn HP Hl.
    - rewrite skipn_all2 by lia. exists s. simpl. replace (c_m A) with i by lia. auto.
    - cbn [seq ofold map concat]. rewrite (skipn_nth v0 i []) by lia. cbn [concat]. rewrite map_app.
      destruct (Hstep i pre (map snd (concat (skipn (S i) v0))) s) as [s1 [E1 [P1 L1]]]; [lia|auto|auto|].
      rewrite E1. rewrite app_assoc.
      destruct (IH (S i) s1 (pre ++ out i)) as [s2 [E2 P2]]; [lia|auto| |].
      + rewrite app_length, Hl, L1. unfold off. rewrite (firstn_S_nth rs i []) by lia. rewrite concat_app, app_length. simpl. rewrite app_nil_r. auto.
      + exists s2. rewrite E2. rewrite <- app_assoc. auto. }
  destruct (G (c_m A) 0 s0 []) as [s' H]; auto. exists s'. exact H.
Qed.

Lemma rep_new A rs (g : nat -> list (nat * K)) : rep K A rs ->
  (forall i, i < c_m A -> map fst (g i) = map fst (nth i rs [])) ->
  rep K (with_vals A (concat (map (fun i => map snd (g i)) (seq 0 (c_m A))))) (map g (seq 0 (c_m A))).
Proof.
  intros Hr Hg. assert (L := rep_len K A rs Hr). destruct Hr as [Hs Hv].
  assert (E : pattern (map g (seq 0 (c_m A))) = pattern rs).
  { unfold pattern. rewrite map_map. rewrite <- L. transitivity (map (fun i => map fst (nth i rs [])) (seq 0 (length rs))).
    - apply map_ext_in. intros i Hi. apply in_seq in Hi. apply Hg. lia.
    - clear. induction rs as [|r rs IH]; simpl; auto. f_equal. rewrite <- seq_shift, map_map. exact IH. }
  assert (V : map snd (concat (map g (seq 0 (c_m A)))) = concat (map (fun i => map snd (g i)) (seq 0 (c_m A)))).
  { rewrite <- concat_map_map, map_map. reflexivity. }
  split; [|symmetry; exact V]. rewrite E. apply shape_vals; auto. rewrite <- V.
  destruct Hs as [_ [-> _]]. rewrite <- E. unfold pattern. rewrite concat_map_map, !map_length. reflexivity.
Qed.
Lemma slice_cols A rs i : rep K A rs -> i < c_m A ->
  exists cp cq, c_col A = cp ++ map fst (nth i rs []) ++ cq /\ length cp = off rs i.
Proof.
  intros Hr Hi. assert (L := rep_len K A rs Hr). destruct Hr as [[_ [_ [_ [H _]]]] _].
  exists (map fst (concat (firstn i rs))), (map fst (concat (skipn (S i) rs))). split; [|rewrite map_length; reflexivity].
  rewrite H. unfold pattern. rewrite concat_map_map. rewrite (concat_split rs i) at 1 by lia. rewrite !map_app. reflexivity.
Qed.

(** * scaling *)
Lemma scale_loop_spec A rs (f : nat -> nat -> K -> option K) (h : nat -> nat -> K -> K) :
  rep K A rs -> (forall i j v, i < c_m A -> j < c_n A -> f i j v = Some (h i j v)) ->
  exists A', scale_loop K f A = Some A' /\ c_m A' = c_m A /\ c_n A' = c_n A /\ c_rs A' = c_rs A /\ c_ptr A' = c_ptr A /\
    rep K A' (map (fun i => map (fun p => (fst p, h i (fst p) (snd p))) (nth i rs [])) (seq 0 (c_m A))).
Proof.
  intros Hr Hf. unfold scale_loop.
  set (g := fun i => map (fun p => (fst p, h i (fst p) (snd p))) (nth i rs [])).
  destruct (row_loop (fun v (s : unit) => (v, s)) A rs
      (fun i st => match nth_error (c_ptr A) i, nth_error (c_ptr A) (S i) with
          | Some a, Some b => upd_row K (fun j v s => match f i j v with Some v' => Some (v', s) | None => None end) (c_col A) a b st
          | _, _ => None end) (fun _ _ => True) (fun i => map snd (g i)) rs Hr eq_refl) with (s0 := tt) as [s' [E _]]; auto.
  - intros i pre post s Hi _ Hl. destruct (rep_ptr A rs i Hr Hi) as [E1 E2]. rewrite E1, E2.
    destruct (slice_cols A rs i Hr Hi) as [cp [cq [Ec Lc]]]. rewrite Ec. exists s. rewrite <- Hl.
    split; [|split; auto; unfold g; rewrite !map_length; auto].
    apply upd_row_spec; [lia|]. unfold g. rewrite map_map. cbn [snd].
    assert (B : forall p, In p (nth i rs []) -> fst p < c_n A) by (intros p Hp; apply (rep_bound K A rs i p Hr Hp)).
    clear -B Hf Hi. induction (nth i rs []) as [|[j v] r IH]; simpl; auto.
    rewrite Hf by (auto; apply (B (j, v)); left; auto). rewrite IH by (intros; apply B; right; auto). reflexivity.
  - assert (HV : map snd (concat rs) = c_val A) by (destruct Hr as [_ ->]; auto). rewrite HV in E. rewrite E. eexists. split; [reflexivity|].
    repeat (split; [reflexivity|]). apply (rep_new A rs g); auto. intros i Hi. unfold g. rewrite map_map. reflexivity.
Qed.
Lemma cmat_map (g : nat -> list (nat * K)) m i j : i < m -> cmat (map g (seq 0 m)) i j = lsum (map (fun p => if fst p =? j then snd p else f0) (g i)).
Proof. intro H. unfold cmat. rewrite nth_map_seq by auto. reflexivity. Qed.
Definition row_scaled (rs : rows) (D : list K) (m : nat) : rows :=
  map (fun i => map (fun p => (fst p, snd p *! at_ D i)) (nth i rs [])) (seq 0 m).
Definition col_scaled (rs : rows) (D : list K) (m : nat) : rows :=
  map (fun i => map (fun p => (fst p, snd p *! at_ D (fst p))) (nth i rs [])) (seq 0 m).
Lemma cmat_row_scaled rs D m i j : i < m -> cmat (row_scaled rs D m) i j = cmat rs i j *! at_ D i.
Proof.
  intro H. unfold row_scaled. rewrite cmat_map, map_map by auto. unfold cmat. rewrite <- lsum_scale_r. apply lsum_ext. intros p _. simpl.
  destruct (fst p =? j); ring.
Qed.
Lemma cmat_col_scaled rs D m i j : i < m -> cmat (col_scaled rs D m) i j = cmat rs i j *! at_ D j.
Proof.
  intro H. unfold col_scaled. rewrite cmat_map, map_map by auto. unfold cmat. rewrite <- lsum_scale_r. apply lsum_ext. intros p _. simpl.
  destruct (Nat.eqb_spec (fst p) j) as [->|]; ring.
Qed.
Lemma scale_rows_spec A rs D : rep K A rs -> length D = c_m A ->
  exists A', scale_rows K A D = Some A' /\ c_m A' = c_m A /\ c_n A' = c_n A /\ c_rs A' = c_rs A /\ c_ptr A' = c_ptr A /\
    rep K A' (row_scaled rs D (c_m A)).
Proof.
  intros Hr HD. unfold scale_rows. rewrite HD, Nat.eqb_refl. apply (scale_loop_spec A rs _ (fun i _ v => v *! at_ D i)); auto.
  intros i j v Hi _. rewrite nth_err_at by lia. reflexivity.
Qed.
Lemma scale_cols_spec A rs D : rep K A rs -> length D = c_n A ->
  exists A', scale_cols K A D = Some A' /\ c_m A' = c_m A /\ c_n A' = c_n A /\ c_rs A' = c_rs A /\ c_ptr A' = c_ptr A /\
    rep K A' (col_scaled rs D (c_m A)).
Proof.
  intros Hr HD. unfold scale_cols. rewrite HD, Nat.eqb_refl. apply (scale_loop_spec A rs _ (fun _ j v => v *! at_ D j)); auto.
  intros i j v _ Hj. rewrite nth_err_at by lia. reflexivity.
Qed.
Lemma pattern_map_fst (rs : rows) (h : nat -> nat * K -> K) :
  pattern (map (fun i => map (fun p => (fst p, h i p)) (nth i rs [])) (seq 0 (length rs))) = pattern rs.
Proof.
  unfold pattern. rewrite map_map. transitivity (map (fun i => map fst (nth i rs [])) (seq 0 (length rs))).
  - apply map_ext. intro i. rewrite map_map. reflexivity.
  - clear. induction rs as [|r rs IH]; simpl; auto. f_equal. rewrite <- seq_shift, map_map. exact IH.
Qed.

(** * diagonal *)
Fixpoint dset (h : K -> K) (i : nat) (r : list (nat * K)) : list (nat * K) :=
  match r with [] => [] | (j, v) :: r' => if j =? i then (j, h v) :: r' else (j, v) :: dset h i r' end.
Lemma dset_fst h i r : map fst (dset h i r) = map fst r.
Proof. induction r as [|[j v] r IH]; simpl; auto. destruct (j =? i); simpl; f_equal; auto. Qed.
Lemma find_diag_spec i (r : list (nat * K)) : forall cp cq a, length cp = a ->
  exists o, find_diag (cp ++ map fst r ++ cq) i a (length r) = Some o /\
    match o with
    | None => ~ In i (map fst r)
    | Some p => exists r1 v r2, r = r1 ++ (i, v) :: r2 /\ p = a + length r1 /\ ~ In i (map fst r1)
    end.
Proof.
  induction r as [|[j v] r IH]; intros cp cq a Ha.
  - exists None. simpl. auto.
  - cbn [length find_diag map fst]. rewrite nth_error_app2 by lia. rewrite Ha, Nat.sub_diag. cbn [nth_error app].
    destruct (Nat.eqb_spec j i) as [->|N].
    + exists (Some a). split; auto. exists [], v, r. simpl. repeat split; auto.
    + destruct (IH (cp ++ [j]) cq (S a)) as [o [E Ho]]; [rewrite app_length; simpl; lia|].
      exists o. rewrite <- app_assoc in E. split; [exact E|]. destruct o as [p|].
      * destruct Ho as [r1 [w [r2 [-> [-> Hn]]]]]. exists ((j, v) :: r1), w, r2. simpl. split; auto. split; [lia|].
        intros [H|H]; auto.
      * simpl. intros [H|H]; auto.
Qed.
Lemma dset_mid h i r1 v r2 : ~ In i (map fst r1) -> dset h i (r1 ++ (i, v) :: r2) = r1 ++ (i, h v) :: r2.
Proof.
  induction r1 as [|[j w] r1 IH]; simpl; intro H; [rewrite Nat.eqb_refl; auto|].
  destruct (Nat.eqb_spec j i); [exfalso; auto|]. f_equal. auto.
Qed.
Lemma dset_none h i r : ~ In i (map fst r) -> dset h i r = r.
Proof. induction r as [|[j w] r IH]; simpl; intro H; auto. destruct (Nat.eqb_spec j i); [exfalso; auto|]. f_equal. auto. Qed.
Definition diag_set (rs : rows) (h : nat -> K -> K) (m : nat) : rows := map (fun i => dset (h i) i (nth i rs [])) (seq 0 m).
Lemma diag_loop_spec A rs (f : nat -> K -> option K) (h : nat -> K -> K) :
  rep K A rs -> (forall i v, i < c_m A -> f i v = Some (h i v)) ->
  exists A', diag_loop K f A = Some A' /\ c_m A' = c_m A /\ c_n A' = c_n A /\ c_rs A' = c_rs A /\ rep K A' (diag_set rs h (c_m A)).
Proof.
  intros Hr Hf. unfold diag_loop.
  replace (length (c_ptr A) =? 0) with false by (destruct Hr as [[_ [_ [-> _]]] _]; rewrite psum_len; auto).
  set (g := fun i => dset (h i) i (nth i rs [])).
  destruct (row_loop (fun v (s : unit) => v) A rs
      (fun i vals => match nth_error (c_ptr A) i, nth_error (c_ptr A) (S i) with
          | Some a, Some b =>
              match find_diag (c_col A) i a (b - a) with
              | Some (Some p) =>
                  match nth_error vals p with
                  | Some v => match f i v with Some v' => upd vals p v' | None => None end
                  | None => None
                  end
              | Some None => Some vals
              | None => None
              end
          | _, _ => None
          end) (fun _ _ => True) (fun i => map snd (g i)) rs Hr eq_refl) with (s0 := tt) as [s' [E _]]; auto.
  - intros i pre post s Hi _ Hl. destruct (rep_ptr A rs i Hr Hi) as [E1 E2]. rewrite E1, E2.
    destruct (slice_cols A rs i Hr Hi) as [cp [cq [Ec Lc]]]. rewrite Ec. exists s.
    replace (off rs i + length (nth i rs []) - off rs i) with (length (nth i rs [])) by lia.
    destruct (find_diag_spec i (nth i rs []) cp cq (off rs i) Lc) as [o [-> Ho]].
    split; [|split; auto; unfold g; rewrite <- (map_length fst (nth i rs [])), <- (dset_fst (h i) i), !map_length; auto].
    unfold g. destruct o as [p|].
    + destruct Ho as [r1 [v [r2 [Er [-> Hn]]]]]. rewrite Er. rewrite dset_mid by auto. rewrite !map_app. cbn [map snd].
      rewrite <- !app_assoc. cbn [app]. rewrite app_assoc.
      replace (off rs i + length r1) with (length (pre ++ map snd r1)) by (rewrite app_length, map_length; lia).
      rewrite nth_error_app2 by lia. rewrite Nat.sub_diag. cbn [nth_error]. rewrite Hf by auto. rewrite upd_app_mid.
      rewrite <- app_assoc. reflexivity.
    + rewrite dset_none by auto. reflexivity.
  - assert (HV : map snd (concat rs) = c_val A) by (destruct Hr as [_ ->]; auto). rewrite HV in E.
    match goal with |- context [ofold ?F ?l ?s] => change (ofold F l s) with (ofold F l s) in E end.
    rewrite E. eexists. split; [reflexivity|]. repeat (split; [reflexivity|]).
    apply (rep_new A rs g); auto. intros i Hi. apply dset_fst.
Qed.
Lemma lookr_gt (r : list (nat * K)) j : (forall p, In p r -> j < fst p) -> lsum (map (fun p => if fst p =? j then snd p else f0) r) = f0.
Proof. intro H. apply lsum_zero. intros p Hp. specialize (H p Hp). destruct (Nat.eqb_spec (fst p) j); [lia|auto]. Qed.
Lemma cmat_none rs i j : ~ In j (map fst (nth i rs [])) -> cmat (K:=K) rs i j = f0.
Proof.
  intro H. unfold cmat. apply lsum_zero. intros p Hp. destruct (Nat.eqb_spec (fst p) j); auto. exfalso. apply H. subst. apply in_map. auto.
Qed.
Lemma dset_look h i j r : StronglySorted (fun a b : nat * K => fst a < fst b) r ->
  lsum (map (fun p => if fst p =? j then snd p else f0) (dset h i r)) =
  let x := lsum (map (fun p => if fst p =? j then snd p else f0) r) in
  if (j =? i) && existsb (Nat.eqb i) (map fst r) then h x else x.
Proof.
  cbv zeta. induction r as [|[k v] r IH]; intro H; simpl.
  - rewrite andb_false_r. reflexivity.
  - inversion H; subst. rewrite Forall_forall in H3. rewrite (Nat.eqb_sym i k). destruct (Nat.eqb_spec k i) as [->|N]; simpl.
    + rewrite andb_true_r. destruct (Nat.eqb_spec j i) as [->|N].
      * rewrite Nat.eqb_refl. rewrite lookr_gt by (intros p Hp; apply H3; auto).
        replace (v +! f0) with v by ring. ring.
      * destruct (Nat.eqb_spec i j); [congruence|]. reflexivity.
    + rewrite IH by auto. destruct (Nat.eqb_spec j i) as [->|Nj]; cbn [andb]; [|reflexivity].
      destruct (Nat.eqb_spec k i); [congruence|]. destruct (existsb (Nat.eqb i) (map fst r)); auto.
      replace (f0 +! lsum (map (fun p => if fst p =? i then snd p else f0) r)) with (lsum (map (fun p => if fst p =? i then snd p else f0) r)) by ring. ring.
Qed.
Lemma Fmul_comm (a b : K) : a *! b = b *! a.
Proof. ring. Qed.
Lemma Fadd_0_r (a : K) : a +! f0 = a.
Proof. ring. Qed.
End P.
