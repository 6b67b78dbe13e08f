(** Product of two CSR matrices. *)
From Coq Require Import List Bool Arith Lia Sorted Ring Field.
From Verif Require Import RingKit PackModel PackProofs SparseModel SparseSpec SparseProofs SparseProofs2 CsrModel CsrSpec CsrProofs CsrProofs2 CsrProofs3 CsrProofs4.
Import ListNotations.

Lemma omap_ok {A B} (f : A -> option B) (g : A -> B) l : (forall x, In x l -> f x = Some (g x)) -> omap f l = Some (map g l).
Proof. induction l as [|x l IH]; intro H; simpl; auto. rewrite H by (left; auto). rewrite IH; auto. intros; apply H; right; auto. Qed.

(** ordered sets *)
Definition setof (l : list nat) : list nat := fold_left (fun s j => ins j s) l [].
Lemma ins_in j s : forall x, In x (ins j s) <-> x = j \/ In x s.
Proof.
  induction s as [|a s IH]; intro x; simpl; [intuition|]. destruct (j <? a); [simpl; intuition|].
  destruct (Nat.eqb_spec j a) as [->|]; simpl; [intuition|]. rewrite IH. intuition.
Qed.
Lemma ins_sorted j s : StronglySorted lt s -> StronglySorted lt (ins j s).
Proof.
  induction s as [|a s IH]; intro H; simpl; [repeat constructor|]. inversion H; subst.
  destruct (Nat.ltb_spec j a) as [L|L].
  - constructor; auto. constructor; auto. rewrite Forall_forall in *. intros x Hx. specialize (H3 x Hx). lia.
  - destruct (Nat.eqb_spec j a) as [->|N]; auto. constructor; auto. apply Forall_forall. intros x Hx. apply ins_in in Hx.
    rewrite Forall_forall in H3. destruct Hx as [->|Hx]; [lia|auto].
Qed.
Lemma ins_present j s : StronglySorted lt s -> In j s -> ins j s = s.
Proof.
  induction s as [|a s IH]; intros H Hj; [destruct Hj|]. inversion H; subst. simpl. rewrite Forall_forall in H3.
  destruct (Nat.ltb_spec j a) as [L|L].
  - destruct Hj as [->|Hj]; [lia|]. specialize (H3 j Hj). lia.
  - destruct (Nat.eqb_spec j a) as [->|N]; auto. destruct Hj as [->|Hj]; [congruence|]. f_equal. auto.
Qed.
Lemma ins_absent j s : ~ In j s -> length (ins j s) = S (length s).
Proof.
  induction s as [|a s IH]; intro H; simpl; auto. destruct (j <? a); auto. destruct (Nat.eqb_spec j a) as [->|N].
  - exfalso. apply H. left; auto.
  - simpl. rewrite IH; auto. intro. apply H. right; auto.
Qed.
Lemma fold_ins_sorted l : forall s, StronglySorted lt s -> StronglySorted lt (fold_left (fun s j => ins j s) l s).
Proof. induction l as [|j l IH]; intros s H; simpl; auto. apply IH. apply ins_sorted; auto. Qed.
Lemma fold_ins_in l x : forall s, In x (fold_left (fun s j => ins j s) l s) <-> In x s \/ In x l.
Proof. induction l as [|j l IH]; intro s; simpl; [intuition|]. rewrite IH, ins_in. intuition. Qed.
Lemma setof_sorted l : StronglySorted lt (setof l). Proof. apply fold_ins_sorted. constructor. Qed.
Lemma setof_in l x : In x (setof l) <-> In x l. Proof. unfold setof. rewrite fold_ins_in. simpl. intuition. Qed.

Lemma flags_spec n l : forall fl c s, length fl = n -> (forall j, In j l -> j < n) -> StronglySorted lt s ->
  (forall j, nth_error fl j = Some true <-> In j s) ->
  exists fl', ofold (fun j st => flag_add n st j) l (fl, c) = Some (fl', c + (length (fold_left (fun s j => ins j s) l s) - length s)) /\
    length s <= length (fold_left (fun s j => ins j s) l s).
Proof.
  induction l as [|j l IH]; intros fl c s Hl Hb Hs Hf.
  - simpl. exists fl. rewrite Nat.sub_diag, Nat.add_0_r. auto.
  - assert (Hj : j < n) by (apply Hb; left; auto). cbn [ofold fold_left]. unfold flag_add at 1. cbn [fst snd].
    destruct (Nat.ltb_spec j n); [|lia].
    destruct (nth_error fl j) as [[|]|] eqn:E.
    + rewrite (ins_present j s) by (auto; apply Hf; auto). apply IH; auto. intros; apply Hb; right; auto.
    + assert (Ha : ~ In j s) by (intro Hx; apply Hf in Hx; congruence).
      destruct (upd fl j true) as [fl1|] eqn:U.
      2:{ rewrite upd_spec in U by lia. discriminate. }
      destruct (IH fl1 (S c) (ins j s)) as [fl' [E' L']].
      * destruct (upd_len _ _ _ _ _ U). lia.
      * intros; apply Hb; right; auto.
      * apply ins_sorted; auto.
      * intro k. rewrite ins_in. rewrite (upd_nth _ _ _ _ _ U). destruct (Nat.eqb_spec k j) as [->|N]; [intuition|].
        rewrite Hf. intuition.
      * rewrite E'. rewrite (ins_absent j s Ha) in L'. exists fl'. rewrite (ins_absent j s Ha). split; [|lia]. f_equal. f_equal. lia.
    + apply nth_error_None in E. lia.
Qed.

Section P.
Variable K : cfield.
Add Field kf : (fth K).
Notation csr := (csr K).
Notation junk := (junk K).
Notation rows := (list (list (nat * K))).

(** stored products of row i, in loop order *)
Definition contrib (xs ys : rows) (i : nat) : list (nat * K) :=
  flat_map (fun e => map (fun e' => (fst e', snd e' *! snd e)) (nth (fst e) ys [])) (nth i xs []).
Definition cands (xs ys : rows) (i : nat) : list nat := flat_map (fun e => map fst (nth (fst e) ys [])) (nth i xs []).
Lemma contrib_cands xs ys i : map fst (contrib xs ys i) = cands xs ys i.
Proof.
  unfold contrib, cands. induction (nth i xs []) as [|e r IH]; simpl; auto. rewrite map_app, map_map, IH. reflexivity.
Qed.
Lemma flat_map_concat_map_fst (xs ys : rows) i :
  flat_map (fun k => map fst (nth k ys [])) (map fst (nth i xs [])) = cands xs ys i.
Proof. unfold cands. induction (nth i xs []) as [|e r IH]; simpl; auto. rewrite IH. reflexivity. Qed.
Lemma contrib_sum xs ys i j k : (forall p, In p (nth i xs []) -> fst p < k) ->
  lsum (map (fun p => if fst p =? j then snd p else f0) (contrib xs ys i)) = sumn k (fun l => cmat xs i l *! cmat ys l j).
Proof.
  intro H. unfold contrib. rewrite lsum_flat. unfold cmat at 1.
  induction (nth i xs []) as [|e r IH]; simpl.
  - symmetry. apply sumn_zero. intros. ring.
  - rewrite IH by (intros; apply H; right; auto). 
    transitivity (sumn k (fun l => (if fst e =? l then snd e else f0) *! cmat ys l j) +!
                  sumn k (fun l => lsum (map (fun p => if fst p =? l then snd p else f0) r) *! cmat ys l j)).
    + f_equal. rewrite map_map. cbn [fst snd].
      transitivity (sumn k (fun l => if fst e =? l then snd e *! cmat ys l j else f0)).
      * rewrite sumn_pick by (apply H; left; auto). unfold cmat. rewrite <- lsum_scale. apply lsum_ext. intros p _. destruct (fst p =? j); ring.
      * apply sumn_ext. intros l _. destruct (fst e =? l); ring.
    + rewrite <- sumn_add. apply sumn_ext. intros l _. ring.
Qed.

Lemma cands_bound X Y xs ys i j : rep K X xs -> rep K Y ys -> In j (cands xs ys i) -> j < c_n Y.
Proof.
  intros Hx Hy H. apply in_flat_map in H. destruct H as [e [_ H]]. apply in_map_iff in H. destruct H as [p [<- Hp]].
  apply (rep_bound K Y ys _ p Hy Hp).
Qed.

Lemma sym_row_spec X Y xs ys i : rep K X xs -> rep K Y ys -> c_m Y = c_n X -> i < c_m X ->
  sym_row K X Y i = Some (setof (cands xs ys i)).
Proof.
  intros Hx Hy Hd Hi. unfold sym_row. rewrite (crow_ok K X xs i Hx Hi). unfold setof, cands.
  assert (B : forall p, In p (nth i xs []) -> fst p < c_n X) by (intros p Hp; apply (rep_bound K X xs i p Hx Hp)).
  generalize (@nil nat) as s. induction (nth i xs []) as [|e r IH]; intro s; cbn [ofold flat_map]; auto.
  assert (Be := B e (or_introl eq_refl)). destruct (Nat.ltb_spec (fst e) (c_n X)); [|lia].
  rewrite (crow_ok K Y ys (fst e) Hy) by lia. rewrite fold_left_app.
  assert (G : forall q s, (forall p, In p q -> fst p < c_n Y) ->
    ofold (fun (e' : nat * K) s => if fst e' <? c_n Y then Some (ins (fst e') s) else None) q s = Some (fold_left (fun s j => ins j s) (map fst q) s)).
  { clear. induction q as [|p q IH]; intros s H; simpl; auto. destruct (Nat.ltb_spec (fst p) (c_n Y)); [apply IH; intros; apply H; right; auto|].
    specialize (H p (or_introl eq_refl)). lia. }
  rewrite G by (intros p Hp; apply (rep_bound K Y ys _ p Hy Hp)). apply IH. intros; apply B; right; auto.
Qed.

Definition prod_pat (xs ys : rows) (m : nat) : list (list nat) := map (fun i => setof (cands xs ys i)) (seq 0 m).
Lemma alloc_spec J X Y xs ys : rep K X xs -> rep K Y ys -> c_m Y = c_n X ->
  times_mat_alloc K J X Y = new_csr K J (c_m X) (c_n Y) (length (concat (prod_pat xs ys (c_m X)))).
Proof.
  intros Hx Hy Hd. unfold times_mat_alloc. rewrite Hd, Nat.eqb_refl.
  match goal with |- match ofold ?F _ _ with _ => _ end = _ => set (step := F) end.
  assert (ST : forall i c, i < c_m X -> step i c = Some (c + length (setof (cands xs ys i)))).
  { intros i c Hi. unfold step. rewrite (crow_ok K X xs i Hx Hi).
    assert (B : forall p, In p (nth i xs []) -> fst p < c_n X) by (intros p Hp; apply (rep_bound K X xs i p Hx Hp)).
    destruct (flags_spec (c_n Y) (cands xs ys i) (repeat false (c_n Y)) c []) as [fl' [E L]].
    - apply repeat_length.
    - intros j Hj. apply (cands_bound X Y xs ys i j); auto.
    - constructor.
    - intro j. split; [|intros []]. intro H. apply nth_error_In in H. apply repeat_spec in H. discriminate.
    - rewrite Nat.sub_0_r in E. unfold setof. unfold cands in E at 1. rewrite <- ofold_flat in E.
      match goal with |- match ?e with _ => _ end = _ => replace e with (Some (fl', c + length (fold_left (fun s j => ins j s) (cands xs ys i) []))) end; [reflexivity|].
      rewrite <- E. apply ofold_ext. intros e st He. assert (Be := B e He). destruct (Nat.ltb_spec (fst e) (c_n X)); [|lia].
      rewrite (crow_ok K Y ys (fst e) Hy) by lia. rewrite <- ofold_map. reflexivity. }
  assert (G : forall n a c, a + n = c_m X -> ofold step (seq a n) c = Some (c + length (concat (map (fun i => setof (cands xs ys i)) (seq a n))))).
  { induction n as [|n IH]; intros a c Hn; cbn [seq ofold map concat]; [simpl; f_equal; lia|].
    rewrite ST by lia. rewrite IH by lia. rewrite app_length. f_equal. lia. }
  rewrite (G (c_m X) 0 0) by lia. reflexivity.
Qed.
Lemma new_csr_spec J m n nnz : 0 < m -> 0 < n -> exists A, new_csr K J m n nnz = Some A /\ allocated K A /\ c_m A = m /\ c_n A = n /\ c_nnz A = nnz.
Proof.
  intros Hm Hn. unfold new_csr. destruct m; [lia|]. destruct n; [lia|]. simpl. eexists. split; [reflexivity|].
  split; [apply alloc_allocated|auto].
Qed.
Lemma prod_pat_bound X Y xs ys : rep K X xs -> rep K Y ys -> Forall (Forall (fun j => j < c_n Y)) (prod_pat xs ys (c_m X)).
Proof.
  intros Hx Hy. apply Forall_forall. intros r Hr. apply in_map_iff in Hr. destruct Hr as [i [<- _]].
  apply Forall_forall. intros j Hj. exact (cands_bound X Y xs ys i j Hx Hy (proj1 (setof_in _ j) Hj)).
Qed.
Lemma symbolic_spec X M Y xs ys : rep K X xs -> rep K Y ys -> c_m Y = c_n X -> c_m M = c_m X -> c_n M = c_n Y ->
  allocated K M -> c_nnz M = length (concat (prod_pat xs ys (c_m X))) ->
  exists A, times_mat_symbolic K X M Y = Some A /\ c_m A = c_m X /\ c_n A = c_n Y /\ shape K A (prod_pat xs ys (c_m X)).
Proof.
  intros Hx Hy Hd Hm Hn [A1 [A2 A3]] Hnnz. unfold times_mat_symbolic. rewrite A1, Hm, Hn, Hd, !Nat.eqb_refl. cbn [andb].
  rewrite (omap_ok (sym_row K X Y) (fun i => setof (cands xs ys i))).
  2:{ intros i Hi. apply in_seq in Hi. apply sym_row_spec; auto. lia. }
  fold (prod_pat xs ys (c_m X)). rewrite Hnnz, Nat.leb_refl. eexists. split; [reflexivity|]. split; auto. split; auto.
  unfold shape. cbn [c_m c_n c_nnz c_ptr c_col c_val]. rewrite skipn_all2 by lia. rewrite app_nil_r. repeat split; auto.
  - unfold prod_pat. rewrite map_length, seq_length. auto.
  - lia.
  - apply prod_pat_bound; auto.
Qed.

(** numeric *)
Lemma num_scatter_spec X Y xs ys i (W : list K) : rep K X xs -> rep K Y ys -> c_m Y = c_n X -> i < c_m X -> length W = c_n Y ->
  exists W', num_scatter K X Y i W = Some W' /\ length W' = c_n Y /\ forall q, nth q W' f0 = nth q W f0 +! hits K q (contrib xs ys i).
Proof.
  intros Hx Hy Hd Hi Hl. unfold num_scatter. rewrite (crow_ok K X xs i Hx Hi).
  assert (B : forall p, In p (nth i xs []) -> fst p < c_n X) by (intros p Hp; apply (rep_bound K X xs i p Hx Hp)).
  destruct (acc_spec K (contrib xs ys i) W) as [W' [E [L H]]].
  - intros u Hu. rewrite Hl. apply (cands_bound X Y xs ys i); auto. rewrite <- contrib_cands. apply in_map; auto.
  - exists W'. split; [|split; [congruence|auto]]. rewrite <- E. unfold contrib at 1. rewrite <- ofold_flat. apply ofold_ext.
    intros e w He. assert (Be := B e He). destruct (Nat.ltb_spec (fst e) (c_n X)); [|lia].
    rewrite (crow_ok K Y ys (fst e) Hy) by lia. rewrite <- ofold_map. apply ofold_ext. intros p w' Hp.
    assert (Bp := rep_bound K Y ys _ p Hy Hp). destruct (Nat.ltb_spec (fst p) (c_n Y)); [|lia]. reflexivity.
Qed.
Lemma take_spec alpha r : forall (W : list K), StronglySorted (fun a b : nat * K => fst a < fst b) r ->
  (forall p, In p r -> fst p < length W) ->
  exists W', mapst K (fun j v W => match nth_error W j with
                | Some w => match upd W j f0 with Some W' => Some (v +! alpha *! w, W') | None => None end
                | None => None end) r W = Some (map (fun p => snd p +! alpha *! nth (fst p) W f0) r, W') /\ length W' = length W /\
    forall q, nth q W' f0 = if existsb (Nat.eqb q) (map fst r) then f0 else nth q W f0.
Proof.
  induction r as [|[j v] r IH]; intros W Hs Hb.
  - exists W. simpl. auto.
  - inversion Hs; subst. rewrite Forall_forall in H2. cbn [mapst].
    assert (Hj : j < length W) by (apply (Hb (j, v)); left; auto).
    rewrite (nth_err_at K W j) by auto. destruct (upd W j f0) as [W1|] eqn:U.
    2:{ rewrite upd_spec in U by lia. discriminate. }
    destruct (upd_len _ _ _ _ _ U) as [L1 _].
    assert (N1 : forall q, nth q W1 f0 = if q =? j then f0 else nth q W f0).
    { intro q. assert (N := upd_nth _ _ _ _ _ U q). destruct (Nat.eqb_spec q j) as [Eq0|Nq]; [apply nth_error_nth; auto|].
      destruct (nth_error W q) as [z|] eqn:Eq.
      - rewrite (nth_error_nth _ _ _ Eq), (nth_error_nth _ _ _ N). auto.
      - rewrite !nth_overflow; auto; apply nth_error_None; auto. }
    destruct (IH W1) as [W' [E [L H]]]; auto; [intros p Hp; rewrite L1; apply Hb; right; auto|].
    rewrite E. exists W'. split; [|split; [congruence|]].
    + f_equal. f_equal. cbn [map fst snd]. f_equal. apply map_ext_in. intros p Hp. specialize (H2 p Hp). simpl in H2. rewrite N1.
      destruct (Nat.eqb_spec (fst p) j); [lia|auto].
    + intro q. rewrite H, N1. cbn [map fst existsb]. destruct (Nat.eqb_spec q j); simpl; auto. destruct (existsb _ _); auto.
Qed.
End P.
