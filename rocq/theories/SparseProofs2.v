From Coq Require Import List Bool Arith Lia Ring Field Sorted.
From Verif Require Import RingKit PackModel PackProofs SparseModel SparseSpec SparseProofs.
Import ListNotations.

Section P.
Variable K : cfield.
Add Field kf : (fth K).
Notation entry := (entry K).

Definition only (i : nat) (l : list entry) : list entry := filter (fun e => row e =? i) l.

Lemma ss_app {A} (R : A -> A -> Prop) l1 l2 : StronglySorted R (l1 ++ l2) ->
  StronglySorted R l1 /\ StronglySorted R l2 /\ (forall a b, In a l1 -> In b l2 -> R a b).
Proof.
  induction l1 as [|x l1 IH]; simpl; intro H.
  - split; [constructor|]. split; auto. intros a b [].
  - inversion H; subst. destruct (IH H2) as [I1 [I2 I3]]. rewrite Forall_forall in H3.
    split; [constructor; auto; apply Forall_forall; intros; apply H3; apply in_or_app; auto|].
    split; auto. intros a b [<-|Ha] Hb; auto. apply H3. apply in_or_app. auto.
Qed.
Lemma sorted_rows l : sorted (K:=K) l -> row_sorted l.
Proof.
  induction l as [|e l IH]; intro H; constructor; inversion H; subst.
  - apply IH. auto.
  - eapply Forall_impl; [|exact H3]. simpl. intros a Ha. lia.
Qed.

(** * Row starts *)
Lemma lead_spec i l : row_sorted l -> (forall e, In e l -> i <= row e) ->
  firstn (lead K i l) l = only i l /\ (forall e, In e (skipn (lead K i l) l) -> S i <= row e) /\
  (forall j, i < j -> only j (skipn (lead K i l) l) = only j l) /\ lead K i l <= length l.
Proof.
  induction l as [|e l IH]; intros Hs Hi; simpl.
  - split; [|split; [intros e []|split; auto]]. reflexivity.
  - inversion Hs; subst. rewrite Forall_forall in H2. destruct (Nat.eqb_spec (row e) i) as [He|He]; simpl.
    + destruct IH as [I1 [I2 [I3 I4]]]; auto. { intros; apply Hi; right; auto. }
      split; [rewrite I1; reflexivity|]. split; [auto|]. split; [|lia].
      intros j Hj. rewrite I3 by auto. destruct (Nat.eqb_spec (row e) j); [lia|reflexivity].
    + assert (Hgt : forall x, In x (e :: l) -> S i <= row x).
      { assert (i <= row e) by (apply Hi; left; auto). intros x [<-|Hx]; [lia|]. specialize (H2 x Hx). lia. }
      split; [|split; [exact Hgt|split; [|lia]]].
      * symmetry. unfold only.
        destruct (filter (fun e0 => row e0 =? i) l) as [|x r] eqn:E; auto.
        assert (Hx : In x (filter (fun e0 => row e0 =? i) l)) by (rewrite E; left; auto).
        apply filter_In in Hx. destruct Hx as [Hx1 Hx2]. apply Nat.eqb_eq in Hx2.
        specialize (Hgt x (or_intror Hx1)). lia.
      * intros j Hj. reflexivity.
Qed.

Lemma firstn_app_len {A} (a b : list A) n : length a = n -> firstn n (a ++ b) = a.
Proof. intro H. rewrite firstn_app, firstn_all2 by lia. replace (n - length a) with 0 by lia. simpl. apply app_nil_r. Qed.
Lemma skipn_app_len {A} (a b : list A) n : length a = n -> skipn n (a ++ b) = b.
Proof. intro H. rewrite skipn_app, skipn_all2 by lia. replace (n - length a) with 0 by lia. reflexivity. Qed.

Lemma starts_spec n : forall i pre l, row_sorted l -> (forall e, In e l -> i <= row e < i + n) ->
  let '(r, fin) := starts_loop K n i (length pre) l in
  fin = length pre + length l /\ length r = n /\
  forall k, k < n -> exists a b, nth_error (length pre :: r) k = Some a /\ nth_error r k = Some b /\
     a <= b <= length (pre ++ l) /\ firstn (b - a) (skipn a (pre ++ l)) = only (i + k) l.
Proof.
  induction n as [|n IH]; intros i pre l Hs Hi; cbn [starts_loop].
  - split; [|split; [reflexivity|intros; lia]].
    destruct l as [|e l]; simpl; auto. destruct (Hi e); [left; auto|]. lia.
  - destruct (lead_spec i l Hs) as [L1 [L2 [L3 L4]]]. { intros e He. apply Hi. auto. }
    set (k0 := lead K i l) in *.
    assert (Hlen : length pre + k0 = length (pre ++ firstn k0 l)).
    { rewrite app_length, firstn_length. lia. }
    assert (Hcat : pre ++ l = (pre ++ firstn k0 l) ++ skipn k0 l).
    { rewrite <- app_assoc, firstn_skipn. reflexivity. }
    specialize (IH (S i) (pre ++ firstn k0 l) (skipn k0 l)). rewrite <- Hlen in IH.
    destruct (starts_loop K n (S i) (length pre + k0) (skipn k0 l)) as [r fin].
    destruct IH as [I1 [I2 I3]].
    { rewrite <- (firstn_skipn k0 l) in Hs. apply ss_app in Hs. apply Hs. }
    { intros e He. split; [apply L2; auto|].
      assert (In e l) by (rewrite <- (firstn_skipn k0 l); apply in_or_app; auto).
      specialize (Hi e H). lia. }
    split; [rewrite I1, skipn_length; lia|]. split; [simpl; congruence|].
    intros [|k] Hk.
    + exists (length pre), (length pre + k0). cbn [nth_error]. split; auto. split; auto.
      split; [rewrite app_length; lia|]. replace (length pre + k0 - length pre) with k0 by lia.
      rewrite skipn_app_len by auto. rewrite L1, Nat.add_0_r. reflexivity.
    + destruct (I3 k) as [a [b [E1 [E2 [E3 E4]]]]]; [lia|]. exists a, b. cbn [nth_error]. split; auto. split; auto.
      rewrite Hcat. split; auto. rewrite E4, L3 by lia. f_equal. lia.
Qed.

(** the slice of row [i] through the row starts *)
Definition slice_ok (l : list entry) (s : list nat) (m : nat) : Prop :=
  forall i, i < m -> exists a b, nth_error s i = Some a /\ nth_error s (S i) = Some b /\
    a <= b <= length l /\ firstn (b - a) (skipn a l) = only i l.
Lemma row_starts_spec A : wf A -> row_sorted (t_ent A) ->
  exists s, row_starts K A = Some s /\ slice_ok (t_ent A) s (t_m A).
Proof.
  intros Hw Hs. unfold row_starts. destruct (Nat.eqb_spec (t_m A) 0) as [E|E].
  - exists [0]. split; auto. intros i Hi. lia.
  - assert (H := starts_spec (t_m A) 0 [] (t_ent A) Hs). cbn [length app] in H.
    destruct (starts_loop K (t_m A) 0 0 (t_ent A)) as [r fin]. destruct H as [H1 [H2 H3]].
    { intros e He. destruct (Hw e He). lia. }
    simpl in H1. rewrite H1, Nat.eqb_refl. exists (0 :: r). split; [reflexivity|exact H3].
Qed.

(** * The two-pointer row product *)
Definition look (l : list entry) (c : nat) : K := lsum (map (fun e => if col e =? c then val e else f0) l).
Definition csorted (l : list entry) : Prop := StronglySorted (fun a b => col a < col b) l.

Lemma look_only l i c : look (only i l) c = mat l i c.
Proof.
  unfold look, only, mat. induction l as [|e l IH]; simpl; auto.
  destruct (row e =? i); simpl; rewrite IH; auto. ring.
Qed.
Lemma look_cons e l c : look (e :: l) c = (if col e =? c then val e else f0) +! look l c.
Proof. reflexivity. Qed.
Lemma look_gt l c : (forall e, In e l -> c < col e) -> look l c = f0.
Proof.
  intro H. apply lsum_zero. intros e He. specialize (H e He). destruct (Nat.eqb_spec (col e) c); [lia|auto].
Qed.
Lemma only_csorted l i : sorted l -> csorted (only i l).
Proof.
  induction l as [|e l IH]; intro H; simpl; [constructor|]. inversion H; subst.
  destruct (Nat.eqb_spec (row e) i) as [He|He]; [|apply IH; auto].
  constructor; [apply IH; auto|]. apply Forall_forall. intros x Hx. apply filter_In in Hx. destruct Hx as [Hx1 Hx2].
  apply Nat.eqb_eq in Hx2. rewrite Forall_forall in H3. destruct (H3 x Hx1); lia.
Qed.
Lemma only_in e i l : In e (only i l) <-> In e l /\ row e = i.
Proof. unfold only. rewrite filter_In, Nat.eqb_eq. tauto. Qed.

Lemma slice_cons {A} (l : list A) k e x : k < e -> nth_error l k = Some x ->
  firstn (e - k) (skipn k l) = x :: firstn (e - S k) (skipn (S k) l).
Proof.
  intros H Hx. replace (e - k) with (S (e - S k)) by lia.
  revert k e H Hx. induction l as [|y l IH]; intros [|k] e H Hx; simpl in *; try discriminate.
  - injection Hx as ->. reflexivity.
  - destruct e as [|e]; [lia|]. replace (S e - S (S k)) with (e - S k) by lia.
    assert (k < e) by lia. specialize (IH k e H0 Hx). exact IH.
Qed.

Lemma merge_spec f (w : nat -> K) (A B : list entry) fuel : forall ki ei kj ej acc,
  ei <= length A -> ej <= length B -> ki <= ei -> kj <= ej -> (ei - ki) + (ej - kj) <= fuel ->
  let la := firstn (ei - ki) (skipn ki A) in let lb := firstn (ej - kj) (skipn kj B) in
  csorted la -> csorted lb -> (forall a va vb, In a la -> f (col a) va vb = Some (va *! w (col a) *! vb)) ->
  merge_dot K f A B fuel ki ei kj ej acc =
  Some (acc +! lsum (map (fun a => val a *! w (col a) *! look lb (col a)) la)).
Proof.
  induction fuel as [|fuel IH]; intros ki ei kj ej acc HA HB Hi Hj Hf la lb Sa Sb Hff; cbn [merge_dot].
  - replace (ki <? ei) with false by (symmetry; apply Nat.ltb_ge; lia). simpl.
    assert (la = []) as -> by (unfold la; replace (ei - ki) with 0 by lia; reflexivity). simpl. f_equal. ring.
  - destruct (Nat.ltb_spec ki ei) as [Hi'|Hi']; simpl.
    2:{ assert (la = []) as -> by (unfold la; replace (ei - ki) with 0 by lia; reflexivity). simpl. f_equal. ring. }
    destruct (Nat.ltb_spec kj ej) as [Hj'|Hj']; simpl.
    2:{ assert (lb = []) as -> by (unfold lb; replace (ej - kj) with 0 by lia; reflexivity).
        rewrite lsum_zero; [f_equal; ring|]. intros a _. unfold look. simpl. ring. }
    destruct (nth_error A ki) as [a|] eqn:Ea. 2:{ apply nth_error_None in Ea. lia. }
    destruct (nth_error B kj) as [b|] eqn:Eb. 2:{ apply nth_error_None in Eb. lia. }
    assert (Hla : la = a :: firstn (ei - S ki) (skipn (S ki) A)) by (apply slice_cons; auto).
    assert (Hlb : lb = b :: firstn (ej - S kj) (skipn (S kj) B)) by (apply slice_cons; auto).
    set (la' := firstn (ei - S ki) (skipn (S ki) A)) in *. set (lb' := firstn (ej - S kj) (skipn (S kj) B)) in *.
    assert (Sa' := Sa). assert (Sb' := Sb). rewrite Hla in Sa'. rewrite Hlb in Sb'.
    inversion Sa' as [|? ? Ta Fa]; subst. inversion Sb' as [|? ? Tb Fb]; subst.
    rewrite Forall_forall in Fa, Fb.
    destruct (Nat.eqb_spec (col a) (col b)) as [Hc|Hc].
    + rewrite Hff by (rewrite Hla; left; auto). rewrite IH; try lia; auto.
      2:{ intros x va vb Hx. apply Hff. rewrite Hla. right. auto. }
      fold la' lb'. f_equal. rewrite Hla. cbn [map lsum]. rewrite Hlb.
      rewrite look_cons. rewrite Hc, Nat.eqb_refl.
      rewrite (look_gt lb') by auto.
      rewrite (lsum_ext _ (fun a0 => val a0 *! w (col a0) *! look (b :: lb') (col a0)) (fun a0 => val a0 *! w (col a0) *! look lb' (col a0))).
      { ring. }
      intros x Hx. rewrite look_cons. specialize (Fa x Hx). destruct (Nat.eqb_spec (col b) (col x)); [lia|]. ring.
    + destruct (Nat.ltb_spec (col a) (col b)) as [Hlt|Hge].
      * rewrite IH; try lia; auto.
        2:{ intros x va vb Hx. apply Hff. rewrite Hla. right. auto. }
        fold la' lb. f_equal. rewrite Hla. cbn [map lsum]. rewrite (look_gt lb (col a)).
        { ring. }
        intros x Hx. rewrite Hlb in Hx. destruct Hx as [<-|Hx]; [auto|]. specialize (Fb x Hx). lia.
      * rewrite IH; try lia; auto. fold la lb'. f_equal. f_equal. apply lsum_ext. intros x Hx.
        rewrite Hlb, look_cons. replace (col b =? col x) with false. { ring. }
        symmetry. apply Nat.eqb_neq. rewrite Hla in Hx. destruct Hx as [<-|Hx]; [lia|]. specialize (Fa x Hx). lia.
Qed.

(** sum over columns as a sum over the entries of a row *)
Lemma row_sum (l : list entry) n i (g : nat -> K) : (forall e, In e l -> col e < n) ->
  sumn n (fun c => mat l i c *! g c) = lsum (map (fun a => val a *! g (col a)) (only i l)).
Proof.
  intro H. rewrite mat_times by auto. unfold only. clear H. induction l as [|e l IH]; simpl; auto.
  destruct (row e =? i); simpl; rewrite IH; auto. ring.
Qed.

Lemma row_dot_spec f (w : nat -> K) A B sa sb i j n :
  slice_ok (t_ent A) sa (t_m A) -> slice_ok (t_ent B) sb (t_m B) -> sorted (t_ent A) -> sorted (t_ent B) ->
  i < t_m A -> j < t_m B -> (forall e, In e (t_ent A) -> col e < n) ->
  (forall c va vb, c < n -> f c va vb = Some (va *! w c *! vb)) ->
  row_dot K f A B sa sb i j = Some (sumn n (fun c => mat (t_ent A) i c *! w c *! mat (t_ent B) j c)).
Proof.
  intros Ha Hb Sa Sb Hi Hj Hn Hf. unfold row_dot.
  destruct (Ha i Hi) as [a [b [E1 [E2 [E3 E4]]]]]. destruct (Hb j Hj) as [c [d [G1 [G2 [G3 G4]]]]].
  rewrite E1, E2, G1, G2. rewrite (merge_spec f w); try lia.
  - rewrite E4, G4. f_equal.
    rewrite (sumn_ext _ _ _ (fun c => mat (t_ent A) i c *! (w c *! mat (t_ent B) j c))) by (intros; ring).
    rewrite row_sum by auto.
    rewrite (lsum_ext _ _ (fun a0 => val a0 *! (w (col a0) *! mat (t_ent B) j (col a0)))). { ring. }
    intros x _. rewrite look_only. ring.
  - rewrite E4. apply only_csorted. auto.
  - rewrite G4. apply only_csorted. auto.
  - rewrite E4. intros x va vb Hx. apply Hf. apply Hn. apply only_in in Hx. apply Hx.
Qed.

Lemma csorted_look l e : csorted l -> In e l -> look l (col e) = val e.
Proof.
  induction l as [|x l IH]; intros H He; [destruct He|]. inversion H; subst. rewrite Forall_forall in H3.
  rewrite look_cons. destruct He as [<-|He].
  - rewrite Nat.eqb_refl, look_gt by auto. ring.
  - specialize (H3 e He). destruct (Nat.eqb_spec (col x) (col e)); [lia|]. rewrite IH by auto. ring.
Qed.
Lemma sorted_mat (l : list entry) (e : entry) : sorted l -> In e l -> mat l (row e) (col e) = val e.
Proof.
  intros Hs He. rewrite <- look_only. apply csorted_look; [apply only_csorted; auto|]. apply only_in. auto.
Qed.

Lemma diag_fold (l : list entry) (D : list K) : forall k ei acc, k <= ei <= length l ->
  (forall e, In e l -> col e < length D) ->
  ofold (fun k (acc : K) => match nth_error l k with
        | Some a => match nth_error D (col a) with Some d => Some (acc +! val a /! d *! val a) | None => None end
        | None => None end) (seq k (ei - k)) acc =
  Some (acc +! lsum (map (fun a => val a /! at_ D (col a) *! val a) (firstn (ei - k) (skipn k l)))).
Proof.
  intros k ei acc Hk HD. remember (ei - k) as n. revert k acc Hk Heqn. induction n as [|n IH]; intros k acc Hk Hn.
  - simpl. f_equal. ring.
  - cbn [seq ofold]. destruct (nth_error l k) as [a|] eqn:E. 2:{ apply nth_error_None in E. lia. }
    rewrite nth_err_at. 2:{ apply HD. eapply nth_error_In; eauto. }
    rewrite IH by lia.
    rewrite Hn. rewrite (slice_cons l k ei a) by (auto; lia). replace (ei - S k) with n by lia.
    cbn [map lsum]. f_equal. ring.
Qed.
Lemma diag_dot_spec A (D : list K) sa i : slice_ok (t_ent A) sa (t_m A) -> sorted (t_ent A) -> i < t_m A ->
  wf A -> length D = t_n A ->
  diag_dot K A D sa i = Some (sumn (t_n A) (fun c => mat (t_ent A) i c *! finv (at_ D c) *! mat (t_ent A) i c)).
Proof.
  intros Ha Sa Hi Hw HD. unfold diag_dot. destruct (Ha i Hi) as [a [b [E1 [E2 [E3 E4]]]]]. rewrite E1, E2.
  rewrite diag_fold; [|auto|intros e He; rewrite HD; apply Hw; auto]. rewrite E4. f_equal.
  rewrite (sumn_ext _ _ _ (fun c => mat (t_ent A) i c *! (finv (at_ D c) *! mat (t_ent A) i c))) by (intros; ring).
  rewrite row_sum by (intros e He; apply Hw; auto).
  rewrite (lsum_ext _ _ (fun a0 => val a0 *! (finv (at_ D (col a0)) *! mat (t_ent A) i (col a0)))). { ring. }
  intros x Hx. rewrite <- look_only, csorted_look by (auto; apply only_csorted; auto).
  rewrite (Field_theory.Fdiv_def (fth K)). ring.
Qed.

(** * Flat positions of a dense matrix *)
Lemma flat_eq N i j p r : j < N -> r < N -> i * N + j = p * N + r <-> i = p /\ j = r.
Proof. intros Hj Hr. split; [|intros [-> ->]; auto]. intro E. assert (i = p) by nia. subst. split; auto. lia. Qed.

Lemma addp_fold {A} (pos : A -> nat) (g : A -> K) l (w : list K) :
  (forall a, In a l -> pos a < length w) ->
  exists w', ofold (fun a w => addat K w (pos a) (g a)) l w = Some w' /\ length w' = length w /\
    forall q, nth q w' f0 = nth q w f0 +! lsum (map (fun a => if pos a =? q then g a else f0) l).
Proof.
  intro H. change (fun a w => addat K w (pos a) (g a)) with (fun a => addp K ((fun a => (pos a, g a)) a)).
  rewrite (ofold_map (fun a => (pos a, g a)) (addp K)).
  destruct (acc_spec K (map (fun a => (pos a, g a)) l) w) as [w' [E [L N]]].
  - intros u Hu. apply in_map_iff in Hu. destruct Hu as [a [<- Ha]]. simpl. auto.
  - exists w'. split; auto. split; auto. intro q. rewrite N. unfold hits. rewrite map_map. reflexivity.
Qed.

Lemma seq_pick lo n st (P : nat -> bool) (g : nat -> K) p : (forall i, lo <= i < lo + n -> P i = (i + st =? p)) ->
  lsum (map (fun i => if P i then g i else f0) (seq lo n)) = if (lo + st <=? p) && (p <? lo + n + st) then g (p - st) else f0.
Proof.
  intro H. destruct (Nat.leb_spec (lo + st) p); destruct (Nat.ltb_spec p (lo + n + st)); simpl.
  - rewrite (lsum_ext _ _ (fun i => if p - st =? i then g i else f0)).
    + apply lsum_pick; [apply seq_NoDup|apply in_seq; lia].
    + intros i Hi. apply in_seq in Hi. rewrite H by lia.
      destruct (Nat.eqb_spec (i + st) p); destruct (Nat.eqb_spec (p - st) i); try lia; auto.
  - apply lsum_zero. intros i Hi. apply in_seq in Hi. rewrite H by lia. destruct (Nat.eqb_spec (i + st) p); [lia|auto].
  - apply lsum_zero. intros i Hi. apply in_seq in Hi. rewrite H by lia. destruct (Nat.eqb_spec (i + st) p); [lia|auto].
  - apply lsum_zero. intros i Hi. apply in_seq in Hi. rewrite H by lia. destruct (Nat.eqb_spec (i + st) p); [lia|auto].
Qed.
Lemma flat_eqb N i j p r : j < N -> r < N -> (i * N + j =? p * N + r) = (i =? p) && (j =? r).
Proof.
  intros Hj Hr. apply eq_true_iff_eq. rewrite andb_true_iff, !Nat.eqb_eq. apply flat_eq; auto.
Qed.

(** * The Schur kernels *)
Definition wprod (n : nat) (A B : list entry) (D : list K) (i j : nat) : K :=
  sumn n (fun c => mat A i c *! finv (at_ D c) *! mat B j c).

Lemma MDinvMt_spec A st alpha (D : list K) W :
  wf A -> sorted (t_ent A) -> length D = t_n A -> dwf W -> d_m W = d_n W -> st + t_m A <= d_m W ->
  exists W', add_MDinvMt K A st alpha D W = Some W' /\ d_m W' = d_m W /\ d_n W' = d_n W /\ dwf W' /\
    forall p q, p < d_m W -> q < d_n W -> dmat W' p q = dmat W p q +!
      (if (st <=? p) && (p <=? q) && (q <? st + t_m A)
       then alpha *! wprod (t_n A) (t_ent A) (t_ent A) D (p - st) (q - st) else f0).
Proof.
  intros Hw Hs HD HW Hsq Hst. unfold add_MDinvMt.
  replace ((st + t_m A <=? d_m W) && (st + t_m A <=? d_n W) && (length D =? t_n A)) with true.
  2:{ symmetry. rewrite !andb_true_iff, !Nat.leb_le, Nat.eqb_eq. lia. }
  destruct (row_starts_spec A Hw (sorted_rows _ Hs)) as [sa [Es Hsa]]. rewrite Es.
  set (N := d_m W) in *.
  set (g := fun p : nat * nat => alpha *! wprod (t_n A) (t_ent A) (t_ent A) D (fst p) (snd p)).
  set (pos := fun p : nat * nat => (fst p + st) * N + (snd p + st)).
  set (pairs := fun i : nat => map (fun j => (i, j)) (seq i (t_m A - i))).
  assert (Hbody : forall i w, In i (seq 0 (t_m A)) ->
     match diag_dot K A D sa i with
     | Some acc => match addat K w ((i + st) * N + (i + st)) (alpha *! acc) with
        | Some w1 => ofold (fun j w' => match row_dot K (dinv K D) A A sa sa i j with
              | Some acc => addat K w' ((i + st) * N + (j + st)) (alpha *! acc) | None => None end)
              (seq (S i) (t_m A - S i)) w1
        | None => None end
     | None => None end = ofold (fun a w => addat K w (pos a) (g a)) (pairs i) w).
  { intros i w Hi. apply in_seq in Hi. rewrite diag_dot_spec by (auto; lia).
    unfold pairs. replace (t_m A - i) with (S (t_m A - S i)) by lia. cbn [seq map ofold].
    change (pos (i, i)) with ((i + st) * N + (i + st)). change (g (i, i)) with (alpha *! wprod (t_n A) (t_ent A) (t_ent A) D i i).
    unfold wprod at 1. destruct (addat K w _ _) as [w1|]; auto.
    rewrite <- (ofold_map (fun j => (i, j)) (fun a w => addat K w (pos a) (g a))).
    apply ofold_ext. intros j w2 Hj. apply in_seq in Hj.
    rewrite (row_dot_spec (dinv K D) (fun c => finv (at_ D c)) A A sa sa i j (t_n A)); auto; try lia.
    - intros e He. apply Hw. auto.
    - intros c va vb Hc. unfold dinv. rewrite nth_err_at by lia. rewrite (Field_theory.Fdiv_def (fth K)). reflexivity. }
  rewrite (ofold_ext _ (fun i => ofold (fun a w => addat K w (pos a) (g a)) (pairs i))) by (intros; apply Hbody; auto).
  rewrite ofold_flat.
  destruct (addp_fold pos g (flat_map pairs (seq 0 (t_m A))) (d_arr W)) as [w' [E [L Nn]]].
  { intros [i j] Hij. apply in_flat_map in Hij. destruct Hij as [i' [Hi Hj]]. apply in_seq in Hi.
    unfold pairs in Hj. apply in_map_iff in Hj. destruct Hj as [j' [Hj1 Hj]]. injection Hj1 as -> ->.
    apply in_seq in Hj. unfold pos. simpl. rewrite HW, <- Hsq. fold N. nia. }
  rewrite E. eexists. split; [reflexivity|]. simpl. split; auto. split; auto.
  split; [unfold dwf in *; simpl; rewrite L; exact HW|]. intros p q Hp Hq. unfold dmat. simpl. rewrite Nn. f_equal.
  rewrite lsum_flat. unfold pairs.
  rewrite (lsum_ext _ _ (fun i => if i + st =? p then
      (if (i + st <=? q) && (q <? t_m A + st) then g (i, q - st) else f0) else f0)).
  2:{ intros i Hi. apply in_seq in Hi. rewrite map_map. unfold pos. cbn [fst snd]. rewrite <- Hsq.
      destruct (Nat.eqb_spec (i + st) p) as [Hip|Hip].
      - rewrite (seq_pick i (t_m A - i) st (fun j => (i + st) * N + (j + st) =? p * N + q) (fun j => g (i, j)) q).
        + replace (i + (t_m A - i) + st) with (t_m A + st) by lia. reflexivity.
        + intros j Hj. rewrite flat_eqb by lia. rewrite Hip, Nat.eqb_refl. reflexivity.
      - apply lsum_zero. intros j Hj. apply in_seq in Hj. rewrite flat_eqb by lia.
        destruct (Nat.eqb_spec (i + st) p); [lia|reflexivity]. }
  rewrite (seq_pick 0 (t_m A) st (fun i => i + st =? p) _ p) by auto.
  destruct (Nat.leb_spec (0 + st) p) as [H1|H1]; destruct (Nat.leb_spec st p) as [H2|H2]; try lia; simpl; auto.
  replace (p - st + st) with p by lia. rewrite (Nat.add_comm (t_m A) st).
  destruct (Nat.leb_spec p q); simpl.
  2:{ destruct (p <? st + t_m A); auto. }
  destruct (Nat.ltb_spec q (st + t_m A)); simpl.
  - destruct (Nat.ltb_spec p (st + t_m A)); [reflexivity|lia].
  - destruct (p <? st + t_m A); auto.
Qed.

Lemma MDinvNt_spec A rs cs alpha (D : list K) B W :
  wf A -> wf B -> sorted (t_ent A) -> sorted (t_ent B) -> t_n B = t_n A -> length D = t_n A ->
  dwf W -> d_m W = d_n W -> rs + t_m A <= d_m W -> cs + t_m B <= d_n W -> rs + t_m A <= S cs ->
  exists W', add_MDinvNt K A rs cs alpha D B W = Some W' /\ d_m W' = d_m W /\ d_n W' = d_n W /\ dwf W' /\
    forall p q, p < d_m W -> q < d_n W -> dmat W' p q = dmat W p q +!
      (if (rs <=? p) && (p <? rs + t_m A) && (cs <=? q) && (q <? cs + t_m B)
       then alpha *! wprod (t_n A) (t_ent A) (t_ent B) D (p - rs) (q - cs) else f0).
Proof.
  intros Hw HwB Hs HsB Hnn HD HW Hsq Hrs Hcs Hup. unfold add_MDinvNt.
  replace ((t_n B =? t_n A) && (length D =? t_n A) && (rs + t_m A <=? d_m W) && (cs + t_m B <=? d_n W)) with true.
  2:{ symmetry. rewrite !andb_true_iff, !Nat.leb_le, !Nat.eqb_eq. lia. }
  destruct (row_starts_spec A Hw (sorted_rows _ Hs)) as [sa [Es Hsa]]. rewrite Es.
  destruct (row_starts_spec B HwB (sorted_rows _ HsB)) as [sb [Esb Hsb]]. rewrite Esb.
  set (N := d_m W) in *.
  set (g := fun p : nat * nat => alpha *! wprod (t_n A) (t_ent A) (t_ent B) D (fst p) (snd p)).
  set (pos := fun p : nat * nat => (fst p + rs) * N + (snd p + cs)).
  set (pairs := fun i : nat => map (fun j => (i, j)) (seq 0 (t_m B))).
  rewrite (ofold_ext _ (fun i => ofold (fun a w => addat K w (pos a) (g a)) (pairs i))).
  2:{ intros i w Hi. apply in_seq in Hi. unfold pairs.
      rewrite <- (ofold_map (fun j => (i, j)) (fun a w => addat K w (pos a) (g a))).
      apply ofold_ext. intros j w2 Hj. apply in_seq in Hj.
      rewrite (row_dot_spec (dinv K D) (fun c => finv (at_ D c)) A B sa sb i j (t_n A)); auto; try lia.
      - replace (i + rs <=? j + cs) with true by (symmetry; apply Nat.leb_le; lia). reflexivity.
      - intros e He. apply Hw. auto.
      - intros c va vb Hc. unfold dinv. rewrite nth_err_at by lia. rewrite (Field_theory.Fdiv_def (fth K)). reflexivity. }
  rewrite ofold_flat.
  destruct (addp_fold pos g (flat_map pairs (seq 0 (t_m A))) (d_arr W)) as [w' [E [L Nn]]].
  { intros [i j] Hij. apply in_flat_map in Hij. destruct Hij as [i' [Hi Hj]]. apply in_seq in Hi.
    unfold pairs in Hj. apply in_map_iff in Hj. destruct Hj as [j' [Hj1 Hj]]. injection Hj1 as -> ->.
    apply in_seq in Hj. unfold pos. simpl. rewrite HW, <- Hsq. fold N. rewrite <- Hsq in Hcs. nia. }
  rewrite E. eexists. split; [reflexivity|]. simpl. split; auto. split; auto.
  split; [unfold dwf in *; simpl; rewrite L; exact HW|]. intros p q Hp Hq. unfold dmat. simpl. rewrite Nn. f_equal.
  rewrite lsum_flat. unfold pairs. rewrite <- Hsq in Hq, Hcs |- *.
  rewrite (lsum_ext _ _ (fun i => if i + rs =? p then
      (if (cs <=? q) && (q <? t_m B + cs) then g (i, q - cs) else f0) else f0)).
  2:{ intros i Hi. apply in_seq in Hi. rewrite map_map. unfold pos. cbn [fst snd].
      destruct (Nat.eqb_spec (i + rs) p) as [Hip|Hip].
      - rewrite (seq_pick 0 (t_m B) cs (fun j => (i + rs) * N + (j + cs) =? p * N + q) (fun j => g (i, j)) q).
        + reflexivity.
        + intros j Hj. rewrite flat_eqb by lia. rewrite Hip, Nat.eqb_refl. reflexivity.
      - apply lsum_zero. intros j Hj. apply in_seq in Hj. rewrite flat_eqb by lia.
        destruct (Nat.eqb_spec (i + rs) p); [lia|reflexivity]. }
  rewrite (seq_pick 0 (t_m A) rs (fun i => i + rs =? p) _ p) by auto. simpl.
  rewrite (Nat.add_comm (t_m A) rs), (Nat.add_comm (t_m B) cs).
  destruct (rs <=? p); simpl; auto. destruct (p <? rs + t_m A); simpl; auto.
Qed.

(** an entry outside the upper triangle trips the assert *)
Lemma MDinvNt_lower A rs cs alpha (D : list K) B W :
  0 < t_m A -> 0 < t_m B -> S cs < rs + t_m A -> add_MDinvNt K A rs cs alpha D B W = None.
Proof.
  intros HA HB Hup. unfold add_MDinvNt.
  destruct (_ && _) eqn:Eg; auto. destruct (row_starts K A) as [sa|]; auto. destruct (row_starts K B) as [sb|]; auto.
  set (f := fun i => _ ). replace (ofold f (seq 0 (t_m A)) (d_arr W)) with (@None (list K)); auto.
  replace (t_m A) with (pred (t_m A) + 1) by lia. rewrite seq_app, ofold_app.
  destruct (ofold f (seq 0 (pred (t_m A))) (d_arr W)) as [w|]; auto. simpl.
  unfold f. replace (t_m B) with (S (pred (t_m B))) by lia. cbn [seq ofold].
  destruct (row_dot K (dinv K D) A B sa sb (pred (t_m A)) 0) as [acc|]; auto.
  replace (pred (t_m A) + rs <=? 0 + cs) with false; auto. symmetry. apply Nat.leb_gt. lia.
Qed.

(** * timesMatTrans *)
Definition modat (w : list K) (p : nat) (h : K -> K) : option (list K) :=
  match nth_error w p with Some x => upd w p (h x) | None => None end.
Lemma mod_fold {A} (pos : A -> nat) (h : A -> K -> K) l : forall (w : list K),
  NoDup (map pos l) -> (forall a, In a l -> pos a < length w) ->
  exists w', ofold (fun a w => modat w (pos a) (h a)) l w = Some w' /\ length w' = length w /\
    (forall a, In a l -> nth (pos a) w' f0 = h a (nth (pos a) w f0)) /\
    (forall q, ~ In q (map pos l) -> nth q w' f0 = nth q w f0).
Proof.
  induction l as [|a l IH]; intros w Hd Hp.
  - exists w. simpl. split; auto. split; auto. split; [intros a []|auto].
  - simpl in Hd. inversion Hd; subst. cbn [ofold].
    assert (Ha : pos a < length w) by (apply Hp; left; auto).
    unfold modat at 1. rewrite (nth_error_nth' w f0 Ha). rewrite upd_spec by auto.
    set (w1 := firstn (pos a) w ++ _ :: _).
    assert (U : upd w (pos a) (h a (nth (pos a) w f0)) = Some w1) by (apply upd_spec; auto).
    destruct (upd_len _ _ _ _ _ U) as [L1 _].
    assert (N1 : forall q, nth q w1 f0 = if q =? pos a then h a (nth (pos a) w f0) else nth q w f0).
    { intro q. assert (Hq := upd_nth _ _ _ _ _ U q). destruct (Nat.eqb_spec q (pos a)).
      - apply nth_error_nth. auto.
      - destruct (nth_error w q) as [y|] eqn:Eq.
        + rewrite (nth_error_nth _ _ _ Hq), (nth_error_nth _ _ _ Eq). auto.
        + apply nth_error_None in Eq, Hq. rewrite !nth_overflow by auto. auto. }
    destruct (IH w1) as [w2 [E2 [L2 [G1 G2]]]]; auto.
    { intros b Hb. rewrite L1. apply Hp. right. auto. }
    exists w2. split; auto. split; [congruence|]. split.
    + intros b [<-|Hb].
      * rewrite G2 by auto. rewrite N1, Nat.eqb_refl. auto.
      * rewrite G1 by auto. rewrite N1. destruct (Nat.eqb_spec (pos b) (pos a)) as [Eb|]; auto.
        exfalso. apply H1. rewrite <- Eb. apply in_map. auto.
    + intros q Hq. simpl in Hq. rewrite G2 by tauto. rewrite N1. destruct (Nat.eqb_spec q (pos a)); auto.
      exfalso. apply Hq. auto.
Qed.

Lemma flat_seq N m : forall s, flat_map (fun i => map (fun j => i * N + j) (seq 0 N)) (seq s m) = seq (s * N) (m * N).
Proof.
  induction m as [|m IH]; intro s; simpl; auto. rewrite IH. rewrite seq_app. f_equal.
  - replace (fun j => s * N + j) with (Nat.add (s * N)) by reflexivity. clear.
    replace (s * N) with (s * N + 0) at 2 by lia. generalize 0 as o. generalize (s * N) as a.
    intro a. induction N as [|N IH]; intro o; simpl; auto. f_equal. rewrite IH. f_equal. lia.
  - f_equal. lia.
Qed.

Lemma times_mat_trans_spec A beta W alpha B :
  wf A -> wf B -> sorted (t_ent A) -> sorted (t_ent B) -> t_n B = t_n A ->
  dwf W -> d_m W = t_m A -> d_n W = t_m B ->
  exists W', times_mat_trans K A beta W alpha B = Some W' /\ d_m W' = d_m W /\ d_n W' = d_n W /\ dwf W' /\
    forall p q, p < d_m W -> q < d_n W -> dmat W' p q = beta *! dmat W p q +!
       alpha *! sumn (t_n A) (fun c => mat (t_ent A) p c *! mat (t_ent B) q c).
Proof.
  intros Hw HwB Hs HsB Hnn HW Hm Hn. unfold times_mat_trans. rewrite Hm, Hn, Hnn, !Nat.eqb_refl. simpl.
  destruct (row_starts_spec A Hw (sorted_rows _ Hs)) as [sa [Es Hsa]]. rewrite Es.
  destruct (row_starts_spec B HwB (sorted_rows _ HsB)) as [sb [Esb Hsb]]. rewrite Esb.
  set (N := t_m B) in *.
  set (h := fun (p : nat * nat) x => beta *! x +! alpha *! sumn (t_n A) (fun c => mat (t_ent A) (fst p) c *! mat (t_ent B) (snd p) c)).
  set (pos := fun p : nat * nat => fst p * N + snd p).
  set (pairs := fun i : nat => map (fun j => (i, j)) (seq 0 N)).
  rewrite (ofold_ext _ (fun i => ofold (fun a w => modat w (pos a) (h a)) (pairs i))).
  2:{ intros i w Hi. apply in_seq in Hi. unfold pairs.
      rewrite <- (ofold_map (fun j => (i, j)) (fun a w => modat w (pos a) (h a))).
      apply ofold_ext. intros j w2 Hj. apply in_seq in Hj.
      rewrite (row_dot_spec _ (fun _ => f1) A B sa sb i j (t_n A)); auto; try (unfold N in *; lia).
      - unfold modat, pos, h. cbn [fst snd]. destruct (nth_error w2 (i * N + j)); auto.
        do 3 f_equal. apply sumn_ext. intros. ring.
      - intros e He. apply Hw. auto.
      - intros c va vb Hc. f_equal. ring. }
  rewrite ofold_flat.
  assert (Hpos : map pos (flat_map pairs (seq 0 (t_m A))) = seq 0 (t_m A * N)).
  { transitivity (seq (0 * N) (t_m A * N)); [|reflexivity]. rewrite <- (flat_seq N (t_m A) 0). rewrite flat_map_concat_map, concat_map, map_map, flat_map_concat_map.
    f_equal. apply map_ext. intro i. unfold pairs. rewrite map_map. reflexivity. }
  assert (HLW : length (d_arr W) = t_m A * N) by (rewrite HW, Hm, Hn; reflexivity).
  destruct (mod_fold pos h (flat_map pairs (seq 0 (t_m A))) (d_arr W)) as [w' [E [L [G1 G2]]]].
  { rewrite Hpos. apply seq_NoDup. }
  { intros a Ha. apply (in_map pos) in Ha. rewrite Hpos in Ha. apply in_seq in Ha. lia. }
  rewrite E. eexists. split; [reflexivity|]. simpl. split; auto. split; auto.
  split; [unfold dwf; simpl; rewrite L; lia|]. intros p q Hp Hq. unfold dmat. simpl. rewrite Hn.
  assert (Hin : In (p, q) (flat_map pairs (seq 0 (t_m A)))).
  { apply in_flat_map. exists p. split; [apply in_seq; lia|]. unfold pairs. apply in_map. apply in_seq. lia. }
  exact (G1 _ Hin).
Qed.

(** * Scatter-adds of the stored entries *)
Lemma mat_shift (l : list entry) (p q : nat) (f : entry -> nat * nat) (i j : nat) alpha :
  (forall e, In e l -> (fst (f e) =? p) && (snd (f e) =? q) = (row e =? i) && (col e =? j)) ->
  lsum (map (fun e => if (fst (f e) =? p) && (snd (f e) =? q) then alpha *! val e else f0) l) = alpha *! mat l i j.
Proof.
  intro H. unfold mat. rewrite <- lsum_scale. apply lsum_ext. intros e He. rewrite H by auto.
  destruct ((row e =? i) && (col e =? j)); ring.
Qed.

Lemma scatter_sym (l : list entry) (W : dense K) alpha (f : entry -> nat * nat) :
  dwf W -> d_m W = d_n W -> (forall e, In e l -> fst (f e) < d_m W /\ snd (f e) < d_m W) ->
  exists w', ofold (fun e w => addat K w (fst (f e) * d_m W + snd (f e)) (alpha *! val e)) l (d_arr W) = Some w' /\
    length w' = length (d_arr W) /\ forall p q, p < d_m W -> q < d_m W ->
    nth (p * d_m W + q) w' f0 = nth (p * d_m W + q) (d_arr W) f0 +!
      lsum (map (fun e => if (fst (f e) =? p) && (snd (f e) =? q) then alpha *! val e else f0) l).
Proof.
  intros HW Hsq Hf.
  destruct (addp_fold (fun e => fst (f e) * d_m W + snd (f e)) (fun e => alpha *! val e) l (d_arr W)) as [w' [E [L N]]].
  { intros e He. destruct (Hf e He). rewrite HW, <- Hsq. nia. }
  exists w'. split; auto. split; auto. intros p q Hp Hq. rewrite N. f_equal. apply lsum_ext. intros e He.
  destruct (Hf e He). rewrite flat_eqb by auto. reflexivity.
Qed.

Lemma trans_add_spec A rs cs alpha W :
  wf A -> dwf W -> d_m W = d_n W -> rs + t_n A <= d_m W -> cs + t_m A <= d_n W ->
  (forall e, In e (t_ent A) -> col e + rs <= row e + cs) ->
  exists W', trans_add_to_sym K A rs cs alpha W = Some W' /\ d_m W' = d_m W /\ d_n W' = d_n W /\ dwf W' /\
    forall p q, p < d_m W -> q < d_n W -> dmat W' p q = dmat W p q +!
      (if (rs <=? p) && (cs <=? q) then alpha *! mat (t_ent A) (q - cs) (p - rs) else f0).
Proof.
  intros Hw HW Hsq H1 H2 Hup. unfold trans_add_to_sym.
  replace ((rs + t_n A <=? d_m W) && (cs + t_m A <=? d_n W) && (d_n W =? d_m W)) with true.
  2:{ symmetry. rewrite !andb_true_iff, !Nat.leb_le, Nat.eqb_eq. lia. }
  rewrite (ofold_ext _ (fun e w => addat K w (fst ((fun e => (col e + rs, row e + cs)) e) * d_m W + snd ((fun e => (col e + rs, row e + cs)) e)) (alpha *! val e))).
  2:{ intros e w He. destruct (Hw e He). specialize (Hup e He). cbv zeta. cbn [fst snd].
      replace ((col e + rs <? d_m W) && (row e + cs <? d_n W) && (col e + rs <=? row e + cs)) with true; auto.
      symmetry. rewrite !andb_true_iff, Nat.leb_le, !Nat.ltb_lt. lia. }
  destruct (scatter_sym (t_ent A) W alpha (fun e => (col e + rs, row e + cs))) as [w' [E [L N]]]; auto.
  { intros e He. destruct (Hw e He). simpl. lia. }
  rewrite E. eexists. split; [reflexivity|]. simpl. split; auto. split; auto. split; [unfold dwf in *; simpl; rewrite L; exact HW|].
  intros p q Hp Hq. unfold dmat. simpl. rewrite <- Hsq. rewrite N by lia. f_equal. cbn [fst snd].
  destruct (Nat.leb_spec rs p); simpl.
  - destruct (Nat.leb_spec cs q); simpl.
    + apply (mat_shift _ p q (fun e => (col e + rs, row e + cs))). intros e He. cbn [fst snd].
      apply eq_true_iff_eq. rewrite !andb_true_iff, !Nat.eqb_eq. lia.
    + apply lsum_zero. intros e He. destruct (Nat.eqb_spec (row e + cs) q); [lia|]. rewrite andb_false_r. auto.
  - apply lsum_zero. intros e He. destruct (Nat.eqb_spec (col e + rs) p); [lia|]. auto.
Qed.

Lemma add_upper_spec A st alpha W :
  wf A -> dwf W -> d_m W = d_n W -> st + t_m A <= d_m W -> st + t_n A <= d_n W ->
  (forall e, In e (t_ent A) -> row e <= col e) ->
  exists W', add_upper_to_sym K A st alpha W = Some W' /\ d_m W' = d_m W /\ d_n W' = d_n W /\ dwf W' /\
    forall p q, p < d_m W -> q < d_n W -> dmat W' p q = dmat W p q +!
      (if (st <=? p) && (st <=? q) then alpha *! mat (t_ent A) (p - st) (q - st) else f0).
Proof.
  intros Hw HW Hsq H1 H2 Hup. unfold add_upper_to_sym.
  replace ((st + t_m A <=? d_m W) && (st + t_n A <=? d_n W) && (d_n W =? d_m W)) with true.
  2:{ symmetry. rewrite !andb_true_iff, !Nat.leb_le, Nat.eqb_eq. lia. }
  rewrite (ofold_ext _ (fun e w => addat K w (fst ((fun e => (row e + st, col e + st)) e) * d_m W + snd ((fun e => (row e + st, col e + st)) e)) (alpha *! val e))).
  2:{ intros e w He. destruct (Hw e He). specialize (Hup e He). cbv zeta. cbn [fst snd].
      replace ((row e <=? col e) && (row e + st <? d_m W) && (col e + st <? d_n W) && (row e + st <=? col e + st)) with true; auto.
      symmetry. rewrite !andb_true_iff, !Nat.leb_le, !Nat.ltb_lt. lia. }
  destruct (scatter_sym (t_ent A) W alpha (fun e => (row e + st, col e + st))) as [w' [E [L N]]]; auto.
  { intros e He. destruct (Hw e He). simpl. lia. }
  rewrite E. eexists. split; [reflexivity|]. simpl. split; auto. split; auto. split; [unfold dwf in *; simpl; rewrite L; exact HW|].
  intros p q Hp Hq. unfold dmat. simpl. rewrite <- Hsq. rewrite N by lia. f_equal. cbn [fst snd].
  destruct (Nat.leb_spec st p); simpl.
  - destruct (Nat.leb_spec st q); simpl.
    + apply (mat_shift _ p q (fun e => (row e + st, col e + st))). intros e He. cbn [fst snd].
      apply eq_true_iff_eq. rewrite !andb_true_iff, !Nat.eqb_eq. lia.
    + apply lsum_zero. intros e He. destruct (Nat.eqb_spec (col e + st) q); [lia|]. rewrite andb_false_r. auto.
  - apply lsum_zero. intros e He. destruct (Nat.eqb_spec (row e + st) p); [lia|]. auto.
Qed.

Lemma copy_to_dense_spec A W : wf A -> dwf W -> d_m W = t_m A -> d_n W = t_n A ->
  exists W', copy_to_dense K A W = Some W' /\ d_m W' = d_m W /\ d_n W' = d_n W /\ dwf W' /\
    forall p q, p < t_m A -> q < t_n A -> dmat W' p q = mat (t_ent A) p q.
Proof.
  intros Hw HW Hm Hn. unfold copy_to_dense. rewrite Hm, Hn, !Nat.eqb_refl. simpl.
  destruct (addp_fold (fun e => row e * t_n A + col e) (fun e => val e) (t_ent A) (map (fun _ => f0) (d_arr W))) as [w' [E [L N]]].
  { intros e He. destruct (Hw e He). rewrite map_length, HW, Hm, Hn. nia. }
  rewrite E. eexists. split; [reflexivity|]. rewrite map_length in L. simpl. split; auto. split; auto.
  split; [unfold dwf in *; simpl; rewrite L; rewrite <- Hm, <- Hn; auto|].
  intros p q Hp Hq. unfold dmat. simpl. rewrite N.
  assert (HP : p * t_n A + q < length (d_arr W)) by (rewrite HW, Hm, Hn; nia).
  rewrite (nth_map_err _ _ _ f0) by auto. unfold mat.
  rewrite (lsum_ext _ _ (fun e => if (row e =? p) && (col e =? q) then val e else f0)). { ring. }
  intros e He. destruct (Hw e He). rewrite flat_eqb by auto. reflexivity.
Qed.
End P.
