(** Triplet to CSR conversion: kept and extra entries, sorted rows. *)
From Coq Require Import List Bool Arith Lia Sorted Permutation Ring Field.
From Verif Require Import RingKit PackModel PackProofs SparseModel SparseSpec SparseProofs SparseProofs2
  CsrModel CsrSpec CsrProofs CsrProofs2 CsrProofs5 CondModel ConvModel ConvSpec ConvProofs.
Import ListNotations.

Lemma find_pos_spec ind x : forall q p, NoDup ind -> nth_error ind q = Some x -> find_pos x ind p = Some (p + q).
Proof.
  induction ind as [|a r IH]; intros [|q] p Hn H; simpl in *; try discriminate.
  - injection H as ->. rewrite Nat.eqb_refl, Nat.add_0_r. auto.
  - inversion Hn; subst. destruct (Nat.eqb_spec a x) as [->|]; [exfalso; apply H2; apply nth_error_In in H; auto|].
    rewrite (IH q) by auto. f_equal. lia.
Qed.
Lemma sorted_perm_id (ind : list nat) (keys : list nat) :
  Permutation ind (seq 0 (length keys)) -> StronglySorted le (map (fun t => nth t keys 0) ind) -> StronglySorted lt keys ->
  ind = seq 0 (length keys).
Proof.
  intros HP HS HK.
  assert (Mono : forall a b, a < b -> b < length keys -> nth a keys 0 < nth b keys 0).
  { clear -HK. induction HK as [|k r HK IH HF]; intros a b Hab Hb; simpl in *; [lia|].
    rewrite Forall_forall in HF. destruct b as [|b]; [lia|]. destruct a as [|a]; [apply HF, nth_In; lia|apply IH; lia]. }
  assert (B : forall t, In t ind -> t < length keys) by (intros t Ht; apply (Permutation_in _ HP) in Ht; apply in_seq in Ht; lia).
  assert (ND : NoDup ind) by (apply (Permutation_NoDup (Permutation_sym HP)), seq_NoDup).
  assert (SI : StronglySorted lt ind).
  { clear HP. induction ind as [|a r IH]; [constructor|]. simpl in HS. inversion HS; subst. inversion ND; subst.
    constructor; [apply IH; auto; intros; apply B; right; auto|]. rewrite Forall_forall in *. intros b Hb.
    assert (Hle := H2 _ (in_map (fun t => nth t keys 0) _ _ Hb)). simpl in Hle.
    destruct (Nat.lt_trichotomy a b) as [L|[E|L]]; auto; [subst; contradiction|].
    assert (M := Mono b a L (B a (or_introl eq_refl))). lia. }
  assert (SS : StronglySorted lt (seq 0 (length keys))).
  { clear. generalize 0. induction (length keys) as [|n IH]; intro s; simpl; constructor; auto.
    apply Forall_forall. intros x Hx. apply in_seq in Hx. lia. }
  clear -HP SI SS. revert HP SI SS. generalize (seq 0 (length keys)) as l. induction ind as [|a r IH]; intros l HP SI SS.
  - apply Permutation_nil in HP. auto.
  - destruct l as [|b l]; [apply Permutation_sym, Permutation_nil in HP; discriminate|].
    inversion SI; subst. inversion SS; subst. rewrite Forall_forall in *.
    assert (a = b).
    { assert (I1 : In a (b :: l)) by (apply (Permutation_in _ HP); left; auto).
      assert (I2 : In b (a :: r)) by (apply (Permutation_in _ (Permutation_sym HP)); left; auto).
      destruct I1 as [->|I1]; auto. destruct I2 as [->|I2]; auto. specialize (H2 _ I2). specialize (H4 _ I1). lia. }
    subst. f_equal. apply IH; auto. apply Permutation_cons_inv in HP. auto.
Qed.

Section P.
Variable K : cfield.
Add Field kf : (fth K).
Notation entry := (entry K).
Notation ient := (nat * entry)%type.
Notation keep := (keep K). Notation extras := (extras K). Notation rw := (rw K). Notation cl := (cl K). Notation dg := (dg K).
Notation lastx := (lastx K). Notation vx := (vx K). Notation mk := (mk K). Notation dpos := (dpos K).

Lemma lsum_perm (l1 l2 : list K) : Permutation l1 l2 -> lsum l1 = lsum l2.
Proof. induction 1; simpl; auto; try congruence. ring. Qed.

Lemma keep_extras_len (l : list ient) : forall s, length (keep s l) + length (extras s l) = length l.
Proof.
  induction l as [|p t IH]; intro s; simpl; auto. assert (H1 := IH s). assert (H2 := IH (rw p :: s)).
  destruct (dg p); [destruct (mem (rw p) s)|]; simpl; lia.
Qed.
Lemma keep_in (l : list ient) p : forall s, In p (keep s l) -> In p l.
Proof.
  induction l as [|x t IH]; intro s; simpl; auto. destruct (dg x); [destruct (mem (rw x) s)|]; simpl; intro H.
  - right. eapply IH; eauto.
  - destruct H; [auto|right; eapply IH; eauto].
  - destruct H; [auto|right; eapply IH; eauto].
Qed.
Lemma extras_in (l : list ient) p : forall s, In p (extras s l) -> In p l /\ dg p = true.
Proof.
  induction l as [|x t IH]; intro s; simpl; [tauto|]. destruct (dg x) eqn:D; [destruct (mem (rw x) s)|]; simpl; intro H.
  - destruct H as [->|H]; auto. destruct (IH _ H); auto.
  - destruct (IH _ H); auto.
  - destruct (IH _ H); auto.
Qed.
Lemma sum_split (f : ient -> K) (l : list ient) : forall s,
  lsum (map f l) = lsum (map f (keep s l)) +! lsum (map f (extras s l)).
Proof.
  induction l as [|p t IH]; intro s; [simpl; ring|]. cbn [ConvProofs.keep ConvProofs.extras].
  destruct (dg p); [destruct (mem (rw p) s)|]; cbn [map]; unfold lsum in *; cbn [fold_right].
  - rewrite (IH s). ring.
  - rewrite (IH (rw p :: s)). ring.
  - rewrite (IH s). ring.
Qed.
Definition cntd (r : nat) (l : list ient) : nat := length (filter (fun p => dg p && (rw p =? r)) l).
Lemma cntd_cons r p t : cntd r (p :: t) = (if dg p && (rw p =? r) then 1 else 0) + cntd r t.
Proof. unfold cntd. simpl. destruct (dg p && (rw p =? r)); reflexivity. Qed.
Lemma cntd_split r (l : list ient) : forall s, cntd r l = cntd r (keep s l) + cntd r (extras s l).
Proof.
  induction l as [|p t IH]; intro s; auto. cbn [ConvProofs.keep ConvProofs.extras]. rewrite cntd_cons.
  assert (H1 := IH s). assert (H2 := IH (rw p :: s)).
  destruct (dg p) eqn:D; [destruct (mem (rw p) s)|]; rewrite ?cntd_cons, ?D; cbn [andb]; lia.
Qed.
Lemma cntd_keep r (l : list ient) : forall s, cntd r (keep s l) <= if mem r s then 0 else 1.
Proof.
  induction l as [|p t IH]; intro s.
  - unfold cntd. simpl. lia.
  - cbn [ConvProofs.keep]. destruct (dg p) eqn:D; [destruct (mem (rw p) s) eqn:M|].
    + apply IH.
    + rewrite cntd_cons, D. cbn [andb]. specialize (IH (rw p :: s)). rewrite mem_cons, (Nat.eqb_sym r) in IH.
      destruct (Nat.eqb_spec (rw p) r) as [<-|]; cbn [orb] in IH; [rewrite M; lia|lia].
    + rewrite cntd_cons, D. cbn [andb]. apply IH.
Qed.
Lemma extras_has (l : list ient) p : forall s, In p (extras s l) -> mem (rw p) s = true \/ 1 <= cntd (rw p) (keep s l).
Proof.
  induction l as [|x t IH]; intros s; simpl; [tauto|]. destruct (dg x) eqn:D; [destruct (mem (rw x) s) eqn:M|].
  - intros [->|H]; auto.
  - intro H. destruct (IH _ H) as [E|E].
    + rewrite mem_cons in E. apply orb_prop in E. destruct E as [E|E]; auto. apply Nat.eqb_eq in E. right.
      rewrite cntd_cons, D, E, Nat.eqb_refl. simpl. lia.
    + right. rewrite cntd_cons. lia.
  - intro H. destruct (IH _ H) as [E|E]; auto. right. rewrite cntd_cons. lia.
Qed.
Lemma count_occ_cntd r (l : list ient) : (forall p, In p l -> dg p = true) -> count_occ Nat.eq_dec (map rw l) r = cntd r l.
Proof.
  induction l as [|p t IH]; intro H; auto. rewrite cntd_cons. cbn [map count_occ]. rewrite IH by (intros; apply H; right; auto).
  rewrite (H p) by (left; auto). cbn [andb]. destruct (Nat.eq_dec (rw p) r), (Nat.eqb_spec (rw p) r); auto; contradiction.
Qed.
Lemma extras_nodup (l : list ient) : (forall r, cntd r l <= 2) -> NoDup (map rw (extras [] l)).
Proof.
  intro H. apply (NoDup_count_occ Nat.eq_dec). intro r. rewrite count_occ_cntd by (intros p Hp; apply (extras_in l p []); auto).
  destruct (Nat.eq_dec (cntd r (extras [] l)) 0) as [E|E]; [lia|].
  assert (In r (map rw (extras [] l))).
  { apply (count_occ_In Nat.eq_dec). rewrite count_occ_cntd by (intros p Hp; apply (extras_in l p []); auto). lia. }
  apply in_map_iff in H0. destruct H0 as [p [E1 Hp]]. destruct (extras_has l p [] Hp) as [C|C]; [discriminate|]. rewrite E1 in C.
  specialize (H r). rewrite (cntd_split r l []) in H. lia.
Qed.

Lemma lastx_none r xs : forall d, ~ In r (map rw xs) -> lastx r xs d = d.
Proof.
  induction xs as [|p t IH]; intros d H; auto. unfold ConvProofs.lastx. cbn [fold_left]. destruct (Nat.eqb_spec (rw p) r).
  - exfalso. apply H. left. auto.
  - apply IH. intro. apply H. right. auto.
Qed.
Lemma lastx_some xs p : forall d, NoDup (map rw xs) -> In p xs -> lastx (rw p) xs d = Some (fst p).
Proof.
  induction xs as [|x t IH]; intros d Hn Hp; [destruct Hp|]. cbn [map] in Hn. inversion Hn; subst. unfold ConvProofs.lastx. cbn [fold_left].
  destruct Hp as [->|Hp].
  - rewrite Nat.eqb_refl. apply (lastx_none (rw p) t). auto.
  - apply (IH _ H2 Hp).
Qed.
Lemma lastx_in xs r k : lastx r xs None = Some k -> exists p, In p xs /\ rw p = r /\ fst p = k.
Proof.
  assert (G : forall xs d, lastx r xs d = Some k -> d = Some k \/ exists p, In p xs /\ rw p = r /\ fst p = k).
  { clear. induction xs as [|x t IH]; intros d H; auto. unfold ConvProofs.lastx in H. cbn [fold_left] in H. apply IH in H.
    destruct H as [H|[p [H1 H2]]].
    - destruct (Nat.eqb_spec (rw x) r); auto. right. injection H as H. exists x. simpl. auto.
    - right. exists p. simpl. auto. }
  intro H. destruct (G xs None H) as [E|E]; [discriminate|auto].
Qed.
Lemma count_some n xs : NoDup (map rw xs) -> (forall p, In p xs -> rw p < n) ->
  length (filter (fun o : option nat => match o with Some _ => true | None => false end) (tab n (fun r => lastx r xs None))) = length xs.
Proof.
  intros Hn Hb. unfold tab. rewrite <- (map_length rw xs).
  assert (E : forall l, length (filter (fun o : option nat => match o with Some _ => true | None => false end) (map (fun r => lastx r xs None) l)) =
    length (filter (fun r => mem r (map rw xs)) l)).
  { induction l as [|r l IH]; auto. cbn [map filter]. destruct (mem r (map rw xs)) eqn:M.
    - apply existsb_exists in M. destruct M as [r' [M1 M2]]. apply Nat.eqb_eq in M2. subst r'. apply in_map_iff in M1. destruct M1 as [p [<- Hp]].
      rewrite lastx_some by auto. simpl. auto.
    - rewrite lastx_none; auto. intro I. assert (X : mem r (map rw xs) = true) by (apply existsb_exists; exists r; split; auto; apply Nat.eqb_refl). congruence. }
  rewrite E. apply Permutation_length. apply NoDup_Permutation; auto.
  - apply NoDup_filter, seq_NoDup.
  - intro r. rewrite filter_In, in_seq. split.
    + intros [_ M]. apply existsb_exists in M. destruct M as [r' [M1 M2]]. apply Nat.eqb_eq in M2. subst. auto.
    + intro I. split.
      * apply in_map_iff in I. destruct I as [p [<- Hp]]. specialize (Hb p Hp). lia.
      * apply existsb_exists. exists r. split; auto. apply Nat.eqb_refl.
Qed.

(** the value of the kept diagonal absorbs the extra one *)
Lemma sum_nodup (v : nat -> K) xs p : NoDup (map rw xs) -> In p xs ->
  lsum (map (fun q => if rw q =? rw p then v (fst q) else f0) xs) = v (fst p).
Proof.
  induction xs as [|x t IH]; intros Hn Hp; [destruct Hp|]. cbn [map] in *. inversion Hn; subst. unfold lsum in *. cbn [fold_right].
  destruct Hp as [->|Hp].
  - rewrite Nat.eqb_refl. assert (Z := lsum_zero K (fun q : ient => if rw q =? rw p then v (fst q) else f0) t).
    unfold lsum in Z. rewrite Z; [ring|]. intros a Ha. destruct (Nat.eqb_spec (rw a) (rw p)) as [E|]; auto.
    exfalso. apply H1. rewrite <- E. apply in_map. auto.
  - rewrite IH by auto. destruct (Nat.eqb_spec (rw x) (rw p)) as [E|]; [|ring]. exfalso. apply H1. rewrite E. apply in_map. auto.
Qed.
Lemma absorb (l : list ient) (v : nat -> K) i j : (forall r, cntd r l <= 2) ->
  let fx r := lastx r (extras [] l) None in
  lsum (map (fun p => if (rw p =? i) && (cl p =? j) then v (fst p) else f0) l) =
  lsum (map (fun p => if (rw p =? i) && (cl p =? j) then vx fx v p else f0) (keep [] l)).
Proof.
  intros Hc fx. rewrite (sum_split _ l []). set (kp := keep [] l). set (xs := extras [] l) in *.
  assert (ND : NoDup (map rw xs)) by (apply extras_nodup; auto).
  set (X := match fx i with Some k2 => v k2 | None => f0 end).
  transitivity (lsum (map (fun p : ient => if (rw p =? i) && (cl p =? j) then v (fst p) else f0) kp) +!
     lsum (map (fun p : ient => if dg p && (rw p =? i) then (if i =? j then X else f0) else f0) kp)).
  2:{ rewrite <- lsum_add. apply lsum_ext. intros p _. unfold ConvProofs.vx. unfold ConvProofs.dg, ConvProofs.rw, ConvProofs.cl.
      destruct (Nat.eqb_spec (row (snd p)) i) as [E1|E1]; cbn [andb].
      - destruct (Nat.eqb_spec (col (snd p)) j) as [E2|E2].
        + rewrite E1, E2. destruct (Nat.eqb_spec i j) as [E|E]; cbn [andb]; [|ring]. unfold X. destruct (fx i); ring.
        + destruct (Nat.eqb_spec (row (snd p)) (col (snd p))); cbn [andb]; [|ring]. destruct (Nat.eqb_spec i j); [lia|ring].
      - rewrite andb_false_r. ring. }
  f_equal. destruct (Nat.eqb_spec i j) as [<-|N].
  - assert (Cn : forall l0 : list ient, lsum (map (fun p : ient => if dg p && (rw p =? i) then X else f0) l0) = lsum (repeat X (cntd i l0))).
    { intro l0. induction l0 as [|p t IH]; [reflexivity|]. rewrite cntd_cons. cbn [map]. unfold lsum in *. cbn [fold_right]. rewrite IH.
      destruct (dg p && (rw p =? i)); cbn [Nat.add repeat fold_right]; ring. }
    rewrite Cn. destruct (in_dec Nat.eq_dec i (map rw xs)) as [I|I].
    + apply in_map_iff in I. destruct I as [p [E Hp]].
      assert (C1 : cntd i kp = 1).
      { destruct (extras_has l p [] Hp) as [C|C]; [discriminate|]. rewrite E in C. assert (B := cntd_keep i l []). simpl in B. unfold kp. lia. }
      rewrite C1. unfold X, fx. fold xs. rewrite <- E, lastx_some by auto. cbn [repeat]. unfold lsum at 2. cbn [fold_right].
      rewrite <- (sum_nodup v xs p ND Hp) at 1. transitivity (lsum (map (fun q : ient => if rw q =? rw p then v (fst q) else f0) xs)); [|rewrite (sum_nodup v xs p ND Hp); ring].
      apply lsum_ext. intros q Hq. destruct (extras_in l q [] Hq) as [_ D]. unfold ConvProofs.dg in D. apply Nat.eqb_eq in D.
      unfold ConvProofs.rw, ConvProofs.cl. rewrite <- D. destruct (row (snd q) =? row (snd p)); auto.
    + unfold X, fx. fold xs. rewrite lastx_none by auto. rewrite lsum_zero.
      * clear. induction (cntd i kp) as [|n IH]; auto. unfold lsum in *. cbn [repeat fold_right]. rewrite <- IH. ring.
      * intros q Hq. destruct (Nat.eqb_spec (rw q) i) as [E|]; auto. exfalso. apply I. rewrite <- E. apply in_map. auto.
  - rewrite lsum_zero.
    + symmetry. apply lsum_zero. intros p _. destruct (dg p && (rw p =? i)); auto.
    + intros q Hq. destruct (extras_in l q [] Hq) as [_ D]. unfold ConvProofs.dg in D. apply Nat.eqb_eq in D.
      unfold ConvProofs.rw, ConvProofs.cl. destruct (Nat.eqb_spec (row (snd q)) i), (Nat.eqb_spec (col (snd q)) j); auto. lia.
Qed.
End P.
