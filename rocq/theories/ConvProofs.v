(** Triplet to CSR conversion: the counting and filling loops. *)
From Coq Require Import List Bool Arith Lia Sorted Permutation Ring Field.
From Verif Require Import RingKit PackModel PackProofs SparseModel SparseSpec SparseProofs SparseProofs2
  CsrModel CsrSpec CsrProofs CsrProofs2 CsrProofs5 CondModel ConvModel ConvSpec.
Import ListNotations.

(** * lists as tables *)
Definition tab {A} (n : nat) (f : nat -> A) : list A := map f (seq 0 n).
Lemma tab_len {A} n (f : nat -> A) : length (tab n f) = n.
Proof. unfold tab. rewrite map_length, seq_length. auto. Qed.
Lemma tab_nth {A} n (f : nat -> A) k : k < n -> nth_error (tab n f) k = Some (f k).
Proof. intro H. unfold tab. rewrite nth_error_map, (nth_error_nth' _ 0), seq_nth by (rewrite ?seq_length; lia). reflexivity. Qed.
Lemma tab_ext {A} n (f g : nat -> A) : (forall r, r < n -> f r = g r) -> tab n f = tab n g.
Proof. intro H. apply map_ext_in. intros r Hr. apply in_seq in Hr. apply H. lia. Qed.
Lemma upd_tab {A} n (f : nat -> A) k v : k < n -> upd (tab n f) k v = Some (tab n (fun r => if r =? k then v else f r)).
Proof.
  intro Hk. rewrite upd_spec by (rewrite tab_len; lia). f_equal. unfold tab. rewrite firstn_map, firstn_seq, skipn_map by lia.
  rewrite (seq_split n k Hk) at 2. rewrite map_app. cbn [map]. rewrite Nat.eqb_refl. f_equal; [|f_equal].
  - apply map_ext_in. intros r Hr. apply in_seq in Hr. destruct (Nat.eqb_spec r k); [lia|auto].
  - rewrite (seq_split n k Hk). replace (seq 0 k ++ k :: seq (S k) (n - S k)) with ((seq 0 k ++ [k]) ++ seq (S k) (n - S k)) by (rewrite <- app_assoc; reflexivity).
    rewrite skipn_app, skipn_all2 by (rewrite app_length, seq_length; simpl; lia).
    rewrite app_length, seq_length. simpl length. replace (S k - (k + 1)) with 0 by lia. simpl app.
    apply map_ext_in. intros r Hr. apply in_seq in Hr. destruct (Nat.eqb_spec r k); [lia|auto].
Qed.
Lemma repeat_tab {A} n (a : A) : repeat a n = tab n (fun _ => a).
Proof.
  unfold tab. rewrite <- (seq_length n 0) at 1. generalize (seq 0 n). intro l.
  induction l as [|x r IH]; simpl; auto. rewrite IH. reflexivity.
Qed.

Section P.
Variable K : cfield.
Add Field kf : (fth K).
Notation entry := (entry K).
Notation ient := (nat * entry)%type.

Definition rw (p : ient) : nat := row (snd p).
Definition cl (p : ient) : nat := col (snd p).
Definition dg (p : ient) : bool := row (snd p) =? col (snd p).
Definition mem (r : nat) (s : list nat) : bool := existsb (Nat.eqb r) s.
(** first stored entries and second diagonal entries *)
Fixpoint keep (seen : list nat) (l : list ient) : list ient :=
  match l with
  | [] => []
  | p :: t => if dg p then if mem (rw p) seen then keep seen t else p :: keep (rw p :: seen) t else p :: keep seen t
  end.
Fixpoint extras (seen : list nat) (l : list ient) : list ient :=
  match l with
  | [] => []
  | p :: t => if dg p then if mem (rw p) seen then p :: extras seen t else extras (rw p :: seen) t else extras seen t
  end.
Definition lastx (r : nat) (xs : list ient) (d : option nat) : option nat :=
  fold_left (fun acc p => if rw p =? r then Some (fst p) else acc) xs d.
Definition cntr (r : nat) (l : list ient) : nat := length (filter (fun p => rw p =? r) l).

Lemma mem_cons r a s : mem r (a :: s) = (r =? a) || mem r s.
Proof. reflexivity. Qed.

Lemma count_spec n (l : list ient) : forall seen fw fd fx,
  (forall p, In p l -> rw p < n) -> (forall r, r < n -> fd r = None <-> mem r seen = false) ->
  exists fd', ofold (count_step K) l (tab n fw, tab n fd, tab n fx) =
    Some (tab n (fun r => fw r + cntr r (keep seen l)), tab n fd', tab n (fun r => lastx r (extras seen l) (fx r))).
Proof.
  induction l as [|p t IH]; intros seen fw fd fx Hb Hd; cbn [ofold].
  - exists fd. f_equal. f_equal. f_equal. apply tab_ext. intros. unfold cntr. simpl. lia.
  - assert (Hp : rw p < n) by (apply Hb; left; auto). assert (Ht : forall q, In q t -> rw q < n) by (intros; apply Hb; right; auto).
    destruct p as [k e]. unfold count_step at 1. unfold rw in Hp. cbn [snd] in Hp. cbn [keep extras]. unfold dg, rw. cbn [snd].
    destruct (Nat.eqb_spec (row e) (col e)) as [E|E]; cbn [negb].
    + rewrite tab_nth by auto. destruct (fd (row e)) as [o|] eqn:F.
      * assert (M : mem (row e) seen = true).
        { destruct (mem (row e) seen) eqn:M; auto. apply (Hd _ Hp) in M. congruence. }
        rewrite M. rewrite upd_tab by auto. cbn [obind].
        destruct (IH seen fw fd (fun r => if r =? row e then Some k else fx r) Ht Hd) as [fd' IH'].
        exists fd'. rewrite IH'. f_equal. f_equal. apply tab_ext. intros r Hr. unfold lastx. cbn [fold_left fst]. unfold rw. cbn [snd].
        rewrite (Nat.eqb_sym r (row e)). reflexivity.
      * assert (M : mem (row e) seen = false) by (apply (Hd _ Hp); auto). rewrite M.
        rewrite upd_tab by auto. cbn [obind]. rewrite tab_nth by auto. cbn [obind]. rewrite upd_tab by auto. cbn [obind].
        destruct (IH (row e :: seen) (fun r => if r =? row e then S (fw (row e)) else fw r) (fun r => if r =? row e then Some k else fd r) fx Ht) as [fd' IH'].
        { intros r Hr. rewrite mem_cons. destruct (Nat.eqb_spec r (row e)); cbn [orb]; [split; discriminate|apply Hd; auto]. }
        exists fd'. rewrite IH'. f_equal. f_equal. f_equal. apply tab_ext. intros r Hr. unfold cntr. cbn [filter]. unfold rw. cbn [snd].
        rewrite (Nat.eqb_sym (row e) r). destruct (Nat.eqb_spec r (row e)) as [->|]; simpl; lia.
    + rewrite tab_nth by auto. cbn [obind]. rewrite upd_tab by auto. cbn [obind].
      destruct (IH seen (fun r => if r =? row e then S (fw (row e)) else fw r) fd fx Ht Hd) as [fd' IH'].
      exists fd'. rewrite IH'. f_equal. f_equal. f_equal. apply tab_ext. intros r Hr. unfold cntr. cbn [filter]. unfold rw. cbn [snd].
      rewrite (Nat.eqb_sym (row e) r). destruct (Nat.eqb_spec r (row e)) as [->|]; simpl; lia.
Qed.

(** * the slots *)
Definition vx (fx : nat -> option nat) (v : nat -> K) (p : ient) : K :=
  match (if dg p then fx (rw p) else None) with Some k2 => v (fst p) +! v k2 | None => v (fst p) end.
Definition mk (fx : nat -> option nat) (v : nat -> K) (p : ient) : slot K := (cl p, vx fx v p, fst p).
Fixpoint dpos (r : nat) (its : list ient) (q : nat) : option nat :=
  match its with
  | [] => None
  | p :: t => if rw p =? r then if dg p then Some q else dpos r t (S q) else dpos r t q
  end.
Lemma dpos_shift r its : forall q, dpos r its (S q) = option_map S (dpos r its q).
Proof. induction its as [|p t IH]; intro q; simpl; auto. destruct (rw p =? r); auto. destruct (dg p); auto. Qed.
Lemma dpos_seen r l : forall seen q, mem r seen = true -> dpos r (keep seen l) q = None.
Proof.
  induction l as [|p t IH]; intros seen q M; simpl; auto. destruct (dg p) eqn:D.
  - destruct (mem (rw p) seen) eqn:M2; auto. cbn [dpos]. destruct (Nat.eqb_spec (rw p) r) as [E|E]; [congruence|].
    apply IH. rewrite mem_cons, M. apply orb_true_r.
  - cbn [dpos]. rewrite D. destruct (rw p =? r); auto.
Qed.

Lemma scatter_cons {A} nnz ptr rs (arr : list A) r v t res :
  scatter nnz ptr rs arr ((r, v) :: t) = Some res ->
  exists p arr' rs', nth_error rs r = Some p /\ upd arr p v = Some arr' /\ upd rs r (S p) = Some rs' /\ scatter nnz ptr rs' arr' t = Some res.
Proof.
  cbn [scatter]. intro H. destruct (nth_error rs r) as [p|]; [|discriminate]. destruct (nth_error ptr (S r)); [|discriminate].
  destruct ((p <? nnz) && (S p <=? n)); [|discriminate]. destruct (upd arr p v) as [a|] eqn:U; [|discriminate].
  destruct (upd rs r (S p)) as [rs'|] eqn:U2; [|discriminate]. exists p, a, rs'. auto.
Qed.

Lemma fill_spec n nnz ptr vals fx (l : list ient) : forall seen arr frs fd ft arr' rs',
  (forall p, In p l -> rw p < n /\ nth_error vals (fst p) = Some (val (snd p))) ->
  (forall r k2, r < n -> fx r = Some k2 -> k2 < length vals) ->
  (forall r, r < n -> fd r = None <-> mem r seen = false) ->
  scatter nnz ptr (tab n frs) arr (map (fun p => (rw p, mk fx (fun k => nth k vals f0) p)) (keep seen l)) = Some (arr', rs') ->
  exists fd', ofold (fill_step K vals (tab n fx)) l ((arr, tab n frs), tab n fd, tab n ft) =
    Some ((arr', rs'), tab n fd', tab n (fun r => match dpos r (keep seen l) 0, fx r with Some q, Some _ => Some (frs r + q) | _, _ => ft r end)).
Proof.
  set (v := fun k => nth k vals f0).
  induction l as [|p t IH]; intros seen arr frs fd ft arr' rs' Hb Hx Hd Hs; cbn [ofold].
  - simpl in Hs. injection Hs as <- <-. exists fd. reflexivity.
  - destruct (Hb p ltac:(left; auto)) as [Hp Hv]. assert (Ht : forall q, In q t -> rw q < n /\ nth_error vals (fst q) = Some (val (snd q))) by (intros; apply Hb; right; auto).
    assert (Vk : v (fst p) = val (snd p)) by (unfold v; apply (nth_error_nth _ _ f0) in Hv; auto).
    cbn [keep] in Hs |- *. destruct (dg p) eqn:D.
    + destruct p as [k e]. unfold fill_step at 1. unfold rw in *. unfold dg in D. cbn [snd fst] in *. rewrite D. rewrite tab_nth by auto.
      destruct (fd (row e)) as [o|] eqn:F.
      * assert (M : mem (row e) seen = true).
        { destruct (mem (row e) seen) eqn:M; auto. apply (Hd _ Hp) in M. congruence. }
        rewrite M in Hs |- *. destruct (IH seen arr frs fd ft arr' rs' Ht Hx Hd Hs) as [fd' IH']. exists fd'. exact IH'.
      * assert (M : mem (row e) seen = false) by (apply (Hd _ Hp); auto). rewrite M in Hs |- *.
        rewrite upd_tab by auto. cbn [obind]. rewrite tab_nth by auto. cbn [obind].
        cbn [map] in Hs. apply scatter_cons in Hs. destruct Hs as [q [arr1 [rs1 [N1 [U1 [U2 Hs]]]]]]. cbn [snd fst] in *.
        rewrite tab_nth in N1 by auto. injection N1 as <-. rewrite upd_tab in U2 by auto. injection U2 as <-.
        assert (Hd' : forall r, r < n -> (if r =? row e then Some k else fd r) = None <-> mem r (row e :: seen) = false).
        { intros r Hr. rewrite mem_cons. destruct (Nat.eqb_spec r (row e)); cbn [orb]; [split; discriminate|apply Hd; auto]. }
        assert (Sl : mk fx v (k, e) = (col e, match fx (row e) with Some k2 => val e +! v k2 | None => val e end, k)).
        { unfold mk, vx, cl, dg, rw. cbn [fst snd]. rewrite D. rewrite Vk. reflexivity. }
        rewrite Sl in U1.
        destruct (fx (row e)) as [k2|] eqn:X.
        -- rewrite (nth_error_nth' vals f0) by (apply (Hx (row e)); auto). cbn [obind]. fold (v k2).
           unfold write_slot. cbn [fst snd]. rewrite tab_nth by auto. cbn [obind]. rewrite U1. cbn [obind]. rewrite upd_tab by auto. cbn [obind fst snd].
           rewrite upd_tab by auto. cbn [obind].
           destruct (IH (row e :: seen) arr1 _ _ (fun r => if r =? row e then Some (frs (row e)) else ft r) arr' rs' Ht Hx Hd' Hs) as [fd' IH'].
           exists fd'. rewrite IH'. f_equal. f_equal. apply tab_ext. intros r Hr. cbn [dpos]. unfold rw, dg. cbn [snd]. rewrite D.
           rewrite (Nat.eqb_sym (row e) r). destruct (Nat.eqb_spec r (row e)) as [->|N].
           ++ rewrite X. rewrite dpos_seen by (rewrite mem_cons, Nat.eqb_refl; auto). f_equal. lia.
           ++ reflexivity.
        -- unfold write_slot. cbn [fst snd]. rewrite tab_nth by auto. cbn [obind]. rewrite U1. cbn [obind]. rewrite upd_tab by auto. cbn [obind fst snd].
           destruct (IH (row e :: seen) arr1 _ _ ft arr' rs' Ht Hx Hd' Hs) as [fd' IH'].
           exists fd'. rewrite IH'. f_equal. f_equal. apply tab_ext. intros r Hr. cbn [dpos]. unfold rw, dg. cbn [snd]. rewrite D.
           rewrite (Nat.eqb_sym (row e) r). destruct (Nat.eqb_spec r (row e)) as [->|N].
           ++ rewrite X. rewrite dpos_seen by (rewrite mem_cons, Nat.eqb_refl; auto). reflexivity.
           ++ reflexivity.
    + cbn [map] in Hs. apply scatter_cons in Hs. destruct Hs as [q [arr1 [rs1 [N1 [U1 [U2 Hs]]]]]].
      assert (Sl : mk fx v p = (cl p, val (snd p), fst p)) by (unfold mk, vx; rewrite D, Vk; reflexivity). rewrite Sl in U1.
      destruct p as [k e]. unfold fill_step at 1. unfold rw, cl in *. unfold dg in D. cbn [snd fst] in *. rewrite D.
      rewrite tab_nth in N1 by auto. injection N1 as <-. rewrite upd_tab in U2 by auto. injection U2 as <-.
      unfold write_slot. cbn [fst snd]. rewrite tab_nth by auto. cbn [obind]. rewrite U1. cbn [obind]. rewrite upd_tab by auto. cbn [obind fst snd].
      destruct (IH seen arr1 _ _ ft arr' rs' Ht Hx Hd Hs) as [fd' IH'].
      exists fd'. rewrite IH'. f_equal. f_equal. apply tab_ext. intros r Hr. cbn [dpos]. unfold rw, dg. cbn [snd]. rewrite D, dpos_shift.
      rewrite (Nat.eqb_sym (row e) r). destruct (Nat.eqb_spec r (row e)) as [->|N]; auto.
      destruct (dpos (row e) (keep seen t) 0); cbn [option_map]; [|reflexivity]. destruct (fx (row e)); [|reflexivity]. f_equal. lia.
Qed.
End P.
