From Coq Require Import List Bool Arith ZArith Lia Sorting.Sorted.
From Verif Require Import RingKit.
From Verif Require Import FloatBase FloatFacts MuModel PackModel PackProofs HessModel HessSpec.
Import ListNotations.

(** *** loops of array writes in increasing order *)
Lemma writes_spec {T P} (val : P -> list T -> option T) (dst : P -> nat) ps : forall a,
  StronglySorted (fun p q => dst p < dst q) ps ->
  (forall p, In p ps -> dst p < length a) ->
  (forall p, In p ps -> exists v, val p a = Some v) ->
  (forall p a', In p ps -> (forall k, dst p <= k -> nth_error a' k = nth_error a k) -> val p a' = val p a) ->
  exists a', writes val dst ps a = Some a' /\ length a' = length a /\
    (forall p, In p ps -> nth_error a' (dst p) = val p a) /\
    (forall k, (forall p, In p ps -> dst p <> k) -> nth_error a' k = nth_error a k).
Proof.
  induction ps as [|p ps IH]; intros a HS HD HV HF; unfold writes; cbn [ofold].
  - exists a. repeat split; auto. intros q [].
  - destruct (HV p (or_introl eq_refl)) as [v Ev]. rewrite Ev.
    assert (Lp : dst p < length a) by (apply HD; left; reflexivity).
    destruct (upd a (dst p) v) as [b|] eqn:EU; [|rewrite upd_spec in EU by exact Lp; discriminate].
    pose proof (upd_len _ _ _ _ _ EU) as [LB _]. pose proof (upd_nth _ _ _ _ _ EU) as NB.
    inversion HS as [|? ? HS' HA]; subst. rewrite Forall_forall in HA.
    assert (AG : forall q, In q ps -> forall k, dst q <= k -> nth_error b k = nth_error a k).
    { intros q Hq k Hk. rewrite NB. destruct (Nat.eqb_spec k (dst p)); [|reflexivity]. pose proof (HA q Hq). lia. }
    destruct (IH b HS') as (a' & E & L & N1 & N2).
    + intros q Hq. rewrite LB. apply HD. right. exact Hq.
    + intros q Hq. destruct (HV q (or_intror Hq)) as [w Ew]. exists w.
      rewrite (HF q b (or_intror Hq)); [exact Ew|]. apply AG. exact Hq.
    + intros q a'' Hq Hk. rewrite (HF q b (or_intror Hq)) by (apply AG; exact Hq).
      apply HF; [right; exact Hq|]. intros k Hle. rewrite Hk by exact Hle. apply (AG q Hq). exact Hle.
    + exists a'. split; [exact E|]. split; [lia|]. split.
      * intros q [->|Hq].
        -- rewrite N2. 2:{ intros r Hr. pose proof (HA r Hr). lia. } rewrite NB, Nat.eqb_refl. congruence.
        -- rewrite N1 by exact Hq. apply HF; [right; exact Hq|]. apply AG. exact Hq.
      * intros k Hk. rewrite N2 by (intros r Hr; apply Hk; right; exact Hr).
        rewrite NB. destruct (Nat.eqb_spec k (dst p)); [|reflexivity]. exfalso. apply (Hk p); [left; reflexivity|auto].
Qed.

Lemma sorted_map {P} (f : nat -> P) (dst : P -> nat) n : forall a,
  (forall i j, a <= i -> i < j -> j < a + n -> dst (f i) < dst (f j)) ->
  StronglySorted (fun p q => dst p < dst q) (map f (seq a n)).
Proof.
  induction n as [|n IH]; intros a H; cbn; constructor.
  - apply IH. intros i j ? ? ?. apply H; lia.
  - rewrite Forall_forall. intros p Hp. apply in_map_iff in Hp as (j & <- & Hj). apply in_seq in Hj. apply H; lia.
Qed.
Lemma sorted_seq (dst : nat -> nat) n a :
  (forall i j, a <= i -> i < j -> j < a + n -> dst i < dst j) -> StronglySorted (fun p q => dst p < dst q) (seq a n).
Proof. intros H. rewrite <- (map_id (seq a n)). apply sorted_map. exact H. Qed.
Lemma sorted_app {P} (R : P -> P -> Prop) l1 l2 : StronglySorted R l1 -> StronglySorted R l2 ->
  (forall p q, In p l1 -> In q l2 -> R p q) -> StronglySorted R (l1 ++ l2).
Proof.
  induction l1 as [|x l1 IH]; intros H1 H2 H; cbn; [exact H2|]. inversion H1; subst. constructor.
  - apply IH; auto. intros; apply H; auto. right; auto.
  - rewrite Forall_forall in *. intros q Hq. apply in_app_iff in Hq as [Hq|Hq]; [auto|]. apply H; auto. left; auto.
Qed.
Lemma in_pairs a n w p : In p (pairs_upto a n w) <-> a <= fst p < a + n /\ snd p < w (fst p).
Proof.
  unfold pairs_upto. rewrite in_flat_map. split.
  - intros (i & Hi & Hp). apply in_map_iff in Hp as (j & <- & Hj). apply in_seq in Hi, Hj. cbn. lia.
  - intros (H1 & H2). exists (fst p). split; [apply in_seq; lia|]. apply in_map_iff. exists (snd p).
    split; [destruct p; reflexivity|apply in_seq; lia].
Qed.
Lemma sorted_pairs (c : nat) w n : forall a, (forall i, w i <= c) ->
  StronglySorted (fun p q => fst p * c + snd p < fst q * c + snd q) (pairs_upto a n w).
Proof.
  induction n as [|n IH]; intros a H; unfold pairs_upto; cbn [seq flat_map]; [constructor|].
  apply sorted_app.
  - apply (sorted_map (fun j => (a, j)) (fun p => fst p * c + snd p)). intros i j _ L _. cbn. lia.
  - apply IH. exact H.
  - intros p q Hp Hq. apply in_map_iff in Hp as (j & <- & Hj). apply in_seq in Hj. apply in_pairs in Hq. cbn.
    pose proof (H a). nia.
Qed.

Lemma nth_ext' {X} (a b : list X) : length a = length b -> (forall k, k < length a -> nth_error a k = nth_error b k) -> a = b.
Proof.
  revert b. induction a as [|x a IH]; intros [|y b] HL H; try discriminate; [reflexivity|]. f_equal.
  - assert (E := H 0). cbn in E. specialize (E ltac:(lia)). congruence.
  - apply IH; [cbn in HL; lia|]. intros k Hk. apply (H (S k)). cbn. lia.
Qed.

(** shifting up by one and writing the last entry *)
Lemma shift_ok {X} (a : list X) v : a <> [] ->
  exists a1 a2, writes (fun i b => nth_error b (i + 1)) (fun i => i) (seq 0 (length a - 1)) a = Some a1 /\ length a1 = length a /\
    upd a1 (length a - 1) v = Some a2 /\ a2 = tl a ++ [v].
Proof.
  intros NE. assert (LP : 0 < length a) by (destruct a; [congruence|cbn; lia]).
  destruct (writes_spec (fun i (b : list X) => nth_error b (i + 1)) (fun i => i) (seq 0 (length a - 1)) a) as (a1 & E & L & N1 & N2).
  - apply (sorted_seq (fun i => i)). lia.
  - intros p Hp. apply in_seq in Hp. lia.
  - intros p Hp. apply in_seq in Hp. destruct (nth_error a (p + 1)) eqn:E; [eauto|]. apply nth_error_None in E. lia.
  - intros p a' Hp Hk. apply Hk. lia.
  - destruct (upd a1 (length a - 1) v) as [a2|] eqn:EU; [|rewrite upd_spec in EU by lia; discriminate].
    exists a1, a2. split; [exact E|]. split; [exact L|]. split; [exact EU|].
    pose proof (upd_len _ _ _ _ _ EU) as [L2 _]. pose proof (upd_nth _ _ _ _ _ EU) as NU.
    destruct a as [|x a]; [congruence|]. cbn [tl length] in *. replace (S (length a) - 1) with (length a) in * by lia.
    apply nth_ext'.
    { rewrite app_length. cbn. lia. }
    intros k Hk. rewrite NU. destruct (Nat.eqb_spec k (length a)) as [->|NK].
    + rewrite nth_error_app2 by lia. rewrite Nat.sub_diag. reflexivity.
    + rewrite N1 by (apply in_seq; lia). rewrite Nat.add_1_r. cbn. rewrite nth_error_app1 by lia. reflexivity.
Qed.

Section M.
Variables (V T : Type) (zero junk : T) (ydot sdot : V -> V -> T).
Notation mem_of := (mem_of zero ydot sdot).

Lemma growL_ok l (L YTs : list T) : length L = l * l -> length YTs = l ->
  exists L', growL T zero junk l L YTs = Some L' /\ length L' = S l * S l /\
    (forall i j, i < l -> j < l -> nth_error L' (i * S l + j) = nth_error L (i * l + j)) /\
    (forall j, j < l -> nth_error L' (l * S l + j) = nth_error YTs j) /\
    (forall i, i < S l -> nth_error L' (i * S l + l) = Some zero).
Proof.
  intros HL HY. unfold growL.
  destruct (writes_spec (fun p (_ : list T) => nth_error L (fst p * l + snd p)) (fun p => fst p * S l + snd p)
              (pairs_upto 0 l (fun _ => l)) (repeat junk (S l * S l))) as (a & E & La & A1 & A2).
  { apply sorted_pairs. intros; lia. }
  { intros [i j] Hp. apply in_pairs in Hp. rewrite repeat_length. cbn [fst snd] in *. nia. }
  { intros [i j] Hp. apply in_pairs in Hp. cbn [fst snd] in *. destruct (nth_error L (i * l + j)) eqn:EN; [eauto|].
    apply nth_error_None in EN. nia. }
  { reflexivity. }
  rewrite E. rewrite repeat_length in La.
  destruct (writes_spec (fun j (_ : list T) => nth_error YTs j) (fun j => l * S l + j) (seq 0 l) a) as (b & EB & Lb & B1 & B2).
  { apply sorted_seq. intros; lia. }
  { intros j Hj. apply in_seq in Hj. rewrite La. nia. }
  { intros j Hj. apply in_seq in Hj. destruct (nth_error YTs j) eqn:EN; [eauto|]. apply nth_error_None in EN. lia. }
  { reflexivity. }
  rewrite EB.
  destruct (writes_spec (fun (_ : nat) (_ : list T) => Some zero) (fun i => i * S l + l) (seq 0 (S l)) b) as (c & EC & Lc & C1 & C2).
  { apply sorted_seq. intros; nia. }
  { intros j Hj. apply in_seq in Hj. rewrite Lb, La. nia. }
  { eauto. }
  { reflexivity. }
  exists c. split; [exact EC|]. split; [lia|].
  assert (NC : forall i j, i <= l -> j < l -> nth_error c (i * S l + j) = nth_error b (i * S l + j)).
  { intros i j Hi Hj. apply C2. intros k Hk HE. apply in_seq in Hk.
    assert (k = i) by nia. subst. lia. }
  split; [|split].
  - intros i j Hi Hj. rewrite NC by lia. rewrite B2 by (intros k Hk; apply in_seq in Hk; nia).
    apply (A1 (i, j)). apply in_pairs. cbn. lia.
  - intros j Hj. rewrite NC by lia. apply B1. apply in_seq. lia.
  - intros i Hi. apply C1. apply in_seq. lia.
Qed.

Lemma updateL_ok l (L YTs : list T) : 0 < l -> length L = l * l -> length YTs = l ->
  exists L', updateL T zero l L YTs = Some L' /\ length L' = l * l /\
    (forall i j, j < i -> i < l - 1 -> nth_error L' (i * l + j) = nth_error L ((i + 1) * l + (j + 1))) /\
    (forall j, j < l - 1 -> nth_error L' ((l - 1) * l + j) = nth_error YTs (j + 1)) /\
    nth_error L' ((l - 1) * l + (l - 1)) = Some zero /\
    (forall i j, i < l - 1 -> i <= j -> j < l -> nth_error L' (i * l + j) = nth_error L (i * l + j)).
Proof.
  intros HP HL HY. unfold updateL.
  destruct (writes_spec (fun p (a : list T) => nth_error a ((fst p + 1) * l + snd p + 1)) (fun p => fst p * l + snd p)
              (pairs_upto 1 (l - 2) (fun i => i)) L) as (a & E & La & A1 & A2).
  { (* the widths are not bounded by l for arbitrary rows, so restrict to the rows that occur *)
    assert (G : forall n b, b + n <= l -> StronglySorted (fun p q => fst p * l + snd p < fst q * l + snd q) (pairs_upto b n (fun i => i))).
    { induction n as [|n IH]; intros b Hb; unfold pairs_upto; cbn [seq flat_map]; [constructor|]. apply sorted_app.
      - apply (sorted_map (fun j => (b, j)) (fun p => fst p * l + snd p)). intros i j _ Lij _. cbn. lia.
      - apply IH. lia.
      - intros p q Hp Hq. apply in_map_iff in Hp as (j & <- & Hj). apply in_seq in Hj. apply in_pairs in Hq. cbn. nia. }
    destruct (Nat.le_gt_cases l 1) as [L1|L1]; [replace (l - 2) with 0 by lia; constructor|]. apply G. lia. }
  { intros [i j] Hp. apply in_pairs in Hp. cbn [fst snd] in *. nia. }
  { intros [i j] Hp. apply in_pairs in Hp. cbn [fst snd] in *. destruct (nth_error L ((i + 1) * l + j + 1)) eqn:EN; [eauto|].
    apply nth_error_None in EN. nia. }
  { intros [i j] a' Hp Hk. cbn [fst snd] in *. apply Hk. nia. }
  rewrite E.
  destruct (writes_spec (fun j (_ : list T) => nth_error YTs (j + 1)) (fun j => (l - 1) * l + j) (seq 0 (l - 1)) a) as (b & EB & Lb & B1 & B2).
  { apply sorted_seq. intros; lia. }
  { intros j Hj. apply in_seq in Hj. rewrite La, HL. nia. }
  { intros j Hj. apply in_seq in Hj. destruct (nth_error YTs (j + 1)) eqn:EN; [eauto|]. apply nth_error_None in EN. lia. }
  { reflexivity. }
  rewrite EB.
  destruct (upd b ((l - 1) * l + (l - 1)) zero) as [c|] eqn:EC; [|rewrite upd_spec in EC by nia; discriminate].
  pose proof (upd_len _ _ _ _ _ EC) as [Lc _]. pose proof (upd_nth _ _ _ _ _ EC) as NC.
  exists c. split; [reflexivity|]. split; [lia|].
  assert (NB : forall i j, i < l - 1 -> j < l -> nth_error c (i * l + j) = nth_error a (i * l + j)).
  { intros i j Hi Hj. rewrite NC. destruct (Nat.eqb_spec (i * l + j) ((l - 1) * l + (l - 1))); [nia|].
    apply B2. intros k Hk. apply in_seq in Hk. nia. }
  split; [|split; [|split]].
  - intros i j Hj Hi. rewrite NB by lia. assert (Q : In (i, j) (pairs_upto 1 (l - 2) (fun i => i))) by (apply in_pairs; cbn; lia).
    apply A1 in Q. cbn [fst snd] in Q. rewrite Q. f_equal. lia.
  - intros j Hj. rewrite NC. destruct (Nat.eqb_spec ((l - 1) * l + j) ((l - 1) * l + (l - 1))); [lia|].
    apply B1. apply in_seq. lia.
  - rewrite NC, Nat.eqb_refl. reflexivity.
  - intros i j Hi Hij Hj. rewrite NB by lia. apply A2. intros [i' j'] Hp. apply in_pairs in Hp. cbn [fst snd] in *.
    intros HE. assert (i' = i) by nia. subst. lia.
Qed.

Lemma lastn_all {X} k (l : list X) : length l <= k -> lastn k l = l.
Proof. intros H. unfold lastn. replace (length l - k) with 0 by lia. reflexivity. Qed.
Lemma lastn_len {X} k (l : list X) : length (lastn k l) <= k.
Proof. unfold lastn. rewrite skipn_length. lia. Qed.
Lemma lastn_snoc {X} k (l : list X) x : lastn k (lastn k l ++ [x]) = lastn k (l ++ [x]).
Proof.
  unfold lastn. rewrite !app_length, skipn_length. cbn.
  destruct (Nat.le_gt_cases (length l) k) as [H|H].
  - replace (length l - k) with 0 by lia. cbn [skipn]. rewrite Nat.sub_0_r. reflexivity.
  - replace (length l - (length l - k) + 1 - k) with 1 by lia.
    destruct k as [|k].
    + rewrite Nat.sub_0_r, skipn_all. cbn. replace (length l + 1 - 0) with (length (l ++ [x])) by (rewrite app_length; cbn; lia).
      rewrite skipn_all. reflexivity.
    + rewrite !skipn_app, !skipn_length.
      replace (1 - (length l - (length l - S k))) with 0 by lia.
      replace (length l + 1 - S k - length l) with 0 by lia. f_equal.
      rewrite skipn_skip. f_equal. lia.
Qed.
Lemma lastn_full {X} (l : list X) x : l <> [] -> lastn (length l) (l ++ [x]) = tl l ++ [x].
Proof.
  intros H. unfold lastn. rewrite app_length. cbn. replace (length l + 1 - length l) with 1 by lia.
  destruct l; [congruence|reflexivity].
Qed.

Lemma store_ok lmax s y ps m : mem_of ps m -> length ps <= lmax ->
  exists m', store V T zero junk ydot lmax s y (sdot s y) m = Some m' /\ mem_of (lastn lmax (ps ++ [(s, y)])) m'.
Proof.
  intros (HS & HY & HD & HL & HE) LE. unfold store.
  destruct (Nat.eqb_spec lmax 0) as [->|NZ].
  { destruct ps; [|cbn in LE; lia]. exists m. split; [reflexivity|]. repeat split; auto. }
  assert (LS : length (m_S m) = length ps) by (rewrite HS; apply map_length).
  assert (LY : length (m_Y m) = length ps) by (rewrite HY; apply map_length).
  assert (LD : length (m_D m) = length ps) by (rewrite HD; apply map_length).
  rewrite map_length, LS, LY, LD, Nat.eqb_refl. cbn [negb].
  set (l := length ps) in *.
  assert (YTN : forall j t, nth_error ps j = Some t -> nth_error (map (fun r => ydot r s) (m_Y m)) j = Some (ydot (snd t) s)).
  { intros j t Ht. rewrite HY, map_map. rewrite nth_error_map, Ht. reflexivity. }
  assert (LYT : length (map (fun r => ydot r s) (m_Y m)) = l) by (rewrite map_length; exact LY).
  destruct (Nat.ltb_spec l lmax) as [LT|GE].
  - assert (LA : length (ps ++ [(s, y)]) = S l) by (rewrite app_length; cbn; unfold l; lia).
    unfold appendRow. rewrite LS, LY. destruct (Nat.ltb_spec l lmax); [|lia].
    destruct (growL_ok l (m_L m) _ HL LYT) as (L' & EG & LL & G1 & G2 & G3). rewrite EG.
    eexists. split; [reflexivity|]. rewrite lastn_all by (rewrite app_length; cbn; fold l; lia).
    unfold HessSpec.mem_of. cbn [m_S m_Y m_L m_D]. rewrite !map_app, HS, HY, HD, app_length. fold l. cbn [map length].
    replace (l + 1) with (S l) by lia.
    repeat split; [exact LL|].
    intros i j p t Hi Hj.
    destruct (Nat.lt_ge_cases i l) as [Li|Li].
    + rewrite nth_error_app1 in Hi by exact Li.
      destruct (Nat.lt_ge_cases j l) as [Lj|Lj].
      * rewrite nth_error_app1 in Hj by exact Lj. rewrite G1 by lia. apply HE; auto.
      * assert (j = l) by (assert (j < S l) by (rewrite <- LA; apply nth_error_Some; congruence); lia).
        subst j. rewrite G3 by lia. destruct (Nat.ltb_spec l i); [lia|reflexivity].
    + assert (i = l) by (assert (i < S l) by (rewrite <- LA; apply nth_error_Some; congruence); lia).
      subst i. rewrite nth_error_app2 in Hi by (fold l; lia). fold l in Hi. rewrite Nat.sub_diag in Hi. cbn in Hi. injection Hi as <-. cbn [fst].
      destruct (Nat.lt_ge_cases j l) as [Lj|Lj].
      * rewrite nth_error_app1 in Hj by exact Lj. rewrite G2 by lia. destruct (Nat.ltb_spec j l); [|lia]. apply YTN. exact Hj.
      * assert (j = l) by (assert (j < S l) by (rewrite <- LA; apply nth_error_Some; congruence); lia).
        subst j. rewrite G3 by lia. destruct (Nat.ltb_spec l l); [lia|reflexivity].
  - assert (EL : lmax = l) by lia. subst lmax.
    assert (SH : forall (X : list V) v, length X = l -> exists X1, shiftRows1 V X = Some X1 /\ replaceRow V X1 (l - 1) v = Some (tl X ++ [v])).
    { intros X v LX. unfold shiftRows1, replaceRow. destruct (Nat.leb_spec (length X) 1).
      - destruct X as [|x [|]]; cbn in *; try lia. exists [x]. split; [reflexivity|]. replace (l - 1) with 0 by lia. reflexivity.
      - destruct (shift_ok X v) as (a1 & a2 & E1 & _ & E2 & ->); [destruct X; cbn in *; [lia|congruence]|].
        exists a1. split; [exact E1|]. rewrite <- LX. exact E2. }
    destruct (SH (m_S m) s LS) as (S1 & ES1 & ES2). destruct (SH (m_Y m) y LY) as (Y1 & EY1 & EY2).
    rewrite ES1, EY1, ES2, EY2.
    destruct (updateL_ok l (m_L m) _ ltac:(lia) HL LYT) as (L' & EG & LL & G1 & G2 & G3 & G4). rewrite EG.
    destruct (shift_ok (m_D m) (sdot s y)) as (d1 & d2 & E1 & _ & E2 & ED); [intros E; rewrite E in LD; cbn in LD; lia|].
    unfold updateD. rewrite E1, E2. subst d2. eexists. split; [reflexivity|].
    assert (NEp : ps <> []) by (intros E; subst l; rewrite E in NZ; cbn in NZ; lia).
    unfold l at 1. rewrite (lastn_full ps (s, y) NEp).
    unfold HessSpec.mem_of. cbn [m_S m_Y m_L m_D].
    assert (TM : forall X (f : V * V -> X), tl (map f ps) = map f (tl ps)) by (intros; destruct ps; reflexivity).
    rewrite !map_app, HS, HY, HD, !TM. cbn [map].
    assert (LT : length (tl ps ++ [(s, y)]) = l) by (rewrite app_length; destruct ps; [congruence|cbn in *; unfold l; cbn; lia]).
    rewrite LT. repeat split; [exact LL|].
    intros i j p t Hi Hj.
    assert (Li : i < l) by (rewrite <- LT; apply nth_error_Some; congruence).
    assert (Lj : j < l) by (rewrite <- LT; apply nth_error_Some; congruence).
    assert (LTL : length (tl ps) = l - 1) by (rewrite app_length in LT; cbn in LT; lia).
    assert (NT : forall k, nth_error (tl ps) k = nth_error ps (S k)) by (intros; destruct ps; [congruence|reflexivity]).
    destruct (Nat.eq_dec i (l - 1)) as [->|Ni].
    + rewrite nth_error_app2 in Hi by lia. rewrite LTL, Nat.sub_diag in Hi. cbn in Hi. injection Hi as <-. cbn [fst].
      destruct (Nat.eq_dec j (l - 1)) as [->|Nj].
      * rewrite G3. rewrite Nat.ltb_irrefl. reflexivity.
      * rewrite nth_error_app1 in Hj by lia. rewrite NT in Hj. rewrite G2 by lia. destruct (Nat.ltb_spec j (l - 1)); [|lia].
        rewrite Nat.add_1_r. apply YTN. exact Hj.
    + rewrite nth_error_app1 in Hi by lia. rewrite NT in Hi.
      destruct (Nat.ltb_spec j i) as [Lji|Lji].
      * rewrite nth_error_app1 in Hj by lia. rewrite NT in Hj. rewrite G1 by lia. rewrite !Nat.add_1_r.
        rewrite (HE (S i) (S j) p t Hi Hj). destruct (Nat.ltb_spec (S j) (S i)); [reflexivity|lia].
      * rewrite G4 by lia.
        destruct (nth_error ps i) as [p'|] eqn:Ep; [|apply nth_error_None in Ep; fold l in Ep; lia].
        destruct (nth_error ps j) as [t'|] eqn:Et; [|apply nth_error_None in Et; fold l in Et; lia].
        rewrite (HE i j p' t' Ep Et). destruct (Nat.ltb_spec j i); [lia|reflexivity].
Qed.
End M.

Section U.
Variables (V W J : Type).
Variables (axpy : b64 -> V -> V -> V) (infnorm nrm : V -> b64) (dot ydot : V -> V -> b64) (jt : J -> V -> b64 -> W -> V).
Variables (junk sigma0 : b64) (strat : strategy) (lmax : nat).
Notation update := (update V W J axpy infnorm nrm dot ydot jt junk sigma0 strat lmax).
Notation hrun := (hrun V W J axpy infnorm nrm dot ydot jt junk sigma0 strat lmax).
Notation usable := (usable V infnorm nrm dot).
Notation usable_pairs := (usable_pairs V W J axpy infnorm nrm dot jt).
Notation pair_of := (pair_of V W J axpy jt).
Notation mem_of := (mem_of f_zero ydot dot).

Fixpoint lastobs (os : list (obs V W J)) : option (obs V W J) :=
  match os with [] => None | [o] => Some o | _ :: r => lastobs r end.
Lemma lastobs_snoc os o : lastobs (os ++ [o]) = Some o.
Proof. induction os as [|a os IH]; [reflexivity|]. cbn [app]. destruct (os ++ [o]) eqn:E; [destruct os; discriminate|]. exact IH. Qed.
Lemma lastobs_none os : lastobs os = None -> os = [].
Proof. induction os as [|a os IH]; [reflexivity|]. destruct os as [|b os]; [discriminate|]. intros H. specialize (IH H). discriminate. Qed.
Lemma usable_pairs_snoc os p o : lastobs os = Some p ->
  usable_pairs (os ++ [o]) = usable_pairs os ++ (if usable (pair_of p o) then [pair_of p o] else []).
Proof.
  induction os as [|a os IH]; intros H; [discriminate|]. destruct os as [|b os].
  - cbn in H. injection H as ->. cbn. rewrite app_nil_r. reflexivity.
  - cbn [app]. change (usable_pairs (a :: b :: os ++ [o])) with ((if usable (pair_of a b) then [pair_of a b] else []) ++ usable_pairs ((b :: os) ++ [o])).
    rewrite IH by exact H. cbn [HessSpec.usable_pairs]. rewrite app_assoc. reflexivity.
Qed.

(** sigma is sigma0 while no pair was usable and within the safeguards afterwards *)
Definition sigma_ok (n : nat) (sg : b64) : Prop :=
  match n with O => sg = sigma0 | S _ => fle h_min sg = true /\ fle sg h_max = true end.
Lemma sigma_new_ok a b c n : sigma_ok (S n) (sigma_new sigma0 strat a b c).
Proof.
  unfold sigma_new. set (r := sigma_raw _ _ _ _ _). cbn [sigma_ok].
  unfold fmin, fmax. replace (is_nan h_max) with false by reflexivity.
  destruct (is_nan r) eqn:ER; [vm_compute; auto|].
  destruct (flt r h_max) eqn:E1.
  - rewrite ER. replace (is_nan h_min) with false by reflexivity.
    destruct (flt r h_min) eqn:E2; [vm_compute; auto|].
    split.
    + rewrite flt_not_fge in E2 by (auto; reflexivity). apply negb_false_iff in E2. exact E2.
    + unfold flt, fle, SFltb, SFleb in *. destruct (SFcompare r h_max) as [[]|]; try discriminate; reflexivity.
  - vm_compute. auto.
Qed.

Lemma hrun_ok os : exists h, hrun os = Some h /\ h_prev V W J h = lastobs os /\
  mem_of (lastn lmax (usable_pairs os)) (h_mem V W J h) /\ sigma_ok (length (usable_pairs os)) (h_sigma V W J h).
Proof.
  induction os as [|o os IH] using rev_ind.
  - eexists. split; [reflexivity|]. split; [reflexivity|]. split; [|reflexivity].
    unfold lastn. cbn. repeat split; auto. intros i j s t H. destruct i; discriminate.
  - destruct IH as (h & E & HP & HM & HS). unfold HessModel.hrun in *. rewrite ofold_app, E. cbn [ofold].
    destruct (lastobs os) as [p|] eqn:EL.
    + rewrite (usable_pairs_snoc os p o EL). rewrite lastobs_snoc. unfold HessModel.update. rewrite HP.
      set (q := pair_of p o). unfold HessSpec.usable.
      change (axpy h_m1 (o_x V W J p) (o_x V W J o)) with (fst q).
      change (jt (o_Jd V W J p) (jt (o_Jd V W J o) (jt (o_Jc V W J p) (jt (o_Jc V W J o) (axpy h_m1 (o_g V W J p) (o_g V W J o)) f_one (o_yc V W J o)) h_m1 (o_yc V W J o)) f_one (o_yd V W J o)) h_m1 (o_yd V W J o)) with (snd q).
      unfold fge, fgt. change (SFleb h_100eps (infnorm (fst q))) with (fle h_100eps (infnorm (fst q))).
      destruct (fle h_100eps (infnorm (fst q))) eqn:E1; cbn [andb].
      * cbv zeta. change (SFltb (fmul (fmul (nrm (fst q)) (nrm (snd q))) h_sqrteps) (dot (fst q) (snd q))) with (flt (fmul (fmul (nrm (fst q)) (nrm (snd q))) h_sqrteps) (dot (fst q) (snd q))).
        destruct (flt (fmul (fmul (nrm (fst q)) (nrm (snd q))) h_sqrteps) (dot (fst q) (snd q))) eqn:E2.
        -- destruct (store_ok V b64 f_zero junk ydot dot lmax (fst q) (snd q) _ _ HM) as (m' & ES & HM').
           { apply lastn_len. }
           rewrite ES. eexists. split; [reflexivity|]. split; [reflexivity|]. split.
           ++ cbn [h_mem]. rewrite lastn_snoc in HM'. rewrite <- surjective_pairing in HM'. exact HM'.
           ++ cbn [h_sigma]. rewrite app_length. cbn [length]. rewrite Nat.add_1_r. apply sigma_new_ok.
        -- rewrite app_nil_r. eexists. split; [reflexivity|]. auto.
      * rewrite app_nil_r. eexists. split; [reflexivity|]. auto.
    + assert (os = []) as -> by (apply lastobs_none; exact EL).
      cbn in E. injection E as <-. cbn. eexists. split; [reflexivity|]. cbn. split; [reflexivity|]. split; [exact HM|reflexivity].
Qed.
End U.
