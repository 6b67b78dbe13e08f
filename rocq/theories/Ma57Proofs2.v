(** Lemmas for C86: the triplets handed to MA57. *)
From Coq Require Import List Bool Arith Lia.
From Verif Require Import RingKit SparseModel SparseSpec CsrModel CsrSpec CsrProofs2 Ma57Model Ma57Spec.
Import ListNotations.

Section H.
Variable K : cfield.
Add Field KF : (fth K).
Notation rows := (list (list (nat * K))).

Lemma plus0l (x : K) : f0 +! x = x. Proof. ring. Qed.
Lemma plus0r (x : K) : x +! f0 = x. Proof. ring. Qed.
Lemma filter_len {A} (f : A -> bool) l : length (filter f l) <= length l.
Proof. induction l as [|a t IH]; cbn; [lia|]. destruct (f a); cbn; lia. Qed.
Lemma low_len (rs : rows) r : length (low_rows r rs) = low_count r rs.
Proof. revert r. induction rs as [|l t IH]; intro r; cbn; auto. rewrite app_length, map_length, IH. reflexivity. Qed.
Lemma low_le (rs : rows) r : low_count r rs <= length (concat rs).
Proof. revert r. induction rs as [|l t IH]; intro r; cbn; auto. rewrite app_length. specialize (IH (S r)). unfold low_row. pose proof (filter_len (fun p : nat * K => fst p <=? r) l). lia. Qed.
Lemma low_row_pat (l1 l2 : list (nat * K)) r : map fst l1 = map fst l2 -> map fst (low_row r l1) = map fst (low_row r l2).
Proof.
  revert l2. induction l1 as [|[a v] t IH]; intros [|[b w] u] H; cbn in *; try discriminate; auto.
  injection H as -> H. specialize (IH u H). unfold low_row in *. destruct (b <=? r); cbn; rewrite IH; reflexivity.
Qed.
Lemma low_pat (r1 r2 : rows) r : pattern r1 = pattern r2 ->
  map fst (low_rows r r1) = map fst (low_rows r r2) /\ low_count r r1 = low_count r r2.
Proof.
  revert r2 r. induction r1 as [|l t IH]; intros [|m u] r H; cbn in H; try discriminate; [split; reflexivity|].
  injection H as H1 H2. destruct (IH u (S r) H2) as [A B]. pose proof (low_row_pat l m r H1) as C. split.
  - cbn. rewrite !map_app, A. f_equal. rewrite !map_map. cbn.
    rewrite <- (map_map fst (fun c => (S r, S c))), C, map_map. reflexivity.
  - cbn. rewrite B. f_equal. rewrite <- (map_length fst (low_row r l)), C, map_length. reflexivity.
Qed.
Lemma combine_eta {A B} (l : list (A * B)) : combine (map fst l) (map snd l) = l.
Proof. induction l as [|[a b] t IH]; cbn; congruence. Qed.

Lemma reading_app (a b : list (entry K)) i j : reading (a ++ b) i j = reading a i j +! reading b i j.
Proof. unfold reading. rewrite map_app, lsum_app. reflexivity. Qed.
Lemma reading_sym (l : list (entry K)) i j : reading l i j = reading l j i.
Proof. unfold reading. apply lsum_ext. intros [[a b] v] _. rewrite orb_comm. reflexivity. Qed.
Lemma reading_row r (l : list (nat * K)) i j : j <= i ->
  reading (map (fun p => (S r, S (fst p), snd p)) (low_row r l)) i j =
  if r =? i then lsum (map (fun p => if fst p =? j then snd p else f0) l) else f0.
Proof.
  intro H. induction l as [|[c v] t IH]; [cbn; destruct (r =? i); reflexivity|].
  cbn [low_row filter fst]. change (filter (fun p : nat * K => fst p <=? r) t) with (low_row r t).
  destruct (Nat.leb_spec c r) as [C|C].
  - unfold reading in *. cbn [map lsum fst snd]. rewrite IH. clear IH. cbn [Nat.eqb].
    destruct (Nat.eqb_spec r i); destruct (Nat.eqb_spec c j); destruct (Nat.eqb_spec r j); destruct (Nat.eqb_spec c i); cbn; try ring; try lia.
  - rewrite IH. destruct (Nat.eqb_spec r i); [|reflexivity]. cbn [map lsum fst snd]. destruct (Nat.eqb_spec c j); [lia|ring].
Qed.
Lemma reading_low (rs : rows) r i j : j <= i ->
  reading (low_rows r rs) i j = if (r <=? i) then cmat rs (i - r) j else f0.
Proof.
  intro H. revert r. induction rs as [|l t IH]; intro r; cbn [low_rows].
  - unfold cmat. destruct (i - r); cbn; destruct (r <=? i); reflexivity.
  - rewrite reading_app, reading_row, IH by exact H.
    destruct (Nat.eqb_spec r i) as [->|N].
    + replace (S i <=? i) with false by (symmetry; apply Nat.leb_gt; lia). rewrite Nat.leb_refl, Nat.sub_diag. unfold cmat. cbn [nth]. ring.
    + destruct (Nat.leb_spec r i); destruct (Nat.leb_spec (S r) i); try lia.
      * replace (i - r) with (S (i - S r)) by lia. unfold cmat. cbn [nth]. ring.
      * ring.
Qed.
Lemma reading_lower_sym (rs : rows) i j : reading (low_rows 0 rs) i j = lower_sym rs i j.
Proof.
  unfold lower_sym. destruct (Nat.leb_spec j i) as [L|L].
  - rewrite reading_low by exact L. cbn [Nat.leb]. rewrite Nat.sub_0_r. reflexivity.
  - rewrite reading_sym, reading_low by lia. cbn [Nat.leb]. rewrite Nat.sub_0_r. reflexivity.
Qed.
Lemma low_triangle (rs : rows) n r : r + length rs <= n -> lower_one_based n (low_rows r rs).
Proof.
  revert r. induction rs as [|l t IH]; intros r H; cbn [low_rows]; [constructor|]. apply Forall_app. split.
  - apply Forall_forall. intros e He. apply in_map_iff in He. destruct He as [[c v] [<- Hc]]. apply filter_In in Hc. destruct Hc as [_ Hc]. cbn [fst] in Hc. apply Nat.leb_le in Hc. cbn in *. lia.
  - apply IH. cbn in H. lia.
Qed.

(** what each call is given *)
Definition ev (p : bool * rows) : event K := if fst p then Fact (low_rows 0 (snd p)) else Sol (low_rows 0 (snd p)).
Lemma like_facts n (rs0 : rows) (A : csr K) (rs : rows) : like n rs0 A rs -> crows A = Some rs /\ c_m A = n /\ c_n A = n /\ low_count 0 rs0 <= c_nnz A /\ length rs = n.
Proof.
  intros [S [M [N P]]]. split; [apply crows_ok; apply rep_stores; exact S|]. split; [exact M|]. split; [exact N|].
  destruct S as (L & Z & _). split; [rewrite Z; destruct (low_pat rs rs0 0 P) as [_ C]; rewrite <- C; apply low_le|congruence].
Qed.
Lemma runs_csr n (rs0 : rows) : 0 < n -> forall ops opr, Forall2 (same_op (like n rs0)) ops opr ->
  forall A cur idx vals last, like n rs0 A cur ->
  match last with None => idx = None | Some m => idx = Some (map fst (low_rows 0 rs0)) /\ vals = map snd (low_rows 0 m) /\ pattern m = pattern rs0 end ->
  runs fact_csr solve_csr (Wrap n (low_count 0 rs0) idx vals) A ops = option_map (map ev) (about cur last opr).
Proof.
  intro N. induction 1 as [|o p ops opr H HF IH]; intros A cur idx vals last LA I; [reflexivity|].
  destruct (like_facts _ _ _ _ LA) as (C & CM & CN & CZ & CL).
  assert (Pc : pattern cur = pattern rs0) by apply LA.
  assert (CH : forall i (v : list K), checks (Wrap n (low_count 0 rs0) i v) (c_m A) (c_n A) (c_nnz A) = true).
  { intros i v. unfold checks. cbn [w_n w_nnz]. rewrite CM, CN, Nat.eqb_refl. cbn [andb].
    apply andb_true_iff. split; [apply Nat.leb_le; exact CZ|apply Nat.ltb_lt; exact N]. }
  destruct o as [B| |]; destruct p as [B'| |]; cbn in H; try contradiction.
  - cbn [runs about]. apply IH; auto.
  - cbn [runs about]. unfold fact_csr at 1. rewrite CH, C. cbv zeta. cbn [w_nnz w_n w_idx].
    destruct (low_pat cur rs0 0 Pc) as [P1 P2]. rewrite low_len, P2, Nat.eqb_refl.
    assert (EI : (match idx with Some i => i | None => map fst (low_rows 0 cur) end) = map fst (low_rows 0 cur)).
    { destruct last; [destruct I as [-> _]; symmetry; exact P1|rewrite I; reflexivity]. }
    rewrite EI, P1.
    rewrite (IH A cur (Some (map fst (low_rows 0 rs0))) (map snd (low_rows 0 cur)) (Some cur) LA) by auto.
    unfold handed. rewrite <- P1, combine_eta.
    destruct (about cur (Some cur) opr); reflexivity.
  - cbn [runs about]. unfold solve_csr at 1. rewrite CH. cbn [w_idx w_val].
    destruct last as [m|]; [|rewrite I; reflexivity]. destruct I as (-> & -> & Pm).
    rewrite (IH A cur _ _ (Some m) LA) by auto. unfold handed.
    destruct (low_pat m rs0 0 Pm) as [P1 _]. rewrite <- P1, combine_eta. destruct (about cur (Some m) opr); reflexivity.
Qed.

(** triplet class *)
Definition one_based (l : list (entry K)) : list (entry K) := map (fun e => (S (row e), S (col e), val e)) l.
Lemma reading_trip (l : list (entry K)) i j : reading (one_based l) i j = symmat l i j.
Proof.
  unfold symmat, mat. induction l as [|[[a b] v] t IH]; [cbn; destruct (i =? j); [reflexivity|ring]|].
  unfold reading, one_based in *. cbn [map lsum]. unfold row, col, val in *. cbn [fst snd map lsum] in *. rewrite IH. clear IH. cbn [Nat.eqb].
  destruct (Nat.eqb_spec i j) as [<-|N]; [destruct ((a =? i) && (b =? i)); cbn; ring|].
  destruct (Nat.eqb_spec a i); destruct (Nat.eqb_spec b j); destruct (Nat.eqb_spec a j); destruct (Nat.eqb_spec b i); cbn; try ring; subst; try congruence; ring.
Qed.
Definition evt (p : bool * list (entry K)) : event K := if fst p then Fact (one_based (snd p)) else Sol (one_based (snd p)).
Lemma runs_trip n l0 : 0 < n -> forall ops opr, Forall2 (same_op (liket n l0)) ops opr ->
  forall A cur idx vals done, liket n l0 A cur ->
  idx = (if done : bool then Some (map (fun e => (S (row e), S (col e))) l0) else None) ->
  runs fact_trip solve_trip (Wrap n (length l0) idx vals) A ops = option_map (map evt) (about_now cur done opr).
Proof.
  intro N. induction 1 as [|o p ops opr H HF IH]; intros A cur idx vals done LA I; [reflexivity|].
  destruct LA as (CM & CN & CE & P).
  assert (LA : liket n l0 A cur) by (repeat split; auto).
  assert (Lc : length cur = length l0) by (unfold same_positions in P; apply (f_equal (@length _)) in P; rewrite !map_length in P; exact P).
  assert (PI : map (fun e => (S (row e), S (col e))) cur = map (fun e => (S (row e), S (col e))) l0).
  { unfold same_positions in P. apply (f_equal (map (fun q : nat * nat => (S (fst q), S (snd q))))) in P. rewrite !map_map in P. exact P. }
  assert (CO : forall l : list (entry K), combine (map (fun e => (S (row e), S (col e))) l) (map (@val K) l) = one_based l).
  { clear. induction l as [|e t IH]; cbn; [reflexivity|]. rewrite IH. reflexivity. }
  assert (CH : forall i (v : list K), checks (Wrap n (length l0) i v) (t_m A) (t_n A) (length (t_ent A)) = true).
  { intros i v. unfold checks. cbn [w_n w_nnz]. rewrite CM, CN, CE, Lc, Nat.eqb_refl, Nat.leb_refl. cbn [andb]. apply Nat.ltb_lt; exact N. }
  destruct o as [B| |]; destruct p as [B'| |]; cbn in H; try contradiction.
  - cbn [runs about_now]. apply IH; auto.
  - cbn [runs about_now]. unfold fact_trip at 1. rewrite CH. cbn [w_nnz w_n w_idx]. rewrite I. destruct done.
    + rewrite (IH A cur (Some (map (fun e => (S (row e), S (col e))) l0)) vals true LA) by auto. unfold handed.
      rewrite CE, <- PI, firstn_all2, CO by (rewrite map_length; lia). destruct (about_now cur true opr); reflexivity.
    + rewrite CE, Lc, Nat.eqb_refl. rewrite (IH A cur _ [] true LA) by (rewrite PI; reflexivity). unfold handed. rewrite CO. destruct (about_now cur true opr); reflexivity.
  - cbn [runs about_now]. unfold solve_trip at 1. rewrite CH. cbn [w_nnz w_idx]. rewrite I. destruct done; [|reflexivity].
    rewrite (IH A cur _ vals true LA) by auto. unfold handed.
    rewrite CE, <- PI, firstn_all2, CO by (rewrite map_length; lia). destruct (about_now cur true opr); reflexivity.
Qed.
End H.
