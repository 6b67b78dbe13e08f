(** Lemmas for C88: sparse matrices, vectors, sequences of calls. *)
From Coq Require Import List Bool Arith ZArith QArith Qabs Qcanon Lia Lqa Permutation.
From Verif Require Import RingKit PackModel SparseModel SparseSpec CsrModel CsrSpec CsrProofs2 ConvModel ConvSpec ConvProofs ConvProofs2 ConvProofs3 KktFileModel KktFileSpec KktFileProofs.
Import ListNotations.
Local Close Scope Qc_scope. Local Close Scope Q_scope. Local Open Scope nat_scope.
Local Notation rows_t := (list (list (nat * Qc))).
Local Notation ient := (nat * entry Qc_field)%type.

(** the conversion, with the number of slots per position *)
Lemma convert_count srt (j0 : slot Qc_field) (A : trip Qc_field) : sorts srt -> t_m A = t_n A -> wf A -> one_extra A ->
  exists c rows, convert Qc_field srt j0 A = Some c /\ stores (conv_csr Qc_field (t_n A) c (map s_val (v_arr c))) rows /\
    (forall i j, i < t_n A -> cmat rows i j = mat (t_ent A) i j) /\
    (forall i j, i < t_n A -> length (filter (fun p => fst p =? j) (nth i rows [])) <= count_at A i j).
Proof.
  intros H1 H2 H3 H4. destruct (convert_spec Qc_field srt H1 A H2 H3 H4 j0) as [c [E [E1 [E2 [E3 E4]]]]].
  exists c, (R Qc_field srt A (fun k => nth k (map (@val Qc_field) (t_ent A)) f0)). split; [exact E|]. split; [|split].
  - apply rep_stores. rewrite E3, R_vals. apply R_rep; auto.
  - intros i j' Hi. rewrite R_cmat by auto. symmetry. transitivity (mat (t_ent (with_values A (map (@val Qc_field) (t_ent A)))) i j'); [rewrite (with_same Qc_field A); auto|]. apply mat_with; [assumption|apply map_length].
  - intros i j' Hi. unfold R. set (f := fun p : ient => _ : nat * Qc_field). rewrite (nth_indep _ [] ((fun i => map f (kps Qc_field srt A i)) 0)) by (rewrite map_length, seq_length; exact Hi).
    rewrite (map_nth (fun i => map f (kps Qc_field srt A i))), seq_nth by exact Hi. cbn [Nat.add].
    assert (G : forall l : list (ient), length (filter (fun p => fst p =? j') (map f l)) = length (filter (fun p => cl Qc_field p =? j') l)).
    { induction l as [|p l IH]; [reflexivity|]. cbn [map filter]. change (fst (f p)) with (cl Qc_field p). destruct (cl Qc_field p =? j'); cbn [length]; rewrite IH; reflexivity. }
    rewrite G.
    assert (P : forall (l1 l2 : list (ient)) g, Permutation l1 l2 -> length (filter g l1) = length (filter g l2)).
    { intros l1 l2 g HP. induction HP as [|x l l' HP IH|x y l|l l' l'' HP1 IH1 HP2 IH2]; cbn; auto; [destruct (g x); cbn; auto|destruct (g x), (g y); cbn; auto|congruence]. }
    rewrite (P _ _ _ (kps_perm Qc_field srt H1 A i)). unfold kpf, count_at.
    assert (KK : forall (q : list (ient)) s, length (filter (fun p => cl Qc_field p =? j') (filter (fun p => rw Qc_field p =? i) (keep Qc_field s q))) <= length (filter (fun e => (row e =? i) && (col e =? j')) (map snd q))).
    { induction q as [|p q IH]; intro s; [cbn; lia|]. cbn [keep map filter]. change (row (snd p)) with (rw Qc_field p). change (col (snd p)) with (cl Qc_field p).
      destruct (dg Qc_field p); [destruct (mem (rw Qc_field p) s)|].
      - specialize (IH s). destruct (rw Qc_field p =? i); destruct (cl Qc_field p =? j'); cbn [andb length]; lia.
      - specialize (IH (rw Qc_field p :: s)). cbn [filter]. destruct (rw Qc_field p =? i); cbn [filter andb]; [destruct (cl Qc_field p =? j'); cbn [length]; lia|exact IH].
      - specialize (IH s). cbn [filter]. destruct (rw Qc_field p =? i); cbn [filter andb]; [destruct (cl Qc_field p =? j'); cbn [length]; lia|exact IH]. }
    etransitivity; [apply KK|]. rewrite combine_seq_snd. lia.
Qed.

Lemma omap_nth {B} (l : list B) n : length l = n -> omap (fun i => nth_error l i) (seq 0 n) = Some l.
Proof.
  intro H. subst n. assert (G : forall s (l1 l2 : list B), l = l1 ++ l2 -> length l1 = s -> omap (fun i => nth_error l i) (seq s (length l2)) = Some l2).
  { intros s l1 l2. revert s l1. induction l2 as [|b l2 IH]; intros s l1 E Hs; [reflexivity|]. cbn [length seq omap].
    rewrite E at 1. rewrite nth_error_app2, Hs, Nat.sub_diag by lia. cbn [nth_error].
    rewrite (IH (S s) (l1 ++ [b])); [reflexivity|rewrite <- app_assoc; exact E|rewrite app_length; cbn; lia]. }
  apply (G 0 [] l); reflexivity.
Qed.
Lemma write_sparse_ok srt j0 nx meq mineq (A : trip Qc_field) : sorts srt -> t_m A = t_n A -> wf A -> one_extra A ->
  exists F rows, write_sparse srt j0 nx meq mineq A = Some F /\ concat F = KktFileProofs.mk (t_m A) nx meq mineq rows /\ length rows = t_m A /\
    (forall i j, i < t_m A -> cmat (rows : list (list (nat * Qc_field))) i j = mat (t_ent A) i j) /\
    (forall i j, i < t_m A -> length (filter (fun p => fst p =? j) (nth i rows [])) <= count_at A i j).
Proof.
  intros H1 H2 H3 H4. destruct (convert_count srt j0 A H1 H2 H3 H4) as (c & rows & E & (S1 & S2 & S3 & S4 & S5 & S6 & S7 & S8) & M & C).
  cbn [conv_csr c_m c_n c_nnz c_ptr c_col c_val] in *. unfold write_sparse. rewrite E. cbv zeta. rewrite H2.
  rewrite omap_nth by (rewrite S3; lia). rewrite S5, Nat.eqb_refl. eexists. exists (rows : rows_t). split; [reflexivity|]. split; [|split; [exact S1|split; [exact M|exact C]]].
  cbn [concat]. rewrite app_nil_r. unfold KktFileProofs.mk. change (@length (nat * Qc) (@concat (nat * Qc) rows)) with (@length (nat * fcar Qc_field) (concat rows)). rewrite <- S2. cbn [app].
  do 5 f_equal.
  assert (LA : length (v_arr c) = v_nnz c).
  { rewrite S2, <- (map_length fst (concat rows)), <- S6. rewrite map_length. reflexivity. }
  rewrite <- LA, firstn_all. f_equal; [|f_equal].
  - rewrite <- (map_map (fun o => o + 1) (fun o => TI (Z.of_nat o))). f_equal.
    apply (nth_ext _ _ 0 0); [rewrite map_length, offsets_len; etransitivity; [exact S3|]; f_equal; symmetry; exact S1|].
    intros i Hi. rewrite map_length, S3 in Hi. change (nth i (map (fun o => o + 1) (v_ptr c)) 0 = nth i (offsets 1 (rows : rows_t)) 0).
    rewrite (nth_indep _ 0 (0 + 1)) by (rewrite map_length, S3; exact Hi). rewrite (map_nth (fun o => o + 1)).
    rewrite offsets_nth by (change (i <= length rows); lia). destruct (nth_error rows i) as [r|] eqn:Er.
    + destruct (S4 i r Er) as [P _]. rewrite (nth_error_nth _ _ _ P). apply Nat.add_comm.
    + apply nth_error_None in Er. replace i with (t_n A) by lia. rewrite (nth_error_nth _ _ _ S5). rewrite S2.
      replace (firstn (t_n A) (rows : rows_t)) with (rows : rows_t) by (symmetry; apply firstn_all2; change (length rows <= t_n A); lia). apply Nat.add_comm.
  - rewrite <- (map_map (@s_col _) (fun o => TI (Z.of_nat (o + 1)))), S6, map_map. reflexivity.
  - rewrite <- (map_map (@s_val Qc_field) (fun x : Qc_field => TD (fix20 x))), S7, map_map. reflexivity.
Qed.
Lemma near_le c d a b : near c a b -> c <= d -> near d a b.
Proof.
  unfold near. intros H L. eapply Qle_trans; [exact H|]. apply Qmult_le_compat_r; [|discriminate]. rewrite <- Zle_Qle. lia.
Qed.
Lemma sparse_raw nx meq mineq m (A : trip Qc_field) (rows : rows_t) rest i j : length rows = m ->
  (forall i j, i < m -> cmat (rows : list (list (nat * Qc_field))) i j = mat (t_ent A) i j) ->
  (forall i j, i < m -> length (filter (fun p => fst p =? j) (nth i rows [])) <= count_at A i j) -> i < m ->
  near (count_at A i j) (raw (KktFileProofs.mk m nx meq mineq rows ++ rest) i j) (mat (t_ent A) i j).
Proof.
  intros L M C Hi. rewrite r_raw by assumption. rewrite <- M by exact Hi. eapply near_le; [apply cmat_near|apply C; exact Hi].
Qed.
Lemma count_zero (A : trip Qc_field) i j : (forall e, In e (t_ent A) -> col e <= row e) -> i < j -> count_at A i j = 0 /\ mat (t_ent A) i j = f0.
Proof.
  intros H Hij. assert (Z : forall e, In e (t_ent A) -> (row e =? i) && (col e =? j) = false).
  { intros e He. specialize (H e He). destruct (Nat.eqb_spec (row e) i); destruct (Nat.eqb_spec (col e) j); cbn; auto; lia. }
  split.
  - unfold count_at. induction (t_ent A) as [|e l IH]; [reflexivity|]. cbn [filter]. rewrite Z by (left; auto). apply IH; intros; [apply H|apply Z]; right; auto.
  - unfold mat. apply lsum_zero. intros e He. rewrite Z by exact He. reflexivity.
Qed.
Lemma sparse_loaded nx meq mineq m (A : trip Qc_field) (rows : rows_t) rest i j : length rows = m ->
  (forall i j, i < m -> cmat (rows : list (list (nat * Qc_field))) i j = mat (t_ent A) i j) ->
  (forall i j, i < m -> length (filter (fun p => fst p =? j) (nth i rows [])) <= count_at A i j) ->
  (forall e, In e (t_ent A) -> col e <= row e) -> i < m -> j < m ->
  near (count_at A (Nat.max i j) (Nat.min i j)) (loaded (KktFileProofs.mk m nx meq mineq rows ++ rest) i j) (symmat (t_ent A) i j).
Proof.
  intros L M C Low Hi Hj. set (l := KktFileProofs.mk _ _ _ _ _ ++ rest). pose proof (r_head m nx meq mineq rows rest) as (Fm & _). fold l in Fm.
  assert (RR : forall a b, a < m -> near (count_at A a b) (raw l a b) (mat (t_ent A) a b)) by (intros; apply sparse_raw; assumption).
  rewrite loaded_lower; rewrite ?Fm; try assumption.
  2:{ intros a b Ha Hb. destruct (count_zero A a b Low Hb) as [Z1 Z2]. specialize (RR a b ltac:(lia)). rewrite Z1, Z2 in RR. apply near_0 in RR. exact RR. }
  assert (E : symmat (t_ent A) i j = mat (t_ent A) (Nat.max i j) (Nat.min i j)).
  { unfold symmat. destruct (Nat.eqb_spec i j) as [->|N]; [rewrite Nat.max_id, Nat.min_id; reflexivity|].
    destruct (Nat.lt_ge_cases i j).
    - rewrite (proj2 (count_zero A i j Low H)), plus0a. f_equal; lia.
    - rewrite (proj2 (count_zero A j i Low ltac:(lia))), plus00. f_equal; lia. }
  rewrite E. apply RR. lia.
Qed.

(** * vectors *)
Lemma pair_tok m l p i r x : (forall q, In q l -> length (fst q) = m /\ length (snd q) = m) -> nth_error l p = Some (r, x) -> i < m ->
  tk (concat (pair_lines l)) (2 * p * m + i) = TD (fix20 (nth i r (Q2Qc 0))) /\ tk (concat (pair_lines l)) (2 * p * m + m + i) = TD (fix20 (nth i x (Q2Qc 0))).
Proof.
  revert p. induction l as [|[a b] l IH]; intros p H E Hi; [destruct p; discriminate|]. destruct (H (a, b)) as [La Lb]; [left; auto|]. cbn [fst snd] in La, Lb.
  unfold pair_lines, tk in *. cbn [map concat app fst snd]. destruct p as [|p].
  - injection E as -> ->. cbn [Nat.mul Nat.add]. split.
    + rewrite app_nth1 by (unfold vec_line; rewrite map_length; lia). unfold vec_line.
      rewrite (nth_indep _ _ (TD (fix20 (Q2Qc 0)))) by (rewrite map_length; lia). apply (map_nth (fun x => TD (fix20 x))).
    + rewrite app_nth2 by (unfold vec_line; rewrite map_length; lia). unfold vec_line at 1. rewrite map_length.
      rewrite app_nth1 by (unfold vec_line; rewrite map_length; lia). unfold vec_line.
      rewrite (nth_indep _ _ (TD (fix20 (Q2Qc 0)))) by (rewrite map_length; lia). rewrite (map_nth (fun x => TD (fix20 x))). do 3 f_equal. lia.
  - cbn [nth_error] in E. destruct (IH p) as [I1 I2]; auto; [intros; apply H; right; auto|].
    split; (rewrite app_nth2; unfold vec_line at 1; rewrite ?map_length; [|lia]); (rewrite app_nth2; unfold vec_line at 1; rewrite ?map_length; [|lia]);
      [rewrite <- I1|rewrite <- I2]; f_equal; unfold vec_line; rewrite ?map_length; lia.
Qed.

(** * sequences of calls *)
Section Seq.
Variable srt : list nat -> list nat.
Variable j0 : slot Qc_field.
Definition group_file (g : group) (f : list (list tok)) : Prop :=
  let '(nx, meq, mineq, A, l) := g in exists F, write_mat srt j0 nx meq mineq A = Some F /\ f = F ++ pair_lines l.
Definition good_state (d0 : dir) (acc : list group) (s : dir * writer) : Prop :=
  w_cnt (snd s) = (Z.of_nat (length acc) - 1)%Z /\
  (forall nx meq mineq A l t, acc = (nx, meq, mineq, A, l) :: t -> w_last (snd s) = w_cnt (snd s) /\ w_m (snd s) = Z.of_nat (sys_m A)) /\
  (forall k g, nth_error (rev acc) k = Some g -> exists f, fst s k = Some f /\ group_file g f) /\
  (forall k, length acc <= k -> fst s k = d0 k).
Definition head_m (acc : list group) : option nat := match acc with [] => None | (_, _, _, A, _) :: _ => Some (sys_m A) end.
Lemma rev_nth_error_cons {B} (a : B) t k : nth_error (rev (a :: t)) k = if k =? length t then Some a else nth_error (rev t) k.
Proof.
  cbn [rev]. destruct (Nat.eqb_spec k (length t)) as [->|N].
  - rewrite nth_error_app2, rev_length, Nat.sub_diag by (rewrite rev_length; lia). reflexivity.
  - destruct (Nat.lt_ge_cases k (length t)); [apply nth_error_app1; rewrite rev_length; lia|].
    rewrite (proj2 (nth_error_None _ _)) by (rewrite app_length, rev_length; cbn; lia). symmetry. apply nth_error_None. rewrite rev_length. lia.
Qed.
Lemma run_groups ops : forall d0 acc s, good_state d0 acc s -> option_on ops -> fits (head_m acc) ops ->
  (forall on nx meq mineq A, In (Build on nx meq mineq A) ops -> write_mat srt j0 nx meq mineq A <> None) ->
  exists s', run srt j0 KAll ops s = Some s' /\ good_state d0 (groups acc ops) s'.
Proof.
  unfold run. induction ops as [|o ops IH]; intros d0 acc [d w] G On Fi W; [exists (d, w); split; [reflexivity|exact G]|].
  assert (On' : option_on ops) by (intros on nx meq mineq A H; apply (On on nx meq mineq A); right; exact H).
  assert (W' : forall on nx meq mineq A, In (Build on nx meq mineq A) ops -> write_mat srt j0 nx meq mineq A <> None) by (intros on nx meq mineq A H; apply (W on nx meq mineq A); right; exact H).
  destruct G as (G1 & G2 & G3 & G4). cbn [fst snd] in *. cbn [ofold]. destruct o as [on nx meq mineq A|r x].
  - rewrite (On on nx meq mineq A) by (left; reflexivity). cbn [step]. rewrite (proj2 (Z.leb_le 0 (w_cnt w + 1))) by lia.
    destruct (write_mat srt j0 nx meq mineq A) as [F|] eqn:EF; [|exfalso; exact (W on nx meq mineq A (or_introl eq_refl) EF)].
    cbn [groups fits] in *. apply (IH d0 ((nx, meq, mineq, A, []) :: acc)); auto.
    replace (Z.to_nat (w_cnt w + 1)) with (length acc) by lia. unfold good_state. cbn [fst snd w_cnt w_last w_m length].
    split; [lia|]. split; [intros nx' meq' mineq' A' l' t' E; injection E; intros; subst A'; auto|]. split.
    + intros k g Hk. rewrite rev_nth_error_cons in Hk. unfold set_file. destruct (Nat.eqb_spec k (length acc)) as [->|N].
      * injection Hk as <-. exists F. split; [reflexivity|]. exists F. split; [exact EF|]. cbn. rewrite app_nil_r. reflexivity.
      * apply G3. exact Hk.
    + intros k Hk. unfold set_file. rewrite (proj2 (Nat.eqb_neq k (length acc))) by lia. apply G4. lia.
  - cbn [groups fits] in *. destruct Fi as [Fs Fi]. cbn [step]. destruct acc as [|[[[[nx meq] mineq] A] l] t].
    + cbn [length] in G1. rewrite (proj2 (Z.leb_gt 0 (w_cnt w))) by lia. cbn [add_solve]. apply IH; auto. repeat split; auto; cbn [fst snd]; try (intros; discriminate); auto.
    + cbn [head_m] in *. destruct Fs as [Lr Lx]. destruct (G2 _ _ _ _ _ _ eq_refl) as [E1 E2]. cbn [length] in G1.
      rewrite (proj2 (Z.leb_le 0 (w_cnt w))) by lia. unfold write_rhs at 1. rewrite E1, Z.eqb_refl, E2, Lr, Z.eqb_refl. cbn [andb].
      unfold write_rhs. rewrite E1, Z.eqb_refl, E2, Lx, Z.eqb_refl. cbn [andb option_map add_solve].
      apply (IH d0 ((nx, meq, mineq, A, l ++ [(r, x)]) :: t)); auto. replace (Z.to_nat (w_cnt w)) with (length t) by lia.
      assert (T : exists f, d (length t) = Some f /\ group_file (nx, meq, mineq, A, l) f).
      { apply G3. rewrite rev_nth_error_cons, Nat.eqb_refl. reflexivity. }
      destruct T as (f & Ef & F & EF & Ff). unfold good_state. cbn [fst snd length].
      split; [lia|]. split; [intros nx' meq' mineq' A' l' t' E; injection E; intros; subst A'; auto|]. split.
      * intros k g Hk. rewrite rev_nth_error_cons in Hk. unfold set_file. destruct (Nat.eqb_spec k (length t)) as [->|N].
        -- injection Hk as <-. rewrite Nat.eqb_refl, Ef. eexists. split; [reflexivity|]. exists F. split; [exact EF|]. rewrite Ff. unfold pair_lines. rewrite map_app, concat_app, <- !app_assoc. reflexivity.
        -- apply G3. rewrite rev_nth_error_cons, (proj2 (Nat.eqb_neq _ _) N). exact Hk.
      * intros k Hk. unfold set_file. rewrite (proj2 (Nat.eqb_neq k (length t))) by lia. apply G4. cbn [length]. lia.
Qed.
End Seq.
