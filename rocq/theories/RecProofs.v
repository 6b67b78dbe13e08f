From Coq Require Import List Bool Arith Reals Lia Lra.
From Verif Require Import RingKit InertiaModel RecModel RecSpec.
Import ListNotations.
Open Scope R_scope.

(** ** sums *)
Lemma rsum_ext k f g : (forall i, (i < k)%nat -> f i = g i) -> rsum k f = rsum k g.
Proof. induction k as [|k IH]; intro H; simpl; auto. rewrite IH, H by (auto; intros; apply H; lia). reflexivity. Qed.
Lemma rsum_add k f g : rsum k (fun i => f i + g i) = rsum k f + rsum k g.
Proof. induction k as [|k IH]; simpl; [ring|]. rewrite IH. ring. Qed.
Lemma rsum_scale k c f : rsum k (fun i => c * f i) = c * rsum k f.
Proof. induction k as [|k IH]; simpl; [ring|]. rewrite IH. ring. Qed.
Lemma rsum_zero k f : (forall i, (i < k)%nat -> f i = 0) -> rsum k f = 0.
Proof. induction k as [|k IH]; intro H; simpl; auto. rewrite IH, H by (auto; intros; apply H; lia). ring. Qed.
Lemma rsum_shift k f : rsum (S k) f = f O + rsum k (fun i => f (S i)).
Proof. induction k as [|k IH]; simpl; [ring|]. simpl in IH. rewrite IH. ring. Qed.
Lemma rsum_nonneg k f : (forall i, (i < k)%nat -> 0 <= f i) -> 0 <= rsum k f.
Proof.
  induction k as [|k IH]; intro H; simpl; [lra|].
  assert (0 <= f k) by (apply H; lia). assert (0 <= rsum k f) by (apply IH; intros; apply H; lia). lra.
Qed.
Lemma rsum_pick k i f : (i < k)%nat -> rsum k (fun j => if Nat.eqb i j then f j else 0) = f i.
Proof.
  induction k as [|k IH]; intro H; [lia|]. simpl. destruct (Nat.eqb_spec i k) as [->|Hn].
  - rewrite rsum_zero; [ring|]. intros j Hj. destruct (Nat.eqb_spec k j); [lia|reflexivity].
  - rewrite IH by lia. ring.
Qed.
Lemma rsum_swap k m f : rsum k (fun i => rsum m (f i)) = rsum m (fun j => rsum k (fun i => f i j)).
Proof.
  induction k as [|k IH]; simpl.
  - symmetry. apply rsum_zero. auto.
  - rewrite IH, <- rsum_add. reflexivity.
Qed.
Lemma rsum_zero_inv k f : (forall i, (i < k)%nat -> 0 <= f i) -> rsum k f = 0 -> forall i, (i < k)%nat -> f i = 0.
Proof.
  induction k as [|k IH]; intros Hp H i Hi; [lia|]. simpl in H.
  assert (0 <= rsum k f) by (apply rsum_nonneg; intros; apply Hp; lia). assert (0 <= f k) by (apply Hp; lia).
  destruct (Nat.eq_dec i k) as [->|]; [lra|]. apply IH; try lia; [intros; apply Hp; lia|lra].
Qed.

Lemma ent_over l i : (length l <= i)%nat -> ent l i = 0.
Proof. apply nth_overflow. Qed.
Lemma ent_ext a b : length a = length b -> (forall i, (i < length a)%nat -> ent a i = ent b i) -> a = b.
Proof. intros. eapply nth_ext; eauto. Qed.

(** ** kernels *)
Lemma pick_length idx x : length (pick idx x) = length idx.
Proof. apply map_length. Qed.
Lemma pick_ent idx x j : (j < length idx)%nat -> ent (pick idx x) j = ent x (pos idx j).
Proof.
  intro H. unfold pick, ent, pos. rewrite (nth_indep _ 0 (nth 0%nat x 0)) by (rewrite map_length; auto).
  exact (map_nth (fun i => nth i x 0) idx 0%nat j).
Qed.
Lemma gather_ok x idx : in_range idx (length x) -> gather x idx = Some (pick idx x).
Proof.
  induction idx as [|i idx IH]; intro H; simpl; auto. rewrite IH by (intros k Hk; apply H; right; auto).
  assert (Hi : (i < length x)%nat) by (apply H; left; auto).
  rewrite (nth_error_nth' x 0 Hi). reflexivity.
Qed.
Lemma gather_inv x idx l : gather x idx = Some l -> in_range idx (length x) /\ l = pick idx x.
Proof.
  revert l. induction idx as [|i idx IH]; intros l; simpl.
  - intros [= <-]. split; auto. intros k [].
  - destruct (nth_error x i) eqn:E; [|discriminate]. destruct (gather x idx) eqn:G; [|discriminate].
    intros [= <-]. destruct (IH _ eq_refl) as [Hr ->].
    assert (i < length x)%nat by (apply nth_error_Some; congruence). split.
    + intros k [<-|Hk]; auto.
    + simpl. f_equal. symmetry. apply nth_error_nth with (d := 0) in E. exact E.
Qed.
Lemma axpy_ok a x y : length x = length y ->
  exists l, axpy a x y = Some l /\ length l = length y /\ forall i, ent l i = ent y i + a * ent x i.
Proof.
  revert y. induction x as [|u x IH]; intros [|v y] H; simpl in *; try discriminate.
  - exists []. split; [reflexivity|]. split; [reflexivity|]. intro i. unfold ent. destruct i; simpl; ring.
  - destruct (IH y) as (l & E & Hl & He); [lia|]. rewrite E. exists (v + a * u :: l). split; [reflexivity|]. split.
    + simpl. congruence.
    + intros [|i]; [reflexivity|]. exact (He i).
Qed.
Lemma axpy_len a x y l : axpy a x y = Some l -> length x = length y.
Proof.
  revert y l. induction x as [|u x IH]; intros [|v y] l; simpl; try discriminate; auto.
  destruct (axpy a x y) eqn:E; [|discriminate]. intros _. f_equal. eapply IH; eauto.
Qed.
Lemma axpy_inv a x y l : axpy a x y = Some l ->
  length x = length y /\ length l = length y /\ forall i, ent l i = ent y i + a * ent x i.
Proof.
  intro H. pose proof (axpy_len _ _ _ _ H) as Hl. destruct (axpy_ok a x y Hl) as (l' & E & H1 & H2).
  rewrite H in E. injection E as <-. auto.
Qed.
Lemma cmult_ok x y : length x = length y ->
  exists l, cmult x y = Some l /\ length l = length y /\ forall i, ent l i = ent y i * ent x i.
Proof.
  revert y. induction x as [|u x IH]; intros [|v y] H; simpl in *; try discriminate.
  - exists []. split; [reflexivity|]. split; [reflexivity|]. intro i. unfold ent. destruct i; simpl; ring.
  - destruct (IH y) as (l & E & Hl & He); [lia|]. rewrite E. exists (v * u :: l). split; [reflexivity|]. split.
    + simpl. congruence.
    + intros [|i]; [reflexivity|]. exact (He i).
Qed.
Lemma dotp_ok x y : length x = length y -> dotp x y = Some (inner x y).
Proof.
  revert y. induction x as [|u x IH]; intros [|v y] H; simpl in *; try discriminate; auto.
  rewrite IH by lia. f_equal. unfold inner. cbn [length]. rewrite rsum_shift. reflexivity.
Qed.
Lemma dotp_len x y s : dotp x y = Some s -> length x = length y.
Proof.
  revert y s. induction x as [|u x IH]; intros [|v y] s; simpl; try discriminate; auto.
  destruct (dotp x y) eqn:E; [|discriminate]. intros _. f_equal. eapply IH; eauto.
Qed.
Lemma bump_ok i u y : (i < length y)%nat ->
  exists l, bump i u y = Some l /\ length l = length y /\
    forall k, ent l k = ent y k + (if Nat.eqb k i then u else 0).
Proof.
  revert i. induction y as [|v y IH]; intros i H; simpl in H; [lia|]. destruct i as [|i]; simpl.
  - exists (v + u :: y). split; [reflexivity|]. split; [reflexivity|]. intros [|k]; unfold ent; simpl; [reflexivity|ring].
  - destruct (IH i) as (l & E & Hl & He); [lia|]. rewrite E. exists (v :: l). split; [reflexivity|]. split; [simpl; congruence|].
    intros [|k]; [unfold ent; simpl; ring|]. exact (He k).
Qed.
Lemma axpy_at_ok a x idx y : length x = length idx -> in_range idx (length y) ->
  exists l, axpy_at a x idx y = Some l /\ length l = length y /\
    forall k, ent l k = ent y k + a * rsum (length idx) (fun j => if Nat.eqb k (pos idx j) then ent x j else 0).
Proof.
  revert idx y. induction x as [|u x IH]; intros [|i idx] y Hx Hr; simpl in Hx; try discriminate.
  - exists y. split; [reflexivity|]. split; [reflexivity|]. intro k. simpl. ring.
  - destruct (bump_ok i (a * u) y) as (y1 & E1 & L1 & V1); [apply Hr; left; auto|].
    destruct (IH idx y1) as (l & E2 & L2 & V2); [lia|intros k Hk; rewrite L1; apply Hr; right; auto|].
    exists l. split; [simpl; rewrite E1; exact E2|]. split; [congruence|].
    intro k. rewrite V2, V1. cbn [length]. rewrite rsum_shift. cbn [pos nth ent]. unfold pos, ent. cbn [nth].
    destruct (Nat.eqb k i); ring.
Qed.
Lemma norm2_sq l : norm2 l * norm2 l = sq l.
Proof.
  unfold norm2. rewrite dotp_ok by auto. apply sqrt_def. apply rsum_nonneg. intros. apply Rle_0_sqr.
Qed.
Lemma norm2_pos l : 0 <= norm2 l.
Proof. unfold norm2. rewrite dotp_ok by auto. apply sqrt_pos. Qed.
Lemma norm2_sqrt l : norm2 l = sqrt (sq l).
Proof. unfold norm2. rewrite dotp_ok by auto. reflexivity. Qed.

(** ** the evaluator *)
Definition wf (e : evr) : Prop :=
  length (e_g e) = length (e_idx e) /\ length (e_h e) = length (e_idx e) /\ length (e_x0 e) = length (e_idx e).
Lemma eval_f_ok e x obj : wf e -> in_range (e_idx e) (length x) ->
  eval_f e x obj = Some (obj + quad (e_idx e) (e_val e) (e_g e) (e_h e) (e_x0 e) x).
Proof.
  intros (Hg & Hh & H0) Hr. unfold eval_f. rewrite gather_ok by auto.
  destruct (axpy_ok (-1) (e_x0 e) (pick (e_idx e) x)) as (v & E & Lv & Vv); [rewrite pick_length; auto|].
  rewrite E. rewrite pick_length in Lv. rewrite dotp_ok by congruence.
  destruct (cmult_ok v v eq_refl) as (w & Ew & Lw & Vw). rewrite Ew. rewrite dotp_ok by congruence.
  f_equal. unfold quad, inner. rewrite Lw, Lv.
  rewrite (rsum_ext _ (fun i => ent v i * ent (e_g e) i)
            (fun j => ent (e_g e) j * (ent x (pos (e_idx e) j) - ent (e_x0 e) j))).
  2: { intros j Hj. rewrite Vv, pick_ent by auto. ring. }
  rewrite (rsum_ext _ (fun i => ent w i * ent (e_h e) i)
            (fun j => ent (e_h e) j * ((ent x (pos (e_idx e) j) - ent (e_x0 e) j) * (ent x (pos (e_idx e) j) - ent (e_x0 e) j)))).
  2: { intros j Hj. rewrite Vw, Vv, pick_ent by auto. ring. }
  ring.
Qed.
Definition slope (e : evr) (x : list R) (j : nat) : R :=
  ent (e_g e) j + ent (e_h e) j * (ent x (pos (e_idx e) j) - ent (e_x0 e) j).
Lemma grad_c_ok e x : wf e -> in_range (e_idx e) (length x) ->
  exists v, grad_c e x = Some v /\ length v = length (e_idx e) /\
    forall j, (j < length (e_idx e))%nat -> ent v j = slope e x j.
Proof.
  intros (Hg & Hh & H0) Hr. unfold grad_c. rewrite gather_ok by auto.
  destruct (axpy_ok (-1) (e_x0 e) (pick (e_idx e) x)) as (v & E & Lv & Vv); [rewrite pick_length; auto|].
  rewrite E. rewrite pick_length in Lv.
  destruct (cmult_ok (e_h e) v) as (w & Ew & Lw & Vw); [congruence|]. rewrite Ew.
  destruct (axpy_ok 1 (e_g e) w) as (z & Ez & Lz & Vz); [congruence|]. rewrite Ez.
  exists z. split; [reflexivity|]. split; [congruence|]. intros j Hj. unfold slope. rewrite Vz, Vw, Vv, pick_ent by auto. ring.
Qed.
Definition ready (e : evr) (n : nat) : Prop := match e_work e with Some w => w = n | None => True end.
Lemma eval_grad_ok e n x grad : wf e -> ready e n -> length x = n -> length grad = n -> in_range (e_idx e) n ->
  exists out, eval_grad e n x grad =
      Some (out, Evr (e_idx e) (e_val e) (e_g e) (e_h e) (e_x0 e) (Some n)) /\ length out = n /\
    forall k, ent out k = ent grad k +
      rsum (length (e_idx e)) (fun j => if Nat.eqb k (pos (e_idx e) j) then slope e x j else 0).
Proof.
  intros Hw Hrd Hx Hg Hr. unfold eval_grad.
  destruct (grad_c_ok e x Hw) as (v & E & Lv & Vv); [rewrite Hx; auto|]. rewrite E.
  replace (match e_work e with Some w => w | None => n end) with n
    by (unfold ready in Hrd; destruct (e_work e); auto).
  rewrite Hg, Nat.leb_refl. rewrite firstn_all2, skipn_all2 by lia.
  destruct (axpy_at_ok 1 v (e_idx e) grad Lv) as (l & El & Ll & Vl); [rewrite Hg; auto|].
  cbn [e_idx]. rewrite El. exists l. rewrite app_nil_r. split; [reflexivity|]. split; [lia|].
  intro k. rewrite Vl, Rmult_1_l. f_equal. apply rsum_ext. intros j Hj.
  destruct (Nat.eqb k (pos (e_idx e) j)); auto.
Qed.
(** pairing an array into which the gradient was added with a direction *)
Lemma scatter_inner idx n (c : nat -> R) (y l d : list R) : length y = n -> length l = n -> in_range idx n ->
  (forall k, ent l k = ent y k + rsum (length idx) (fun j => if Nat.eqb k (pos idx j) then c j else 0)) ->
  inner l d = inner y d + rsum (length idx) (fun j => c j * ent d (pos idx j)).
Proof.
  intros Hy Hl Hr H. unfold inner. rewrite Hl, Hy.
  rewrite (rsum_ext n (fun i => ent l i * ent d i)
     (fun i => ent y i * ent d i + rsum (length idx) (fun j => if Nat.eqb i (pos idx j) then c j * ent d i else 0))).
  2: { intros i Hi. rewrite H, Rmult_plus_distr_r. f_equal. rewrite Rmult_comm, <- rsum_scale. apply rsum_ext.
       intros j Hj. destruct (Nat.eqb i (pos idx j)); ring. }
  rewrite rsum_add. f_equal. rewrite rsum_swap. apply rsum_ext. intros j Hj.
  rewrite (rsum_ext n _ (fun i => if Nat.eqb (pos idx j) i then c j * ent d i else 0)).
  2: { intros i Hi. rewrite Nat.eqb_sym. reflexivity. }
  rewrite (rsum_pick n (pos idx j) (fun i => c j * ent d i)); [reflexivity|].
  apply Hr. unfold pos. apply nth_In. auto.
Qed.
Lemma along_length t d x : length d = length x -> length (along t d x) = length x.
Proof. revert x. induction d as [|u d IH]; intros [|v x] H; simpl in *; try discriminate; auto. Qed.
Lemma along_ent t d x i : length d = length x -> ent (along t d x) i = ent x i + t * ent d i.
Proof.
  revert x i. induction d as [|u d IH]; intros [|v x] i H; simpl in *; try discriminate.
  - unfold ent. destruct i; simpl; ring.
  - destruct i as [|i]; [reflexivity|]. apply IH. lia.
Qed.
Lemma quad_along e t d x : length d = length x ->
  quad (e_idx e) (e_val e) (e_g e) (e_h e) (e_x0 e) (along t d x)
  = quad (e_idx e) (e_val e) (e_g e) (e_h e) (e_x0 e) x
    + t * rsum (length (e_idx e)) (fun j => slope e x j * ent d (pos (e_idx e) j))
    + t * t / 2 * rsum (length (e_idx e)) (fun j => ent (e_h e) j * (ent d (pos (e_idx e) j) * ent d (pos (e_idx e) j))).
Proof.
  intro H. unfold quad.
  rewrite (rsum_ext _ (fun j => ent (e_g e) j * (ent (along t d x) (pos (e_idx e) j) - ent (e_x0 e) j))
     (fun j => ent (e_g e) j * (ent x (pos (e_idx e) j) - ent (e_x0 e) j) + t * (ent (e_g e) j * ent d (pos (e_idx e) j))))
    by (intros; rewrite along_ent by auto; ring).
  rewrite (rsum_ext _ (fun j => ent (e_h e) j * ((ent (along t d x) (pos (e_idx e) j) - ent (e_x0 e) j) * (ent (along t d x) (pos (e_idx e) j) - ent (e_x0 e) j)))
     (fun j => (ent (e_h e) j * ((ent x (pos (e_idx e) j) - ent (e_x0 e) j) * (ent x (pos (e_idx e) j) - ent (e_x0 e) j))
       + 2 * t * (ent (e_h e) j * (ent x (pos (e_idx e) j) - ent (e_x0 e) j) * ent d (pos (e_idx e) j)))
       + t * t * (ent (e_h e) j * (ent d (pos (e_idx e) j) * ent d (pos (e_idx e) j)))))
    by (intros; rewrite along_ent by auto; ring).
  rewrite (rsum_ext _ (fun j => slope e x j * ent d (pos (e_idx e) j))
     (fun j => ent (e_g e) j * ent d (pos (e_idx e) j) + ent (e_h e) j * (ent x (pos (e_idx e) j) - ent (e_x0 e) j) * ent d (pos (e_idx e) j)))
    by (intros; unfold slope; ring).
  rewrite !rsum_add, !rsum_scale. field.
Qed.

(** ** the loop *)
Section Loop.
Variables (n nS : nat) (idx : list nat).
Variables (basef : list R -> R) (rf : nat -> list R -> bool * R) (rg : nat -> list R -> bool * list R).
Variable sol : option evr -> list R.
Variable rule : rule_t.

(** the sum of the gradients of the terms below [k], entry [j] *)
Definition gterm (x0 : list R) (j i : nat) : R := ent (snd (rg i x0)) j.
Lemma terms_inv x0 r g : terms nS idx rf rg x0 = Some (r, g) ->
  r = rsum nS (fun i => snd (rf i x0)) /\ length g = length idx /\
  forall j, ent g j = rsum nS (gterm x0 j).
Proof.
  unfold terms.
  assert (Hgen : forall k m r0 g0 r g,
     ofold (fun i s => match axpy 1 (snd (rg i x0)) (snd s) with
                    | Some g => Some (fst s + snd (rf i x0), g) | None => None end) (seq m k) (r0, g0) = Some (r, g) ->
     length g = length g0 /\ r = r0 + rsum k (fun i => snd (rf (m + i)%nat x0)) /\
     forall j, ent g j = ent g0 j + rsum k (fun i => gterm x0 j (m + i)%nat)).
  { induction k as [|k IH]; intros m r0 g0 r1 g1; cbn [seq ofold].
    - intros [= <- <-]. cbn [rsum]. split; [reflexivity|]. split; [ring|]. intro; ring.
    - cbn [fst snd]. destruct (axpy 1 (snd (rg m x0)) g0) as [g2|] eqn:E; [|discriminate]. intro H.
      apply IH in H. destruct H as (H1 & H2 & H3). apply axpy_inv in E. destruct E as (_ & E1 & E2).
      split; [congruence|]. split.
      + rewrite H2, rsum_shift, Nat.add_0_r.
        rewrite (rsum_ext k (fun i => snd (rf (S m + i)%nat x0)) (fun i => snd (rf (m + S i)%nat x0)))
          by (intros; f_equal; f_equal; lia). ring.
      + intro j. rewrite H3, E2, rsum_shift, Nat.add_0_r.
        rewrite (rsum_ext k (fun i => gterm x0 j (S m + i)%nat) (fun i => gterm x0 j (m + S i)%nat))
          by (intros; f_equal; lia). unfold gterm at 2. ring. }
  intro H. apply Hgen in H. destruct H as (H1 & H2 & H3). rewrite repeat_length in H1. cbn [Nat.add] in *.
  split; [rewrite H2; ring|]. split; [auto|]. intro j. rewrite H3.
  assert (ent (repeat 0 (length idx)) j = 0) as ->; [|apply Rplus_0_l].
  unfold ent. destruct (Nat.lt_ge_cases j (length idx)) as [Hj|Hj].
  - apply nth_repeat.
  - apply nth_overflow. rewrite repeat_length. auto.
Qed.

Lemma coupled_inv x x0 : (length idx < n)%nat \/ idx = seq 0 n -> coupled n idx x = Some x0 ->
  in_range idx (length x) /\ x0 = pick idx x.
Proof.
  intros Hn. unfold coupled. destruct (Nat.ltb_spec (length idx) n) as [Hl|Hl].
  - apply gather_inv.
  - destruct Hn as [Hn| ->]; [lia|]. rewrite seq_length, Nat.eqb_refl.
    destruct (Nat.eqb_spec (length x) n) as [Hx|]; [|discriminate]. intros [= <-]. split.
    + intros i Hi. apply in_seq in Hi. lia.
    + apply ent_ext; [rewrite pick_length, seq_length; auto|]. intros i Hi.
      rewrite pick_ent by (rewrite seq_length; lia). unfold pos. rewrite seq_nth by lia. reflexivity.
Qed.

(** between two iterations: the approximation remembers what the evaluator was given, and the master's
    objective is the base case plus that evaluator *)
Definition inv (s : pst) : Prop :=
  wf (p_e s) /\ e_idx (p_e s) = idx /\ in_range idx (length (p_x s)) /\
  h_fk (p_h s) = e_val (p_e s) /\ h_x (p_h s) = e_x0 (p_e s) /\ h_g (p_h s) = e_g (p_e s) /\
  e_h (p_e s) = repeat (h_alpha (p_h s)) (length idx) /\
  p_obj s = basef (p_x s) + quad idx (e_val (p_e s)) (e_g (p_e s)) (e_h (p_e s)) (e_x0 (p_e s)) (p_x s).

Lemma ent_repeat a k i : (i < k)%nat -> ent (repeat a k) i = a.
Proof.
  revert i. induction k as [|k IH]; intros [|i] H; simpl; try lia; auto. apply IH. lia.
Qed.
Lemma update_inv x g f h h' : update_hess_coeff x g f h = Some h' ->
  length (h_x h) = length x /\ length (h_g h) = length g /\ length (h_g h) = length (h_s h') /\
  h_fk h' = f /\ h_fkm1 h' = h_fk h /\ h_lin h' = inner (h_g h) (h_s h') /\
  length (h_s h') = length x /\ (forall i, ent (h_s h') i = ent x i - ent (h_x h) i) /\
  length (h_y h') = length g /\ (forall i, ent (h_y h') i = ent g i - ent (h_g h) i) /\
  h_x h' = x /\ h_g h' = g /\ h_alpha h' = h_alpha h /\ h_ratio h' = h_ratio h.
Proof.
  unfold update_hess_coeff. destruct (axpy (-1) (h_x h) x) as [s|] eqn:Es; [|discriminate].
  destruct (axpy (-1) (h_g h) g) as [y|] eqn:Ey; [|discriminate].
  destruct (dotp (h_g h) s) as [l|] eqn:Ed; [|discriminate]. intros [= <-]. cbn [h_fk h_fkm1 h_lin h_s h_y h_x h_g h_alpha h_ratio].
  apply axpy_inv in Es. destruct Es as (S1 & S2 & S3). apply axpy_inv in Ey. destruct Ey as (Y1 & Y2 & Y3).
  pose proof (dotp_len _ _ _ Ed) as Hl. rewrite (dotp_ok _ _ Hl) in Ed. injection Ed as <-.
  repeat (match goal with |- _ /\ _ => split end); auto; intro i; [rewrite S3|rewrite Y3]; ring.
Qed.
(** the value subtracted from the master's objective is the evaluator's contribution *)
Lemma predicted_quad s h' x0 g f : inv s -> x0 = pick idx (p_x s) -> update_hess_coeff x0 g f (p_h s) = Some h' ->
  predicted h' = quad idx (e_val (p_e s)) (e_g (p_e s)) (e_h (p_e s)) (e_x0 (p_e s)) (p_x s).
Proof.
  intros (Hw & Hi & Hr & Hf & Hx & Hg & Hh & _) -> HU. apply update_inv in HU.
  destruct HU as (U1 & U2 & U3 & U4 & U5 & U6 & U7 & U8 & _ & _ & _ & _ & U9 & _).
  unfold predicted. rewrite Rmult_assoc, norm2_sq. unfold quad. rewrite U5, Hf, U6, U9, Hg.
  rewrite pick_length in U7. destruct Hw as (W1 & _ & _). rewrite Hi in W1.
  unfold inner. rewrite W1.
  rewrite (rsum_ext (length idx) (fun i => ent (e_g (p_e s)) i * ent (h_s h') i)
     (fun j => ent (e_g (p_e s)) j * (ent (p_x s) (pos idx j) - ent (e_x0 (p_e s)) j))).
  2: { intros j Hj. rewrite U8, pick_ent, Hx by auto. reflexivity. }
  unfold sq. rewrite U7. f_equal. rewrite Rmult_assoc. f_equal. rewrite <- rsum_scale. apply rsum_ext.
  intros j Hj. rewrite U8, pick_ent, Hx, Hh, ent_repeat by auto. ring.
Qed.

(** what an iteration hands out *)
Definition good_out (x : list R) (o : out) : Prop :=
  in_range idx (length x) /\
  o_base o = basef x /\
  o_rec o = average nS (fun i => snd (rf i (pick idx x))) /\
  wf (o_e o) /\ e_idx (o_e o) = idx /\ e_val (o_e o) = o_rec o /\ e_x0 (o_e o) = pick idx x /\
  (forall j, ent (e_g (o_e o)) j = average nS (fun i => ent (snd (rg i (pick idx x))) j)) /\
  exists a, e_h (o_e o) = repeat a (length idx).

Lemma pass_good (first : bool) s s' o : (length idx < n)%nat \/ idx = seq 0 n ->
  (if first then p_base s = basef (p_x s) /\ e_idx (p_e s) = idx else inv s) ->
  pass n nS idx basef rf rg sol rule first s = Some (s', o) ->
  good_out (p_x s) o /\ inv s' /\ p_e s' = o_e o.
Proof.
  intros Hn Hs. unfold pass. destruct (coupled n idx (p_x s)) as [x0|] eqn:Ec; [|discriminate].
  apply coupled_inv in Ec; [|exact Hn]. destruct Ec as [Hr Hx0].
  destruct (terms nS idx rf rg x0) as [[rs gs]|] eqn:Et; [|discriminate].
  apply terms_inv in Et. destruct Et as (T1 & T2 & T3).
  set (rval := rs / INR nS). set (g := map (fun u => 1 / INR nS * u) gs).
  assert (Lg : length g = length idx) by (unfold g; rewrite map_length; auto).
  assert (Vg : forall j, ent g j = average nS (fun i => ent (snd (rg i x0)) j)).
  { intro j. unfold average. change (rsum nS (fun i => ent (snd (rg i x0)) j)) with (rsum nS (gterm x0 j)).
    rewrite <- T3. unfold g, ent.
    replace 0 with (1 / INR nS * 0) at 1 by ring. rewrite (map_nth (fun u => 1 / INR nS * u)). unfold Rdiv. ring. }
  match goal with |- match ?m with _ => _ end = _ -> _ => destruct m as [[[h base] cv]|] eqn:Em; [|discriminate] end.
  assert (HM : base = basef (p_x s) /\ h_fk h = rval /\ h_x h = x0 /\ h_g h = g /\ e_idx (p_e s) = idx).
  { destruct first.
    - destruct Hs as [Hb Hi]. destruct (rule None _ g) as [ar|]; [|discriminate]. injection Em as <- <- _.
      cbn. auto.
    - destruct (update_hess_coeff x0 g rval (p_h s)) as [h1|] eqn:EU; [|discriminate].
      pose proof (predicted_quad s h1 x0 g rval Hs Hx0 EU) as HP.
      destruct (rule _ h1 g) as [ar|]; [|discriminate].
      destruct (convergence_grad g _) as [cg|]; [|discriminate]. injection Em as <- <- _.
      apply update_inv in EU. destruct EU as (_ & _ & _ & E1 & _ & _ & _ & _ & _ & _ & E2 & E3 & _).
      destruct Hs as (_ & Hi & _ & _ & _ & _ & _ & Ho).
      split; [unfold compute_base; rewrite HP, Ho; ring|]. cbn. auto. }
  destruct HM as (HB & HF & HX & HG & HI).
  set (e := set_x0 x0 _). unfold master.
  assert (We : wf e).
  { unfold wf, e. cbn. rewrite HI, repeat_length, Hx0, pick_length. auto. }
  destruct (eval_f e (sol (Some e)) (basef (sol (Some e)))) as [f|] eqn:Ef; [|discriminate].
  assert (Hri : in_range idx (length (sol (Some e)))).
  { unfold eval_f in Ef. destruct (gather (sol (Some e)) (e_idx e)) eqn:G; [|discriminate].
    apply gather_inv in G. destruct G as [G _]. replace (e_idx e) with idx in G by (unfold e; cbn; auto). exact G. }
  rewrite eval_f_ok in Ef; [|exact We|unfold e; cbn; rewrite HI; exact Hri]. injection Ef as <-. intros [= <- <-].
  split; [|split; [|reflexivity]].
  - unfold good_out. cbn. rewrite <- Hx0.
    repeat (match goal with |- _ /\ _ => split end); auto.
    + unfold average, rval. rewrite T1. reflexivity.
    + exists (h_alpha h). reflexivity.
  - unfold inv. cbn. rewrite HF, HX, HG.
    repeat (match goal with |- _ /\ _ => split end); auto. rewrite HI. reflexivity.
Qed.
Lemma passes_good k s l : (length idx < n)%nat \/ idx = seq 0 n -> inv s ->
  passes n nS idx basef rf rg sol rule false k s = Some l ->
  forall p, In p l -> good_out (fst p) (snd p).
Proof.
  intro Hn. revert s l. induction k as [|k IH]; intros s l Hs; cbn [passes].
  - intros [= <-] p [].
  - destruct (pass n nS idx basef rf rg sol rule false s) as [[s' o]|] eqn:E; [|discriminate].
    destruct (passes n nS idx basef rf rg sol rule false k s') as [l'|] eqn:E'; [|discriminate]. intros [= <-].
    destruct (pass_good false s s' o Hn Hs E) as (H1 & H2 & _). intros p [<-|Hp]; [exact H1|]. eapply IH; eauto.
Qed.
Lemma run_good h k l : (length idx < n)%nat \/ idx = seq 0 n ->
  run n nS idx basef rf rg sol rule h k = Some l ->
  forall p, In p l -> good_out (fst p) (snd p).
Proof.
  intros Hn. unfold run. destruct k as [|k]; cbn [passes]; [intros [= <-] p []|].
  destruct (pass n nS idx basef rf rg sol rule true (start idx basef sol h)) as [[s' o]|] eqn:E; [|discriminate].
  destruct (passes n nS idx basef rf rg sol rule false k s') as [l'|] eqn:E'; [|discriminate]. intros [= <-].
  assert (H0 : p_base (start idx basef sol h) = basef (p_x (start idx basef sol h)) /\ e_idx (p_e (start idx basef sol h)) = idx)
    by (split; reflexivity).
  destruct (pass_good true _ s' o Hn H0 E) as (H1 & H2 & _). intros p [<-|Hp]; [exact H1|].
  eapply passes_good; eauto.
Qed.

(** two consecutive iterations *)
Definition linked (p q : list R * out) : Prop :=
  fst q = sol (Some (o_e (snd p))) /\
  exists a1 a2 cf cg s y t,
    e_h (o_e (snd p)) = repeat a1 (length idx) /\ e_h (o_e (snd q)) = repeat a2 (length idx) /\
    o_conv (snd q) = Some (cf, cg) /\
    length s = length idx /\ length y = length idx /\ length t = length idx /\
    (forall j, (j < length idx)%nat -> ent s j = ent (fst q) (pos idx j) - ent (e_x0 (o_e (snd p))) j) /\
    (forall j, ent y j = ent (e_g (o_e (snd q))) j - ent (e_g (o_e (snd p))) j) /\
    (forall j, ent t j = ent y j - a2 * ent s j) /\
    norm2 (e_g (o_e (snd q))) <> 0 /\ cg = norm2 t / norm2 (e_g (o_e (snd q))) /\
    cf = Rabs (inner (e_g (o_e (snd p))) s + / 2 * a2 * sq s + (o_base (snd q) - o_base (snd p))).
Definition last_alpha (s : pst) (o : out) : Prop :=
  o_e o = p_e s /\ o_base o = p_base s /\ p_x s = sol (Some (o_e o)).

Lemma pass_last (first : bool) s s' o :
  pass n nS idx basef rf rg sol rule first s = Some (s', o) -> last_alpha s' o.
Proof.
  unfold pass. destruct (coupled n idx (p_x s)) as [x0|]; [|discriminate].
  destruct (terms nS idx rf rg x0) as [[rs gs]|]; [|discriminate].
  match goal with |- match ?m with _ => _ end = _ -> _ => destruct m as [[[h base] cv]|]; [|discriminate] end.
  unfold master. match goal with |- context [eval_f ?e ?x ?b] => destruct (eval_f e x b) as [f|]; [|discriminate] end.
  intros [= <- <-]. repeat split.
Qed.
Lemma pass_linked s s' o' x0 o : (length idx < n)%nat \/ idx = seq 0 n -> inv s -> last_alpha s o ->
  pass n nS idx basef rf rg sol rule false s = Some (s', o') -> linked (x0, o) (p_x s, o').
Proof.
  intros Hn Hs (L1 & L2 & L3). unfold pass. destruct (coupled n idx (p_x s)) as [xc|] eqn:Ec; [|discriminate].
  apply coupled_inv in Ec; [|exact Hn]. destruct Ec as [Hr Hxc].
  destruct (terms nS idx rf rg xc) as [[rs gs]|] eqn:Et; [|discriminate].
  apply terms_inv in Et. destruct Et as (T1 & T2 & T3).
  set (rval := rs / INR nS). set (g := map (fun u => 1 / INR nS * u) gs).
  assert (Lg : length g = length idx) by (unfold g; rewrite map_length; auto).
  destruct (update_hess_coeff xc g rval (p_h s)) as [h1|] eqn:EU; [|discriminate].
  destruct (rule _ h1 g) as [ar|]; [|discriminate].
  unfold convergence_grad. set (h := set_alpha ar h1). set (base := compute_base (p_obj s) h1).
  destruct (axpy 1 (h_y h) (map (fun u => - h_alpha h * u) (h_s h))) as [t|] eqn:Ea; [|discriminate].
  destruct (Req_EM_T (norm2 g) 0) as [|Hng]; [discriminate|].
  unfold master. match goal with |- context [eval_f ?e ?x ?b] => destruct (eval_f e x b) as [f|]; [|discriminate] end.
  intros [= <- <-].
  apply update_inv in EU. destruct EU as (U1 & U2 & U3 & U4 & U5 & U6 & U7 & U8 & U9 & U10 & _).
  destruct Hs as (Hw & Hi & _ & Hf & Hx & Hg & Hh & Ho).
  unfold linked. cbn [fst snd o_e o_conv o_base e_h e_g e_x0 set_x0 set_rhess set_rgrad set_rval]. split; [exact L3|].
  apply axpy_inv in Ea. destruct Ea as (A1 & A2 & A3). rewrite map_length in A1, A2.
  exists (h_alpha (p_h s)), (h_alpha h), (convergence_fcn base (p_base s) h), (norm2 t / norm2 g), (h_s h), (h_y h), t.
  rewrite L1, L2. rewrite Hxc, pick_length in U7.
  split; [exact Hh|]. split; [reflexivity|]. split; [reflexivity|].
  split; [exact U7|]. split; [rewrite <- Lg; exact U9|]. split; [rewrite A2; exact U7|].
  split. { intros j Hj. change (h_s h) with (h_s h1). rewrite U8, Hxc, pick_ent, Hx by auto. reflexivity. }
  split. { intro j. change (h_y h) with (h_y h1). rewrite U10, Hg. reflexivity. }
  split. { intro j. rewrite A3. unfold ent at 1. replace 0 with (- h_alpha h * 0) at 1 by ring.
           rewrite (map_nth (fun u => - h_alpha h * u)). unfold ent. ring. }
  split; [exact Hng|]. split; [reflexivity|].
  unfold convergence_fcn. change (h_s h) with (h_s h1). change (h_lin h) with (h_lin h1).
  rewrite U6, Hg, Rmult_assoc, norm2_sq. reflexivity.
Qed.
Lemma run_linked h k l a p q b : (length idx < n)%nat \/ idx = seq 0 n ->
  run n nS idx basef rf rg sol rule h k = Some l -> l = a ++ p :: q :: b ->
  linked p q.
Proof.
  intro Hn. unfold run.
  assert (Hgen : forall k s o0 x0 l a p q b, inv s -> last_alpha s o0 ->
    passes n nS idx basef rf rg sol rule false k s = Some l ->
    (x0, o0) :: l = a ++ p :: q :: b -> linked p q).
  { clear k l a p q b. induction k as [|k IH]; intros s o0 x0 l a p q b Hs Hl; cbn [passes].
    - intros [= <-] H. destruct a as [|? a]; [discriminate|]. destruct a; discriminate.
    - destruct (pass n nS idx basef rf rg sol rule false s) as [[s' o]|] eqn:E; [|discriminate].
      destruct (passes n nS idx basef rf rg sol rule false k s') as [l'|] eqn:E'; [|discriminate]. intros [= <-] H.
      destruct a as [|z a].
      + injection H as <- <- _. eapply pass_linked; eauto.
      + injection H as _ H. destruct (pass_good false s s' o Hn Hs E) as (_ & H2 & _).
        eapply (IH s' o (p_x s) l' a); eauto. eapply pass_last; eauto. }
  destruct k as [|k]; cbn [passes].
  - intros [= <-] H. destruct a; discriminate.
  - destruct (pass n nS idx basef rf rg sol rule true (start idx basef sol h)) as [[s' o]|] eqn:E; [|discriminate].
    destruct (passes n nS idx basef rf rg sol rule false k s') as [l'|] eqn:E'; [|discriminate]. intros [= <-] H.
    assert (H0 : p_base (start idx basef sol h) = basef (p_x (start idx basef sol h)) /\ e_idx (p_e (start idx basef sol h)) = idx)
      by (split; reflexivity).
    destruct (pass_good true _ s' o Hn H0 E) as (_ & H2 & _).
    eapply (Hgen k s' o _ l'); eauto. eapply pass_last; eauto.
Qed.
End Loop.

(** ** norms *)
Lemma sq_nonneg l : 0 <= sq l.
Proof. apply rsum_nonneg. intros. apply Rle_0_sqr. Qed.
Lemma cauchy k f g : rsum k (fun i => f i * g i) * rsum k (fun i => f i * g i)
  <= rsum k (fun i => f i * f i) * rsum k (fun i => g i * g i).
Proof.
  set (B := rsum k (fun i => f i * g i)). set (A := rsum k (fun i => f i * f i)). set (C := rsum k (fun i => g i * g i)).
  assert (HA : 0 <= A) by (apply rsum_nonneg; intros; apply Rle_0_sqr).
  assert (HQ : forall t, 0 <= A * (t * t) + 2 * B * t + C).
  { intro t. replace (A * (t * t) + 2 * B * t + C) with (rsum k (fun i => (f i * t + g i) * (f i * t + g i))).
    - apply rsum_nonneg. intros. apply Rle_0_sqr.
    - rewrite (rsum_ext _ _ (fun i => (t * t * (f i * f i) + 2 * t * (f i * g i)) + g i * g i)) by (intros; ring).
      rewrite !rsum_add, !rsum_scale. unfold A, B, C. ring. }
  destruct (Req_dec A 0) as [HA0|HA0].
  - assert (B = 0); [|nra]. unfold B. apply rsum_zero. intros i Hi.
    pose proof (rsum_zero_inv k (fun i => f i * f i) (fun i _ => Rle_0_sqr (f i)) HA0 i Hi) as H0. cbn in H0. nra.
  - specialize (HQ (- B / A)). assert (HA1 : 0 < A) by lra.
    replace (A * (- B / A * (- B / A)) + 2 * B * (- B / A) + C) with ((A * C - B * B) / A) in HQ by (field; lra).
    assert (0 <= (A * C - B * B) / A * A) by (apply Rmult_le_pos; lra).
    replace ((A * C - B * B) / A * A) with (A * C - B * B) in H by (field; lra). lra.
Qed.
Lemma norm2_tri a b c k : length a = k -> length b = k -> length c = k ->
  (forall i, (i < k)%nat -> ent a i = ent b i + ent c i) -> norm2 a <= norm2 b + norm2 c.
Proof.
  intros La Lb Lc H. pose proof (norm2_pos a). pose proof (norm2_pos b). pose proof (norm2_pos c).
  pose proof (norm2_sq a) as Sa. pose proof (norm2_sq b) as Sb. pose proof (norm2_sq c) as Sc.
  assert (Hs : sq a = sq b + 2 * inner b c + sq c).
  { unfold sq, inner. rewrite La, Lb, Lc.
    rewrite (rsum_ext k _ (fun i => (ent b i * ent b i + 2 * (ent b i * ent c i)) + ent c i * ent c i)).
    2: { intros i Hi. rewrite H by auto. ring. }
    rewrite !rsum_add, rsum_scale. reflexivity. }
  assert (HC : inner b c <= norm2 b * norm2 c).
  { pose proof (cauchy k (ent b) (ent c)) as HC.
    assert (HI : rsum k (fun i => ent b i * ent c i) = inner b c) by (unfold inner; rewrite Lb; reflexivity).
    assert (HB : rsum k (fun i => ent b i * ent b i) = sq b) by (unfold sq; rewrite Lb; reflexivity).
    assert (HD : rsum k (fun i => ent c i * ent c i) = sq c) by (unfold sq; rewrite Lc; reflexivity).
    rewrite HI, HB, HD in HC. apply Rsqr_incr_0_var; [|nra]. unfold Rsqr. nra. }
  apply Rsqr_incr_0_var; [|lra]. unfold Rsqr. nra.
Qed.
Lemma norm2_scaled a s k c : length s = k -> length a = k ->
  (forall i, (i < k)%nat -> ent a i = c * ent s i) -> norm2 a = Rabs c * norm2 s.
Proof.
  intros Ls La H. rewrite (norm2_sqrt a). replace (sq a) with (Rsqr (Rabs c * norm2 s)).
  - apply sqrt_Rsqr. apply Rmult_le_pos; [apply Rabs_pos|apply norm2_pos].
  - rewrite Rsqr_mult, <- Rsqr_abs. unfold Rsqr. rewrite norm2_sq. unfold sq. rewrite La, Ls, <- rsum_scale.
    apply rsum_ext. intros i Hi. rewrite H by auto. ring.
Qed.
Lemma pos_inj idx j j' : NoDup idx -> (j < length idx)%nat -> (j' < length idx)%nat -> pos idx j = pos idx j' -> j = j'.
Proof. intros. eapply NoDup_nth; eauto. Qed.
(** spreading [c] over distinct positions of a zero array does not change the norm *)
Lemma scatter_sq idx n (c : nat -> R) l : NoDup idx -> length l = n -> in_range idx n ->
  (forall k, (k < n)%nat -> ent l k = rsum (length idx) (fun j => if Nat.eqb k (pos idx j) then c j else 0)) ->
  sq l = rsum (length idx) (fun j => c j * c j).
Proof.
  intros Hd Hl Hr H. unfold sq. rewrite Hl.
  rewrite (rsum_ext n _ (fun k => rsum (length idx) (fun j => if Nat.eqb k (pos idx j) then c j * ent l k else 0))).
  2: { intros k Hk. rewrite (H k Hk) at 1. rewrite Rmult_comm, <- rsum_scale. apply rsum_ext. intros j Hj.
       destruct (Nat.eqb k (pos idx j)); ring. }
  rewrite rsum_swap. apply rsum_ext. intros j Hj.
  assert (Hp : (pos idx j < n)%nat) by (apply Hr; unfold pos; apply nth_In; auto).
  rewrite (rsum_ext n _ (fun k => if Nat.eqb (pos idx j) k then c j * ent l k else 0)) by (intros; rewrite Nat.eqb_sym; reflexivity).
  rewrite (rsum_pick n (pos idx j) (fun k => c j * ent l k)) by auto. f_equal.
  rewrite (H _ Hp). rewrite (rsum_ext _ _ (fun j' => if Nat.eqb j j' then c j' else 0)); [apply rsum_pick; auto|].
  intros j' Hj'. destruct (Nat.eqb_spec (pos idx j) (pos idx j')) as [E|E].
  - apply pos_inj in E; auto. subst. rewrite Nat.eqb_refl. reflexivity.
  - destruct (Nat.eqb_spec j j'); [subst; congruence|reflexivity].
Qed.
