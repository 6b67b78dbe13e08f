(** Proofs about scaling. *)
From Coq Require Import List Bool Arith Lia Ring Field Permutation Sorted.
From Verif Require Import RingKit PackModel PackSpec PackProofs SparseModel SparseSpec ScaleModel FactorModel ScaleSpec.
From Verif Require SparseProofs3 SparseProofs4.
Import ListNotations.
Open Scope nat_scope.

Section Pr.
Variable K : cfield.
Add Field kf : (fth K).

Lemma cmap2_spec (f : K -> K -> K) v : forall s, length v = length s ->
  exists r, cmap2 K f v s = Some r /\ length r = length v /\
    forall k, k < length v -> at_ r k = f (at_ v k) (at_ s k).
Proof.
  induction v as [|x v IH]; intros [|y s] H; try discriminate.
  - exists []. split; [reflexivity|]. split; auto. intros k Hk. simpl in Hk. lia.
  - simpl in H. destruct (IH s) as (r & E & L & N); [lia|]. exists (f x y :: r). simpl. rewrite E.
    split; [reflexivity|]. split; [simpl; lia|]. intros [|k] Hk; [reflexivity|]. simpl in Hk. apply (N k). lia.
Qed.
Lemma cmap2_len (f : K -> K -> K) v : forall s r, cmap2 K f v s = Some r -> length v = length s /\ length r = length v.
Proof.
  induction v as [|x v IH]; intros [|y s] r H; simpl in H; try discriminate.
  - injection H as <-. auto.
  - destruct (cmap2 K f v s) eqn:E; try discriminate. injection H as <-. apply IH in E. simpl. lia.
Qed.

(** product of the factors of a chain *)
Fixpoint rowfac (pick : scaling K -> list K) (ch : list (trans K)) (k : nat) : K :=
  match ch with
  | [] => f1
  | TScale s :: r => at_ (pick s) k *! rowfac pick r k
  | TOther :: r => rowfac pick r k
  end.
Fixpoint objfac (ch : list (trans K)) : K :=
  match ch with [] => f1 | TScale s :: r => s_obj s *! objfac r | TOther :: r => objfac r end.
Definition sizes (pick : scaling K -> list K) (n : nat) (ch : list (trans K)) : Prop :=
  forall s, In (TScale s) ch -> length (pick s) = n.
Definition nz (pick : scaling K -> list K) (ch : list (trans K)) : Prop :=
  forall s a, In (TScale s) ch -> In a (pick s) -> a <> f0.

Lemma mul_nz (a b : K) : a <> f0 -> b <> f0 -> a *! b <> f0.
Proof.
  intros Ha Hb E. apply Hb. transitivity (finv a *! (a *! b)); [field; auto|]. rewrite E. ring.
Qed.
Lemma one_nz : (f1 : K) <> f0.
Proof. exact (Field_theory.F_1_neq_0 (fth K)). Qed.

Lemma rowfac_app pick a b k : rowfac pick (a ++ b) k = rowfac pick a k *! rowfac pick b k.
Proof. induction a as [|[s|] a IH]; simpl; try rewrite IH; ring. Qed.
Lemma rowfac_rev pick a k : rowfac pick (rev a) k = rowfac pick a k.
Proof. induction a as [|[s|] a IH]; simpl; auto; rewrite rowfac_app, IH; simpl; ring. Qed.
Lemma objfac_app a b : objfac (a ++ b) = objfac a *! objfac b.
Proof. induction a as [|[s|] a IH]; simpl; try rewrite IH; ring. Qed.
Lemma rowfac_nz pick n ch k : sizes pick n ch -> nz pick ch -> k < n -> rowfac pick ch k <> f0.
Proof.
  induction ch as [|t ch IH]; intros HS HN Hk; [apply one_nz|].
  assert (H : rowfac pick ch k <> f0).
  { apply IH; auto; [intros s Hs; apply HS; right; auto|intros s a Hs; apply HN; right; auto]. }
  destruct t as [s|]; simpl; auto. apply mul_nz; auto.
  apply (HN s); [left; auto|]. apply nth_In. rewrite (HS s); [auto|left; auto].
Qed.

Lemma ch_to_spec pick ch : forall v, sizes pick (length v) ch ->
  exists r, ofold (fun t c => match t with TScale s => cmult K c (pick s) | TOther => Some c end) ch v = Some r /\
    length r = length v /\ forall k, k < length v -> at_ r k = rowfac pick ch k *! at_ v k.
Proof.
  induction ch as [|[s|] ch IH]; intros v H; simpl.
  - exists v. split; [reflexivity|]. split; auto. intros. ring.
  - destruct (cmap2_spec fmul v (pick s)) as (r & E & L & N); [symmetry; apply H; left; auto|].
    change (cmult K v (pick s)) with (cmap2 K fmul v (pick s)). rewrite E.
    destruct (IH r) as (r2 & E2 & L2 & N2); [rewrite L; intros t Ht; apply H; right; auto|].
    exists r2. split; auto. split; [lia|]. intros k Hk. rewrite N2 by lia. rewrite N by auto. ring.
  - destruct (IH v) as (r2 & E2 & L2 & N2); [intros t Ht; apply H; right; auto|]. exists r2. auto.
Qed.
Lemma ch_inv_spec0 pick ch : forall v, sizes pick (length v) ch -> nz pick ch ->
  exists r, ofold (fun t c => match t with TScale s => cdivv K c (pick s) | TOther => Some c end) ch v = Some r /\
    length r = length v /\ forall k, k < length v -> rowfac pick ch k *! at_ r k = at_ v k.
Proof.
  induction ch as [|[s|] ch IH]; intros v H HN; simpl.
  - exists v. split; [reflexivity|]. split; auto. intros. ring.
  - assert (Ls : length v = length (pick s)) by (symmetry; apply H; left; auto).
    destruct (cmap2_spec fdiv v (pick s)) as (r & E & L & N); [auto|].
    change (cdivv K v (pick s)) with (cmap2 K fdiv v (pick s)). rewrite E.
    destruct (IH r) as (r2 & E2 & L2 & N2);
      [rewrite L; intros t Ht; apply H; right; auto|intros t a Ht; apply HN; right; auto|].
    exists r2. split; auto. split; [lia|]. intros k Hk.
    transitivity (at_ (pick s) k *! (rowfac pick ch k *! at_ r2 k)); [ring|].
    rewrite N2 by lia. rewrite N by auto. field. apply (HN s); [left; auto|]. apply nth_In. lia.
  - destruct (IH v) as (r2 & E2 & L2 & N2);
      [intros t Ht; apply H; right; auto|intros t a Ht; apply HN; right; auto|]. exists r2. auto.
Qed.
Lemma ch_inv_spec pick ch v : sizes pick (length v) ch -> nz pick ch ->
  exists r, ofold (fun t c => match t with TScale s => cdivv K c (pick s) | TOther => Some c end) (rev ch) v = Some r /\
    length r = length v /\ forall k, k < length v -> rowfac pick ch k *! at_ r k = at_ v k.
Proof.
  intros H HN. destruct (ch_inv_spec0 pick (rev ch) v) as (r & E & L & N).
  - intros s Hs. apply H. apply in_rev; auto.
  - intros s a Hs. apply HN. apply in_rev; auto.
  - exists r. split; auto. split; auto. intros k Hk. rewrite <- (rowfac_rev pick ch k). auto.
Qed.
Lemma at_ext (a b : list K) : length a = length b -> (forall k, k < length a -> at_ a k = at_ b k) -> a = b.
Proof. intros L H. apply (nth_ext a b f0 f0 L). exact H. Qed.

Lemma ch_obj ch f : ch_to_obj K ch f = objfac ch *! f.
Proof.
  revert f. unfold ch_to_obj. induction ch as [|[s|] ch IH]; intro f; simpl; [ring| |]; rewrite IH; ring.
Qed.
Lemma ch_grad ch : forall g, ch_to_grad K ch g = map (fun x => objfac ch *! x) g.
Proof.
  unfold ch_to_grad. induction ch as [|[s|] ch IH]; intro g; simpl.
  - transitivity (map (fun x : K => x) g); [symmetry; apply map_id|apply map_ext; intro; ring].
  - rewrite IH. unfold vscale. rewrite map_map. apply map_ext. intro. ring.
  - apply IH.
Qed.
Lemma ch_obj_inv ch : (forall s, In (TScale s) ch -> s_obj s <> f0) -> forall f,
  ch_inv_obj K ch (ch_to_obj K ch f) = f.
Proof.
  unfold ch_inv_obj, ch_to_obj. induction ch as [|t ch IH]; intros H f; auto.
  simpl. rewrite fold_left_app. rewrite IH; [|intros s Hs; apply H; right; auto].
  simpl. destruct t as [s|]; simpl; auto. field. apply H. left. auto.
Qed.

(** ** the states that occur *)
Definition scalings (ch : list (trans K)) : list (scaling K) :=
  flat_map (fun t => match t with TScale s => [s] | TOther => [] end) ch.
Lemma in_scalings ch s : In s (scalings ch) <-> In (TScale s) ch.
Proof.
  unfold scalings. rewrite in_flat_map. split.
  - intros ([x|] & H1 & H2); simpl in H2; destruct H2; subst; auto. contradiction.
  - intro H. exists (TScale s). split; auto. left. auto.
Qed.
Lemma scalings_app a b : scalings (a ++ b) = scalings a ++ scalings b.
Proof. apply flat_map_app. Qed.
Definition last_of (ss : list (scaling K)) : option (scaling K) := nth_error ss (length ss - 1).

Lemma built_inv eqm inm (P : nlp K) ss : built eqm inm P ss ->
  n_eqm P = eqm /\ n_inm P = inm /\ scalings (n_chain P) = ss /\
  n_last P = (if length ss =? 0 then None else nth_error ss (length ss - 1)) /\
  forall s, In (TScale s) (n_chain P) -> usable (length eqm + length inm) s /\
    length (s_c s) = length eqm /\ length (s_d s) = length inm.
Proof.
  induction 1 as [ch te ti H|P ss s rhs dl du P' r l u HB IH HU L1 L2 L3 HA|P ss y zl zu lam P' HB IH HG].
  - simpl. split; auto. split; auto. assert (E : scalings ch = []).
    { induction ch as [|t ch IH]; auto. simpl. rewrite (H t) by (left; auto). apply IH. intros; apply H; right; auto. }
    split; auto. split; auto. intros s Hs. specialize (H _ Hs). discriminate.
  - destruct IH as (E1 & E2 & E3 & E4 & E5). unfold add_scaling in HA.
    destruct (cmult K rhs (s_c s)) eqn:C1; try discriminate. destruct (cmult K dl (s_d s)) eqn:C2; try discriminate.
    destruct (cmult K du (s_d s)) eqn:C3; try discriminate. injection HA as <- _ _ _. simpl.
    split; auto. split; auto. split; [rewrite scalings_app; simpl; congruence|]. split.
    + rewrite app_length. simpl. rewrite Nat.add_1_r. simpl. rewrite Nat.sub_0_r.
      rewrite nth_error_app2 by lia. rewrite Nat.sub_diag. reflexivity.
    + intros x Hx. apply in_app_or in Hx as [Hx|[Hx|[]]]; [apply E5; auto|]. injection Hx as <-.
      split; auto. apply cmap2_len in C1 as [C1 _]. apply cmap2_len in C2 as [C2 _]. lia.
  - destruct IH as (E1 & E2 & E3 & E4 & E5). unfold get_dual_solutions in HG.
    destruct (n_last P) eqn:EL.
    + destruct (ch_to_eq K (n_chain P) (n_teq P)); try discriminate.
      destruct (ch_to_ineq K (n_chain P) (n_tin P)); try discriminate.
      destruct (merge _ _ _ _ _); try discriminate. injection HG as _ _ _ <-. simpl.
      try rewrite EL. do 4 (split; [congruence|]). auto.
    + destruct (merge _ _ _ _ _); try discriminate. injection HG as _ _ _ <-. do 4 (split; [congruence|]). auto.
Qed.

Definition ok (eqm inm : list nat) (ch : list (trans K)) : Prop :=
  sizes s_c (length eqm) ch /\ sizes s_d (length inm) ch /\ sizes s_cd (length eqm + length inm) ch /\
  nz s_c ch /\ nz s_d ch /\ nz s_cd ch /\ (forall s, In (TScale s) ch -> s_obj s <> f0).
Lemma built_ok eqm inm (P : nlp K) ss : built eqm inm P ss -> ok eqm inm (n_chain P).
Proof.
  intro H. apply built_inv in H as (_ & _ & _ & _ & H). unfold ok, sizes, nz.
  do 3 (split; [intros s Hs; destruct (H s Hs) as ((U1 & U2 & U3 & U4 & U5) & L1 & L2); auto|]).
  do 3 (split; [intros s a Hs; destruct (H s Hs) as ((U1 & U2 & U3 & U4 & U5) & L1 & L2); auto|]).
  intros s Hs; destruct (H s Hs) as ((U1 & _) & _); auto.
Qed.

Lemma objfac_scalings ch : objfac ch = fold_right (fun s a => s_obj s *! a) f1 (scalings ch).
Proof. induction ch as [|[s|] ch IH]; simpl; auto. rewrite IH. auto. Qed.
Lemma rowfac_scalings pick ch k : rowfac pick ch k = fold_right (fun s a => at_ (pick s) k *! a) f1 (scalings ch).
Proof. induction ch as [|[s|] ch IH]; simpl; auto. rewrite IH. auto. Qed.

(** ** C20 *)
Lemma getter_obj eqm inm (P : nlp K) ss f : built eqm inm P ss -> user_obj P (eval_f P f) = f.
Proof. intro H. apply built_ok in H. apply ch_obj_inv. apply H. Qed.

Lemma callback_runs eqm inm (P : nlp K) ss y c d obj : built eqm inm P ss ->
  complementary eqm inm (length eqm + length inm) ->
  length (y_c y) = length eqm -> length (y_d y) = length inm -> length c = length eqm -> length d = length inm ->
  exists r yc yd zl zu c' d', callback_solution P y c d obj = Some (r, Duals yc yd zl zu, c', d') /\
    r_obj r = obj /! get_obj_scale P /\ r_zl r = zl /\ r_zu r = zu /\
    length yc = length eqm /\ length yd = length inm /\
    (forall k, k < length eqm -> at_ yc k = get_obj_scale P *! (rowfac s_c (n_chain P) k *! at_ (y_c y) k)) /\
    (forall k, k < length inm -> at_ yd k = get_obj_scale P *! (rowfac s_d (n_chain P) k *! at_ (y_d y) k)) /\
    (forall j, at_ zl j = get_obj_scale P *! at_ (z_l y) j) /\
    (forall j, at_ zu j = get_obj_scale P *! at_ (z_u y) j) /\
    length c' = length eqm /\ length d' = length inm /\
    (forall k, k < length eqm -> rowfac s_c (n_chain P) k *! at_ c' k = at_ c k) /\
    (forall k, k < length inm -> rowfac s_d (n_chain P) k *! at_ d' k = at_ d k) /\
    merge (map (fun _ => f0) (eqm ++ inm)) yc eqm yd inm = Some (r_lambda r) /\
    merge (map (fun _ => f0) (eqm ++ inm)) c' eqm d' inm = Some (r_cons r).
Proof.
  intros HB HC L1 L2 L3 L4. pose proof (built_ok _ _ _ _ HB) as (S1 & S2 & _ & N1 & N2 & _ & _).
  apply built_inv in HB as (E1 & E2 & E3 & E4 & _).
  assert (Lb : length (map (fun _ => f0 : K) (eqm ++ inm)) = length eqm + length inm) by (rewrite map_length, app_length; auto).
  assert (M : forall a b : list K, length a = length eqm -> length b = length inm ->
    exists r, merge (map (fun _ => f0) (eqm ++ inm)) a eqm b inm = Some r).
  { intros a b La Lc. rewrite <- Lb in HC. destruct (merge_spec K (map (fun _ => f0) (eqm ++ inm)) a b eqm inm HC La Lc) as (r & R & _). eauto. }
  unfold callback_solution. rewrite E1, E2.
  destruct (n_last P) as [s|] eqn:EL.
  - destruct (ch_to_spec s_c (n_chain P) (y_c y)) as (a & A1 & A2 & A3); [rewrite L1; auto|].
    destruct (ch_to_spec s_d (n_chain P) (y_d y)) as (b & B1 & B2 & B3); [rewrite L2; auto|].
    destruct (ch_inv_spec s_c (n_chain P) c) as (u & U1 & U2 & U3); [rewrite L3; auto|auto|].
    destruct (ch_inv_spec s_d (n_chain P) d) as (v & V1 & V2 & V3); [rewrite L4; auto|auto|].
    change (ch_to_eq K (n_chain P) (y_c y) = Some a) in A1.
    change (ch_to_ineq K (n_chain P) (y_d y) = Some b) in B1.
    change (ch_inv_eq K (n_chain P) c = Some u) in U1. change (ch_inv_ineq K (n_chain P) d = Some v) in V1.
    rewrite A1, B1, U1, V1. set (os := get_obj_scale P).
    assert (VS : forall (w : list K) k, at_ (vscale K os w) k = os *! at_ w k).
    { intros w k. unfold vscale, at_. replace (f0 : K) with (os *! f0) at 1 by ring. rewrite map_nth. auto. }
    assert (VL : forall (w : list K), length (vscale K os w) = length w) by (intro; apply map_length).
    destruct (M (vscale K os a) (vscale K os b)) as (lam & ML); [rewrite VL; lia|rewrite VL; lia|].
    destruct (M u v) as (bd & MB); [lia|lia|]. rewrite ML, MB.
    do 7 eexists. split; [reflexivity|]. simpl. rewrite !VL.
    split; [reflexivity|]. split; [reflexivity|]. split; [reflexivity|]. split; [lia|]. split; [lia|].
    split; [intros k Hk; rewrite VS, A3 by lia; auto|]. split; [intros k Hk; rewrite VS, B3 by lia; auto|].
    split; [intro; apply VS|]. split; [intro; apply VS|]. split; [lia|]. split; [lia|].
    split; [intros k Hk; apply U3; lia|]. split; [intros k Hk; apply V3; lia|]. auto.
  - destruct (length ss =? 0) eqn:Es.
    2:{ apply Nat.eqb_neq in Es. symmetry in E4. apply nth_error_None in E4. lia. }
    apply Nat.eqb_eq in Es. destruct ss; try discriminate.
    assert (RF : forall pick k, rowfac pick (n_chain P) k = f1) by (intros; rewrite rowfac_scalings, E3; auto).
    destruct (M (y_c y) (y_d y)) as (lam & ML); auto. destruct (M c d) as (bd & MB); auto.
    rewrite ML, MB. unfold get_obj_scale. rewrite EL.
    do 7 eexists. split; [reflexivity|]. simpl.
    split; [reflexivity|]. split; [reflexivity|]. split; [reflexivity|]. split; [lia|]. split; [lia|].
    split; [intros; rewrite RF; ring|]. split; [intros; rewrite RF; ring|].
    split; [intro; ring|]. split; [intro; ring|]. split; [lia|]. split; [lia|].
    split; [intros; rewrite RF; ring|]. split; [intros; rewrite RF; ring|]. auto.
Qed.
End Pr.
