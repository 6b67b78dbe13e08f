From Coq Require Import List Bool QArith Qabs Qminmax ZArith Reals Lia Lra Arith.
From Verif Require Import FloatBase MuModel FloatFacts VecModel VecSpec VecProofs RedModel RedSpec RedProofs CompModel CompSpec.
Import ListNotations.

(** ** methods that change the vector *)
Definition app2 {A} (a b : list (list A)) : list (list A) := map (fun p => fst p ++ snd p) (combine a b).
Lemma app2_nil {A} (a b : list (list A)) : length a = length b ->
  forallb (fun v => match v with [] => true | _ => false end) a = true -> app2 a b = b.
Proof.
  revert b. induction a as [|v a IH]; intros [|w b] L H; try discriminate; auto.
  cbn in H. destruct v; try discriminate. cbn in *. unfold app2 in *. cbn. f_equal. apply IH; auto.
Qed.
Lemma heads_len {A} (a : list (list A)) : forall h t, heads a = Some (h, t) -> length h = length a /\ length t = length a.
Proof.
  induction a as [|v a IH]; cbn; intros h t H; [inversion H; auto|].
  destruct v as [|x v]; [discriminate|]. destruct (heads a) as [[h' t']|] eqn:E; [|discriminate].
  inversion H; subst. cbn. destruct (IH _ _ eq_refl). lia.
Qed.
Lemma heads_app {A} (a : list (list A)) : forall b h t, length a = length b -> heads a = Some (h, t) ->
  heads (app2 a b) = Some (h, app2 t b).
Proof.
  induction a as [|v a IH]; intros [|w b] h t L H; try discriminate.
  - inversion H. reflexivity.
  - cbn in *. destruct v as [|x v]; [discriminate|]. destruct (heads a) as [[h' t']|] eqn:E; [|discriminate].
    inversion H; subst. cbn. unfold app2 in IH. rewrite (IH b h' t'); auto.
Qed.
Lemma heads_concat {A} (a : list (list (list A))) : forall h t, heads a = Some (h, t) ->
  map (@concat A) a = app2 h (map (@concat A) t).
Proof.
  induction a as [|v a IH]; cbn; intros h t H; [inversion H; auto|].
  destruct v as [|x v]; [discriminate|]. destruct (heads a) as [[h' t']|] eqn:E; [|discriminate].
  inversion H; subst. unfold app2 in *. cbn. f_equal. apply IH; auto.
Qed.
(** heads exists when nothing is empty, and the tails keep their lengths *)
Lemma heads_total {A} {B} (f : A -> B) (a : list (list A)) (e : B) (l : list B) :
  Forall (fun v => map f v = e :: l) a ->
  exists h t, heads a = Some (h, t) /\ Forall (fun v => f v = e) h /\ Forall (fun v => map f v = l) t.
Proof.
  induction 1 as [|v a Hv H (h & t & E & H1 & H2)]; [exists [], []; auto|].
  destruct v as [|x v]; [discriminate|]. inversion Hv; subst.
  exists (x :: h), (v :: t). cbn. rewrite E. auto.
Qed.

Section Ops.
Variable K : arith.
Local Notation T := (car K).

Lemma entry_total (op : vop K) (y : T) (a : list T) : length a = arity op -> exists e, entry K op y a = Some e.
Proof.
  intro H. destruct op; cbn in H;
    repeat (destruct a as [|? a]; cbn in H; try discriminate); cbn; eauto.
Qed.
Lemma par_total (op : vop K) : forall (y : list T) (a : list (list T)), length a = arity op ->
  Forall (fun v => length v = length y) a -> exists r, par_apply K op y a = Some r /\ length r = length y.
Proof.
  induction y as [|e y IH]; intros a L H.
  - exists []. cbn. split; auto. replace (forallb _ a) with true; auto. symmetry. apply forallb_forall.
    intros v Iv. rewrite Forall_forall in H. apply H in Iv. destruct v; auto; discriminate.
  - assert (H' : Forall (fun v => map (fun _ => tt) v = tt :: repeat tt (length y)) a).
    { eapply Forall_impl; [|exact H]. intros v Hv. destruct v as [|x v]; [discriminate|]. cbn in *. f_equal.
      inversion Hv as [E]. clear. induction v; cbn; f_equal; auto. }
    destruct (heads_total _ _ _ _ H') as (h & t & E & _ & Ht).
    destruct (heads_len _ _ _ E) as [L1 L2].
    assert (Ht' : Forall (fun v => length v = length y) t).
    { eapply Forall_impl; [|exact Ht]. intros v Hv. rewrite <- (map_length (fun _ => tt)), Hv. apply repeat_length. }
    destruct (entry_total op e h) as [e' He]; [lia|].
    destruct (IH t) as (r & Hr & Lr); [lia|auto|].
    exists (e' :: r). cbn [par_apply]. rewrite E, He, Hr. cbn. auto.
Qed.
Lemma par_app (op : vop K) : forall (y1 : list T) a1 y2 a2 r1 r2, length a1 = length a2 ->
  par_apply K op y1 a1 = Some r1 -> par_apply K op y2 a2 = Some r2 ->
  par_apply K op (y1 ++ y2) (app2 a1 a2) = Some (r1 ++ r2).
Proof.
  induction y1 as [|e y IH]; intros a1 y2 a2 r1 r2 L H1 H2.
  - cbn in H1. destruct (forallb _ a1) eqn:E; [|discriminate]. inversion H1; subst. cbn.
    rewrite (app2_nil a1 a2); auto.
  - cbn [par_apply] in H1. destruct (heads a1) as [[h t]|] eqn:E; [|discriminate].
    destruct (entry K op e h) as [e'|] eqn:Ee; [|discriminate].
    destruct (par_apply K op y t) as [r|] eqn:Er; [|discriminate]. inversion H1; subst.
    cbn [app par_apply]. rewrite (heads_app _ _ _ _ L E), Ee.
    destruct (heads_len _ _ _ E) as [_ L2].
    rewrite (IH t y2 a2 r r2); auto. lia.
Qed.
(** the loop over the parts is the method of the concatenation *)
Lemma loop_flat (op : vop K) : forall (y : list (list T)) (a : list (list (list T))), length a = arity op ->
  Forall (fun v => map (@length T) v = map (@length T) y) a ->
  exists r, comp_loop K op (length y) y a = Some r /\ map (@length T) r = map (@length T) y /\
            par_apply K op (concat y) (map (@concat T) a) = Some (concat r).
Proof.
  induction y as [|p y IH]; intros a L H.
  - exists []. cbn. split; [auto|split; [auto|]]. replace (forallb _ _) with true; auto. symmetry.
    apply forallb_forall. intros v Iv. apply in_map_iff in Iv as (w & <- & Iw).
    rewrite Forall_forall in H. apply H in Iw. destruct w; auto; discriminate.
  - destruct (heads_total _ _ _ _ H) as (h & t & E & Hh & Ht). destruct (heads_len _ _ _ E) as [L1 L2].
    destruct (par_total op p h) as (p' & Hp & Lp); [lia|auto|].
    destruct (IH t) as (r & Hr & Lr & Hf); [lia|auto|].
    exists (p' :: r). split; [cbn [length comp_loop]; rewrite E, Hp, Hr; auto|].
    split; [cbn; rewrite Lp, Lr; auto|].
    rewrite (heads_concat _ _ _ E). cbn [concat]. apply par_app; auto. rewrite map_length. lia.
Qed.
Lemma par_id (y : list T) a (c : T) : length a = 2%nat -> Forall (fun v => length v = length y) a ->
  aeq K c (azero K) = true -> par_apply K (Axdzpy K c) y a = Some y.
Proof.
  intros L H Hc. destruct a as [|u [|v [|w a]]]; try discriminate. inversion H as [|? ? Hu H1]; subst.
  inversion H1 as [|? ? Hv _]; subst. clear H H1 L. revert u v Hu Hv.
  induction y as [|e y IH]; intros [|a u] [|b v] Hu Hv; try discriminate; auto.
  cbn [par_apply heads entry]. rewrite Hc, IH; auto; cbn in *; lia.
Qed.
Lemma concat_len {A} (x y : list (list A)) : map (@length A) x = map (@length A) y -> length (concat x) = length (concat y).
Proof.
  revert y. induction x as [|p x IH]; intros [|q y] H; try discriminate; auto.
  inversion H. cbn. rewrite !app_length. f_equal; auto.
Qed.
Lemma checked_ok (op : vop K) (y : comp (list T)) (a : list (comp (list T))) : Forall (fun c => like c y) a -> checked K op y a = true.
Proof.
  intro H.
  assert (P : forall l, (forall c, In c l -> In c a) -> forallb (fun c => Nat.eqb (c_parts y) (c_parts c)) l = true).
  { intros l Hl. apply forallb_forall. intros c Ic. apply Nat.eqb_eq. symmetry.
    rewrite Forall_forall in H. apply (H c (Hl c Ic)). }
  assert (S : forallb (fun c => Nat.eqb (c_size y) (c_size c)) a = true).
  { apply forallb_forall. intros c Ic. apply Nat.eqb_eq. symmetry. rewrite Forall_forall in H. apply (H c Ic). }
  unfold checked. destruct op; try exact S; try (apply P; auto; fail);
    apply P; intros c Ic; destruct a as [|u a]; cbn in Ic; try tauto; cbn; tauto.
Qed.
Theorem apply_flat (op : vop K) (y : comp (list T)) (a : list (comp (list T))) :
  whole y -> length a = arity op -> is_log_grad op = false -> Forall (fun c => like c y) a ->
  exists r, comp_apply K op y a = Some r /\ whole r /\ like r y /\
            par_apply K op (entries y) (map entries a) = Some (entries r).
Proof.
  intros W L G H. unfold comp_apply.
  assert (Hm : Forall (fun v => map (@length T) v = map (@length T) (c_vecs y)) (map c_vecs a)).
  { apply Forall_map. eapply Forall_impl; [|exact H]. intros c (_ & _ & E). exact E. }
  destruct (match op with Axdzpy _ c => aeq K c (azero K) | _ => false end) eqn:Q.
  - exists y. split; [auto|]. split; [auto|]. split; [repeat split|].
    destruct op; try discriminate. apply par_id; auto.
    + rewrite map_length. exact L.
    + apply Forall_map. eapply Forall_impl; [|exact H]. intros c (_ & _ & E). apply concat_len. exact E.
  - rewrite checked_ok; auto.
    replace (passed K op (map c_vecs a)) with (map c_vecs a) by (destruct op; auto; discriminate).
    rewrite W. destruct (loop_flat op (c_vecs y) (map c_vecs a)) as (r & Hr & Lr & Hf); auto.
    { rewrite map_length. exact L. }
    rewrite Hr. eexists. split; [reflexivity|].
    assert (Lr' : length r = length (c_vecs y)) by (rewrite <- (map_length (@length T) r), Lr, map_length; auto).
    split; [unfold whole; cbn; lia|]. split; [repeat split; cbn; auto|].
    unfold entries at 1 3. cbn [c_vecs]. rewrite <- Hf. f_equal. rewrite map_map. reflexivity.
Qed.
Lemma loop_copy : forall (n : nat) (y v : list (list T)), length y = n -> map (@length T) y = map (@length T) v ->
  comp_loop K (CopyFrom K) n y [v] = Some v.
Proof.
  induction n as [|n IH]; intros [|p y] [|q v] L H; try discriminate; auto.
  cbn [comp_loop heads]. inversion H. cbn in L. rewrite IH; auto.
  assert (P : par_apply K (CopyFrom K) p [q] = Some q).
  { clear - H1. revert q H1. induction p as [|e p IH]; intros [|f q] E; try discriminate; auto.
    cbn in *. rewrite IH; auto. }
  rewrite P. reflexivity.
Qed.
Lemma clone_ok (fresh : list T -> list T) : (forall v, length (fresh v) = length v) -> forall l,
  c_clone_loop fresh l (length l) = Some (map fresh l).
Proof. intros F l. induction l as [|v l IH]; cbn; auto. rewrite IH. auto. Qed.
Theorem new_copy_ok (fresh : list T -> list T) (c : comp (list T)) : (forall v, length (fresh v) = length v) -> whole c ->
  c_new_copy K fresh c = Some c.
Proof.
  intros F W. unfold c_new_copy, c_clone. rewrite W, clone_ok; auto.
  unfold comp_apply. cbn [checked c_parts map c_vecs c_size passed forallb]. rewrite W, Nat.eqb_refl. cbn [andb].
  rewrite loop_copy.
  - destruct c as [v n s]. cbn in *. unfold whole in W. cbn in W. rewrite W. reflexivity.
  - rewrite map_length. auto.
  - rewrite map_map. apply map_ext. auto.
Qed.
Theorem copy_blocks_ok (b b' : blocks (list T)) :
  map (@length T) (c_vecs (from_blocks (@length T) b)) = map (@length T) (c_vecs (from_blocks (@length T) b')) ->
  copy_from_blocks K (from_blocks (@length T) b) b' = Some (from_blocks (@length T) b').
Proof.
  intro H. unfold copy_from_blocks. rewrite (loop_copy 12 _ (c_vecs (from_blocks (@length T) b'))); auto.
  f_equal. cbn in H. injection H as H0 H1 H2 H3 H4 H5 H6 H7 H8 H9 H10 H11.
  unfold from_blocks. cbn. rewrite H0, H1, H2, H3, H4, H5, H6, H7, H8, H9, H10, H11. reflexivity.
Qed.

(** ** projection *)
Lemma project_app k1 k2 (p q : list (bvar K)) : snd (project_loop K k1 k2 p) = true ->
  project_loop K k1 k2 (p ++ q) =
  (fst (project_loop K k1 k2 p) ++ fst (project_loop K k1 k2 q), snd (project_loop K k1 k2 q)).
Proof.
  induction p as [|v p IH]; intro H.
  - cbn. destruct (project_loop K k1 k2 q); auto.
  - cbn [app project_loop] in *. destruct (project1 _ _ _ _ _ _ _) as [x'|]; [|discriminate].
    destruct (project_loop K k1 k2 p) as [xs ok] eqn:E. cbn in H. rewrite IH by auto. auto.
Qed.
Lemma project_flat k1 k2 (l : list (list (bvar K))) : forall xs,
  project_loop K k1 k2 (concat l) = (xs, true) ->
  exists r, comp_project K k1 k2 (length l) l = Some (r, true) /\ concat r = xs.
Proof.
  assert (A : forall p q, snd (project_loop K k1 k2 (p ++ q)) = true -> snd (project_loop K k1 k2 p) = true).
  { induction p as [|v p IH]; intros q H; auto. cbn [app project_loop] in *.
    destruct (project1 _ _ _ _ _ _ _) as [x'|]; [|discriminate].
    destruct (project_loop K k1 k2 (p ++ q)) as [xs ok] eqn:E. cbn in H.
    specialize (IH q). rewrite E in IH. specialize (IH H). destruct (project_loop K k1 k2 p); auto. }
  induction l as [|p l IH]; intros xs H.
  - cbn in *. inversion H. exists []. auto.
  - cbn [concat] in H. assert (Hp : snd (project_loop K k1 k2 p) = true).
    { apply (A p (concat l)). rewrite H. auto. }
    rewrite project_app in H; auto. inversion H as [[E1 E2]].
    destruct (project_loop K k1 k2 (concat l)) as [ys ok] eqn:E. cbn in *. subst ok.
    destruct (IH ys eq_refl) as (r & Hr & Er). exists (fst (project_loop K k1 k2 p) :: r).
    rewrite Hr. cbn. rewrite Er. auto.
Qed.
Lemma project_true k1 k2 n (l : list (list (bvar K))) r b : comp_project K k1 k2 n l = Some (r, b) -> b = true.
Proof.
  destruct n as [|n]; cbn.
  - congruence.
  - destruct l as [|p l]; [discriminate|]. destruct (comp_project K k1 k2 n l) as [[? ?]|]; [|discriminate]. congruence.
Qed.

(** ** step length *)
Section Min.
Variable ok : T -> Prop.
Hypothesis lt_ok : forall x y, alt K x y = true -> ok x.
Hypothesis asym : forall x y, alt K x y = true -> alt K y x = false.
Hypothesis cotrans : forall x y z, ok y -> alt K x z = true -> alt K x y = true \/ alt K y z = true.
Hypothesis one_ok : ok (aone K).
Variable tau : T.
Lemma irr x : alt K x x = false.
Proof. destruct (alt K x x) eqn:E; auto. rewrite (asym _ _ E) in E. discriminate. Qed.
Lemma step_is (e : T * T * T) : (forall b, ftb_step K tau b e = b) \/
  exists t, forall b, ftb_step K tau b e = if alt K t b then t else b.
Proof.
  unfold ftb_step. destruct e as [[x d] p]. destruct (ale K (azero K) d); auto.
  destruct (aeq K p (azero K)); auto. right. eexists. reflexivity.
Qed.
Lemma fold_le l : forall b, ok b -> ok (fold_left (ftb_step K tau) l b) /\ alt K b (fold_left (ftb_step K tau) l b) = false.
Proof.
  induction l as [|e l IH]; intros b H; cbn; [split; auto; apply irr|].
  destruct (step_is e) as [E|[t E]]; rewrite E; auto.
  destruct (alt K t b) eqn:Et; auto. destruct (IH t (lt_ok _ _ Et)) as [O1 O2]. split; auto.
  destruct (alt K b _) eqn:F; auto. destruct (cotrans _ t _ (lt_ok _ _ Et) F) as [C|C].
  - rewrite (asym _ _ Et) in C. discriminate.
  - rewrite C in O2. discriminate.
Qed.
Lemma fold_min l : forall a b, ok a -> ok b -> alt K b a = false ->
  fold_left (ftb_step K tau) l a =
  if alt K (fold_left (ftb_step K tau) l b) a then fold_left (ftb_step K tau) l b else a.
Proof.
  induction l as [|e l IH]; intros a b Oa Ob H; cbn; [rewrite H; auto|].
  destruct (step_is e) as [E|[t E]]; rewrite !E; [apply IH; auto|].
  destruct (alt K t a) eqn:Ea.
  - destruct (cotrans _ b _ Ob Ea) as [C|C]; [|congruence]. rewrite C.
    destruct (fold_le l t (lt_ok _ _ Ea)) as [O1 O2].
    destruct (cotrans _ (fold_left (ftb_step K tau) l t) _ O1 Ea) as [D|D]; [congruence|]. rewrite D. auto.
  - destruct (alt K t b) eqn:Eb; [apply IH; auto; exact (lt_ok _ _ Eb)|apply IH; auto].
Qed.
Lemma zip_app {A B} (a1 : list A) : forall (b1 : list B) a2 b2 l1 l2, zip a1 b1 = Some l1 -> zip a2 b2 = Some l2 ->
  zip (a1 ++ a2) (b1 ++ b2) = Some (l1 ++ l2).
Proof.
  induction a1 as [|x a IH]; intros [|y b] a2 b2 l1 l2 H1 H2; try discriminate.
  - inversion H1. exact H2.
  - cbn in *. destruct (zip a b) as [l|] eqn:E; [|discriminate]. inversion H1; subst.
    rewrite (IH b a2 b2 l l2); auto.
Qed.
Lemma ftb_flat_aux (parts : list (list T * list T * list T)) : forall alpha l0 x0 d0 i0 r,
  zip3 x0 d0 i0 = Some l0 -> alpha = fold_left (ftb_step K tau) l0 (aone K) ->
  fold_left (fun acc p =>
    match acc, ftb_w_pattern K (fst (fst p)) (snd (fst p)) tau (snd p) with
    | Some alpha, Some aux => Some (if alt K aux alpha then aux else alpha)
    | _, _ => None
    end) parts (Some alpha) = Some r ->
  ftb_w_pattern K (x0 ++ concat (map (fun p => fst (fst p)) parts)) (d0 ++ concat (map (fun p => snd (fst p)) parts))
                tau (i0 ++ concat (map snd parts)) = Some r.
Proof.
  induction parts as [|[[x d] i] parts IH]; intros alpha l0 x0 d0 i0 r Z A H.
  - cbn in *. rewrite !app_nil_r. unfold ftb_w_pattern. rewrite Z. congruence.
  - cbn [fold_left fst snd map concat] in *.
    destruct (ftb_w_pattern K x d tau i) as [aux|] eqn:E.
    + unfold ftb_w_pattern in E. destruct (zip3 x d i) as [l1|] eqn:Z1; [|discriminate]. inversion E as [E'].
      rewrite !app_assoc. eapply IH; [| |exact H].
      * unfold zip3 in *. destruct (zip x0 d0) as [m0|] eqn:M0; [|discriminate].
        destruct (zip x d) as [m1|] eqn:M1; [|discriminate].
        rewrite (zip_app _ _ _ _ _ _ M0 M1). apply (zip_app _ _ _ _ _ _ Z Z1).
      * rewrite fold_left_app, <- A.
        assert (Oa : ok alpha /\ alt K (aone K) alpha = false) by (rewrite A; apply fold_le; auto).
        rewrite (fold_min l1 alpha (aone K)); try tauto. rewrite E'. auto.
    + exfalso. clear - H. revert H. generalize (aone K). intros _.
      induction parts as [|p parts IH]; cbn; [discriminate|]. auto.
Qed.
Lemma ftb_flat (parts : list (list T * list T * list T)) r : comp_ftb K tau parts = Some r ->
  ftb_w_pattern K (concat (map (fun p => fst (fst p)) parts)) (concat (map (fun p => snd (fst p)) parts))
                tau (concat (map snd parts)) = Some r.
Proof. intro H. apply (ftb_flat_aux parts (aone K) [] [] [] []); auto. Qed.
End Min.
End Ops.

Lemma ftb_Q tau parts r : comp_ftb Qar tau parts = Some r ->
  ftb_w_pattern Qar (concat (map (fun p => fst (fst p)) parts)) (concat (map (fun p => snd (fst p)) parts))
                tau (concat (map snd parts)) = Some r.
Proof.
  apply (ftb_flat Qar (fun _ => True)); cbn; auto.
  - intros x y H. unfold Qltb in *. apply negb_true_iff in H. apply negb_false_iff. apply Qle_bool_iff.
    destruct (Qle_bool y x) eqn:E; [discriminate|]. destruct (Qlt_le_dec x y) as [L|L]; [apply Qlt_le_weak; auto|].
    apply Qle_bool_iff in L. congruence.
  - intros x y z _ H. unfold Qltb in *. destruct (Qle_bool y x) eqn:E1; auto. destruct (Qle_bool z y) eqn:E2; auto.
    exfalso. apply Qle_bool_iff in E1, E2. apply negb_true_iff in H.
    assert (L : (z <= x)%Q) by (eapply Qle_trans; eauto). apply Qle_bool_iff in L. congruence.
Qed.
Lemma flt_nn x y : flt x y = true -> is_nan x = false /\ is_nan y = false.
Proof. destruct x, y; cbn; intro H; auto; discriminate. Qed.
Lemma ftb_F tau parts r : comp_ftb Far tau parts = Some r ->
  ftb_w_pattern Far (concat (map (fun p => fst (fst p)) parts)) (concat (map (fun p => snd (fst p)) parts))
                tau (concat (map snd parts)) = Some r.
Proof.
  apply (ftb_flat Far (fun x => is_nan x = false)); cbn; auto.
  - intros x y H. apply (flt_nn _ _ H).
  - intros x y H. destruct (flt_nn _ _ H) as [N1 N2]. rewrite flt_not_fge in H by auto.
    rewrite flt_not_fge by auto. unfold fge in *. apply negb_true_iff in H. apply negb_false_iff.
    destruct (fle_total x y) as [F|F]; auto. change (fle y x = false) in H. congruence.
  - intros x y z N H. destruct (flt_nn _ _ H) as [N1 N2]. rewrite flt_not_fge in H by auto.
    rewrite (flt_not_fge x y), (flt_not_fge y z) by auto.
    change (fge x z) with (fle z x) in H. change (fge x y) with (fle y x). change (fge y z) with (fle z y).
    destruct (fle y x) eqn:E1; auto. destruct (fle z y) eqn:E2; auto.
    rewrite (fle_trans _ _ _ E2 E1) in H. discriminate.
Qed.

(** ** reductions *)
Open Scope Q_scope.
Lemma visited_whole {A} (c : comp A) : whole c -> visited c = Some (c_vecs c).
Proof. intro W. unfold visited. unfold whole in W. rewrite W, Nat.leb_refl. f_equal. rewrite <- firstn_all. f_equal; auto. Qed.
Lemma fold_parts {A} (g : A -> Q) (l : list A) : forall s, fold_left (fun s p => s + g p) l s == s + sumQ (map g l).
Proof. apply fold_sum. Qed.
Lemma sum_parts {A B} (g : list B -> Q) (f : B -> Q) (h : A -> list B) (l : list A) :
  (forall p, In p l -> g (h p) == sumQ (map f (h p))) ->
  sumQ (map (fun p => g (h p)) l) == sumQ (map f (concat (map h l))).
Proof.
  induction l as [|p l IH]; intro H; cbn; [reflexivity|]. rewrite map_app, sumQ_app, H, IH; [reflexivity| |left; auto].
  intros q Iq. apply H. right. auto.
Qed.
Lemma concat2 {A} (l : list (list (list A))) : concat (map (@concat A) l) = concat (concat l).
Proof. induction l as [|p l IH]; cbn; auto. rewrite IH, concat_app. auto. Qed.
Lemma parts_sum {B} (g : list (list B) -> Q) (f : B -> Q) : (forall rk, g rk == sumQ (map f (concat rk))) ->
  forall c : comp (list (list B)), whole c -> exists s,
  option_map (fun l => fold_left (fun s p => s + g p) l 0) (visited c) = Some s /\ s == sumQ (map f (all_entries c)).
Proof.
  intros H c W. rewrite visited_whole by auto. cbn. eexists. split; [reflexivity|].
  rewrite fold_parts. unfold all_entries. generalize (c_vecs c). induction l as [|p l IH]; cbn; [reflexivity|].
  rewrite concat_app, map_app, sumQ_app, H. rewrite <- IH. ring.
Qed.
Lemma parts_count (g : list (list Q) -> nat) (f : Q -> bool) : (forall rk, g rk = length (filter f (concat rk))) ->
  forall c, whole c ->
  option_map (fun l => fold_left (fun s p => (s + g p)%nat) l 0%nat) (visited c) = Some (length (filter f (all_entries c))).
Proof.
  intros H c W. rewrite visited_whole by auto. cbn. f_equal. unfold all_entries.
  assert (A : forall l n, fold_left (fun s p => (s + g p)%nat) l n = (n + length (filter f (concat (concat l))))%nat).
  { induction l as [|p l IH]; intro n; cbn; [lia|]. rewrite IH, concat_app, filter_app, app_length, H. lia. }
  apply A.
Qed.
Lemma parts_all {B} (t : list (list B) -> bool) (P : B -> Prop) : (forall rk, t rk = true <-> forall v, In v (concat rk) -> P v) ->
  forall c : comp (list (list B)), whole c -> exists b,
  option_map (c_all_loop t) (visited c) = Some b /\ (b = true <-> forall v, In v (all_entries c) -> P v).
Proof.
  intros H c W. rewrite visited_whole by auto. cbn. eexists. split; [reflexivity|]. unfold all_entries.
  generalize (c_vecs c). induction l as [|p l IH]; cbn; [split; [intros _ v []|auto]|].
  rewrite concat_app. destruct (t p) eqn:E.
  - rewrite IH. assert (Hp := proj1 (H p) E). split; intros A v Iv.
    + apply in_app_iff in Iv as [Iv|Iv]; auto.
    + apply A. apply in_app_iff. auto.
  - split; [discriminate|]. intro A. exfalso. assert (t p = true); [|congruence]. apply H. intros v Iv.
    apply A. apply in_app_iff. auto.
Qed.
Lemma max_nil : is_max_abs [] 0.
Proof. split; [apply Qle_refl|split; [intros v []|left; reflexivity]]. Qed.
Lemma is_max_eq x a b : a == b -> is_max_abs x a -> is_max_abs x b.
Proof.
  intros E (A & B & C). split; [rewrite <- E; auto|]. split; [intros v Iv; rewrite <- E; auto|].
  destruct C as [C|(v & Iv & C)]; [left; rewrite <- E; auto|right; exists v; split; auto; rewrite C; auto].
Qed.
Lemma is_min_eq t x a b : a == b -> is_min t x a -> is_min t x b.
Proof.
  intros E (A & B & C). split; [rewrite <- E; auto|]. split; [intros v Iv; rewrite <- E; auto|].
  destruct C as [C|(v & Iv & C)]; [left; rewrite <- E; auto|right; exists v; split; auto; rewrite C; auto].
Qed.
Lemma pick_max a b : (if Qltb b a then a else b) == Qmax a b.
Proof.
  unfold Qltb. destruct (Qle_bool a b) eqn:E; cbn.
  - apply Qle_bool_iff in E. symmetry. apply Q.max_r. auto.
  - assert (L : b < a) by (apply Qnot_le_lt; intro F; apply Qle_bool_iff in F; congruence).
    symmetry. apply Q.max_l. apply Qlt_le_weak. auto.
Qed.
Lemma pick_min a b : (if Qltb a b then a else b) == Qmin a b.
Proof.
  unfold Qltb. destruct (Qle_bool b a) eqn:E; cbn.
  - apply Qle_bool_iff in E. symmetry. apply Q.min_r. auto.
  - assert (L : a < b) by (apply Qnot_le_lt; intro F; apply Qle_bool_iff in F; congruence).
    symmetry. apply Q.min_l. apply Qlt_le_weak. auto.
Qed.
Lemma inf_loop l : Forall (fun p : list (list Q) => p <> []) l -> forall x n, is_max_abs x n ->
  exists m, c_inf_loop n l = Some m /\ is_max_abs (x ++ concat (concat l)) m.
Proof.
  induction 1 as [|p l Hp H IH]; intros x n Hn; cbn.
  - exists n. rewrite app_nil_r. auto.
  - destruct (inf_all p) as [arg|] eqn:E.
    + apply inf_spec in E. rewrite concat_app, app_assoc. apply IH.
      eapply is_max_eq; [symmetry; apply pick_max|]. apply max_app; auto.
    + exfalso. destruct p; [apply Hp; auto|discriminate].
Qed.
Lemma min_loop l : Forall (fun p : list (list Q) => p <> []) l -> forall x n, is_min Q_maxv x n ->
  exists m, c_min_loop n l = Some m /\ is_min Q_maxv (x ++ concat (concat l)) m.
Proof.
  induction 1 as [|p l Hp H IH]; intros x n Hn; cbn.
  - exists n. rewrite app_nil_r. auto.
  - destruct (min_all p) as [arg|] eqn:E.
    + apply min_spec in E. rewrite concat_app, app_assoc. apply IH.
      eapply is_min_eq; [symmetry; apply pick_min|]. apply min_app; auto.
    + exfalso. destruct p; [apply Hp; auto|discriminate].
Qed.
Lemma zip_cat {A B} (p : list (list A)) : forall (q : list (list B)) rk, zip p q = Some rk ->
  map fst rk = p /\ map snd rk = q.
Proof.
  induction p as [|a p IH]; intros [|b q] rk H; try discriminate; [inversion H; auto|].
  cbn in H. destruct (zip p q) as [l|] eqn:E; [|discriminate]. inversion H; subst. destruct (IH _ _ E). cbn. split; f_equal; auto.
Qed.
Lemma dot_loop x : forall y s d, length x = length y -> c_dot_loop s x y = Some d ->
  exists e, zip (concat (concat x)) (concat (concat y)) = Some e /\ d == s + sumQ (map (fun p => fst p * snd p) e).
Proof.
  induction x as [|p x IH]; intros [|q y] s d L H; try discriminate; cbn in H.
  - inversion H; subst. exists []. cbn. split; auto. ring.
  - destruct (zip p q) as [rk|] eqn:E; [|discriminate]. destruct (dot_all rk) as [v|] eqn:F; [|discriminate].
    apply zip_cat in E as [E1 E2]. apply dot_spec in F as (e1 & Z1 & V). subst p q.
    apply IH in H as (e2 & Z2 & V2); [|cbn in L; lia]. exists (e1 ++ e2). cbn [concat]. rewrite !concat_app. split.
    + apply zip_app; auto.
    + rewrite V2, V, map_app, sumQ_app. ring.
Qed.
Lemma two_loop (l : list (list (list R))) : forall s : R,
  fold_left (fun s p => Rplus s (Rmult (two_all p) (two_all p))) l s = (s + sumsq (concat (concat l)))%R.
Proof.
  induction l as [|p l IH]; intro s; cbn; [ring|]. rewrite IH, concat_app, sumsq_app, two_spec, sqrt_sqrt by apply sumsq_nonneg. ring.
Qed.
Lemma two_whole c : whole c -> c_two c = Some (sqrt (sumsq (all_entries c))).
Proof.
  intro W. unfold c_two. rewrite visited_whole by auto. cbn. f_equal. f_equal. rewrite two_loop. unfold all_entries. ring.
Qed.
