(** C82: a compound vector behaves as the vector obtained by writing its parts one after the other. *)
From Coq Require Import List Bool QArith Qabs Qminmax ZArith Reals Lra Lia.
From Verif Require Import FloatBase MuModel VecModel VecSpec RedModel RedSpec RedProofs CompModel CompSpec CompProofs.
Import ListNotations.
Open Scope Q_scope.

(** every method that changes the vector, except [addLogBarrierGrad], in any arithmetic (binary64
    included): the new entries are what the same method of an ordinary vector makes of the
    concatenations, and the parts keep their sizes *)
Theorem C82_methods_partial : forall (K : arith) (op : vop K) (y : comp (list K)) (a : list (comp (list K))),
  whole y -> length a = arity op -> is_log_grad op = false -> Forall (fun c => like c y) a ->
  exists r, comp_apply K op y a = Some r /\ whole r /\ like r y /\
            par_apply K op (entries y) (map entries a) = Some (entries r).
Proof. exact apply_flat. Qed.
Print Assumptions C82_methods_partial.

Definition cv {T} (l : list (list T)) : comp (list T) := Comp l (length l) (length (concat l)).
Example C82_methods_case :
  comp_apply Qar (Axzpy Qar 2) (cv [[1; 2]; []; [3]]) [cv [[1; 1]; []; [2]]; cv [[5; 6]; []; [7]]] =
    Some (cv [[1 + 2 * 1 * 5; 2 + 2 * 1 * 6]; []; [3 + 2 * 2 * 7]]) /\
  like (cv [[1; 1]; []; [2]]) (cv [[1; 2]; []; [3]]) /\ whole (cv [[1; 2]; []; [3]]).
Proof. repeat split; reflexivity. Qed.

(** [addLogBarrierGrad] takes the point from the pattern argument: the result does not depend on the
    point at all, and differs from the method of an ordinary vector *)
Theorem C82_log_gradient_refuted :
  (forall (K : arith) alpha (y x x' s : comp (list K)),
     comp_apply K (LogGrad K alpha) y [x; s] = comp_apply K (LogGrad K alpha) y [x'; s]) /\
  (exists (y x s r : comp (list Q)) (plain : list Q),
     whole y /\ like x y /\ like s y /\
     comp_apply Qar (LogGrad Qar 1) y [x; s] = Some r /\
     par_apply Qar (LogGrad Qar 1) (entries y) [entries x; entries s] = Some plain /\
     nth 0 (entries r) 0 == 1 /\ nth 0 plain 0 == 1 # 2).
Proof.
  split; [reflexivity|].
  exists (cv [[0]; [0]]), (cv [[2]; [4]]), (cv [[1]; [1]]).
  eexists. eexists. repeat split; try reflexivity.
Qed.
Print Assumptions C82_log_gradient_refuted.

(** sums, norms, counts and logical tests are those of the concatenation, however the parts are
    distributed over ranks *)
Theorem C82_sums : forall c : comp (list (list Q)), whole c ->
  (exists s, c_one c = Some s /\ s == sumQ (map Qabs (all_entries c))) /\
  (exists s, c_sum c = Some s /\ s == sumQ (all_entries c)) /\
  (forall v, c_num_less v c = Some (length (filter (fun a => Qltb a v) (all_entries c)))) /\
  (forall v, c_num_abs_less v c = Some (length (filter (fun a => Qltb (Qabs a) v) (all_entries c)))) /\
  (exists b, c_all_pos c = Some b /\ (b = true <-> forall v, In v (all_entries c) -> 0 < v)) /\
  (exists b, c_is_zero c = Some b /\ (b = true <-> forall v, In v (all_entries c) -> v == 0)).
Proof.
  intros c W. split; [|split; [|split; [|split; [|split]]]].
  - exact (parts_sum one_all Qabs one_spec c W).
  - destruct (parts_sum sum_all (fun v => v)) with (c := c) as (s & H & E); auto.
    + intro rk. rewrite map_id. apply sum_spec.
    + exists s. rewrite map_id in E. auto.
  - intro v. apply (parts_count (num_less_all v) (fun a => Qltb a v)); auto. intro. apply count_spec.
  - intro v. apply (parts_count (num_abs_less_all v) (fun a => Qltb (Qabs a) v)); auto. intro. apply count_spec.
  - exact (parts_all all_pos_all _ all_pos_spec c W).
  - exact (parts_all is_zero_all _ is_zero_spec c W).
Qed.
Print Assumptions C82_sums.

Theorem C82_norms : forall (c : comp (list (list Q))) (d : comp (list (list R))), whole c -> whole d ->
  Forall (fun p : list (list Q) => p <> []) (c_vecs c) ->
  (exists m, c_inf c = Some m /\ is_max_abs (all_entries c) m) /\
  (exists m, c_min c = Some m /\ is_min Q_maxv (all_entries c) m) /\
  c_two d = Some (sqrt (sumsq (all_entries d))).
Proof.
  intros c d W Wd H. split; [|split].
  - unfold c_inf. rewrite visited_whole by auto. apply (inf_loop _ H [] 0). apply max_nil.
  - unfold c_min. rewrite visited_whole by auto. apply (min_loop _ H [] Q_maxv).
    split; [apply Qle_refl|split; [intros v []|left; reflexivity]].
  - apply two_whole. auto.
Qed.
Print Assumptions C82_norms.

Theorem C82_dot_product : forall x y d, whole x -> whole y -> c_dot x y = Some d ->
  exists e, zip (all_entries x) (all_entries y) = Some e /\ d == sumQ (map (fun p => fst p * snd p) e).
Proof.
  intros x y d Wx Wy H. unfold c_dot in H. destruct (Nat.eqb _ _) eqn:E; [|discriminate].
  rewrite !visited_whole in H by auto. apply Nat.eqb_eq in E. apply dot_loop in H as (e & Z & V).
  - exists e. split; auto. rewrite V. ring.
  - unfold whole in *. congruence.
Qed.
Print Assumptions C82_dot_product.

Theorem C82_patterns : forall (lg : Q -> Q) mu kd (c : comp (list (list (Q * Q)))) (d : comp (list (list (Q * (Q * Q))))),
  whole c -> whole d ->
  (exists b, c_matches c = Some b /\ (b = true <-> forall p, In p (all_entries c) -> snd p == 0 -> fst p == 0)) /\
  (exists b, c_all_pos_pat c = Some b /\ (b = true <-> forall p, In p (all_entries c) -> ~ snd p == 0 -> 0 < fst p)) /\
  (exists s, c_log lg c = Some s /\
     s == sumQ (map (fun p => if Qeq_bool (snd p) 1 then lg (fst p) else 0) (all_entries c))) /\
  (exists s, c_damping mu kd d = Some s /\
     s == sumQ (map (fun v => kd * mu * (if Qeq_bool (fst (snd v)) 1 && Qeq_bool (snd (snd v)) 0 then fst v else 0))
                    (all_entries d))).
Proof.
  intros lg mu kd c d W Wd. split; [|split; [|split]].
  - apply (parts_all matches_all (fun p => snd p == 0 -> fst p == 0)); auto. intro rk. rewrite matches_spec.
    split; [intros A [v w]; apply A|intros A v w; apply (A (v, w))].
  - apply (parts_all all_pos_pat_all (fun p => ~ snd p == 0 -> 0 < fst p)); auto. intro rk. rewrite all_pos_pat_spec.
    split; [intros A [v w]; apply A|intros A v w; apply (A (v, w))].
  - apply parts_sum; auto. apply log_spec.
  - apply parts_sum; auto. intro rk. rewrite damping_spec. generalize (concat rk). intro l.
    induction l as [|v l IH]; cbn [map sumQ]; [ring|]. rewrite <- IH. ring.
Qed.
Print Assumptions C82_patterns.

Definition cr {T} (l : list (list (list T))) : comp (list (list T)) := Comp l (length l) 0.
Example C82_reductions_case :
  whole (cr [[[1; -(5#1)]; [2]]; [[]; [3]]]) /\
  c_inf (cr [[[1; -(5#1)]; [2]]; [[]; [3]]]) = Some 5 /\
  c_min (cr [[[1; -(5#1)]; [2]]; [[]; [3]]]) = Some (-(5#1)) /\
  option_map Qred (c_one (cr [[[1; -(5#1)]; [2]]; [[]; [3]]])) = Some 11 /\
  option_map Qred (c_dot (cr [[[1; -(5#1)]; [2]]; [[]; [3]]]) (cr [[[1; 1]; [1]]; [[]; [4]]])) = Some 10 /\
  c_num_less 3 (cr [[[1; -(5#1)]; [2]]; [[]; [3]]]) = Some 3%nat.
Proof. repeat split; vm_compute; reflexivity. Qed.

(** the step to the boundary of a compound vector is that of the concatenation, exactly, in binary64
    (NaN included) and in exact arithmetic *)
Theorem C82_step_length :
  (forall tau parts r, comp_ftb Far tau parts = Some r ->
     ftb_w_pattern Far (concat (map (fun p => fst (fst p)) parts)) (concat (map (fun p => snd (fst p)) parts))
                   tau (concat (map snd parts)) = Some r) /\
  (forall tau parts r, comp_ftb Qar tau parts = Some r ->
     ftb_w_pattern Qar (concat (map (fun p => fst (fst p)) parts)) (concat (map (fun p => snd (fst p)) parts))
                   tau (concat (map snd parts)) = Some r).
Proof. split; [exact ftb_F|exact ftb_Q]. Qed.
Print Assumptions C82_step_length.
Example C82_step_case : option_map Qred (comp_ftb Qar (1#2) [([1; 4], [-(1#1); 1], [1; 1]); ([1], [-(4#1)], [1])]) = Some (1 # 8).
Proof. vm_compute. reflexivity. Qed.

(** projecting into the bounds gives the projection of the concatenation when every variable has
    consistent bounds... *)
Theorem C82_projection_partial : forall (K : arith) (k1 k2 : K) (l : list (list (bvar K))) xs,
  project_loop K k1 k2 (concat l) = (xs, true) ->
  exists r, comp_project K k1 k2 (length l) l = Some (r, true) /\ concat r = xs.
Proof. exact project_flat. Qed.
Print Assumptions C82_projection_partial.
(** ... but inconsistent bounds are never reported *)
Theorem C82_projection_refuted :
  (forall (K : arith) (k1 k2 : K) n l r b, comp_project K k1 k2 n l = Some (r, b) -> b = true) /\
  (exists l : list (list (bvar Qar)), snd (project_loop Qar (1#100) (1#100) (concat l)) = false /\
     exists r, comp_project Qar (1#100) (1#100) (length l) l = Some (r, true)).
Proof.
  split; [exact project_true|].
  exists [[Bvar (K:=Qar) 0 1 1 (-(1#1)) 1]; [Bvar (K:=Qar) 0 (-(1#1)) 1 1 1]].
  split; [vm_compute; reflexivity|eexists; reflexivity].
Qed.
Print Assumptions C82_projection_refuted.
Example C82_projection_case : exists r, comp_project Qar (1#100) (1#100) 2
  [[Bvar (K:=Qar) (-(5#1)) 1 1 0 0]; [Bvar (K:=Qar) 0 (-(1#1)) 1 1 1]] = Some (r, true) /\ map (map (fun x => Qle_bool 0 x)) r = [[true]; [true]].
Proof. eexists. split; [reflexivity|vm_compute; reflexivity]. Qed.

(** the compound vectors made of an iterate and of a residual are whole, hold the twelve blocks one after
    the other, pair up block by block in the
    dot product, take over the blocks of another one, and are copied faithfully *)
Theorem C82_blocks :
  (forall A (sz : A -> nat) (b : blocks A), whole (from_blocks sz b)) /\
  (forall T (b : blocks (list T)), entries (from_blocks (@length T) b) =
     k_x b ++ k_d b ++ k_yc b ++ k_yd b ++ k_sxl b ++ k_sxu b ++ k_sdl b ++ k_sdu b ++ k_zl b ++ k_zu b ++ k_vl b ++ k_vu b /\
     c_size (from_blocks (@length T) b) = length (entries (from_blocks (@length T) b))) /\
  (forall (K : arith) (b b' : blocks (list K)),
     map (@length K) (c_vecs (from_blocks (@length K) b)) = map (@length K) (c_vecs (from_blocks (@length K) b')) ->
     copy_from_blocks K (from_blocks (@length K) b) b' = Some (from_blocks (@length K) b')) /\
  (forall (K : arith) (fresh : list K -> list K) (c : comp (list K)), (forall v, length (fresh v) = length v) -> whole c ->
     c_new_copy K fresh c = Some c).
Proof.
  split; [reflexivity|]. split; [|split; [exact copy_blocks_ok|exact new_copy_ok]].
  intros T b. unfold entries. cbn [from_blocks c_vecs c_size concat fold_left]. rewrite !app_nil_r. split; [reflexivity|]. rewrite !app_length. lia.
Qed.
Print Assumptions C82_blocks.
Theorem C82_block_pairing : forall (it res : blocks (list (list Q))) s d,
  let pair (f : blocks (list (list Q)) -> list (list Q)) :=
      sumQ (map (fun p => fst p * snd p) (combine (concat (f it)) (concat (f res)))) in
  c_dot (from_blocks s it) (from_blocks s res) = Some d ->
  d == pair k_x + pair k_d + pair k_yc + pair k_yd + pair k_sxl + pair k_sxu + pair k_sdl + pair k_sdu +
       pair k_zl + pair k_zu + pair k_vl + pair k_vu.
Proof.
  intros it res s d pair H.
  assert (Z : forall A B (a : list A) (b : list B) l, zip a b = Some l -> combine a b = l).
  { induction a as [|x a IH]; intros [|y b] l E; try discriminate; [inversion E; auto|].
    cbn in *. destruct (zip a b) eqn:F; [|discriminate]. inversion E. f_equal. auto. }
  assert (S : forall a p q x y dd, c_dot_loop a (p :: x) (q :: y) = Some dd ->
     exists v, c_dot_loop (a + v) x y = Some dd /\ v == sumQ (map (fun p => fst p * snd p) (combine (concat p) (concat q)))).
  { intros a p q x y dd E. cbn in E. destruct (zip p q) as [rk|] eqn:F; [|discriminate].
    destruct (dot_all rk) as [v|] eqn:G; [|discriminate]. exists v. split; auto.
    apply zip_cat in F as [<- <-]. apply dot_spec in G as (e & Ze & V). rewrite V, (Z _ _ _ _ _ Ze). reflexivity. }
  unfold c_dot in H. cbn [c_parts from_blocks Nat.eqb] in H. rewrite !visited_whole in H by reflexivity.
  cbn [c_vecs from_blocks] in H.
  do 12 (apply S in H as (? & H & ?)). cbn [c_dot_loop] in H. inversion H; subst. unfold pair.
  repeat match goal with E : ?v == sumQ _ |- _ => rewrite <- E; clear E end. ring.
Qed.
Print Assumptions C82_block_pairing.
Example C82_block_pairing_case :
  option_map Qred (c_dot (from_blocks (fun _ => 1%nat) (Blocks [[1]] [[2]] [] [[]] [[1]] [[1]] [[2]] [[2]] [[1]] [[1]] [[2]] [[2]]))
        (from_blocks (fun _ => 1%nat) (Blocks [[3]] [[4]] [] [[]] [[1]] [[-(1#1)]] [[2]] [[5]] [[1]] [[1]] [[2]] [[2]]))) = Some 35.
Proof. vm_compute. reflexivity. Qed.

(** parts added one at a time with [addVector] are not counted: no method touches them, every norm is
    zero, the size is that of the added parts *)
Theorem C82_added_parts_refuted :
  (forall (K : arith) (op : vop K) (parts : list (list K)) (args : list (list (list K))),
     (forall v, In v args -> length (concat v) = length (concat parts)) ->
     comp_apply K op (added (@length K) parts) (map (added (@length K)) args) = Some (added (@length K) parts)) /\
  (forall (parts : list (list (list Q))) sz,
     c_inf (added sz parts) = Some 0 /\ c_is_zero (added sz parts) = Some true /\ c_one (added sz parts) = Some 0) /\
  (forall (parts : list (list (list R))) sz, c_two (added sz parts) = Some 0%R) /\
  (forall (K : arith) (parts : list (list K)), c_size (added (@length K) parts) = length (concat parts)).
Proof.
  assert (G : forall A (sz : A -> nat) (l : list A) c, c_parts (fold_left (add_vector sz) l c) = c_parts c /\
     c_vecs (fold_left (add_vector sz) l c) = c_vecs c ++ l).
  { induction l as [|v l IH]; intro c; cbn; [rewrite app_nil_r; auto|].
    destruct (IH (add_vector sz c v)) as [E1 E2]. rewrite E1, E2. cbn. rewrite <- app_assoc. auto. }
  assert (P : forall A (sz : A -> nat) l, c_parts (added sz l) = 0%nat) by (intros; apply G).
  assert (Z : forall T (l : list (list T)), c_size (added (@length T) l) = length (concat l)).
  { intros T l. unfold added.
    assert (F : forall l c, c_size (fold_left (add_vector (@length T)) l c) = (c_size c + length (concat l))%nat).
    { induction l0 as [|v l0 IH]; intro c; cbn; [lia|]. rewrite IH, app_length. cbn. lia. }
    rewrite F. reflexivity. }
  assert (Vz : forall A (sz : A -> nat) l, visited (added sz l) = Some []).
  { intros. unfold visited. rewrite P. reflexivity. }
  split; [|split; [|split]].
  - intros K op parts args H. unfold comp_apply. destruct (match op with Axdzpy _ c => _ | _ => false end); auto.
    assert (C : checked K op (added (@length K) parts) (map (added (@length K)) args) = true).
    { assert (C1 : forall l, forallb (fun c => Nat.eqb (c_parts (added (@length K) parts)) (c_parts c)) (map (added (@length K)) l) = true).
      { intro l. apply forallb_forall. intros c Ic. apply in_map_iff in Ic as (w & <- & _). rewrite !P. reflexivity. }
      unfold checked. destruct op; try (apply C1; fail);
        try (rewrite firstn_map; apply C1); try (rewrite skipn_map; apply C1).
      apply forallb_forall. intros c Ic. apply in_map_iff in Ic as (w & <- & Iw). rewrite !Z. apply Nat.eqb_eq. symmetry. auto. }
    rewrite C. assert (E := P _ (@length K) parts). destruct (added (@length K) parts) as [v n s]. cbn in *. subst n. reflexivity.
  - intros parts sz. unfold c_inf, c_is_zero, c_one. rewrite Vz. cbn. auto.
  - intros parts sz. unfold c_two. rewrite Vz. cbn. f_equal. exact sqrt_0.
  - intros. apply Z.
Qed.
Print Assumptions C82_added_parts_refuted.
Example C82_added_parts_case :
  comp_apply Qar (SetZero Qar) (added (@length Q) [[1]; [2; 3]]) [] = Some (Comp [[1]; [2; 3]] 0 3).
Proof. reflexivity. Qed.
