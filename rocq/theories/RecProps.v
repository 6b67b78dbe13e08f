(** Properties C71 (recourse-approximation evaluator), C72 (objective reported by the primal decomposition),
    C73 (its convergence measures). *)
From Coq Require Import List Bool Arith Reals Lia Lra.
From Verif Require Import RingKit InertiaModel InertiaProofs RecModel RecSpec RecProofs RecProofs2.
Import ListNotations.
Open Scope R_scope.

(** ** C71 *)
(** the evaluator holds [nc] entries of each vector, the coupled positions are inside the user's vector of
    size [n], and no other size has been used before *)
Definition usable (e : evr) (n : nat) : Prop :=
  length (e_g e) = length (e_idx e) /\ length (e_h e) = length (e_idx e) /\ length (e_x0 e) = length (e_idx e) /\
  in_range (e_idx e) n /\ match e_work e with Some w => w = n | None => True end.

(** Value, gradient and curvature belong together: along every line the value is the quadratic with slope
    the gradient and second derivative the curvature, and each is added to what the caller passed in. *)
Theorem C71_derivatives_partial : forall e n x d t obj grad hess,
  usable e n -> length x = n -> length d = n -> length grad = n -> length hess = length (e_idx e) ->
  exists f0 f1 g e' h,
    eval_f e x obj = Some f0 /\ eval_f e (along t d x) obj = Some f1 /\
    eval_grad e n x grad = Some (g, e') /\ eval_hess e hess = Some h /\
    length g = n /\ length h = length hess /\
    f1 - f0 = t * (inner g d - inner grad d)
       + t * t / 2 * rsum (length (e_idx e)) (fun j => (ent h j - ent hess j) * (ent d (pos (e_idx e) j) * ent d (pos (e_idx e) j))).
Proof.
  intros e n x d t obj grad hess (Hg & Hh & H0 & Hr & Hw) Hx Hd HG HH.
  assert (W : wf e) by (unfold wf; auto).
  destruct (eval_grad_ok e n x grad W Hw Hx HG Hr) as (out & E & L & V).
  destruct (axpy_ok 1 (e_h e) hess) as (h & Eh & Lh & Vh); [congruence|].
  eexists _, _, out, _, h. split; [apply eval_f_ok; auto; rewrite Hx; auto|].
  split; [apply eval_f_ok; auto; rewrite along_length, Hx; auto; congruence|].
  split; [exact E|]. split; [exact Eh|]. split; [exact L|]. split; [exact Lh|].
  rewrite quad_along by congruence.
  rewrite (scatter_inner (e_idx e) n (slope e x) grad out d HG L Hr V).
  rewrite (rsum_ext _ (fun j => (ent h j - ent hess j) * (ent d (pos (e_idx e) j) * ent d (pos (e_idx e) j)))
     (fun j => ent (e_h e) j * (ent d (pos (e_idx e) j) * ent d (pos (e_idx e) j)))).
  - ring.
  - intros j Hj. rewrite Vh. ring.
Qed.
(** At the point it was built at, the evaluator adds exactly the value and the gradient it was given. *)
Theorem C71_interpolates_partial : forall e n x obj grad,
  usable e n -> length x = n -> length grad = n -> pick (e_idx e) x = e_x0 e ->
  eval_f e x obj = Some (obj + e_val e) /\
  exists g e', eval_grad e n x grad = Some (g, e') /\ length g = n /\
    forall k, ent g k = ent grad k + spread (e_idx e) (ent (e_g e)) k.
Proof.
  intros e n x obj grad (Hg & Hh & H0 & Hr & Hw) Hx HG HP.
  assert (W : wf e) by (unfold wf; auto).
  assert (HZ : forall j, (j < length (e_idx e))%nat -> ent x (pos (e_idx e) j) - ent (e_x0 e) j = 0).
  { intros j Hj. rewrite <- HP, pick_ent by auto. ring. }
  split.
  - rewrite eval_f_ok; auto; [|rewrite Hx; auto]. f_equal. unfold quad.
    rewrite !rsum_zero; [ring| |]; intros j Hj; rewrite HZ by auto; ring.
  - destruct (eval_grad_ok e n x grad W Hw Hx HG Hr) as (out & E & L & V).
    eexists out, _. split; [exact E|]. split; [exact L|]. intro k. rewrite V. f_equal. unfold spread.
    apply rsum_ext. intros j Hj. destruct (Nat.eqb k (pos (e_idx e) j)); auto. unfold slope. rewrite HZ by auto. ring.
Qed.
(** With nonnegative curvature the term added is convex: it lies above each of its tangents. *)
Theorem C71_convex_partial : forall e n x z obj grad,
  usable e n -> length x = n -> length z = n -> length grad = n ->
  (forall j, (j < length (e_idx e))%nat -> 0 <= ent (e_h e) j) ->
  exists fx fz g e', eval_f e x obj = Some fx /\ eval_f e z obj = Some fz /\ eval_grad e n x grad = Some (g, e') /\
    fx + (inner g (along (-1) x z) - inner grad (along (-1) x z)) <= fz.
Proof.
  intros e n x z obj grad Hu Hx Hz HG Hp. set (d := along (-1) x z).
  assert (Ld : length d = n) by (unfold d; rewrite along_length; congruence).
  destruct (C71_derivatives_partial e n x d 1 obj grad (repeat 0 (length (e_idx e))) Hu Hx Ld HG (repeat_length _ _))
    as (f0 & f1 & g & e' & h & E0 & E1 & Eg & Eh & Lg & Lh & HF).
  exists f0, f1, g, e'. split; [exact E0|]. split.
  - rewrite <- E1. f_equal. apply ent_ext.
    + rewrite along_length; congruence.
    + intros i Hi. rewrite along_ent by congruence. unfold d. rewrite along_ent by congruence. ring.
  - split; [exact Eg|].
    assert (0 <= rsum (length (e_idx e)) (fun j => (ent h j - ent (repeat 0 (length (e_idx e))) j) * (ent d (pos (e_idx e) j) * ent d (pos (e_idx e) j)))).
    { apply rsum_nonneg. intros j Hj. apply Rmult_le_pos; [|apply Rle_0_sqr].
      destruct Hu as (_ & Hh & _). unfold eval_hess in Eh. apply axpy_inv in Eh. destruct Eh as (_ & _ & Vh). rewrite Vh.
      specialize (Hp j Hj). lra. }
    lra.
Qed.

(** any mixture of evaluations, all with vectors of size [n] *)
Inductive eop := EF (x : list R) (obj : R) | EG (x grad : list R) | EH (hess : list R).
Definition eop_ok (e : evr) (n : nat) (o : eop) : Prop :=
  match o with
  | EF x _ => length x = n | EG x grad => length x = n /\ length grad = n | EH h => length h = length (e_idx e)
  end.
(** one call and the evaluator it leaves; hiopInterfacePrimalDecomp.cpp 118-181 *)
Definition edo (n : nat) (o : eop) (e : evr) : option evr :=
  match o with
  | EF x obj => match eval_f e x obj with Some _ => Some e | None => None end
  | EG x grad => match eval_grad e n x grad with Some (_, e') => Some e' | None => None end
  | EH h => match eval_hess e h with Some _ => Some e | None => None end
  end.
(** Evaluations do not disturb each other: after any of them, in any order, none has failed and every answer
    is the one a fresh evaluator gives. *)
Theorem C71_repeatable_partial : forall e n os, usable e n -> (forall o, In o os -> eop_ok e n o) ->
  exists e', ofold (edo n) os e = Some e' /\
    (forall x obj, eval_f e' x obj = eval_f e x obj) /\ (forall h, eval_hess e' h = eval_hess e h) /\
    (forall x grad, length x = n -> length grad = n ->
       exists g e1 e2, eval_grad e' n x grad = Some (g, e1) /\ eval_grad e n x grad = Some (g, e2)).
Proof.
  intros e n os Hu. 
  assert (Hgen : forall os w, usable (Evr (e_idx e) (e_val e) (e_g e) (e_h e) (e_x0 e) w) n -> (forall o, In o os -> eop_ok e n o) ->
    exists w', ofold (edo n) os (Evr (e_idx e) (e_val e) (e_g e) (e_h e) (e_x0 e) w) = Some (Evr (e_idx e) (e_val e) (e_g e) (e_h e) (e_x0 e) w')
      /\ usable (Evr (e_idx e) (e_val e) (e_g e) (e_h e) (e_x0 e) w') n).
  { clear os. induction os as [|o os IH]; intros w HU Ho.
    - exists w. split; [reflexivity|exact HU].
    - assert (Hw : wf (Evr (e_idx e) (e_val e) (e_g e) (e_h e) (e_x0 e) w)) by (destruct HU as (?&?&?&?&?); unfold wf; auto).
      assert (Hr : in_range (e_idx e) n) by (destruct HU as (?&?&?&?&?); auto).
      specialize (Ho o (or_introl eq_refl)) as Ho1. cbn [ofold]. destruct o as [x obj|x grad|h]; cbn [edo eop_ok] in *.
      + rewrite eval_f_ok by (auto; cbn [e_idx]; rewrite Ho1; auto). apply IH; auto. intros o Hin. apply Ho. right. auto.
      + destruct Ho1 as [Hx HG].
        destruct (eval_grad_ok (Evr (e_idx e) (e_val e) (e_g e) (e_h e) (e_x0 e) w) n x grad Hw) as (out & E & _ & _); auto.
        { destruct HU as (?&?&?&?&?); auto. }
        rewrite E. cbn [e_idx e_val e_g e_h e_x0]. apply IH.
        * destruct HU as (?&?&?&?&?). unfold usable. cbn in *. auto.
        * intros o Hin. apply Ho. right. auto.
      + unfold eval_hess. destruct Hw as (_ & Hh & _). cbn [e_h e_idx] in *.
        destruct (axpy_ok 1 (e_h e) h) as (l & El & _); [congruence|]. rewrite El. apply IH; auto.
        intros o Hin. apply Ho. right. auto. }
  intro Ho. destruct e as [i v g h x0 w]. cbn in *. destruct (Hgen os w Hu Ho) as (w' & E & HU'). exists (Evr i v g h x0 w').
  split; [exact E|]. split; [reflexivity|]. split; [reflexivity|]. intros x grad Hx HG.
  destruct Hu as (?&?&?&?&Hw). destruct HU' as (?&?&?&?&Hw').
  destruct (eval_grad_ok (Evr i v g h x0 w) n x grad) as (o1 & E1 & L1 & V1); auto; [unfold wf; auto|].
  destruct (eval_grad_ok (Evr i v g h x0 w') n x grad) as (o2 & E2 & L2 & V2); auto; [unfold wf; auto|].
  exists o1. eexists _, _. split; [|exact E1]. rewrite E2. f_equal. f_equal. apply ent_ext; [congruence|].
  intros k _. rewrite V1, V2. reflexivity.
Qed.
(** three variables of which the third and the first are coupled, in that order *)
Example C71_case : let e := Evr [2;0]%nat 5 [1;2] [3;4] [0;1] None in
  usable e 3 /\ eval_f e [1;7;0] 10 = Some 15 /\
  exists e', eval_grad e 3 [2;7;1] [10;20;30] = Some ([16;20;34], e').
Proof.
  cbn zeta. split; [|split].
  - unfold usable, in_range. cbn. repeat split; auto. intros i [<-|[<-|[]]]; lia.
  - cbn. f_equal. lra.
  - cbn. eexists. f_equal. f_equal. repeat (apply f_equal2; [lra|]). reflexivity.
Qed.
(** An evaluator that has been used with [n] variables cannot be used for a smaller problem: its buffer keeps
    the first size, although a fresh evaluator with the same data answers. *)
Theorem C71_resized_refuted : exists e x grad y grady g e' g2 e2,
  usable e 2 /\ usable e 1 /\ eval_grad e 2 x grad = Some (g, e') /\ length x = 2%nat /\ length grad = 2%nat /\
  length y = 1%nat /\ length grady = 1%nat /\
  eval_grad e 1 y grady = Some (g2, e2) /\ eval_grad e' 1 y grady = None.
Proof.
  exists (Evr [0%nat] 0 [1] [1] [0] None), [0;0], [0;0], [0], [0]. eexists _, _, _, _.
  split. { unfold usable, in_range. cbn. repeat split; auto. intros i [<-|[]]; lia. }
  split. { unfold usable, in_range. cbn. repeat split; auto. intros i [<-|[]]; lia. }
  split; [reflexivity|]. repeat (split; [reflexivity|]). reflexivity.
Qed.
Print Assumptions C71_derivatives_partial.
Print Assumptions C71_interpolates_partial.
Print Assumptions C71_convex_partial.
Print Assumptions C71_repeatable_partial.
Print Assumptions C71_resized_refuted.

(** ** C72 *)
(** In every iteration, for every rule choosing the curvature, every base case, recourse terms and master
    solutions: the base-case value is the base case at the current point, the recourse value is the average
    of the terms there (their sum is the objective printed), and the approximation handed to the master has
    that value and the average gradient at that point. *)
Theorem C72_reported_objective_partial : forall n nS idx basef rf rg sol rule h k l x o,
  (length idx < n)%nat \/ idx = seq 0 n ->
  run n nS idx basef rf rg sol rule h k = Some l -> In (x, o) l ->
  o_base o + o_rec o = basef x + average nS (fun i => snd (rf i (pick idx x))) /\
  o_base o = basef x /\
  eval_f (o_e o) x (basef x) = Some (basef x + average nS (fun i => snd (rf i (pick idx x)))) /\
  forall gb, length x = n -> length gb = n -> usable (o_e o) n ->
    exists g e', eval_grad (o_e o) n x gb = Some (g, e') /\
      forall j, ent g j = ent gb j + spread idx (fun c => average nS (fun i => ent (snd (rg i (pick idx x))) c)) j.
Proof.
  intros n nS idx basef rf rg sol rule h k l x o Hn HR Hin.
  destruct (run_good n nS idx basef rf rg sol rule h k l Hn HR _ Hin) as (Hr & HB & HC & W & HI & HV & HX & HG & _).
  cbn [fst snd] in *. split; [rewrite HB, HC; reflexivity|]. split; [exact HB|]. split.
  - rewrite eval_f_ok; [|exact W|rewrite HI; exact Hr]. f_equal. f_equal. unfold quad. rewrite HX, HI, HV, HC.
    rewrite !rsum_zero; [ring| |]; intros j Hj; rewrite pick_ent by auto; ring.
  - intros gb Hx Hg Hu. destruct (C71_interpolates_partial (o_e o) n x 0 gb Hu Hx Hg) as (_ & g & e' & E & L & V).
    { rewrite HI, HX. reflexivity. }
    exists g, e'. split; [exact E|]. intro j. rewrite V. f_equal. rewrite HI. unfold spread. apply rsum_ext. intros c Hc.
    destruct (Nat.eqb j (pos idx c)); auto.
Qed.

(** base case (x-2)^2/2, one recourse term x^2/2 - 1, master solved exactly *)
Definition ex_base (x : list R) : R := (ent x 0 - 2) * (ent x 0 - 2) / 2.
Definition ex_rf (i : nat) (x : list R) : bool * R := (true, ent x 0 * ent x 0 / 2 - 1).
Definition ex_rg (i : nat) (x : list R) : bool * list R := (true, [ent x 0]).
Definition ex_sol (e : option evr) : list R :=
  match e with
  | None => [2]
  | Some e => [(2 - ent (e_g e) 0 + ent (e_h e) 0 * ent (e_x0 e) 0) / (1 + ent (e_h e) 0)]
  end.
Definition ex_lims : lims := Lims 1 1000000 (/ 2) 5.
Definition ex_h : hst := Hst 0 0 0 [0] [0] [0] [0] 0 1.
Definition ex_run := run 1 1 [0%nat] ex_base ex_rf ex_rg ex_sol (code_rule ex_lims) ex_h.

Lemma ex_run_2 : exists o1 o2 cf,
  ex_run 2 = Some [([2], o1); ([4 / 3], o2)] /\
  o_e o1 = Evr [0%nat] 1 [2] [2] [2] None /\ o_base o1 = 0 /\ o_rec o1 = 1 /\
  o_e o2 = Evr [0%nat] (- / 9) [4 / 3] [1] [4 / 3] None /\ o_base o2 = 2 / 9 /\ o_rec o2 = - / 9 /\
  o_conv o2 = Some (cf, 0).
Proof.
  set (e1 := Evr [0%nat] 1 [2] [2] [2] None). set (e2 := Evr [0%nat] (- / 9) [4 / 3] [1] [4 / 3] None).
  assert (S1 : ex_sol (Some e1) = [4 / 3]) by (unfold ex_sol, e1, ent; cbn; f_equal; field).
  assert (A1 : rmin 1000000 (rmax 1 (2 * 2 / 2 / 1 * 1)) = 2).
  { unfold rmax. replace (rltb 1 (2 * 2 / 2 / 1 * 1)) with true by (symmetry; apply rltb_true; lra).
    unfold rmin. replace (rltb _ 1000000) with true by (symmetry; apply rltb_true; lra). field. }
  assert (F1 : eval_f e1 [4 / 3] (ex_base [4 / 3]) = Some (/ 3)).
  { unfold e1, ex_base, ent. cbn. f_equal. field. }
  assert (F2 : exists f2, eval_f e2 (ex_sol (Some e2)) (ex_base (ex_sol (Some e2))) = Some f2) by (eexists; reflexivity).
  destruct F2 as [f2 F2].
  pose proof (run1 ex_base ex_rf ex_rg ex_sol ex_lims ex_h 2 1 2 (/ 3) 1 eq_refl) as P1.
  assert (R1 : ex_rf 0 [2] = (true, 1)) by (unfold ex_rf, ent; cbn; f_equal; field).
  specialize (P1 R1 eq_refl R1_neq_R0 eq_refl). cbn zeta in P1. cbn [l_amax l_amin ex_lims] in P1. rewrite A1 in P1.
  fold e1 in P1. rewrite S1 in P1. specialize (P1 F1).
  pose proof (run1s ex_base ex_rf ex_rg ex_sol ex_lims (4 / 3) (/ 3) (ex_base [2]) 1 0 0 [0] [0] 2 2 2 1 1 [2] [2] [2] (- / 9) (4 / 3) f2) as P2.
  assert (R2 : ex_rf 0 [4 / 3] = (true, - / 9)) by (unfold ex_rf, ent; cbn; f_equal; field).
  assert (B2 : ex_base [2] = 0) by (unfold ex_base, ent; cbn; field). rewrite B2 in *.
  specialize (P2 R2 eq_refl). cbn zeta in P2.
  assert (N1 : - / 9 <> 0) by lra. assert (N2 : 4 / 3 <> 0) by lra. specialize (P2 N1 N2).
  match type of P2 with ?D <> 0 -> _ => assert (ND : D <> 0) by lra; specialize (P2 ND); clear ND end.
  assert (A2 : rmin (l_amax ex_lims) (rmax (l_amin ex_lims) (4 / 3 * (4 / 3) / 2 / - / 9 *
     ratio_tr ex_lims ((0 + 1 - - / 9 - (/ 3 - (1 + 2 * (4 / 3 - 2) + / 2 * 2 * ((4 / 3 - 2) * (4 / 3 - 2))))) /
        (1 + 0 - (1 + 2 * (4 / 3 - 2) + / 2 * 2 * ((4 / 3 - 2) * (4 / 3 - 2))) - (/ 3 - (1 + 2 * (4 / 3 - 2) + / 2 * 2 * ((4 / 3 - 2) * (4 / 3 - 2)))))) 1)) = 1).
  { match goal with |- context [ratio_tr _ ?q _] => replace q with (4 / 3) by field end.
    unfold ratio_tr. cbn [ex_lims l_amax l_amin l_rmax l_rmin].
    replace (rltb (4 / 3) (/ 4)) with false by (symmetry; apply rltb_false; lra).
    replace (rltb (3 / 4) (4 / 3)) with true by (symmetry; apply rltb_true; lra).
    unfold rmax at 2. replace (rltb (/ 2) (1 * (3 / 4))) with true by (symmetry; apply rltb_true; lra).
    unfold rmin at 2. replace (rltb (1 * (3 / 4)) 5) with true by (symmetry; apply rltb_true; lra).
    replace (4 / 3 * (4 / 3) / 2 / - / 9 * (1 * (3 / 4))) with (-6) by field.
    unfold rmax. replace (rltb 1 (-6)) with false by (symmetry; apply rltb_false; lra).
    unfold rmin. replace (rltb 1 1000000) with true by (symmetry; apply rltb_true; lra). reflexivity. }
  rewrite A2 in P2. fold e2 in P2. specialize (P2 F2). destruct P2 as (s' & cf & P2).
  eexists _, _, cf. unfold ex_run, run. cbn [passes]. cbn [h_fkm1 h_lin h_s h_y ex_h] in P1.
  rewrite P1. cbn [p_x]. fold e1 in P2. rewrite P2.
  cbn [start p_x ex_sol]. split; [reflexivity|]. cbn [o_e o_base o_rec o_conv].
  repeat (split; [first [reflexivity|field|lra]|]).
  f_equal. f_equal. replace (4 / 3 - 2 - 1 * (4 / 3 - 2)) with 0 by ring. rewrite Rabs_R0. unfold Rdiv. ring.
Qed.
Example C72_case : exists o1 o2,
  ex_run 2 = Some [([2], o1); ([4 / 3], o2)] /\ o_base o2 + o_rec o2 = / 9 /\ usable (o_e o2) 1.
Proof.
  destruct ex_run_2 as (o1 & o2 & cf & E & _ & _ & _ & E2 & B & C & _). exists o1, o2. split; [exact E|].
  split; [rewrite B, C; field|]. rewrite E2. unfold usable, in_range. cbn. repeat split; auto. intros i [<-|[]]; lia.
Qed.
(** When all variables are coupled, the coupled part of the iterate is taken in the natural order and the list
    of coupled indices is not consulted, while the approximation handed to the master uses the list: with
    the list [1;0] it does not have the recourse value at the current point. *)
Theorem C72_reordered_refuted : exists basef rf rg sol h x o,
  run 2 1 [1;0]%nat basef rf rg sol (code_rule ex_lims) h 1 = Some [(x, o)] /\
  length x = 2%nat /\ o_rec o = 1 /\ eval_f (o_e o) x 0 = Some 3.
Proof.
  exists (fun _ => 0), (fun _ x => (true, ent x 0)), (fun _ x => (true, [1; 0])), (fun _ => [1; 2]), ex_h, [1; 2].
  set (e := Evr [1;0]%nat 1 [1;0] [1;1] [1;2] None). exists (Out 0 1 None e).
  split; [|split; [reflexivity|split; [reflexivity|]]].
  2: { unfold e. cbn. f_equal. lra. }
  unfold run. cbn [passes]. unfold pass, start. cbn [p_x p_h p_e p_base]. unfold coupled. cbn [length Nat.ltb Nat.leb Nat.eqb].
  unfold terms. cbn [seq ofold snd fst length repeat]. unfold ent. cbn [nth snd fst axpy map].
  replace ((0 + 1) / INR 1) with 1 by (change (INR 1) with 1; field).
  replace (1 / INR 1 * (0 + 1 * 1)) with 1 by (change (INR 1) with 1; field).
  replace (1 / INR 1 * (0 + 1 * 0)) with 0 by (change (INR 1) with 1; field).
  unfold code_rule, alpha_f, initialize. cbn [h_fk h_ratio ex_h]. destruct (Req_EM_T 1 0) as [Hz|_]; [lra|].
  rewrite norm2_sq. replace (sq [1; 0]) with 1 by (unfold sq, ent; cbn; ring).
  cbn [ex_lims l_amax l_amin]. unfold rmax. replace (rltb 1 (1 / 2 / 1 * 1)) with false by (symmetry; apply rltb_false; lra).
  unfold rmin. replace (rltb 1 1000000) with true by (symmetry; apply rltb_true; lra).
  unfold set_alpha, set_x0, set_rhess, set_rgrad, set_rval, evr_new. cbn [fst snd h_fk h_alpha e_idx e_val e_g e_h e_x0 e_work repeat length].
  unfold master. fold e. unfold e at 1. cbn [eval_f gather nth_error axpy dotp cmult e_idx e_val e_g e_h e_x0]. reflexivity.
Qed.
(** A recourse evaluation that reports failure is used like any other: the whole run is the same when every
    evaluation of every term fails. *)
Theorem C72_failures_ignored_refuted : forall n nS idx basef rf rg sol rule h k,
  run n nS idx basef (fun i x => (false, snd (rf i x))) (fun i x => (false, snd (rg i x))) sol rule h k
  = run n nS idx basef rf rg sol rule h k.
Proof.
  reflexivity.
Qed.
Print Assumptions C72_reported_objective_partial.
Print Assumptions C72_reordered_refuted.
Print Assumptions C72_failures_ignored_refuted.

(** ** C73 *)
(** the diagonal of the approximation in force is [a] times the identity *)
Definition coefficient (e : evr) (a : R) : Prop := e_h e = repeat a (length (e_idx e)).
(** [gb] is the gradient of the base case at a point returned by the master solver for the approximation [e]:
    stationarity of base case plus approximation, entry by entry *)
Definition master_stationary (e : evr) (x gb : list R) : Prop :=
  forall i, (i < length x)%nat ->
    ent gb i + spread (e_idx e) (fun j => ent (e_g e) j + ent (e_h e) j * (ent x (pos (e_idx e) j) - ent (e_x0 e) j)) i = 0.
(** the gradient of base case plus average recourse at [x] *)
Definition total_gradient nS idx (rg : nat -> list R -> bool * list R) (x gb total : list R) : Prop :=
  length total = length x /\
  forall i, (i < length x)%nat -> ent total i = ent gb i +
      spread idx (fun j => average nS (fun t => ent (snd (rg t (pick idx x))) j)) i.

(** In every iteration after the first, for every rule choosing the curvature: when the master returned a
    stationary point, the gradient measure times the norm of the recourse gradient is the norm of the gradient
    of the whole objective, up to (change of the coefficient) * (length of the step); so it is exact when the
    coefficient did not change. *)
Theorem C73_gradient_measure_partial : forall n nS idx basef rf rg sol rule h k a p q b gb total,
  (length idx < n)%nat \/ idx = seq 0 n -> NoDup idx ->
  run n nS idx basef rf rg sol rule h k = Some (a ++ p :: q :: b) ->
  length (fst q) = n -> master_stationary (o_e (snd p)) (fst q) gb -> total_gradient nS idx rg (fst q) gb total ->
  exists a1 a2 cf cg step, coefficient (o_e (snd p)) a1 /\ coefficient (o_e (snd q)) a2 /\
    o_conv (snd q) = Some (cf, cg) /\
    length step = length idx /\
    (forall j, (j < length idx)%nat -> ent step j = ent (fst q) (pos idx j) - ent (fst p) (pos idx j)) /\
    sqrt (sq (e_g (o_e (snd q)))) <> 0 /\
    Rabs (cg * sqrt (sq (e_g (o_e (snd q)))) - sqrt (sq total)) <= Rabs (a2 - a1) * sqrt (sq step) /\
    (a1 = a2 -> cg * sqrt (sq (e_g (o_e (snd q)))) = sqrt (sq total)).
Proof.
  intros n nS idx basef rf rg sol rule h k a p q b gb total Hn Hd HR Hx Hst [Ht Htot].
  assert (Gp : good_out nS idx basef rf rg (fst p) (snd p)).
  { eapply run_good; eauto. apply in_or_app. right. left. reflexivity. }
  assert (Gq : good_out nS idx basef rf rg (fst q) (snd q)).
  { eapply run_good; eauto. apply in_or_app. right. right. left. reflexivity. }
  assert (Ip : e_idx (o_e (snd p)) = idx) by (destruct Gp as (_&_&_&_&Ip&_); auto).
  assert (Iq : e_idx (o_e (snd q)) = idx) by (destruct Gq as (_&_&_&_&Iq&_); auto).
  unfold master_stationary in Hst. rewrite Hx in *. rewrite Ip in Hst.
  destruct (grad_measure n nS idx basef rf rg sol rule Hn h k _ a p q b gb total Hd HR eq_refl Hx) as
    (a1 & a2 & cf & cg & H1 & H2 & H3 & H4 & s & Ls & Vs & HM); auto.
  { intros i Hi. rewrite <- (Hst i Hi). f_equal. unfold spread. apply rsum_ext. intros j Hj.
    unfold slope. rewrite Ip. reflexivity. }
  rewrite !norm2_sqrt in HM. rewrite norm2_sqrt in H4.
  exists a1, a2, cf, cg, s. unfold coefficient. rewrite Ip, Iq.
  split; [exact H1|]. split; [exact H2|]. split; [exact H3|]. split; [exact Ls|]. split; [exact Vs|]. split; [exact H4|].
  split; [exact HM|]. intros ->. rewrite (Rminus_diag_eq a2 a2 eq_refl), Rabs_R0, Rmult_0_l in HM.
  pose proof (Rabs_pos (cg * sqrt (sq (e_g (o_e (snd q)))) - sqrt (sq total))).
  apply Rminus_diag_uniq. destruct (Req_dec (cg * sqrt (sq (e_g (o_e (snd q)))) - sqrt (sq total)) 0) as [E|E]; [exact E|].
  apply Rabs_pos_lt in E. lra.
Qed.
(** the same for the function measure: it is the change of the objective the master minimised, up to the change
    of the coefficient *)
Theorem C73_function_measure_partial : forall n nS idx basef rf rg sol rule h k a p q b,
  (length idx < n)%nat \/ idx = seq 0 n ->
  run n nS idx basef rf rg sol rule h k = Some (a ++ p :: q :: b) ->
  exists a1 a2 cf cg step f0 f1, coefficient (o_e (snd p)) a1 /\ coefficient (o_e (snd q)) a2 /\
    o_conv (snd q) = Some (cf, cg) /\
    length step = length idx /\
    (forall j, (j < length idx)%nat -> ent step j = ent (fst q) (pos idx j) - ent (fst p) (pos idx j)) /\
    eval_f (o_e (snd p)) (fst p) (basef (fst p)) = Some f0 /\
    eval_f (o_e (snd p)) (fst q) (basef (fst q)) = Some f1 /\
    Rabs (cf - Rabs (f1 - f0)) <= / 2 * Rabs (a2 - a1) * sq step.
Proof.
  intros n nS idx basef rf rg sol rule h k a p q b Hn HR.
  assert (Gp : good_out nS idx basef rf rg (fst p) (snd p)).
  { eapply run_good; eauto. apply in_or_app. right. left. reflexivity. }
  assert (Gq : good_out nS idx basef rf rg (fst q) (snd q)).
  { eapply run_good; eauto. apply in_or_app. right. right. left. reflexivity. }
  assert (Ip : e_idx (o_e (snd p)) = idx) by (destruct Gp as (_&_&_&_&Ip&_); auto).
  assert (Iq : e_idx (o_e (snd q)) = idx) by (destruct Gq as (_&_&_&_&Iq&_); auto).
  destruct (fcn_measure n nS idx basef rf rg sol rule Hn h k _ a p q b HR eq_refl) as
    (a1 & a2 & cf & cg & H1 & H2 & H3 & s & f0 & f1 & H4 & H5 & H6 & H7 & H8).
  exists a1, a2, cf, cg, s, f0, f1. unfold coefficient. rewrite Ip, Iq. auto 10.
Qed.
(** The measures use the new coefficient for the step made under the old one.  Base case (x-2)^2/2, one recourse
    term x^2/2 - 1, the master solved exactly, lower limit 1 for the coefficient: in the second iteration the
    gradient measure is 0 (the solver stops and reports success) at x = 4/3 where the gradient of the whole
    objective is 2/3. *)
Theorem C73_false_convergence_refuted : exists p q gb total cf,
  ex_run 2 = Some [p; q] /\
  length (fst q) = 1%nat /\ master_stationary (o_e (snd p)) (fst q) gb /\
  total_gradient 1 [0%nat] ex_rg (fst q) gb total /\
  gb = [ent (fst q) 0 - 2] /\
  o_conv (snd q) = Some (cf, 0) /\ sqrt (sq total) = 2 / 3.
Proof.
  destruct ex_run_2 as (o1 & o2 & cf & E & E1 & _ & _ & _ & _ & _ & C).
  exists ([2], o1), ([4 / 3], o2), [4 / 3 - 2], [2 / 3], cf. cbn [fst snd].
  split; [exact E|]. split; [reflexivity|]. split.
  { rewrite E1. intros i Hi. cbn in Hi. destruct i as [|i]; [|lia]. unfold spread, ent, pos. cbn. lra. }
  split.
  { split; [reflexivity|]. intros i Hi. cbn in Hi. destruct i as [|i]; [|lia]. unfold spread, average, ent, pos. cbn. lra. }
  split; [reflexivity|]. split; [exact C|].
  replace (sq [2 / 3]) with (Rsqr (2 / 3)) by (unfold sq, ent, Rsqr; cbn; ring). apply sqrt_Rsqr. lra.
Qed.
(** the hypotheses of the two theorems hold in this run, and the bound on the gradient measure is attained *)
Example C73_case : exists p q gb total,
  ex_run 2 = Some ([] ++ p :: q :: []) /\ [0%nat] = seq 0 1 /\ NoDup [0%nat] /\ length (fst q) = 1%nat /\
  master_stationary (o_e (snd p)) (fst q) gb /\ total_gradient 1 [0%nat] ex_rg (fst q) gb total /\
  coefficient (o_e (snd p)) 2 /\ coefficient (o_e (snd q)) 1 /\
  Rabs (0 * sqrt (sq (e_g (o_e (snd q)))) - sqrt (sq total)) = Rabs (1 - 2) * sqrt (sq [4 / 3 - 2]).
Proof.
  destruct C73_false_convergence_refuted as (p & q & gb & total & cf & E & L & M & T & G & C & N).
  destruct ex_run_2 as (o1 & o2 & cf' & E' & E1 & _ & _ & E2 & _). rewrite E in E'. injection E' as -> ->.
  exists ([2], o1), ([4 / 3], o2), gb, total. cbn [fst snd] in *.
  split; [exact E|]. split; [reflexivity|]. split; [repeat constructor; intros []|]. split; [exact L|]. split; [exact M|].
  split; [exact T|]. split; [rewrite E1; reflexivity|]. split; [rewrite E2; reflexivity|].
  rewrite N, Rmult_0_l. replace (sq [4 / 3 - 2]) with (Rsqr (4 / 3 - 2)) by (unfold sq, ent, Rsqr; cbn; ring).
  rewrite sqrt_Rsqr_abs. rewrite (Rabs_left (0 - 2 / 3)), (Rabs_left (1 - 2)), (Rabs_left (4 / 3 - 2)) by lra. lra.
Qed.
Print Assumptions C73_gradient_measure_partial.
Print Assumptions C73_function_measure_partial.
Print Assumptions C73_false_convergence_refuted.
