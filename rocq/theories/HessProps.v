(** C33, C54: the quasi-Newton matrix. *)
From Coq Require Import List Bool Arith ZArith Lia Ring Field QArith Qcanon.
From Verif Require Import RingKit.
From Verif Require Import FloatBase MuModel PackModel LineSearchProofs SparseProps ScaleProps.
From Verif Require Import HessModel HessSpec HessProofs HessAlgModel HessAlgSpec HessAlgProofs HessAlgProofs2.
Import ListNotations.
Close Scope Qc_scope. Close Scope Q_scope. Open Scope nat_scope.

(** * C33 *)
Section C33.
Variables (V W J : Type).
Variables (axpy : b64 -> V -> V -> V) (infnorm nrm : V -> b64) (dot ydot : V -> V -> b64) (jt : J -> V -> b64 -> W -> V).
Variables (junk sigma0 : b64) (strat : strategy) (lmax : nat).
Notation hrun := (hrun V W J axpy infnorm nrm dot ydot jt junk sigma0 strat lmax).
Notation usable_pairs := (usable_pairs V W J axpy infnorm nrm dot jt).

(** after any history the update has succeeded and the memory holds the last (at most lmax) usable pairs, oldest
    first, with L and D the strictly lower triangle and the diagonal of their products *)
Theorem C33_memory : forall os, exists h, hrun os = Some h /\
  mem_of f_zero ydot dot (lastn lmax (usable_pairs os)) (h_mem V W J h) /\
  length (m_S (h_mem V W J h)) = Nat.min lmax (length (usable_pairs os)).
Proof.
  intros os. destruct (hrun_ok V W J axpy infnorm nrm dot ydot jt junk sigma0 strat lmax os) as (h & E & _ & M & _).
  exists h. split; [exact E|]. split; [exact M|]. destruct M as (-> & _). rewrite map_length. unfold lastn. rewrite skipn_length. lia.
Qed.
(** every stored pair has positive curvature *)
Theorem C33_curvature : (forall v, not_neg (nrm v)) -> forall os h, hrun os = Some h ->
  Forall (fun d => flt f_zero d = true) (m_D (h_mem V W J h)).
Proof.
  intros HN os h E. destruct (hrun_ok V W J axpy infnorm nrm dot ydot jt junk sigma0 strat lmax os) as (h' & E' & _ & M & _).
  rewrite E in E'. injection E' as <-. destruct M as (_ & _ & -> & _). rewrite Forall_map.
  assert (A : Forall (fun q => flt f_zero (dot (fst q) (snd q)) = true) (usable_pairs os)).
  { assert (NN : forall x, not_neg x -> nneg x = true) by (intros [[]|[]| |[] ? ?]; cbn; unfold not_neg; try discriminate; reflexivity).
    clear E. induction os as [|o [|o' os] IH]; [constructor|constructor|].
    cbn [HessSpec.usable_pairs]. apply Forall_app. split; [|exact IH].
    destruct (usable V infnorm nrm dot (pair_of V W J axpy jt o o')) eqn:U; [|constructor]. constructor; [|constructor].
    set (q := pair_of V W J axpy jt o o') in *. unfold usable in U. apply andb_prop in U as (_ & U).
    assert (M2 : forall x y, nneg x = true -> nneg y = true -> nneg (fmul x y) = true).
    { intros [sx|sx| |sx mx ex] [sy|sy| |sy my ey]; cbn; intros X Y; try reflexivity;
        destruct sx, sy; try discriminate; try reflexivity. apply bra_nneg. }
    assert (X : nneg (fmul (fmul (nrm (fst q)) (nrm (snd q))) h_sqrteps) = true).
    { apply M2; [apply M2; apply NN; apply HN|reflexivity]. }
    revert U X. generalize (fmul (fmul (nrm (fst q)) (nrm (snd q))) h_sqrteps) (dot (fst q) (snd q)). clear.
    intros [[]|[]| |[] ? ?] [[]|[]| |[] ? ?]; cbn; try discriminate; reflexivity. }
  unfold lastn. apply Forall_forall. intros x I. rewrite Forall_forall in A. apply A.
  rewrite <- (firstn_skipn (length (usable_pairs os) - lmax) (usable_pairs os)). apply in_or_app. right. exact I.
Qed.
(** once a pair was accepted sigma is within its safeguards.  Missing: before that it is the option's value, see
    [C33_sigma_refuted] *)
Theorem C33_sigma_partial : forall os h, hrun os = Some h -> usable_pairs os <> [] ->
  fle h_min (h_sigma V W J h) = true /\ fle (h_sigma V W J h) h_max = true.
Proof.
  intros os h E NE. destruct (hrun_ok V W J axpy infnorm nrm dot ydot jt junk sigma0 strat lmax os) as (h' & E' & _ & _ & S).
  rewrite E in E'. injection E' as <-. destruct (usable_pairs os); [contradiction|exact S].
Qed.
End C33.
Print Assumptions C33_memory.
Print Assumptions C33_curvature.
Print Assumptions C33_sigma_partial.

(** dimension one, no constraints *)
Definition axpy1 (a x y : b64) : b64 := fadd y (fmul a x).
Definition obs1 (x g : Z) : obs b64 unit unit := Obs b64 unit unit (fofZ x) (fofZ g) tt tt tt tt.
Definition run1 (sigma0 : b64) (st : strategy) (lmax : nat) := hrun b64 unit unit axpy1 fabs fabs fmul fmul (fun _ v _ _ => v) f_zero sigma0 st lmax.
(** with sigma0 = 0 (in the option's range) sigma starts below its safeguard *)
Theorem C33_sigma_refuted : exists os h, run1 f_zero Sty 3 os = Some h /\ os <> [] /\ fle h_min (h_sigma _ _ _ h) = false.
Proof. exists [obs1 0 0; obs1 1 (-1)]. eexists. split; [vm_compute; reflexivity|]. split; [discriminate|reflexivity]. Qed.
Print Assumptions C33_sigma_refuted.

(** five iterates, the third step has negative curvature; memory of length two *)
Definition os1 := [obs1 0 0; obs1 1 3; obs1 3 5; obs1 4 1; obs1 6 9].
Example C33_memory_case : exists h, run1 f_one StyInv 2 os1 = Some h /\
  m_S (h_mem _ _ _ h) = [fofZ 2; fofZ 2] /\ m_Y (h_mem _ _ _ h) = [fofZ 2; fofZ 8] /\
  m_D (h_mem _ _ _ h) = [fofZ 4; fofZ 16] /\ m_L (h_mem _ _ _ h) = [f_zero; f_zero; fofZ 4; f_zero] /\ h_sigma _ _ _ h = fofZ 4.
Proof. eexists. split; [vm_compute; reflexivity|]. vm_compute. repeat split. Qed.
Example C33_curvature_case : exists h, run1 f_one StyInv 2 os1 = Some h /\ (forall v, not_neg (fabs v)) /\ m_D (h_mem _ _ _ h) = [fofZ 4; fofZ 16].
Proof. eexists. split; [vm_compute; reflexivity|]. split; [|reflexivity]. intros [[]|[]| |[] ? ?]; reflexivity. Qed.
Example C33_sigma_partial_case : exists h, run1 f_one StyInv 2 os1 = Some h /\ usable_pairs b64 unit unit axpy1 fabs fabs fmul (fun _ v _ _ => v) os1 <> [].
Proof. eexists. split; [vm_compute; reflexivity|]. vm_compute. discriminate. Qed.

(** * C54 *)
Section C54.
Variable K : cfield.
Variable n : nat.
Notation vec := (nat -> K).
Notation B := (bfgs K n).
Variable solveV : nat -> (nat -> nat -> K) -> vec -> vec.

Lemma remember_ok (junk : K) lmax qs : exists m, remember K n junk lmax qs = Some m /\ mem_of f0 (inner K n) (inner K n) (lastn lmax qs) m.
Proof.
  induction qs as [|q qs IH] using rev_ind.
  - exists mem0. split; [reflexivity|]. unfold lastn. cbn. repeat split; auto. intros i j s t H. destruct i; discriminate.
  - destruct IH as (m & E & M). unfold remember in *. rewrite ofold_app, E. cbn [ofold].
    destruct (store_ok vec K f0 junk (vdot K n) (vdot K n) lmax (fst q) (snd q) _ _ M) as (m' & E' & M').
    { unfold lastn. rewrite skipn_length. lia. }
    rewrite E'. exists m'. split; [reflexivity|]. rewrite lastn_snoc in M'. rewrite <- surjective_pairing in M'. exact M'.
Qed.

(** whatever pairs were accepted: with an exact factorization of the small matrix, the solve solves the system of the
    BFGS matrix of the pairs kept plus the barrier diagonal *)
Theorem C54_solve : forall junk lmax qs, exists m, remember K n junk lmax qs = Some m /\
  forall sigma Dx old r, defined K n sigma (lastn lmax qs) ->
  (forall p, p < n -> sigma +! Dx p <> f0) -> exactV K n solveV sigma (dhinv K sigma Dx) m old ->
  let x := hsolve K n solveV sigma (dhinv K sigma Dx) m old r in
  forall p, p < n -> B sigma (lastn lmax qs) x p +! Dx p *! x p = r p.
Proof.
  intros junk lmax qs. destruct (remember_ok junk lmax qs) as (m & E & M). exists m. split; [exact E|].
  intros sigma Dx old r HD HN HV. exact (hsolve_ok K n solveV sigma Dx _ m old r M HD HN HV).
Qed.
(** the reduced matrix: entry (i,j) is beta*W_ij + alpha * x_i^T (B+Dx)^{-1} x_j *)
Theorem C54_reduced : forall junk lmax qs, exists m, remember K n junk lmax qs = Some m /\
  forall sigma Dx old beta W alpha X i j, defined K n sigma (lastn lmax qs) ->
  (forall p, p < n -> sigma +! Dx p <> f0) -> exactV K n solveV sigma (dhinv K sigma Dx) m old ->
  exists u, (forall p, p < n -> B sigma (lastn lmax qs) u p +! Dx p *! u p = X j p) /\
  sym_times_inv K n solveV sigma (dhinv K sigma Dx) m old beta W alpha X i j =
  beta *! W (Nat.min i j) (Nat.max i j) +! alpha *! inner K n (X i) u.
Proof.
  intros junk lmax qs. destruct (remember_ok junk lmax qs) as (m & E & M). exists m. split; [exact E|].
  intros sigma Dx old beta W alpha X i j HD HN HV.
  destruct (sym_times_ok K n solveV sigma Dx _ m old beta W alpha X i j M HD HN HV) as (u & U & ->).
  exists u. split; [exact U|]. destruct (Nat.leb_spec i j).
  - rewrite Nat.min_l, Nat.max_r by assumption. reflexivity.
  - rewrite Nat.min_r, Nat.max_l by lia. reflexivity.
Qed.
(** the newest pair kept satisfies the secant equation *)
Theorem C54_secant : forall lmax qs s y sigma, 0 < lmax -> defined K n sigma (lastn lmax (qs ++ [(s, y)])) ->
  forall p, p < n -> B sigma (lastn lmax (qs ++ [(s, y)])) s p = y p.
Proof.
  intros lmax qs s y sigma L HD.
  assert (E : exists a, lastn lmax (qs ++ [(s, y)]) = a ++ [(s, y)]).
  { unfold lastn. rewrite app_length. cbn [length]. exists (skipn (length qs + 1 - lmax) qs).
    rewrite skipn_app. replace (length qs + 1 - lmax - length qs) with 0 by lia. reflexivity. }
  destruct E as (a & E). rewrite E in *. exact (secant K n sigma a s y HD).
Qed.
(** the product, when the square roots are exact and no curvature falls below epsilon.  Missing: pairs whose curvature
    is below epsilon, see [C54_product_refuted] *)
Theorem C54_product_partial : forall junk lmax qs, exists m, remember K n junk lmax qs = Some m /\
  forall sq small eps sigma Dx beta y alpha x, defined K n sigma (lastn lmax qs) -> roots_ok K n sq small sigma (lastn lmax qs) ->
  forall p, p < n -> times_vec K n sq small eps sigma Dx m beta y alpha x p = beta *! y p +! alpha *! (B sigma (lastn lmax qs) x p +! Dx p *! x p).
Proof.
  intros junk lmax qs. destruct (remember_ok junk lmax qs) as (m & E & M). exists m. split; [exact E|].
  intros sq small eps sigma Dx beta y alpha x HD HR. exact (times_vec_ok K n sq small eps sigma Dx _ m beta y alpha x M HD HR).
Qed.
End C54.
Print Assumptions C54_solve.
Print Assumptions C54_reduced.
Print Assumptions C54_secant.
Print Assumptions C54_product_partial.

(** over the rationals: with sigma > 0, accepted pairs of positive curvature and a nonnegative barrier diagonal the matrix
    is positive definite, so nothing in the construction divides by zero and the solution is the only one *)
Theorem C54_posdef : forall n (sigma : Qc_field) qs (Dx : nat -> Qc_field) lmax, (0 < sigma)%Qc ->
  Forall (fun w => (0 < inner Qc_field n (fst w) (snd w))%Qc) qs -> (forall p, p < n -> (0 <= Dx p)%Qc) ->
  let ps := lastn lmax qs in
  let M := fun x p => bfgs Qc_field n sigma ps x p +! Dx p *! x p in
  defined Qc_field n sigma ps /\
  (forall x, (exists p, p < n /\ x p <> f0) -> (0 < inner Qc_field n x (M x))%Qc) /\
  (forall x x', (forall p, p < n -> M x p = M x' p) -> forall p, p < n -> x p = x' p).
Proof.
  intros n sigma qs Dx lmax HS HF HD ps M.
  assert (HF' : Forall (fun w => (0 < inner Qc_field n (fst w) (snd w))%Qc) ps).
  { unfold ps, lastn. apply Forall_forall. intros x I. rewrite Forall_forall in HF. apply HF.
    rewrite <- (firstn_skipn (length qs - lmax) qs). apply in_or_app. right. exact I. }
  destruct (pd_bfgs n sigma ps HS HF') as (PD & DF). split; [exact DF|].
  assert (POS : forall x, (0 <= inner Qc_field n x (M x))%Qc /\ (inner Qc_field n x (M x) = f0 -> forall p, p < n -> x p = f0)).
  { intros x. unfold M. rewrite inner_add. destruct (PD x) as (P1 & P2).
    assert (DD : (0 <= inner Qc_field n x (fun p => Dx p *! x p))%Qc).
    { apply (sum_nn n (fun p => x p *! (Dx p *! x p))). intros i Hi.
      change (0 <= x i * (Dx i * x i))%Qc. replace (x i * (Dx i * x i))%Qc with (Dx i * (x i * x i))%Qc by ring.
      apply qmul_nn; [apply HD; exact Hi|apply qsq]. }
    split; [apply qadd_nn; assumption|]. intros E. apply qadd_z in E as (E1 & _); [exact (P2 E1)|exact P1|exact DD]. }
  split.
  - intros x (p & Hp & NZ). destruct (POS x) as (P1 & P2). destruct (Qcle_lt_or_eq _ _ P1) as [L|E]; [exact L|].
    exfalso. apply NZ. apply P2; [symmetry; exact E|exact Hp].
  - intros x x' E p Hp. set (d := fun p => x p -! f1 *! x' p).
    assert (MD : forall p, p < n -> M d p = f0).
    { intros r Hr. unfold M, d. rewrite (bfgs_lin Qc_field n sigma ps x f1 x' r Hr). specialize (E r Hr). unfold M in E.
      change ((bfgs Qc_field n sigma ps x r - 1 * bfgs Qc_field n sigma ps x' r + Dx r * (x r - 1 * x' r) = 0)%Qc).
      change ((bfgs Qc_field n sigma ps x r + Dx r * x r = bfgs Qc_field n sigma ps x' r + Dx r * x' r)%Qc) in E.
      revert E. generalize (bfgs Qc_field n sigma ps x r : Qc) (bfgs Qc_field n sigma ps x' r : Qc) (Dx r : Qc) (x r : Qc) (x' r : Qc).
      intros a b c e f E. replace (a - 1 * b + c * (e - 1 * f))%Qc with ((a + c * e) - (b + c * f))%Qc by ring. rewrite E. ring. }
    destruct (POS d) as (_ & Z). assert (Z' : d p = f0).
    { apply Z; [|exact Hp]. unfold inner. apply (sumn_zero Qc_field). intros r Hr. rewrite (MD r Hr). change ((d r : Qc) * 0 = 0)%Qc. apply Qcmult_0_r. }
    unfold d in Z'. change ((x p : Qc) - 1 * (x' p : Qc) = 0)%Qc in Z'. rewrite Qcmult_1_l in Z'. exact (qsub0 _ _ Z').
Qed.
Print Assumptions C54_posdef.

(** a 2 x 2 solver *)
Definition cramer {K : cfield} (N : nat) (M : nat -> nat -> K) (r : nat -> K) : nat -> K :=
  let d := M 0 0 *! M 1 1 -! M 0 1 *! M 1 0 in
  fun i => if i =? 0 then (M 1 1 *! r 0 -! M 0 1 *! r 1) /! d else (M 0 0 *! r 1 -! M 1 0 *! r 0) /! d.
Section Cr.
Variable K : cfield.
Add Field kcr : (fth K).
Lemma cramer_ok (M : nat -> nat -> K) r : M 0 0 *! M 1 1 -! M 0 1 *! M 1 0 <> f0 -> solves K 2 M r (cramer 2 M r).
Proof. intros H i Hi. destruct i as [|[|]]; [| |lia]; unfold sumn, cramer; cbn; field; exact H. Qed.
End Cr.
(** two variables, two pairs offered, memory of length one *)
Definition v2 (a b : Z) : nat -> Qc_field := fun p => if p =? 0 then q a else q b.
Definition qs2 := [(v2 1 1, v2 2 1); (v2 1 2, v2 3 3)].
Definition m2 : mem (nat -> Qc_field) Qc_field := get mem0 (remember Qc_field 2 (q 7) 1 qs2).
Lemma def2 : defined Qc_field 2 (q 1) (lastn 1 qs2).
Proof. intros [|? [|]] w b E; try discriminate. injection E as <- <-. split; apply qneq; vm_compute; reflexivity. Qed.
Lemma exact2 : exactV Qc_field 2 cramer (q 1) (dhinv Qc_field (q 1) (v2 1 2)) m2 (fun _ _ => q 9).
Proof. intros r. apply cramer_ok. apply qneq. vm_compute. reflexivity. Qed.
Lemma nz2 : forall p, p < 2 -> q 1 +! v2 1 2 p <> f0.
Proof. intros p Hp. destruct p as [|[|]]; [| |lia]; apply qneq; vm_compute; reflexivity. Qed.
Example C54_solve_case : remember Qc_field 2 (q 7) 1 qs2 = Some m2 /\ defined Qc_field 2 (q 1) (lastn 1 qs2) /\
  (forall p, p < 2 -> q 1 +! v2 1 2 p <> f0) /\ exactV Qc_field 2 cramer (q 1) (dhinv Qc_field (q 1) (v2 1 2)) m2 (fun _ _ => q 9) /\
  map (fun p => this (hsolve Qc_field 2 cramer (q 1) (dhinv Qc_field (q 1) (v2 1 2)) m2 (fun _ _ => q 9) (v2 1 0) p)) [0; 1] = [(16 # 43)%Q; (-3 # 43)%Q].
Proof. split; [unfold m2; got|]. split; [exact def2|]. split; [exact nz2|]. split; [exact exact2|]. vm_compute. reflexivity. Qed.
Example C54_reduced_case : remember Qc_field 2 (q 7) 1 qs2 = Some m2 /\ defined Qc_field 2 (q 1) (lastn 1 qs2) /\
  (forall p, p < 2 -> q 1 +! v2 1 2 p <> f0) /\ exactV Qc_field 2 cramer (q 1) (dhinv Qc_field (q 1) (v2 1 2)) m2 (fun _ _ => q 9).
Proof. split; [unfold m2; got|]. split; [exact def2|]. split; [exact nz2|exact exact2]. Qed.
Example C54_secant_case : 0 < 1 /\ defined Qc_field 2 (q 1) (lastn 1 ([(v2 1 1, v2 2 1)] ++ [(v2 1 2, v2 3 3)])).
Proof. split; [lia|exact def2]. Qed.
Example C54_posdef_case : Forall (fun w => (0 < inner Qc_field 2 (fst w) (snd w))%Qc) qs2.
Proof. repeat constructor. Qed.
(** s = (2,0), y = (8,0): s.y = 16, s.B s = 4 *)
Definition qs3 := [(v2 2 0, v2 8 0)].
Definition sq3 (r : Qc_field) : Qc_field := if Qeq_bool (this r) 16 then q 4 else q 2.
Example C54_product_partial_case : remember Qc_field 2 (q 7) 1 qs3 = Some (get mem0 (remember Qc_field 2 (q 7) 1 qs3)) /\
  defined Qc_field 2 (q 1) (lastn 1 qs3) /\ roots_ok Qc_field 2 sq3 (fun _ => false) (q 1) (lastn 1 qs3).
Proof.
  split; [got|]. split.
  - intros [|? [|]] w b E; try discriminate. injection E as <- <-. split; apply qneq; vm_compute; reflexivity.
  - intros [|? [|]] w b E; try discriminate. injection E as <- <-. split; [reflexivity|]. split.
    + apply Qc_is_canon. vm_compute. reflexivity.
    + intros v ->. apply Qc_is_canon. vm_compute. reflexivity.
Qed.

(** one variable, s = y = 2^-27, epsilon = 2^-52, sigma = 1: the curvature 2^-54 is positive, the square roots taken are
    exact, yet the product is not that with the BFGS matrix (here the identity): the factor is 1/4 *)
Definition tw (k : positive) : Qc_field := Q2Qc (1 # 2 ^ k).
Definition sm4 (r : Qc_field) : bool := negb (Qle_bool (1 # 2 ^ 52) (this r)).
Definition sq4 (r : Qc_field) : Qc_field := if Qeq_bool (this r) (1 # 2 ^ 52) then tw 26 else tw 27.
Definition qs4 : list ((nat -> Qc_field) * (nat -> Qc_field)) := [(fun _ => tw 27, fun _ => tw 27)].
Theorem C54_product_refuted : exists (sq : Qc_field -> Qc_field) small eps sigma Dx m beta y alpha x,
  sq eps *! sq eps = eps /\ (forall w, In w qs4 -> sq (inner Qc_field 1 (fst w) (fst w)) *! sq (inner Qc_field 1 (fst w) (fst w)) = inner Qc_field 1 (fst w) (fst w)) /\
  remember Qc_field 1 f0 1 qs4 = Some m /\ defined Qc_field 1 sigma (lastn 1 qs4) /\
  (forall r, small r = true <-> (this r < this eps)%Q) /\
  times_vec Qc_field 1 sq small eps sigma Dx m beta y alpha x 0 <> beta *! y 0 +! alpha *! (bfgs Qc_field 1 sigma (lastn 1 qs4) x 0 +! Dx 0 *! x 0).
Proof.
  exists sq4, sm4, (tw 52), (q 1), (fun _ => q 0), (get mem0 (remember Qc_field 1 f0 1 qs4)), (q 0), (fun _ => q 0), (q 1), (fun _ => q 1).
  split; [apply Qc_is_canon; vm_compute; reflexivity|]. split; [intros w [<-|[]]; apply Qc_is_canon; vm_compute; reflexivity|].
  split; [got|]. split.
  { intros [|? [|]] w b E; try discriminate. injection E as <- <-. split; apply qneq; vm_compute; reflexivity. }
  split; [|apply qneq; vm_compute; reflexivity].
  intros r. unfold sm4. change (this (tw 52)) with (1 # 2 ^ 52)%Q.
  destruct (Qle_bool (1 # 2 ^ 52) (this r)) eqn:E; cbn [negb].
  - apply Qle_bool_iff in E. split; [discriminate|]. intros H. exfalso. exact (Qlt_not_le _ _ H E).
  - split; [|reflexivity]. intros _. apply Qnot_le_lt. intros H. apply Qle_bool_iff in H. rewrite H in E. discriminate.
Qed.
Print Assumptions C54_product_refuted.
