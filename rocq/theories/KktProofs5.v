From Coq Require Import List Bool Arith Lia Ring Field.
From Verif Require Import RingKit.
From Verif Require Import KktModel KktModel2 KktSpec KktProofs KktProofs2 KktProofs3.
Import ListNotations.

(** * The normal equations *)
Section P.
Variable K : cfield.
Add Field kf : (fth K).
Notation vec := (nat -> K).
Notation mat := (nat -> nat -> K).
Variable P : prob K.
Let n := nx P.
Let q := neq P.
Let m := ni P.
Let J := ne_jac K P.

Definition hx (it : iter K) (e : deltas K) : vec := fun i => barrier_x K P it i +! e_wx e i +! p_H P i i.
Definition hd (it : iter K) (e : deltas K) : vec := fun i => barrier_d K P it i +! e_wd e i.
Definition wmat (it : iter K) (e : deltas K) : mat := fun i j =>
  sumn (n + m) (fun k => J i k *! (f1 /! KktModel.put K n (hx it e) (hd it e) k *! J j k)).
Definition built (st : nstate K) (it : iter K) (e : deltas K) : Prop :=
  n_first st = Some (J, fun i => p_H P i i) /\ (forall i j, n_jdj st i j = wmat it e i j) /\
  (forall i j, n_mat st i j = wmat it e i j +! (if i =? j then KktModel.put K q (e_cc e) (e_cd e) i else f0)) /\
  (forall i, n_hx st i = hx it e i) /\ (forall i, n_hd st i = hd it e i).
Lemma wmat_ext it e e' : (forall i, e_wx e i = e_wx e' i /\ e_wd e i = e_wd e' i) -> forall i j, wmat it e i j = wmat it e' i j.
Proof.
  intros H i j. apply sumn_ext. intros k _. unfold KktModel.put, hx, hd. destruct (k <? n); rewrite ?(proj1 (H _)), ?(proj2 (H _)); reflexivity.
Qed.
Lemma build_ok it e dual st : (n_first st = None /\ dual = false \/ (exists it0 e0, built st it0 e0 /\
    (dual = true -> it = it0 /\ forall i, e_wx e i = e_wx e0 i /\ e_wd e i = e_wd e0 i))) -> built (ne_build K P it e dual st) it e.
Proof.
  intros H. unfold built, ne_build. cbv zeta. cbn [n_first n_jdj n_mat n_hx n_hd].
  assert (F : match n_first st with Some f => f | None => (ne_jac K P, fun i => p_H P i i) end = (J, fun i => p_H P i i)).
  { destruct H as [(-> & _)|(it0 & e0 & (-> & _) & _)]; reflexivity. }
  rewrite F. cbn [fst snd].
  assert (W : forall i j, (if dual then n_jdj st else fun i j => sumn (n + m) (fun k => J i k *!
      (f1 /! KktModel.put K n (fun i => barrier_x K P it i +! e_wx e i +! p_H P i i) (fun i => barrier_d K P it i +! e_wd e i) k *! J j k))) i j = wmat it e i j).
  { intros i j. destruct H as [(_ & ->)|(it0 & e0 & (_ & B & _) & D)]; [reflexivity|]. destruct dual; [|reflexivity].
    destruct (D eq_refl) as (-> & E). rewrite B. apply wmat_ext. intros k. destruct (E k). split; congruence. }
  split; [reflexivity|]. split; [exact W|]. split; [|split; reflexivity]. intros i j. f_equal. exact (W i j).
Qed.
Lemma builds_ok bs : forall it e dual st prev, (prev = None /\ n_first st = None \/ exists it0 e0, prev = Some (it0, e0) /\ built st it0 e0) ->
  reports_ok K prev (bs ++ [(it, e, dual)]) ->
  built (ne_builds K (map (fun b => match b with (it, e, dual) => (P, it, e, dual) end) (bs ++ [(it, e, dual)])) st) it e.
Proof.
  assert (STEP : forall it e (dual : bool) st prev, (prev = None /\ n_first st = None \/ exists it0 e0, prev = Some (it0, e0) /\ built st it0 e0) ->
    (dual = true -> exists e0, prev = Some (it, e0) /\ forall i, e_wx e i = e_wx e0 i /\ e_wd e i = e_wd e0 i) -> built (ne_build K P it e dual st) it e).
  { intros it e dual st prev H R. apply build_ok. destruct H as [(-> & N)|(it0 & e0 & -> & B)].
    - left. split; [exact N|]. destruct dual; [|reflexivity]. destruct (R eq_refl) as (? & X & _). discriminate.
    - right. exists it0, e0. split; [exact B|]. intros D. destruct (R D) as (e1 & [= -> ->] & X). split; [reflexivity|exact X]. }
  induction bs as [|((it1, e1), d1) bs IH]; intros it e dual st prev H R.
  - cbn in R. cbn. apply (STEP it e dual st prev H). exact (proj1 R).
  - cbn [app map] in *. cbn in R. destruct R as (R1 & R2). unfold ne_builds. cbn [fold_left].
    apply (IH it e dual _ (Some (it1, e1))); [|exact R2]. right. exists it1, e1. split; [reflexivity|]. exact (STEP _ _ _ _ _ H R1).
Qed.

Section Dir.
Variables (it : iter K) (e : deltas K) (r : resid K) (st : nstate K) (S : dsolver K) (w : iter K).
Hypothesis I : interior K P it.
Hypothesis HH : forall i j, i < n -> j < n -> i <> j -> p_H P i j = f0.
Hypothesis Nx : forall i, i < n -> xdiag K P it i +! e_wx e i +! p_H P i i <> f0.
Hypothesis Nd : forall i, i < m -> ddiag K P it e i <> f0.
Hypothesis B : built st it e.
Lemma hx_eq i : n_hx st i = xdiag K P it i +! e_wx e i +! p_H P i i.
Proof. destruct B as (_ & _ & _ & -> & _). unfold hx. rewrite barrier_x_eq. reflexivity. Qed.
Lemma hd_eq i : n_hd st i = ddiag K P it e i.
Proof. destruct B as (_ & _ & _ & _ & ->). unfold hd. rewrite (barrier_d_eq K P it e). reflexivity. Qed.
Lemma wmat_sym i j : wmat it e i j = wmat it e j i.
Proof. apply sumn_ext. intros. ring. Qed.
Lemma mat_sym i j : symu K (n_mat st) i j = wmat it e i j +! (if i =? j then KktModel.put K q (e_cc e) (e_cd e) i else f0).
Proof.
  destruct B as (_ & _ & M & _). unfold symu. destruct (i <=? j); rewrite M; [reflexivity|]. rewrite wmat_sym.
  destruct (Nat.eqb_spec i j) as [->|N]; [rewrite Nat.eqb_refl; reflexivity|]. destruct (Nat.eqb_spec j i); [congruence|reflexivity].
Qed.
(** the product with the matrix, through the columns of J *)
Lemma wprod (s : vec) i : sumn (q + m) (fun j => wmat it e i j *! s j) =
  sumn (n + m) (fun k => J i k *! (f1 /! KktModel.put K n (hx it e) (hd it e) k) *! tmv K (q + m) J s k).
Proof.
  unfold wmat, tmv. set (iv := fun k => f1 /! KktModel.put K n (hx it e) (hd it e) k).
  rewrite (sumn_ext K (q + m) _ (fun j => sumn (n + m) (fun k => J i k *! (iv k *! J j k) *! s j))).
  - rewrite sumn_swap. apply sumn_ext. intros k _. rewrite <- sumn_scale. apply sumn_ext. intros j _. unfold iv. ring.
  - intros j _. rewrite (Rmul_comm (F_R (fth K))), <- sumn_scale. apply sumn_ext. intros. apply (Rmul_comm (F_R (fth K))).
Qed.
Lemma jt_x (s : vec) k : k < n -> tmv K (q + m) J s k = tmv K q (p_Jc P) (cut K 0 s) k +! tmv K m (p_Jd P) (cut K q s) k.
Proof.
  intros Hk. unfold tmv. rewrite sumn_app. f_equal; apply sumn_ext; intros j Hj; unfold J, ne_jac, cut; fold q n.
  - rewrite (proj2 (Nat.ltb_lt _ _) Hj), (proj2 (Nat.ltb_lt _ _) Hk). reflexivity.
  - rewrite (proj2 (Nat.ltb_ge (q + j) q)) by lia. rewrite (proj2 (Nat.ltb_lt _ _) Hk). replace (q + j - q) with j by lia. reflexivity.
Qed.
Lemma jt_d (s : vec) k : k < m -> tmv K (q + m) J s (n + k) = fopp (s (q + k)).
Proof.
  intros Hk. unfold tmv. rewrite sumn_app.
  rewrite (sumn_zero K q) by (intros j Hj; unfold J, ne_jac; fold q n; rewrite (proj2 (Nat.ltb_lt _ _) Hj), (proj2 (Nat.ltb_ge (n + k) n)) by lia; ring).
  rewrite (sumn_ext K m _ (fun j => (if k =? j then fopp f1 else f0) *! s (q + j))).
  - rewrite (sumn_diag0 K m k (fopp f1) (fun j => s (q + j)) Hk). ring.
  - intros j Hj. unfold J, ne_jac. fold q n. rewrite (proj2 (Nat.ltb_ge (q + j) q)) by lia. rewrite (proj2 (Nat.ltb_ge (n + k) n)) by lia.
    replace (n + k - n) with k by lia. replace (q + j - q) with j by lia. reflexivity.
Qed.
Lemma div_sub (a b c : K) : c <> f0 -> a /! c -! b /! c = (a -! b) /! c.
Proof. intros. field. exact H. Qed.
Lemma ne_dir_ok : exact K S -> ne_dir K S P it r st = Some w -> newton K P it e r w.
Proof.
  intros EX. unfold ne_dir. fold n q m. set (rx := rx_tilde K P it r). set (rd := rd_tilde K P it r).
  destruct (S (q + m) _ _) as [s|] eqn:E; [|discriminate]. intros [= <-].
  set (dyc := cut K 0 s). set (dyd := cut K q s).
  set (dx := fun i => (rx i -! tmv K q (p_Jc P) dyc i -! tmv K m (p_Jd P) dyd i) /! n_hx st i).
  set (dd := fun i => (rd i +! dyd i) /! n_hd st i).
  assert (R : forall i, i < q + m -> sumn (q + m) (fun j => wmat it e i j *! s j) +! KktModel.put K q (e_cc e) (e_cd e) i *! s i =
     KktModel.put K q (fun i => fopp f1 *! r_yc r i +! mv K n (p_Jc P) (fun i => rx i /! n_hx st i) i)
       (fun i => fopp f1 *! r_yd r i +! mv K n (p_Jd P) (fun i => rx i /! n_hx st i) i -! rd i /! n_hd st i) i).
  { intros i Hi. rewrite <- (EX _ _ _ _ E i Hi).
    rewrite <- (sumn_diag K (q + m) i (KktModel.put K q (e_cc e) (e_cd e) i) (fun j => wmat it e i j) s Hi).
    apply sumn_ext. intros j _. f_equal. symmetry. exact (mat_sym i j). }
  assert (HX : forall k, k < n -> hx it e k = n_hx st k) by (intros k _; destruct B as (_ & _ & _ & -> & _); reflexivity).
  assert (HDD : forall k, hd it e k = n_hd st k) by (intros k; destruct B as (_ & _ & _ & _ & ->); reflexivity).
  assert (PX : forall (A : mat) i, mv K n A dx i = mv K n A (fun i => rx i /! n_hx st i) i -!
     sumn n (fun k => A i k *! (f1 /! n_hx st k) *! (tmv K q (p_Jc P) dyc k +! tmv K m (p_Jd P) dyd k))).
  { intros A i. unfold mv. rewrite <- (sumn_sub K). apply sumn_ext. intros k Hk. unfold dx. field. rewrite hx_eq. exact (Nx k Hk). }
  apply (core K P it e r dx dd dyc dyd I); fold n q m rx rd.
  - intros i Hi. unfold mv. rewrite (sumn_ext K n _ (fun j => (f0 +! (if i =? j then p_H P i i else f0)) *! dx j)).
    2:{ intros j Hj. destruct (Nat.eqb_spec i j) as [->|N]; [ring|rewrite (HH i j Hi Hj N); ring]. }
    rewrite (sumn_diag K n i (p_H P i i) (fun _ => f0) dx Hi). rewrite (sumn_zero K n) by (intros; ring).
    transitivity (n_hx st i *! dx i +! tmv K q (p_Jc P) dyc i +! tmv K m (p_Jd P) dyd i); [rewrite hx_eq; ring|].
    unfold dx. field. rewrite hx_eq. exact (Nx i Hi).
  - intros i Hi. rewrite <- hd_eq. unfold dd. field. rewrite hd_eq. exact (Nd i Hi).
  - intros i Hi. specialize (R i ltac:(lia)). rewrite !put_l in R by exact Hi. rewrite wprod, sumn_app in R.
    rewrite (sumn_ext K n _ (fun k => p_Jc P i k *! (f1 /! n_hx st k) *! (tmv K q (p_Jc P) dyc k +! tmv K m (p_Jd P) dyd k))) in R.
    2:{ intros k Hk. rewrite put_l by exact Hk. rewrite HX by exact Hk. rewrite jt_x by exact Hk. unfold J, ne_jac. fold q n.
        rewrite (proj2 (Nat.ltb_lt _ _) Hi), (proj2 (Nat.ltb_lt _ _) Hk). reflexivity. }
    rewrite (sumn_zero K m) in R.
    2:{ intros k Hk. unfold J, ne_jac. fold q n. rewrite (proj2 (Nat.ltb_lt _ _) Hi), (proj2 (Nat.ltb_ge (n + k) n)) by lia. ring. }
    rewrite PX. replace (dyc i) with (s i) by reflexivity.
    set (a := sumn n _) in *. set (b := mv K n (p_Jc P) _ i) in *.
    transitivity (b -! (a +! f0 +! e_cc e i *! s i)); [ring|]. rewrite R. ring.
  - intros i Hi. specialize (R (q + i) ltac:(lia)). rewrite !put_r in R. rewrite wprod, sumn_app in R.
    rewrite (sumn_ext K n _ (fun k => p_Jd P i k *! (f1 /! n_hx st k) *! (tmv K q (p_Jc P) dyc k +! tmv K m (p_Jd P) dyd k))) in R.
    2:{ intros k Hk. rewrite put_l by exact Hk. rewrite HX by exact Hk. rewrite jt_x by exact Hk. unfold J, ne_jac. fold q n.
        rewrite (proj2 (Nat.ltb_ge (q + i) q)) by lia. rewrite (proj2 (Nat.ltb_lt _ _) Hk). replace (q + i - q) with i by lia. reflexivity. }
    rewrite (sumn_ext K m _ (fun k => (if i =? k then fopp f1 else f0) *! ((f1 /! hd it e k) *! fopp (s (q + k))))) in R.
    2:{ intros k Hk. rewrite put_r, jt_d by exact Hk. unfold J, ne_jac. fold q n. rewrite (proj2 (Nat.ltb_ge (q + i) q)) by lia.
        rewrite (proj2 (Nat.ltb_ge (n + k) n)) by lia. replace (n + k - n) with k by lia. replace (q + i - q) with i by lia.
        rewrite (Nat.eqb_sym k i). ring. }
    rewrite (sumn_diag0 K m i (fopp f1) (fun k => (f1 /! hd it e k) *! fopp (s (q + k))) Hi) in R. rewrite HDD in R.
    rewrite PX. replace (dyd i) with (s (q + i)) by reflexivity. unfold dd. replace (dyd i) with (s (q + i)) by reflexivity.
    set (a := sumn n _) in *. set (b := mv K n (p_Jd P) _ i) in *.
    assert (NZ : n_hd st i <> f0) by (rewrite hd_eq; exact (Nd i Hi)).
    assert (X : b = r_yd r i +! rd i /! n_hd st i +! (a +! fopp f1 *! (f1 /! n_hd st i *! fopp (s (q + i))) +! e_cd e i *! s (q + i))).
    { rewrite R. ring. }
    rewrite X. field. exact NZ.
Qed.
End Dir.
End P.
