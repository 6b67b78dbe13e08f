(** Sequences of builds and the condensed solve. *)
From Coq Require Import List Bool Arith Lia Sorted Ring Field.
From Verif Require Import RingKit PackModel PackProofs SparseModel SparseSpec SparseProofs SparseProofs2
  CsrModel CsrSpec CsrProofs CsrProofs2 CsrProofs3 CsrProofs4 CsrProofs5 CsrProofs6 CondModel CondSpec CondProofs.
Import ListNotations.

Lemma last_cons {A} (xs : list A) : forall x y, last (x :: xs) y = last xs x.
Proof.
  induction xs as [|z xs IH]; intros x y; auto. change (last (x :: z :: xs) y) with (last (z :: xs) y).
  rewrite (IH z y), (IH z x). reflexivity.
Qed.

Section P.
Variable K : cfield.
Add Field kf : (fth K).
Notation csr := (csr K).
Notation kin := (kin K).
Notation cst := (cst K).

Definition good (n m : nat) (x : kin) (s : cst) : Prop :=
  c_m (s_m s) = n /\ c_n (s_m s) = n /\ length (s_hd s) = m /\ (forall k, at_ (s_hd s) k = weights K x k) /\
  exists rs, stores (s_m s) rs /\ ordered rs /\ forall i j, i < n -> j < n -> cmat rs i j = condensed m x i j.

Lemma builds_ok n m (J : nat -> nat -> junk K) x0 xs :
  inputs_ok n m x0 -> Forall (fun x => inputs_ok n m x /\ same_positions (t_ent (i_h x)) (t_ent (i_h x0)) /\ same_positions (t_ent (i_j x)) (t_ent (i_j x0))) xs ->
  exists s, cond_builds K J (x0 :: xs) = Some (Some s) /\ good n m (last xs x0) s.
Proof.
  intros H0 Hxs.
  assert (A0 : agree K n m x0 x0) by (split; [auto|split; reflexivity]).
  assert (Step : forall x s i, agree K n m x0 x -> Inv K n m x0 s -> exists s', cond_build K (J i) (Some s) x = Some s' /\ Inv K n m x0 s' /\ good n m x s').
  { intros x s i Ha Hi. destruct (numeric_step K n m x0 x s (J i) Ha Hi) as [s' [E [I [G1 [G2 [G3 [G4 [rs [G5 [G6 G7]]]]]]]]]].
    exists s'. split; auto. split; auto. unfold good. repeat (split; [auto; fail|]). exists rs. split; [apply rep_stores; auto|auto]. }
  unfold cond_builds. cbn [length seq combine ofold fst snd].
  destruct (first_step K n m x0 x0 (J 0) A0) as [s00 [I0 E0]]. rewrite E0.
  destruct (Step x0 s00 0 A0 I0) as [s1 [E1 [I1 G1]]]. rewrite E1. cbn [obind].
  assert (G : forall xs a s y, Forall (agree K n m x0) xs -> Inv K n m x0 s -> good n m y s ->
     exists s', ofold (fun p st => do s <- cond_build K (J (fst p)) st (snd p); Some (Some s)) (combine (seq a (length xs)) xs) (Some s) = Some (Some s') /\
       good n m (last xs y) s').
  { clear -Step. induction xs as [|x xs IH]; intros a s y HF HI HG.
    - exists s. auto.
    - cbn [length seq combine ofold fst snd]. inversion HF; subst. destruct (Step x s a) as [s' [E [I' G']]]; auto. rewrite E. cbn [obind].
      destruct (IH (S a) s' x) as [s2 [E2 G2]]; auto. exists s2. split; auto.
      rewrite last_cons. auto. }
  apply (G xs 1 s1 x0); auto.
Qed.

Lemma condensed_sym m (x : kin) i j : condensed m x i j = condensed m x j i.
Proof.
  unfold condensed. rewrite symmat_sym, (Nat.eqb_sym j i). f_equal; [f_equal|].
  - destruct (Nat.eqb_spec i j) as [->|]; reflexivity.
  - apply sumn_ext. intros. ring.
Qed.

Lemma solve_ok n m (x : kin) (s : cst) solver (rx rd ryd dx dd dyd : list K) :
  inputs_ok n m x -> good n m x s -> exact_solver solver ->
  length rx = n -> length rd = m -> length ryd = m ->
  cond_solve K solver s (i_j x) rx rd ryd = Some (dx, dd, dyd) ->
  length dx = n /\ length dd = m /\ length dyd = m /\
  (forall i, i < n -> mv n (symmat (t_ent (i_h x))) dx i +! (at_ (i_dx x) i +! at_ (i_wx x) i) *! at_ dx i +!
      sumn m (fun k => mat (t_ent (i_j x)) k i *! at_ dyd k) = at_ rx i) /\
  (forall k, k < m -> (at_ (i_dd x) k +! at_ (i_wd x) k) *! at_ dd k -! at_ dyd k = at_ rd k) /\
  (forall k, k < m -> sumn n (fun j => mat (t_ent (i_j x)) k j *! at_ dx j) -! at_ dd k = at_ ryd k).
Proof.
  intros [I1 [I2 [I3 [I4 [I5 [I6 _]]]]]] [G1 [G2 [G3 [G4 [rs [G5 [G6 G7]]]]]]] Hs Lx Ld Ly E.
  unfold cond_solve in E.
  destruct (vmul_spec K ryd (s_hd s)) as [a [Ea [La Na]]]; [lia|]. rewrite Ea in E. cbn [obind] in E.
  destruct (vaxpy_spec K f1 rd a) as [b [Eb [Lb Nb]]]; [lia|]. rewrite Eb in E. cbn [obind] in E.
  destruct (trans_times_vec_spec K (i_j x) f1 rx f1 b) as [rhs [Er [Lr Nr]]]; [auto|lia|lia|]. rewrite Er in E. cbn [obind] in E.
  destruct (solver (s_m s) rhs) as [dx'|] eqn:Es; [|discriminate]. cbn [obind] in E.
  destruct (Hs _ _ _ _ G5 Es) as [Ldx Hdx]. rewrite G1 in Ldx, Hdx.
  destruct (times_vec_spec K (i_j x) (fopp f1) ryd f1 dx') as [dd' [Edd [Ldd Ndd]]]; [auto|lia|lia|]. rewrite Edd in E. cbn [obind] in E.
  destruct (vmul_spec K dd' (s_hd s)) as [c [Ec [Lc Nc]]]; [lia|]. rewrite Ec in E. cbn [obind] in E.
  destruct (vaxpy_spec K (fopp f1) rd c) as [dy [Ey [Ldy Ny]]]; [lia|]. rewrite Ey in E. cbn [obind] in E.
  injection E as <- <- <-. rewrite I3 in Ldd, Ndd, Nr. rewrite I4 in Ndd, Lr, Nr.
  assert (R2 : forall k, k < m -> sumn n (fun j => mat (t_ent (i_j x)) k j *! at_ dx' j) -! at_ dd' k = at_ ryd k).
  { intros k Hk. rewrite Ndd by auto. ring. }
  split; [auto|]. split; [auto|]. split; [lia|]. split; [|split; [|exact R2]].
  2:{ intros k Hk. rewrite Ny, Nc, G4. unfold weights. ring. }
  intros i Hi. specialize (Hdx i Hi). unfold mv in Hdx. 
  rewrite (sumn_ext K n _ (fun j => condensed m x i j *! at_ dx' j)) in Hdx by (intros j Hj; rewrite G7 by auto; reflexivity).
  rewrite Nr in Hdx by auto.
  assert (Ex : sumn n (fun j => condensed m x i j *! at_ dx' j) =
    mv n (symmat (t_ent (i_h x))) dx' i +! (at_ (i_dx x) i +! at_ (i_wx x) i) *! at_ dx' i +!
    sumn m (fun k => mat (t_ent (i_j x)) k i *! (weights K x k *! sumn n (fun j => mat (t_ent (i_j x)) k j *! at_ dx' j)))).
  { unfold condensed, mv.
    transitivity (sumn n (fun j => symmat (t_ent (i_h x)) i j *! at_ dx' j) +!
                  sumn n (fun j => if i =? j then (at_ (i_dx x) j +! at_ (i_wx x) j) *! at_ dx' j else f0) +!
                  sumn n (fun j => sumn m (fun k => mat (t_ent (i_j x)) k i *! (weights K x k *! (mat (t_ent (i_j x)) k j *! at_ dx' j))))).
    - rewrite <- !sumn_add. apply sumn_ext. intros j Hj.
      transitivity (symmat (t_ent (i_h x)) i j *! at_ dx' j +! (if i =? j then (at_ (i_dx x) j +! at_ (i_wx x) j) *! at_ dx' j else f0) +!
         sumn m (fun k => mat (t_ent (i_j x)) k i *! (at_ (i_dd x) k +! at_ (i_wd x) k) *! mat (t_ent (i_j x)) k j) *! at_ dx' j).
      + destruct (Nat.eqb_spec i j) as [<-|]; ring.
      + f_equal. unfold sumn. rewrite <- lsum_scale_r. apply lsum_ext. intros k _. unfold weights. ring.
    - rewrite sumn_pick by auto. f_equal. rewrite sumn_swap. apply sumn_ext. intros k Hk.
      rewrite <- !sumn_scale. reflexivity. }
  rewrite Ex in Hdx. clear Ex.
  assert (Ey2 : sumn m (fun k => mat (t_ent (i_j x)) k i *! at_ dy k) =
    sumn m (fun k => mat (t_ent (i_j x)) k i *! (weights K x k *! sumn n (fun j => mat (t_ent (i_j x)) k j *! at_ dx' j))) -!
    sumn m (fun k => mat (t_ent (i_j x)) k i *! at_ b k)).
  { transitivity (sumn m (fun k => mat (t_ent (i_j x)) k i *! (weights K x k *! sumn n (fun j => mat (t_ent (i_j x)) k j *! at_ dx' j)) +! (fopp f1) *! (mat (t_ent (i_j x)) k i *! at_ b k))).
    - apply sumn_ext. intros k Hk. rewrite Ny, Nc, G4, Nb, Na, G4, Ndd by auto. ring.
    - rewrite sumn_add, sumn_scale. ring. }
  rewrite Ey2.
  transitivity (mv n (symmat (t_ent (i_h x))) dx' i +! (at_ (i_dx x) i +! at_ (i_wx x) i) *! at_ dx' i +!
    sumn m (fun k => mat (t_ent (i_j x)) k i *! (weights K x k *! sumn n (fun j => mat (t_ent (i_j x)) k j *! at_ dx' j))) -! sumn m (fun k => mat (t_ent (i_j x)) k i *! at_ b k)).
  - ring.
  - rewrite Hdx. ring.
Qed.
End P.
