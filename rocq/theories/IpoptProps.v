(** C81: a problem handed to Ipopt through the adapters is the user's problem. *)
From Coq Require Import List Bool Arith ZArith Lia Ring Field FinFun Qcanon.
From Verif Require Import RingKit FloatBase IpoptModel IpoptSpec IpoptProofs.
Import ListNotations.
Local Close Scope Qc_scope.
Local Open Scope nat_scope.

(** C81, constraint values: whatever the order of equalities and inequalities, for users of both kinds *)
Theorem C81_constraints : forall (K : cfield) X c J (U : user K X) x g,
  sizes_ok K X U -> length g = u_m K X U ->
  two_calls K X c J U (eqi K X U) (ini K X U) \/ one_call K X c J U ->
  exists v, eval_g K X U x g = Ret true (map Some v) /\ length v = u_m K X U /\ forall i, i < u_m K X U -> nth_error v i = Some (c x i).
Proof.
  intros K X c J U x g W L H. exists (map (c x) (seq 0 (u_m K X U))).
  split; [|split; [rewrite map_length, seq_length; reflexivity|]].
  - destruct H as [[C _]|H]; [apply eval_g_two; auto|eapply eval_g_one; eauto].
  - intros i Hi. apply map_nth_error. rewrite seq_nth_error by auto. f_equal. lia.
Qed.
Print Assumptions C81_constraints.

(** C81, Jacobian, users that answer for all constraints at once *)
Theorem C81_jacobian_one_call : forall (K : cfield) X c J (U : user K X) dbg b,
  sizes_ok K X U -> length b = nele_jac K X U -> one_call K X c J U ->
  exists P, jac_struct K X U dbg b = Ret true (map Some P) /\
  forall known x bv, length bv = nele_jac K X U ->
  exists V, jac_vals K X U dbg known x bv = (true, Ret true (map Some V)) /\ is_jacobian K X J U x P V.
Proof.
  intros K X c J U dbg b W L (_ & _ & P2 & V2 & p & P1 & R).
  pose proof (dense_pat_len K X U (seq 0 (u_m K X U))) as D. rewrite seq_length in D.
  assert (Lp : length p = u_nnze K X U + u_nnzi K X U) by apply R.
  exists (p ++ dense_pat K X U (seq 0 (u_m K X U))). split.
  - unfold jac_struct. rewrite !P2, P1. assert (T := L). unfold nele_jac in T.
    rewrite put_first by lia. rewrite put_pre by (rewrite ?skipn_length; lia).
    unfold asserted, nele_jac. rewrite D, Nat.eqb_refl, andb_false_r.
    rewrite (skip_all (skipn _ b)) by (rewrite !skipn_length; lia). rewrite app_nil_r. reflexivity.
  - intros known x bv Lb. destruct (proj2 (proj2 R) x) as (v & Vx & Lv & _).
    destruct (block_entry K X c J U (seq 0 (u_m K X U)) (u_nnze K X U + u_nnzi K X U) p (u_v1 K X U) 0 x v) as (LL & _ & In_ & E & _); auto.
    { intros k Hk. rewrite seq_length in Hk. apply seq_nth_error. auto. }
    { apply seq_NoDup. }
    rewrite shift0 in LL, In_, E.
    exists (v ++ flat_map (fun i => map (J x i) (seq (u_ns K X U) (u_nd K X U))) (seq 0 (u_m K X U))). split.
    + assert (O : jac_vals_one K X U dbg x bv = Ret true (map Some (v ++ flat_map (fun i => map (J x i) (seq (u_ns K X U) (u_nd K X U))) (seq 0 (u_m K X U))))).
      { unfold jac_vals_one. rewrite Vx. assert (T := Lb). unfold nele_jac in T.
        assert (DL := dlen K X U (J x) (seq 0 (u_m K X U))). rewrite seq_length in DL.
        rewrite firstn_len by auto. rewrite put_first by lia. rewrite put_pre by (rewrite ?skipn_length; lia).
        unfold asserted, nele_jac. rewrite Nat.eqb_refl, andb_false_r.
        rewrite (skip_all (skipn _ bv)) by (rewrite !skipn_length; lia). rewrite app_nil_r. reflexivity. }
      unfold jac_vals. destruct known; [rewrite O; auto|]. rewrite !V2, O. auto.
    + split; [exact LL|]. split.
      * intros a b' H. destruct (In_ _ _ H) as [A B]. apply in_seq in A. split; [lia|auto].
      * intros i j Hi Hj. apply E; auto. apply in_seq. lia.
Qed.
Print Assumptions C81_jacobian_one_call.

(** C81, Jacobian, users that answer separately: only when every equality comes before every inequality *)
Theorem C81_jacobian_two_calls_partial : forall (K : cfield) X c J (U : user K X) dbg b,
  sizes_ok K X U -> length b = nele_jac K X U -> two_calls K X c J U (eqi K X U) (ini K X U) ->
  (forall i k, is_eq K X U i -> is_in K X U k -> i < k) ->
  exists P, jac_struct K X U dbg b = Ret true (map Some P) /\
  forall x bv, length bv = nele_jac K X U ->
  exists V, jac_vals K X U dbg false x bv = (false, Ret true (map Some V)) /\ is_jacobian K X J U x P V.
Proof.
  intros K X c J U dbg b W L (_ & (p1 & E1 & R1) & (p2 & E2 & R2)) F.
  destruct (idx_facts K X U W) as (LI & IE & ID & NE & ND).
  assert (SF : eqi K X U = seq 0 (length (eqi K X U)) /\ ini K X U = seq (length (eqi K X U)) (length (ini K X U))).
  { unfold eqi, ini. pose proof (split_first (u_bnd K X U) 0) as S. destruct (split_idx 0 (u_bnd K X U)) as [e d]. cbn [fst snd].
    apply S. intros a b' A B. apply F; auto. }
  destruct SF as [SE SD].
  eexists. split; [apply struct_two; [exact W|exact L|exact E1|apply R1|exact E2|apply R2]|].
  intros x bv Lb. destruct (proj2 (proj2 R1) x) as (v1 & V1 & L1 & _). destruct (proj2 (proj2 R2) x) as (v2 & V2 & L2 & _).
  eexists. split; [apply (vals_two K X J U dbg x v1 v2 bv W Lb V1 L1 V2 L2)|].
  destruct (block_entry K X c J U (eqi K X U) (u_nnze K X U) p1 (u_v2 K X U (eqi K X U)) 0 x v1) as (LL1 & _ & In1 & Q1 & O1); auto.
  { intros k Hk. rewrite SE. apply seq_nth_error. auto. }
  destruct (block_entry K X c J U (ini K X U) (u_nnzi K X U) p2 (u_v2 K X U (ini K X U)) (length (eqi K X U)) x v2) as (LL2 & _ & In2 & Q2 & O2); auto.
  { intros k Hk. rewrite SD. apply seq_nth_error. auto. }
  rewrite shift0 in LL1, In1, Q1, O1.
  split; [rewrite app_length, LL1, LL2, <- app_length; reflexivity|]. split.
  - intros a b' H. apply in_app_or in H. destruct H as [H|H].
    + destruct (In1 _ _ H) as [A B]. split; auto. apply (is_lt K X U a W). left. apply IE. auto.
    + destruct (In2 _ _ H) as [A B]. split; auto. apply (is_lt K X U a W). right. apply ID. auto.
  - intros i j Hi Hj. rewrite entry_app by exact LL1. apply (is_lt K X U i W) in Hi.
    assert (Z : forall y : K, f0 +! y = y) by (intro y; destruct (fth K) as [[]]; auto).
    assert (Z2 : forall y : K, y +! f0 = y) by (intro y; destruct (fth K) as [[]]; rewrite Radd_comm; auto).
    destruct Hi as [Hi|Hi].
    + rewrite Q1, O2, Z2; auto; [|apply IE; auto]. intro N. apply ID in N. pose proof (F _ _ Hi N). lia.
    + rewrite O1, Q2, Z; auto; [apply ID; auto|]. intro N. apply IE in N. pose proof (F _ _ N Hi). lia.
Qed.
Print Assumptions C81_jacobian_two_calls_partial.

(** C81, Hessian *)
Theorem C81_hessian : forall (K : cfield) X (U : user K X) H dbg b,
  length b = nele_hess K X U -> hessian_user K X U H ->
  exists P, hess_struct K X U dbg b = Ret true (map Some P) /\
  (forall a b', In (a, b') P -> a < u_ns K X U + u_nd K X U /\ b' < u_ns K X U + u_nd K X U) /\
  forall x f l bv, length bv = nele_hess K X U ->
  exists V, hess_vals K X U dbg x f l bv = Ret true (map Some V) /\ length V = length P /\
    forall i j, i < u_ns K X U + u_nd K X U -> j < u_ns K X U + u_nd K X U -> sym_entry K P V i j = H x f l i j.
Proof.
  intros K X U H dbg b L (Sy & Cr & p & Ep & Lp & Bp & R).
  set (ns := u_ns K X U) in *. set (nd := u_nd K X U) in *.
  set (q := map (fun '(i, j) => (ns + i, ns + j)) (upper nd)).
  assert (LQ : length q = nd * (nd + 1) / 2) by (unfold q; rewrite map_length; apply upper_len).
  assert (T : nele_hess K X U = u_nnzh K X U + length q) by (rewrite LQ; reflexivity).
  assert (Iq : forall a b', In (a, b') q <-> ns <= a /\ a <= b' /\ b' < ns + nd).
  { intros a b'. unfold q. rewrite in_map_iff. split.
    - intros ([i j] & E & I). injection E as <- <-. apply upper_in in I. lia.
    - intro I. exists (a - ns, b' - ns). split; [f_equal; lia|]. apply upper_in. lia. }
  exists (p ++ q). split; [|split].
  - unfold hess_struct. rewrite Ep. rewrite put_first by lia. fold ns nd q. rewrite put_pre by (rewrite ?skipn_length; lia).
    unfold asserted. replace (length (upper nd)) with (length q) by (unfold q; apply map_length). rewrite T, Nat.eqb_refl, andb_false_r.
    rewrite (skip_all (skipn _ b)) by (rewrite !skipn_length; lia). rewrite app_nil_r. reflexivity.
  - intros a b' I. apply in_app_or in I. destruct I as [I|I]; [apply Bp in I; lia|apply Iq in I; lia].
  - intros x f l bv Lb. destruct (R x f l) as (v & d & Ev & Lv & Ld & Rs & Rd).
    set (w := map (fun '(i, j) => nth (i * nd + j) d f0) (upper nd)).
    assert (Lw : length w = length q) by (unfold w, q; rewrite !map_length; reflexivity).
    exists (v ++ w). split; [|split].
    + unfold hess_vals. rewrite Ev. rewrite put_first by lia. fold nd. destruct (Nat.leb_spec (nd * nd) (length d)); [|lia].
      fold w. rewrite put_pre by (rewrite ?skipn_length; lia).
      unfold asserted. replace (length (upper nd)) with (length q) by (unfold q; apply map_length). rewrite T, Nat.eqb_refl, andb_false_r.
      rewrite (skip_all (skipn _ bv)) by (rewrite !skipn_length; lia). rewrite app_nil_r. reflexivity.
    + rewrite !app_length. lia.
    + assert (WF : w = map (fun '(i, j) => H x f l i j) q).
      { unfold w, q. rewrite map_map. apply map_ext_in. intros [i j] I. apply upper_in in I.
        apply nth_error_nth. apply Rd; lia. }
      assert (ND : NoDup q).
      { unfold q. apply Injective_map_NoDup; [|apply upper_nodup]. intros [a b'] [a2 b2] E. injection E as E1 E2. f_equal; lia. }
      assert (Z : forall y : K, f0 +! y = y) by (intro y; destruct (fth K) as [[]]; auto).
      assert (Z2 : forall y : K, y +! f0 = y) by (intro y; destruct (fth K) as [[]]; rewrite Radd_comm; auto).
      assert (EN : forall i j, entry K (p ++ q) (v ++ w) i j = entry K p v i j +! (if (ns <=? i) && (i <=? j) && (j <? ns + nd) then H x f l i j else f0)).
      { intros i j. rewrite entry_app by lia. f_equal. rewrite WF.
        destruct (Nat.leb_spec ns i), (Nat.leb_spec i j), (Nat.ltb_spec j (ns + nd)); cbn [andb];
          first [rewrite entry_out; [reflexivity|rewrite Iq; lia]|rewrite entry_fun; [reflexivity|exact ND|apply Iq; lia]]. }
      assert (EP : forall i j, ns <= i \/ ns <= j -> entry K p v i j = f0).
      { intros i j D. apply entry_out. intro I. apply Bp in I. lia. }
      intros i j Hi Hj. unfold sym_entry. rewrite !EN.
      destruct (Nat.lt_ge_cases i ns) as [A|A], (Nat.lt_ge_cases j ns) as [B|B].
      * rewrite <- (Rs i j A B). unfold sym_entry.
        destruct (Nat.leb_spec ns i); [lia|]. destruct (Nat.leb_spec ns j); [lia|]. cbn [andb]. rewrite !Z2. reflexivity.
      * rewrite (Cr x f l i j A B), !EP by lia. destruct (Nat.leb_spec ns i); [lia|]. destruct (Nat.leb_spec j i); [lia|].
        rewrite !andb_false_r. cbn [andb]. rewrite !Z. destruct (i =? j); reflexivity.
      * rewrite (Sy x f l i j), (Cr x f l j i B A), !EP by lia. destruct (Nat.leb_spec ns j); [lia|]. destruct (Nat.leb_spec i j); [lia|].
        rewrite !andb_false_r. cbn [andb]. rewrite !Z. destruct (i =? j); reflexivity.
      * rewrite !EP by lia. destruct (Nat.leb_spec ns i); [|lia]. destruct (Nat.leb_spec ns j); [|lia].
        destruct (Nat.ltb_spec i (ns + nd)); [|lia]. destruct (Nat.ltb_spec j (ns + nd)); [|lia].
        destruct (Nat.eqb_spec i j) as [->|N].
        -- rewrite Nat.leb_refl. cbn [andb]. apply Z.
        -- destruct (Nat.leb_spec i j), (Nat.leb_spec j i); try lia; cbn [andb]; rewrite !Z, ?Z2; auto.
Qed.
Print Assumptions C81_hessian.

(** C81, the dense adapter: constraints and Jacobian by rows *)
Theorem C81_dense : forall (K : cfield) X c J (D : duser K X) x g bp bv,
  length g = d_m K X D -> length bp = d_m K X D * d_n K X D -> length bv = d_m K X D * d_n K X D ->
  (forall idx, d_c K X D idx x = Some (map (c x) idx)) ->
  (forall i, i < d_m K X D -> d_row K X D i x = Some (map (J x i) (seq 0 (d_n K X D)))) ->
  d_eval_g K X D x g = Ret true (map Some (map (c x) (seq 0 (d_m K X D)))) /\
  exists P V, d_struct K X D bp = Ret true (map Some P) /\ d_vals K X D x (d_m K X D) 0 bv = Ret true (map Some V) /\
    length V = length P /\ forall i j, i < d_m K X D -> j < d_n K X D -> entry K P V i j = J x i j.
Proof.
  intros K X c J D x g bp bv Lg Lp Lv C R. set (m := d_m K X D) in *. set (n := d_n K X D) in *.
  assert (SE : forall T (l : list T) b, length l = length b -> put 0 l b = Some (map Some l)).
  { intros T l b' E. rewrite put_first by lia. rewrite skip_all by lia. rewrite app_nil_r. reflexivity. }
  split.
  { unfold d_eval_g. fold m. rewrite C, SE; [reflexivity|]. rewrite map_length, seq_length. auto. }
  set (P := flat_map (fun i => map (fun j => (i, j)) (seq 0 n)) (seq 0 m)).
  assert (PL : forall l : list nat, length (flat_map (fun i => map (fun j => (i, j)) (seq 0 n)) l) = length l * n).
  { induction l; cbn [flat_map length]; auto. rewrite app_length, map_length, seq_length, IHl. reflexivity. }
  exists P, (map (fun '(i, j) => J x i j) P). split; [|split; [|split]].
  - unfold d_struct. fold m n P. rewrite SE; [reflexivity|]. unfold P. rewrite PL, seq_length. auto.
  - assert (G : forall k i pre rest, i + k = m -> length pre = i * n -> length rest = k * n ->
      d_vals K X D x k i (map Some pre ++ rest) = Ret true (map Some (pre ++ map (fun '(i, j) => J x i j) (flat_map (fun i => map (fun j => (i, j)) (seq 0 n)) (seq i k))))).
    { induction k as [|k IH]; intros i pre rest E L1 L2; cbn [d_vals].
      - destruct rest; [|discriminate]. cbn [seq flat_map map]. rewrite !app_nil_r. reflexivity.
      - rewrite R by lia. fold n. rewrite firstn_len by (rewrite map_length, seq_length; auto).
        rewrite put_pre; [|auto|rewrite map_length, seq_length; lia].
        rewrite IH; [|lia|rewrite app_length, map_length, seq_length; lia|rewrite skipn_length, map_length, seq_length; lia].
        cbn [seq flat_map]. f_equal. f_equal. rewrite (map_app (fun '(i0, j) => J x i0 j)), map_map, <- app_assoc. reflexivity. }
    specialize (G m 0 [] bv eq_refl eq_refl Lv). exact G.
  - apply map_length.
  - assert (IP : forall i j, In (i, j) P <-> i < m /\ j < n).
    { intros i j. unfold P. rewrite in_flat_map. split.
      - intros (a & A & B). apply in_map_iff in B. destruct B as (q & E & Q). injection E as <- <-. apply in_seq in A, Q. lia.
      - intros [A B]. exists i. split; [apply in_seq; lia|]. apply in_map_iff. exists j. split; auto. apply in_seq. lia. }
    assert (ND : NoDup P).
    { apply (nodup_rows (fun _ => seq 0 n)); [apply seq_NoDup|intro; apply seq_NoDup]. }
    intros i j Hi Hj. rewrite entry_fun; [reflexivity|exact ND|apply IP; auto].
Qed.
Print Assumptions C81_dense.

(** ** a concrete problem: constraints 0 and 2 are equalities, 1 is an inequality in the wrong order ([mixed]) or the
    right one; two sparse variables, one dense.  The Jacobian is [10 0 1; 0 20 2; 30 0 3] (times x) *)
Definition q (z : Z) : Qc_field := Q2Qc (QArith_base.Qmake z 1).
Definition exJ (x : Z) (i j : nat) : Qc_field :=
  q (x * nth j (nth i [[10; 0; 1]; [0; 20; 2]; [30; 0; 3]] []) 0)%Z.
Definition exc (x : Z) (i : nat) : Qc_field := q (x + Z.of_nat i).
Definition ex_pat (idx : list nat) : list (nat * nat) :=
  map (fun k => (k, nth (nth k idx 0) [0; 1; 0] 0)) (seq 0 (length idx)).
Definition ex_val (idx : list nat) (x : Z) : list Qc_field * list Qc_field :=
  (map (fun i => exJ x i (nth i [0; 1; 0] 0)) idx, map (fun i => exJ x i 2) idx).
Definition exU (one : bool) (bnd : list (b64 * b64)) (ne ni : nat) : user Qc_field Z :=
  User Qc_field Z 3 2 1 ne ni 2 bnd
    (fun idx x => if one then None else Some (map (exc x) idx)) (fun x => if one then Some (map (exc x) [0; 1; 2]) else None)
    (fun idx => if one then None else Some (ex_pat idx)) (if one then Some (ex_pat [0; 1; 2]) else None)
    (fun idx x => if one then None else Some (ex_val idx x)) (fun x => if one then Some (ex_val [0; 1; 2] x) else None)
    (Some [(0, 0); (0, 1)]) (fun x f _ => Some ([f; q x], [q 7])).
Definition EQ := (fofZ 5, fofZ 5). Definition IN := (fofZ 0, fofZ 5).

Lemma ex_rows (one : bool) bnd ne ni idx (vals : Z -> option (list Qc_field * list Qc_field)) :
  (forall i, In i idx -> i < 3) -> (forall x, vals x = Some (ex_val idx x)) ->
  rows_of Qc_field Z exJ (exU one bnd ne ni) idx (length idx) (ex_pat idx) vals.
Proof.
  intros B V. split; [unfold ex_pat; rewrite map_length, seq_length; reflexivity|]. split.
  - intros a b H. unfold ex_pat in H. apply in_map_iff in H. destruct H as (k & E & H). injection E as <- <-. apply in_seq in H.
    split; [lia|]. cbn. destruct (nth k idx 0) as [|[|[|n]]]; cbn; try lia. destruct n; lia.
  - intros x. exists (fst (ex_val idx x)). rewrite V. split; [reflexivity|].
    split; [unfold ex_val; cbn [fst]; apply map_length|]. intros k i j N Hj. cbn in Hj. cbn [ex_val fst].
      assert (G : forall o, (forall i, In i idx -> i < 3) -> nth_error idx k = Some i ->
        entry Qc_field (map (fun k => (k, nth (nth (k - o) idx 0) [0; 1; 0] 0)) (seq o (length idx))) (map (fun i => exJ x i (nth i [0; 1; 0] 0)) idx) (o + k) j = exJ x i j).
      { clear N B V vals. revert k. induction idx as [|a idx IH]; intros k o B N; [destruct k; discriminate|].
        cbn [length seq map entry]. rewrite Nat.sub_diag. change (nth 0 (a :: idx) 0) with a.
        replace (map (fun k0 => (k0, nth (nth (k0 - o) (a :: idx) 0) [0; 1; 0] 0)) (seq (S o) (length idx)))
          with (map (fun k0 => (k0, nth (nth (k0 - S o) idx 0) [0; 1; 0] 0)) (seq (S o) (length idx))).
        2:{ apply map_ext_in. intros k0 Hk. apply in_seq in Hk. replace (k0 - o) with (S (k0 - S o)) by lia. reflexivity. }
        destruct k as [|k].
        - cbn in N. injection N as ->. rewrite Nat.add_0_r, Nat.eqb_refl. cbn [andb].
          rewrite entry_out.
          + assert (Bi : i < 3) by (apply B; left; auto). assert (S0 : forall y : Qc_field, y +! f0 = y) by (intro; apply Qcplus_0_r).
            assert (S1 : forall y : Qc_field, f0 +! y = y) by (intro; apply Qcplus_0_l).
            destruct i as [|[|[|i]]]; [| | |lia]; (destruct j as [|[|j]]; [| |lia]); cbn [nth Nat.eqb]; rewrite S0; try reflexivity;
              unfold exJ; cbn [nth]; rewrite Z.mul_0_r; reflexivity.
          + intro H. apply in_map_iff in H. destruct H as (k0 & E & H). injection E as E1 E2. apply in_seq in H. lia.
        - cbn in N. rewrite <- (IH k (S o)); [|intros i' I; apply B; right; auto|auto].
          destruct (Nat.eqb_spec o (o + S k)); [lia|]. cbn [andb]. replace (S o + k) with (o + S k) by lia. apply Qcplus_0_l. }
      specialize (G 0 B N). rewrite Nat.add_0_l in G. rewrite <- G. unfold ex_pat. f_equal. apply map_ext. intro k0. rewrite Nat.sub_0_r. reflexivity.
Qed.
Lemma ex_two bnd e d : (forall i, In i (e ++ d) -> i < 3) ->
  two_calls Qc_field Z exc exJ (exU false bnd (length e) (length d)) e d.
Proof.
  intro B. split; [reflexivity|]. split; (eexists; split; [reflexivity|]); apply ex_rows; try reflexivity; intros i I; apply B, in_or_app; auto.
Qed.
Lemma ex_one bnd ne ni : ne + ni = 3 -> one_call Qc_field Z exc exJ (exU true bnd ne ni).
Proof.
  intro B. split; [reflexivity|]. split; [reflexivity|]. split; [reflexivity|]. split; [reflexivity|].
  eexists. split; [reflexivity|]. cbn [exU u_m u_nnze u_nnzi]. rewrite B. apply ex_rows; [|reflexivity]. intros i [<-|[<-|[<-|[]]]]; lia.
Qed.
Example C81_constraints_case : sizes_ok _ _ (exU false [EQ; IN; EQ] 2 1) /\
  two_calls _ _ exc exJ (exU false [EQ; IN; EQ] 2 1) (eqi _ _ (exU false [EQ; IN; EQ] 2 1)) (ini _ _ (exU false [EQ; IN; EQ] 2 1)) /\
  eval_g _ _ (exU false [EQ; IN; EQ] 2 1) 4%Z [None; None; None] = Ret true [Some (q 4); Some (q 5); Some (q 6)].
Proof.
  split; [reflexivity|]. split; [|vm_compute; reflexivity].
  change (eqi _ _ (exU false [EQ; IN; EQ] 2 1)) with [0; 2]. change (ini _ _ (exU false [EQ; IN; EQ] 2 1)) with [1].
  apply (ex_two _ [0; 2] [1]). cbn. lia.
Qed.
Example C81_jacobian_one_call_case : one_call _ _ exc exJ (exU true [EQ; IN; EQ] 2 1) /\ nele_jac _ _ (exU true [EQ; IN; EQ] 2 1) = 6 /\
  jac_vals _ _ (exU true [EQ; IN; EQ] 2 1) true false 2%Z (repeat None 6) = (true, Ret true (map Some (map q [20; 40; 60; 2; 4; 6]%Z))).
Proof. split; [apply ex_one; reflexivity|]. split; [reflexivity|vm_compute; reflexivity]. Qed.
Example C81_jacobian_two_calls_case : let U := exU false [EQ; IN; IN] 1 2 in
  two_calls _ _ exc exJ U (eqi _ _ U) (ini _ _ U) /\ (forall i k, is_eq _ _ U i -> is_in _ _ U k -> i < k) /\
  jac_struct _ _ U true (repeat None 6) = Ret true (map Some [(0, 0); (0, 2); (1, 1); (2, 0); (1, 2); (2, 2)]).
Proof.
  cbn zeta. split; [|split; [|vm_compute; reflexivity]].
  - change (eqi _ _ (exU false [EQ; IN; IN] 1 2)) with [0]. change (ini _ _ (exU false [EQ; IN; IN] 1 2)) with [1; 2].
    apply (ex_two _ [0] [1; 2]). cbn. lia.
  - intros i k (l & u & N & E) (l' & u' & N' & E').
    destruct i as [|[|[|i]]]; cbn in N; [| | |destruct i; discriminate];
      (destruct k as [|[|[|k]]]; cbn in N'; [| | |destruct k; discriminate]); injection N as <- <-; injection N' as <- <-;
      try lia; vm_compute in E; vm_compute in E'; discriminate.
Qed.
Example C81_hessian_case : let U := exU false [EQ; IN; EQ] 2 1 in nele_hess _ _ U = 3 /\
  hessian_user _ _ U (fun x f _ i j => match i, j with 0, 0 => f | 0, 1 => q x | 1, 0 => q x | 2, 2 => q 7 | _, _ => f0 end) /\
  hess_vals _ _ U true 4%Z (q 3) [] (repeat None 3) = Ret true (map Some (map q [3; 4; 7]%Z)).
Proof.
  cbn zeta. split; [reflexivity|]. split; [|vm_compute; reflexivity]. split; [|split].
  - intros x f _ [|[|[|i]]] [|[|[|j]]]; reflexivity.
  - intros x f _ [|[|i]] [|[|j]] A B; cbn in A, B; try lia; reflexivity.
  - eexists. split; [reflexivity|]. split; [reflexivity|]. split; [intros a b [E|[E|[]]]; injection E as <- <-; cbn; lia|].
    intros x f l. exists [f; q x], [q 7]. do 3 (split; [reflexivity|]). split.
    + intros [|[|i]] [|[|j]] A B; cbn in A, B; try lia; unfold sym_entry; cbn [Nat.eqb entry andb];
        rewrite ?(Qcplus_0_r), ?(Qcplus_0_l : forall y : Qc_field, f0 +! y = y);
        rewrite ?(Qcplus_0_r : forall y : Qc_field, y +! f0 = y), ?(Qcplus_0_l : forall y : Qc_field, f0 +! y = y); reflexivity.
    + intros i j A B. cbn in B. assert (j = 0) by lia. assert (i = 0) by lia. subst. reflexivity.
Qed.
Example C81_dense_case : let D := DUser Qc_field Z 3 3 (fun idx x => Some (map (exc x) idx)) (fun i x => Some (map (exJ x i) [0; 1; 2])) in
  d_vals _ _ D 1%Z 3 0 (repeat None 9) = Ret true (map Some (map q [10; 0; 1; 0; 20; 2; 30; 0; 3]%Z)).
Proof. vm_compute. reflexivity. Qed.

(** C81 refuted for users that answer separately when an inequality comes before an equality: Ipopt is given
    30 as the derivative of constraint 1 by variable 0, and 0 for constraint 2 *)
Theorem C81_order_refuted : exists (U : user Qc_field Z) dbg P V, sizes_ok _ _ U /\
  two_calls _ _ exc exJ U (eqi _ _ U) (ini _ _ U) /\
  jac_struct _ _ U dbg (repeat None (nele_jac _ _ U)) = Ret true (map Some P) /\
  jac_vals _ _ U dbg false 1%Z (repeat None (nele_jac _ _ U)) = (false, Ret true (map Some V)) /\
  entry _ P V 1 0 = q 30 /\ exJ 1%Z 1 0 = q 0 /\ entry _ P V 2 0 = q 0 /\ exJ 1%Z 2 0 = q 30.
Proof.
  exists (exU false [EQ; IN; EQ] 2 1), true, [(0, 0); (1, 0); (0, 2); (2, 2); (2, 1); (1, 2)], (map q [10; 30; 1; 3; 20; 2]%Z).
  split; [reflexivity|]. split.
  - change (eqi _ _ (exU false [EQ; IN; EQ] 2 1)) with [0; 2]. change (ini _ _ (exU false [EQ; IN; EQ] 2 1)) with [1].
    apply (ex_two _ [0; 2] [1]). cbn. lia.
  - repeat split; vm_compute; reflexivity.
Qed.
Print Assumptions C81_order_refuted.

(** C81 refuted for failing user functions: the equality call answers false and the inequality call true; the adapter
    answers true although the values of the equalities were never written (in eval_g always, in the Jacobian when
    assertions are compiled out) *)
Theorem C81_failure_refuted : exists (U : user Qc_field Z) g b, sizes_ok _ _ U /\
  u_c2 _ _ U (eqi _ _ U) 1%Z = None /\ eval_g _ _ U 1%Z (repeat None 3) = Ret true g /\ In None g /\
  u_v2 _ _ U (eqi _ _ U) 1%Z = None /\ jac_vals _ _ U false false 1%Z (repeat None (nele_jac _ _ U)) = (false, Ret true b) /\ In None b.
Proof.
  exists (User Qc_field Z 3 2 1 1 2 0 [EQ; IN; IN]
    (fun idx x => if length idx =? 1 then None else Some (map (exc x) idx)) (fun _ => None)
    (fun idx => Some (ex_pat idx)) None (fun idx x => if length idx =? 1 then None else Some (ex_val idx x)) (fun _ => None) None (fun _ _ _ => None)).
  exists [None; Some (q 2); Some (q 3)], [Some (q 20); Some (q 30); Some (q 2); Some (q 3); None; None].
  split; [reflexivity|]. split; [reflexivity|]. split; [vm_compute; reflexivity|]. split; [left; reflexivity|].
  split; [reflexivity|]. split; [vm_compute; reflexivity|]. right. right. right. right. left. reflexivity.
Qed.
Print Assumptions C81_failure_refuted.

(** C81 refuted for the outcome: a run that Ipopt ended as infeasible is announced to the user as solved, and the
    dense adapter announces nothing *)
Theorem C81_status_refuted : final_status false LOCAL_INFEASIBILITY = Some Solve_Success /\
  final_status false MAXITER_EXCEEDED = Some Solve_Success /\ final_status true SUCCESS = None.
Proof. repeat split. Qed.
Print Assumptions C81_status_refuted.
