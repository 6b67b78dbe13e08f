From Coq Require Import ZArith List Bool Lia.
From Verif Require Import FortModel FortSpec.
Import ListNotations.
Open Scope Z_scope.

Section P.
  Context {V U : Type}.
  Notation minus1 := (map (fun k : Z => k - 1)).

  Lemma dec_all : forall l, dec (length l) l = Some (minus1 l).
  Proof. induction l as [|a l IH]; cbn; [reflexivity|]. rewrite IH. reflexivity. Qed.

  Lemma decp_all : forall l k, k = length l -> decp k (Some l) = Some (Some (minus1 l)).
  Proof.
    intros l k ->. destruct l as [|a l]; [reflexivity|].
    unfold decp. cbn [length]. change (S (length l)) with (length (a :: l)).
    rewrite dec_all. reflexivity.
  Qed.

  Lemma minus1_zero_based : forall l, zero_based l (minus1 l).
  Proof.
    intros l. split; [apply map_length|].
    intros k Hk. rewrite (nth_indep _ 0 (0 - 1)) by (rewrite map_length; lia).
    rewrite (map_nth (fun k => k - 1)). lia.
  Qed.

  Lemma pattern_step : forall (fp : fprob V U) r rows cols u p nx (t : trip V),
    gives_pattern r rows cols -> length cols = length rows ->
    sized (length rows) t ->
    exists u',
      wrapper fp r u p (f_n fp) (f_m fp) nx (Z.of_nat (length rows))
              (Some (t_i t)) (Some (t_j t)) None
      = Some (u', (Some (minus1 rows), Some (minus1 cols), None)).
  Proof.
    intros fp r rows cols u p nx t G Lc (Li & Lj & Lv).
    unfold wrapper. rewrite !Z.eqb_refl. cbn [andb].
    set (a := FA _ _ _ _ _ _ _ _).
    assert (T : a_task a = 0) by reflexivity.
    destruct (G u p a (t_i t) (t_j t)) as (T' & N' & I' & J');
      [exact T|reflexivity|reflexivity|lia|lia|reflexivity|].
    destruct (r u p a) as [u' b] eqn:E. cbn [snd] in *.
    rewrite T', N', I', J'. cbn [store Z.eqb].
    change (a_nnz a) with (Z.of_nat (length rows)). rewrite Nat2Z.id.
    rewrite (decp_all rows) by reflexivity.
    rewrite (decp_all cols) by lia.
    exists u'. reflexivity.
  Qed.

  Lemma value_step : forall (fp : fprob V U) r val u p nx k l,
    gives_values r val -> length (val p) = k -> length l = k ->
    exists u',
      wrapper fp r u p (f_n fp) (f_m fp) nx (Z.of_nat k) None None (Some l)
      = Some (u', (None, None, Some (val p))).
  Proof.
    intros fp r val u p nx k l G Lp Ll.
    unfold wrapper. rewrite !Z.eqb_refl. cbn [andb].
    set (a := FA _ _ _ _ _ _ _ _).
    destruct (G u p a l) as (T' & V'); [reflexivity|reflexivity|lia| |].
    { cbn. rewrite Ll. reflexivity. }
    destruct (r u p a) as [u' b] eqn:E. cbn [snd] in *.
    rewrite T', V'. cbn. exists u'. reflexivity.
  Qed.

  (** State of one matrix: nothing asked yet, or pattern in place. *)
  Definition mat_inv (rows cols : list Z) (cnt : Z) (t : trip V) (log : list seen) : Prop :=
    sized (length rows) t /\
    ((cnt = 0 /\ log = []) \/
     (cnt = 1 /\ t_i t = minus1 rows /\ t_j t = minus1 cols /\
      exists k, log = pattern_call :: repeat value_call (S k))).

  Lemma repeat_snoc : forall A (a : A) k, repeat a k ++ [a] = repeat a (S k).
  Proof. intros A a k. induction k; cbn; [reflexivity|]. rewrite IHk. reflexivity. Qed.

  Lemma two_calls_ok : forall (fp : fprob V U) r rows cols val u p nx cnt t log,
    matrix_routine r rows cols val -> mat_inv rows cols cnt t log ->
    exists u' v log',
      two_calls fp r u p (f_n fp) (f_m fp) nx cnt t log
      = Some (1, TR (minus1 rows) (minus1 cols) v, u', log') /\
      v = val p /\
      log' = (if cnt =? 0 then pattern_call :: [value_call] else log ++ [value_call]) /\
      mat_inv rows cols 1 (TR (minus1 rows) (minus1 cols) v) log'.
  Proof.
    intros fp r rows cols val u p nx cnt t log (Gp & Gv & Lc & Lp) (Sz & C).
    pose proof Sz as (Li & Lj & Lv).
    unfold two_calls. rewrite Lv.
    destruct C as [(-> & ->) | (-> & Ei & Ej & k & ->)].
    - cbn [Z.eqb].
      destruct (pattern_step fp r rows cols u p nx t Gp Lc Sz) as (u1 & E1).
      rewrite E1. cbn [t_v t_i t_j].
      destruct (value_step fp r val u1 p nx (length rows) (t_v t) Gv (Lp p) Lv) as (u2 & E2).
      rewrite E2.
      eexists u2, (val p), _. split; [reflexivity|]. split; [reflexivity|]. split; [reflexivity|].
      split; [unfold sized; cbn; rewrite !map_length, Lp; auto|].
      right. repeat split. exists 0%nat. reflexivity.
    - change (1 =? 0) with false. cbn iota beta.
      destruct (value_step fp r val u p nx (length rows) (t_v t) Gv (Lp p) Lv) as (u2 & E2).
      rewrite E2. rewrite Ei, Ej.
      eexists u2, (val p), _. split; [reflexivity|]. split; [reflexivity|]. split; [reflexivity|].
      split; [unfold sized; cbn; rewrite !map_length, Lp; auto|].
      right. repeat split. exists (S k).
      change (see None None (Some (t_v t))) with value_call.
      cbn [app]. f_equal. apply repeat_snoc.
  Qed.

  (** Jacobian side of a run, with any number of solves. *)
  Definition jinv (rows cols : list Z) (s : sst V U) : Prop :=
    (ss_type s = -1 \/ ss_type s = 1) /\ mat_inv rows cols (ss_njac s) (ss_jac s) (ss_jseen s).

  (** What the run added on one matrix. *)
  Definition added (rows cols : list Z) (val : point V -> list V) (ps : list (point V))
             (cnt cnt' : Z) (t t' : trip V) (log log' : list seen) : Prop :=
    match ps with
    | [] => cnt' = cnt /\ t' = t /\ log' = log
    | _ => cnt' = 1 /\ t_i t' = minus1 rows /\ t_j t' = minus1 cols /\
           (forall q, t_v t' = val (last ps q)) /\
           log' = (if cnt =? 0 then pattern_call :: repeat value_call (length ps)
                   else log ++ repeat value_call (length ps))
    end.

  Lemma last_cons : forall A (a : A) l q, last (a :: l) q = last l a.
  Proof.
    intros A a l. revert a. induction l as [|b l IH]; intros a q; [reflexivity|].
    change (last (a :: b :: l) q) with (last (b :: l) q). rewrite IH. symmetry. apply IH.
  Qed.

  Lemma added_step : forall rows cols val p ps cnt t log t1 log1 cnt' t' log',
    t_i t1 = minus1 rows -> t_j t1 = minus1 cols -> t_v t1 = val p ->
    log1 = (if cnt =? 0 then pattern_call :: [value_call] else log ++ [value_call]) ->
    added rows cols val ps 1 cnt' t1 t' log1 log' ->
    added rows cols val (p :: ps) cnt cnt' t t' log log'.
  Proof.
    intros rows cols val p ps cnt t log t1 log1 cnt' t' log' Ei Ej Ev El A.
    cbn [added]. destruct ps as [|p2 ps].
    - cbn [added] in A. destruct A as (-> & -> & ->).
      repeat split; auto.
    - cbn [added] in A. destruct A as (-> & Ai & Aj & Av & Al).
      split; [reflexivity|]. split; [exact Ai|]. split; [exact Aj|]. split.
      + intros q. rewrite last_cons. apply Av.
      + change (1 =? 0) with false in Al. cbn iota in Al. rewrite Al, El.
        destruct (cnt =? 0).
        * cbn. reflexivity.
        * rewrite <- app_assoc. reflexivity.
  Qed.

  (** Jacobian and Hessian together. *)
  Definition hinv (rows cols : list Z) (s : sst V U) : Prop :=
    mat_inv rows cols (ss_nhess s) (ss_hess s) (ss_hseen s).

  Definition sized_events (k : nat) (es : list (event V)) : Prop :=
    forall H, In (EvSolve H) es -> sized k H.

  (** The Hessian side when solves may be repeated: sizes only. *)
  Definition hweak (rows cols : list Z) (s : sst V U) : Prop :=
    sized (length rows) (ss_hess s) /\ (ss_nhess s = 0 \/ ss_nhess s = 1).

  Lemma two_calls_weak : forall (fp : fprob V U) r rows cols val u p nx cnt t log,
    matrix_routine r rows cols val -> sized (length rows) t -> (cnt = 0 \/ cnt = 1) ->
    exists u' t' log',
      two_calls fp r u p (f_n fp) (f_m fp) nx cnt t log = Some (1, t', u', log') /\
      sized (length rows) t' /\ (cnt = 1 -> t_i t' = t_i t /\ t_j t' = t_j t).
  Proof.
    intros fp r rows cols val u p nx cnt t log (Gp & Gv & Lc & Lp) Sz C.
    pose proof Sz as (Li & Lj & Lv).
    unfold two_calls. rewrite Lv.
    destruct C as [-> | ->].
    - cbn [Z.eqb].
      destruct (pattern_step fp r rows cols u p nx t Gp Lc Sz) as (u1 & E1).
      rewrite E1. cbn [t_v t_i t_j].
      destruct (value_step fp r val u1 p nx (length rows) (t_v t) Gv (Lp p) Lv) as (u2 & E2).
      rewrite E2. eexists u2, _, _. split; [reflexivity|]. split.
      + unfold sized; cbn. rewrite !map_length, Lp. auto.
      + discriminate.
    - change (1 =? 0) with false. cbn iota beta.
      destruct (value_step fp r val u p nx (length rows) (t_v t) Gv (Lp p) Lv) as (u2 & E2).
      rewrite E2. eexists u2, _, _. split; [reflexivity|]. split.
      + unfold sized; cbn. rewrite Lp. auto.
      + intros _. cbn. auto.
  Qed.

  Lemma run_weak : forall (fp : fprob V U) jr jc jv hr hc hv,
    matrix_routine (f_jac fp) jr jc jv ->
    matrix_routine (f_hess fp) hr hc hv ->
    forall es s, jinv jr jc s -> hweak hr hc s -> sized_events (length hr) es ->
    exists s', serve_all fp s es = Some s' /\ jinv jr jc s' /\ hweak hr hc s' /\
      added jr jc jv (jac_points es) (ss_njac s) (ss_njac s') (ss_jac s) (ss_jac s')
            (ss_jseen s) (ss_jseen s').
  Proof.
    intros fp jr jc jv hr hc hv MJ MH. induction es as [|e es IH]; intros s JI HW SE.
    - exists s. cbn. auto 10.
    - assert (SE' : sized_events (length hr) es) by (intros H I; apply SE; right; exact I).
      destruct e as [H | | x nx | x nx ob lam nl]; cbn [serve_all serve].
      + destruct (IH (SS (ss_type s) (ss_njac s) (ss_nhess s) (ss_jac s) H (ss_u s)
                         (ss_jseen s) (ss_hseen s))) as (s' & E & J & W & A).
        { exact JI. } { split; [apply SE; left; reflexivity|apply HW]. } { exact SE'. }
        exists s'. auto.
      + destruct (IH (SS (latch (ss_type s)) (ss_njac s) (ss_nhess s) (ss_jac s) (ss_hess s)
                         (ss_u s) (ss_jseen s) (ss_hseen s))) as (s' & E & J & W & A).
        { destruct JI as (T & M). split; [|exact M]. right. cbn.
          destruct T as [-> | ->]; reflexivity. }
        { exact HW. } { exact SE'. }
        exists s'. auto.
      + destruct JI as (T & M).
        assert (LT : latch (ss_type s) = 1) by (destruct T as [-> | ->]; reflexivity).
        rewrite LT. cbn [Z.eqb Pos.eqb].
        destruct (two_calls_ok fp (f_jac fp) jr jc jv (ss_u s) (PT x None [] 0) (b2z nx)
                    (ss_njac s) (ss_jac s) (ss_jseen s) MJ M)
          as (u' & v & log' & E & Ev & El & M').
        rewrite E.
        match goal with |- context [serve_all fp ?st es] => set (s1 := st) end.
        destruct (IH s1) as (s' & E' & J & W & A).
        { split; [right; reflexivity|exact M']. } { exact HW. } { exact SE'. }
        exists s'. split; [exact E'|]. split; [exact J|]. split; [exact W|].
        cbn [jac_points].
        eapply added_step; [| | | exact El | exact A]; cbn; auto.
      + destruct HW as (Sz & C).
        destruct (two_calls_weak fp (f_hess fp) hr hc hv (ss_u s) (PT x (Some ob) lam (b2z nl)) (b2z nx)
                    (ss_nhess s) (ss_hess s) (ss_hseen s) MH Sz C)
          as (u' & t' & log' & E & Sz' & _).
        rewrite E.
        match goal with |- context [serve_all fp ?st es] => set (s1 := st) end.
        destruct (IH s1) as (s' & E' & J & W & A).
        { exact JI. } { split; [exact Sz'|right; reflexivity]. } { exact SE'. }
        exists s'. auto.
  Qed.

  Lemma run_hess : forall (fp : fprob V U) jr jc jv hr hc hv,
    matrix_routine (f_jac fp) jr jc jv ->
    matrix_routine (f_hess fp) hr hc hv ->
    forall es s, jinv jr jc s -> hinv hr hc s -> one_solve es ->
    exists s', serve_all fp s es = Some s' /\ jinv jr jc s' /\ hinv hr hc s' /\
      added hr hc hv (hess_points es) (ss_nhess s) (ss_nhess s') (ss_hess s) (ss_hess s')
            (ss_hseen s) (ss_hseen s').
  Proof.
    intros fp jr jc jv hr hc hv MJ MH. induction es as [|e es IH]; intros s JI HI OS.
    - exists s. cbn. auto 10.
    - assert (OS' : one_solve es) by (intros H I; apply (OS H); right; exact I).
      destruct e as [H | | x nx | x nx ob lam nl]; cbn [serve_all serve].
      + exfalso. apply (OS H). left. reflexivity.
      + destruct (IH (SS (latch (ss_type s)) (ss_njac s) (ss_nhess s) (ss_jac s) (ss_hess s)
                         (ss_u s) (ss_jseen s) (ss_hseen s))) as (s' & E & J & W & A).
        { destruct JI as (T & M). split; [|exact M]. right. cbn.
          destruct T as [-> | ->]; reflexivity. }
        { exact HI. } { exact OS'. }
        exists s'. auto.
      + destruct JI as (T & M).
        assert (LT : latch (ss_type s) = 1) by (destruct T as [-> | ->]; reflexivity).
        rewrite LT. cbn [Z.eqb Pos.eqb].
        destruct (two_calls_ok fp (f_jac fp) jr jc jv (ss_u s) (PT x None [] 0) (b2z nx)
                    (ss_njac s) (ss_jac s) (ss_jseen s) MJ M)
          as (u' & v & log' & E & Ev & El & M').
        rewrite E.
        match goal with |- context [serve_all fp ?st es] => set (s1 := st) end.
        destruct (IH s1) as (s' & E' & J & W & A).
        { split; [right; reflexivity|exact M']. } { exact HI. } { exact OS'. }
        exists s'. auto.
      + destruct (two_calls_ok fp (f_hess fp) hr hc hv (ss_u s) (PT x (Some ob) lam (b2z nl)) (b2z nx)
                    (ss_nhess s) (ss_hess s) (ss_hseen s) MH HI)
          as (u' & v & log' & E & Ev & El & M').
        rewrite E.
        match goal with |- context [serve_all fp ?st es] => set (s1 := st) end.
        destruct (IH s1) as (s' & E' & J & W & A).
        { exact JI. } { exact M'. } { exact OS'. }
        exists s'. split; [exact E'|]. split; [exact J|]. split; [exact W|].
        cbn [hess_points].
        eapply added_step; [| | | exact El | exact A]; cbn; auto.
  Qed.

  Lemma start_jinv : forall jr jc J H (u : U), sized (length jr) J -> jinv jr jc (sst0 J H u).
  Proof. intros. split; [left; reflexivity|]. split; [assumption|]. left. auto. Qed.

  Lemma start_hinv : forall hr hc J H (u : U), sized (length hr) H -> hinv hr hc (sst0 J H u).
  Proof. intros. split; [assumption|]. left. auto. Qed.

  (** ** After a first solve with a Hessian, further solves never ask for the
      pattern. *)
  Lemma run_after : forall (fp : fprob V U) jr jc jv hr hc hv,
    matrix_routine (f_jac fp) jr jc jv ->
    matrix_routine (f_hess fp) hr hc hv ->
    forall es s, jinv jr jc s -> hweak hr hc s -> ss_nhess s = 1 -> one_solve es ->
    exists s', serve_all fp s es = Some s' /\
      t_i (ss_hess s') = t_i (ss_hess s) /\ t_j (ss_hess s') = t_j (ss_hess s).
  Proof.
    intros fp jr jc jv hr hc hv MJ MH. induction es as [|e es IH]; intros s JI HW N1 OS.
    - exists s. cbn. auto 10.
    - assert (OS' : one_solve es) by (intros H I; apply (OS H); right; exact I).
      destruct e as [H | | x nx | x nx ob lam nl]; cbn [serve_all serve].
      + exfalso. apply (OS H). left. reflexivity.
      + match goal with |- context [serve_all fp ?st es] => set (s1 := st) end.
        destruct (IH s1) as (s' & E & A); auto.
        { destruct JI as (T & M). split; [|exact M]. right. cbn.
          destruct T as [-> | ->]; reflexivity. }
        exists s'. auto.
      + destruct JI as (T & M).
        assert (LT : latch (ss_type s) = 1) by (destruct T as [-> | ->]; reflexivity).
        rewrite LT. cbn [Z.eqb Pos.eqb].
        destruct (two_calls_ok fp (f_jac fp) jr jc jv (ss_u s) (PT x None [] 0) (b2z nx)
                    (ss_njac s) (ss_jac s) (ss_jseen s) MJ M)
          as (u' & v & log' & E & Ev & El & M').
        rewrite E.
        match goal with |- context [serve_all fp ?st es] => set (s1 := st) end.
        destruct (IH s1) as (s' & E' & A); auto.
        { split; [right; reflexivity|exact M']. }
        exists s'. auto.
      + destruct HW as (Sz & C).
        destruct (two_calls_weak fp (f_hess fp) hr hc hv (ss_u s) (PT x (Some ob) lam (b2z nl)) (b2z nx)
                    (ss_nhess s) (ss_hess s) (ss_hseen s) MH Sz C)
          as (u' & t' & log' & E & Sz' & K).
        rewrite E.
        match goal with |- context [serve_all fp ?st es] => set (s1 := st) end.
        destruct (K N1) as (K1 & K2).
        destruct (IH s1) as (s' & E' & A1 & A2); auto.
        { split; [exact Sz'|right; reflexivity]. }
        exists s'. split; [exact E'|]. cbn in A1, A2. rewrite A1, A2. auto.
  Qed.

  Lemma serve_all_app : forall (fp : fprob V U) a b s,
    serve_all fp s (a ++ b) =
    match serve_all fp s a with Some s' => serve_all fp s' b | None => None end.
  Proof.
    intros fp. induction a as [|e a IH]; intros b s; cbn; [reflexivity|].
    destruct (serve fp s e); [apply IH|reflexivity].
  Qed.

  (** ** Copies of the problem data. *)
  Lemma copy_all : forall k (src dst : list V),
    length src = k -> (k <= length dst)%nat -> copy k src dst = Some (src ++ skipn k dst).
  Proof.
    induction k as [|k IH]; intros src dst Ls Ld.
    - destruct src; [reflexivity|discriminate].
    - destruct src as [|a src]; [discriminate|]. destruct dst as [|b dst]; [cbn in Ld; lia|].
      cbn. rewrite IH; [reflexivity| |]; cbn in *; lia.
  Qed.

  Lemma copy_fresh : forall k (src : list V) old,
    (k <= length src)%nat -> copy k src (repeat old k) = Some (firstn k src).
  Proof.
    induction k as [|k IH]; intros src old Ls; [reflexivity|].
    destruct src as [|a src]; [cbn in Ls; lia|]. cbn. rewrite IH; [reflexivity|cbn in Ls; lia].
  Qed.

  (** ** Caching callbacks. *)
  Lemma caching_cons : forall R (g : list V -> R) xs prev u,
    honest prev xs -> (forall x, prev = Some x -> u = g x) ->
    map fst (snd (c_evals KCons (caching g) u xs)) = map (fun p => g (fst p)) xs.
  Proof.
    intros R g. induction xs as [|[x nx] xs IH]; intros prev u Hh Hu; [reflexivity|].
    cbn [honest] in Hh. destruct Hh as (H1 & H2).
    cbn [c_evals c_eval flag_given]. unfold c_eval, caching at 1. cbn [flag_given].
    destruct nx; cbn [b2z Z.eqb].
    - destruct (c_evals KCons (caching g) (g x) xs) as [u2 vs] eqn:E. cbn.
      f_equal. specialize (IH (Some x) (g x) H2). rewrite E in IH. apply IH.
      intros y Ey. injection Ey as ->. reflexivity.
    - destruct (c_evals KCons (caching g) u xs) as [u2 vs] eqn:E. cbn.
      pose proof (Hu x (H1 eq_refl)) as Eu.
      f_equal; [exact Eu|]. specialize (IH (Some x) u H2). rewrite E in IH. apply IH.
      intros y Ey. injection Ey as <-. exact Eu.
  Qed.

  Lemma caching_stale : forall R (g : list V -> R) k xs u,
    k = KObj \/ k = KGrad ->
    map fst (snd (c_evals k (caching g) u xs)) = map (fun _ => u) xs.
  Proof.
    intros R g k xs u K. induction xs as [|[x nx] xs IH]; [reflexivity|].
    cbn [c_evals]. unfold c_eval, caching at 1.
    assert (F : flag_given k nx = 0) by (destruct K; subst; reflexivity).
    rewrite F. cbn [Z.eqb].
    destruct (c_evals k (caching g) u xs) as [u2 vs] eqn:E. cbn in *. f_equal. exact IH.
  Qed.

  Lemma evals_true : forall R k (cb : callback V U R) xs u,
    Forall (fun p => snd p = true) (snd (c_evals k cb u xs)).
  Proof.
    intros R k cb. induction xs as [|[x nx] xs IH]; intros u; cbn [c_evals]; [constructor|].
    unfold c_eval. destruct (cb u x (flag_given k nx)) as [[u1 r] err].
    specialize (IH u1). destruct (c_evals k cb u1 xs) as [u2 vs]. constructor; [reflexivity|exact IH].
  Qed.
End P.
