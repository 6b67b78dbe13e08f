From Coq Require Import List Bool.
From Verif Require Import FloatBase FloatFacts FilterModel FilterSpec.
Import ListNotations.

Lemma contains_exists f theta phi :
  filter_contains f theta phi = true <-> exists e, In e f /\ no_better theta phi e.
Proof.
  induction f as [|[t p] f IH]; simpl.
  - split; [discriminate|]. intros (e & [] & _).
  - destruct (fge theta t && fge phi p) eqn:E.
    + split; [|reflexivity]. intros _. apply andb_true_iff in E.
      exists (t, p). split; [left; reflexivity|]. exact E.
    + rewrite IH. split.
      * intros (e & Hin & Hn). exists e. split; [right|]; assumption.
      * intros (e & [He|Hin] & Hn).
        -- subst e. destruct Hn as [H1 H2]. simpl in *. rewrite H1, H2 in E. discriminate.
        -- exists e. split; assumption.
Qed.

Lemma run_snoc ops o : filter_run (ops ++ [o]) = filter_step (filter_run ops) o.
Proof. unfold filter_run. rewrite fold_left_app. reflexivity. Qed.

Lemma on_record_snoc h o e :
  on_record (h ++ [o]) e <-> records o = Some e \/ (~ is_reset o /\ on_record h e).
Proof.
  split.
  - intros (b & o' & a & Heq & Hr & Hn).
    destruct a as [|x a] using rev_ind.
    + left. apply app_inj_tail in Heq. destruct Heq as [_ ->]. exact Hr.
    + right. clear IHa.
      change (b ++ o' :: a ++ [x]) with (b ++ (o' :: a) ++ [x]) in Heq.
      rewrite app_assoc in Heq. apply app_inj_tail in Heq. destruct Heq as [-> ->].
      split; [apply Hn; apply in_or_app; right; left; reflexivity|].
      exists b, o', a. split; [reflexivity|]. split; [exact Hr|].
      intros y Hy. apply Hn. apply in_or_app. left. exact Hy.
  - intros [Hr | (Hn & b & o' & a & -> & Hr & Ha)].
    + exists h, o, []. split; [reflexivity|]. split; [exact Hr|]. intros ? [].
    + exists b, o', (a ++ [o]). split; [rewrite <- app_assoc; reflexivity|]. split; [exact Hr|].
      intros y Hy. apply in_app_or in Hy. destruct Hy as [Hy|[<-|[]]]; [apply Ha; exact Hy | exact Hn].
Qed.

Lemma run_on_record ops e : In e (filter_run ops) <-> on_record ops e.
Proof.
  induction ops as [|o ops IH] using rev_ind.
  - simpl. split; [intros []|]. intros (b & o & a & H & _). destruct b; discriminate.
  - rewrite run_snoc, on_record_snoc, <- IH.
    destruct o; simpl.
    + split; [intros [<-|[]]; left; reflexivity|]. intros [H|[H _]]; [|tauto].
      injection H as <-. left; reflexivity.
    + split; [intros [<-|[]]; left; reflexivity|]. intros [H|[H _]]; [|tauto].
      injection H as <-. left; reflexivity.
    + split; [intros []|]. intros [H|[H _]]; [discriminate|tauto].
    + split.
      * intros [<-|H]; [left; reflexivity|]. right. tauto.
      * intros [H|[_ H]]; [injection H as <-; left; reflexivity|]. right. exact H.
Qed.

Lemma filter_rejects_iff h theta phi :
  filter_contains (filter_run h) theta phi = true <->
  exists e, on_record h e /\ no_better theta phi e.
Proof.
  rewrite contains_exists. split; intros (e & H1 & H2); exists e; split; auto;
    apply run_on_record; exact H1.
Qed.

Lemma on_record_extend h h' e :
  (forall o, In o h' -> ~ is_reset o) -> on_record h e -> on_record (h ++ h') e.
Proof.
  intros Hn (b & o & a & -> & Hr & Ha).
  exists b, o, (a ++ h'). split; [rewrite <- app_assoc; reflexivity|]. split; [exact Hr|].
  intros y Hy. apply in_app_or in Hy. destruct Hy; auto.
Qed.

Lemma no_better_mono theta phi theta' phi' e :
  fge theta' theta = true -> fge phi' phi = true -> no_better theta phi e -> no_better theta' phi' e.
Proof.
  intros H1 H2 [H3 H4]. split; eapply fge_trans; eassumption.
Qed.

Lemma filter_rejection_permanent h h' theta phi theta' phi' :
  filter_contains (filter_run h) theta phi = true ->
  (forall o, In o h' -> ~ is_reset o) ->
  fge theta' theta = true -> fge phi' phi = true ->
  filter_contains (filter_run (h ++ h')) theta' phi' = true.
Proof.
  rewrite !filter_rejects_iff. intros (e & Hr & Hb) Hn H1 H2.
  exists e. split; [apply on_record_extend; assumption|]. eapply no_better_mono; eassumption.
Qed.

Lemma filter_add_rejects h h' theta phi theta' phi' :
  (forall o, In o h' -> ~ is_reset o) ->
  fge theta' theta = true -> fge phi' phi = true ->
  filter_contains (filter_run (h ++ FAdd theta phi :: h')) theta' phi' = true.
Proof.
  intros Hn H1 H2. apply filter_rejects_iff. exists (theta, phi). split.
  - exists h, (FAdd theta phi), h'. auto.
  - split; assumption.
Qed.

Lemma filter_cap h h' tmax theta phi :
  (forall o, In o h' -> ~ is_reset o) ->
  fge theta tmax = true -> fge phi f_m1e20 = true ->
  filter_contains (filter_run (h ++ FReinit tmax :: h')) theta phi = true.
Proof.
  intros Hn H1 H2. apply filter_rejects_iff. exists (tmax, f_m1e20). split.
  - exists h, (FReinit tmax), h'. auto.
  - split; assumption.
Qed.

Lemma filter_nan_accepted h theta phi :
  is_nan theta = true \/ is_nan phi = true ->
  filter_contains (filter_run h) theta phi = false.
Proof.
  intros Hn. destruct (filter_contains (filter_run h) theta phi) eqn:E; [|reflexivity].
  apply filter_rejects_iff in E. destruct E as (e & _ & H1 & H2).
  destruct Hn as [Hn|Hn]; [destruct theta|destruct phi]; try discriminate Hn.
  - rewrite fge_nan_l in H1. discriminate.
  - rewrite fge_nan_l in H2. discriminate.
Qed.

Lemma filter_add_exact h theta phi a b :
  filter_contains (filter_run (h ++ [FAdd a b])) theta phi = true <->
  filter_contains (filter_run h) theta phi = true \/ (fge theta a = true /\ fge phi b = true).
Proof.
  rewrite !filter_rejects_iff. split.
  - intros (e & Hr & Hb). apply on_record_snoc in Hr. destruct Hr as [Hr|[_ Hr]].
    + injection Hr as <-. right. exact Hb.
    + left. exists e. split; assumption.
  - intros [(e & Hr & Hb)|H].
    + exists e. split; [|exact Hb]. apply on_record_snoc. right. split; [simpl; tauto|exact Hr].
    + exists (a, b). split; [|exact H]. apply on_record_snoc. left. reflexivity.
Qed.
