(** Proofs about KktModel. *)
From Coq Require Import List Bool Arith Lia Ring Field.
From Verif Require Import RingKit KktModel KktSpec.
Import ListNotations.

Section Pf.
Variable K : cfield.
Add Field kf : (fth K).
Notation vec := (nat -> K).
Notation mat := (nat -> nat -> K).

Lemma count_pos n p i : i < n -> p i = true -> (0 <? count n p) = true.
Proof.
  intros H E. unfold count. apply Nat.ltb_lt. destruct (filter p (seq 0 n)) eqn:F; cbn; [|lia].
  assert (A : In i (filter p (seq 0 n))) by (apply filter_In; split; [apply in_seq; lia|exact E]). rewrite F in A. destruct A.
Qed.
Lemma f1nz : @f1 K <> f0.
Proof. exact (F_1_neq_0 (fth K)). Qed.
Lemma barrier_x_eq P it i : barrier_x K P it i = xdiag K P it i.
Proof. unfold barrier_x, axdz, xdiag. destruct (ixl P i), (ixu P i); rewrite ?(Fdiv_def (fth K)); ring. Qed.
Lemma barrier_d_eq P it e i : barrier_d K P it i +! e_wd e i = ddiag K P it e i.
Proof. unfold barrier_d, axdz, ddiag. destruct (idl P i), (idu P i); rewrite ?(Fdiv_def (fth K)); ring. Qed.
Lemma dd_inv_eq P it e i : dd_inv K P it e i = f1 /! ddiag K P it e i.
Proof. unfold dd_inv, axdz, ddiag. f_equal. destruct (idl P i), (idu P i); rewrite ?(Fdiv_def (fth K)); ring. Qed.
Lemma rx_tilde_eq P it r i : i < nx P -> rx_tilde K P it r i =
  r_x r i +! (if ixl P i then (r_szl r i -! w_zl it i *! r_xl r i) /! w_sxl it i else f0)
          -! (if ixu P i then (r_szu r i -! w_zu it i *! r_xu r i) /! w_sxu it i else f0).
Proof.
  intro H. unfold rx_tilde, axdz. destruct (ixl P i) eqn:El, (ixu P i) eqn:Eu.
  - rewrite (count_pos _ _ _ H El), (count_pos _ _ _ H Eu), El, Eu. rewrite ?(Fdiv_def (fth K)); ring.
  - rewrite (count_pos _ _ _ H El). destruct (0 <? count (nx P) (ixu P)); rewrite ?El, ?Eu; rewrite ?(Fdiv_def (fth K)); ring.
  - rewrite (count_pos _ _ _ H Eu). destruct (0 <? count (nx P) (ixl P)); rewrite ?El, ?Eu; rewrite ?(Fdiv_def (fth K)); ring.
  - destruct (0 <? count (nx P) (ixl P)), (0 <? count (nx P) (ixu P)); rewrite ?El, ?Eu; ring.
Qed.
Lemma rd_tilde_eq P it r i : i < ni P -> rd_tilde K P it r i =
  r_d r i +! (if idl P i then (r_svl r i -! w_vl it i *! r_dl r i) /! w_sdl it i else f0)
          -! (if idu P i then (r_svu r i -! w_vu it i *! r_du r i) /! w_sdu it i else f0).
Proof.
  intro H. unfold rd_tilde, axdz. destruct (idl P i) eqn:El, (idu P i) eqn:Eu.
  - rewrite (count_pos _ _ _ H El), (count_pos _ _ _ H Eu), El, Eu. rewrite ?(Fdiv_def (fth K)); ring.
  - rewrite (count_pos _ _ _ H El). destruct (0 <? count (ni P) (idu P)); rewrite ?El, ?Eu; rewrite ?(Fdiv_def (fth K)); ring.
  - rewrite (count_pos _ _ _ H Eu). destruct (0 <? count (ni P) (idl P)); rewrite ?El, ?Eu; rewrite ?(Fdiv_def (fth K)); ring.
  - destruct (0 <? count (ni P) (idl P)), (0 <? count (ni P) (idu P)); rewrite ?El, ?Eu; ring.
Qed.

Section Core.
Variables (P : prob K) (it : iter K) (e : deltas K) (r : resid K) (dx dd dyc dyd : vec).
Hypothesis I : interior K P it.
Let w := full_space K P it r dx dd dyc dyd.
Lemma fs_xl i : i < nx P -> w_sxl w i = (if ixl P i then r_xl r i +! dx i else f0) /\
  w_zl w i = (if ixl P i then (r_szl r i -! w_zl it i *! (r_xl r i +! dx i)) /! w_sxl it i else f0).
Proof.
  intro H. unfold w, full_space, select, div_pat. cbn [w_sxl w_zl].
  destruct (ixl P i) eqn:E; [rewrite (count_pos _ _ _ H E), E; auto|destruct (0 <? count (nx P) (ixl P)); rewrite ?E; auto].
Qed.
Lemma fs_xu i : i < nx P -> w_sxu w i = (if ixu P i then r_xu r i -! dx i else f0) /\
  w_zu w i = (if ixu P i then (r_szu r i -! w_zu it i *! (r_xu r i -! dx i)) /! w_sxu it i else f0).
Proof.
  intro H. unfold w, full_space, select, div_pat. cbn [w_sxu w_zu].
  destruct (ixu P i) eqn:E; [rewrite (count_pos _ _ _ H E), E; auto|destruct (0 <? count (nx P) (ixu P)); rewrite ?E; auto].
Qed.
Lemma fs_dl i : i < ni P -> w_sdl w i = (if idl P i then r_dl r i +! dd i else f0) /\
  w_vl w i = (if idl P i then (r_svl r i -! w_vl it i *! (r_dl r i +! dd i)) /! w_sdl it i else f0).
Proof.
  intro H. unfold w, full_space, select, div_pat. cbn [w_sdl w_vl].
  destruct (idl P i) eqn:E; [rewrite (count_pos _ _ _ H E), E; auto|destruct (0 <? count (ni P) (idl P)); rewrite ?E; auto].
Qed.
Lemma fs_du i : i < ni P -> w_sdu w i = (if idu P i then r_du r i -! dd i else f0) /\
  w_vu w i = (if idu P i then (r_svu r i -! w_vu it i *! (r_du r i -! dd i)) /! w_sdu it i else f0).
Proof.
  intro H. unfold w, full_space, select, div_pat. cbn [w_sdu w_vu].
  destruct (idu P i) eqn:E; [rewrite (count_pos _ _ _ H E), E; auto|destruct (0 <? count (ni P) (idu P)); rewrite ?E; auto].
Qed.
(** the four remaining equations imply the whole system *)
Lemma core :
  (forall i, i < nx P -> mv K (nx P) (p_H P) dx i +! (xdiag K P it i +! e_wx e i) *! dx i +! tmv K (neq P) (p_Jc P) dyc i +! tmv K (ni P) (p_Jd P) dyd i = rx_tilde K P it r i) ->
  (forall i, i < ni P -> ddiag K P it e i *! dd i -! dyd i = rd_tilde K P it r i) ->
  (forall i, i < neq P -> mv K (nx P) (p_Jc P) dx i -! e_cc e i *! dyc i = r_yc r i) ->
  (forall i, i < ni P -> mv K (nx P) (p_Jd P) dx i -! dd i -! e_cd e i *! dyd i = r_yd r i) ->
  newton K P it e r w.
Proof.
  destruct I as (Il & Iu & Jl & Ju). intros A B C D. unfold newton.
  split; [|split; [|split; [exact C|split; [exact D|]]]].
  - intros i H. destruct (fs_xl i H) as [_ ->]. destruct (fs_xu i H) as [_ ->].
    specialize (A i H). rewrite (rx_tilde_eq P it r i H) in A. unfold xdiag in A.
    change (w_x w) with dx. change (w_yc w) with dyc. change (w_yd w) with dyd.
    fold (mv K (nx P) (p_H P) dx i) (tmv K (neq P) (p_Jc P) dyc i) (tmv K (ni P) (p_Jd P) dyd i).
    set (X := mv K _ _ _ _) in *. set (Y := tmv K _ (p_Jc P) _ _) in *. set (Z := tmv K _ (p_Jd P) _ _) in *.
    destruct (ixl P i) eqn:El, (ixu P i) eqn:Eu.
    + assert (N1 := Il i H El). assert (N2 := Iu i H Eu).
      transitivity ((X +! (w_zl it i /! w_sxl it i +! w_zu it i /! w_sxu it i +! e_wx e i) *! dx i +! Y +! Z) -! (r_szl r i -! w_zl it i *! r_xl r i) /! w_sxl it i +! (r_szu r i -! w_zu it i *! r_xu r i) /! w_sxu it i).
      * field. split; assumption.
      * rewrite A. field. split; assumption.
    + assert (N1 := Il i H El).
      transitivity ((X +! (w_zl it i /! w_sxl it i +! f0 +! e_wx e i) *! dx i +! Y +! Z) -! (r_szl r i -! w_zl it i *! r_xl r i) /! w_sxl it i).
      * field. assumption.
      * rewrite A. field. assumption.
    + assert (N2 := Iu i H Eu).
      transitivity ((X +! (f0 +! w_zu it i /! w_sxu it i +! e_wx e i) *! dx i +! Y +! Z) +! (r_szu r i -! w_zu it i *! r_xu r i) /! w_sxu it i).
      * field. assumption.
      * rewrite A. field. assumption.
    + transitivity (X +! (f0 +! f0 +! e_wx e i) *! dx i +! Y +! Z); [ring|]. rewrite A. ring.
  - intros i H. destruct (fs_dl i H) as [_ ->]. destruct (fs_du i H) as [_ ->].
    specialize (B i H). rewrite (rd_tilde_eq P it r i H) in B. unfold ddiag in B.
    change (w_d w) with dd. change (w_yd w) with dyd.
    destruct (idl P i) eqn:El, (idu P i) eqn:Eu.
    + assert (N1 := Jl i H El). assert (N2 := Ju i H Eu).
      transitivity (((w_vl it i /! w_sdl it i +! w_vu it i /! w_sdu it i +! e_wd e i) *! dd i -! dyd i) -! (r_svl r i -! w_vl it i *! r_dl r i) /! w_sdl it i +! (r_svu r i -! w_vu it i *! r_du r i) /! w_sdu it i).
      * field. split; assumption.
      * rewrite B. field. split; assumption.
    + assert (N1 := Jl i H El).
      transitivity (((w_vl it i /! w_sdl it i +! f0 +! e_wd e i) *! dd i -! dyd i) -! (r_svl r i -! w_vl it i *! r_dl r i) /! w_sdl it i).
      * field. assumption.
      * rewrite B. field. assumption.
    + assert (N2 := Ju i H Eu).
      transitivity (((f0 +! w_vu it i /! w_sdu it i +! e_wd e i) *! dd i -! dyd i) +! (r_svu r i -! w_vu it i *! r_du r i) /! w_sdu it i).
      * field. assumption.
      * rewrite B. field. assumption.
    + transitivity ((f0 +! f0 +! e_wd e i) *! dd i -! dyd i); [ring|]. rewrite B. ring.
  - change (w_x w) with dx. change (w_d w) with dd. split; [|split; [|split]]; intros i H.
    + destruct (fs_xl i H) as [-> ->]. destruct (ixl P i) eqn:E; [|auto]. split; [ring|]. field. exact (Il i H E).
    + destruct (fs_xu i H) as [-> ->]. destruct (ixu P i) eqn:E; [|auto]. split; [ring|]. field. exact (Iu i H E).
    + destruct (fs_dl i H) as [-> ->]. destruct (idl P i) eqn:E; [|auto]. split; [ring|]. field. exact (Jl i H E).
    + destruct (fs_du i H) as [-> ->]. destruct (idu P i) eqn:E; [|auto]. split; [ring|]. field. exact (Ju i H E).
Qed.
End Core.

(** the compressed system in (dx, dyc, dyd) *)
Definition xycyd_sys (P : prob K) (it : iter K) (e : deltas K) (Ddi : vec) (rx ryc ryd dx dyc dyd : vec) : Prop :=
  (forall i, i < nx P -> mv K (nx P) (p_H P) dx i +! (xdiag K P it i +! e_wx e i) *! dx i +! tmv K (neq P) (p_Jc P) dyc i +! tmv K (ni P) (p_Jd P) dyd i = rx i) /\
  (forall i, i < neq P -> mv K (nx P) (p_Jc P) dx i -! e_cc e i *! dyc i = ryc i) /\
  (forall i, i < ni P -> mv K (nx P) (p_Jd P) dx i -! (Ddi i +! e_cd e i) *! dyd i = ryd i).
Lemma xycyd_ok P it e r solve w Ddi : interior K P it -> (forall i, i < ni P -> ddiag K P it e i <> f0) ->
  (forall i, i < ni P -> Ddi i = f1 /! ddiag K P it e i) ->
  (forall rx ryc ryd dx dyc dyd, solve rx ryc ryd = Some (dx, dyc, dyd) -> xycyd_sys P it e Ddi rx ryc ryd dx dyc dyd) ->
  xycyd_dir K P it r Ddi solve = Some w -> newton K P it e r w.
Proof.
  intros I N ED HS. unfold xycyd_dir. destruct (solve _ _ _) as [[[dx dyc] dyd]|] eqn:E; [|discriminate].
  intros [= <-]. destruct (HS _ _ _ _ _ _ E) as (A & B & C). apply core; [exact I|exact A| |exact B|].
  - intros i H. rewrite (ED i H). field. exact (N i H).
  - intros i H. specialize (C i H). cbv beta in C.
    transitivity ((mv K (nx P) (p_Jd P) dx i -! (Ddi i +! e_cd e i) *! dyd i) -! rd_tilde K P it r i *! Ddi i); [ring|]. rewrite C. ring.
Qed.
(** the compressed system in (dx, dd, dyc, dyd) *)
Definition xdycyd_sys (P : prob K) (it : iter K) (e : deltas K) (rx rd ryc ryd dx dd dyc dyd : vec) : Prop :=
  (forall i, i < nx P -> mv K (nx P) (p_H P) dx i +! (xdiag K P it i +! e_wx e i) *! dx i +! tmv K (neq P) (p_Jc P) dyc i +! tmv K (ni P) (p_Jd P) dyd i = rx i) /\
  (forall i, i < ni P -> ddiag K P it e i *! dd i -! dyd i = rd i) /\
  (forall i, i < neq P -> mv K (nx P) (p_Jc P) dx i -! e_cc e i *! dyc i = ryc i) /\
  (forall i, i < ni P -> mv K (nx P) (p_Jd P) dx i -! dd i -! e_cd e i *! dyd i = ryd i).
Lemma xdycyd_ok P it e r solve w : interior K P it ->
  (forall rx rd ryc ryd dx dd dyc dyd, solve rx rd ryc ryd = Some (dx, dd, dyc, dyd) -> xdycyd_sys P it e rx rd ryc ryd dx dd dyc dyd) ->
  xdycyd_dir K P it r solve = Some w -> newton K P it e r w.
Proof.
  intros I HS. unfold xdycyd_dir. destruct (solve _ _ _ _) as [[[[dx dd] dyc] dyd]|] eqn:E; [|discriminate].
  intros [= <-]. destruct (HS _ _ _ _ _ _ _ _ E) as (A & B & C & D). apply core; assumption.
Qed.

(* ---------- sums over consecutive blocks ---------- *)
Lemma sumn_app n m (f : nat -> K) : sumn (n + m) f = sumn n f +! sumn m (fun i => f (n + i)).
Proof.
  unfold sumn. rewrite seq_app, map_app, lsum_app. f_equal. cbn.
  replace (seq n m) with (map (fun i => n + i) (seq 0 m)); [rewrite map_map; reflexivity|].
  clear. assert (G : forall s, map (fun i => n + i) (seq s m) = seq (n + s) m).
  { induction m as [|m IH]; intro s; cbn; [reflexivity|]. rewrite IH. f_equal. f_equal. lia. }
  rewrite G. f_equal. lia.
Qed.
Lemma sumn_diag n i (d : K) (f v : vec) : i < n ->
  sumn n (fun j => (f j +! (if i =? j then d else f0)) *! v j) = sumn n (fun j => f j *! v j) +! d *! v i.
Proof.
  intro H. rewrite (sumn_ext K n _ (fun j => f j *! v j +! (if i =? j then d *! v j else f0))).
  - rewrite sumn_add. f_equal. exact (sumn_pick K (fun j => d *! v j) n i H).
  - intros j _. destruct (i =? j); ring.
Qed.
Lemma sumn_diag0 n i (d : K) (v : vec) : i < n -> sumn n (fun j => (if i =? j then d else f0) *! v j) = d *! v i.
Proof.
  intro H. rewrite (sumn_ext K n _ (fun j => if i =? j then d *! v j else f0)).
  - exact (sumn_pick K (fun j => d *! v j) n i H).
  - intros j _. destruct (i =? j); ring.
Qed.
End Pf.

(** decide comparisons of naturals that the context settles *)
Ltac bdec1 :=
  match goal with
  | |- context [?a <? ?b] => first [ rewrite (proj2 (Nat.ltb_lt a b)) by lia | rewrite (proj2 (Nat.ltb_ge a b)) by lia ]
  | |- context [?a <=? ?b] => first [ rewrite (proj2 (Nat.leb_le a b)) by lia | rewrite (proj2 (Nat.leb_gt a b)) by lia ]
  | |- context [?a =? ?b] => first [ rewrite (proj2 (Nat.eqb_eq a b)) by lia | rewrite (proj2 (Nat.eqb_neq a b)) by lia ]
  end.
Ltac bdec := repeat (bdec1; cbn [andb]).
