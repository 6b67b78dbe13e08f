(** C70: starting points (C69 is in StartScaleProps.v). *)
From Coq Require Import List Bool Arith Lia Permutation.
From Verif Require Import PackModel PackSpec PackProofs XformModel XformProofs StartModel StartSpec StartProofs.
Import ListNotations.


(** Without warm start, for a user that follows the documented behaviour: nothing outside an array is accessed, nothing
    unwritten is read, and the point is the supplied one moved into the bounds; the multipliers are the supplied ones,
    or the defaults.  Missing from the full claim: multipliers together with removed variables, and starts with a tiny slack *)
Theorem C70_cold_start_partial : forall A (zero : A) E P mask U W V lam0 it,
  shaped P mask lam0 it -> honours (length mask) (length lam0) (length (p_inm P)) U -> honours_prim (length mask) V ->
  (f_duals U = true -> p_map P = None) ->
  let x0 := supplied zero mask U V in let x := e_px E x0 in let d := e_pd E (if f_slacks U then f_d U else e_d E x) in
  e_small E x d = false ->
  let r := starting_procedure A zero E P false U W V lam0 it in
  r <> Overrun /\ r <> Unwritten /\
  (r = Failed -> e_ok E x0 = false \/ e_ok E x = false \/ exists yc yd, e_hess E x yc yd = false) /\
  (forall s, r = Started s -> evaluates E x0 x (o_yc s) (o_yd s) /\ o_x s = x /\ o_d s = d /\
     if f_duals U then o_zl s = f_zl U /\ o_zu s = f_zu U /\ o_vl s = e_vl E d /\ o_vu s = e_vu E d /\
          entries_at (f_lam U) (p_eqm P) (o_yc s) /\ entries_at (f_lam U) (p_inm P) (o_yd s)
     else (o_zl s, o_zu s, o_vl s, o_vu s) = e_one E /\
          match e_lsq E x with Some y => (o_yc s, o_yd s) = y
          | None => o_yc s = repeat zero (length (p_eqm P)) /\ o_yd s = repeat zero (length (p_inm P)) end).
Proof.
  intros A zero E P mask U W V lam0 it SH HU HV NR x0 x d SM r.
  destruct (get_start_ok P mask lam0 it SH U V HU HV NR) as (it' & G & LX & LYC & LYD & GX & GD & GZ).
  assert (R : r = starting_procedure A zero E P false U W V lam0 it) by reflexivity. clearbody r. revert R.
  unfold starting_procedure. rewrite G.
  assert (X0 : inits A (if f_ret U || p_ret V then i_x it' else map (fun _ => Some zero) (i_x it')) = Some x0).
  { unfold x0, supplied. destruct (f_ret U || p_ret V) eqn:RR.
    - destruct (GX eq_refl) as (y & -> & _ & ->). rewrite inits_some. f_equal. destruct (f_ret U); [reflexivity|]. cbn in RR. rewrite RR. reflexivity.
    - rewrite inits_zero, LX. apply orb_false_iff in RR. destruct RR as (-> & ->). reflexivity. }
  destruct HU as (_ & HD & HS & _).
  assert (DU : (f_ret U || p_ret V) && f_duals U = f_duals U) by (destruct (f_duals U) eqn:Q; [rewrite (HD eq_refl); reflexivity|apply andb_false_r]).
  assert (SL : (f_ret U || p_ret V) && f_slacks U = f_slacks U) by (destruct (f_slacks U) eqn:Q; [rewrite (HS eq_refl); reflexivity|apply andb_false_r]).
  rewrite X0, DU, SL, andb_false_r. cbn [need]. fold x.
  destruct (e_ok E x0) eqn:K0; cbn [negb]; [|intros ->; split; [discriminate|]; split; [discriminate|]; split; [auto|discriminate]].
  destruct (e_ok E x) eqn:K1; cbn [negb]; [|intros ->; split; [discriminate|]; split; [discriminate|]; split; [auto|discriminate]].
  assert (D0 : (if f_slacks U then inits A (i_d it') else Some (e_d E x)) = Some (if f_slacks U then f_d U else e_d E x)).
  { destruct (f_slacks U); [rewrite (GD eq_refl), inits_some; reflexivity|reflexivity]. }
  rewrite D0. cbn [need]. fold d. rewrite SM. cbn [need].
  destruct (e_one E) as [[[ozl ozu] ovl] ovu].
  destruct (f_duals U).
  - destruct (GZ eq_refl) as (-> & -> & yc & yd & -> & -> & E1 & E2). rewrite !inits_some. cbn [need].
    destruct (e_hess E x yc yd) eqn:KH; cbn [negb].
    + intros ->. split; [discriminate|]. split; [discriminate|]. split; [discriminate|]. intros s [= <-].
      cbn [o_yc o_yd o_x o_d o_zl o_zu o_vl o_vu]. split; [repeat split; assumption|]. auto 9.
    + intros ->. split; [discriminate|]. split; [discriminate|]. split; [|discriminate]. intros _. right. right. eauto.
  - cbn [need]. destruct (e_lsq E x) as [[yc yd]|].
    + cbn [need]. destruct (e_hess E x yc yd) eqn:KH; cbn [negb].
      * intros ->. split; [discriminate|]. split; [discriminate|]. split; [discriminate|]. intros s [= <-].
        cbn [o_yc o_yd o_x o_d o_zl o_zu o_vl o_vu]. split; [repeat split; assumption|]. auto 9.
      * intros ->. split; [discriminate|]. split; [discriminate|]. split; [|discriminate]. intros _. right. right. eauto.
    + cbn [need].
      assert (Z : forall (v : list (option A)), map (fun _ => zero) v = repeat zero (length v)) by (induction v as [|a v IH]; cbn; [reflexivity|rewrite IH; reflexivity]).
      rewrite !Z, LYC, LYD. destruct (e_hess E x _ _) eqn:KH; cbn [negb].
      * intros ->. split; [discriminate|]. split; [discriminate|]. split; [discriminate|]. intros s [= <-].
        cbn [o_yc o_yd o_x o_d o_zl o_zu o_vl o_vu]. split; [repeat split; assumption|]. auto 9.
      * intros ->. split; [discriminate|]. split; [discriminate|]. split; [|discriminate]. intros _. right. right. eauto.
Qed.
Print Assumptions C70_cold_start_partial.

(** With warm start, a user that supplies everything gets exactly that point and those multipliers.
    Missing from the full claim: a user that declines, and removed variables *)
Theorem C70_warm_start_partial : forall A (zero : A) E P mask U W V lam0 it,
  shaped P mask lam0 it -> honours_warm (length mask) (length lam0) (length (p_inm P)) W -> w_ret W = true -> p_map P = None ->
  let r := starting_procedure A zero E P true U W V lam0 it in
  r <> Overrun /\ r <> Unwritten /\
  (forall s, r = Started s -> o_x s = w_x W /\ o_d s = w_d W /\ o_zl s = w_zl W /\ o_zu s = w_zu W /\ o_vl s = w_vl W /\ o_vu s = w_vu W /\
     entries_at (w_lam W) (p_eqm P) (o_yc s) /\ entries_at (w_lam W) (p_inm P) (o_yd s)).
Proof.
  intros A zero E P mask U W V lam0 it SH HW R NR r.
  destruct (get_warm_ok P mask lam0 it SH W V HW R NR) as (yc & yd & G & E1 & E2).
  assert (RR : r = starting_procedure A zero E P true U W V lam0 it) by reflexivity. clearbody r. revert RR.
  unfold starting_procedure. rewrite G. cbn [andb i_x i_d i_zl i_zu i_vl i_vu i_yc i_yd]. rewrite !inits_some. cbn [need].
  destruct (e_ok E (w_x W)); cbn [negb]; [|intros ->; split; [discriminate|]; split; [discriminate|]; discriminate].
  assert (Q : (if e_small E (w_x W) (w_d W) then Some tt else Some tt) = Some tt) by (destruct (e_small E _ _); reflexivity). rewrite Q. cbn [need].
  destruct (e_one E) as [[[ozl ozu] ovl] ovu]. cbn [need]. destruct (e_hess E _ yc yd); cbn [negb].
  - intros ->. split; [discriminate|]. split; [discriminate|]. intros s [= <-]. cbn [o_x o_d o_zl o_zu o_vl o_vu o_yc o_yd]. auto 12.
  - intros ->. split; [discriminate|]. split; discriminate.
Qed.
Print Assumptions C70_warm_start_partial.

(** ** cases: two variables, an equality (second constraint) and an inequality (first constraint) *)
Definition exP : prob nat := Prob [1] [0] None [0; 0].
Definition new (n : nat) : list (option nat) := repeat None n.
Definition exIt : point nat := Point (new 2) (new 1) (new 2) (new 2) (new 1) (new 1) (new 1) (new 1).
Definition exE : steps nat :=
  Steps (fun _ => true) (fun _ => [50]) (map (fun a => Nat.max 1 (Nat.min a 9))) (map (fun a => Nat.max 2 a)) (fun x _ => existsb (Nat.eqb 0) x)
    (fun _ => [3]) (fun _ => [4]) ([1; 1], [1; 1], [1], [1]) (fun _ => None) (fun _ _ _ => true).
Definition exU : ufull nat := UFull true [20; 5] true [6; 7] [8; 9] [31; 32] true [1].
Definition noU : ufull nat := UFull false [] false [] [] [] false [].
Definition exW : uwarm nat := UWarm true [20; 5] [6; 7] [8; 9] [31; 32] [1] [2] [3].
Definition noW : uwarm nat := UWarm false [] [] [] [] [] [] [].
Definition noV : uprim nat := UPrim false [].
Lemma exShaped : shaped exP [true; true] (new 2) exIt.
Proof. repeat split. unfold complementary. cbn. apply perm_swap. Qed.
Example C70_case : honours 2 2 1 exU /\
  starting_procedure nat 0 exE exP false exU noW noV (new 2) exIt = Started (Start0 [9; 5] [2] [6; 7] [8; 9] [3] [4] [32] [31]) /\
  starting_procedure nat 0 exE exP false noU noW noV (new 2) exIt = Started (Start0 [1; 1] [50] [1; 1] [1; 1] [1] [1] [0] [0]) /\
  starting_procedure nat 0 exE exP true noU exW noV (new 2) exIt = Started (Start0 [20; 5] [1] [6; 7] [8; 9] [2] [3] [32] [31]).
Proof. repeat split; cbn; auto. Qed.
(** one of two variables is removed; a primal start *)
Definition exPR : prob nat := Prob [1] [0] (Some (ranks 0 [false; true])) [77; 0].
Definition exItR : point nat := Point (new 1) (new 1) (new 1) (new 1) (new 1) (new 1) (new 1) (new 1).
Example C70_removed_case : shaped exPR [false; true] (new 2) exItR /\
  starting_procedure nat 0 exE exPR false noU noW (UPrim true [20; 5]) (new 2) exItR = Started (Start0 [5] [50] [1; 1] [1; 1] [1] [1] [0] [0]).
Proof. split; [|reflexivity]. repeat split. unfold complementary. cbn. apply perm_swap. Qed.

(** a user that declines the warm start (the default implementation) and supplies a primal start has its multipliers
    and slacks read although nobody wrote them *)
Theorem C70_warm_declined_refuted : honours_warm 2 2 1 noW /\ honours_prim 2 (UPrim true [20; 5]) /\
  starting_procedure nat 0 exE exP true noU noW (UPrim true [20; 5]) (new 2) exIt = Unwritten.
Proof. repeat split. Qed.
Print Assumptions C70_warm_declined_refuted.
(** had they been written by chance (zeros here), the point would not even be moved into the bounds: 20 stays, where
    the projection allows at most 9 *)
Theorem C70_warm_declined_not_projected_refuted : exists s,
  starting_procedure nat 0 exE exP true noU noW (UPrim true [20; 5]) [Some 0; Some 0]
    (Point (new 2) [Some 0] [Some 0; Some 0] [Some 0; Some 0] [Some 0] [Some 0] (new 1) (new 1)) = Started s /\
  o_x s = [20; 5] /\ o_zl s = [0; 0] /\ e_px exE (o_x s) <> o_x s.
Proof. eexists. split; [reflexivity|]. repeat split. discriminate. Qed.
Print Assumptions C70_warm_declined_not_projected_refuted.
(** a first call that raises duals_avail and then declines: the flag survives the primal-only call *)
Theorem C70_flag_survives_refuted :
  starting_procedure nat 0 exE exP false (UFull false [] true [] [] [] false []) noW (UPrim true [20; 5]) (new 2) exIt = Unwritten.
Proof. reflexivity. Qed.
Print Assumptions C70_flag_survives_refuted.
(** with a removed variable the user is asked for multipliers of all variables, but the arrays have the reduced size *)
Theorem C70_removed_duals_refuted : honours 2 2 1 exU /\ shaped exPR [false; true] (new 2) exItR /\
  starting_procedure nat 0 exE exPR false exU noW noV (new 2) exItR = Overrun.
Proof. split; [repeat split; cbn; auto|]. split; [apply C70_removed_case|reflexivity]. Qed.
Print Assumptions C70_removed_duals_refuted.
(** a start with a tiny slack reads the bound multipliers before they are set, for a user that supplied no multipliers *)
Theorem C70_small_slack_refuted : let E := Steps (e_ok exE) (e_d exE) (fun x => x) (e_pd exE) (e_small exE) (e_vl exE) (e_vu exE) (e_one exE) (e_lsq exE) (e_hess exE) in
  starting_procedure nat 0 E exP false noU noW (UPrim true [0; 5]) (new 2) exIt = Unwritten.
Proof. reflexivity. Qed.
Print Assumptions C70_small_slack_refuted.
