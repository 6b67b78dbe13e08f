(** C82: what each method that changes the vector does to one entry, in exact arithmetic. *)
From Coq Require Import List Bool QArith Qabs Qminmax ZArith Lia Lqa.
From Verif Require Import VecModel VecSpec VecProofs CompModel CompSpec.
Import ListNotations.
Open Scope Q_scope.

(** the number each method is documented to put at an index, from the entry [y] there and the entries
    of the vector arguments, the last one being the pattern (0 or 1) for the methods with one;
    [adjustDuals_plh] is C09's *)
Definition documented (op : vop Qar) (y : Q) (a : list Q) : option Q :=
  match op, a with
  | SetZero _, [] => Some 0
  | SetConst _ c, [] => Some c
  | SetConstPat _ c, [s] => Some (s * c)
  | CopyFrom _, [v] => Some v
  | CopyPat _, [v; s] => Some (s * v + (1 - s) * y)
  | Mult _, [v] => Some (y * v)
  | Div _, [v] => Some (y / v)
  | DivPat _, [v; s] => Some (s * (y / v))
  | MinC _ c, [] => Some (Qmin y c)
  | MinV _, [v] => Some (Qmin y v)
  | MaxC _ c, [] => Some (Qmax y c)
  | MaxV _, [v] => Some (Qmax y v)
  | Abs _, [] => Some (Qabs y)
  | Sgn _, [] => Some (inject_Z (Z.sgn (Qnum y)))
  | Scale _ c, [] => Some (c * y)
  | Axpy _ c, [x] => Some (y + c * x)
  | AxpyPat _ c, [x; s] => Some (y + s * (c * x))
  | Axzpy _ c, [x; z] => Some (y + c * (x * z))
  | Axdzpy _ c, [x; z] => Some (y + c * (x / z))
  | AxdzpyPat _ c, [x; z; s] => Some (y + s * (c * (x / z)))
  | AddC _ c, [] => Some (y + c)
  | AddCPat _ c, [s] => Some (y + s * c)
  | Negate _, [] => Some (- y)
  | Invert _, [] => Some (/ y)
  | LogGrad _ c, [x; s] => Some (y + s * (c / x))
  | Damp _ c ct, [l; r] => Some (c * y + ct * (l - r))
  | Select _, [s] => Some (s * y)
  | _, _ => None
  end.
(** the methods with a pattern argument *)
Definition patterned (op : vop Qar) : bool :=
  match op with
  | SetConstPat _ _ | CopyPat _ | DivPat _ | AxpyPat _ _ | AxdzpyPat _ _ | AddCPat _ _ | LogGrad _ _ | Select _ => true
  | _ => false
  end.
(** the pattern holds zeros and ones *)
Definition good_pattern (op : vop Qar) (a : list (list Q)) : Prop :=
  patterned op = true -> forall s, In s (last a []) -> s == 0 \/ s == 1.
Definition is_adjust (op : vop Qar) : bool := match op with AdjDuals _ _ _ => true | _ => false end.

Ltac ql := change (car Qar) with Q in *; cbn [aeq alt ale aadd asub amul adiv aopp aabs azero aone Qar] in *.
Lemma one_entry op y a r : is_adjust op = false -> (patterned op = true -> last a 0 == 0 \/ last a 0 == 1) ->
  entry Qar op y a = Some r -> exists q, documented op y a = Some q /\ r == q.
Proof.
  intros NA PT H.
  assert (MN : forall u v : Q, (if Qltb v u then v else u) == Qmin u v).
  { intros u v. destruct (Qltb v u) eqn:E; [apply Qltb_true in E; rewrite Q.min_r by lra|apply Qltb_false in E; rewrite Q.min_l by lra]; reflexivity. }
  assert (MX : forall u v : Q, (if Qltb u v then v else u) == Qmax u v).
  { intros u v. destruct (Qltb u v) eqn:E; [apply Qltb_true in E; rewrite Q.max_r by lra|apply Qltb_false in E; rewrite Q.max_l by lra]; reflexivity. }
  assert (SG : forall u : Q, (if Qltb 0 u then 1 else if Qltb u 0 then - (1) else 0) == inject_Z (Z.sgn (Qnum u))).
  { intros [[|n|n] d]; reflexivity. }
  destruct op; try discriminate NA; cbn [patterned] in PT;
  (destruct a as [|a1 [|a2 [|a3 [|a4 a]]]]; try discriminate H; cbn [last] in PT; cbn [entry documented] in *; ql; eexists; (split; [reflexivity|]);
   injection H as <-; first [reflexivity | apply MN | apply MX | apply SG | idtac]); match type of PT with true = true -> _ => specialize (PT eq_refl) | _ => clear PT end.
  all: repeat match goal with |- context [Qeq_bool ?u ?v] => let E := fresh "E" in destruct (Qeq_bool u v) eqn:E; [apply Qeq_bool_iff in E|apply Qeqb_false in E] end.
  all: try (destruct PT as [PT|PT]; try (exfalso; lra)).
  all: try (rewrite ?PT, ?E, ?E0, ?E1; unfold Qdiv; ring).
  all: try (rewrite <- E; unfold Qdiv; ring).
Qed.

(** every method: entry by entry the documented number, for vectors of any length *)
Theorem C82_entries : forall op (y : list Q) a r, is_adjust op = false -> good_pattern op a ->
  par_apply Qar op y a = Some r ->
  length r = length y /\
  forall i e, nth_error y i = Some e -> exists h q v,
    Forall2 (fun x u => nth_error x i = Some u) a h /\ documented op e h = Some q /\ nth_error r i = Some v /\ v == q.
Proof.
  intros op y a r NA. revert a r. induction y as [|e y IH]; intros a r G H; cbn [par_apply] in H; change (car Qar) with Q in *.
  - match type of H with (if ?b then _ else _) = _ => destruct b end; [|discriminate H]. injection H as <-. split; [reflexivity|]. intros [|i] e E; discriminate E.
  - destruct (heads a) as [[h t]|] eqn:HD; [|discriminate]. destruct (entry Qar op e h) as [e'|] eqn:EN; [|discriminate].
    destruct (par_apply Qar op y t) as [r'|] eqn:PA; [|discriminate]. injection H as <-.
    assert (HS : Forall2 (fun x u => exists v, x = u :: v) a h /\ Forall2 (fun x v => exists u, x = u :: v) a t).
    { clear -HD. revert h t HD. induction a as [|[|x v] a IHa]; intros h t HD; cbn in HD; [injection HD as <- <-; split; constructor|discriminate|].
      destruct (heads a) as [[h' t']|]; [|discriminate]. injection HD as <- <-. destruct (IHa _ _ eq_refl) as [A B]. split; constructor; eauto. }
    destruct HS as [H1 H2].
    assert (L1 : forall s, In s (last t []) -> In s (last a [])).
    { clear -H2. induction H2 as [|x v a t [u ->] F IHF]; [auto|]. intros s. inversion F; subst; cbn [last]; [intro; right; assumption|exact (IHF s)]. }
    assert (L2 : h <> [] -> In (last h 0) (last a [])).
    { clear -H1. induction H1 as [|x u a h [v ->] F IHF]; [congruence|]. intros _. inversion F; subst; cbn [last]; [left; reflexivity|]. apply IHF. discriminate. }
    destruct (IH t r') as [IL IN]; [intros P s S; apply (G P); auto|exact PA|]. split; [cbn; congruence|].
    intros [|i] x E.
    + injection E as <-. destruct (one_entry op e h e' NA) as (q & Q1 & Q2); [|exact EN|].
      * intro P. apply (G P). apply L2. intros ->. destruct op; discriminate.
      * exists h, q, e'. split; [|auto]. clear -H1. induction H1 as [|x0 u a0 h0 [v ->] F0 IH0]; constructor; auto.
    + destruct (IN i x E) as (h' & q & v & F & D & N & V). exists h', q, v. split; [|auto].
      clear -H2 F. revert h' F. induction H2 as [|x v a t [u ->] F2 IHF]; intros h' F; inversion F; subst; constructor; auto.
Qed.
Print Assumptions C82_entries.
Example C82_entries_case : par_apply Qar (AxdzpyPat Qar 2) [1; 2] [[3; 1]; [4; 0]; [1; 0]] = Some [1 + 2 * 3 / 4; 2] /\
  good_pattern (AxdzpyPat Qar 2) [[3; 1]; [4; 0]; [1; 0]] /\ documented (AxdzpyPat Qar 2) 1 [3; 4; 1] = Some (1 + 1 * (2 * (3 / 4))).
Proof. split; [reflexivity|]. split; [|reflexivity]. intros _ s [<-|[<-|[]]]; [right|left]; reflexivity. Qed.
