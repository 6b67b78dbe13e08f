(** Model of the compound vector of /repo/src/LinAlg/hiopVectorCompoundPD.cpp.

    A compound vector is an array of parts and a separate part counter; every method loops over the
    counter and calls the same method of the part.  The methods of a part are those of
    hiopVectorPar.cpp; the methods that change the vector are written over the arithmetic record
    [arith] (any arithmetic, binary64 included), the reductions over exact numbers with a part being
    the list of its local arrays, one per rank (RedModel).  [None] = a failed assert or a read past
    the end of the array of parts.  Not modelled: [set_to_random_uniform], [component_sqrt], [print],
    the overloads taking an integer compound vector and the methods that are only
    [assert(0 && "not required.")]. *)
From Coq Require Import List Bool QArith Qabs Qminmax ZArith Reals.
From Verif Require Import VecModel RedModel.
Import ListNotations.

(** hiopVectorCompoundPD.hpp 328-331: [vectors_], [n_parts_]; hiopVector.hpp [n_] *)
Record comp (A : Type) := Comp { c_vecs : list A; c_parts : nat; c_size : nat }.
Arguments Comp {A}. Arguments c_vecs {A}. Arguments c_parts {A}. Arguments c_size {A}.

(** hiopVectorCompoundPD.cpp 69-74, the constructor without parts *)
Definition c_new {A} : comp A := Comp [] 0 0.
(** hiopVectorCompoundPD.cpp 1013-1017 [addVector]: the part counter is not touched *)
Definition add_vector {A} (sz : A -> nat) (c : comp A) (v : A) : comp A :=
  Comp (c_vecs c ++ [v]) (c_parts c) (c_size c + sz v).
(** the twelve blocks of an iterate or a residual, in the order they are pushed;
    hiopIterate.hpp 181-204, hiopVectorCompoundPD.cpp 99-209 *)
Record blocks (A : Type) := Blocks {
  k_x : A; k_d : A; k_yc : A; k_yd : A; k_sxl : A; k_sxu : A; k_sdl : A; k_sdu : A;
  k_zl : A; k_zu : A; k_vl : A; k_vu : A }.
Arguments Blocks {A}. Arguments k_x {A}. Arguments k_d {A}. Arguments k_yc {A}. Arguments k_yd {A}.
Arguments k_sxl {A}. Arguments k_sxu {A}. Arguments k_sdl {A}. Arguments k_sdu {A}.
Arguments k_zl {A}. Arguments k_zu {A}. Arguments k_vl {A}. Arguments k_vu {A}.
(** hiopVectorCompoundPD.cpp 99-152 (of an iterate) and 154-209 (of a residual: rx, rd, ryc, ryd, rxl,
    rxu, rdl, rdu, rszl, rszu, rsvl, rsvu in the same positions): parts pushed one by one, then the
    counter set to 12 *)
Definition from_blocks {A} (sz : A -> nat) (b : blocks A) : comp A :=
  let l := [k_x b; k_d b; k_yc b; k_yd b; k_sxl b; k_sxu b; k_sdl b; k_sdu b; k_zl b; k_zu b; k_vl b; k_vu b] in
  Comp l 12 (fold_left (fun n v => (n + sz v)%nat) l 0%nat).
(** hiopVectorCompoundPD.cpp 88-97 (copy constructor, [alloc_clone] 211-216): clones of the counted
    parts, whose content is the fresh memory [fresh] of the right size *)
Fixpoint c_clone_loop {A} (fresh : A -> A) (l : list A) (n : nat) : option (list A) :=
  match n, l with
  | O, _ => Some []
  | S n', v :: l' => match c_clone_loop fresh l' n' with Some r => Some (fresh v :: r) | None => None end
  | S _, [] => None
  end.
(** hiopVectorCompoundPD.cpp 88-97, 211-216 [alloc_clone] *)
Definition c_clone {A} (fresh : A -> A) (c : comp A) : option (comp A) :=
  match c_clone_loop fresh (c_vecs c) (c_parts c) with
  | Some l => Some (Comp l (c_parts c) (c_size c))
  | None => None
  end.

(** ** methods that change the vector *)
Section Ops.
Variable K : arith.
Local Notation T := (car K).

(** one constructor per method; the numbers in front of the citations are the lines of
    hiopVectorCompoundPD.cpp, in brackets those of hiopVectorPar.cpp *)
Inductive vop :=
| SetZero                    (* 258-263 [121-126] *)
| SetConst (c : T)           (* 265-270 [127-132] *)
| SetConstPat (c : T)        (* 279-286 [139-149] *)
| CopyFrom                   (* 288-295 [151-156] *)
| CopyPat                    (* 313-324 [177-191] *)
| Mult                       (* 505-513 [564-571] *)
| Div                        (* 515-523 [573-578] *)
| DivPat                     (* 525-535 [580-592] *)
| MinC (c : T)               (* 537-542 [594-601] *)
| MinV                       (* 544-551 [603-612] *)
| MaxC (c : T)               (* 553-558 [614-621] *)
| MaxV                       (* 560-567 [623-632] *)
| Abs                        (* 569-574 [634-639] *)
| Sgn                        (* 576-581 [641-647] *)
| Scale (a : T)              (* 590-595 [657-662] *)
| Axpy (a : T)               (* 597-604 [664-671] *)
| AxpyPat (a : T)            (* 618-626 [692-708] *)
| Axzpy (a : T)              (* 628-636 [710-734] *)
| Axdzpy (a : T)             (* 638-647 [736-765] *)
| AxdzpyPat (a : T)          (* 649-658 [767-790] *)
| AddC (c : T)               (* 660-665 [793-796] *)
| AddCPat (c : T)            (* 667-674 [798-804] *)
| Negate                     (* 704-709 [846-850] *)
| Invert                     (* 711-716 [852-860] *)
| LogGrad (a : T)            (* 740-748 [893-905] *)
| Damp (a ct : T)            (* 766-779 [927-944] *)
| Select                     (* 850-858 [1063-1071] *)
| AdjDuals (mu kappa : T).   (* 890-903 [1117-1148] *)

Local Infix "+." := (aadd K) (at level 50, left associativity).
Local Infix "-." := (asub K) (at level 50, left associativity).
Local Infix "*." := (amul K) (at level 40, left associativity).
Local Infix "/." := (adiv K) (at level 40, left associativity).
Local Notation "0." := (azero K). Local Notation "1." := (aone K).
Local Infix "=?." := (aeq K) (at level 70).

(** what the loop of the method of a part does to one entry [y], given the entries of the vector
    arguments at the same index; [None] = the method takes another number of vectors.  The lines of
    hiopVectorPar.cpp are those in brackets above *)
Definition entry (op : vop) (y : T) (a : list T) : option T :=
  match op, a with
  | SetZero, [] => Some 0.
  | SetConst c, [] => Some c
  | SetConstPat c, [s] => Some (if s =?. 1. then c else 0.)
  | CopyFrom, [v] => Some v
  | CopyPat, [v; s] => Some (if s =?. 1. then v else y)
  | Mult, [v] => Some (y *. v)
  | Div, [v] => Some (y /. v)
  | DivPat, [v; s] => Some (if s =?. 0. then 0. else y /. v)
  | MinC c, [] => Some (if alt K c y then c else y)
  | MinV, [v] => Some (if alt K v y then v else y)
  | MaxC c, [] => Some (if alt K y c then c else y)
  | MaxV, [v] => Some (if alt K y v then v else y)
  | Abs, [] => Some (aabs K y)
  | Sgn, [] => Some (if alt K 0. y then 1. else if alt K y 0. then aopp K 1. else 0.)
  | Scale c, [] => Some (if 1. =?. c then y else c *. y)
  | Axpy c, [x] => Some (y +. c *. x)
  | AxpyPat c, [x; s] => Some (if s =?. 1. then y +. c *. x else y)
  | Axzpy c, [x; z] =>
      Some (if c =?. 1. then y +. x *. z else if c =?. aopp K 1. then y -. x *. z
            else if c =?. 0. then y else y +. c *. x *. z)
  | Axdzpy c, [x; z] =>
      Some (if c =?. 0. then y else if c =?. 1. then y +. x /. z
            else if c =?. aopp K 1. then y -. x /. z else y +. x /. z *. c)
  | AxdzpyPat c, [x; z; s] =>
      Some (if s =?. 1. then
              (if c =?. 1. then y +. x /. z else if c =?. aopp K 1. then y -. x /. z else y +. c *. x /. z)
            else y)
  | AddC c, [] => Some (y +. c)
  | AddCPat c, [s] => Some (if s =?. 1. then y +. c else y)
  | Negate, [] => Some (aopp K 1. *. y)
  | Invert, [] => Some (1. /. y)
  | LogGrad c, [x; s] => Some (if s =?. 1. then y +. c /. x else y)
  | Damp c ct, [l; r] => Some (c *. y +. (l -. r) *. ct)
  | Select, [s] => Some (if s =?. 0. then 0. else y)
  | AdjDuals mu kappa, [x; s] => Some (adj_dual1 K mu kappa (y, x, s))
  | _, _ => None
  end.

(** the vector arguments read at one index; hiopVectorPar.cpp 564-1148 (sizes asserted equal, or read
    past the end) *)
Fixpoint heads {A} (a : list (list A)) : option (list A * list (list A)) :=
  match a with
  | [] => Some ([], [])
  | (x :: v) :: a' => match heads a' with Some (h, t) => Some (x :: h, v :: t) | None => None end
  | [] :: _ => None
  end.
(** the loop of a method of one part; hiopVectorPar.cpp 564-1148 *)
Fixpoint par_apply (op : vop) (y : list T) (a : list (list T)) : option (list T) :=
  match y with
  | [] => if forallb (fun v => match v with [] => true | _ => false end) a then Some [] else None
  | e :: y' =>
      match heads a with
      | Some (h, t) =>
          match entry op e h, par_apply op y' t with
          | Some e', Some r => Some (e' :: r)
          | _, _ => None
          end
      | None => None
      end
  end.

(** the vector arguments whose part [i] the method passes on: all of them, except that
    [addLogBarrierGrad] (hiopVectorCompoundPD.cpp 742-743) takes both its arguments from [select] *)
Definition passed {A} (op : vop) (a : list A) : list A :=
  match op, a with LogGrad _, [_; s] => [s; s] | _, _ => a end.
(** the asserts on the number of parts (or, for [copy_from_w_pattern] 318-319, on the sizes), on the
    arguments the method checks: only the first one for [axpy_w_pattern] 622, [axzpy] 632, [axdzpy]
    643, [axdzpy_w_pattern] 654; only [select] for [addLogBarrierGrad] 744 *)
Definition checked {A} (op : vop) (y : comp A) (a : list (comp A)) : bool :=
  let same c := Nat.eqb (c_parts y) (c_parts c) in
  match op with
  | CopyPat => forallb (fun c => Nat.eqb (c_size y) (c_size c)) a
  | AxpyPat _ | Axzpy _ | Axdzpy _ | AxdzpyPat _ => forallb same (firstn 1 a)
  | LogGrad _ => forallb same (skipn 1 a)
  | _ => forallb same a
  end.
(** the loop over the parts, hiopVectorCompoundPD.cpp 258-903: iteration [i] of [n] on the remaining
    arrays of parts *)
Fixpoint comp_loop (op : vop) (n : nat) (y : list (list T)) (a : list (list (list T))) : option (list (list T)) :=
  match n with
  | O => Some y
  | S n' =>
      match y with
      | [] => None
      | p :: y' =>
          match heads a with
          | Some (h, t) =>
              match par_apply op p h, comp_loop op n' y' t with
              | Some p', Some r => Some (p' :: r)
              | _, _ => None
              end
          | None => None
          end
      end
  end.
(** hiopVectorCompoundPD.cpp 258-903, a method with vector arguments [a]; [axdzpy] 640 returns at once
    when its factor is zero *)
Definition comp_apply (op : vop) (y : comp (list T)) (a : list (comp (list T))) : option (comp (list T)) :=
  let quick := match op with Axdzpy c => c =?. 0. | _ => false end in
  if quick then Some y
  else if checked op y a then
    match comp_loop op (c_parts y) (c_vecs y) (passed op (map c_vecs a)) with
    | Some l => Some (Comp l (c_parts y) (c_size y))
    | None => None
    end
  else None.
(** hiopVectorCompoundPD.cpp 218-224 [new_copy]: a clone, then [copyFrom] *)
Definition c_new_copy (fresh : list T -> list T) (c : comp (list T)) : option (comp (list T)) :=
  match c_clone fresh c with Some v => comp_apply CopyFrom v [c] | None => None end.
(** hiopVectorCompoundPD.cpp 226-256 [copy_from_resid], [copy_from_iterate]: twelve [copyFrom]s by
    position *)
Definition copy_from_blocks (c : comp (list T)) (b : blocks (list T)) : option (comp (list T)) :=
  match comp_loop CopyFrom 12 (c_vecs c) [c_vecs (from_blocks (@length T) b)] with
  | Some l => Some (Comp l (c_parts c) (c_size c))
  | None => None
  end.

(** hiopVectorCompoundPD.cpp 793-813 [projectIntoBounds_local]: the result of the parts is dropped *)
Fixpoint comp_project (k1 k2 : T) (n : nat) (l : list (list (bvar K))) : option (list (list T) * bool) :=
  match n with
  | O => Some (map (map (@b_x K)) l, true)
  | S n' =>
      match l with
      | [] => None
      | p :: l' => match comp_project k1 k2 n' l' with
                   | Some (r, _) => Some (fst (project_loop K k1 k2 p) :: r, true)
                   | None => None
                   end
      end
  end.

(** hiopVectorCompoundPD.cpp 832-848 [fractionToTheBdry_w_pattern_local]; one entry of the list is a
    part: (values, direction, pattern) *)
Definition comp_ftb (tau : T) (parts : list (list T * list T * list T)) : option T :=
  fold_left (fun acc p =>
    match acc, ftb_w_pattern K (fst (fst p)) (snd (fst p)) tau (snd p) with
    | Some alpha, Some aux => Some (if alt K aux alpha then aux else alpha)
    | _, _ => None
    end) parts (Some (aone K)).
End Ops.

(** ** reductions; a part is the list of its local arrays, one per rank *)
(** the first [n] parts, the ones a loop to [n] visits; hiopVectorCompoundPD.cpp 438-503 *)
Definition visited {A} (c : comp A) : option (list A) :=
  if Nat.leb (c_parts c) (length (c_vecs c)) then Some (firstn (c_parts c) (c_vecs c)) else None.
(** hiopVectorCompoundPD.cpp 485-493 [onenorm] *)
Definition c_one (c : comp (list (list Q))) : option Q :=
  option_map (fun l => fold_left (fun s p => Qplus s (one_all p)) l 0%Q) (visited c).
(** hiopVectorCompoundPD.cpp 730-737 [sum_local], summed over the ranks *)
Definition c_sum (c : comp (list (list Q))) : option Q :=
  option_map (fun l => fold_left (fun s p => Qplus s (sum_all p)) l 0%Q) (visited c).
(** hiopVectorCompoundPD.cpp 438-448 [twonorm] *)
Definition c_two (c : comp (list (list R))) : option R :=
  option_map (fun l => sqrt (fold_left (fun s p => Rplus s (Rmult (two_all p) (two_all p))) l R0)) (visited c).
(** hiopVectorCompoundPD.cpp 463-472 [infnorm]: loop over the parts' norms *)
Fixpoint c_inf_loop (nrm : Q) (l : list (list (list Q))) : option Q :=
  match l with
  | [] => Some nrm
  | p :: l' => match inf_all p with
               | Some arg => c_inf_loop (if Qltb arg nrm then nrm else arg) l'
               | None => None
               end
  end.
(** hiopVectorCompoundPD.cpp 463-472 [infnorm] *)
Definition c_inf (c : comp (list (list Q))) : option Q :=
  match visited c with Some l => c_inf_loop 0%Q l | None => None end.
(** hiopVectorCompoundPD.cpp 676-684 [min]: loop over the parts' minima *)
Fixpoint c_min_loop (m : Q) (l : list (list (list Q))) : option Q :=
  match l with
  | [] => Some m
  | p :: l' => match min_all p with
               | Some arg => c_min_loop (if Qltb m arg then m else arg) l'
               | None => None
               end
  end.
(** hiopVectorCompoundPD.cpp 676-684 [min] *)
Definition c_min (c : comp (list (list Q))) : option Q :=
  match visited c with Some l => c_min_loop Q_maxv l | None => None end.
(** hiopVectorCompoundPD.cpp 450-461 [dotProductWith]: loop over the pairs of parts *)
Fixpoint c_dot_loop (s : Q) (x y : list (list (list Q))) : option Q :=
  match x, y with
  | [], _ => Some s
  | p :: x', q :: y' =>
      match zip p q with
      | Some rk => match dot_all rk with Some d => c_dot_loop (s + d)%Q x' y' | None => None end
      | None => None
      end
  | _ :: _, [] => None
  end.
(** hiopVectorCompoundPD.cpp 450-461 [dotProductWith] *)
Definition c_dot (x y : comp (list (list Q))) : option Q :=
  if Nat.eqb (c_parts x) (c_parts y) then
    match visited x, visited y with Some a, Some b => c_dot_loop 0%Q a b | _, _ => None end
  else None.
(** hiopVectorCompoundPD.cpp 781-791 [allPositive], 905-915 [is_zero]: stop at the first part that
    fails *)
Fixpoint c_all_loop {A} (t : A -> bool) (l : list A) : bool :=
  match l with [] => true | p :: l' => if t p then c_all_loop t l' else false end.
(** hiopVectorCompoundPD.cpp 781-791 [allPositive] *)
Definition c_all_pos (c : comp (list (list Q))) : option bool := option_map (c_all_loop all_pos_all) (visited c).
(** hiopVectorCompoundPD.cpp 905-915 [is_zero] *)
Definition c_is_zero (c : comp (list (list Q))) : option bool := option_map (c_all_loop is_zero_all) (visited c).
(** hiopVectorCompoundPD.cpp 972-979 [numOfElemsLessThan] *)
Definition c_num_less (v : Q) (c : comp (list (list Q))) : option nat :=
  option_map (fun l => fold_left (fun s p => (s + num_less_all v p)%nat) l 0%nat) (visited c).
(** hiopVectorCompoundPD.cpp 981-989 [numOfElemsAbsLessThan] *)
Definition c_num_abs_less (v : Q) (c : comp (list (list Q))) : option nat :=
  option_map (fun l => fold_left (fun s p => (s + num_abs_less_all v p)%nat) l 0%nat) (visited c).
(** hiopVectorCompoundPD.cpp 860-873 [matchesPattern]; the entries of a part are (value, pattern) pairs
    (the two compound vectors walked together) *)
Definition c_matches (c : comp (list (list (Q * Q)))) : option bool :=
  option_map (c_all_loop matches_all) (visited c).
(** hiopVectorCompoundPD.cpp 875-888 [allPositive_w_patternSelect]; entries as in [matchesPattern] *)
Definition c_all_pos_pat (c : comp (list (list (Q * Q)))) : option bool :=
  option_map (c_all_loop all_pos_pat_all) (visited c).
(** hiopVectorCompoundPD.cpp 719-728 [logBarrier_local], summed over the ranks; [lg] is the logarithm *)
Definition c_log (lg : Q -> Q) (c : comp (list (list (Q * Q)))) : option Q :=
  option_map (fun l => fold_left (fun s p => Qplus s (log_barrier_all lg p)) l 0%Q) (visited c).
(** hiopVectorCompoundPD.cpp 750-764 [linearDampingTerm_local], summed over the ranks *)
Definition c_damping (mu kd : Q) (c : comp (list (list (Q * (Q * Q))))) : option Q :=
  option_map (fun l => fold_left (fun s p => Qplus s (damping_all mu kd p)) l 0%Q) (visited c).
