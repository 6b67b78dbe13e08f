(** What the per-iteration callbacks are given (C90). *)
From Coq Require Import List Bool Arith.
From Verif Require Import RingKit PackModel ScaleModel.
Import ListNotations.

Section IterCb.
Variable K : cfield.
(** the arguments of iterate_callback that depend on the iterate (hiopInterface.hpp 445-463); the
    iteration number, norms, step sizes and the sizes are passed on unchanged and left out *)
Record itrep := ItRep { i_obj : K; i_logbar : K; i_x : list K; i_zl : list K; i_zu : list K;
  i_s : list K; i_cons : list K; i_lambda : list K }.
(** hiopNlpFormulation.cpp 1165-1272 [user_callback_iterate], called from hiopAlgFilterIPM.cpp
    1130-1149 and 2255-2274 with the solver's objective value, barrier objective, iterate and
    constraint values; the host copies of 1206-1225 copy every vector to one of its own and are left
    out.  None: an assert (1184-1188) or an index out of range *)
Definition callback_iterate (P : nlp K) (x s : list K) (y : duals K) (c d : list K) (obj logbar : K)
  : option itrep :=
  let buf := map (fun _ => f0) (n_eqm P ++ n_inm P) in
  if (length c + length d =? length (n_eqm P ++ n_inm P)) && (length (y_c y) =? length (n_eqm P)) &&
     (length (y_d y) =? length (n_inm P)) then
    match merge buf (y_c y) (n_eqm P) (y_d y) (n_inm P), merge buf c (n_eqm P) d (n_inm P) with
    | Some lam, Some body =>
        Some (ItRep (fdiv obj (get_obj_scale P)) logbar x (z_l y) (z_u y) s body lam)
    | _, _ => None
    end
  else None.

(** hiopInterface.hpp 488-495: the arguments of iterate_full_callback *)
Record fullrep := FullRep { g_x : list K; g_zl : list K; g_zu : list K; g_yc : list K; g_yd : list K;
  g_s : list K; g_vl : list K; g_vu : list K }.
(** hiopVectorCuda.cpp 191-195, hiopVectorRajaImpl.hpp 266-270 [copy_to_vectorpar]: the sizes are
    asserted to be equal *)
Definition to_host (src dest : list K) : option (list K) :=
  if length src =? length dest then Some src else None.
(** hiopNlpFormulation.cpp 1274-1338 [user_callback_full_iterate]; [host] is the test of 1289, [mem n]
    the contents of a newly allocated host vector of size [n].  The slack duals are copied to the host
    vectors of the bound duals (1314, 1317).  No code calls this function *)
Definition callback_full (host : bool) (mem : nat -> list K) (a : fullrep) : option fullrep :=
  if host then
    let n := length (g_x a) in let mi := length (g_yd a) in
    match to_host (g_x a) (mem n), to_host (g_zl a) (mem n), to_host (g_zu a) (mem n),
          to_host (g_yc a) (mem (length (g_yc a))), to_host (g_yd a) (mem mi), to_host (g_s a) (mem mi) with
    | Some x, Some zl, Some zu, Some yc, Some yd, Some s =>
        match to_host (g_vl a) zl, to_host (g_vu a) zu with
        | Some zl', Some zu' => Some (FullRep x zl' zu' yc yd s (mem mi) (mem mi))
        | _, _ => None
        end
    | _, _, _, _, _, _ => None
    end
  else Some a.
End IterCb.
Arguments ItRep {_}. Arguments i_obj {_}. Arguments i_logbar {_}. Arguments i_x {_}. Arguments i_zl {_}.
Arguments i_zu {_}. Arguments i_s {_}. Arguments i_cons {_}. Arguments i_lambda {_}.
Arguments callback_iterate {_}.
Arguments FullRep {_}. Arguments g_x {_}. Arguments g_zl {_}. Arguments g_zu {_}. Arguments g_yc {_}.
Arguments g_yd {_}. Arguments g_s {_}. Arguments g_vl {_}. Arguments g_vu {_}.
Arguments to_host {_}. Arguments callback_full {_}.
