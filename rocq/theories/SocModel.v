(** Second-order corrections: src/Optimization/hiopAlgFilterIPM.cpp 2949-3039 and the vectors of
    src/Optimization/hiopResidual.cpp 102-150, 425-640.  Exact arithmetic (any field), one MPI rank, vectors as
    functions on indices (KktModel.v).  The decisions by infeasibility and filter are those of LineSearchModel.v; here
    they are parameters, and the directions, trial points and right-hand sides are modelled. *)
From Coq Require Import List Bool Arith.
From Verif Require Import RingKit KktModel.
Import ListNotations.

Section Soc.
Variable K : cfield.
Notation vec := (nat -> K).

(** hiopResidual.cpp 425-640 hiopResidual::update_soc, the vectors: as update (154-351), with c_soc and d_soc copied
    to ryc and ryd (473, 480) *)
Definition update_soc (P : prob K) (v : nlpvals K) (it : iter K) (cs ds : vec) (old : resid K) : resid K :=
  let nxl := count (nx P) (ixl P) in let nxu := count (nx P) (ixu P) in
  let ndl := count (ni P) (idl P) in let ndu := count (ni P) (idu P) in
  let sel (c n : nat) (p : nat -> bool) (w : vec) := if c <? n then select K p w else w in
  let mu1 (p : nat -> bool) (w : vec) := fun i => if p i then w i +! v_mu v else w i in
  Resid K
    (fun i => fopp (v_grad v i +! tmv K (neq P) (p_Jc P) (w_yc it) i +! tmv K (ni P) (p_Jd P) (w_yd it) i -! w_zl it i +! w_zu it i +! v_dampx v i))
    (fun i => w_yd it i +! w_vl it i -! w_vu it i -! v_dampd v i)
    cs
    ds
    (if 0 <? nxl then sel nxl (nx P) (ixl P) (fun i => w_x it i -! w_sxl it i -! v_xl v i) else r_xl old)
    (if 0 <? nxu then sel nxu (nx P) (ixu P) (fun i => v_xu v i -! w_x it i -! w_sxu it i) else r_xu old)
    (if 0 <? ndl then select K (idl P) (fun i => w_d it i -! w_sdl it i -! v_dl v i) else r_dl old)
    (if 0 <? ndu then select K (idu P) (fun i => v_du v i -! w_sdu it i -! w_d it i) else r_du old)
    (if 0 <? nxl then mu1 (ixl P) (sel nxl (nx P) (ixl P) (fun i => f0 -! w_sxl it i *! w_zl it i)) else r_szl old)
    (if 0 <? nxu then mu1 (ixu P) (sel nxu (nx P) (ixu P) (fun i => f0 -! w_sxu it i *! w_zu it i)) else r_szu old)
    (if 0 <? ndl then mu1 (idl P) (sel ndl (ni P) (idl P) (fun i => f0 -! w_sdl it i *! w_vl it i)) else r_svl old)
    (if 0 <? ndu then mu1 (idu P) (sel ndu (ni P) (idu P) (fun i => f0 -! w_sdu it i *! w_vu it i)) else r_svu old).

(** hiopResidual.cpp 102-150 hiopResidual::compute_nlp_infeasib_onenorm, the vectors it leaves behind: [c], [d] the
    constraint values at the trial iterate [it] *)
Definition infeas_resid (P : prob K) (v : nlpvals K) (it : iter K) (c d : vec) (old : resid K) : resid K :=
  let nxl := count (nx P) (ixl P) in let nxu := count (nx P) (ixu P) in
  let sel (c n : nat) (p : nat -> bool) (w : vec) := if c <? n then select K p w else w in
  Resid K (r_x old) (r_d old) (fun i => v_crhs v i -! c i) (fun i => w_d it i -! d i)
    (if 0 <? nxl then sel nxl (nx P) (ixl P) (fun i => w_x it i -! w_sxl it i -! v_xl v i) else r_xl old)
    (if 0 <? nxu then sel nxu (nx P) (ixu P) (fun i => v_xu v i -! w_x it i -! w_sxu it i) else r_xu old)
    (if 0 <? count (ni P) (idl P) then select K (idl P) (fun i => w_d it i -! w_sdl it i -! v_dl v i) else r_dl old)
    (if 0 <? count (ni P) (idu P) then select K (idu P) (fun i => v_du v i -! w_sdu it i -! w_d it i) else r_du old)
    (r_szl old) (r_szu old) (r_svl old) (r_svu old).

(** the parameters of a run (hiopAlgFilterIPM.cpp 3003, 3007, 3013, 3016, 3024-3026, 2988): computeDirections with the
    matrix of the last build, the primal step length of a direction (fraction to the boundary), the slacks of a trial
    iterate (compute_safe_slacks), the user's constraints, whether the n-th corrected point is accepted, and whether
    the infeasibility has decreased enough for another correction *)
Record oracle := Oracle {
  o_dirs : resid K -> option (iter K); o_step : iter K -> K; o_slacks : iter K -> iter K;
  o_eval : vec -> option (vec * vec); o_good : nat -> bool; o_more : nat -> bool }.
(** one correction: direction, step, trial iterate, constraint values there (hiopAlgFilterIPM.cpp 2991-3021) *)
Record corr := Corr { q_w : iter K; q_alpha : K; q_it : iter K; q_c : vec; q_d : vec }.
(** what the loop keeps: c_soc, d_soc, alpha_primal_soc, it_trial, _c_trial, _d_trial, resid_trial (hiopAlgFilterIPM.cpp 2973-2987) *)
Record sst := Sst { s_c : vec; s_d : vec; s_alpha : K; s_it : iter K; s_ct : vec; s_dt : vec; s_res : resid K }.
(** how it ends: accepted (status > 0), not accepted, error in the user's functions, failed assert (hiopAlgFilterIPM.cpp 3004, 3016-3018, 3028-3037) *)
Inductive outcome := Accepted | NotAccepted | UserError | Abort.

(** hiopIterate.cpp 366-372 takeStep_primals: x and d; the other blocks of the trial iterate are set by o_slacks or kept *)
Definition take_step (it w tr : iter K) (a : K) : iter K :=
  Iter K (fun i => w_x it i +! a *! w_x w i) (fun i => w_d it i +! a *! w_d w i) (w_yc tr) (w_yd tr)
    (w_sxl tr) (w_sxu tr) (w_sdl tr) (w_sdu tr) (w_zl tr) (w_zu tr) (w_vl tr) (w_vu tr).

(** hiopAlgFilterIPM.cpp 2988-3036; [left] = max_soc_iter - num_soc, [n] = num_soc; returns how the loop ends and the corrections made *)
Fixpoint soc_loop (O : oracle) (P : prob K) (v : nlpvals K) (it : iter K) (left n : nat) (s : sst) : outcome * list corr :=
  match left with
  | 0 => (NotAccepted, [])
  | S left' =>
    if (n =? 0) || o_more O n then
      let cs := fun i => s_alpha s *! s_c s i +! v_crhs v i -! s_ct s i in
      let ds := fun i => s_alpha s *! s_d s i +! w_d (s_it s) i -! s_dt s i in
      let r := update_soc P v it cs ds (s_res s) in
      match o_dirs O r with
      | None => (Abort, [])
      | Some w =>
        let a := o_step O w in
        let tr := o_slacks O (take_step it w (s_it s) a) in
        match o_eval O (w_x tr) with
        | None => (UserError, [])
        | Some (ct, dt) =>
          let q := Corr w a tr ct dt in
          if o_good O n then (Accepted, [q])
          else let '(e, h) := soc_loop O P v it left' (S n) (Sst cs ds a tr ct dt (infeas_resid P v tr ct dt r)) in (e, q :: h)
        end
      end
    else (NotAccepted, [])
  end.

(** hiopAlgFilterIPM.cpp 2949-3039 apply_second_order_correction: [alpha] is _alpha_primal, [tr], [ct], [dt] the rejected trial iterate and
    the constraints there, [res] what resid_trial holds *)
Definition soc (O : oracle) (P : prob K) (v : nlpvals K) (it : iter K) (max_soc : nat) (alpha : K) (tr : iter K) (ct dt : vec) (res : resid K) : outcome * list corr :=
  soc_loop O P v it max_soc 0 (Sst (fun i => v_crhs v i -! v_c v i) (fun i => w_d it i -! v_d v i) alpha tr ct dt res).
End Soc.
Arguments o_dirs {_}. Arguments o_step {_}. Arguments o_slacks {_}. Arguments o_eval {_}. Arguments o_good {_}. Arguments o_more {_}.
Arguments q_w {_}. Arguments q_alpha {_}. Arguments q_it {_}. Arguments q_c {_}. Arguments q_d {_}.
Arguments s_c {_}. Arguments s_d {_}. Arguments s_alpha {_}. Arguments s_it {_}. Arguments s_ct {_}. Arguments s_dt {_}. Arguments s_res {_}.
