(** Model of the primal-dual regularisation calculators and of the factorisation acceptors:
    /repo/src/Optimization/hiopPDPerturbation.{hpp,cpp}, hiopFactAcceptor.cpp and the
    factorisation dialogue in hiopKKTLinSys.cpp:316-455.  Binary64 arithmetic; libm's [pow] is the
    parameter [fpow].  Not modelled: logging, timers, the unused [*_last_] vectors (written, never
    read), the memory of the vectors (allocation, device copies). *)
From Coq Require Import List Bool ZArith.
From Verif Require Import FloatBase MuModel.
Import ListNotations.

(** hiopPDPerturbation.hpp:225-231 *)
Inductive degen : Type := NotEstablished | NotDegenerate | Degenerate.
(** hiopPDPerturbation.hpp:244-251; c0w0 = dttDeltac0Deltaw0 etc. *)
Inductive dtest : Type := NoTest | c0w0 | cpw0 | c0wp | cpwp.
(** hiopPDPerturbation.hpp:22-29 without None and Initialized, which are never arguments *)
Inductive upd : Type := DualUpdate | PrimalUpdate | PDUpdate.

(** comparison of two values of the enumeration (hiopPDPerturbation.hpp 22-29) *)
Definition degen_eqb (a b : degen) : bool :=
  match a, b with NotEstablished, NotEstablished | NotDegenerate, NotDegenerate | Degenerate, Degenerate => true | _, _ => false end.

(** parameters; hiopPDPerturbation.cpp:69-79 reads them from the options *)
Record reg_params : Type := RP {
  rp_wmin : b64; rp_wmax : b64; rp_w0 : b64; rp_kminus : b64; rp_kplusbar : b64; rp_kplus : b64;
  rp_cbar : b64; rp_kc : b64 }.

(** members of hiopPDPerturbation; hiopPDPerturbation.hpp:174-258.  [v*] are the vectors handed to
    the KKT system; [cnt] counts the vector fills (it indexes the random draws of the randomised
    variants). *)
Record reg : Type := Reg {
  wx : b64; wd : b64; cc : b64; cd : b64;
  lwx : b64; lwd : b64; lcc : b64; lcd : b64;
  vwx : list b64; vwd : list b64; vcc : list b64; vcd : list b64;
  hess : degen; jac : degen; degit : nat; test : dtest; mu : b64; cnt : nat }.

(** constructor defaults, hiopPDPerturbation.hpp:37-75 (vectors not allocated yet) *)
Definition reg_new : reg :=
  Reg f_zero f_zero f_zero f_zero f_zero f_zero f_zero f_zero [] [] [] []
      NotEstablished NotEstablished 0 NoTest (S754_finite false 6044629098073146 (-79)) 0.

(** member assignments (C++ assignment statements; no lines of their own); hiopPDPerturbation.cpp 60-470 *)
Definition set_w (s : reg) (a b : b64) : reg :=
  Reg a b (cc s) (cd s) (lwx s) (lwd s) (lcc s) (lcd s) (vwx s) (vwd s) (vcc s) (vcd s) (hess s) (jac s) (degit s) (test s) (mu s) (cnt s).
(** an assignment to members of the object (hiopPDPerturbation.cpp 60-470), delta_cc and delta_cd *)
Definition set_c (s : reg) (a b : b64) : reg :=
  Reg (wx s) (wd s) a b (lwx s) (lwd s) (lcc s) (lcd s) (vwx s) (vwd s) (vcc s) (vcd s) (hess s) (jac s) (degit s) (test s) (mu s) (cnt s).
(** an assignment to members of the object (hiopPDPerturbation.cpp 60-470), last delta_wx and delta_wd *)
Definition set_lw (s : reg) (a b : b64) : reg :=
  Reg (wx s) (wd s) (cc s) (cd s) a b (lcc s) (lcd s) (vwx s) (vwd s) (vcc s) (vcd s) (hess s) (jac s) (degit s) (test s) (mu s) (cnt s).
(** an assignment to members of the object (hiopPDPerturbation.cpp 60-470), last delta_cc and delta_cd *)
Definition set_lc (s : reg) (a b : b64) : reg :=
  Reg (wx s) (wd s) (cc s) (cd s) (lwx s) (lwd s) a b (vwx s) (vwd s) (vcc s) (vcd s) (hess s) (jac s) (degit s) (test s) (mu s) (cnt s).
(** an assignment to members of the object (hiopPDPerturbation.cpp 60-470), the four vectors *)
Definition set_v (s : reg) (a b c d : list b64) : reg :=
  Reg (wx s) (wd s) (cc s) (cd s) (lwx s) (lwd s) (lcc s) (lcd s) a b c d (hess s) (jac s) (degit s) (test s) (mu s) (S (cnt s)).
(** an assignment to members of the object (hiopPDPerturbation.cpp 60-470), degeneracy status and counter *)
Definition set_deg (s : reg) (h j : degen) (n : nat) : reg :=
  Reg (wx s) (wd s) (cc s) (cd s) (lwx s) (lwd s) (lcc s) (lcd s) (vwx s) (vwd s) (vcc s) (vcd s) h j n (test s) (mu s) (cnt s).
(** an assignment to members of the object (hiopPDPerturbation.cpp 60-470), the test under way *)
Definition set_test (s : reg) (t : dtest) : reg :=
  Reg (wx s) (wd s) (cc s) (cd s) (lwx s) (lwd s) (lcc s) (lcd s) (vwx s) (vwd s) (vcc s) (vcd s) (hess s) (jac s) (degit s) t (mu s) (cnt s).
(** hiopPDPerturbation.hpp:96-99 *)
Definition set_mu (s : reg) (m : b64) : reg :=
  Reg (wx s) (wd s) (cc s) (cd s) (lwx s) (lwd s) (lcc s) (lcd s) (vwx s) (vwd s) (vcc s) (vcd s) (hess s) (jac s) (degit s) (test s) m (cnt s).

(** 1e5, 10. and 1e-20 as literals of hiopPDPerturbation.cpp:343, 463, 462 *)
Definition f_1e5 : b64 := fofZ 100000.
(** 10., hiopPDPerturbation.cpp 463 *)
Definition f_10 : b64 := fofZ 10.
(** 1e-20, hiopPDPerturbation.cpp 462 *)
Definition f_em20 : b64 := S754_finite false 6646139978924579 (-119).

Section Reg.
  Variable fpow : b64 -> b64 -> b64.
  Variable P : reg_params.
  (** sizes: decision variables, inequalities, equalities; hiopPDPerturbation.cpp:82-85 *)
  Variables nx md mc : nat.
  (** [fill k n d]: the n-vector written by the k-th fill with scale d.  Scalar variants:
      setToConstant(d), hiopPDPerturbation.cpp:371-389, 632-650; randomised variants:
      set_to_random_uniform(0.9*d, 1.0*d), 435-453, 690-708 *)
  Variable fill : nat -> nat -> b64 -> list b64.
  (** [true]: asserts are compiled in *)
  Variable dbg : bool.

  (** a C++ assert; [None] = abort (no lines of its own); the asserts of hiopPDPerturbation.cpp 60-470 *)
  Definition chk {A : Type} (b : bool) (k : option A) : option A := if dbg && negb b then None else k.

  (** hiopPDPerturbation.cpp:371-389 = 632-650; 435-453 = 690-708 *)
  Definition set_curr_vec (u : upd) (s : reg) : reg :=
    let k := 4 * cnt s in
    match u with
    | DualUpdate => set_v s (vwx s) (vwd s) (fill k mc (cc s)) (fill (S k) md (cd s))
    | PrimalUpdate => set_v s (fill (2 + k) nx (wx s)) (fill (3 + k) md (wd s)) (vcc s) (vcd s)
    | PDUpdate => set_v s (fill (2 + k) nx (wx s)) (fill (3 + k) md (wd s)) (fill k mc (cc s)) (fill (S k) md (cd s))
    end.

  (** hiopPDPerturbation.cpp:69-106; the scalars, the degeneracy flags and mu keep their values *)
  Definition initialize (s : reg) : reg :=
    set_test (set_deg (set_v s (repeat f_zero nx) (repeat f_zero md) (repeat f_zero mc) (repeat f_zero md))
                      (hess s) (jac s) 0) NoTest.

  (** hiopPDPerturbation.cpp:111-159; num_degen_max_iters_ = 3 *)
  Definition update_degeneracy (s : reg) : reg :=
    match test s with
    | NoTest => s
    | c0w0 =>
        set_deg s (if degen_eqb (hess s) NotEstablished then NotDegenerate else hess s)
                  (if degen_eqb (jac s) NotEstablished then NotDegenerate else jac s) (degit s)
    | cpw0 =>
        let h := if degen_eqb (hess s) NotEstablished then NotDegenerate else hess s in
        if degen_eqb (jac s) NotEstablished then
          set_deg s h (if Nat.leb 3 (S (degit s)) then Degenerate else jac s) (S (degit s))
        else set_deg s h (jac s) (degit s)
    | c0wp =>
        let j := if degen_eqb (jac s) NotEstablished then NotDegenerate else jac s in
        if degen_eqb (hess s) NotEstablished then
          set_deg s (if Nat.leb 3 (S (degit s)) then Degenerate else hess s) j (S (degit s))
        else set_deg s (hess s) j (degit s)
    | cpwp =>
        if Nat.leb 3 (S (degit s)) then set_deg s Degenerate Degenerate (S (degit s))
        else set_deg s (hess s) (jac s) (S (degit s))
    end.

  (** hiopPDPerturbation.cpp:169-180 = 474-485 *)
  Definition save_last (s : reg) : reg :=
    let s := set_lw s (if fgt (wx s) f_zero then wx s else lwx s) (if fgt (wd s) f_zero then wd s else lwd s) in
    set_lc s (if fgt (cc s) f_zero then cc s else lcc s) (if fgt (cd s) f_zero then cd s else lcd s).

  (** hiopPDPerturbation.cpp:184-188 = 487-491 *)
  Definition reset_test (s : reg) : reg :=
    set_test s (if degen_eqb (hess s) NotEstablished || degen_eqb (jac s) NotEstablished then c0w0 else NoTest).

  (** the increase rule shared by hiopPDPerturbation.cpp:335-347, 595-607 (first = delta_w_0_bar,
      floor = delta_w_min_bar, plus = kappa_w_plus) and 564-576 (first = max(1e-20, delta_c_bar*mu^kappa_c),
      floor = 1e-20, plus = 10) *)
  Definition increase (first floor plus cur last : b64) : b64 :=
    if feq cur f_zero then
      if feq last f_zero then first else fmax floor (fmul last (rp_kminus P))
    else if feq last f_zero || flt (fmul f_1e5 last) cur then fmul (rp_kplusbar P) cur
    else fmul plus cur.

  (** hiopPDPerturbation.cpp:331-359 = 590-620.  The reference arguments delta_wx, delta_wd of the
      first are never written. *)
  Definition primal_perturb (s : reg) : option (bool * reg) :=
    chk (feq (wx s) (wd s)) (chk (feq (lwx s) (lwd s)) (
      let w := increase (rp_w0 P) (rp_wmin P) (rp_kplus P) (wx s) (lwx s) in
      let s := set_curr_vec PrimalUpdate (set_w s w w) in
      if fgt (wx s) (rp_wmax P) then Some (false, set_lw s f_zero f_zero) else Some (true, s))).

  (** hiopPDPerturbation.cpp:361-364 *)
  Definition delta_c (m : b64) : b64 := fmul (rp_cbar P) (fpow m (rp_kc P)).

  (** hiopPDPerturbationPrimalFirstScalar::compute_initial_deltas, hiopPDPerturbation.cpp:163-214.
      delta_temp holds the dual value when the Hessian branch is entered and, never being written by
      the callee, is what ends up in delta_wx_curr_db_. *)
  Definition pf_initial (s : reg) : option (bool * reg) :=
    let s := reset_test (save_last (update_degeneracy s)) in
    let t := if degen_eqb (jac s) Degenerate then delta_c (mu s) else f_zero in
    let s := set_c s t t in
    if degen_eqb (hess s) Degenerate then
      match primal_perturb (set_w s f_zero f_zero) with
      | None => None
      | Some (false, s) => Some (false, s)
      | Some (true, s) => Some (true, set_curr_vec PDUpdate (set_w s t f_zero))
      end
    else Some (true, set_curr_vec PDUpdate (set_w s f_zero f_zero)).

  (** hiopPDPerturbationPrimalFirstScalar::compute_perturb_wrong_inertia, hiopPDPerturbation.cpp:217-245 *)
  Definition pf_wrong_inertia (s : reg) : option (bool * reg) :=
    let s := update_degeneracy s in
    chk (feq (wx s) (wd s)) (chk (feq (cc s) (cd s)) (
      match primal_perturb s with
      | None => None
      | Some (ret, s) =>
          if negb ret && feq (cc s) f_zero then
            let dc := delta_c (mu s) in
            let s := set_test (set_c (set_w s f_zero f_zero) dc dc) NoTest in
            let s := if degen_eqb (hess s) Degenerate then set_deg s NotEstablished (jac s) (degit s) else s in
            match primal_perturb s with
            | None => None
            | Some (ret2, s) => Some (ret2, set_curr_vec PDUpdate s)
            end
          else Some (ret, set_curr_vec PrimalUpdate s)
      end)).

  (** primal_perturb followed by [if(!..) {bret=false; break;} deltas_test_type_ = t], the shape of
      hiopPDPerturbation.cpp:270-276, 283-287, 292-296, 299-302, 311-315 *)
  Definition primal_then (s : reg) (post : reg -> bool) (t : dtest) : option (bool * reg) :=
    match primal_perturb s with
    | None => None
    | Some (false, s) => Some (false, s)
    | Some (true, s) => chk (post s) (Some (true, set_test s t))
    end.

  (** hiopPDPerturbationPrimalFirstScalar::compute_perturb_singularity, hiopPDPerturbation.cpp:250-326 *)
  Definition pf_singularity (s : reg) : option (bool * reg) :=
    chk (feq (wx s) (wd s)) (chk (feq (cc s) (cd s)) (
      let dc := delta_c (mu s) in
      let r :=
        if degen_eqb (hess s) NotEstablished || degen_eqb (jac s) NotEstablished then
          match test s with
          | c0w0 =>
              if degen_eqb (jac s) NotEstablished then Some (true, set_test (set_c s dc dc) cpw0)
              else chk (degen_eqb (hess s) NotEstablished)
                     (primal_then s (fun s => feq (cc s) f_zero && feq (cd s) f_zero) c0wp)
          | cpw0 =>
              chk (feq (wx s) f_zero && fgt (cc s) f_zero) (chk (degen_eqb (jac s) NotEstablished)
                (primal_then (set_c s f_zero f_zero) (fun _ => true) c0wp))
          | c0wp =>
              chk (fgt (wx s) f_zero && feq (cc s) f_zero)
                (primal_then (set_c s dc dc) (fun _ => true) cpwp)
          | cpwp => primal_then s (fun _ => true) cpwp
          | NoTest => chk false (Some (true, s))
          end
        else if fgt (cc s) f_zero then primal_then s (fun _ => true) (test s)
        else Some (true, set_c s dc dc) in
      match r with
      | None => None
      | Some (b, s) => Some (b, set_curr_vec PDUpdate s)
      end)).

  (** hiopPDPerturbationDualFirstScalar::compute_dual_perturb_impl, hiopPDPerturbation.cpp:559-588 *)
  Definition dual_perturb (s : reg) : option (bool * reg) :=
    chk (feq (cc s) (cd s)) (chk (feq (lcc s) (lcd s)) (
      let c := increase (fmax f_em20 (fmul (rp_cbar P) (fpow (mu s) (rp_kc P)))) f_em20 f_10 (cc s) (lcc s) in
      let s := set_curr_vec DualUpdate (set_c s c c) in
      if fgt (cc s) (rp_wmax P) then Some (false, set_lc s f_zero f_zero) else Some (true, s))).

  (** hiopPDPerturbationDualFirstScalar::compute_initial_deltas, hiopPDPerturbation.cpp:470-513 *)
  Definition df_initial (s : reg) : option (bool * reg) :=
    let s := reset_test (save_last (update_degeneracy s)) in
    let s := set_c s f_zero f_zero in
    match (if degen_eqb (jac s) Degenerate then dual_perturb s else Some (true, s)) with
    | None => None
    | Some (false, s) => Some (false, s)
    | Some (true, s) =>
        let s := set_w s f_zero f_zero in
        match (if degen_eqb (hess s) Degenerate then primal_perturb s else Some (true, s)) with
        | None => None
        | Some (false, s) => Some (false, s)
        | Some (true, s) => Some (true, set_curr_vec PDUpdate s)
        end
    end.

  (** hiopPDPerturbationDualFirstScalar::compute_perturb_wrong_inertia, hiopPDPerturbation.cpp:515-548;
      compute_perturb_singularity (550-557) is the same *)
  Definition df_wrong_inertia (s : reg) : option (bool * reg) :=
    let s := update_degeneracy s in
    chk (feq (wx s) (wd s)) (chk (feq (cc s) (cd s)) (
      match dual_perturb s with
      | None => None
      | Some (ret, s) =>
          if negb ret && feq (wx s) f_zero then
            match primal_perturb (set_c s f_zero f_zero) with
            | None => None
            | Some (false, s) => Some (false, s)
            | Some (true, s) =>
                let s := set_test s NoTest in
                let s := if degen_eqb (jac s) Degenerate then set_deg s (hess s) NotEstablished (degit s) else s in
                match dual_perturb s with
                | None => None
                | Some (ret2, s) => Some (ret2, set_curr_vec DualUpdate (set_curr_vec PrimalUpdate s))
                end
            end
          else Some (ret, set_curr_vec DualUpdate s)
      end)).

  (** the two calculators; hiopAlgFilterIPM.cpp:2160-2176 picks one *)
  Inductive variant : Type := PrimalFirst | DualFirst.
  (** virtual dispatch; hiopPDPerturbation.hpp:103-110 *)
  Definition initial_deltas (v : variant) : reg -> option (bool * reg) :=
    match v with PrimalFirst => pf_initial | DualFirst => df_initial end.
  (** virtual dispatch of compute_perturb_wrong_inertia, hiopPDPerturbation.hpp 103-110 *)
  Definition wrong_inertia (v : variant) : reg -> option (bool * reg) :=
    match v with PrimalFirst => pf_wrong_inertia | DualFirst => df_wrong_inertia end.
  (** virtual dispatch of compute_perturb_singularity, hiopPDPerturbation.hpp 103-110 *)
  Definition singularity (v : variant) : reg -> option (bool * reg) :=
    match v with PrimalFirst => pf_singularity | DualFirst => df_wrong_inertia end.

  (** the two acceptors; hiopFactAcceptor.hpp:97-140 *)
  Inductive acceptor : Type := InertiaCheck | InertiaFree.

  (** answer of a perturbation request turned into the acceptor's code; hiopFactAcceptor.cpp:75-77 etc. *)
  Definition ask (r : option (bool * reg)) : option (Z * reg) :=
    match r with None => None | Some (b, s) => Some (if b then 1%Z else (-1)%Z, s) end.

  (** hiopFactAcceptor.cpp:64-104 and 106-156; [req] = n_required_neg_eig_, [neg] = the linear
      solver's answer *)
  Definition require_refact (a : acceptor) (v : variant) (req neg : Z) (force : bool) (s : reg) : option (Z * reg) :=
    match a with
    | InertiaCheck =>
        if (0 <? req)%Z then
          if (neg <? 0)%Z then ask (singularity v s)
          else if negb (neg =? req)%Z then ask (wrong_inertia v s)
          else Some (0%Z, s)
        else if negb (neg =? 0)%Z then ask (wrong_inertia v s)
        else Some (0%Z, s)
    | InertiaFree =>
        if (0 <? req)%Z then
          if (neg <? 0)%Z then ask (singularity v s)
          else if negb force then Some (0%Z, s) else ask (wrong_inertia v s)
        else
          if (neg <? 0)%Z then ask (wrong_inertia v s)
          else if negb force then Some (0%Z, s) else ask (wrong_inertia v s)
    end.

  (** one factorisation: the state whose vectors went into the matrix, and the solver's answer; hiopKKTLinSys.cpp 316-455 *)
  Definition attempt : Type := (reg * Z)%type.

  (** the while loop of factorize(), hiopKKTLinSys.cpp:335-372; [num] = num_refactorization; [answer k]
      = what the linear solver answers to the k-th factorisation.  Returns the attempts in order.
      [Some None] = still running when the fuel ends; [None] = abort *)
  Fixpoint fact_loop (fuel : nat) (a : acceptor) (v : variant) (req : Z) (answer : nat -> Z) (num : nat) (s : reg)
    : option (option (bool * reg * list attempt)) :=
    match fuel with
    | O => Some None
    | S fuel =>
        if Nat.leb num 10 then
          match require_refact a v req (answer num) false s with
          | None => None
          | Some (r, s') =>
              if (r =? -1)%Z then Some (Some (false, s', [(s, answer num)]))
              else if (r =? 0)%Z then Some (Some (negb (Nat.ltb 10 num), s', [(s, answer num)]))
              else match fact_loop fuel a v req answer (S num) s' with
                   | Some (Some (b, s'', l)) => Some (Some (b, s'', (s, answer num) :: l))
                   | o => o
                   end
          end
        else Some (Some (negb (Nat.ltb 10 num), s, []))
    end.

  (** hiopKKTLinSysCurvCheck::factorize, hiopKKTLinSys.cpp:316-380 *)
  Definition factorize (fuel : nat) (a : acceptor) (v : variant) (req : Z) (answer : nat -> Z) (s : reg)
    : option (option (bool * reg * list attempt)) :=
    match initial_deltas v s with
    | None => None
    | Some (false, s) => Some (Some (false, s, []))
    | Some (true, s) => fact_loop fuel a v req answer 0 s
    end.

  (** the while loop of factorize_inertia_free(), hiopKKTLinSys.cpp:412-446; [flag] = solver_flag *)
  Fixpoint free_loop (fuel : nat) (a : acceptor) (v : variant) (req : Z) (answer : nat -> Z) (num : nat) (flag : Z) (s : reg)
    : option (option (bool * reg * list attempt)) :=
    match fuel with
    | O => Some None
    | S fuel =>
        if Nat.leb num 10 && (flag <? 0)%Z then
          match require_refact a v req flag false s with
          | None => None
          | Some (r, s') =>
              if (r =? -1)%Z then Some (Some (false, s', []))
              else chk (r =? 1)%Z
                     match free_loop fuel a v req answer (S num) (answer (S num)) s' with
                     | Some (Some (b, s'', l)) => Some (Some (b, s'', (s', answer (S num)) :: l))
                     | o => o
                     end
          end
        else Some (Some (true, s, []))
    end.

  (** hiopKKTLinSysCurvCheck::factorize_inertia_free, hiopKKTLinSys.cpp:376-447; the code of the first
      request is not looked at *)
  Definition factorize_inertia_free (fuel : nat) (a : acceptor) (v : variant) (req : Z) (answer : nat -> Z) (s : reg)
    : option (option (bool * reg * list attempt)) :=
    match require_refact a v req 1%Z true s with
    | None => None
    | Some (_, s) =>
        match free_loop fuel a v req answer 0 (answer 0) s with
        | Some (Some (b, s'', l)) => Some (Some (b, s'', (s, answer 0) :: l))
        | o => o
        end
    end.
End Reg.
