(** The options object: src/Utils/hiopOptions.{hpp,cpp}.  Option values of type double are binary64
    numbers, ints are integers, strings are lists of bytes.  Not modelled: the log messages, print,
    and the conversion of a text token to double and int by the C++ streams, which are parameters
    [parse_num], [parse_int] of the file loader. *)
From Coq Require Import List Bool ZArith String Ascii.
From Verif Require Import FloatBase.
Import ListNotations.
Open Scope string_scope.

(** hiopOptions.hpp 165-184: OptionNum, OptionInt, OptionStr: current value and range; an empty range
    of a string option means any value *)
Inductive oval :=
| VNum (v lb ub : b64)
| VInt (v lb ub : Z)
| VStr (v : string) (range : list string).
(** hiopOptions.hpp 156-164: Option; the description is left out *)
Record opt := Opt { o_val : oval; o_file : bool; o_run : bool }.
(** hiopOptions.hpp 186: std::map<std::string, Option*> mOptions_, as an association list with one
    entry per name (registration is done once, by the constructor) *)
Definition table := list (string * opt).

(** hiopOptions.cpp 80, 90, 100, 244, 253, 273 etc.: mOptions_.find(name) *)
Fixpoint find (name : string) (t : table) : option opt :=
  match t with
  | [] => None
  | (n, o) :: t => if String.eqb name n then Some o else find name t
  end.
(** assignments through the pointer found (hiopOptions.cpp 262, 295-309, 329, 365-376, 407, 439-462) *)
Fixpoint put (name : string) (o : opt) (t : table) : table :=
  match t with
  | [] => []
  | (n, o') :: t => if String.eqb name n then (n, o) :: t else (n, o') :: put name o t
  end.

(** hiopOptions.cpp 78-86 GetNumeric; [None] when an assert fails *)
Definition get_num (name : string) (t : table) : option b64 :=
  match find name t with Some (Opt (VNum v _ _) _ _) => Some v | _ => None end.
(** hiopOptions.cpp 88-96 GetInteger *)
Definition get_int (name : string) (t : table) : option Z :=
  match find name t with Some (Opt (VInt v _ _) _ _) => Some v | _ => None end.
(** hiopOptions.cpp 98-106 GetString *)
Definition get_str (name : string) (t : table) : option string :=
  match find name t with Some (Opt (VStr v _) _ _) => Some v | _ => None end.
(** hiopOptions.cpp 242-249 is_user_defined *)
Definition is_user_defined (name : string) (t : table) : bool :=
  match find name t with Some o => o_file o || o_run o | None => false end.

(** ::tolower in the "C" locale, as used at hiopOptions.cpp 396, 443 *)
Definition lower_char (a : ascii) : ascii :=
  let n := nat_of_ascii a in
  if (65 <=? n)%nat && (n <=? 90)%nat then ascii_of_nat (n + 32) else a.
(** hiopOptions.cpp 396, 443: transform(..., ::tolower) *)
Fixpoint lower (s : string) : string :=
  match s with EmptyString => EmptyString | String a s => String (lower_char a) (lower s) end.
(** hiopOptions.cpp 398-401, 445-448: search of the range *)
Definition in_range_str (v : string) (range : list string) : bool := existsb (fun r => String.eqb r v) range.

(** hiopOptions.cpp 251-269 set_val(name, double); [None] when an assert fails *)
Definition set_val_num (name : string) (v : b64) (t : table) : option table :=
  match find name t with
  | Some (Opt (VNum _ lb ub) f r) => if flt v lb || fgt v ub then None else Some (put name (Opt (VNum v lb ub) f r) t)
  | _ => None
  end.
(** hiopOptions.cpp 320-339 set_val(name, int) *)
Definition set_val_int (name : string) (v : Z) (t : table) : option table :=
  match find name t with
  | Some (Opt (VInt _ lb ub) f r) =>
      if ((v <? lb) || (ub <? v))%Z then None else Some (put name (Opt (VInt v lb ub) f r) t)
  | _ => None
  end.
(** hiopOptions.cpp 387-414 set_val(name, const char* ) *)
Definition set_val_str (name : string) (v : string) (t : table) : option table :=
  match find name t with
  | Some (Opt (VStr _ range) f r) =>
      let v := lower v in
      if negb (in_range_str v range) && negb (match range with [] => true | _ => false end) then None
      else Some (put name (Opt (VStr v range) f r) t)
  | _ => None
  end.

Section Set_.
(** the virtual ensure_consistence (hiopOptions.hpp 140) *)
Variable ens : table -> option table.
(** hiopOptions.cpp 271-317 SetNumericValue(name, value, setFromFile) *)
Definition set_numeric (name : string) (v : b64) (from_file : bool) (t : table) : option table :=
  match find name t with
  | Some (Opt (VNum old lb ub) f r) =>
      if f && negb from_file then Some t
      else
        let f' := if from_file then true else f in
        let r' := if from_file then r else true in
        let v' := if flt v lb || fgt v ub then old else v in
        ens (put name (Opt (VNum v' lb ub) f' r') t)
  | _ => ens t
  end.
(** hiopOptions.cpp 342-385 SetIntegerValue: does not record that the option was set at runtime *)
Definition set_integer (name : string) (v : Z) (from_file : bool) (t : table) : option table :=
  match find name t with
  | Some (Opt (VInt old lb ub) f r) =>
      if f && negb from_file then Some t
      else
        let f' := if from_file then true else f in
        let v' := if ((v <? lb) || (ub <? v))%Z then old else v in
        ens (put name (Opt (VInt v' lb ub) f' r) t)
  | _ => ens t
  end.
(** hiopOptions.cpp 416-473 SetStringValue: does not record that the option was set at runtime *)
Definition set_string (name : string) (v : string) (from_file : bool) (t : table) : option table :=
  match find name t with
  | Some (Opt (VStr old range) f r) =>
      if f && negb from_file then Some t
      else
        let f' := if from_file then true else f in
        let lv := lower v in
        let v' := if negb (in_range_str lv range) && negb (match range with [] => true | _ => false end) then old else lv in
        ens (put name (Opt (VStr v' range) f' r) t)
  | _ => ens t
  end.

(** ::isspace in the "C" locale; hiopOptions.cpp 140-151 *)
Definition is_space (a : ascii) : bool :=
  let n := nat_of_ascii a in (n =? 32)%nat || ((9 <=? n)%nat && (n <=? 13)%nat).
(** hiopOptions.cpp 141-152 ltrim *)
Fixpoint ltrim (s : string) : string :=
  match s with EmptyString => EmptyString | String a s' => if is_space a then ltrim s' else s end.
(** the next word read by [iss >> word] from a text without leading white space, and the rest; hiopOptions.cpp 178-179 *)
Fixpoint word (s : string) : string * string :=
  match s with
  | EmptyString => (EmptyString, EmptyString)
  | String a s' => if is_space a then (EmptyString, s) else let (w, r) := word s' in (String a w, r)
  end.
(** hiopOptions.cpp 171-183: what is read from a line: [None] for an empty line, a comment or a line
    with a single word *)
Definition parse_line (line : string) : option (string * string) :=
  match ltrim line with
  | EmptyString => None
  | String a s =>
      if Ascii.eqb a "#" then None
      else let (name, rest) := word (String a s) in
           let (value, _) := word (ltrim rest) in
           match value with EmptyString => None | _ => Some (name, value) end
  end.

Variable parse_num : string -> option b64.
Variable parse_int : string -> option Z.
(** hiopOptions.cpp 185-238: one line of the options file *)
Definition load_line (line : string) (t : table) : option table :=
  match parse_line line with
  | None => Some t
  | Some (name, value) =>
      match find name t with
      | Some (Opt (VNum _ _ _) _ _) =>
          match parse_num value with Some v => set_numeric name v true t | None => Some t end
      | Some (Opt (VStr _ _) _ _) => set_string name value true t
      | Some (Opt (VInt _ _ _) _ _) =>
          match parse_int value with Some v => set_integer name v true t | None => Some t end
      | None => Some t
      end
  end.
(** hiopOptions.cpp 154-240 load_from_file: the lines of the file; none when it cannot be opened *)
Fixpoint load_file (lines : list string) (t : table) : option table :=
  match lines with
  | [] => Some t
  | l :: lines => match load_line l t with Some t => load_file lines t | None => None end
  end.

(** The public operations that change the object: the three setters with either value of their last
    argument (hiopOptions.hpp 74-76) and SetLog (hiopOptions.hpp 82-86) *)
Inductive op :=
| SetNum (name : string) (v : b64) (from_file : bool)
| SetInt (name : string) (v : Z) (from_file : bool)
| SetStr (name : string) (v : string) (from_file : bool)
| SetLog.
(** hiopOptions.hpp 74-86: one call *)
Definition do_op (o : op) (t : table) : option table :=
  match o with
  | SetNum n v f => set_numeric n v f t
  | SetInt n v f => set_integer n v f t
  | SetStr n v f => set_string n v f t
  | SetLog => ens t
  end.
(** a history of calls; every public call of hiopOptions.cpp 79-474, in any order *)
Fixpoint run (ops : list op) (t : table) : option table :=
  match ops with
  | [] => Some t
  | o :: ops => match do_op o t with Some t => run ops t | None => None end
  end.
(** hiopOptions.cpp 550-556 and 1596-1602: the constructors; [regs] is what register_options leaves *)
Definition construct (regs : table) (lines : list string) : option table :=
  match load_file lines regs with Some t => ens t | None => None end.
End Set_.

(** the build options that appear in hiopOptions.cpp as HIOP_USE_CUDA, _HIP, _RAJA, _GPU, _EIGEN,
    _GINKGO, _AXOM; hiopOptions.cpp 972-1624 *)
Record config := Config { cuda : bool; hip : bool; raja : bool; gpu : bool; eigen : bool; ginkgo : bool; axom : bool }.

(** hiopOptions.cpp 109-116 register_num_option *)
Definition num (name : string) (v lb ub : b64) : string * opt := (name, Opt (VNum v lb ub) false false).
(** hiopOptions.cpp 132-139 register_int_option *)
Definition int (name : string) (v lb ub : Z) : string * opt := (name, Opt (VInt v lb ub) false false).
(** hiopOptions.cpp 118-130 register_str_option *)
Definition str (name v : string) (range : list string) : string * opt := (name, Opt (VStr v range) false false).
(** a positive double literal m*2^e; the literals of hiopOptions.cpp 563-1309, 1607-1709 *)
Definition L (m : positive) (e : Z) : b64 := S754_finite false m e.
(** hiopOptions.cpp 1209-1213, 1623-1633 *)
Definition mem_range (c : config) : list string := if raja c then ["default"; "host"; "device"; "um"] else ["default"].
(** hiopOptions.cpp 1248-1257 *)
Definition backend_range (c : config) : list string :=
  ["auto"; "stdcpp"] ++ (if raja c then ["umpire"] else []) ++ (if cuda c then ["cuda"] else []) ++ (if hip c then ["hip"] else []).
(** hiopOptions.cpp 1275-1284 *)
Definition policy_range (c : config) : list string :=
  ["auto"; "seq"] ++ (if raja c then ["raja"] else []) ++ (if cuda c then ["cuda"] else []) ++ (if hip c then ["hip"] else []).
(** hiopOptions.cpp 563-1310 hiopOptionsNLP::register_options; the line of each registration is given.
    Decimal constants are the nearest binary64 numbers *)
Definition nlp_options (c : config) : table := [
  (* 566: 1. in [1e-16, 1000.] *) num "mu0" (L 4503599627370496 (-52)) (L 8112963841460668 (-106)) (L 8796093022208000 (-43));
  (* 567: 0.2 in [1e-8, 0.999] *) num "kappa_mu" (L 7205759403792794 (-55)) (L 6044629098073146 (-79)) (L 8998192055486251 (-53));
  (* 572: 1.5 in [1.0, 2.0] *) num "theta_mu" (L 6755399441055744 (-52)) (L 4503599627370496 (-52)) (L 4503599627370496 (-51));
  (* 577: 1e-8 in [0, 0.01] *) num "eta_phi" (L 6044629098073146 (-79)) f_zero (L 5764607523034235 (-59));
  (* 578: 1e-8 in [1e-14, 1e-1] *) num "tolerance" (L 6044629098073146 (-79)) (L 6338253001141147 (-99)) (L 7205759403792794 (-56));
  (* 580: 1e-4 in [1e-16, 1e+10] *) num "cons_tol" (L 7378697629483821 (-66)) (L 8112963841460668 (-106)) (L 5242880000000000 (-19));
  (* 586: 1.0 in [1e-16, 1e+10] *) num "dual_tol" (L 4503599627370496 (-52)) (L 8112963841460668 (-106)) (L 5242880000000000 (-19));
  (* 592: 1e-4 in [1e-16, 1e+10] *) num "comp_tol" (L 7378697629483821 (-66)) (L 8112963841460668 (-106)) (L 5242880000000000 (-19));
  (* 598: 0. in [0., 0.1] *) num "rel_tolerance" f_zero f_zero (L 7205759403792794 (-56));
  (* 604: 0.99 in [0.9, 0.99999] *) num "tau_min" (L 8917127262193582 (-53)) (L 8106479329266893 (-53)) (L 9007109182748445 (-53));
  (* 610: 10. in [1e-6, 1e+3] *) num "kappa_eps" (L 5629499534213120 (-49)) (L 4722366482869645 (-72)) (L 8796093022208000 (-43));
  (* 611: 1e-2 in [1e-16, 1e+0] *) num "kappa1" (L 5764607523034235 (-59)) (L 8112963841460668 (-106)) (L 4503599627370496 (-52));
  (* 616: 1e-2 in [1e-16, 0.49999] *) num "kappa2" (L 5764607523034235 (-59)) (L 8112963841460668 (-106)) (L 9007019110755897 (-54));
  (* 621: 100. in [1., 1e+7] *) num "smax" (L 7036874417766400 (-46)) (L 4503599627370496 (-52)) (L 5368709120000000 (-29));
  (* 634 *) str "duals_update_type" "lsq" ["lsq"; "linear"];
  (* 641: 1e-6 in [0., 1e10] *) num "recalc_lsq_duals_tol" (L 4722366482869645 (-72)) f_zero (L 5242880000000000 (-19));
  (* 651 *) str "duals_init" "lsq" ["lsq"; "zero"];
  (* 653: 1e3 in [1e-16, 1e+10] *) num "duals_lsq_ini_max" (L 8796093022208000 (-43)) (L 8112963841460668 (-106)) (L 5242880000000000 (-19));
  (* 662 *) int "max_iter" 3000 1 1000000;
  (* 664: 1e-6 in [1e-14, 1e-1] *) num "acceptable_tolerance" (L 4722366482869645 (-72)) (L 6338253001141147 (-99)) (L 7205759403792794 (-56));
  (* 670 *) int "acceptable_iterations" 10 1 1000000;
  (* 675: 1. in [0., 1e+7] *) num "sigma0" (L 4503599627370496 (-52)) f_zero (L 5368709120000000 (-29));
  (* 683 *) str "accept_every_trial_step" "no" ["no"; "yes"];
  (* 685: 1e-16 in [0., 1e6] *) num "min_step_size" (L 8112963841460668 (-106)) f_zero (L 8589934592000000 (-33));
  (* 695: 0. in [0., 1e+8] *) num "moving_lim_abs" f_zero f_zero (L 6710886400000000 (-26));
  (* 699: 0. in [0., 1.] *) num "moving_lim_rel" f_zero f_zero (L 4503599627370496 (-52));
  (* 701: 1e+4 in [0.0, 1e+7] *) num "theta_max_fact" (L 5497558138880000 (-39)) f_zero (L 5368709120000000 (-29));
  (* 708: 1e-4 in [0.0, 1e+7] *) num "theta_min_fact" (L 7378697629483821 (-66)) f_zero (L 5368709120000000 (-29));
  (* 719 *) str "sigma_update_strategy" "sty" ["sigma0"; "sty"; "sty_inv"; "snrm_ynrm"; "sty_srnm_ynrm"];
  (* 724 *) int "secant_memory_len" 6 0 256;
  (* 726 *) int "verbosity_level" 3 0 12;
  (* 732 *) str "fixed_var" "none" ["remove"; "relax"; "none"];
  (* 739: 1e-15 in [1e-30, 0.01] *) num "fixed_var_tolerance" (L 5070602400912918 (-102)) (L 5708990770823840 (-152)) (L 5764607523034235 (-59));
  (* 745: 1e-8 in [1e-14, 0.1] *) num "fixed_var_perturb" (L 6044629098073146 (-79)) (L 6338253001141147 (-99)) (L 7205759403792794 (-56));
  (* 757 *) str "warm_start" "no" ["no"; "yes"];
  (* 766 *) str "scaling_type" "gradient" ["none"; "gradient"];
  (* 773: 100 in [1e-20, 1e+20] *) num "scaling_max_grad" (L 7036874417766400 (-46)) (L 6646139978924579 (-119)) (L 6103515625000000 14);
  (* 780: 0.0 in [0.0, 1e+20] *) num "scaling_max_obj_grad" f_zero f_zero (L 6103515625000000 14);
  (* 788: 0.0 in [0.0, 1e+20] *) num "scaling_max_con_grad" f_zero f_zero (L 6103515625000000 14);
  (* 796: 1e-8 in [0.0, 1e+20] *) num "scaling_min_grad" (L 6044629098073146 (-79)) f_zero (L 6103515625000000 14);
  (* 806: 1e-2 in [1e-20, 1.0] *) num "ir_outer_tol_factor" (L 5764607523034235 (-59)) (L 6646139978924579 (-119)) (L 4503599627370496 (-52));
  (* 813: 1e-6 in [1e-20, 1e+20] *) num "ir_outer_tol_min" (L 4722366482869645 (-72)) (L 6646139978924579 (-119)) (L 6103515625000000 14);
  (* 820 *) int "ir_outer_maxit" 8 0 100;
  (* 830: 1e-8 in [0.0, 1e20] *) num "bound_relax_perturb" (L 6044629098073146 (-79)) f_zero (L 6103515625000000 14);
  (* 836: 1e-8 in [1e-15, 1.0] *) num "eq_relax_factor" (L 6044629098073146 (-79)) (L 5070602400912918 (-102)) (L 4503599627370496 (-52));
  (* 847 *) int "max_soc_iter" 4 0 1000000;
  (* 849: 0.99 in [0.0, 1e+20] *) num "kappa_soc" (L 8917127262193582 (-53)) f_zero (L 6103515625000000 14);
  (* 855 *) str "options_file_fr_prob" "hiop_fr.options" [];
  (* 859: 0.9 in [0, 1.0] *) num "kappa_resto" (L 8106479329266893 (-53)) f_zero (L 4503599627370496 (-52));
  (* 866 *) str "force_resto" "no" ["no"; "yes"];
  (* 872 *) str "Hessian" "quasinewton_approx" ["quasinewton_approx"; "analytical_exact"];
  (* 881 *) str "KKTLinsys" "auto" ["auto"; "xycyd"; "xdycyd"; "full"; "condensed"; "normaleqn"];
  (* 913 *) str "linear_solver_sparse" "auto" ["auto"; "ma57"; "pardiso"; "strumpack"; "resolve"; "ginkgo"; "cusolver-chol"];
  (* 927 *) str "duals_init_linear_solver_sparse" "auto" ["auto"; "ma57"; "pardiso"; "resolve"; "strumpack"; "ginkgo"];
  (* 939 *) str "ginkgo_exec" "reference" ["cuda"; "hip"; "reference"];
  (* 952 *) str "ginkgo_trisolve" "syncfree" ["syncfree"; "sparselib"];
  (* 975 *) str "linear_solver_sparse_ordering" (if eigen c then "symamd-eigen" else "symamd-cuda") ["metis"; "symamd-cuda"; "symamd-eigen"; "symrcm"; "amd-ssparse"; "colamd-ssparse"];
  (* 988 *) str "resolve_factorization" "klu" ["klu"];
  (* 998 *) str "resolve_refactorization" "glu" ["glu"; "rf"];
  (* 1005 *) int "ir_inner_restart" 20 1 100;
  (* 1011: 1e-12 in [1e-16, 1e-1] *) num "ir_inner_tol" (L 4951760157141521 (-92)) (L 8112963841460668 (-106)) (L 7205759403792794 (-56));
  (* 1017: 1e-6 in [1e-16, 1e-1] *) num "ir_inner_tol_min" (L 4722366482869645 (-72)) (L 8112963841460668 (-106)) (L 7205759403792794 (-56));
  (* 1022 *) int "ir_inner_conv_cond" 0 0 2;
  (* 1027: 1e-2 in [1e-20, 1.0] *) num "ir_inner_tol_factor" (L 5764607523034235 (-59)) (L 6646139978924579 (-119)) (L 4503599627370496 (-52));
  (* 1033 *) int "ir_inner_maxit" 50 0 1000;
  (* 1042 *) str "ir_inner_gs_scheme" "mgs" ["mgs"; "cgs2"; "mgs_two_synch"; "mgs_pm"];
  (* 1055 *) str "linsol_mode" "stable" ["stable"; "speculative"; "forcequick"];
  (* 1063 *) str "fact_acceptor" "inertia_correction" ["inertia_correction"; "inertia_free"];
  (* 1068: 1e-11 in [0., 1e+20] *) num "neg_curv_test_fact" (L 6189700196426901 (-89)) f_zero (L 6103515625000000 14);
  (* 1080: 1e-20 in [0, 1000.] *) num "delta_w_min_bar" (L 6646139978924579 (-119)) f_zero (L 8796093022208000 (-43));
  (* 1085: 1e+20 in [1e-40, 1e+40] *) num "delta_w_max_bar" (L 6103515625000000 14) (L 4903985730770844 (-185)) (L 8271806125530277 80);
  (* 1090: 1e-4 in [0, 1e+40] *) num "delta_0_bar" (L 7378697629483821 (-66)) f_zero (L 8271806125530277 80);
  (* 1095: 1./3 in [1e-20, 1 - 1e-20] *) num "kappa_w_minus" (L 6004799503160661 (-54)) (L 6646139978924579 (-119)) (L 4503599627370496 (-52));
  (* 1099: 8. in [1+1e-20, 1e+40] *) num "kappa_w_plus" (L 4503599627370496 (-49)) (L 4503599627370496 (-52)) (L 8271806125530277 80);
  (* 1105: 100. in [1+1e-20, 1e+40] *) num "kappa_w_plus_bar" (L 7036874417766400 (-46)) (L 4503599627370496 (-52)) (L 8271806125530277 80);
  (* 1112: 1e-8 in [1e-20, 1e+40] *) num "delta_c_bar" (L 6044629098073146 (-79)) (L 6646139978924579 (-119)) (L 8271806125530277 80);
  (* 1118: 0.25 in [0., 1e+40] *) num "kappa_c" (L 4503599627370496 (-54)) f_zero (L 8271806125530277 80);
  (* 1126 *) str "normaleqn_regularization_priority" "dual_first" ["primal_first"; "dual_first"];
  (* 1135 *) str "regularization_method" "scalar" ["scalar"; "randomized"];
  (* 1148 *) str "time_kkt" "off" ["on"; "off"];
  (* 1158 *) str "elastic_mode" "none" ["none"; "tighten_bound"; "correct_it"; "correct_it_adjust_bound"];
  (* 1168 *) str "elastic_bound_strategy" "mu_projected" ["mu_projected"; "mu_scaled"];
  (* 1176: 1e-2 in [1e-8, 1e-1] *) num "elastic_mode_bound_relax_initial" (L 5764607523034235 (-59)) (L 6044629098073146 (-79)) (L 7205759403792794 (-56));
  (* 1185: 1e-12 in [1e-16, 1e-1] *) num "elastic_mode_bound_relax_final" (L 4951760157141521 (-92)) (L 8112963841460668 (-106)) (L 7205759403792794 (-56));
  (* 1198 *) str "write_kkt" "no" ["no"; "yes"];
  (* 1202 *) str "print_options" "no" ["yes"; "no"; "short"];
  (* 1215 *) str "mem_space" "default" (mem_range c);
  (* 1222 *) str "callback_mem_space" "default" (mem_range c);
  (* 1232 *) str "compute_mode" "auto" ["auto"; "cpu"; "hybrid"; "gpu"];
  (* 1259 *) str "mem_backend" "auto" (backend_range c);
  (* 1286 *) str "exec_policies" "auto" (policy_range c);
  (* 1298 *) str "checkpoint_save" "no" ["yes"; "no"];
  (* 1301 *) int "checkpoint_save_every_N_iter" 10 1 1000000;
  (* 1304 *) str "checkpoint_file" "hiop_state_chk" [];
  (* 1308 *) str "checkpoint_load_on_start" "no" ["yes"; "no"]
].
(** hiopOptions.cpp 1608-1709 hiopOptionsPriDec::register_options *)
Definition pridec_options (c : config) : table := [
  (* 1615 *) str "options_file_master_prob" "hiop_pridec_master.options" [];
  (* 1634 *) str "mem_space" "default" (mem_range c);
  (* 1643 *) str "accum_local" "false" ["yes"; "no"];
  (* 1653: 1e6 in [1, 1e14] *) num "alpha_max" (L 8589934592000000 (-33)) (L 4503599627370496 (-52)) (L 6400000000000000 (-6));
  (* 1659: 1e-5 in [1e-8, 1e3] *) num "alpha_min" (L 5902958103587057 (-69)) (L 6044629098073146 (-79)) (L 8796093022208000 (-43));
  (* 1667: 1e-5 in [1e-14, 1e-1] *) num "tolerance" (L 5902958103587057 (-69)) (L 6338253001141147 (-99)) (L 7205759403792794 (-56));
  (* 1677: 1e-3 in [1e-14, 1e-1] *) num "acceptable_tolerance" (L 4611686018427388 (-62)) (L 6338253001141147 (-99)) (L 7205759403792794 (-56));
  (* 1684 *) int "acceptable_iterations" 25 1 1000000;
  (* 1690 *) int "max_iter" 30000 1 1000000000;
  (* 1697 *) int "verbosity_level" 2 0 12;
  (* 1704 *) str "print_options" "no" ["yes"; "no"]
].

(** sequencing of steps that may fail an assert; the asserts of hiopOptions.cpp 1311-1605 *)
Definition bind {A B} (x : option A) (f : A -> option B) : option B := match x with Some a => f a | None => None end.
(** hiopOptions.cpp 1315-1323 (and 1326-1334, 1336-1344, 1346-1354, 1716-1725): a tolerance that the
    user set below [tolerance] is raised to it *)
Definition raise_tol (name : string) (eps : b64) (t : table) : option table :=
  bind (get_num name t) (fun v => if flt v eps && is_user_defined name t then set_val_num name eps t else Some t).
(** [s] is one of [l]; the comparisons of hiopOptions.cpp 1311-1605 *)
Definition oneof (s : string) (l : list string) : bool := existsb (String.eqb s) l.
(** hiopOptions.cpp 1356-1366 *)
Definition fix_kkt (t : table) : option table :=
  bind (get_str "Hessian" t) (fun h => if String.eqb h "quasinewton_approx" then
    bind (get_str "KKTLinsys" t) (fun k =>
      if oneof k ["xycyd"; "xdycyd"; "full"; "normaleqn"] && is_user_defined "Hessian" t
      then set_val_str "KKTLinsys" "auto" t else Some t) else Some t).
(** hiopOptions.cpp 1368-1383 *)
Definition fix_duals (t : table) : option table :=
  bind (get_str "Hessian" t) (fun h => if String.eqb h "analytical_exact" then
    bind (get_str "duals_update_type" t) (fun d =>
      if negb (String.eqb "linear" d) then set_val_str "duals_update_type" "linear" t else Some t) else Some t).
(** hiopOptions.cpp 1390-1412; [kkt] and [sp] were read at 1388-1389 *)
Definition fix_solver (kkt sp : string) (t : table) : option table :=
  if String.eqb kkt "full" then
    if negb (oneof sp ["resolve"; "pardiso"; "strumpack"; "auto"]) then set_val_str "linear_solver_sparse" "auto" t else Some t
  else if String.eqb kkt "condensed" then
    if negb (oneof sp ["cusolver-chol"; "auto"]) then set_val_str "linear_solver_sparse" "auto" t else Some t
  else Some t.
(** hiopOptions.cpp 1414-1424 *)
Definition fix_solver_cuda (c : config) (sp : string) (t : table) : option table :=
  if negb (cuda c) && oneof sp ["resolve"; "cusolver-chol"] then set_val_str "linear_solver_sparse" "auto" t else Some t.
(** hiopOptions.cpp 1426-1450; [ex] is read once, at 1427 *)
Definition fix_ginkgo (c : config) (sp : string) (t : table) : option table :=
  if ginkgo c then
    bind (get_str "ginkgo_exec" t) (fun ex =>
    bind (if negb (cuda c) && String.eqb sp "ginkgo" && String.eqb ex "cuda"
          then set_val_str "ginkgo_exec" "reference" t else Some t) (fun t =>
    if negb (hip c) && String.eqb sp "ginkgo" && String.eqb ex "hip"
    then set_val_str "ginkgo_exec" "reference" t else Some t))
  else Some t.
(** hiopOptions.cpp 1388-1450 together: the sparse solver and its settings *)
Definition fix_sparse (c : config) (t : table) : option table :=
  bind (get_str "KKTLinsys" t) (fun kkt => bind (get_str "linear_solver_sparse" t) (fun sp =>
  bind (fix_solver kkt sp t) (fun t => bind (fix_solver_cuda c sp t) (fun t => fix_ginkgo c sp t)))).
(** hiopOptions.cpp 1454-1470 *)
Definition fix_ordering (c : config) (t : table) : option table :=
  if cuda c && negb (eigen c) then
    bind (get_str "linear_solver_sparse_ordering" t) (fun o =>
      if String.eqb o "symamd-eigen" then set_val_str "linear_solver_sparse_ordering" "symamd-cuda" t else Some t)
  else Some t.
(** hiopOptions.cpp 1473-1491 *)
Definition fix_raja (c : config) (t : table) : option table :=
  if raja c then Some t else
    bind (get_str "compute_mode" t) (fun m =>
    bind (if String.eqb m "gpu" then set_val_str "compute_mode" "hybrid" t else Some t) (fun t =>
    bind (get_str "mem_space" t) (fun s =>
      if negb (String.eqb s "default") then set_val_str "mem_space" "default" t else Some t))).
(** hiopOptions.cpp 1493-1506 *)
Definition fix_callback (t : table) : option table :=
  bind (get_str "mem_space" t) (fun m => bind (get_str "callback_mem_space" t) (fun cb =>
    if negb (String.eqb m cb) then
      if (is_user_defined "callback_mem_space" t && negb (String.eqb m "device")) ||
         (String.eqb cb "um" && String.eqb m "device")
      then set_val_str "callback_mem_space" m t
      else if String.eqb cb "default" then set_val_str "callback_mem_space" m t else Some t
    else Some t)).
(** hiopOptions.cpp 1509-1527; the value is read again at each test *)
Definition fix_gpu (c : config) (t : table) : option table :=
  if gpu c then Some t else
    bind (get_str "compute_mode" t) (fun m =>
    bind (if String.eqb m "hybrid" then set_val_str "compute_mode" "cpu" t else Some t) (fun t =>
    bind (get_str "compute_mode" t) (fun m =>
    bind (if String.eqb m "gpu" then set_val_str "compute_mode" "cpu" t else Some t) (fun t =>
    bind (get_str "compute_mode" t) (fun m =>
    if String.eqb m "auto" then set_val_str "compute_mode" "cpu" t else Some t))))).
(** hiopOptions.cpp 1530-1538 *)
Definition fix_fixed (t : table) : option table :=
  bind (get_str "compute_mode" t) (fun m => if String.eqb m "gpu" then
    bind (get_str "fixed_var" t) (fun f => if String.eqb f "remove" then set_val_str "fixed_var" "relax" t else Some t)
  else Some t).
(** hiopOptions.cpp 1541-1561 *)
Definition fix_acceptor (t : table) : option table :=
  bind (get_str "KKTLinsys" t) (fun k => bind (get_str "linear_solver_sparse" t) (fun sp =>
    if String.eqb k "full" || oneof sp ["strumpack"; "resolve"] then
      bind (get_str "fact_acceptor" t) (fun a =>
        if String.eqb a "inertia_correction" then set_val_str "fact_acceptor" "inertia_free" t else Some t)
    else Some t)).
(** hiopOptions.cpp 1563-1570 *)
Definition fix_moving (t : table) : option table :=
  bind (get_num "moving_lim_rel" t) (fun r => bind (get_num "moving_lim_abs" t) (fun a =>
    if negb (feq f_zero (fmul r a)) then set_val_num "moving_lim_rel" f_zero t else Some t)).
(** hiopOptions.cpp 1573-1576 *)
Definition chkpnt_opts : list string :=
  ["checkpoint_save"; "checkpoint_save_every_N_iter"; "checkpoint_file"; "checkpoint_load_on_start"].
(** hiopOptions.cpp 1583-1586 *)
Definition clear_flags (name : string) (t : table) : table :=
  match find name t with Some o => put name (Opt (o_val o) false false) t | None => t end.
(** hiopOptions.cpp 1572-1590 *)
Definition fix_axom (c : config) (t : table) : option table :=
  if axom c then Some t
  else if existsb (fun n => is_user_defined n t) chkpnt_opts
  then Some (fold_left (fun t n => clear_flags n t) chkpnt_opts t) else Some t.
(** hiopOptions.cpp 1311-1591 hiopOptionsNLP::ensure_consistence *)
Definition ensure_nlp (c : config) (t : table) : option table :=
  bind (get_num "tolerance" t) (fun eps =>
  bind (raise_tol "acceptable_tolerance" eps t) (fun t =>
  bind (raise_tol "dual_tol" eps t) (fun t =>
  bind (raise_tol "cons_tol" eps t) (fun t =>
  bind (raise_tol "comp_tol" eps t) (fun t =>
  bind (fix_kkt t) (fun t => bind (fix_duals t) (fun t => bind (fix_sparse c t) (fun t =>
  bind (fix_ordering c t) (fun t => bind (fix_raja c t) (fun t => bind (fix_callback t) (fun t =>
  bind (fix_gpu c t) (fun t => bind (fix_fixed t) (fun t => bind (fix_acceptor t) (fun t =>
  bind (fix_moving t) (fun t => fix_axom c t))))))))))))))).
(** hiopOptions.cpp 1711-1726 hiopOptionsPriDec::ensure_consistence *)
Definition ensure_pridec (t : table) : option table :=
  bind (get_num "tolerance" t) (fun eps => raise_tol "acceptable_tolerance" eps t).
