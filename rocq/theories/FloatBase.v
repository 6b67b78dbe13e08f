(** Binary64 values with NaN, infinities and signed zeros, taken from the standard library's
    [SpecFloat] (no axioms, executable).  C++ [double] comparisons and arithmetic in /repo are
    IEEE-754 binary64 with round-to-nearest-even; [SFcompare]/[SFadd 53 1024]/... specify those
    operations.  This file is shared vocabulary, it models no particular file of /repo. *)
From Coq Require Export SpecFloat.
From Coq Require Import ZArith Bool Lia.

(** the type [double] *)
Definition b64 : Type := spec_float.

(** C++ operators on [double]; the examples are places of /repo/src/Optimization that use them *)
(** [x <= y]; e.g. hiopAlgFilterIPM.cpp 816-819 *)
Definition fle (x y : b64) : bool := SFleb x y.
(** [x < y]; e.g. hiopAlgFilterIPM.cpp 2855-2946 *)
Definition flt (x y : b64) : bool := SFltb x y.
(** [x >= y]; e.g. hiopAlgFilterIPM.cpp 1462 *)
Definition fge (x y : b64) : bool := SFleb y x.
(** [x > y]; e.g. hiopAlgFilterIPM.cpp 2855-2946 *)
Definition fgt (x y : b64) : bool := SFltb y x.
(** [x == y]; e.g. hiopNlpFormulation.cpp 347 *)
Definition feq (x y : b64) : bool := SFeqb x y.
(** [x + y]; e.g. hiopAlgPrimalDecomp.cpp 334 *)
Definition fadd (x y : b64) : b64 := SFadd 53 1024 x y.
(** [x - y]; e.g. hiopAlgPrimalDecomp.cpp 364 *)
Definition fsub (x y : b64) : b64 := SFsub 53 1024 x y.
(** [x * y]; e.g. hiopAlgPrimalDecomp.cpp 334 *)
Definition fmul (x y : b64) : b64 := SFmul 53 1024 x y.
(** [x / y]; e.g. hiopAlgPrimalDecomp.cpp 445 *)
Definition fdiv (x y : b64) : b64 := SFdiv 53 1024 x y.
(** [-x]; e.g. hiopAlgPrimalDecomp.cpp 488 *)
Definition fopp (x : b64) : b64 := SFopp x.
(** fabs; e.g. hiopAlgFilterIPM.cpp 566 *)
Definition fabs (x : b64) : b64 := SFabs x.
(** isnan; no line of /repo, it describes fmin and fmax (hiopAlgFilterIPM.cpp 564-570) *)
Definition is_nan (x : b64) : bool := match x with S754_nan => true | _ => false end.

(** an integer as a binary64 value (exact when it fits in 53 bits): the integral literals of the code
    and the conversions from int, e.g. hiopAlgFilterIPM.cpp 564-570 *)
Definition fofZ (z : Z) : b64 := binary_normalize 53 1024 z 0 false.

(** the literal 1.; e.g. hiopAlgPrimalDecomp.hpp 366 *)
Definition f_one : b64 := fofZ 1.
(** the literal 0.; e.g. hiopNlpFormulation.cpp 347 *)
Definition f_zero : b64 := S754_zero false.
(** -1e20 is exactly representable: 1e20 = 6103515625000000 * 2^14; hiopNlpFormulation.cpp 433-522 *)
Definition f_m1e20 : b64 := S754_finite true 6103515625000000 14.
(** 1e20; hiopNlpFormulation.cpp 433-522 *)
Definition f_1e20 : b64 := S754_finite false 6103515625000000 14.
