(** What a line of the options file says. *)
From Coq Require Import List Bool ZArith String Ascii.
From Verif Require Import FloatBase OptModel.
Import ListNotations.
Open Scope string_scope.

Definition blank_char (a : ascii) : Prop := a = " "%char \/ (9 <= nat_of_ascii a <= 13)%nat.
(** every character of the text has the property *)
Definition each (P : ascii -> Prop) (s : string) : Prop := forall i a, String.get i s = Some a -> P a.
Definition blank (s : string) : Prop := each blank_char s.
(** a nonempty text without white space *)
Definition is_word (s : string) : Prop := s <> "" /\ each (fun a => ~ blank_char a) s.
Definition comment (s : string) : Prop := exists b r, s = b ++ "#" ++ r /\ blank b.
(** two words, the first of which does not start with #; what comes after them does not count *)
Definition line_says (line name value : string) : Prop :=
  exists b1 b2 rest, line = b1 ++ name ++ b2 ++ value ++ rest /\ blank b1 /\ blank b2 /\ b2 <> "" /\ is_word name /\ is_word value /\
    String.get 0 name <> Some "#"%char /\ (forall a, String.get 0 rest = Some a -> blank_char a).
(** a line with a single word *)
Definition one_word (line : string) : Prop := exists b1 name b2, line = b1 ++ name ++ b2 /\ blank b1 /\ blank b2 /\ is_word name.

(** the calls of the setters that a file stands for, given the registered options [regs] and the
    readers of numbers [pn] and integers [pi]: one call per line that names an option and gives a
    value that can be read, in the order of the lines *)
Inductive file_calls (regs : table) (pn : string -> option b64) (pi : string -> option Z) : list string -> list op -> Prop :=
| fc_end : file_calls regs pn pi [] []
| fc_nothing l ls ops : (forall n v, ~ line_says l n v) -> file_calls regs pn pi ls ops -> file_calls regs pn pi (l :: ls) ops
| fc_unknown l n v ls ops : line_says l n v -> find n regs = None -> file_calls regs pn pi ls ops -> file_calls regs pn pi (l :: ls) ops
| fc_num l n v x d lb ub f r ls ops : line_says l n v -> find n regs = Some (Opt (VNum d lb ub) f r) -> pn v = Some x ->
    file_calls regs pn pi ls ops -> file_calls regs pn pi (l :: ls) (SetNum n x true :: ops)
| fc_nonum l n v d lb ub f r ls ops : line_says l n v -> find n regs = Some (Opt (VNum d lb ub) f r) -> pn v = None ->
    file_calls regs pn pi ls ops -> file_calls regs pn pi (l :: ls) ops
| fc_int l n v x d lb ub f r ls ops : line_says l n v -> find n regs = Some (Opt (VInt d lb ub) f r) -> pi v = Some x ->
    file_calls regs pn pi ls ops -> file_calls regs pn pi (l :: ls) (SetInt n x true :: ops)
| fc_noint l n v d lb ub f r ls ops : line_says l n v -> find n regs = Some (Opt (VInt d lb ub) f r) -> pi v = None ->
    file_calls regs pn pi ls ops -> file_calls regs pn pi (l :: ls) ops
| fc_str l n v d range f r ls ops : line_says l n v -> find n regs = Some (Opt (VStr d range) f r) ->
    file_calls regs pn pi ls ops -> file_calls regs pn pi (l :: ls) (SetStr n v true :: ops).

(** the upper case letters A-Z replaced by a-z, everything else kept *)
Definition lower_case_of (s s' : string) : Prop := String.length s' = String.length s /\
  forall i a, String.get i s = Some a -> exists b, String.get i s' = Some b /\
    ((65 <= nat_of_ascii a <= 90)%nat -> nat_of_ascii b = (nat_of_ascii a + 32)%nat) /\
    (~ (65 <= nat_of_ascii a <= 90)%nat -> b = a).

(** decimal notation: a nonempty list of digits and its value *)
Definition digit_char (d : Z) (a : ascii) : Prop := (0 <= d <= 9)%Z /\ Z.of_nat (nat_of_ascii a) = (48 + d)%Z.
Inductive decimal : string -> list Z -> Prop :=
| dec_nil : decimal "" []
| dec_cons d a s l : digit_char d a -> decimal s l -> decimal (String a s) (d :: l).
Fixpoint dec_value (l : list Z) : Z :=
  match l with [] => 0 | d :: l => d * 10 ^ Z.of_nat (List.length l) + dec_value l end%Z.
Definition sign_of (s : string) (z : Z) : Prop := (s = "" /\ z = 1 \/ s = "+" /\ z = 1 \/ s = "-" /\ z = -1)%Z.
(** the whole text is an integer in decimal notation *)
Definition writes_int (s : string) (v : Z) : Prop :=
  exists sg z ds l, s = sg ++ ds /\ sign_of sg z /\ decimal ds l /\ l <> [] /\ v = (z * dec_value l)%Z.
