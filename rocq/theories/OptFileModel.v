(** Reading an integer of the options file. *)
From Coq Require Import List Bool ZArith String Ascii.
Import ListNotations.
Open Scope string_scope.

(** a decimal digit, as taken by [ss >> val]; hiopOptions.cpp 213-214 *)
Definition digit (a : ascii) : option Z :=
  let n := Z.of_nat (nat_of_ascii a) in
  if ((48 <=? n) && (n <=? 57))%Z then Some (n - 48)%Z else None.
(** the digits [ss >> val] takes, up to the first character that is none; [acc] is the number read
    so far; hiopOptions.cpp 213-214 *)
Fixpoint digits (s : string) (acc : Z) : Z :=
  match s with
  | EmptyString => acc
  | String a s' => match digit a with Some d => digits s' (10 * acc + d)%Z | None => acc end
  end.
(** at least one digit and a number that fits an int; otherwise the extraction fails.
    hiopOptions.cpp 213-214 *)
Definition read_nat (sign : Z) (s : string) : option Z :=
  match s with
  | EmptyString => None
  | String a _ =>
      match digit a with
      | None => None
      | Some _ => let v := (sign * digits s 0)%Z in
                  if ((-2147483648 <=? v) && (v <=? 2147483647))%Z then Some v else None
      end
  end.
(** hiopOptions.cpp 213-214 [stringstream ss(value); int val; if(ss>>val)], in the "C" locale and
    for a word (no white space): an optional sign and decimal digits; the rest of the word stays in
    the stream and is not looked at *)
Definition read_int (s : string) : option Z :=
  match s with
  | EmptyString => None
  | String a s' =>
      if Ascii.eqb a "-" then read_nat (-1) s'
      else if Ascii.eqb a "+" then read_nat 1 s'
      else read_nat 1 s
  end.
