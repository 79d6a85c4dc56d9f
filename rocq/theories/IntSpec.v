(** Specification vocabulary for the integral helpers, independent of IntModel.v. *)
From Coq Require Import ZArith List Bool Ascii String.
From Verif Require Import Base.
Import ListNotations.
Open Scope Z_scope.

(** The C++ integral types: bool, and 8, 16, 32, 64, 128 bits signed/unsigned. *)
Definition integral_type (t : ity) : Prop :=
  t = Ity 1 false \/ exists w s, In w [8; 16; 32; 64; 128] /\ t = Ity w s.

(** The mathematical range of a type. *)
Definition has_value (t : ity) (z : Z) : Prop :=
  if sgnd t then - 2 ^ (bits t - 1) <= z < 2 ^ (bits t - 1) else 0 <= z < 2 ^ bits t.

(** Reading a decimal numeral. *)
Definition digit_value (c : ascii) : option Z :=
  let n := Z.of_nat (nat_of_ascii c) in
  if (48 <=? n) && (n <=? 57) then Some (n - 48) else None.

Fixpoint read_digits (s : string) (acc : Z) : option Z :=
  match s with
  | EmptyString => Some acc
  | String c s' =>
      match digit_value c with
      | Some d => read_digits s' (10 * acc + d)
      | None => None
      end
  end.

Definition read_int (s : string) : option Z :=
  match s with
  | EmptyString => None
  | String "-"%char EmptyString => None
  | String "-"%char s' => option_map Z.opp (read_digits s' 0)
  | _ => read_digits s 0
  end.

(** Canonical numeral: "0", or an optional minus sign followed by a digit
    string that does not start with '0'. *)
Definition canonical (s : string) : Prop :=
  s = "0"%string \/
  (exists c s', s = String c s' /\ c <> "0"%char /\ c <> "-"%char) \/
  (exists c s', s = String "-" (String c s') /\ c <> "0"%char).
