(** The texts of mp++ rationals as coefficients.  Simplification: an mp++ rational is a rational number in lowest terms (the standard library's Qc);
    its plain text, written by mp++ (which is not part of /repo), is assumed to be the numerator, followed by "/" and the denominator unless this is one. *)
From Coq Require Import ZArith QArith Qcanon List Bool String.
From Verif Require Import Base PrintModel.
Open Scope Z_scope.
Local Open Scope string_scope.

Definition q_num (q : Qc) : Z := Qnum (this q).
Definition q_den (q : Qc) : Z := Zpos (Qden (this q)).
(** mp++: operator<< of a rational. *)
Definition rational_text (q : Qc) : string :=
  if (q_den q =? 1)%Z then z_string (q_num q) else z_string (q_num q) ++ "/" ++ z_string (q_den q).
(** tex_stream_insert.hpp:58-78: [tex_stream_insert] of a rational. *)
Definition rational_tex (q : Qc) : string :=
  if (q_den q =? 1)%Z then z_string (q_num q)
  else
    (if (Z.sgn (q_num q) =? 1)%Z then "\frac{" ++ z_string (q_num q) else "-\frac{" ++ z_string (- q_num q)) ++
    "}{" ++ z_string (q_den q) ++ "}".
