(** Specification vocabulary for differentiation, integration and substitution. *)
From Coq Require Import ZArith List Bool String.
From Verif Require Import Base SymModel PMonSpec KeyOps SeriesModel SeriesSpec.
Import ListNotations.
Open Scope Z_scope.

(** The exponents ws over us, with n added to the exponent of the symbol s. *)
Definition bump (us : symbol_set) (s : string) (n : Z) (ws : list Z) : list Z :=
  map (fun p => if String.eqb (fst p) s then snd p + n else snd p) (combine us ws).

(** [cz] embeds the integers in the coefficients. *)
Record int_embedding {C : Type} (CO : cf_ops C) (cz : Z -> C) : Prop := {
  ie_zero : cz 0 = c_zero CO;
  ie_add : forall a b, cz (a + b) = c_add CO (cz a) (cz b)
}.
(** [cdiv] is the exact division by nonzero integers. *)
Definition exact_division {C : Type} (CO : cf_ops C) (cz : Z -> C) (cdiv : C -> Z -> res C) : Prop :=
  forall c n, n <> 0 -> exists q, cdiv c n = Ok q /\ c_mul CO q (cz n) = c.
(** [cdiv] is defined for every nonzero divisor; the quotient may be truncated. *)
Definition total_division {C : Type} (cdiv : C -> Z -> res C) : Prop := forall c n, n <> 0 -> exists q, cdiv c n = Ok q.
