(** Specification of substitution.  Independent of the model. *)
From Coq Require Import ZArith List Bool String.
From Verif Require Import Base SymModel PMonSpec KeyOps SeriesModel SeriesSpec EvalSpec.
Import ListNotations.
Open Scope Z_scope.

(** The exponents vs over ss without the names of the map sm. *)
Definition keep {U : Type} (sm : symbol_map U) (ss : symbol_set) (vs : list Z) : list Z :=
  map (fun z => match assoc sm z with Some _ => 0 | None => expo ss vs z end) ss.

(** mc is the point m with the values of sm (through f) replacing those of m. *)
Definition overridden {U V : Type} (f : U -> V) (sm : symbol_map U) (m mc : symbol_map V) : Prop :=
  forall z, assoc mc z = match assoc sm z with Some u => Some (f u) | None => assoc m z end.
