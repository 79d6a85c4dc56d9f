(** Specification vocabulary for serialization. *)
From Coq Require Import ZArith List Bool String Permutation.
From Verif Require Import Base IntModel SymModel KeyOps SeriesModel SeriesSpec SerModel.
Import ListNotations.
Open Scope Z_scope.

(** The reader rd, applied to an archive that begins with the values e, returns a and leaves the rest of the archive; applied to an archive that ends before all of e, it throws archive_exception. *)
Definition reads {A : Type} (rd : archive -> res (A * archive)) (e : archive) (a : A) : Prop :=
  (forall rest, rd (e ++ rest) = Ok (a, rest)) /\ (forall p q, e = p ++ q -> q <> [] -> rd p = Throw archive_exception).

(** The size of a container is a size_t. *)
Definition sized {A : Type} (l : list A) : Prop := Z.of_nat (List.length l) <= imax size_t.
Definition storable {K C Tag : Type} (s : series K C Tag) : Prop := sized (s_ss s) /\ forall t, In t (s_tables s) -> sized t.

(** The series are equal but for the order of the terms in their segments. *)
Definition same_series {K C Tag : Type} (x y : series K C Tag) : Prop :=
  s_log2 x = s_log2 y /\ s_tag x = s_tag y /\ s_ss x = s_ss y /\ Forall2 (@Permutation (K * C)) (s_tables x) (s_tables y).
