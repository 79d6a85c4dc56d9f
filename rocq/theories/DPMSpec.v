(** Specification of dynamic packed monomials as exponent vectors of any length,
    independent of the functions of DPMModel.v. *)
From Coq Require Import ZArith List Bool String Arith.
From Verif Require Import Base KpackModel KpackSpec PMonSpec.
Import ListNotations.
Open Scope Z_scope.

(** ceil(n / ps) *)
Definition npacks (ps n : nat) : nat := ((n + ps - 1) / ps)%nat.

(** The packs of an exponent vector: the i-th pack is the Kronecker code, for
    size ps, of the exponents i*ps, ..., i*ps + ps - 1 (as many as there are). *)
Definition dcode (D : kdata) (ps : nat) (vs : list Z) : list Z :=
  map (fun i => kron (delta D ps) (firstn ps (skipn (i * ps) vs))) (seq 0 (npacks ps (List.length vs))).

(** "The container d is the monomial with exponents vs over n symbols." *)
Definition drepresents (D : kdata) (ps n : nat) (d : list Z) (vs : list Z) : Prop :=
  List.length vs = n /\ Forall (comp_ok D ps) vs /\ d = dcode D ps vs.

(** A valid pack size. *)
Definition psize_ok (D : kdata) (ps : nat) : Prop := good_size D ps.

(** All partial sums of vs, from the left, are values of the type T. *)
Definition partial_sums_ok (D : kdata) (vs : list Z) : Prop :=
  forall k, (k <= List.length vs)%nat -> of_type D (vsum (firstn k vs)).
