(** The interface between the series/polynomial code and its keys, coefficients and
    hash tables.  The C++ code is templated over key and coefficient types; here these are
    records of operations, instantiated in KeyInst.v with the modelled monomial types. *)
From Coq Require Import ZArith List Bool String Permutation.
From Verif Require Import Base SymModel.
Import ListNotations.
Open Scope Z_scope.

(** The key functions used by include/obake/series.hpp and
    include/obake/polynomials/polynomial.hpp on a key type K: operator==, obake::hash,
    key_is_compatible, key_is_zero, key_is_one, the constructor from a symbol set,
    key_merge_symbols, key_degree, key_p_degree, key_trim_identify, key_trim,
    monomial_mul, monomial_range_overflow_check (a relation: the set of verdicts over all
    schedules; the boolean says whether the ranges are random access), monomial_pow,
    monomial_diff, monomial_integrate, key_evaluate, monomial_subs. *)
Record key_ops (K : Type) : Type := {
  k_eqb : K -> K -> bool;
  k_hash : K -> Z;
  k_compatible : K -> symbol_set -> res bool;
  k_is_zero : K -> symbol_set -> bool;
  k_is_one : K -> symbol_set -> bool;
  k_of_ss : symbol_set -> K;
  k_merge : K -> symbol_idx_map symbol_set -> symbol_set -> res K;
  k_degree : K -> symbol_set -> res Z;
  k_p_degree : K -> symbol_idx_set -> symbol_set -> res Z;
  k_trim_identify : list Z -> K -> symbol_set -> res (list Z);
  k_trim : K -> symbol_idx_set -> symbol_set -> res K;
  k_mul : K -> K -> symbol_set -> res K;
  k_overflow_check : bool -> symbol_set -> list K -> list K -> res bool -> Prop;
  k_pow : K -> option Z -> symbol_set -> res K;
  k_diff : K -> symbol_idx -> symbol_set -> res (Z * K);
  k_integrate : K -> symbol_idx -> symbol_set -> res (Z * K);
  k_evaluate : forall V U : Type, V -> (V -> V -> V) -> (U -> Z -> res V) -> K -> symbol_idx_map U -> symbol_set -> res V;
  k_subs : forall V U : Type, V -> (V -> V -> V) -> (U -> Z -> res V) -> K -> symbol_idx_map U -> symbol_set -> res (V * K)
}.
Arguments k_eqb {K}. Arguments k_hash {K}. Arguments k_compatible {K}. Arguments k_is_zero {K}.
Arguments k_is_one {K}. Arguments k_of_ss {K}. Arguments k_merge {K}. Arguments k_degree {K}.
Arguments k_p_degree {K}. Arguments k_trim_identify {K}. Arguments k_trim {K}. Arguments k_mul {K}.
Arguments k_overflow_check {K}. Arguments k_pow {K}. Arguments k_diff {K}. Arguments k_integrate {K}.
Arguments k_evaluate {K} _ {V U}. Arguments k_subs {K} _ {V U}.

(** The coefficient operations used by series.hpp: C(0), C(1), +=, -=, *=, fma3, negate, is_zero, ==.
    Simplification: they do not throw. *)
Record cf_ops (C : Type) : Type := {
  c_zero : C;
  c_one : C;
  c_add : C -> C -> C;
  c_sub : C -> C -> C;
  c_mul : C -> C -> C;
  c_fma : C -> C -> C -> C;
  c_neg : C -> C;
  c_is_zero : C -> bool;
  c_eqb : C -> C -> bool
}.
Arguments c_zero {C}. Arguments c_one {C}. Arguments c_add {C}. Arguments c_sub {C}.
Arguments c_mul {C}. Arguments c_fma {C}. Arguments c_neg {C}. Arguments c_is_zero {C}. Arguments c_eqb {C}.

(** boost::unordered_flat_map (series.hpp:636-637) is modelled by the list of its elements in iteration order;
    an insertion may rehash and so permute the elements arbitrarily: [reorder] is any function
    returning a permutation. *)
Record tbl_policy (A : Type) : Type := {
  reorder : list A -> list A;
  reorder_perm : forall l, Permutation (reorder l) l
}.
Arguments reorder {A}. Arguments reorder_perm {A}.

(** The tag type (series.hpp:62): its default value and, if it is comparable, its operator==. *)
Record tag_ops (Tag : Type) : Type := {
  tag_default : Tag;
  tag_eqb : option (Tag -> Tag -> bool)
}.
Arguments tag_default {Tag}. Arguments tag_eqb {Tag}.
