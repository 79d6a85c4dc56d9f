(** Construction of polynomials with polynomial coefficients from objects of lower rank, and their conversion to these. *)
From Coq Require Import ZArith List Bool String Arith.
From Verif Require Import Base IntModel SymModel KeyOps SeriesModel SeriesModel2 PolyModel RecModel.
Import ListNotations.
Open Scope Z_scope.
Open Scope res_scope.

Section RecConv.
Context {K Tag KI C TagI : Type} (KO : key_ops K) (TO : tag_ops Tag) (KOI : key_ops KI) (CO : cf_ops C) (POI : tbl_policy (KI * C)) (TOI : tag_ops TagI) (EI : mul_env KI C TagI) (PO : tbl_policy (K * res (series KI C TagI))).
Notation inner := (series KI C TagI).
Notation outer := (series K (res inner) Tag).
(** series.hpp:688-699, 801-813: construction from a polynomial of the coefficient type, with the symbol set [ss] (empty for the generic constructor). *)
Definition rec_of_inner (q : inner) (ss : symbol_set) : res outer := series_of_cf KO (rec_cf KOI CO POI TOI EI) PO TO (Ok q) ss.
(** series.hpp:688-699, 801-813: construction from a number: the coefficient is constructed from it by the same constructor (line 332). *)
Definition rec_of_number (n : C) (ss : symbol_set) : res outer := q <- series_of_cf KOI CO POI TOI n [] ;; rec_of_inner q ss.
(** series.hpp:769-797: construction of a polynomial of the coefficient type from one with such coefficients: the coefficient is copied (line 789). *)
Definition rec_to_inner (x : outer) : res inner := series_of_higher_rank TOI KO (fun c => c) x.
(** series.hpp:839-864: conversion to a number; the coefficient is converted by the same operator (line 854). *)
Definition rec_to_number {T : Type} (zero : T) (of_cf : C -> T) (x : outer) : res T :=
  match series_size x with
  | O => Ok zero
  | S O =>
      t <- it_deref x (series_begin x) ;;
      if k_is_one KO (fst t) (s_ss x) then (c <- snd t ;; series_to_cf KOI zero of_cf c) else Throw invalid_argument
  | _ => Throw invalid_argument
  end.
End RecConv.
