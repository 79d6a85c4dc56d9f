(** Operations between a polynomial with polynomial coefficients and a polynomial of the coefficient type, or a number. *)
From Coq Require Import ZArith List Bool String Arith.
From Verif Require Import Base IntModel SymModel KeyOps SeriesModel SeriesModel2 PolyModel RecModel.
Import ListNotations.
Open Scope Z_scope.
Open Scope res_scope.

(** series.hpp:3172-3176: a scalar on the left is multiplied by the same function, with the operands exchanged. *)
Definition scalar_mul_series {K C Tag : Type} (KO : key_ops K) (CO : cf_ops C) (b : C) (a : series K C Tag) : series K C Tag := series_scalar_mul KO CO a b.

Section RecScalar.
Context {K Tag KI C TagI : Type} (KO : key_ops K) (KOI : key_ops KI) (CO : cf_ops C) (POI : tbl_policy (KI * C)) (TOI : tag_ops TagI) (EI : mul_env KI C TagI) (PO : tbl_policy (K * res (series KI C TagI))).
Notation inner := (series KI C TagI).
Notation outer := (series K (res inner) Tag).
Notation RC := (rec_cf KOI CO POI TOI EI).
(** series.hpp:3100-3177: x * q and q * x. *)
Definition rec_scalar_mul (x : outer) (q : inner) : outer := series_scalar_mul KO RC x (Ok q).
(** series.hpp:2366-2373: x +/- q, and x += q, x -= q (2698-2708). *)
Definition rec_addsub_scalar (sign : bool) (x : outer) (q : inner) : res outer := series_addsub_scalar KO RC PO sign x (Ok q).
(** series.hpp:2347-2365: q +/- x. *)
Definition scalar_addsub_rec (sign : bool) (q : inner) (x : outer) : res outer := scalar_addsub_series KO RC PO sign (Ok q) x.
(** series.hpp:3291-3335: x / y for a number y; the division of a coefficient is this function again (3312). *)
Definition rec_scalar_div {U : Type} (cdiv : C -> U -> res C) (x : outer) (y : U) : res outer :=
  series_scalar_div RC (fun c y => c <- c ;; d <- series_scalar_div CO cdiv c y ;; Ok (Ok d)) x y.
End RecScalar.
