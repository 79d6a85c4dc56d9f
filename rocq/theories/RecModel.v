(** Series whose coefficients are series (recursive polynomials): the coefficient operations of series.hpp and polynomial.hpp as
    operations on coefficients. *)
From Coq Require Import ZArith List Bool String Arith.
From Verif Require Import Base IntModel SymModel KeyOps SeriesModel SeriesModel2 PolyModel PolyModel2.
Import ListNotations.
Open Scope Z_scope.
Open Scope res_scope.

Section Rec.
Context {K C Tag : Type} (KO : key_ops K) (CO : cf_ops C) (PO : tbl_policy (K * C)) (TO : tag_ops Tag) (E : mul_env K C Tag).
Notation series := (series K C Tag).

(** An operation on operands of which one may be an exception already thrown. *)
Definition lift2 (f : series -> series -> res series) (a b : res series) : res series := a <- a ;; b <- b ;; f a b.

(** The coefficient type series<K, C, Tag>: series.hpp:688-699 (construction from 0 and 1), 2583-3020 (operators += and -=, called
    in add_term, series.hpp:345-353), 1847-1861 (negate), 1900-1904 (is_zero), 3442-3539 (operator==); polynomial.hpp:2026-2032 (multiplication).  fma3 does not exist for series, so a product is added by += (polynomial.hpp:1379-1383, 1514-1518, 1841-1845).
    Simplification: an exception thrown by a coefficient operation is kept as the coefficient, on which every further operation gives
    the same exception and which does not test as zero; in the program it leaves the outer operation at once. *)
Definition rec_cf : cf_ops (res series) := {|
  c_zero := Ok (series_default TO);
  c_one := series_of_cf KO CO PO TO (c_one CO) [];
  c_add := lift2 (fun a b => series_in_place_addsub KO CO PO CO PO TO true (fun c => c) a false b);
  c_sub := lift2 (fun a b => series_in_place_addsub KO CO PO CO PO TO false (fun c => c) a false b);
  c_mul := lift2 (poly_mul KO CO PO TO E);
  c_fma := fun a b c => lift2 (fun a p => series_in_place_addsub KO CO PO CO PO TO true (fun c => c) a false p) a (lift2 (poly_mul KO CO PO TO E) b c);
  c_neg := fun a => a <- a ;; Ok (series_negate CO a);
  c_is_zero := fun a => match a with Ok a => series_empty a | _ => false end;
  c_eqb := fun a b => match lift2 (fun a b => b <- series_equal_to KO CO PO TO a b ;; if (b : bool) then Ok a else UB) a b with Ok _ => true | _ => false end
|}.
End Rec.

(** What the program makes of an operation on series with such coefficients: an exception in a coefficient leaves the operation. *)
Definition settle {K A Tag : Type} (o : res (series K (res A) Tag)) : res (series K (res A) Tag) := r <- o ;; _ <- rmap (fun e => snd e) (terms r) ;; Ok r.
