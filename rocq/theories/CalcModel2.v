(** Differentiation and integration of polynomials and power series whose result has another coefficient type: the first algorithm of polynomial.hpp:2533-2597 and
    2736-2790 (for instance coefficients of type int, exponents of type long long).  C1 is the coefficient type of the argument, C that of the result.
    Simplifications: the product of a coefficient and its derivative has the type C1; the derivative of a coefficient is zero (coefficients that are numbers). *)
From Coq Require Import ZArith List Bool String Arith.
From Verif Require Import Base IntModel SymModel KeyOps SeriesModel SeriesModel2 PolyModel PolyModel2 PSModel MixModel MixModel2.
Import ListNotations.
Open Scope Z_scope.
Open Scope res_scope.

Section Calc2.
Context {K C1 C Tag : Type} (KO : key_ops K) (CO1 : cf_ops C1) (CO : cf_ops C) (PO1 : tbl_policy (K * C1)) (PO : tbl_policy (K * C)) (TO : tag_ops Tag).
(** [f] converts the coefficients to the type of the result. *)
Context (f : C1 -> C).
Notation arg := (series K C1 Tag).
Notation out := (series K C Tag).

(** series.hpp:3100-3177 with a series a of coefficients of type C1 and a number b of the type C of their products: the copy of a is converted (line 3128). *)
Definition mix_scalar_mul (a : arg) (b : C) : res out :=
  if series_empty a || c_is_zero CO b then Ok (Series [[]] 0 (s_tag a) (s_ss a))
  else
    r <- series_convert KO CO PO f (s_tag a) a ;;
    Ok (set_tables r (map (scalar_mul_table KO CO b) (s_tables r))).

(** polynomial.hpp:2560-2566, 2575-2576 and 2765-2767, 2782-2783: the polynomial with the symbols and the tag of x whose only term is the key k with coefficient 1. *)
Definition monomial_poly (x : arg) (k : K) : res arg :=
  t <- set_symbol_set (series_default TO) (s_ss x) ;;
  add_term KO CO1 PO1 true (clear_terms (set_tag t (s_tag x))) k (c_one CO1).

(** The operators used by the two loops: the sum of the terms of line 2588, the operators += of 2588, 2786 ([o_acc]) and of 2593 ([o_acc1]). *)
Record loop_ops := { o_plus : arg -> out -> res out; o_acc : out -> out -> res out; o_acc1 : out -> arg -> res out }.
Context (O : loop_ops).

(** polynomial.hpp:2555-2597: [cmulz] is the product of a coefficient and an exponent. *)
Definition diff_convert (cmulz : C1 -> Z -> C) (x : arg) (s : string) : res out :=
  let ss := s_ss x in
  let idx := ss_index ss s in
  let s_present := negb (Nat.eqb idx (List.length ss)) in
  retval <- series_of_cf KO CO PO TO (c_zero CO) [] ;;
  rfold (fun retval e =>
    tmp_p1 <- monomial_poly x (fst e) ;;
    if (s_present : bool) then
      '(n, k) <- k_diff KO (fst e) idx ss ;;
      tmp_p2 <- monomial_poly x k ;;
      b <- mix_scalar_mul tmp_p2 (cmulz (snd e) n) ;;
      sum <- o_plus O (series_scalar_mul KO CO1 tmp_p1 (c_zero CO1)) b ;;
      o_acc O retval sum
    else o_acc1 O retval (series_scalar_mul KO CO1 tmp_p1 (c_zero CO1))) (terms x) retval.

(** polynomial.hpp:2760-2789: [cdiv] is the quotient of a coefficient and an exponent. *)
Definition integrate_convert_at (cdiv : C1 -> Z -> res C) (x : arg) (idx : nat) : res out :=
  let ss := s_ss x in
  retval <- series_of_cf KO CO PO TO (c_zero CO) [] ;;
  rfold (fun retval e =>
    '(n, k) <- k_integrate KO (fst e) idx ss ;;
    tmp_p <- monomial_poly x k ;;
    q <- cdiv (snd e) n ;;
    b <- mix_scalar_mul tmp_p q ;;
    o_acc O retval b) (terms x) retval.
(** polynomial.hpp:2823-2856. *)
Definition integrate_convert (cdiv : C1 -> Z -> res C) (x : arg) (s : string) : res out :=
  let ss := s_ss x in
  let '(s_idx, rest) := lower_bound ss s in
  let missing := match rest with y :: _ => negb (String.eqb y s) | [] => true end in
  if (missing : bool) then
    merged_x <- extend_to KO CO1 PO1 TO (s_tag x) true (fun c => c) (firstn s_idx ss ++ s :: rest) x [(s_idx, [s])] ;;
    integrate_convert_at cdiv merged_x s_idx
  else integrate_convert_at cdiv x s_idx.
End Calc2.
Arguments o_plus {K C1 C Tag}. Arguments o_acc {K C1 C Tag}. Arguments o_acc1 {K C1 C Tag}.

(** The operators on polynomials: series.hpp:2325-2411 and 2669-2745. *)
Definition poly_loop_ops {K C1 C Tag} (KO : key_ops K) (CO1 : cf_ops C1) (CO : cf_ops C) (PO1 : tbl_policy (K * C1)) (PO : tbl_policy (K * C)) (TO : tag_ops Tag) (f : C1 -> C) : loop_ops (K := K) (C1 := C1) (C := C) (Tag := Tag) :=
  {| o_plus := series_addsub KO CO PO TO true (op_conv KO CO PO f) op_same;
     o_acc := fun r y => series_in_place_addsub KO CO PO CO PO TO true (fun c => c) r false y;
     o_acc1 := fun r y => series_in_place_addsub KO CO PO CO1 PO1 TO true f r false y |}.
(** The operators on power series: power_series.hpp:987-1069 and 1138-1222. *)
Definition ps_loop_ops {K C1 C} (KO : key_ops K) (CO1 : cf_ops C1) (CO : cf_ops C) (PO1 : tbl_policy (K * C1)) (PO : tbl_policy (K * C)) (tD : ity) (f : C1 -> C) : loop_ops (K := K) (C1 := C1) (C := C) (Tag := trunc_t) :=
  {| o_plus := mix_ps_addsub KO CO PO tD true (op_conv KO CO PO f) op_same;
     o_acc := mix_ps_in_place KO CO PO CO PO tD true (fun c => c);
     o_acc1 := mix_ps_in_place KO CO PO CO1 PO1 tD true f |}.
(** power_series.hpp:1411-1416. *)
Definition ps_diff_convert {K C1 C} (KO : key_ops K) (CO1 : cf_ops C1) (CO : cf_ops C) (PO1 : tbl_policy (K * C1)) (PO : tbl_policy (K * C)) (tD : ity) (f : C1 -> C) (cmulz : C1 -> Z -> C) (x : series K C1 trunc_t) (s : string) : res (series K C trunc_t) :=
  diff_convert KO CO1 CO PO1 PO ps_tag_ops f (ps_loop_ops KO CO1 CO PO1 PO tD f) cmulz x s.
(** power_series.hpp:1426-1440: the type of the result is not that of the argument, so the result is not truncated (1432-1437). *)
Definition ps_integrate_convert {K C1 C} (KO : key_ops K) (CO1 : cf_ops C1) (CO : cf_ops C) (PO1 : tbl_policy (K * C1)) (PO : tbl_policy (K * C)) (tD : ity) (f : C1 -> C) (cdiv : C1 -> Z -> res C) (x : series K C1 trunc_t) (s : string) : res (series K C trunc_t) :=
  integrate_convert KO CO1 CO PO1 PO ps_tag_ops f (ps_loop_ops KO CO1 CO PO1 PO tD f) cdiv x s.
