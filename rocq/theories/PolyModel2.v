(** Model of include/obake/polynomials/polynomial.hpp, continued: truncation arguments, truncation, powers, substitution,
    differentiation and integration. *)
From Coq Require Import ZArith List Bool String Arith.
From Verif Require Import Base IntModel SymModel KeyOps SeriesModel SeriesModel2 PolyModel.
Import ListNotations.
Open Scope Z_scope.
Open Scope res_scope.

(** The lambdas of polynomial.hpp:1226-1234 and 1788-1792, [max_deg < d1 + d2]: the limit has type tV, the degrees have
    type tD; the sum is computed, and may overflow, in the promoted type, and the comparison converts both sides. *)
Definition over_cpp (tV tD : ity) (lim d1 d2 : Z) : res bool :=
  s <- arith (promote tD) (d1 + d2) ;; Ok (clt tV (promote tD) lim s).

(** truncated_mul(x, y, max_degree): polynomial.hpp:2113-2119. *)
Definition tr_total {K : Type} (KO : key_ops K) (tV tD : ity) (lim : Z) : trunc K :=
  {| tr_deg := k_degree KO; tr_over := over_cpp tV tD lim |}.
(** truncated_mul(x, y, max_degree, s): polynomial.hpp:2121-2127; the indices of the symbol subset are computed in
    series.hpp:3920 (make_p_degree_vector). *)
Definition tr_partial {K : Type} (KO : key_ops K) (tV tD : ity) (lim : Z) (syms : symbol_set) : trunc K :=
  {| tr_deg := fun k ss => k_p_degree KO k (ss_intersect_idx syms ss) ss; tr_over := over_cpp tV tD lim |}.

(** std::erase_if-like loop of series.hpp:4255-4264 with a predicate that may throw. Simplification: the
    partially filtered state after an exception is not modelled. *)
Fixpoint rfilter {A : Type} (f : A -> res bool) (l : list A) : res (list A) :=
  match l with
  | [] => Ok []
  | a :: l' => b <- f a ;; r <- rfilter f l' ;; Ok (if (b : bool) then a :: r else r)
  end.

Section Poly2.
Context {K C Tag : Type} (KO : key_ops K) (CO : cf_ops C) (PO : tbl_policy (K * C)) (TO : tag_ops Tag) (E : mul_env K C Tag).
Notation series := (series K C Tag).

(** polynomial.hpp:2113-2127. *)
Definition truncated_mul (tV tD : ity) (lim : Z) (x y : series) : res series :=
  poly_mul_switch KO CO PO TO E (Some (tr_total KO tV tD lim)) x y.
(** polynomial.hpp:2113-2127 (with the previous definition). *)
Definition truncated_mul_p (tV tD : ity) (lim : Z) (syms : symbol_set) (x y : series) : res series :=
  poly_mul_switch KO CO PO TO E (Some (tr_partial KO tV tD lim syms)) x y.

(** series.hpp:4247-4267 with a throwing predicate. *)
Definition series_filter_res (f : K * C -> res bool) (s : series) : res series :=
  ts <- rmap (rfilter f) (s_tables s) ;; Ok (set_tables s ts).

(** polynomial.hpp:2364-2378: the predicate is [!(y < deg)]; y has type tV, the degree tD. *)
Definition truncate_degree (tV tD : ity) (lim : Z) (x : series) : res series :=
  series_filter_res (fun e => d <- k_degree KO (fst e) (s_ss x) ;; Ok (negb (clt tV tD lim d))) x.
(** polynomial.hpp:2426-2445. *)
Definition truncate_p_degree (tV tD : ity) (lim : Z) (syms : symbol_set) (x : series) : res series :=
  let si := ss_intersect_idx syms (s_ss x) in
  series_filter_res (fun e => d <- k_p_degree KO (fst e) si (s_ss x) ;; Ok (negb (clt tV tD lim d))) x.

(** polynomial.hpp:2135-2173: [pow_poly_impl]; [kn] is the exponent as a monomial exponent (None if it is not
    convertible to an integer); [mul] is the operator* of the series type; the other parameters are those of [series_pow]. *)
Definition pow_poly_impl (mul : series -> series -> res series) (cpow : C -> res C) (kn : option Z) (e_is_zero : bool) (un : option nat)
  (m : @pow_cache K C Tag) (x : series) : res series * @pow_cache K C Tag :=
  if Nat.eqb (series_size x) 1
  then (retval <- set_symbol_set (series_default TO) (s_ss x) ;;
        e <- it_deref x (series_begin x) ;;
        k <- k_pow KO (fst e) kn (s_ss x) ;;
        c <- cpow (snd e) ;;
        add_term KO CO PO true retval k c, m)
  else series_pow KO CO PO TO mul cpow e_is_zero un m x.
(** polynomial.hpp:2175-2183: [pow] on polynomials. *)
Definition poly_pow := pow_poly_impl (poly_mul KO CO PO TO E).

(** polynomial.hpp:2249-2306: [poly_subs_impl]; [scale v c p] is [k_sub.first * subs(c, sm) * tmp_poly] (the coefficients
    have rank 0, so subs(c, sm) is c); for values that are scalars this is [subs_scalar]. *)
Definition poly_subs {V U : Type} (vone : V) (vmul : V -> V -> V) (vpow : U -> Z -> res V) (scale : V -> C -> series -> res series)
  (x : series) (sm : symbol_map U) : res series :=
  let ss := s_ss x in
  let si := sm_intersect_idx sm ss in
  tmp_poly <- set_symbol_set (series_default TO) ss ;;
  let tmp_poly := set_tag tmp_poly (s_tag x) in
  rfold (fun retval e =>
    '(v, k) <- k_subs KO vone vmul vpow (fst e) si ss ;;
    tmp <- add_term KO CO PO true (clear_terms tmp_poly) k (c_one CO) ;;
    p <- scale v (snd e) tmp ;;
    series_in_place_addsub KO CO PO CO PO TO true (fun c => c) retval false p) (terms x) (series_default TO).
(** Substitution of scalars: the product of a scalar and a polynomial (series.hpp:3109-3170). *)
Definition subs_scalar {U : Type} (vpow : U -> Z -> res C) (x : series) (sm : symbol_map U) : res series :=
  poly_subs (c_one CO) (c_mul CO) vpow (fun v c p => Ok (series_scalar_mul KO CO p (c_mul CO v c))) x sm.
(** Substitution of polynomials (the values are polynomials of the same type): a product of a polynomial and a scalar, then of two
    polynomials.  The exceptions of the products of powers (polynomial.hpp calls operator* on the powers) are carried along. *)
Definition subs_poly {U : Type} (vpow : U -> Z -> res series) (x : series) (sm : symbol_map U) : res series :=
  poly_subs (series_of_cf KO CO PO TO (c_one CO) [])
    (fun a b => a <- a ;; b <- b ;; poly_mul KO CO PO TO E a b)
    (fun u z => Ok (vpow u z))
    (fun v c p => v <- v ;; poly_mul KO CO PO TO E (series_scalar_mul KO CO v c) p) x sm.

(** [ss.index_of(ss.find(s))]: the position of s, or the size. *)
Fixpoint ss_index (ss : symbol_set) (s : string) : nat :=
  match ss with
  | [] => 0
  | x :: ss' => if String.eqb x s then 0 else S (ss_index ss' s)
  end.

(** polynomial.hpp:2534-2642: [poly_diff_impl], algorithm 2 (the result has the type of x). The coefficients have rank 0: the derivative
    of a coefficient is C(0); [cz] converts an exponent to the coefficient type. *)
Definition poly_diff (cz : Z -> C) (x : series) (s : string) : res series :=
  let ss := s_ss x in
  let idx := ss_index ss s in
  let s_present := negb (Nat.eqb idx (List.length ss)) in
  retval <- set_symbol_set (series_default TO) ss ;;
  retval <- set_n_segments (set_tag retval (s_tag x)) (get_s_size x) ;;
  rfold (fun retval e =>
    retval <- add_term KO CO PO true retval (fst e) (c_zero CO) ;;
    if (s_present : bool) then
      '(n, k) <- k_diff KO (fst e) idx ss ;;
      add_term KO CO PO true retval k (c_mul CO (snd e) (cz n))
    else Ok retval) (terms x) retval.

(** polynomial.hpp:2743-2820: the lambda [impl] of [poly_integrate_impl], algorithm 2; [cdiv] divides a coefficient by
    an exponent. The derivative of a coefficient of rank 0 is zero, so the check of lines 2807-2809 passes. *)
Definition poly_integrate_at (cdiv : C -> Z -> res C) (x : series) (idx : nat) : res series :=
  let ss := s_ss x in
  retval <- set_symbol_set (series_default TO) ss ;;
  retval <- set_n_segments (set_tag retval (s_tag x)) (get_s_size x) ;;
  rfold (fun retval e =>
    '(n, k) <- k_integrate KO (fst e) idx ss ;;
    c <- cdiv (snd e) n ;;
    add_term KO CO PO true retval k c) (terms x) retval.
(** polynomial.hpp:2737-2856: [poly_integrate_impl]: the symbol is added first if it is missing. *)
Definition poly_integrate (cdiv : C -> Z -> res C) (x : series) (s : string) : res series :=
  let ss := s_ss x in
  let '(s_idx, rest) := lower_bound ss s in
  match rest with
  | y :: _ =>
      if String.eqb y s then poly_integrate_at cdiv x s_idx
      else
        merged_x <- extend_to KO CO PO TO (s_tag x) true (fun c => c) (firstn s_idx ss ++ s :: rest) x [(s_idx, [s])] ;;
        poly_integrate_at cdiv merged_x s_idx
  | [] =>
      merged_x <- extend_to KO CO PO TO (s_tag x) true (fun c => c) (firstn s_idx ss ++ s :: rest) x [(s_idx, [s])] ;;
      poly_integrate_at cdiv merged_x s_idx
  end.
End Poly2.
