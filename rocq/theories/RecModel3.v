(** Differentiation and integration of polynomials with polynomial coefficients. *)
From Coq Require Import ZArith List Bool String Arith.
From Verif Require Import Base IntModel SymModel KeyOps SeriesModel SeriesModel2 PolyModel PolyModel2 RecModel.
Import ListNotations.
Open Scope Z_scope.
Open Scope res_scope.

Section RecCalc.
Context {K Tag KI C TagI : Type} (KO : key_ops K) (TO : tag_ops Tag) (KOI : key_ops KI) (CO : cf_ops C) (POI : tbl_policy (KI * C)) (TOI : tag_ops TagI) (EI : mul_env KI C TagI) (PO : tbl_policy (K * res (series KI C TagI))).
Context (cz : Z -> C) (cdiv : C -> Z -> res C).
Notation inner := (series KI C TagI).
Notation outer := (series K (res inner) Tag).
Notation RC := (rec_cf KOI CO POI TOI EI).

(** obake::diff(c, s) on a coefficient (polynomial.hpp:2646-2651), c * n and c / n for an exponent n (series.hpp:3100-3177, 3283-3353). *)
Definition cf_diff (c : res inner) (s : string) : res inner := c <- c ;; poly_diff KOI CO POI TOI cz c s.
Definition cf_mul_exp (c : res inner) (n : Z) : res inner := c <- c ;; Ok (series_scalar_mul KOI CO c (cz n)).
Definition cf_div_exp (c : res inner) (n : Z) : res inner := c <- c ;; series_scalar_div CO cdiv c n.

(** polynomial.hpp:2534-2642: [poly_diff_impl], algorithm 2. *)
Definition rec_diff (x : outer) (s : string) : res outer :=
  let ss := s_ss x in
  let idx := ss_index ss s in
  let s_present := negb (Nat.eqb idx (List.length ss)) in
  retval <- set_symbol_set (series_default TO) ss ;;
  retval <- set_n_segments (set_tag retval (s_tag x)) (get_s_size x) ;;
  rfold (fun retval e =>
    retval <- add_term KO RC PO true retval (fst e) (cf_diff (snd e) s) ;;
    if (s_present : bool) then
      '(n, k) <- k_diff KO (fst e) idx ss ;;
      add_term KO RC PO true retval k (cf_mul_exp (snd e) n)
    else Ok retval) (terms x) retval.

(** polynomial.hpp:2743-2820: the lambda [impl] of [poly_integrate_impl], algorithm 2, with the check of the derivative (2807-2809). *)
Definition rec_integrate_at (x : outer) (s : string) (idx : nat) : res outer :=
  let ss := s_ss x in
  retval <- set_symbol_set (series_default TO) ss ;;
  retval <- set_n_segments (set_tag retval (s_tag x)) (get_s_size x) ;;
  rfold (fun retval e =>
    d <- cf_diff (snd e) s ;;
    if negb (series_empty d) then Throw invalid_argument
    else
      '(n, k) <- k_integrate KO (fst e) idx ss ;;
      add_term KO RC PO true retval k (cf_div_exp (snd e) n)) (terms x) retval.
(** polynomial.hpp:2737-2856: [poly_integrate_impl]: the symbol is added first if it is missing. *)
Definition rec_integrate (x : outer) (s : string) : res outer :=
  let ss := s_ss x in
  let '(s_idx, rest) := lower_bound ss s in
  let extended := merged_x <- extend_to KO RC PO TO (s_tag x) true (fun c => c) (firstn s_idx ss ++ s :: rest) x [(s_idx, [s])] ;; rec_integrate_at merged_x s s_idx in
  match rest with
  | y :: _ => if String.eqb y s then rec_integrate_at x s s_idx else extended
  | [] => extended
  end.
End RecCalc.
