(** subs() of polynomials with polynomial coefficients: the values are numbers, of the type of the innermost coefficients. *)
From Coq Require Import ZArith List Bool String Arith.
From Verif Require Import Base IntModel SymModel KeyOps SeriesModel SeriesModel2 PolyModel PolyModel2 RecModel RecModel5.
Import ListNotations.
Open Scope Z_scope.
Open Scope res_scope.

Section RecSubs.
Context {K Tag KI C TagI : Type} (KO : key_ops K) (TO : tag_ops Tag) (KOI : key_ops KI) (CO : cf_ops C) (POI : tbl_policy (KI * C)) (TOI : tag_ops TagI) (EI : mul_env KI C TagI) (PO : tbl_policy (K * res (series KI C TagI))).
Notation inner := (series KI C TagI).
Notation outer := (series K (res inner) Tag).
Notation RC := (rec_cf KOI CO POI TOI EI).
Context {A : Type} (vpow : A -> Z -> res C).

(** polynomial.hpp:2274-2303: the loop of [poly_subs_impl] on terms whose coefficients are polynomials: [subs(c, sm)] is the same function on the coefficient (line 2302),
    the number [k_sub.first] multiplies it (series.hpp:3109-3170, the operand of lower rank is a number), the product multiplies tmp_poly (series.hpp:3109-3170, the
    operand of lower rank is a polynomial of the coefficient type).  Exceptions leave at once. *)
Definition rec_subs_step (x : outer) (sm : symbol_map A) (tmp_poly : outer) (retval : outer) (e : K * res inner) : res outer :=
  '(v, k) <- k_subs KO (c_one CO) (c_mul CO) vpow (fst e) (sm_intersect_idx sm (s_ss x)) (s_ss x) ;;
  t <- settle (add_term KO RC PO true (clear_terms tmp_poly) k (c_one RC)) ;;
  c <- snd e ;;
  q <- subs_scalar KOI CO POI TOI vpow c sm ;;
  p <- settle (Ok (rec_scalar_mul KO KOI CO POI TOI EI t (series_scalar_mul KOI CO q v))) ;;
  settle (series_in_place_addsub KO RC PO RC PO TO true (fun c => c) retval false p).
(** polynomial.hpp:2249-2306: [poly_subs_impl]. *)
Definition rec_subs (x : outer) (sm : symbol_map A) : res outer :=
  tmp_poly <- set_symbol_set (series_default TO) (s_ss x) ;;
  let tmp_poly := set_tag tmp_poly (s_tag x) in
  rfold (rec_subs_step x sm tmp_poly) (terms x) (series_default TO).
End RecSubs.
