(** Substitution of scalars in power series. *)
From Coq Require Import ZArith List Bool String Arith.
From Verif Require Import Base IntModel SymModel KeyOps SeriesModel SeriesModel2 PolyModel PolyModel2 PSModel.
Import ListNotations.
Open Scope Z_scope.
Open Scope res_scope.

(** power_series.hpp:1396-1401 with polynomial.hpp:2249-2306: the loop of [poly_subs_impl] with the operators of power series: the product of a scalar and
    a power series is that of series (series.hpp:3109-3170), += is that of power series (power_series.hpp:1138-1222); the result starts without truncation. *)
Definition ps_subs_scalar {K C U : Type} (KO : key_ops K) (CO : cf_ops C) (PO : tbl_policy (K * C)) (tD : ity) (vpow : U -> Z -> res C)
  (x : series K C trunc_t) (sm : symbol_map U) : res (series K C trunc_t) :=
  let ss := s_ss x in
  let si := sm_intersect_idx sm ss in
  tmp_poly <- set_symbol_set (series_default ps_tag_ops) ss ;;
  let tmp_poly := set_tag tmp_poly (s_tag x) in
  rfold (fun retval e =>
    '(v, k) <- k_subs KO (c_one CO) (c_mul CO) vpow (fst e) si ss ;;
    tmp <- add_term KO CO PO true (clear_terms tmp_poly) k (c_one CO) ;;
    ps_in_place_addsub KO CO PO tD true retval false (series_scalar_mul KO CO tmp (c_mul CO v (snd e)))) (terms x) (series_default ps_tag_ops).

(** The same with power series as values: the products of powers, of values and of the temporary are those of power series (power_series.hpp:1284-1367); [vpow] is pow() of power series.
    The exceptions of the products of powers are carried along. *)
Definition ps_subs {K C U : Type} (KO : key_ops K) (CO : cf_ops C) (PO : tbl_policy (K * C)) (E : mul_env K C trunc_t) (tD : ity) (vpow : U -> Z -> res (series K C trunc_t))
  (x : series K C trunc_t) (sm : symbol_map U) : res (series K C trunc_t) :=
  let ss := s_ss x in
  let si := sm_intersect_idx sm ss in
  tmp_poly <- set_symbol_set (series_default ps_tag_ops) ss ;;
  let tmp_poly := set_tag tmp_poly (s_tag x) in
  rfold (fun retval e =>
    '(v, k) <- k_subs KO (series_of_cf KO CO PO ps_tag_ops (c_one CO) []) (fun a b => a <- a ;; b <- b ;; ps_mul KO CO PO E tD a b) (fun u z => Ok (vpow u z)) (fst e) si ss ;;
    tmp <- add_term KO CO PO true (clear_terms tmp_poly) k (c_one CO) ;;
    v <- v ;;
    p <- ps_mul KO CO PO E tD (series_scalar_mul KO CO v (snd e)) tmp ;;
    ps_in_place_addsub KO CO PO tD true retval false p) (terms x) (series_default ps_tag_ops).
