(** pow() of polynomials with polynomial coefficients. *)
From Coq Require Import ZArith List Bool String Arith.
From Verif Require Import Base IntModel SymModel KeyOps SeriesModel SeriesModel2 PolyModel PolyModel2 RecModel RecModel6 RecModel7.
Import ListNotations.
Open Scope Z_scope.
Open Scope res_scope.

Section RecPow.
Context {K Tag KI C TagI : Type} (KO : key_ops K) (TO : tag_ops Tag) (KOI : key_ops KI) (CO : cf_ops C) (POI : tbl_policy (KI * C)) (TOI : tag_ops TagI) (EI : mul_env KI C TagI) (PO : tbl_policy (K * res (series KI C TagI))).
Notation inner := (series KI C TagI).
Notation outer := (series K (res inner) Tag).
Notation RC := (rec_cf KOI CO POI TOI EI).
(** The cache of powers of the outer type and that of the coefficient type: series.hpp:1685-1690, one map for each type. *)
Notation cache := (@pow_cache K (res inner) Tag).
Notation icache := (@pow_cache KI C TagI).

(** series.hpp:1594-1598: [series_are_identical]; the coefficients are compared by operator== of the inner polynomials, which may throw. *)
Definition rec_identical (a b : outer) : res bool :=
  if ss_eqb (s_ss a) (s_ss b) then lf_cmp KO TO (rec_ceq KOI CO POI TOI) a b else Ok false.
(** series.hpp:1690: try_emplace(base): the position of the base in the cache, the length of the cache if it is not there.
    Simplification: the buckets are not modelled, all the bases are compared, in the order in which they were inserted. *)
Fixpoint cache_find (m : cache) (base : outer) : res nat :=
  match m with
  | [] => Ok O
  | (b, _) :: m' => same <- rec_identical b base ;; if (same : bool) then Ok O else i <- cache_find m' base ;; Ok (S i)
  end.
(** The entry at a position is replaced (or appended). *)
Definition cache_put (m : cache) (i : nat) (e : outer * list outer) : cache := firstn i m ++ e :: skipn (S i) m.

Section E.
Context (E : mul_env K (res inner) Tag).
(** polynomial.hpp:2026-2032: operator* of the outer type; an exception thrown by a coefficient operation leaves it. *)
Definition rec_times (a b : outer) : res outer := settle (poly_mul KO RC PO TO E a b).
(** series.hpp:1627-1716: [series_pow_from_cache]; the powers computed before an exception remain stored. *)
Definition rec_pow_from_cache (m : cache) (base : outer) (n : nat) : res outer * cache :=
  match cache_find m base with
  | Throw e => (Throw e, m)
  | UB => (UB, m)
  | Ok i =>
      let '(b, v) := nth i m (base, []) in
      match (match v with [] => one <- rec_of_number KO TO KOI CO POI TOI EI PO (c_one CO) [] ;; Ok [one] | _ => Ok v end) with
      | Throw e => (Throw e, cache_put m i (b, v))
      | UB => (UB, m)
      | Ok v =>
          let '(v', status) := fill_powers rec_times b (S n - List.length v) v in
          (_ <- status ;; rd v' n, cache_put m i (b, v'))
      end
  end.

(** The parameters of pow(), as in [pow_poly_impl] (PolyModel2.v). *)
Context (cpow : C -> res C) (kn : option Z) (e_is_zero : bool) (un : option nat).
(** polynomial.hpp:2135-2183 on a coefficient: pow() of the inner polynomials, with their own cache. *)
Definition rec_cf_pow (mi : icache) (c : res inner) : res inner * icache :=
  match c with
  | Ok q => poly_pow KOI CO POI TOI EI cpow kn e_is_zero un mi q
  | Throw e => (Throw e, mi)
  | UB => (UB, mi)
  end.
(** series.hpp:1764-1831: the default [pow]. *)
Definition rec_series_pow (m : cache * icache) (x : outer) : res outer * (cache * icache) :=
  match is_single_cf KO x with
  | Ok true =>
      match (if series_empty x then Ok (c_zero RC) else e <- it_deref x (series_begin x) ;; Ok (snd e)) with
      | Ok c => let '(p, mi) := rec_cf_pow (snd m) c in (q <- p ;; rec_of_inner KO TO KOI CO POI TOI EI PO q [], (fst m, mi))
      | Throw e => (Throw e, m)
      | UB => (UB, m)
      end
  | Ok false =>
      if e_is_zero then (rec_of_number KO TO KOI CO POI TOI EI PO (c_one CO) [], m)
      else match un with
      | None => (Throw invalid_argument, m)
      | Some n => let '(o, mo) := rec_pow_from_cache (fst m) x n in (o, (mo, snd m))
      end
  | Throw e => (Throw e, m)
  | UB => (UB, m)
  end.
(** polynomial.hpp:2135-2183: [pow_poly_impl].  Simplification: the arguments of add_term (2157-2158), evaluated in any order by the program, are
    evaluated both, and an exception of the first is preferred. *)
Definition rec_pow (m : cache * icache) (x : outer) : res outer * (cache * icache) :=
  if Nat.eqb (series_size x) 1
  then
    match it_deref x (series_begin x) with
    | Ok e =>
        let '(p, mi) := rec_cf_pow (snd m) (snd e) in
        (retval <- set_symbol_set (series_default TO) (s_ss x) ;;
         k <- k_pow KO (fst e) kn (s_ss x) ;;
         q <- p ;;
         add_term KO RC PO true retval k (Ok q), (fst m, mi))
    | Throw e => (Throw e, m)
    | UB => (UB, m)
    end
  else rec_series_pow m x.
End E.
End RecPow.
