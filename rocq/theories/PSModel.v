(** Model of include/obake/power_series/power_series.hpp: power series are series whose tag is a truncation. Also the construction of
    generators, common to polynomials (polynomial.hpp:139-227) and power series. *)
From Coq Require Import ZArith List Bool String Arith.
From Verif Require Import Base IntModel SymModel KeyOps SeriesModel SeriesModel2 PolyModel PolyModel2.
Import ListNotations.
Open Scope Z_scope.
Open Scope res_scope.

(** power_series.hpp:75-76: [trunc_t]; the limits have the degree type of the key. *)
Inductive trunc_t : Type :=
  | no_truncation
  | total_truncation (d : Z)
  | partial_truncation (d : Z) (ss : symbol_set).

(** power_series.hpp:64-72, 211-217, 284-293: the comparison of variants and tags (a flyweight: equal iff the values are). *)
Definition trunc_eqb (a b : trunc_t) : bool :=
  match a, b with
  | no_truncation, no_truncation => true
  | total_truncation d, total_truncation e => d =? e
  | partial_truncation d s, partial_truncation e u => (d =? e) && ss_eqb s u
  | _, _ => false
  end.
(** power_series.hpp:228-258: a default-constructed tag holds the first alternative. *)
Definition ps_tag_ops : tag_ops trunc_t := {| tag_default := no_truncation; tag_eqb := Some trunc_eqb |}.

(** power_series.hpp:188-206: the hash of a truncation; [hz] is obake::hash on degrees, [hss] that of symbol sets. *)
Definition trunc_hash (hz : Z -> Z) (hss : symbol_set -> Z) (t : trunc_t) : Z :=
  match t with
  | no_truncation => 0
  | total_truncation d => hz d
  | partial_truncation d s => (hz d + hss s) mod 2 ^ 64
  end.

Section PS.
Context {K C : Type} (KO : key_ops K) (CO : cf_ops C) (PO : tbl_policy (K * C)) (E : mul_env K C trunc_t) (tD : ity).
Notation series := (series K C trunc_t).
Notation TO := ps_tag_ops.

(** power_series.hpp:548-561 [truncate] with 419-455: the predicates are those of the truncation of polynomials; the limit has
    the degree type. *)
Definition ps_truncate (ps : series) : res series :=
  match s_tag ps with
  | no_truncation => Ok ps
  | total_truncation d => truncate_degree KO tD tD d ps
  | partial_truncation d s => truncate_p_degree KO tD tD d s ps
  end.

(** power_series.hpp:463-493, 496-526: [set_truncation_impl]; the limit is given in the type tV. The result is the outcome and the new value of the
    power series: untouched if the limit is not a value of the degree type, cleared if the truncation throws. *)
Definition set_truncation (tV : ity) (d : Z) (ps : series) : res unit * series :=
  match safe_cast_int tD tV d with
  | Ok deg =>
      match truncate_degree KO tD tD deg ps with
      | Ok r => (Ok tt, set_tag r (total_truncation deg))
      | Throw e => (Throw e, series_clear TO ps)
      | UB => (UB, ps)
      end
  | Throw e => (Throw e, ps)
  | UB => (UB, ps)
  end.
(** power_series.hpp:463-493, 496-526 (with the previous definition). *)
Definition set_truncation_p (tV : ity) (d : Z) (s : symbol_set) (ps : series) : res unit * series :=
  match safe_cast_int tD tV d with
  | Ok deg =>
      match truncate_p_degree KO tD tD deg s ps with
      | Ok r => (Ok tt, set_tag r (partial_truncation deg s))
      | Throw e => (Throw e, series_clear TO ps)
      | UB => (UB, ps)
      end
  | Throw e => (Throw e, ps)
  | UB => (UB, ps)
  end.
(** power_series.hpp:535-545. *)
Definition unset_truncation (ps : series) : series := set_tag ps no_truncation.
(** power_series.hpp:535-545 (with the previous definition). *)
Definition get_truncation (ps : series) : trunc_t := s_tag ps.

(** power_series.hpp:1017-1067 and 1168-1217: [ps_addsub_impl] and [ps_in_place_addsub_impl], algorithm 2, around the default
    implementation [op] on series.  Both operands have the same coefficient type here; see MixModel2.v for the general case. *)
Definition ps_addsub_visit (op : series -> series -> res series) (x y : series) : res series :=
  let same := ret <- op x y ;; Ok (set_tag ret (s_tag x)) in
  let adopt tg := ret <- op x y ;; ps_truncate (set_tag ret tg) in
  match s_tag x, s_tag y with
  | no_truncation, no_truncation => same
  | total_truncation d, total_truncation e => if negb (d =? e) then Throw invalid_argument else same
  | partial_truncation d s, partial_truncation e u => if negb ((d =? e) && ss_eqb s u) then Throw invalid_argument else same
  | _, no_truncation => adopt (s_tag x)
  | no_truncation, _ => adopt (s_tag y)
  | _, _ => Throw invalid_argument
  end.
(** power_series.hpp:1017-1067 and 1168-1217 (with the previous definition). *)
Definition ps_add (x y : series) : res series := ps_addsub_visit (series_add KO CO PO TO) x y.
(** power_series.hpp:1017-1067 and 1168-1217 (with the previous definition). *)
Definition ps_sub (x y : series) : res series := ps_addsub_visit (series_sub KO CO PO TO) x y.
(** The result is the new value of x; [aliased]: &x == &y. *)
Definition ps_in_place_addsub (sign : bool) (x : series) (aliased : bool) (y : series) : res series :=
  ps_addsub_visit (fun a b => series_in_place_addsub KO CO PO CO PO TO sign (fun c => c) a aliased b) x y.

(** power_series.hpp:992-1006, 1143-1157: algorithm 1, one operand is a scalar. *)
Definition ps_addsub_scalar (sign : bool) (x : series) (c : C) : res series :=
  ret <- series_addsub_scalar KO CO PO sign x c ;; ps_truncate ret.
(** power_series.hpp:992-1006, 1143-1157 (with the previous definition). *)
Definition scalar_addsub_ps (sign : bool) (c : C) (y : series) : res series :=
  ret <- scalar_addsub_series KO CO PO sign c y ;; ps_truncate ret.

(** power_series.hpp:1284-1367: [series_mul]. *)
Definition mul_limited (tg : trunc_t) (x y : series) : res series :=
  match tg with
  | no_truncation => poly_mul_switch KO CO PO TO E None x y
  | total_truncation d => ret <- poly_mul_switch KO CO PO TO E (Some (tr_total KO tD tD d)) x y ;; Ok (set_tag ret tg)
  | partial_truncation d s => ret <- poly_mul_switch KO CO PO TO E (Some (tr_partial KO tD tD d s)) x y ;; Ok (set_tag ret tg)
  end.
(** power_series.hpp:1284-1367 (with the previous definition). *)
Definition ps_mul (x y : series) : res series :=
  match s_tag x, s_tag y with
  | no_truncation, no_truncation => mul_limited no_truncation x y
  | total_truncation d, total_truncation e => if negb (d =? e) then Throw invalid_argument else mul_limited (s_tag x) x y
  | partial_truncation d s, partial_truncation e u => if negb ((d =? e) && ss_eqb s u) then Throw invalid_argument else mul_limited (s_tag x) x y
  | no_truncation, _ => mul_limited (s_tag y) x y
  | _, no_truncation => mul_limited (s_tag x) x y
  | _, _ => Throw invalid_argument
  end.

(** power_series.hpp:1371-1386: [pow]; the operator* of the powers is [ps_mul]. *)
Definition ps_pow (cpow : C -> res C) (kn : option Z) (e_is_zero : bool) (un : option nat) (m : @pow_cache K C trunc_t) (x : series)
  : res series * @pow_cache K C trunc_t :=
  let '(r, m') := pow_poly_impl KO CO PO TO ps_mul cpow kn e_is_zero un m x in
  (ret <- r ;; ps_truncate (set_tag ret (s_tag x)), m').

(** power_series.hpp:1411-1440: [diff] is that of polynomials, [integrate] truncates the integral. *)
Definition ps_diff (cz : Z -> C) (x : series) (s : string) : res series := poly_diff KO CO PO TO cz x s.
(** power_series.hpp:1411-1440 (with the previous definition). *)
Definition ps_integrate (cdiv : C -> Z -> res C) (x : series) (s : string) : res series :=
  ret <- poly_integrate KO CO PO TO cdiv x s ;; ps_truncate ret.
End PS.

(** * Generators *)
Section Gen.
Context {K C Tag : Type} (KO : key_ops K) (CO : cf_ops C) (PO : tbl_policy (K * C)) (TO : tag_ops Tag) (k_of_ints : list Z -> res K).
Notation series := (series K C Tag).

(** The exponents [tmp] for the generator s: a one at its position in the symbol set (polynomial.hpp:175-178). *)
Definition gen_exps (ss : symbol_set) (s : string) : list Z := map (fun z => if String.eqb z s then 1 else 0) ss.

(** polynomial.hpp:197-222 (and power_series.hpp:580-604): one generator, over its own symbol.  [k_of_ints] is the constructor of the key from
    a range of ints. *)
Definition make_generator (s : string) : res series :=
  retval <- set_symbol_set (series_default TO) [s] ;;
  k <- k_of_ints [1] ;;
  add_term KO CO PO true retval k (c_one CO).
(** polynomial.hpp:139-195 (and power_series.hpp:607-662): one generator, over a given symbol set. *)
Definition make_generator_ss (ss : symbol_set) (s : string) : res series :=
  retval <- set_symbol_set (series_default TO) ss ;;
  if negb (existsb (String.eqb s) ss) then Throw invalid_argument
  else
    k <- k_of_ints (gen_exps ss s) ;;
    add_term KO CO PO true retval k (c_one CO).
(** One generator for each name, in order. *)
Definition make_polynomials (names : list string) : res (list series) := rmap make_generator names.
Definition make_polynomials_ss (ss : symbol_set) (names : list string) : res (list series) := rmap (make_generator_ss ss) names.
End Gen.

Section GenPS.
Context {K C : Type} (KO : key_ops K) (CO : cf_ops C) (PO : tbl_policy (K * C)) (tD : ity) (k_of_ints : list Z -> res K).
Notation series := (series K C trunc_t).
(** Discards the value that a throwing call leaves behind. *)
Definition outcome (p : res unit * series) : res series := _ <- fst p ;; Ok (snd p).

(** power_series.hpp:679-884: generators with a truncation; the limit is converted first, [tss] are the symbols of a partial
    truncation, [ss] the symbol set of the generators, if given. *)
Definition make_p_series_one (ss : option symbol_set) (s : string) : res series :=
  match ss with
  | None => make_generator KO CO PO ps_tag_ops k_of_ints s
  | Some u => make_generator_ss KO CO PO ps_tag_ops k_of_ints u s
  end.
(** power_series.hpp:679-884 (with the previous definition). *)
Definition make_p_series (ss : option symbol_set) (names : list string) : res (list series) := rmap (make_p_series_one ss) names.
(** power_series.hpp:679-884 (with the previous definition). *)
Definition make_p_series_t (ss : option symbol_set) (tV : ity) (d : Z) (names : list string) : res (list series) :=
  deg <- safe_cast_int tD tV d ;;
  rmap (fun s => x <- make_p_series_one ss s ;; outcome (set_truncation KO tD tD deg x)) names.
(** power_series.hpp:679-884 (with the previous definition). *)
Definition make_p_series_p (ss : option symbol_set) (tV : ity) (d : Z) (tss : symbol_set) (names : list string) : res (list series) :=
  deg <- safe_cast_int tD tV d ;;
  rmap (fun s => x <- make_p_series_one ss s ;; outcome (set_truncation_p KO tD tD deg tss x)) names.
End GenPS.
