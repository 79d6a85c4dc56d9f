(** The types of degrees, truncations, powers, evaluations, substitutions, derivatives and integrals of series: the compile-time algorithm selection of
    series.hpp, polynomial.hpp and packed_monomial.hpp, on top of [TypeModel].  The operations on non-series types and on keys are tables.  Simplifications:
    those of [TypeModel]; exponents of powers and bounds of truncations are non-series types; the customisation points (power series) are not taken. *)
From Coq Require Import ZArith List Bool Arith.
From Verif Require Import TypeModel.
Import ListNotations.

(** What the compiler knows of the non-series types and the key types. *)
Record tbl2 (B K : Type) := Tbl2 {
  d_deg : B -> option B;        (* detail::degree_t of a non-series type *)
  d_kdeg : K -> option B;       (* detail::key_degree_t *)
  d_less : B -> B -> bool;      (* is_less_than_comparable *)
  d_dreq : B -> bool;           (* series_default_degree_type_common_reqs *)
  d_pow : B -> B -> option B;   (* detail::pow_t *)
  d_conv : B -> bool;           (* is_safely_convertible to unsigned *)
  d_kexp : K -> option B;       (* the type of the exponents of a monomial *)
  d_iadd : B -> B -> bool;      (* is_in_place_addable *)
  d_req : B -> bool;            (* is_returnable and is_semi_regular *)
  d_diff : B -> option B;       (* detail::diff_t *)
  d_kdiff : K -> option B;      (* the first type of monomial_diff_t *)
  d_kint : K -> option B        (* the first type of monomial_integrate_t *)
}.
Arguments d_deg {B K}. Arguments d_kdeg {B K}. Arguments d_less {B K}. Arguments d_dreq {B K}. Arguments d_pow {B K}. Arguments d_conv {B K}. Arguments d_kexp {B K}.
Arguments d_iadd {B K}. Arguments d_req {B K}. Arguments d_diff {B K}. Arguments d_kdiff {B K}. Arguments d_kint {B K}.

Section T.
Context {B K G : Type} (M : tbl B K G) (D : tbl2 B K).
Notation ty := (ty B K G).
(** std::is_constructible<T, int>: for a series, algorithm 1 of series.hpp:428-433. *)
Fixpoint from_int (x : ty) : bool := match x with TB b => t_int M b | TS _ c _ => from_int c end.
(** is_returnable and is_semi_regular: every series is. *)
Definition returnable (x : ty) : bool := match x with TB b => d_req D b | TS _ _ _ => true end.
(** is_in_place_addable; series.hpp:2583-2668. *)
Definition iadd (x y : ty) : bool := match x, y with TB a, TB b => d_iadd D a b | _, _ => negb (in_place_algo M (t_add M) x y =? 0) end.
(** is_in_place_multipliable; series.hpp:3200-3207. *)
Definition imul (x y : ty) : bool := match x, y with TB a, TB b => t_imul M a b | _, _ => match mul M x y with Some r => ctor M x r | None => false end end.
(** polynomial.hpp:100-118: [is_polynomial]. *)
Definition is_poly (x : ty) : bool := match x with TB _ => false | TS _ _ t => t_poly M t end.

(** series.hpp:3589-3650: [series_default_degree_algorithm_impl]: the type of the degree (None: there is none), and the number of the algorithm.  Partial degrees are
    computed by the same algorithm over another table. *)
Fixpoint degree_ty (x : ty) : option B :=
  match x with
  | TB b => d_deg D b
  | TS k c _ =>
    match degree_ty c, d_kdeg D k with
    | None, None => None
    | Some dc, Some dk => match t_add M dk dc with Some d => if d_dreq D d then Some d else None | None => None end
    | Some d, None | None, Some d => if d_dreq D d then Some d else None
    end
  end.
Definition degree_algo (x : ty) : nat :=
  match x with
  | TB _ => 0
  | TS k c _ => match degree_ty x with None => 0 | Some _ => match degree_ty c, d_kdeg D k with Some _, Some _ => 1 | Some _, None => 2 | None, _ => 3 end end
  end.
(** polynomial.hpp:2325-2355 and 2387-2417: [poly_truncate_degree_algorithm_impl]: truncate_degree(x, u) exists. *)
Definition truncatable (x : ty) (u : B) : bool :=
  is_poly x && (if degree_algo x =? 3 then match degree_ty x with Some d => d_less D u d | None => false end else false).
(** polynomial.hpp:2042-2098: [poly_mul_truncated_degree_algorithm_impl]: truncated_mul(x, y, u) exists; the operands are polynomials with the same key and tag. *)
Definition truncated_mul_ok (x y : ty) (u : B) : bool :=
  match x, y with
  | TS k _ t, TS k' _ t' =>
    t_keq M k k' && t_geq M t t' && is_poly x && (rank x =? rank y) && match mul M x y with
    | None => false
    | Some _ => if (degree_algo x =? 3) && (degree_algo y =? 3) then match degree_ty x, degree_ty y with
      | Some d1, Some d2 => match t_add M d1 d2 with Some d => d_less D u d | None => false end
      | _, _ => false end else false
    end
  | _, _ => false
  end.

(** math/pow.hpp:51-85 and series.hpp:1720-1761: [series_default_pow_algorithm_impl]; polynomial.hpp:2178-2183 has the same result type. *)
Fixpoint pow_ty (x : ty) (e : B) : option ty :=
  match x with
  | TB b => option_map TB (d_pow D b e)
  | TS k c t => match pow_ty c e with
    | Some r => if from_int c && is_cf M r && from_int r && t_zt M e then Some (TS k r t) else None
    | None => None end
  end.
(** series.hpp:1809-1813: powers of non-constant series are computed (by repeated multiplications); if not, pow() throws. *)
Definition pow_repeats (x : ty) (e : B) : bool :=
  match x with
  | TB _ => false
  | TS _ c _ => d_conv D e && match mul M x x, pow_ty x e with Some m, Some r => ty_eqb M x m && ty_eqb M x r | _, _ => false end && eqc M c c
  end.

(** packed_monomial.hpp:565-604, 636-647, d_packed_monomial.hpp:1040-1064: [pm_key_evaluate_algorithm_impl], of key_evaluate() and monomial_subs(). *)
Definition key_eval (k : K) (u : ty) : option ty :=
  match d_kexp D k with
  | Some e => match pow_ty u e with Some r => if from_int r && imul r r && returnable r then Some r else None | None => None end
  | None => None
  end.
(** series.hpp:3952-3991: [series_default_evaluate_algorithm_impl], math/evaluate.hpp:61-63: when no implementation applies, the argument is returned. *)
Fixpoint evaluate_ty (u x : ty) : ty :=
  match x with
  | TB _ => x
  | TS k c _ => match key_eval k u with
    | Some ke => match mul M ke (evaluate_ty u c) with Some r => if iadd r r && from_int r && returnable r then r else x | None => x end
    | None => x end
  end.
(** polynomial.hpp:2192-2236: [poly_subs_algorithm_impl], 2311-2316, math/subs.hpp:47-49: when no implementation applies, the argument is returned. *)
Fixpoint subs_ty (u x : ty) : ty :=
  match x with
  | TB _ => x
  | TS k c t => if t_poly M t then match key_eval k u with
    | Some ke => match mul M ke (subs_ty u c) with
      | Some p => match mul M p x with Some r => if iadd r r && from_int c then r else x | None => x end
      | None => x end
    | None => x end else x
  end.

(** math/diff.hpp:55-91, polynomial.hpp:2452-2521: [poly_diff_algorithm_impl], 2646-2651. *)
Fixpoint diff_ty (x : ty) : option ty :=
  match x with
  | TB b => option_map TB (d_diff D b)
  | TS k c t => if t_poly M t then match diff_ty c, d_kdiff D k with
    | Some dc, Some dk => match mul M c (TB dk) with
      | Some p1 =>
        if ty_eqb M dc c && ty_eqb M p1 c then Some x
        else match mul M dc x, mul M p1 x with
        | Some p2, Some p3 => match addsub M (t_add M) p2 p3 with Some s => if iadd s s && iadd s p2 && from_int s && from_int c then Some s else None | None => None end
        | _, _ => None end
      | None => None end
    | _, _ => None end else None
  end.
(** polynomial.hpp:2662-2724: [poly_integrate_algorithm_impl]; non-series types cannot be integrated (math/integrate.hpp). *)
Definition integrate_ty (x : ty) : option ty :=
  match x with
  | TB _ => None
  | TS k c t => if t_poly M t && t_merge M k then match diff_ty c, d_kint D k with
    | Some dc, Some ki => match div M c (TB ki) with
      | Some q =>
        if zero_testable M dc && ty_eqb M q c then Some x
        else match mul M q x with Some r => if iadd r r && from_int r && from_int c && zero_testable M dc then Some r else None | None => None end
      | None => None end
    | _, _ => None end else None
  end.
End T.
