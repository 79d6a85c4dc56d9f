(** The types of sums, differences, products, quotients, conversions and comparisons of series: the compile-time algorithm selection of series.hpp and
    polynomial.hpp.  The operations on non-series types are tables.  Simplifications: value categories and cv-qualifiers are dropped (constructible from a type
    means from const lvalues and rvalues of it); the customisation points (power series) are not taken; the requirements of [is_cf] that concern streams,
    negation and semi-regularity hold of every series. *)
From Coq Require Import ZArith List Bool Arith.
Import ListNotations.

(** series.hpp:144-145: a type is a non-series type or series<K, C, Tag>. *)
Inductive ty (B K G : Type) := TB (b : B) | TS (k : K) (c : ty B K G) (t : G).
Arguments TB {B K G} b. Arguments TS {B K G} k c t.

(** What the compiler knows of the non-series types, the key types and the tags. *)
Record tbl (B K G : Type) := Tbl {
  t_beq : B -> B -> bool; t_keq : K -> K -> bool; t_geq : G -> G -> bool;  (* std::is_same *)
  t_add : B -> B -> option B; t_sub : B -> B -> option B; t_mul : B -> B -> option B; t_div : B -> B -> option B;  (* add_t, sub_t, mul_t, div_t *)
  t_ctor : B -> B -> bool;   (* std::is_constructible<first, second> *)
  t_int : B -> bool;         (* std::is_constructible<T, int> *)
  t_imul : B -> B -> bool; t_idiv : B -> B -> bool;  (* is_in_place_multipliable, is_in_place_divisible *)
  t_eqc : B -> B -> bool;    (* is_equality_comparable *)
  t_zt : B -> bool;          (* is_zero_testable *)
  t_cf : B -> bool;          (* is_cf *)
  t_merge : K -> bool;       (* is_symbols_mergeable_key *)
  t_mmul : K -> bool;        (* is_multipliable_monomial *)
  t_poly : G -> bool         (* the tag of polynomials *)
}.
Arguments t_beq {B K G}. Arguments t_keq {B K G}. Arguments t_geq {B K G}. Arguments t_add {B K G}. Arguments t_sub {B K G}. Arguments t_mul {B K G}. Arguments t_div {B K G}.
Arguments t_ctor {B K G}. Arguments t_int {B K G}. Arguments t_imul {B K G}. Arguments t_idiv {B K G}. Arguments t_eqc {B K G}. Arguments t_zt {B K G}. Arguments t_cf {B K G}.
Arguments t_merge {B K G}. Arguments t_mmul {B K G}. Arguments t_poly {B K G}.

Section T.
Context {B K G : Type} (M : tbl B K G).
Notation ty := (ty B K G).
(** series.hpp:150-162: [series_rank]; its overflow check cannot fail. *)
Fixpoint rank (x : ty) : nat := match x with TB _ => 0 | TS _ c _ => S (rank c) end.
(** std::is_same. *)
Fixpoint ty_eqb (x y : ty) : bool := match x, y with TB a, TB b => t_beq M a b | TS k c t, TS k' c' t' => t_keq M k k' && ty_eqb c c' && t_geq M t t' | _, _ => false end.
(** series.hpp:116-124: [is_cf]; a series is in-place addable to itself if its key is symbol-mergeable (2649-2658). *)
Definition is_cf (x : ty) : bool := match x with TB b => t_cf M b | TS k _ _ => t_merge M k end.
(** series.hpp:1901, math/is_zero.hpp. *)
Definition zero_testable (x : ty) : bool := match x with TB b => t_zt M b | TS _ _ _ => true end.
(** series.hpp:409-455: [series_generic_ctor_algorithm_impl], and 472-475: [is_series_convertible]; a type is constructible from itself (420). *)
Fixpoint ctor (to : ty) : ty -> bool :=
  fix go (from : ty) : bool :=
  match to with
  | TB a => match from with TB b => t_ctor M a b | TS _ c _ => t_int M a && go c end
  | TS k c t =>
    if ty_eqb from to then true
    else if rank from <? rank to then ctor c from
    else match from with
         | TS k' c' _ => if rank from =? rank to then t_keq M k' k && ctor c c' else go c'
         | TB _ => false
         end
  end.
(** series.hpp:420-454: the number of the algorithm; 0: none. *)
Definition ctor_algo (to from : ty) : nat :=
  match to with TB _ => 0 | TS _ _ _ => if ty_eqb from to then 0 else if negb (ctor to from) then 0 else if rank from <? rank to then 1 else if rank from =? rank to then 2 else 3 end.

(** series.hpp:2220-2324: [series_default_addsub_algorithm_impl]: the algorithm and the type of the result; [op] is [t_add] or [t_sub]. *)
Section AddSub.
Context (op : B -> B -> option B).
Fixpoint addsub (x : ty) : ty -> option ty :=
  fix go (y : ty) : option ty :=
  match x, y with
  | TB a, TB b => option_map TB (op a b)
  | _, _ =>
    if rank x <? rank y then
      match y with
      | TS k c t => match go c with
        | Some rc => if is_cf rc && ctor (TS k rc t) y && ctor rc x then Some (TS k rc t) else None
        | None => None end
      | TB _ => None end
    else match x with
      | TS k c t =>
        if rank y <? rank x then
          match addsub c y with
          | Some rc => if is_cf rc && ctor (TS k rc t) x && ctor rc y then Some (TS k rc t) else None
          | None => None end
        else match y with
          | TS k' c' t' => match addsub c c' with
            | Some rc => if t_keq M k k' && t_geq M t t' && is_cf rc && (ctor (TS k rc t) x && ctor (TS k rc t) y && ctor rc c && ctor rc c' && t_merge M k) then Some (TS k rc t) else None
            | None => None end
          | TB _ => None end
      | TB _ => None end
  end.
Definition addsub_algo (x y : ty) : nat :=
  if (rank x =? 0) && (rank y =? 0) then 0 else match addsub x y with None => 0 | Some _ => if rank x <? rank y then 1 else if rank y <? rank x then 2 else 3 end.
(** series.hpp:2583-2668: [series_default_in_place_addsub_algorithm_impl] (a non-const left operand); the result is a reference to it. *)
Definition in_place_algo (x y : ty) : nat :=
  match x with
  | TB _ => 0
  | TS k c t =>
    if rank x <? rank y then match addsub x y with Some r => if ctor x r then 1 else 0 | None => 0 end
    else if rank y <? rank x then if ctor c y then 2 else 0
    else match y with TS k' c' t' => if t_keq M k k' && t_geq M t t' && ctor c c' && t_merge M k then 3 else 0 | TB _ => 0 end
  end.
End AddSub.

(** series.hpp:3021-3086: [series_default_mul_algorithm_impl], polynomial.hpp:312-371: [poly_mul_algorithm_impl], 2026-2034: series_mul for polynomials, and
    series.hpp:3200-3207: the in-place product ([imul]), which the default algorithm asks of the coefficients.  The recursion is on a bound on the sum of the ranks. *)
Fixpoint mul_n (n : nat) (x y : ty) : option ty :=
  match n with
  | O => None
  | S n =>
    let imul (c z : ty) := match c, z with
      | TB a, TB b => t_imul M a b
      | _, _ => match mul_n n c z with Some r => ctor c r | None => false end end in
    match x, y with
    | TB a, TB b => option_map TB (t_mul M a b)
    | _, _ =>
      if rank x =? rank y then
        match x, y with
        | TS k c t, TS k' c' t' =>
          if t_keq M k k' && (t_poly M t && t_poly M t') then
            match mul_n n c c' with
            | Some rc => if is_cf rc && t_merge M k && t_mmul M k then Some (TS k rc t) else None
            | None => None end
          else None
        | _, _ => None end
      else if negb (zero_testable x) || negb (zero_testable y) then None
      else if rank x <? rank y then
        match y with
        | TS k c t => match mul_n n x c with
          | Some rc => if is_cf rc && ctor (TS k rc t) y && imul rc x then Some (TS k rc t) else None
          | None => None end
        | TB _ => None end
      else match x with
        | TS k c t => match mul_n n c y with
          | Some rc => if is_cf rc && ctor (TS k rc t) x && imul rc y then Some (TS k rc t) else None
          | None => None end
        | TB _ => None end
    end
  end.
Definition mul (x y : ty) : option ty := mul_n (S (rank x + rank y)) x y.

(** series.hpp:3237-3278: [series_default_div_algorithm_impl], 3356-3363: the in-place quotient. *)
Fixpoint div_n (n : nat) (x y : ty) : option ty :=
  match n with
  | O => None
  | S n =>
    let idiv (c z : ty) := match c, z with
      | TB a, TB b => t_idiv M a b
      | _, _ => match div_n n c z with Some r => ctor c r | None => false end end in
    match x, y with
    | TB a, TB b => option_map TB (t_div M a b)
    | TS k c t, _ =>
      if rank y <? rank x then
        match div_n n c y with
        | Some rc => if is_cf rc && ctor (TS k rc t) x && idiv rc y then Some (TS k rc t) else None
        | None => None end
      else None
    | _, _ => None
    end
  end.
Definition div (x y : ty) : option ty := div_n (S (rank x + rank y)) x y.

(** series.hpp:3387-3436: [series_equal_to_algorithm_impl]: comparability; the operands are exchanged when the left one has the higher rank (3410-3416). *)
Fixpoint eqc_n (n : nat) (x y : ty) : bool :=
  match n with
  | O => false
  | S n =>
    match x, y with
    | TB a, TB b => t_eqc M a b
    | _, _ =>
      if rank x <? rank y then match y with TS _ c _ => zero_testable x && eqc_n n x c | TB _ => false end
      else if rank y <? rank x then match x with TS _ c _ => zero_testable y && eqc_n n y c | TB _ => false end
      else match x, y with TS k c t, TS k' c' t' => t_keq M k k' && t_geq M t t' && (t_merge M k && eqc_n n c c') | _, _ => false end
    end
  end.
Definition eqc (x y : ty) : bool := eqc_n (S (rank x + rank y)) x y.
End T.
