(** Model of the integral helpers:
    include/obake/detail/safe_integral_arith.hpp, include/obake/math/safe_convert.hpp,
    include/obake/math/safe_cast.hpp and src/detail/to_string.cpp. *)
From Coq Require Import ZArith List Bool Ascii String.
From Verif Require Import Base.
Import ListNotations.
Open Scope Z_scope.

(** The C++ integral types: bool is the one-bit unsigned type; the others have
    8, 16, 32, 64 or 128 bits (include/obake/type_traits.hpp, [integral]). *)
Definition cbool : ity := Ity 1 false.
Definition is_bool (t : ity) : bool := bits t =? 1.

(** Integral promotion ([conv.prom]): types narrower than int become int. *)
Definition promote (t : ity) : ity := if bits t <? 32 then int32 else t.

(** Usual arithmetic conversions ([expr.arith.conv]) for two promoted types;
    ranks are represented by widths. *)
Definition common (t u : ity) : ity :=
  let t := promote t in
  let u := promote u in
  if Bool.eqb (sgnd t) (sgnd u) then (if bits t <? bits u then u else t)
  else
    let s := if sgnd t then t else u in
    let n := if sgnd t then u else t in
    if bits s <=? bits n then n else s.

(** Built-in comparison [a <= b] (resp. [<]) of operands of types t and u. *)
Definition cle (t u : ity) (a b : Z) : bool := wrap (common t u) a <=? wrap (common t u) b.
Definition clt (t u : ity) (a b : Z) : bool := wrap (common t u) a <? wrap (common t u) b.

(** include/obake/detail/safe_integral_arith.hpp:64-81: [safe_int_add] with
    compiler builtins.  Simplification: __builtin_add_overflow is represented by
    its documented meaning (infinite precision sum, overflow iff it does not fit). *)
Definition safe_int_add_builtin (t : ity) (a b : Z) : res Z :=
  if in_ity t (a + b) then Ok (a + b) else Throw overflow_error.

(** include/obake/detail/safe_integral_arith.hpp:83-95: [safe_int_sub] with
    compiler builtins (same remark). *)
Definition safe_int_sub_builtin (t : ity) (a b : Z) : res Z :=
  if in_ity t (a - b) then Ok (a - b) else Throw overflow_error.

(** include/obake/detail/safe_integral_arith.hpp:100-120: [safe_int_add_impl],
    the portable implementation; arithmetic happens in the promoted type. *)
Definition safe_int_add_impl (t : ity) (a b : Z) : res Z :=
  let p := promote t in
  if sgnd t
  then
    _u <- (if 0 <=? b
          then d <- arith p (imax t - b) ;; if d <? a then Throw overflow_error else Ok tt
          else d <- arith p (imin t - b) ;; if a <? d then Throw overflow_error else Ok tt) ;;
    s <- arith p (a + b) ;; Ok (wrap t s)
  else
    d <- arith p (imax t - b) ;;
    if clt p t d a then Throw overflow_error
    else s <- arith p (a + b) ;; Ok (wrap t s).

(** include/obake/detail/safe_integral_arith.hpp:123-143: [safe_int_sub_impl]. *)
Definition safe_int_sub_impl (t : ity) (a b : Z) : res Z :=
  let p := promote t in
  if sgnd t
  then
    _u <- (if b <=? 0
          then d <- arith p (imax t + b) ;; if d <? a then Throw overflow_error else Ok tt
          else d <- arith p (imin t + b) ;; if a <? d then Throw overflow_error else Ok tt) ;;
    s <- arith p (a - b) ;; Ok (wrap t s)
  else
    if a <? b then Throw overflow_error
    else s <- arith p (a - b) ;; Ok (wrap t s).

(** include/obake/detail/safe_integral_arith.hpp:166-184: the specialisations
    for bool ((a + b) != 0 is computed in int). *)
Definition safe_int_add_bool (a b : Z) : res Z :=
  if negb (a =? 0) && negb (b =? 0) then Throw overflow_error
  else s <- arith int32 (a + b) ;; Ok (if s =? 0 then 0 else 1).
(** include/obake/detail/safe_integral_arith.hpp:166-184 (with the previous definition). *)
Definition safe_int_sub_bool (a b : Z) : res Z :=
  if (a =? 0) && negb (b =? 0) then Throw overflow_error
  else s <- arith int32 (a - b) ;; Ok (if s =? 0 then 0 else 1).

(** include/obake/detail/safe_integral_arith.hpp:62-184: [safe_int_add] and
    [safe_int_sub] as selected by the preprocessor ([builtins]) and by overload
    resolution (bool). *)
Definition safe_int_add (builtins : bool) (t : ity) (a b : Z) : res Z :=
  if is_bool t then safe_int_add_bool a b
  else if builtins then safe_int_add_builtin t a b else safe_int_add_impl t a b.
(** include/obake/detail/safe_integral_arith.hpp:62-184 (with the previous definition). *)
Definition safe_int_sub (builtins : bool) (t : ity) (a b : Z) : res Z :=
  if is_bool t then safe_int_sub_bool a b
  else if builtins then safe_int_sub_builtin t a b else safe_int_sub_impl t a b.

(** The type in which the limits of T (resp. the value of type U) are compared:
    bool is first turned into unsigned (include/obake/math/safe_convert.hpp:48-71). *)
Definition unbool (t : ity) : ity := if is_bool t then uint32 else t.

(** include/obake/math/safe_convert.hpp:41-97: [safe_convert] between C++
    integrals; [out] is the destination's previous value, the result is the
    returned flag and the destination's final value. *)
Definition safe_convert_int (t u : ity) (out n : Z) : bool * Z :=
  let tt := unbool t in
  let uu := unbool u in
  let Tmin := imin t in
  let Tmax := imax t in
  if Bool.eqb (sgnd t) (sgnd u)
  then
    if cle tt uu Tmin n && cle uu tt n Tmax then (true, wrap t n) else (false, out)
  else if sgnd t
  then
    if cle uu (unsigned_of t) n (wrap (unsigned_of t) Tmax) then (true, wrap t n) else (false, out)
  else
    if (n <? 0) || clt tt (unsigned_of u) Tmax (wrap (unsigned_of u) n)
    then (false, out)
    else (true, wrap t n).

(** include/obake/math/safe_convert.hpp:100-105: multiprecision integer from integral. *)
Definition safe_convert_bigint_int (out m : Z) : bool * Z := (true, m).

(** include/obake/math/safe_convert.hpp:107-111: integral from multiprecision
    integer; mppp::get is represented by its documented contract (the
    destination is written iff the value is representable). *)
Definition safe_convert_int_bigint (t : ity) (out m : Z) : bool * Z :=
  if in_ity t m then (true, m) else (false, out).

(** Multiprecision rationals: numerator and positive denominator, kept in
    lowest terms by mp++ (third-party library). *)
Record rational : Type := Rational { num : Z; den : Z }.

(** include/obake/math/safe_convert.hpp:117-126: integer from rational. *)
Definition safe_convert_bigint_rat (out : Z) (q : rational) : bool * Z :=
  if den q =? 1 then (true, num q) else (false, out).

(** include/obake/math/safe_convert.hpp:128-133: rational from integer. *)
Definition safe_convert_rat_bigint (out : rational) (n : Z) : bool * rational := (true, Rational n 1).

(** include/obake/math/safe_convert.hpp:136-144: integral from rational. *)
Definition safe_convert_int_rat (t : ity) (out : Z) (q : rational) : bool * Z :=
  if den q =? 1 then safe_convert_int_bigint t out (num q) else (false, out).

(** include/obake/math/safe_cast.hpp:45-63: [safe_cast] between integrals
    (the destination is value-initialised). *)
Definition safe_cast_int (t u : ity) (n : Z) : res Z :=
  let '(ok, v) := safe_convert_int t u 0 n in
  if ok then Ok v else Throw safe_cast_failure.

(** include/obake/detail/limits.hpp:57-68: digits10 of the integral types
    (std::numeric_limits for the standard types, 38 for the 128-bit ones). *)
Definition digits10 (t : ity) : nat :=
  if bits t =? 8 then 2%nat
  else if bits t =? 16 then 4%nat
  else if bits t =? 32 then 9%nat
  else if bits t =? 64 then (if sgnd t then 18%nat else 19%nat)
  else 38%nat.

(** src/detail/to_string.cpp:53, 115: '0' + n % 10. *)
Definition digit_char (d : Z) : ascii := ascii_of_nat (48 + Z.to_nat d).

(** Writing to a stack buffer of [cap] bytes at position [len] = number of
    characters written so far; the buffer is kept in reverse order of writing.
    Out-of-bounds writes are undefined behaviour. *)
Definition buf_push (cap : nat) (buf : list ascii) (c : ascii) : res (list ascii) :=
  if (List.length buf <? cap)%nat then Ok (c :: buf) else UB.

(** src/detail/to_string.cpp:51-55, 113-117: while (n) buffer[len++] = ...;
    [fuel] bounds the number of iterations, running out of it counts as UB (the
    theorem shows it does not happen). *)
Fixpoint to_string_loop (fuel cap : nat) (n : Z) (buf : list ascii) : res (list ascii) :=
  match fuel with
  | O => UB
  | S f =>
      if n =? 0 then Ok buf
      else b <- buf_push cap buf (digit_char (n mod 10)) ;; to_string_loop f cap (n / 10) b
  end.

(** src/detail/to_string.cpp:26-64: unsigned integrals. *)
Definition to_string_unsigned (t : ity) (n : Z) : res string :=
  b <- to_string_loop (S (Z.to_nat (bits t))) (digits10 t + 1) n [] ;;
  match b with
  | [] => Ok "0"%string
  | _ => Ok (string_of_list_ascii b)
  end.

(** src/detail/to_string.cpp:87-105: absolute value through unsigned negation. *)
Definition abs_unsigned (t : ity) (n : Z) : res Z :=
  let negative := n <? 0 in
  if bits t <? 32
  then
    let un := wrap uint32 n in
    m <- (if negative then arith uint32 (- un) else Ok un) ;; Ok (wrap (unsigned_of t) m)
  else
    let un := wrap (unsigned_of t) n in
    if negative then arith (unsigned_of t) (- un) else Ok un.

(** src/detail/to_string.cpp:75-130: signed integrals. *)
Definition to_string_signed (t : ity) (n : Z) : res string :=
  m <- abs_unsigned t n ;;
  b <- to_string_loop (S (Z.to_nat (bits t))) (digits10 t + 2) m [] ;;
  match b with
  | [] => Ok "0"%string
  | _ =>
      b' <- (if n <? 0 then buf_push (digits10 t + 2) b "-"%char else Ok b) ;;
      Ok (string_of_list_ascii b')
  end.

(** src/detail/to_string.cpp:138-146. *)
Definition to_string (t : ity) (n : Z) : res string :=
  if sgnd t then to_string_signed t n else to_string_unsigned t n.
