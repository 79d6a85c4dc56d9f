(** Printing of monomials, symbol sets, series and truncations.
    Simplifications: streams have default formatting flags and do not fail, so writing to a stream appends to a string; integers are written in decimal. *)
From Coq Require Import ZArith List Bool String Ascii DecimalString.
From Verif Require Import Base KpackModel IntModel SymModel PMonModel DPMModel KeyOps SeriesModel PSModel.
Import ListNotations.
Open Scope Z_scope.
Open Scope res_scope.
Local Open Scope string_scope.

(** os << n for an integer n. *)
Definition z_string (n : Z) : string := NilZero.string_of_int (Z.to_int n).

(** src/symbols.cpp:42-56: [to_string] of a symbol set. *)
Fixpoint ss_items (s : symbol_set) : string :=
  match s with
  | [] => ""
  | [x] => "'" ++ x ++ "'"
  | x :: s' => "'" ++ x ++ "'" ++ ", " ++ ss_items s'
  end.
Definition ss_string (s : symbol_set) : string := "{" ++ ss_items s ++ "}".

(** * Monomials *)
(** The state of the loops: the text so far and wrote_something. *)
Definition stream_factor (s : symbol_set) (st : string * bool) (i : nat) (tmp : Z) : res (string * bool) :=
  let '(os, wrote_something) := st in
  if negb (tmp =? 0)%Z
  then
    x <- rd s i ;;
    let os1 := if wrote_something then os ++ "*" else os in
    let os2 := os1 ++ x in
    Ok (if negb (tmp =? 1)%Z then os2 ++ "**" ++ z_string tmp else os2, true)
  else Ok (os, wrote_something).
Definition stream_end (st : string * bool) : string := if snd st then fst st else fst st ++ "1".
(** src/polynomials/packed_monomial.cpp:43-84: [packed_monomial_stream_insert]. *)
Definition pm_stream (D : kdata) (p : Z) (s : symbol_set) : res string :=
  ku <- kunpacker_new D p (List.length s) ;;
  st <- unpack_loop D (List.length s) 0 ku (stream_factor s) ("", false) ;;
  Ok (stream_end st).
(** d_packed_monomial.hpp:329-375: [key_stream_insert]. *)
Definition dpm_stream (D : kdata) (ps : nat) (d : dpm) (s : symbol_set) : res string :=
  st <- dpm_read D ps (dpm_lt (List.length s)) (stream_factor s) d 0 ("", false) ;;
  Ok (stream_end st).

(** The state of the TeX loops: numerator and denominator. *)
Definition tex_factor (s : symbol_set) (st : string * string) (i : nat) (tmp : Z) : res (string * string) :=
  let '(num, den) := st in
  if (tmp =? 0)%Z then Ok (num, den)
  else
    x <- rd s i ;;
    let tmp_mp := if (0 <? tmp)%Z then tmp else (- tmp)%Z in
    let txt := "{" ++ x ++ "}" ++ (if negb (tmp_mp =? 1)%Z then "^{" ++ z_string tmp_mp ++ "}" else "") in
    Ok (if (0 <? tmp)%Z then (num ++ txt, den) else (num, den ++ txt)).
Definition tex_end (st : string * string) : string :=
  let '(num, den) := st in
  if negb (num =? "") && negb (den =? "") then "\frac{" ++ num ++ "}{" ++ den ++ "}"
  else if negb (num =? "") && (den =? "") then num
  else if (num =? "") && negb (den =? "") then "\frac{1}{" ++ den ++ "}"
  else "1".
(** src/polynomials/packed_monomial.cpp:117-194: [packed_monomial_tex_stream_insert]. *)
Definition pm_tex (D : kdata) (p : Z) (s : symbol_set) : res string :=
  ku <- kunpacker_new D p (List.length s) ;;
  st <- unpack_loop D (List.length s) 0 ku (tex_factor s) ("", "") ;;
  Ok (tex_end st).
(** d_packed_monomial.hpp:385-461: [key_tex_stream_insert]. *)
Definition dpm_tex (D : kdata) (ps : nat) (d : dpm) (s : symbol_set) : res string :=
  st <- dpm_read D ps (dpm_lt (List.length s)) (tex_factor s) d 0 ("", "") ;;
  Ok (tex_end st).

(** * Series *)
(** s.front() == c and s.back() == c, for a string which is not empty. *)
Definition front_is (c : ascii) (s : string) : bool := match s with String d _ => Ascii.eqb d c | EmptyString => false end.
Fixpoint back_is (c : ascii) (s : string) : bool :=
  match s with
  | EmptyString => false
  | String d EmptyString => Ascii.eqb d c
  | String _ s' => back_is c s'
  end.
(** src/series.cpp:22-56: [series_stream_single_term]: the text appended to ret. *)
Definition single_term (str_cf str_key : string) (tex_mode : bool) : string :=
  let cf_is_one := str_cf =? "1" in
  let cf_is_minus_one := str_cf =? "-1" in
  let key_is_one := str_key =? "1" in
  let str_cf' :=
    if cf_is_one && negb key_is_one then ""
    else if cf_is_minus_one && negb key_is_one then "-"
    else if key_is_one && (2 <? Z.of_nat (String.length str_cf))%Z &&
            front_is "(" str_cf && back_is ")" str_cf
    then substring 1 (String.length str_cf - 2) str_cf
    else str_cf in
  str_cf' ++
  (if negb cf_is_one && negb cf_is_minus_one && negb key_is_one && negb tex_mode then "*" else "") ++
  (if negb key_is_one then str_key else "").

(** series.hpp:2050-2057: every "+-", from the left, becomes "-"; the search continues after the "-". *)
Fixpoint join_signs (s : string) : string :=
  match s with
  | EmptyString => EmptyString
  | String c s1 =>
      if Ascii.eqb c "+" then
        match s1 with
        | String d s2 => if Ascii.eqb d "-" then String "-" (join_signs s2) else String c (join_signs s1)
        | EmptyString => String c EmptyString
        end
      else String c (join_signs s1)
  end.

Section Print.
Context {K C Tag : Type}.
Notation series := (series K C Tag).
(** The texts of the coefficients and of the keys. *)
Context (cf_text : C -> res string) (key_text : K -> symbol_set -> res string).

(** series.hpp:2010-2038: the loop over the terms; [n] is limit - count.  The iteration order is that of the terms of the model. *)
Fixpoint stream_loop (tex_mode : bool) (ss : symbol_set) (n : nat) (it : list (K * C)) (ret : string) : res (string * list (K * C)) :=
  match n, it with
  | S n', (k, c) :: it' =>
      str_cf <- cf_text c ;;
      str_key <- key_text k ss ;;
      let ret1 := ret ++ single_term str_cf str_key tex_mode in
      stream_loop tex_mode ss n' it' (match it' with [] => ret1 | _ => ret1 ++ "+" end)
  | _, _ => Ok (ret, it)
  end.
Definition print_limit : nat := 50.
(** series.hpp:1987-2060: [series_stream_terms_impl]. *)
Definition stream_terms (tex_mode : bool) (s : series) : res string :=
  if series_empty s then Ok "0"
  else
    '(ret, it) <- stream_loop tex_mode (s_ss s) print_limit (terms s) "" ;;
    let ret' := match it with [] => ret | _ => ret ++ (if tex_mode then "\ldots" else "...") end in
    Ok (join_signs ret').
(** series.hpp:2081-2118: a series as the coefficient of another series, text and TeX. *)
Definition series_cf_text (tex_mode : bool) (x : series) : res string :=
  t <- stream_terms tex_mode x ;;
  Ok (if (1 <? series_size x)%nat
      then (if tex_mode then "\left(" ++ t ++ "\right)" else "(" ++ t ++ ")")
      else t).
End Print.

Definition nl : string := String "010" "".
(** power_series.hpp:313-339: operator<< of the tag. *)
Definition ps_tag_text (t : trunc_t) : string :=
  "Series type: power series" ++ nl ++
  match t with
  | no_truncation => "Truncation: none"
  | total_truncation d => "Truncation degree: " ++ z_string d
  | partial_truncation d ss => "Partial truncation degree: " ++ z_string d ++ ", " ++ ss_string ss
  end.
(** series.hpp:2145-2162: operator<< of series; [tag_text] if the tag is stream insertable; [key_name], [cf_name] and [rank] are properties of the types. *)
Definition series_text {K C Tag : Type} (cf_text : C -> res string) (key_text : K -> symbol_set -> res string) (tag_text : option (Tag -> string)) (key_name cf_name : string) (rank : Z) (s : series K C Tag) : res string :=
  t <- stream_terms cf_text key_text false s ;;
  Ok (match tag_text with Some f => f (s_tag s) ++ nl | None => "" end ++
      "Key type: " ++ key_name ++ nl ++
      "Coefficient type: " ++ cf_name ++ nl ++
      "Rank: " ++ z_string rank ++ nl ++
      "Symbol set: " ++ ss_string (s_ss s) ++ nl ++
      "Number of terms: " ++ z_string (Z.of_nat (series_size s)) ++ nl ++ t).
(** power_series.hpp:925-932: the symbols of a partial truncation in TeX. *)
Fixpoint tex_symbols (ss : symbol_set) : string :=
  match ss with
  | [] => ""
  | [x] => x
  | x :: ss' => x ++ ", " ++ tex_symbols ss'
  end.
(** power_series.hpp:897-945: TeX of a power series with integral degrees. *)
Definition ps_tex {K C : Type} (cf_text : C -> res string) (key_text : K -> symbol_set -> res string) (s : series K C trunc_t) : res string :=
  t <- stream_terms cf_text key_text true s ;;
  Ok (t ++
      match s_tag s with
      | no_truncation => ""
      | total_truncation d => " + \mathcal{O}\left( " ++ "> " ++ z_string d ++ " \right)"
      | partial_truncation d ss => " + \mathcal{O}\left( " ++ "> " ++ z_string d ++ " ; " ++ tex_symbols ss ++ " \right)"
      end).
