(** Series and power series whose coefficients have different types: comparison (series.hpp:3443-3507) and the operations of
    power_series.hpp.  The sums of series are [series_addsub] and [series_in_place_addsub] of SeriesModel.v, the products [mix_switch] of MixModel.v. *)
From Coq Require Import ZArith List Bool String Arith.
From Verif Require Import Base IntModel SymModel KeyOps SeriesModel SeriesModel2 PolyModel PolyModel2 PSModel MixModel.
Import ListNotations.
Open Scope Z_scope.
Open Scope res_scope.

Section MixEq.
Context {K C1 C2 Tag : Type} (KO : key_ops K) (CO1 : cf_ops C1) (CO2 : cf_ops C2) (PO1 : tbl_policy (K * C1)) (PO2 : tbl_policy (K * C2)) (TO : tag_ops Tag).

(** series.hpp:3443-3507: [series_equal_to_impl], algorithm 3; [ceq] is the operator== between the coefficients.  Each operand is extended in its own type. *)
Definition mix_equal_to (ceq : C1 -> C2 -> bool) (x : series K C1 Tag) (y : series K C2 Tag) : res bool :=
  if ss_eqb (s_ss x) (s_ss y) then series_cmp_identical_ss KO TO ceq x y
  else
    '(merged_ss, ins_map_x, ins_map_y) <- merge_symbol_sets (s_ss x) (s_ss y) ;;
    match map_empty ins_map_x, map_empty ins_map_y with
    | true, false =>
        b <- extend_to KO CO2 PO2 TO (s_tag y) true (fun c => c) merged_ss y ins_map_y ;;
        series_cmp_identical_ss KO TO ceq x b
    | false, true =>
        a <- extend_to KO CO1 PO1 TO (s_tag x) true (fun c => c) merged_ss x ins_map_x ;;
        series_cmp_identical_ss KO TO ceq a y
    | _, _ =>
        a <- extend_to KO CO1 PO1 TO (s_tag x) true (fun c => c) merged_ss x ins_map_x ;;
        b <- extend_to KO CO2 PO2 TO (s_tag y) true (fun c => c) merged_ss y ins_map_y ;;
        series_cmp_identical_ss KO TO ceq a b
    end.
(** series.hpp:3554-3557: operator!=. *)
Definition mix_not_equal_to (ceq : C1 -> C2 -> bool) (x : series K C1 Tag) (y : series K C2 Tag) : res bool := b <- mix_equal_to ceq x y ;; Ok (negb b).
End MixEq.

Section MixPS.
Context {K C1 C2 C : Type} (KO : key_ops K) (CO1 : cf_ops C1) (CO2 : cf_ops C2) (CO : cf_ops C) (PO1 : tbl_policy (K * C1)) (PO2 : tbl_policy (K * C2)) (PO : tbl_policy (K * C)) (tD : ity).
Notation TO := ps_tag_ops.

(** power_series.hpp:1017-1067 and 1168-1217 around the default implementation [op] on series. *)
Definition mix_ps_visit (op : series K C1 trunc_t -> series K C2 trunc_t -> res (series K C trunc_t)) (x : series K C1 trunc_t) (y : series K C2 trunc_t)
  : res (series K C trunc_t) :=
  let same := ret <- op x y ;; Ok (set_tag ret (s_tag x)) in
  let adopt tg := ret <- op x y ;; ps_truncate KO tD (set_tag ret tg) in
  match s_tag x, s_tag y with
  | no_truncation, no_truncation => same
  | total_truncation d, total_truncation e => if negb (d =? e) then Throw invalid_argument else same
  | partial_truncation d s, partial_truncation e u => if negb ((d =? e) && ss_eqb s u) then Throw invalid_argument else same
  | _, no_truncation => adopt (s_tag x)
  | no_truncation, _ => adopt (s_tag y)
  | _, _ => Throw invalid_argument
  end.
(** power_series.hpp:987-1069: the binary operators + (sign) and -; [ox], [oy] say how the operands are converted to the type of the result (series.hpp:2379-2400). *)
Definition mix_ps_addsub (sign : bool) (ox : operand C1) (oy : operand C2) (x : series K C1 trunc_t) (y : series K C2 trunc_t) : res (series K C trunc_t) :=
  mix_ps_visit (series_addsub KO CO PO TO sign ox oy) x y.

Context (mul12 : mix_mul C1 C2 C) (mul21 : mix_mul C2 C1 C) (E12 : mix_env K C1 C2 trunc_t) (E21 : mix_env K C2 C1 trunc_t).
Notation switch := (mix_switch KO CO1 CO2 CO mul12 mul21 PO1 PO2 PO TO E12 E21).
(** power_series.hpp:1284-1367: [series_mul]. *)
Definition mix_mul_limited (tg : trunc_t) (x : series K C1 trunc_t) (y : series K C2 trunc_t) : res (series K C trunc_t) :=
  match tg with
  | no_truncation => switch None x y
  | total_truncation d => ret <- switch (Some (tr_total KO tD tD d)) x y ;; Ok (set_tag ret tg)
  | partial_truncation d s => ret <- switch (Some (tr_partial KO tD tD d s)) x y ;; Ok (set_tag ret tg)
  end.
(** power_series.hpp:1284-1367 (with the previous definition). *)
Definition mix_ps_mul (x : series K C1 trunc_t) (y : series K C2 trunc_t) : res (series K C trunc_t) :=
  match s_tag x, s_tag y with
  | no_truncation, no_truncation => mix_mul_limited no_truncation x y
  | total_truncation d, total_truncation e => if negb (d =? e) then Throw invalid_argument else mix_mul_limited (s_tag x) x y
  | partial_truncation d s, partial_truncation e u => if negb ((d =? e) && ss_eqb s u) then Throw invalid_argument else mix_mul_limited (s_tag x) x y
  | no_truncation, _ => mix_mul_limited (s_tag y) x y
  | _, no_truncation => mix_mul_limited (s_tag x) x y
  | _, _ => Throw invalid_argument
  end.
End MixPS.
(** power_series.hpp:1138-1222: the operators += (sign) and -= of different coefficient types; the operands are different objects.  The result is the new value of x. *)
Definition mix_ps_in_place {K C CY : Type} (KO : key_ops K) (CO : cf_ops C) (PO : tbl_policy (K * C)) (COY : cf_ops CY) (POY : tbl_policy (K * CY)) (tD : ity)
  (sign : bool) (conv : CY -> C) (x : series K C trunc_t) (y : series K CY trunc_t) : res (series K C trunc_t) :=
  mix_ps_visit KO tD (fun a b => series_in_place_addsub KO CO PO COY POY ps_tag_ops sign conv a false b) x y.
