(** Comparison of series whose coefficients are compared by an operation which may throw, as series are. *)
From Coq Require Import ZArith List Bool String Arith.
From Verif Require Import Base IntModel SymModel KeyOps SeriesModel SeriesModel2 PolyModel PolyModel2 RecModel.
Import ListNotations.
Open Scope Z_scope.
Open Scope res_scope.

Section Eq.
Context {K C1 C2 Tag : Type} (KO : key_ops K) (CO1 : cf_ops C1) (CO2 : cf_ops C2) (PO1 : tbl_policy (K * C1)) (PO2 : tbl_policy (K * C2)) (TO : tag_ops Tag).
(** operator== between the coefficients. *)
Variable ceq : C1 -> C2 -> res bool.

(** series.hpp:1554-1589: [series_cmp_identical_ss]. *)
Definition lf_cmp (lhs : series K C1 Tag) (rhs : series K C2 Tag) : res bool :=
  let tags_differ := match tag_eqb TO with Some eqb => negb (eqb (s_tag lhs) (s_tag rhs)) | None => false end in
  if tags_differ then Ok false
  else if negb (Nat.eqb (series_size lhs) (series_size rhs)) then Ok false
  else
    (fix loop (l : list (K * C1)) : res bool :=
       match l with
       | [] => Ok true
       | (k, c) :: l' =>
           it <- series_find KO rhs k ;;
           if it_eqb it (series_end rhs) then Ok false
           else e <- it_deref rhs it ;; q <- ceq c (snd e) ;; if negb q then Ok false else loop l'
       end) (terms lhs).
(** series.hpp:3443-3507: [series_equal_to_impl], algorithm 3. *)
Definition lf_equal_to (x : series K C1 Tag) (y : series K C2 Tag) : res bool :=
  if ss_eqb (s_ss x) (s_ss y) then lf_cmp x y
  else
    '(merged_ss, ins_map_x, ins_map_y) <- merge_symbol_sets (s_ss x) (s_ss y) ;;
    match map_empty ins_map_x, map_empty ins_map_y with
    | true, false =>
        b <- extend_to KO CO2 PO2 TO (s_tag y) true (fun c => c) merged_ss y ins_map_y ;;
        lf_cmp x b
    | false, true =>
        a <- extend_to KO CO1 PO1 TO (s_tag x) true (fun c => c) merged_ss x ins_map_x ;;
        lf_cmp a y
    | _, _ =>
        a <- extend_to KO CO1 PO1 TO (s_tag x) true (fun c => c) merged_ss x ins_map_x ;;
        b <- extend_to KO CO2 PO2 TO (s_tag y) true (fun c => c) merged_ss y ins_map_y ;;
        lf_cmp a b
    end.
(** series.hpp:3554-3557: operator!=. *)
Definition lf_not_equal_to (x : series K C1 Tag) (y : series K C2 Tag) : res bool := b <- lf_equal_to x y ;; Ok (negb b).
End Eq.

(** series.hpp:3511-3529: [diff_rank_cmp]: comparison of a series with an object of lower rank; [ceq] compares a coefficient with it. *)
Definition lf_equal_to_cf {K C Tag T : Type} (KO : key_ops K) (t_is_zero : T -> bool) (ceq : C -> T -> res bool) (lhs : series K C Tag) (rhs : T) : res bool :=
  match series_size lhs with
  | O => Ok (t_is_zero rhs)
  | S O => e <- it_deref lhs (series_begin lhs) ;; if k_is_one KO (fst e) (s_ss lhs) then ceq (snd e) rhs else Ok false
  | _ => Ok false
  end.

Section Rec.
Context {K Tag KI C TagI : Type} (KO : key_ops K) (TO : tag_ops Tag) (KOI : key_ops KI) (CO : cf_ops C) (POI : tbl_policy (KI * C)) (TOI : tag_ops TagI) (EI : mul_env KI C TagI).
Notation inner := (series KI C TagI).
Context (PO : tbl_policy (K * res inner)).
Notation RC := (rec_cf KOI CO POI TOI EI).
(** series.hpp:3551-3552 on coefficients which are series: algorithm 3. *)
Definition rec_ceq (a b : res inner) : res bool := a <- a ;; b <- b ;; series_equal_to KOI CO POI TOI a b.
(** series.hpp:3443-3507 on polynomials with polynomial coefficients of the same type. *)
Definition rec_equal_to (x y : series K (res inner) Tag) : res bool := lf_equal_to KO RC RC PO PO TO rec_ceq x y.
(** series.hpp:3554-3557. *)
Definition rec_not_equal_to (x y : series K (res inner) Tag) : res bool := lf_not_equal_to KO RC RC PO PO TO rec_ceq x y.
(** series.hpp:3511-3537: comparison with a polynomial in the inner symbols. *)
Definition rec_equal_to_inner (x : series K (res inner) Tag) (q : inner) : res bool :=
  lf_equal_to_cf KO series_empty (fun a q => a <- a ;; series_equal_to KOI CO POI TOI a q) x q.
(** series.hpp:3511-3537: comparison with an object t which is no series; the coefficients are compared with it by the same function. *)
Definition rec_equal_to_scalar {T : Type} (t_is_zero : T -> bool) (teq : C -> T -> bool) (x : series K (res inner) Tag) (t : T) : res bool :=
  lf_equal_to_cf KO t_is_zero (fun a t => a <- a ;; series_equal_to_cf KOI t_is_zero teq a t) x t.
End Rec.
