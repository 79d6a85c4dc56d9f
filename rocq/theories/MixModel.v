(** Multiplication of polynomials whose coefficients have different types: polynomial.hpp:797-2032 with C1 and C2 the coefficient
    types of the operands and C3 that of their products (PolyModel.v is the case C1 = C2 = C3).  The functions on one operand
    (degrees, sorting, segments) are those of PolyModel.v. *)
From Coq Require Import ZArith List Bool String Arith Permutation Sorted.
From Verif Require Import Base SymModel KeyOps SeriesModel SeriesModel2 PolyModel.
Import ListNotations.
Open Scope Z_scope.
Open Scope res_scope.

(** What is left to the schedule and the library, as in PolyModel.v: [mx_sort ks] is the permutation made by a sort of elements with the keys ks. *)
Record mix_env (K C1 C2 Tag : Type) : Type := {
  mx_check : symbol_set -> list K -> list K -> res bool;
  mx_sort : list Z -> list nat;
  mx_mt : series K C1 Tag -> series K C2 Tag -> bool;
  mx_log2 : list (K * C1) -> list (K * C2) -> nat
}.
Arguments mx_check {K C1 C2 Tag}. Arguments mx_sort {K C1 C2 Tag}. Arguments mx_mt {K C1 C2 Tag}. Arguments mx_log2 {K C1 C2 Tag}.

(** The elements of l at the positions is. *)
Definition pick_all {A : Type} (l : list A) (is : list nat) : list A :=
  flat_map (fun i => match nth_error l i with Some a => [a] | None => [] end) is.
(** A sort by the key f: std::sort, tbb::parallel_sort, polynomial.hpp:914-925, 1038 and 1711. *)
Definition sort_by (perm : list Z -> list nat) (A : Type) (f : A -> Z) (l : list A) : list A := pick_all l (perm (map f l)).
(** The environment used by the functions on one operand: of its fields they use only the sort. *)
Definition one_env {K C1 C2 Tag : Type} (E : mix_env K C1 C2 Tag) (C : Type) : mul_env K C Tag :=
  {| me_check := mx_check E; me_sort := sort_by (mx_sort E); me_mt := fun _ _ => false; me_log2 := fun _ _ => O |}.

(** The multiplication of the coefficients of the operands, and the multiply-and-add of fma3 (math/fma3.hpp:44-147; [+= c1 * c2] for coefficients without it),
    with the types of polynomial.hpp:1354-1384. *)
Record mix_mul (C1 C2 C3 : Type) : Type := { mm_mul : C1 -> C2 -> C3; mm_fma : C3 -> C1 -> C2 -> C3 }.
Arguments mm_mul {C1 C2 C3}. Arguments mm_fma {C1 C2 C3}.

Section Mix.
Context {K C1 C2 C3 Tag : Type} (KO : key_ops K) (CO1 : cf_ops C1) (CO2 : cf_ops C2) (CO3 : cf_ops C3) (cmul : mix_mul C1 C2 C3)
  (PO1 : tbl_policy (K * C1)) (PO2 : tbl_policy (K * C2)) (PO3 : tbl_policy (K * C3)) (TO : tag_ops Tag) (E : mix_env K C1 C2 Tag).

(** polynomial.hpp:1354-1384, 1489-1519 and 1826-1846. *)
Definition mix_accumulate (ss : symbol_set) (tab : table K C3) (p : (K * C1) * (K * C2)) : res (table K C3) :=
  let '((k1, c1), (k2, c2)) := p in
  k <- k_mul KO k1 k2 ss ;;
  let '(tab', inserted) := tbl_try_emplace KO PO3 tab k (mm_mul cmul c1 c2) in
  Ok (if inserted then tab' else tbl_update KO tab' k (fun c => mm_fma cmul c c1 c2)).

(** polynomial.hpp:1805-1848. *)
Fixpoint mix_simple_pairs (t : option (trunc K)) (v2 : list (K * C2)) (vd1 vd2 : list Z) (i : nat) (v1 : list (K * C1))
  : res (list ((K * C1) * (K * C2))) :=
  match v1 with
  | [] => Ok []
  | t1 :: v1' =>
      j_end <- match t with
               | None => Ok (List.length v2)
               | Some t => d1 <- rd vd1 i ;; upper t vd2 d1 0 (List.length vd2)
               end ;;
      if (match t with None => false | Some _ => Nat.eqb j_end 0 end) then Ok []
      else
        rest <- mix_simple_pairs t v2 vd1 vd2 (S i) v1' ;;
        Ok (map (pair t1) (firstn j_end v2) ++ rest)
  end.

(** polynomial.hpp:1638-1645 and 845-851. *)
Definition mix_check_overflow (ss : symbol_set) (v1 : list (K * C1)) (v2 : list (K * C2)) : res unit :=
  b <- mx_check E ss (map fst v1) (map fst v2) ;;
  if (b : bool) then Ok tt else Throw overflow_error.

(** polynomial.hpp:1602-1874. *)
Definition mix_simple (t : option (trunc K)) (retval : series K C3 Tag) (x : series K C1 Tag) (y : series K C2 Tag) : res (series K C3 Tag) :=
  let ss := s_ss retval in
  let v1 := terms x in
  let v2 := terms y in
  _ <- mix_check_overflow ss v1 v2 ;;
  pairs <- match t with
           | None => mix_simple_pairs None v2 [] [] 0 v1
           | Some t' =>
               '(v1, vd1) <- degree_sorted (one_env E C1) t' ss v1 ;;
               '(v2, vd2) <- degree_sorted (one_env E C2) t' ss v2 ;;
               mix_simple_pairs t v2 vd1 vd2 0 v1
           end ;;
  tab <- rd (s_tables retval) 0 ;;
  tab' <- rfold (mix_accumulate ss) pairs tab ;;
  Ok (put_table retval 0 (erase_zeros CO3 tab')).

(** polynomial.hpp:574-623 and 860-862. *)
Definition mix_no_mults (t : trunc K) (ss : symbol_set) (v1 : list (K * C1)) (v2 : list (K * C2)) : res bool :=
  vd1 <- degree_vector t ss v1 ;;
  vd2 <- degree_vector t ss v2 ;;
  let vidx2 := sort_by (mx_sort E) nat (fun i => nth i vd2 0) (seq 0 (List.length vd2)) in
  vd2 <- permuted vd2 vidx2 ;;
  n <- rfold (fun cur d1 => it <- upper t vd2 d1 0 (List.length vd2) ;; Ok (cur + it)%nat) vd1 0%nat ;;
  Ok (Nat.eqb n 0).

(** polynomial.hpp:1332-1390 and 1467-1525. *)
Fixpoint mix_range_pairs (t : option (trunc K)) (v1 : list (K * C1)) (v2 : list (K * C2)) (vd1 vd2 : list Z) (r2 : vsegment) (idxs : list nat)
  : res (list ((K * C1) * (K * C2))) :=
  match idxs with
  | [] => Ok []
  | idx1 :: idxs' =>
      t1 <- rd v1 idx1 ;;
      idx_end2 <- match t with
                  | None => Ok (sg_end r2)
                  | Some t => d1 <- rd vd1 idx1 ;; upper t vd2 d1 (sg_begin r2) (sg_end r2)
                  end ;;
      if (match t with None => false | Some _ => Nat.eqb idx_end2 (sg_begin r2) end) then Ok []
      else
        rest <- mix_range_pairs t v1 v2 vd1 vd2 r2 idxs' ;;
        Ok (map (pair t1) (slice v2 (sg_begin r2) idx_end2) ++ rest)
  end.

(** polynomial.hpp:1278-1329, 1449-1464 and the previous definition. *)
Definition mix_task_pairs (t : option (trunc K)) (v1 : list (K * C1)) (v2 : list (K * C2)) (vd1 vd2 : list Z) (vseg1 vseg2 : list vsegment) (nsegs seg_idx : nat)
  : res (list ((K * C1) * (K * C2))) :=
  ranges <- (if Nat.eqb (List.length vseg1) nsegs && Nat.eqb (List.length vseg2) nsegs
             then dense_ranges vseg1 vseg2 nsegs seg_idx
             else sparse_ranges vseg2 nsegs seg_idx (List.length vseg2) false vseg1) ;;
  pairs <- rmap (fun r => mix_range_pairs t v1 v2 vd1 vd2 (snd r) (seq (sg_begin (fst r)) (sg_end (fst r) - sg_begin (fst r)))) ranges ;;
  Ok (List.concat pairs).

(** polynomial.hpp:1248-1418 and 1421-1553. *)
Definition mix_segment_task (ss : symbol_set) (log2 : nat) (pairs : list ((K * C1) * (K * C2))) (table : table K C3) : res (SeriesModel.table K C3) :=
  tab <- rfold (mix_accumulate ss) pairs table ;;
  let tab := erase_zeros CO3 tab in
  if max_table_size log2 <? Z.of_nat (List.length tab) then Throw overflow_error else Ok tab.

(** polynomial.hpp:797-1582 (the segments in sequence, see PolyModel.v). *)
Definition mix_mt (t : option (trunc K)) (retval : series K C3 Tag) (x : series K C1 Tag) (y : series K C2 Tag) : res (series K C3 Tag) :=
  let ss := s_ss retval in
  let v1 := terms x in
  let v2 := terms y in
  _ <- mix_check_overflow ss v1 v2 ;;
  nothing <- match t with None => Ok false | Some t => mix_no_mults t ss v1 v2 end ;;
  if (nothing : bool) then Ok retval
  else
    let log2 := Nat.min (mx_log2 E v1 v2) max_log2_size in
    retval <- set_n_segments retval log2 ;;
    let nsegs := (2 ^ log2)%nat in
    let v1 := sort_by (mx_sort E) _ (fun e => Z.of_nat (seg_of KO log2 e)) v1 in
    let v2 := sort_by (mx_sort E) _ (fun e => Z.of_nat (seg_of KO log2 e)) v2 in
    vseg1 <- compute_vseg KO log2 v1 ;;
    vseg2 <- compute_vseg KO log2 v2 ;;
    '(v1, vd1) <- match t with None => Ok (v1, []) | Some t => seg_sorted (one_env E C1) t ss v1 vseg1 end ;;
    '(v2, vd2) <- match t with None => Ok (v2, []) | Some t => seg_sorted (one_env E C2) t ss v2 vseg2 end ;;
    tabs <- rmap (fun seg_idx =>
              pairs <- mix_task_pairs t v1 v2 vd1 vd2 vseg1 vseg2 nsegs seg_idx ;;
              tab <- rd (s_tables retval) seg_idx ;;
              mix_segment_task ss log2 pairs tab) (seq 0 nsegs) ;;
    Ok (set_tables retval tabs).

(** polynomial.hpp:1878-1929. *)
Definition mix_identical_ss (t : option (trunc K)) (x : series K C1 Tag) (y : series K C2 Tag) : res (series K C3 Tag) :=
  retval <- set_symbol_set (series_default TO) (s_ss x) ;;
  if series_empty x || series_empty y then Ok retval
  else if mx_mt E x y then mix_mt t retval x y else mix_simple t retval x y.

(** polynomial.hpp:1955-2010: the operands are extended in their own types. *)
Definition mix_impl (t : option (trunc K)) (x : series K C1 Tag) (y : series K C2 Tag) : res (series K C3 Tag) :=
  if ss_eqb (s_ss x) (s_ss y) then mix_identical_ss t x y
  else
    '(merged_ss, ins_map_x, ins_map_y) <- merge_symbol_sets (s_ss x) (s_ss y) ;;
    match map_empty ins_map_x, map_empty ins_map_y with
    | true, false =>
        b <- extend_to KO CO2 PO2 TO (tag_default TO) true (fun c => c) merged_ss y ins_map_y ;;
        mix_identical_ss t x b
    | false, true =>
        a <- extend_to KO CO1 PO1 TO (tag_default TO) true (fun c => c) merged_ss x ins_map_x ;;
        mix_identical_ss t a y
    | _, _ =>
        a <- extend_to KO CO1 PO1 TO (tag_default TO) true (fun c => c) merged_ss x ins_map_x ;;
        b <- extend_to KO CO2 PO2 TO (tag_default TO) true (fun c => c) merged_ss y ins_map_y ;;
        mix_identical_ss t a b
    end.
End Mix.

(** polynomial.hpp:2014-2022: the shorter operand comes first; the coefficients of a product are multiplied in that order, by [mul12] or [mul21]. *)
Definition mix_switch {K C1 C2 C3 Tag : Type} (KO : key_ops K) (CO1 : cf_ops C1) (CO2 : cf_ops C2) (CO3 : cf_ops C3) (mul12 : mix_mul C1 C2 C3) (mul21 : mix_mul C2 C1 C3)
  (PO1 : tbl_policy (K * C1)) (PO2 : tbl_policy (K * C2)) (PO3 : tbl_policy (K * C3)) (TO : tag_ops Tag) (E12 : mix_env K C1 C2 Tag) (E21 : mix_env K C2 C1 Tag)
  (t : option (trunc K)) (x : series K C1 Tag) (y : series K C2 Tag) : res (series K C3 Tag) :=
  if (series_size x <=? series_size y)%nat then mix_impl KO CO1 CO2 CO3 mul12 PO1 PO2 PO3 TO E12 t x y
  else mix_impl KO CO2 CO1 CO3 mul21 PO2 PO1 PO3 TO E21 t y x.
