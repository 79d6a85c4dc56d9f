(** Model of include/obake/polynomials/polynomial.hpp: multiplication (plain and truncated), truncation, powers, substitution,
    differentiation, integration.  Coefficients of the operands and of the result have one type C (simplification). *)
From Coq Require Import ZArith List Bool String Arith Lia Permutation Sorted.
From Verif Require Import Base SymModel KeyOps SeriesModel SeriesModel2.
Import ListNotations.
Open Scope Z_scope.
Open Scope res_scope.

(** std::lower_bound and std::upper_bound (binary search) on the index range [first, first + len): [right j] says
    whether the search continues to the right of the element j. *)
Fixpoint bsearch (right : nat -> res bool) (fuel first len : nat) : res nat :=
  match fuel with
  | O => UB
  | S f =>
      if Nat.eqb len 0 then Ok first
      else
        let half := Nat.div len 2 in
        r <- right (first + half)%nat ;;
        if (r : bool) then bsearch right f (first + half + 1) (len - half - 1) else bsearch right f first half
  end.
Definition search (right : nat -> res bool) (b e : nat) : res nat := bsearch right (S (e - b)) b (e - b).

(** The elements [b, e) of a vector. *)
Definition slice {A : Type} (l : list A) (b e : nat) : list A := firstn (e - b) (skipn b l).

(** A truncation argument of the multiplication, [Args] in polynomial.hpp:798 and 1603: the degree used for a key
    (key_degree, or key_p_degree with the indices of the symbol subset) and the comparison [max_deg < d1 + d2]
    (undefined if the sum overflows). *)
Record trunc (K : Type) : Type := {
  tr_deg : K -> symbol_set -> res Z;
  tr_over : Z -> Z -> res bool
}.
Arguments tr_deg {K}. Arguments tr_over {K}.

(** What the multiplication leaves to the schedule, the library or heuristics: the verdict of the (parallel) overflow
    check, std::sort / tbb::parallel_sort (not stable), whether the multi-threaded algorithm is used (byte sizes and
    hardware concurrency, polynomial.hpp:1897-1926) and the estimated log2 of the number of segments (polynomial.hpp:633-902). *)
Record mul_env (K C Tag : Type) : Type := {
  me_check : symbol_set -> list K -> list K -> res bool;
  me_sort : forall A : Type, (A -> Z) -> list A -> list A;
  me_mt : series K C Tag -> series K C Tag -> bool;
  me_log2 : list (K * C) -> list (K * C) -> nat
}.
Arguments me_check {K C Tag}. Arguments me_sort {K C Tag} _ {A}. Arguments me_mt {K C Tag}. Arguments me_log2 {K C Tag}.

(** A segment of a sorted vector of terms: begin and end index, segment number (polynomial.hpp:934). *)
Definition vsegment : Type := (nat * nat * nat)%type.
(** polynomial.hpp:934 (with the previous definition). *)
Definition sg_begin (r : vsegment) : nat := fst (fst r).
(** polynomial.hpp:934 (with the previous definition). *)
Definition sg_end (r : vsegment) : nat := snd (fst r).
(** polynomial.hpp:934 (with the previous definition). *)
Definition sg_idx (r : vsegment) : nat := snd r.

Section Mul.
Context {K C Tag : Type} (KO : key_ops K) (CO : cf_ops C) (PO : tbl_policy (K * C)) (TO : tag_ops Tag) (E : mul_env K C Tag).
Notation series := (series K C Tag).

(** series.hpp:3757-3785 and 3911-3943: [make_degree_vector], [make_p_degree_vector] (serial or parallel). *)
Definition degree_vector (t : trunc K) (ss : symbol_set) (v : list (K * C)) : res (list Z) :=
  rmap (fun e => tr_deg t (fst e) ss) v.

(** Reading through a permutation iterator. *)
Definition permuted {A : Type} (l : list A) (vidx : list nat) : res (list A) := rmap (rd l) vidx.

(** polynomial.hpp:1673-1756: [sorter] of the simple multiplication: sorts the terms and the degrees by degree. *)
Definition degree_sorted (t : trunc K) (ss : symbol_set) (v : list (K * C)) : res (list (K * C) * list Z) :=
  vd <- degree_vector t ss v ;;
  let vidx := me_sort E (fun i => nth i vd 0) (seq 0 (List.length vd)) in
  vd' <- permuted vd vidx ;;
  v' <- permuted v vidx ;;
  Ok (v', vd').

(** polynomial.hpp:1777-1793 and 1215-1235: the end of the elements of [b, e) that do not exceed the limit with d1. *)
Definition upper (t : trunc K) (vd2 : list Z) (d1 : Z) (b e : nat) : res nat :=
  search (fun j => d2 <- rd vd2 j ;; o <- tr_over t d1 d2 ;; Ok (negb o)) b e.

(** polynomial.hpp:1354-1384, 1489-1519 and 1826-1846: multiply two terms and accumulate in the table: fma3 (math/fma3.hpp:44-147) if the
    coefficients have it, [+= c1 * c2] otherwise ([c_fma]). *)
Definition accumulate (ss : symbol_set) (tab : table K C) (p : (K * C) * (K * C)) : res (table K C) :=
  let '((k1, c1), (k2, c2)) := p in
  k <- k_mul KO k1 k2 ss ;;
  let '(tab', inserted) := tbl_try_emplace KO PO tab k (c_mul CO c1 c2) in
  Ok (if inserted then tab' else tbl_update KO tab' k (fun c => c_fma CO c c1 c2)).

(** polynomial.hpp:1395-1405 and 1852-1862. *)
Definition erase_zeros (tab : table K C) : table K C := filter (fun e => negb (c_is_zero CO (snd e))) tab.

(** polynomial.hpp:1805-1848: the pairs of terms multiplied by the simple algorithm, in order; [i] is the index
    of the first element of v1.  Here and below the index computations, which do not depend on the table, are modelled before the table operations. *)
Fixpoint simple_pairs (t : option (trunc K)) (v2 : list (K * C)) (vd1 vd2 : list Z) (i : nat) (v1 : list (K * C))
  : res (list ((K * C) * (K * C))) :=
  match v1 with
  | [] => Ok []
  | t1 :: v1' =>
      j_end <- match t with
               | None => Ok (List.length v2)
               | Some t => d1 <- rd vd1 i ;; upper t vd2 d1 0 (List.length vd2)
               end ;;
      if (match t with None => false | Some _ => Nat.eqb j_end 0 end) then Ok []
      else
        rest <- simple_pairs t v2 vd1 vd2 (S i) v1' ;;
        Ok (map (pair t1) (firstn j_end v2) ++ rest)
  end.

(** polynomial.hpp:1638-1645 and 845-851. *)
Definition check_overflow (ss : symbol_set) (v1 v2 : list (K * C)) : res unit :=
  b <- me_check E ss (map fst v1) (map fst v2) ;;
  if (b : bool) then Ok tt else Throw overflow_error.

(** polynomial.hpp:1602-1874: [poly_mul_impl_simple]. *)
Definition poly_mul_simple (t : option (trunc K)) (retval x y : series) : res series :=
  let ss := s_ss retval in
  let v1 := terms x in
  let v2 := terms y in
  _ <- check_overflow ss v1 v2 ;;
  pairs <- match t with
           | None => simple_pairs None v2 [] [] 0 v1
           | Some t' =>
               '(v1, vd1) <- degree_sorted t' ss v1 ;;
               '(v2, vd2) <- degree_sorted t' ss v2 ;;
               simple_pairs t v2 vd1 vd2 0 v1
           end ;;
  tab <- rd (s_tables retval) 0 ;;
  tab' <- rfold (accumulate ss) pairs tab ;;
  Ok (put_table retval 0 (erase_zeros tab')).

(** polynomial.hpp:574-623: the total number of term multiplications; only whether it is zero matters
    (polynomial.hpp:860-862). *)
Definition no_mults (t : trunc K) (ss : symbol_set) (v1 v2 : list (K * C)) : res bool :=
  vd1 <- degree_vector t ss v1 ;;
  vd2 <- degree_vector t ss v2 ;;
  let vidx2 := me_sort E (fun i => nth i vd2 0) (seq 0 (List.length vd2)) in
  vd2 <- permuted vd2 vidx2 ;;
  n <- rfold (fun cur d1 => it <- upper t vd2 d1 0 (List.length vd2) ;; Ok (cur + it)%nat) vd1 0%nat ;;
  Ok (Nat.eqb n 0).

(** hash(k) % (1 << log2_nsegs). *)
Definition seg_of (log2 : nat) (e : K * C) : nat := Z.to_nat (k_hash KO (fst e) mod 2 ^ Z.of_nat log2).

(** upper_bound over terms sorted by segment: polynomial.hpp:959-962 and 981-983. *)
Definition seg_upper (log2 : nat) (v : list (K * C)) (b it : nat) : res nat :=
  search (fun j => e <- rd v j ;; Ok (negb (Nat.ltb b (seg_of log2 e)))) it (List.length v).

(** polynomial.hpp:954-971. *)
Fixpoint vseg_sparse (fuel log2 : nat) (v : list (K * C)) (it : nat) : res (list vsegment) :=
  match fuel with
  | O => UB
  | S f =>
      if Nat.eqb it (List.length v) then Ok []
      else
        e <- rd v it ;;
        let cur := seg_of log2 e in
        range_end <- seg_upper log2 v cur it ;;
        rest <- vseg_sparse f log2 v range_end ;;
        Ok ((it, range_end, cur) :: rest)
  end.
(** polynomial.hpp:972-989. *)
Fixpoint vseg_dense (log2 : nat) (v : list (K * C)) (it : nat) (is : list nat) : res (list vsegment) :=
  match is with
  | [] => Ok []
  | i :: is' =>
      it' <- seg_upper log2 v i it ;;
      rest <- vseg_dense log2 v it' is' ;;
      Ok ((it, it', i) :: rest)
  end.
(** polynomial.hpp:927-992: [compute_vseg]. *)
Definition compute_vseg (log2 : nat) (v : list (K * C)) : res (list vsegment) :=
  let nsegs := (2 ^ log2)%nat in
  if (List.length v <? nsegs / 2)%nat then vseg_sparse (S (List.length v)) log2 v 0
  else vseg_dense log2 v 0 (seq 0 nsegs).

(** polynomial.hpp:1005-1105: [seg_sorter]: sorts the terms of each segment by degree (the segments are disjoint, so
    the parallel loop is modelled sequentially). *)
Definition sort_slice (vd : list Z) (vidx : list nat) (r : vsegment) : list nat :=
  firstn (sg_begin r) vidx ++ me_sort E (fun i => nth i vd 0) (slice vidx (sg_begin r) (sg_end r)) ++ skipn (sg_end r) vidx.
(** polynomial.hpp:1005-1105 (with the previous definition). *)
Definition seg_sorted (t : trunc K) (ss : symbol_set) (v : list (K * C)) (vseg : list vsegment) : res (list (K * C) * list Z) :=
  vd <- degree_vector t ss v ;;
  let vidx := fold_left (sort_slice vd) vseg (seq 0 (List.length vd)) in
  vd' <- permuted vd vidx ;;
  v' <- permuted v vidx ;;
  Ok (v', vd').

(** polynomial.hpp:1278-1329: the pairs of segments multiplied into the segment seg_idx by the sparse algorithm. *)
Fixpoint sparse_ranges (vseg2 : list vsegment) (nsegs seg_idx : nat) (end_search : nat) (wrap_around : bool) (vseg1 : list vsegment)
  : res (list (vsegment * vsegment)) :=
  match vseg1 with
  | [] => Ok []
  | r1 :: vseg1' =>
      let bi1 := sg_idx r1 in
      let '(end_search, wrap_around) :=
        if negb wrap_around && (seg_idx <? bi1)%nat then (List.length vseg2, true) else (end_search, wrap_around) in
      let tgt_idx := if wrap_around then (seg_idx + nsegs)%nat else seg_idx in
      it <- search (fun j => t <- rd vseg2 j ;; Ok (sg_idx t + bi1 <? tgt_idx)%nat) 0 end_search ;;
      found <- (if Nat.eqb it end_search then Ok None
                else r2 <- rd vseg2 it ;; Ok (if Nat.eqb (sg_idx r2 + bi1) tgt_idx then Some r2 else None)) ;;
      match found with
      | None => sparse_ranges vseg2 nsegs seg_idx end_search wrap_around vseg1'
      | Some r2 => rest <- sparse_ranges vseg2 nsegs seg_idx it wrap_around vseg1' ;; Ok ((r1, r2) :: rest)
      end
  end.

(** polynomial.hpp:1449-1464: the same for the dense algorithm. *)
Definition dense_ranges (vseg1 vseg2 : list vsegment) (nsegs seg_idx : nat) : res (list (vsegment * vsegment)) :=
  rmap (fun i =>
    let j := if (i <=? seg_idx)%nat then (seg_idx - i)%nat else (nsegs - i + seg_idx)%nat in
    r1 <- rd vseg1 i ;; r2 <- rd vseg2 j ;; Ok (r1, r2)) (seq 0 nsegs).

(** polynomial.hpp:1332-1390 and 1467-1525: the pairs of terms multiplied for two segments. *)
Fixpoint range_pairs (t : option (trunc K)) (v1 v2 : list (K * C)) (vd1 vd2 : list Z) (r2 : vsegment) (idxs : list nat)
  : res (list ((K * C) * (K * C))) :=
  match idxs with
  | [] => Ok []
  | idx1 :: idxs' =>
      t1 <- rd v1 idx1 ;;
      idx_end2 <- match t with
                  | None => Ok (sg_end r2)
                  | Some t => d1 <- rd vd1 idx1 ;; upper t vd2 d1 (sg_begin r2) (sg_end r2)
                  end ;;
      if (match t with None => false | Some _ => Nat.eqb idx_end2 (sg_begin r2) end) then Ok []
      else
        rest <- range_pairs t v1 v2 vd1 vd2 r2 idxs' ;;
        Ok (map (pair t1) (slice v2 (sg_begin r2) idx_end2) ++ rest)
  end.

(** All the term pairs of the task of segment seg_idx. *)
Definition task_pairs (t : option (trunc K)) (v1 v2 : list (K * C)) (vd1 vd2 : list Z) (vseg1 vseg2 : list vsegment) (nsegs seg_idx : nat)
  : res (list ((K * C) * (K * C))) :=
  ranges <- (if Nat.eqb (List.length vseg1) nsegs && Nat.eqb (List.length vseg2) nsegs
             then dense_ranges vseg1 vseg2 nsegs seg_idx
             else sparse_ranges vseg2 nsegs seg_idx (List.length vseg2) false vseg1) ;;
  pairs <- rmap (fun r => range_pairs t v1 v2 vd1 vd2 (snd r) (seq (sg_begin (fst r)) (sg_end (fst r) - sg_begin (fst r)))) ranges ;;
  Ok (List.concat pairs).

(** polynomial.hpp:1248-1418 and 1421-1553: the work on the output segment seg_idx. *)
Definition segment_task (ss : symbol_set) (log2 : nat) (pairs : list ((K * C) * (K * C))) (table : table K C) : res (SeriesModel.table K C) :=
  tab <- rfold (accumulate ss) pairs table ;;
  let tab := erase_zeros tab in
  if max_table_size log2 <? Z.of_nat (List.length tab) then Throw overflow_error else Ok tab.

(** polynomial.hpp:797-1582: [poly_mul_impl_mt_hm].  The parallel loop over the segments is modelled as a
    sequential one; P_PolyConc.v shows that every interleaving of the tasks gives the same tables. *)
Definition poly_mul_mt (t : option (trunc K)) (retval x y : series) : res series :=
  let ss := s_ss retval in
  let v1 := terms x in
  let v2 := terms y in
  _ <- check_overflow ss v1 v2 ;;
  nothing <- match t with None => Ok false | Some t => no_mults t ss v1 v2 end ;;
  if (nothing : bool) then Ok retval
  else
    let log2 := Nat.min (me_log2 E v1 v2) max_log2_size in
    retval <- set_n_segments retval log2 ;;
    let nsegs := (2 ^ log2)%nat in
    let v1 := me_sort E (fun e => Z.of_nat (seg_of log2 e)) v1 in
    let v2 := me_sort E (fun e => Z.of_nat (seg_of log2 e)) v2 in
    vseg1 <- compute_vseg log2 v1 ;;
    vseg2 <- compute_vseg log2 v2 ;;
    '(v1, vd1) <- match t with None => Ok (v1, []) | Some t => seg_sorted t ss v1 vseg1 end ;;
    '(v2, vd2) <- match t with None => Ok (v2, []) | Some t => seg_sorted t ss v2 vseg2 end ;;
    tabs <- rmap (fun seg_idx =>
              pairs <- task_pairs t v1 v2 vd1 vd2 vseg1 vseg2 nsegs seg_idx ;;
              tab <- rd (s_tables retval) seg_idx ;;
              segment_task ss log2 pairs tab) (seq 0 nsegs) ;;
    Ok (set_tables retval tabs).

(** polynomial.hpp:1878-1929: [poly_mul_impl_identical_ss]. *)
Definition poly_mul_identical_ss (t : option (trunc K)) (x y : series) : res series :=
  retval <- set_symbol_set (series_default TO) (s_ss x) ;;
  if series_empty x || series_empty y then Ok retval
  else if me_mt E x y then poly_mul_mt t retval x y else poly_mul_simple t retval x y.

(** polynomial.hpp:1955-2010: [poly_mul_impl]. *)
Definition poly_mul_impl (t : option (trunc K)) (x y : series) : res series :=
  if ss_eqb (s_ss x) (s_ss y) then poly_mul_identical_ss t x y
  else
    '(merged_ss, ins_map_x, ins_map_y) <- merge_symbol_sets (s_ss x) (s_ss y) ;;
    match map_empty ins_map_x, map_empty ins_map_y with
    | true, false =>
        b <- extend_to KO CO PO TO (tag_default TO) true (fun c => c) merged_ss y ins_map_y ;;
        poly_mul_identical_ss t x b
    | false, true =>
        a <- extend_to KO CO PO TO (tag_default TO) true (fun c => c) merged_ss x ins_map_x ;;
        poly_mul_identical_ss t a y
    | _, _ =>
        a <- extend_to KO CO PO TO (tag_default TO) true (fun c => c) merged_ss x ins_map_x ;;
        b <- extend_to KO CO PO TO (tag_default TO) true (fun c => c) merged_ss y ins_map_y ;;
        poly_mul_identical_ss t a b
    end.

(** polynomial.hpp:2014-2022: [poly_mul_impl_switch]. *)
Definition poly_mul_switch (t : option (trunc K)) (x y : series) : res series :=
  if (series_size x <=? series_size y)%nat then poly_mul_impl t x y else poly_mul_impl t y x.

(** polynomial.hpp:2026-2032: [series_mul]. *)
Definition poly_mul (x y : series) : res series := poly_mul_switch None x y.
End Mul.
