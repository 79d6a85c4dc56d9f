(** The multiplication of polynomials, interrupted by exceptions.  As in ExnModel.v every step which calls code on coefficients, keys or the allocator may throw
    at any of its executions; an in-place operation on a coefficient which throws leaves the coefficient in any state.  The catch blocks are modelled. *)
From Coq Require Import ZArith List Bool String Arith.
From Verif Require Import Base IntModel SymModel KeyOps SeriesModel PolyModel ExnModel.
Import ListNotations.
Open Scope Z_scope.

Section X.
Context {K C Tag : Type} (KO : key_ops K) (CO : cf_ops C) (PO : tbl_policy (K * C)) (TO : tag_ops Tag) (E : mul_env K C Tag).
Notation series := (series K C Tag).
Notation store := (@store K C Tag).

(** polynomial.hpp:1368, 1503 and 1832: [tab.try_emplace(tmp_key)]: a new element has a value-initialised coefficient, which may be zero or anything else.
    Simplification, as in [accumulate] (PolyModel.v): where the new element goes in the order of the table is chosen by the policy as for the final coefficient [c]. *)
Definition default_emplace (k : K) (c : C) : M (table K C) bool := fun t o t' =>
  match tbl_find KO t k with
  | Some _ => (o = Some false \/ o = None) /\ t' = t
  | None => (o = Some true /\ exists g, t' = tbl_update KO (reorder PO ((k, c) :: t)) k (fun _ => g)) \/ (o = None /\ t' = t)
  end.
(** polynomial.hpp:1354-1384, 1489-1519 and 1826-1846: multiply two terms: the monomial goes to a temporary, the coefficient to the new element, or it is added to that
    of the existing one. *)
Definition x_accumulate (ss : symbol_set) (p : (K * C) * (K * C)) : M (table K C) unit :=
  let '((k1, c1), (k2, c2)) := p in
  mcall ;;; k <<- mres (k_mul KO k1 k2 ss) ;;
  inserted <<- default_emplace k (c_mul CO c1 c2) ;;
  mcall ;;; modify KO k (fun c => if inserted : bool then c_mul CO c1 c2 else c_fma CO c c1 c2).
(** polynomial.hpp:1395-1405, 1528-1538 and 1852-1862: erase the elements whose coefficient is zero; [is_zero] may throw. *)
Definition x_erase_zeros : M (table K C) unit :=
  t <<- mget ;; mfor t (fun e => mcall ;;; b <<- mres (Ok (negb (c_is_zero CO (snd e)))) ;; if (b : bool) then mret tt else erase KO (fst e)).

(** polynomial.hpp:1602-1874: [poly_mul_impl_simple]: the result is in LR; the vectors of pointers, the overflow check and the degrees precede the try block;
    [tab.clear()] in the catch block. *)
Definition x_mul_simple (t : option (trunc K)) (x y : loc) : M store unit :=
  r <<- rd_loc LR ;; xv <<- rd_loc x ;; yv <<- rd_loc y ;;
  (let ss := s_ss r in
   mcall ;;; _0 <<- mres (check_overflow E ss (terms xv) (terms yv)) ;;
   mcall ;;; pairs <<- mres (match t with
                             | None => simple_pairs None (terms yv) [] [] 0 (terms xv)
                             | Some t' =>
                                 bind (degree_sorted E t' ss (terms xv)) (fun p1 => let '(v1, vd1) := p1 in
                                 bind (degree_sorted E t' ss (terms yv)) (fun p2 => let '(v2, vd2) := p2 in simple_pairs t v2 vd1 vd2 0 v1))
                             end) ;;
   mtry (mcall ;;; on LR (on_table 0 (mfor pairs (x_accumulate ss) ;;; x_erase_zeros)))
        (fun h => upd h LR (put_table (h LR) 0 []))).

(** polynomial.hpp:1248-1553: the task of an output segment. *)
Definition x_task (ss : symbol_set) (log2 : nat) (pairs : list ((K * C) * (K * C))) : M (table K C) unit :=
  mfor pairs (x_accumulate ss) ;;; x_erase_zeros ;;; t <<- mget ;;
  (if max_table_size log2 <? Z.of_nat (List.length t) then mraise else mret tt).
(** tbb::parallel_for over the segments, polynomial.hpp:1556-1563.  Without an exception the tasks, which work on different tables, are modelled in the order of their numbers
    (P_PolyConc.v: every interleaving gives the same); if a task throws, the others are cancelled, or go on to their end: the tables are left with any contents. *)
Definition x_tasks (n : nat) (f : nat -> res (list ((K * C) * (K * C)))) (ss : symbol_set) (log2 : nat) : M series unit := fun s o s' =>
  match o with
  | Some _ => mfor (seq 0 n) (fun i => pairs <<- mres (f i) ;; on_table i (x_task ss log2 pairs)) s (Some tt) s'
  | None => exists tabs, List.length tabs = List.length (s_tables s) /\ s' = set_tables s tabs
  end.
(** polynomial.hpp:797-1582: [poly_mul_impl_mt_hm]: [retval.clear()] in the catch block. *)
Definition x_mul_mt (t : option (trunc K)) (x y : loc) : M store unit :=
  r <<- rd_loc LR ;; xv <<- rd_loc x ;; yv <<- rd_loc y ;;
  (let ss := s_ss r in let v1 := terms xv in let v2 := terms yv in
   mcall ;;; _0 <<- mres (check_overflow E ss v1 v2) ;;
   mcall ;;; nothing <<- mres (match t with None => Ok false | Some t => no_mults E t ss v1 v2 end) ;;
   if (nothing : bool) then mret tt
   else
     let log2 := Nat.min (me_log2 E v1 v2) max_log2_size in
     mcall ;;; r' <<- mres (set_n_segments r log2) ;; wr_loc LR r' ;;;
     (let nsegs := (2 ^ log2)%nat in
      let v1 := me_sort E (fun e => Z.of_nat (seg_of KO log2 e)) v1 in
      let v2 := me_sort E (fun e => Z.of_nat (seg_of KO log2 e)) v2 in
      mcall ;;; vseg1 <<- mres (compute_vseg KO log2 v1) ;; vseg2 <<- mres (compute_vseg KO log2 v2) ;;
      mcall ;;; p1 <<- mres (match t with None => Ok (v1, []) | Some t => seg_sorted E t ss v1 vseg1 end) ;;
      p2 <<- mres (match t with None => Ok (v2, []) | Some t => seg_sorted E t ss v2 vseg2 end) ;;
      mtry (on LR (x_tasks nsegs (task_pairs t (fst p1) (fst p2) (snd p1) (snd p2) vseg1 vseg2 nsegs) ss log2))
           (fun h => upd h LR (series_clear TO (h LR))))).

(** polynomial.hpp:1878-1929: [poly_mul_impl_identical_ss]. *)
Definition x_mul_identical_ss (t : option (trunc K)) (x y : loc) : M store unit :=
  xv <<- rd_loc x ;; yv <<- rd_loc y ;;
  mcall ;;; r <<- mres (set_symbol_set (series_default TO) (s_ss xv)) ;; wr_loc LR r ;;;
  if series_empty xv || series_empty yv then mret tt
  else if me_mt E xv yv then x_mul_mt t x y else x_mul_simple t x y.
(** polynomial.hpp:1955-2010: [poly_mul_impl]: the operands are read through const references; LA and LB are the extended copies. *)
Definition x_mul_impl (t : option (trunc K)) (x y : loc) : M store unit :=
  xv <<- rd_loc x ;; yv <<- rd_loc y ;;
  if ss_eqb (s_ss xv) (s_ss yv) then x_mul_identical_ss t x y
  else
    mcall ;;; m <<- mres (merge_symbol_sets (s_ss xv) (s_ss yv)) ;;
    (let '(merged_ss, ins_map_x, ins_map_y) := m in
     match map_empty ins_map_x, map_empty ins_map_y with
     | true, false => x_extend_to KO CO PO TO LB y false merged_ss ins_map_y ;;; x_mul_identical_ss t x LB
     | false, true => x_extend_to KO CO PO TO LA x false merged_ss ins_map_x ;;; x_mul_identical_ss t LA y
     | _, _ => x_extend_to KO CO PO TO LA x false merged_ss ins_map_x ;;; x_extend_to KO CO PO TO LB y false merged_ss ins_map_y ;;; x_mul_identical_ss t LA LB
     end).
(** polynomial.hpp:2014-2032: [poly_mul_impl_switch] and [series_mul]; y is the object LY, or that of x. *)
Definition x_mul (t : option (trunc K)) (y : loc) : M store unit :=
  xv <<- rd_loc LX ;; yv <<- rd_loc y ;;
  if (series_size xv <=? series_size yv)%nat then x_mul_impl t LX y else x_mul_impl t y LX.
End X.
