(** Model of the operations of series.hpp and power_series.hpp which can be interrupted by an exception.  Here every step which calls code on coefficients, keys
    or the allocator may throw, at any execution of the step, and an in-place operation on a coefficient which throws leaves the coefficient in any state.
    A coefficient which is moved from is in any state.  The catch blocks and the scope guards of the code are modelled. *)
From Coq Require Import ZArith List Bool String Arith.
From Verif Require Import Base IntModel SymModel KeyOps SeriesModel.
Import ListNotations.
Open Scope Z_scope.

(** * Computations with a state, which end normally (Some) or with an exception (None) *)
Definition M (S A : Type) : Type := S -> option A -> S -> Prop.
Definition mret {S A : Type} (a : A) : M S A := fun s o s' => o = Some a /\ s' = s.
Definition mraise {S A : Type} : M S A := fun s o s' => o = None /\ s' = s.
(** A call which may throw and has no effect on the state. *)
Definition mcall {S : Type} : M S unit := fun s o s' => s' = s /\ (o = Some tt \/ o = None).
Definition mbind {S A B : Type} (m : M S A) (f : A -> M S B) : M S B := fun s o s' =>
  (exists a s1, m s (Some a) s1 /\ f a s1 o s') \/ (o = None /\ m s None s').
Definition mget {S : Type} : M S S := fun s o s' => o = Some s /\ s' = s.
(** Undefined behaviour: anything can happen. *)
Definition mres {S A : Type} (r : res A) : M S A := fun s o s' =>
  match r with Ok a => mret a s o s' | Throw _ => mraise s o s' | UB => True end.
(** [try { m } catch (...) { h; throw; }] *)
Definition mtry {S A : Type} (m : M S A) (h : S -> S) : M S A := fun s o s' =>
  (exists a, o = Some a /\ m s (Some a) s') \/ (o = None /\ exists s1, m s None s1 /\ s' = h s1).
(** The destructor of a scope guard runs in both cases. *)
Definition mfinally {S A : Type} (m : M S A) (h : S -> S -> Prop) : M S A := fun s o s' => exists s1, m s o s1 /\ h s1 s'.
Fixpoint mfor {S E : Type} (l : list E) (f : E -> M S unit) : M S unit :=
  match l with [] => mret tt | e :: l' => mbind (f e) (fun _ => mfor l' f) end.
Notation "x <<- m ;; f" := (mbind m (fun x => f)) (at level 61, m at next level, right associativity).
Notation "m ;;; f" := (mbind m (fun _ => f)) (at level 61, right associativity).

(** * Series objects *)
Section X.
Context {K C Tag : Type} (KO : key_ops K) (CO : cf_ops C) (PO : tbl_policy (K * C)) (TO : tag_ops Tag).
Notation series := (series K C Tag).

(** An operation on the coefficient of the element with key k, through an iterator. *)
Definition modify (k : K) (f : C -> C) : M (table K C) unit := fun t o t' =>
  (o = Some tt /\ t' = tbl_update KO t k f) \/ (o = None /\ exists g, t' = tbl_update KO t k (fun _ => g)).
Definition erase (k : K) : M (table K C) unit := fun t o t' => o = Some tt /\ t' = tbl_erase KO t k.
(** try_emplace: if the construction of the element throws the table is as before (boost::unordered_flat_map: strong guarantee). *)
Definition try_emplace (k : K) (c : C) : M (table K C) bool := fun t o t' =>
  (o = Some (snd (tbl_try_emplace KO PO t k c)) /\ t' = fst (tbl_try_emplace KO PO t k c)) \/ (o = None /\ t' = t).

(** series.hpp:270-374: [series_add_term_table], with the catch block of lines 368-373. *)
Definition x_add_term_table (sign check_zero check_compat check_table_size assume_unique : bool) (ss : symbol_set) (mts : Z) (k : K) (c : C) : M (table K C) unit :=
  t <<- mget ;;
  if check_table_size && (Z.of_nat (List.length t) =? mts) then mraise
  else
    compat <<- (if check_compat then mcall ;;; mres (k_compatible KO k ss) else mret true) ;;
    if negb compat then mraise
    else
      inserted <<- try_emplace k c ;;
      mtry
        ((if assume_unique || inserted then (if sign then mret tt else modify k (c_neg CO))
          else mcall ;;; modify k (fun x => if sign then c_add CO x c else c_sub CO x c)) ;;;
         if check_zero then
           mcall ;;; t2 <<- mget ;;
           (if k_is_zero KO k ss || match tbl_find KO t2 k with Some e => c_is_zero CO (snd e) | None => false end
            then erase k else mret tt)
         else mret tt)
        (fun _ => []).

(** An operation on the i-th table of a series. *)
Definition on_table {A : Type} (i : nat) (m : M (table K C) A) : M series A := fun s o s' =>
  match nth_error (s_tables s) i with None => True | Some t => exists t', m t o t' /\ s' = put_table s i t' end.

(** series.hpp:378-404: [series_add_term]. *)
Definition x_add_term (sign check_zero check_compat check_table_size assume_unique : bool) (k : K) (c : C) : M series unit :=
  s <<- mget ;;
  (let n := List.length (s_tables s) in
   mcall ;;; on_table (table_index KO n k)
     (x_add_term_table sign check_zero check_compat (negb (Nat.eqb n 1) && check_table_size) assume_unique (s_ss s) (max_table_size (s_log2 s)) k c)).

(** The objects an operation works on: the operands x and y, the local variables a and b, the return value. *)
Inductive loc : Type := LX | LY | LA | LB | LR.
Definition loc_eqb (a b : loc) : bool :=
  match a, b with LX, LX | LY, LY | LA, LA | LB, LB | LR, LR => true | _, _ => false end.
Definition store : Type := loc -> series.
Definition upd (h : store) (l : loc) (s : series) : store := fun l' => if loc_eqb l l' then s else h l'.
Definition on {A : Type} (l : loc) (m : M series A) : M store A := fun h o h' => exists s', m (h l) o s' /\ h' = upd h l s'.
Definition rd_loc (l : loc) : M store series := fun h o h' => o = Some (h l) /\ h' = h.
(** Assignment of a new value made without exceptions. *)
Definition wr_loc (l : loc) (s : series) : M store unit := fun h o h' => o = Some tt /\ h' = upd h l s.

(** A series which is moved from, series.hpp:661-673 and 816-831: its vector of tables is empty, it can only be destroyed or assigned to. *)
Definition moved_from (s : series) : series := set_tables s [].
(** [to = std::move(from)] or move construction. *)
Definition mv_loc (to from : loc) : M store unit := fun h o h' => o = Some tt /\ h' = upd (upd h to (h from)) from (moved_from (h from)).
(** Copy construction: allocations and copies of coefficients. *)
Definition cp_loc (to from : loc) : M store unit := mcall ;;; s <<- rd_loc from ;; wr_loc to s.

(** series.hpp:520-530: [series_rref_clearer]: the destructor clears the series if the reference is a mutable rvalue. *)
Definition clearer (rvalue : bool) (l : loc) : store -> store -> Prop := fun h h' =>
  if rvalue then h' = upd h l (series_clear TO (h l)) else h' = h.
(** The coefficient with key k of a series was moved from (if [rvalue]): it is in any state. *)
Definition scribbled (rvalue : bool) (l : loc) (k : K) : store -> store -> Prop := fun h h' =>
  if rvalue then exists g, h' = upd h l (set_tables (h l) (map (fun t => tbl_update KO t k (fun _ => g)) (s_tables (h l)))) else h' = h.

(** series.hpp:540-624: [series_sym_extender], with lvalue or rvalue [from].  Simplification, here and in the loops below: the terms the loop visits are those at its
    beginning (only terms already visited are moved from). *)
Definition x_sym_extender (to from : loc) (rvalue : bool) (ins_map : symbol_idx_map symbol_set) : M store unit :=
  mfinally
    (f <<- rd_loc from ;; t <<- rd_loc to ;;
     t' <<- mres (set_n_segments t (get_s_size f)) ;;
     mcall ;;; wr_loc to t' ;;; mcall ;;;
     if Nat.eqb (get_s_size f) 0 then
       f_t <<- mres (rd (s_tables f) 0) ;;
       mfor f_t (fun e =>
         mcall ;;; k <<- mres (k_merge KO (fst e) ins_map (s_ss f)) ;;
         mfinally (on to (on_table 0 (x_add_term_table true true false false true (s_ss t) (max_table_size (s_log2 t')) k (snd e)))) (scribbled rvalue from (fst e)))
     else
       mfor (terms f) (fun e =>
         mcall ;;; k <<- mres (k_merge KO (fst e) ins_map (s_ss f)) ;;
         mfinally (on to (x_add_term true true false true true k (snd e))) (scribbled rvalue from (fst e))))
    (clearer rvalue from).

(** [T a; a.set_symbol_set(merged_ss); series_sym_extender(a, x, ins_map)]. *)
Definition x_extend_to (to from : loc) (rvalue : bool) (merged_ss : symbol_set) (ins_map : symbol_idx_map symbol_set) : M store unit :=
  mcall ;;; a <<- mres (set_symbol_set (series_default TO) merged_ss) ;; wr_loc to a ;;;
  x_sym_extender to from rvalue ins_map.

(** The loop over the terms of rhs, inserting them into the destination: series.hpp:2414-2457 and 2723-2766. *)
Definition x_merge_loop (sign : bool) (dst src : loc) (rvalue : bool) : M store unit :=
  d <<- rd_loc dst ;; r <<- rd_loc src ;;
  if (1 <? List.length (s_tables d))%nat
  then mfor (terms r) (fun e => mfinally (on dst (x_add_term sign true false true false (fst e) (snd e))) (scribbled rvalue src (fst e)))
  else mfor (terms r) (fun e => mfinally (on dst (on_table 0 (x_add_term_table sign true false false false (s_ss d) (max_table_size (s_log2 d)) (fst e) (snd e)))) (scribbled rvalue src (fst e))).

(** series.hpp:2713-2767: [in_place_with_identical_ss]; the operands are distinct objects. *)
Definition x_in_place_same (sign : bool) (lhs rhs : loc) (rvalue : bool) : M store unit :=
  mfinally (x_merge_loop sign lhs rhs rvalue) (clearer rvalue rhs).

(** series.hpp:2681-2848: [series_default_in_place_addsub_impl], algorithm 3, for two series of the same type; x is an lvalue or an rvalue ([rx]), y as well ([ry]).
    [y] is LY or LX (the same object). *)
Definition x_in_place_addsub (sign : bool) (y : loc) (rx ry : bool) : M store unit :=
  xv <<- rd_loc LX ;; yv <<- rd_loc y ;;
  if ss_eqb (s_ss xv) (s_ss yv) then
    (if loc_eqb LX y then cp_loc LB y ;;; x_in_place_same sign LX LB true
     else x_in_place_same sign LX y ry)
  else
    mcall ;;; m <<- mres (merge_symbol_sets (s_ss xv) (s_ss yv)) ;;
    let '(merged_ss, ins_map_x, ins_map_y) := m in
    match map_empty ins_map_x, map_empty ins_map_y with
    | true, false => x_extend_to LB y ry merged_ss ins_map_y ;;; x_in_place_same sign LX LB true
    | false, true => x_extend_to LA LX rx merged_ss ins_map_x ;;; mv_loc LX LA ;;; x_in_place_same sign LX y ry
    | false, false => x_extend_to LA LX rx merged_ss ins_map_x ;;; x_extend_to LB y ry merged_ss ins_map_y ;;; mv_loc LX LA ;;; x_in_place_same sign LX LB true
    | true, true => mret tt
    end.

(** series.hpp:1847-1861: [series_default_negate_impl]. *)
Definition x_negate : M series unit :=
  s <<- mget ;;
  mfor (seq 0 (List.length (s_tables s))) (fun i =>
    on_table i (t <<- mget ;; mfor t (fun e => modify (fst e) (c_neg CO)))).

(** series.hpp:2384-2460: [term_merger]: the return value is copied or moved from lhs, copied if both operands are the same object. *)
Definition x_term_merger (sign : bool) (lhs : loc) (rl : bool) (rhs : loc) (rr : bool) : M store unit :=
  (if rl && negb (loc_eqb lhs rhs) then mv_loc LR lhs else cp_loc LR lhs) ;;;
  mfinally (x_merge_loop sign LR rhs rr) (clearer rr rhs).
(** series.hpp:2379-2478: [merge_with_identical_ss]. *)
Definition x_merge_same (sign : bool) (a : loc) (ra : bool) (b : loc) (rb : bool) : M store unit :=
  av <<- rd_loc a ;; bv <<- rd_loc b ;;
  if (series_size bv <=? series_size av)%nat then x_term_merger sign a ra b rb
  else if sign then x_term_merger sign b rb a ra
  else x_term_merger sign b rb a ra ;;; on LR x_negate.
(** series.hpp:2335-2532: [series_default_addsub_impl], algorithm 3, for two series of the same type; the result is in LR. *)
Definition x_addsub (sign : bool) (y : loc) (rx ry : bool) : M store unit :=
  xv <<- rd_loc LX ;; yv <<- rd_loc y ;;
  if ss_eqb (s_ss xv) (s_ss yv) then x_merge_same sign LX rx y ry
  else
    mcall ;;; m <<- mres (merge_symbol_sets (s_ss xv) (s_ss yv)) ;;
    let '(merged_ss, ins_map_x, ins_map_y) := m in
    match map_empty ins_map_x, map_empty ins_map_y with
    | true, false => x_extend_to LB y ry merged_ss ins_map_y ;;; x_merge_same sign LX rx LB true
    | false, true => x_extend_to LA LX rx merged_ss ins_map_x ;;; x_merge_same sign LA true y ry
    | _, _ => x_extend_to LA LX rx merged_ss ins_map_x ;;; x_extend_to LB y ry merged_ss ins_map_y ;;; x_merge_same sign LA true LB true
    end.

(** series.hpp:4249-4267: [filter_impl]: elements are erased one by one; the predicate may throw. *)
Definition x_filter (f : K * C -> res bool) : M series unit :=
  s <<- mget ;;
  mfor (seq 0 (List.length (s_tables s))) (fun i =>
    on_table i (t <<- mget ;; mfor t (fun e => mcall ;;; b <<- mres (f e) ;; if (b : bool) then mret tt else erase (fst e)))).

(** series.hpp:2698-2708: x op= c for a scalar c. *)
Definition x_in_place_scalar (sign : bool) (c : C) : M series unit :=
  s <<- mget ;; x_add_term sign true false true false (k_of_ss KO (s_ss s)) c.

(** series.hpp:1240-1250: add_term. *)
Definition x_add_term_pub (sign : bool) (k : K) (c : C) : M series unit := x_add_term sign true true true false k c.

(** series.hpp:3100-3177 and 3202: [series_default_mul_impl] with the catch block of lines 3161-3168; x is an lvalue or an rvalue; the result is in LR.
    The second loop of each table erases the zero terms. *)
Definition x_scalar_mul (rx : bool) (c : C) : M store unit :=
  xv <<- rd_loc LX ;;
  mcall ;;;
  if series_empty xv || c_is_zero CO c then
    mcall ;;; wr_loc LR (Series [[]] 0 (s_tag xv) (s_ss xv))
  else
    (if rx then mv_loc LR LX else cp_loc LR LX) ;;;
    on LR (mtry
      (s <<- mget ;;
       mfor (seq 0 (List.length (s_tables s))) (fun i =>
         on_table i
           (t <<- mget ;;
            mfor t (fun e => modify (fst e) (fun x => c_mul CO x c) ;;; mcall) ;;;
            t2 <<- mget ;;
            mfor (filter (fun e => c_is_zero CO (snd e)) t2) (fun e => erase (fst e)))))
      (series_clear TO)).
(** series.hpp:3202: operator*=. *)
Definition x_in_place_scalar_mul (rx : bool) (c : C) : M store unit := x_scalar_mul rx c ;;; mv_loc LX LR.
End X.
