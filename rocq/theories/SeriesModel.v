(** Model of include/obake/series.hpp: the series class and its default operations. *)
From Coq Require Import ZArith List Bool String Arith.
From Verif Require Import Base IntModel SymModel KeyOps.
Import ListNotations.
Open Scope Z_scope.

(** series.hpp:1516-1519: the data members m_s_table (a vector of hash tables),
    m_log2_size, m_tag, m_symbol_set.  Simplification: the flyweight m_symbol_set is its value. *)
Notation table K C := (list (K * C)) (only parsing).
Record series (K C Tag : Type) : Type := Series {
  s_tables : list (table K C);
  s_log2 : nat;
  s_tag : Tag;
  s_ss : symbol_set
}.
Arguments Series {K C Tag}. Arguments s_tables {K C Tag}. Arguments s_log2 {K C Tag}.
Arguments s_tag {K C Tag}. Arguments s_ss {K C Tag}.

(** boost::unordered_flat_map::find. *)
Definition tbl_find {K C : Type} (KO : key_ops K) (t : table K C) (k : K) : option (K * C) :=
  find (fun e => k_eqb KO (fst e) k) t.
(** Assignment through an iterator of boost::unordered_flat_map to the element with key k (series.hpp:345-353). *)
Definition tbl_update {K C : Type} (KO : key_ops K) (t : table K C) (k : K) (f : C -> C) : table K C :=
  map (fun e => if k_eqb KO (fst e) k then (fst e, f (snd e)) else e) t.
(** boost::unordered_flat_map::erase. *)
Definition tbl_erase {K C : Type} (KO : key_ops K) (t : table K C) (k : K) : table K C :=
  filter (fun e => negb (k_eqb KO (fst e) k)) t.
(** boost::unordered_flat_map::try_emplace: inserted only if the key is missing. *)
Definition tbl_try_emplace {K C : Type} (KO : key_ops K) (PO : tbl_policy (K * C)) (t : table K C) (k : K) (c : C)
  : table K C * bool :=
  match tbl_find KO t k with
  | Some _ => (t, false)
  | None => (reorder PO ((k, c) :: t), true)
  end.

(** limits_digits<s_size_type> - 1: series.hpp:649. *)
Definition max_log2_size : nat := 63.

(** series.hpp:952-959: [_get_max_table_size]. *)
Definition max_table_size (log2 : nat) : Z := imax size_t / 2 ^ Z.of_nat log2.

(** series.hpp:659: default constructor. *)
Definition series_default {K C Tag : Type} (TO : tag_ops Tag) : series K C Tag :=
  Series [[]] 0 (tag_default TO) [].

(** series.hpp:935-938: [empty], and series.hpp:940-946: [size]; simplification: the sum of the table sizes is a
    mathematical integer (it cannot exceed SIZE_MAX when every table respects the maximum table size). *)
Definition series_empty {K C Tag : Type} (s : series K C Tag) : bool :=
  forallb (fun t => match t with [] => true | _ => false end) (s_tables s).
(** series.hpp:940-946. *)
Definition series_size {K C Tag : Type} (s : series K C Tag) : nat :=
  fold_left (fun cur t => (cur + List.length t)%nat) (s_tables s) 0%nat.

(** series.hpp:961-964: [get_s_size] returns the log2 of the number of segments. *)
Definition get_s_size {K C Tag : Type} (s : series K C Tag) : nat := s_log2 s.

(** The sequence of terms visited by a range-for over the series (proved in P_Series.v to be what the
    iterators of series.hpp:996-1230 visit). *)
Definition terms {K C Tag : Type} (s : series K C Tag) : list (K * C) := List.concat (s_tables s).

(** series.hpp:996-1171: [iterator_impl]: the index of the table and the position in it; the position is
    None for the value-initialised local iterator. *)
Definition iterator : Type := (nat * option nat)%type.

(** series.hpp:1181-1202: [begin_impl]: the first non-empty table. *)
Fixpoint begin_from {A : Type} (idx : nat) (ts : list (list A)) : iterator :=
  match ts with
  | [] => (idx, None)
  | t :: ts' => match t with [] => begin_from (S idx) ts' | _ => (idx, Some 0%nat) end
  end.
(** series.hpp:1181-1202 (with the previous definition). *)
Definition series_begin {K C Tag : Type} (s : series K C Tag) : iterator := begin_from 0 (s_tables s).
(** series.hpp:1209-1214: [end]. *)
Definition series_end {K C Tag : Type} (s : series K C Tag) : iterator := (List.length (s_tables s), None).

(** series.hpp:1082-1126: [increment]: next element of the table, else the first of the next
    non-empty table, else end; incrementing the end iterator is undefined behaviour. *)
Definition it_increment {K C Tag : Type} (s : series K C Tag) (it : iterator) : res iterator :=
  t <- rd (s_tables s) (fst it) ;;
  match snd it with
  | None => UB
  | Some p =>
      if (List.length t <=? p)%nat then UB
      else if Nat.eqb (S p) (List.length t)
      then Ok (begin_from (S (fst it)) (skipn (S (fst it)) (s_tables s)))
      else Ok (fst it, Some (S p))
  end.

(** series.hpp:1132-1150: [equal]. *)
Definition it_eqb (a b : iterator) : bool :=
  Nat.eqb (fst a) (fst b) &&
  match snd a, snd b with Some p, Some q => Nat.eqb p q | None, None => true | _, _ => false end.

(** series.hpp:1152-1165: [dereference]. *)
Definition it_deref {K C Tag : Type} (s : series K C Tag) (it : iterator) : res (K * C) :=
  t <- rd (s_tables s) (fst it) ;;
  match snd it with None => UB | Some p => rd t p end.

(** A range-based for loop over the series (series.hpp:996-1230), [for (it = begin(); it != end(); ++it)], starting at [it] and
    returning the sequence of the terms visited; undefined if it takes more than [fuel] increments. *)
Fixpoint visit {K C Tag : Type} (fuel : nat) (s : series K C Tag) (it : iterator) : res (list (K * C)) :=
  if it_eqb it (series_end s) then Ok []
  else match fuel with
  | O => UB
  | S f => e <- it_deref s it ;; it' <- it_increment s it ;; r <- visit f s it' ;; Ok (e :: r)
  end.

(** series.hpp:1332-1370: [find_impl]: lookup in the table selected by the hash (table 0 if there is only one). *)
Fixpoint tbl_position {K C : Type} (KO : key_ops K) (t : table K C) (k : K) : option nat :=
  match t with
  | [] => None
  | e :: t' => if k_eqb KO (fst e) k then Some 0%nat else option_map S (tbl_position KO t' k)
  end.
(** series.hpp:1332-1370 (with the previous definition). *)
Definition table_index {K : Type} (KO : key_ops K) (n_tables : nat) (k : K) : nat :=
  if Nat.eqb n_tables 1 then 0%nat
  else Z.to_nat (Z.land (k_hash KO k) (Z.of_nat n_tables - 1)).
(** series.hpp:1332-1370 (with the previous definition). *)
Definition series_find {K C Tag : Type} (KO : key_ops K) (s : series K C Tag) (k : K) : res iterator :=
  let idx := table_index KO (List.length (s_tables s)) k in
  t <- rd (s_tables s) idx ;;
  match tbl_position KO t k with
  | None => Ok (series_end s)
  | Some p => Ok (idx, Some p)
  end.

(** series.hpp:974-984: [is_single_cf]. *)
Definition is_single_cf {K C Tag : Type} (KO : key_ops K) (s : series K C Tag) : res bool :=
  match series_size s with
  | O => Ok true
  | S O => t <- it_deref s (series_begin s) ;; Ok (k_is_one KO (fst t) (s_ss s))
  | _ => Ok false
  end.

(** series.hpp:1236-1244: [set_symbol_set]. *)
Definition set_symbol_set {K C Tag : Type} (s : series K C Tag) (ss : symbol_set) : res (series K C Tag) :=
  if series_empty s then Ok (Series (s_tables s) (s_log2 s) (s_tag s) ss) else Throw invalid_argument.

(** series.hpp:1294-1305: [set_n_segments]: all the terms are dropped.  Simplification: allocating
    2^l tables does not fail. *)
Definition set_n_segments {K C Tag : Type} (s : series K C Tag) (l : nat) : res (series K C Tag) :=
  if (max_log2_size <? l)%nat then Throw invalid_argument
  else Ok (Series (repeat [] (2 ^ l)) l (s_tag s) (s_ss s)).

(** series.hpp:1310-1326: [clear_terms], [clear]. *)
Definition clear_terms {K C Tag : Type} (s : series K C Tag) : series K C Tag :=
  Series (map (fun _ => []) (s_tables s)) (s_log2 s) (s_tag s) (s_ss s).
(** series.hpp:1310-1326 (with the previous definition). *)
Definition series_clear {K C Tag : Type} (TO : tag_ops Tag) (s : series K C Tag) : series K C Tag :=
  Series (map (fun _ => []) (s_tables s)) (s_log2 s) (tag_default TO) [].

(** series.hpp:1412-1415: assignment through [tag]. *)
Definition set_tag {K C Tag : Type} (s : series K C Tag) (tg : Tag) : series K C Tag :=
  Series (s_tables s) (s_log2 s) tg (s_ss s).
(** series.hpp:1261-1268: assignment through [_get_s_table]. *)
Definition set_tables {K C Tag : Type} (s : series K C Tag) (ts : list (table K C)) : series K C Tag :=
  Series ts (s_log2 s) (s_tag s) (s_ss s).

(** Writing through a reference to the i-th table, series.hpp:1261-1268. *)
Definition put_table {K C Tag : Type} (s : series K C Tag) (i : nat) (t : table K C) : series K C Tag :=
  set_tables s (firstn i (s_tables s) ++ t :: skipn (S i) (s_tables s)).

Section Ops.
Context {K C Tag : Type} (KO : key_ops K) (CO : cf_ops C) (PO : tbl_policy (K * C)) (TO : tag_ops Tag).

(** series.hpp:264-379: the flags and [series_add_term_table].  [c] is the coefficient constructed from the
    arguments. Simplification: coefficient operations do not throw; the catch block is modelled in ExnModel.v. *)
Definition series_add_term_table (sign check_zero check_compat check_table_size assume_unique : bool)
  (ss : symbol_set) (mts : Z) (t : table K C) (k : K) (c : C) : res (table K C) :=
  if check_table_size && (Z.of_nat (List.length t) =? mts) then Throw overflow_error
  else
    compat <- (if check_compat then k_compatible KO k ss else Ok true) ;;
    if negb compat then Throw invalid_argument
    else
      let '(t1, inserted) := tbl_try_emplace KO PO t k c in
      let t2 :=
        if assume_unique || inserted
        then (if sign then t1 else tbl_update KO t1 k (c_neg CO))
        else tbl_update KO t1 k (fun x => if sign then c_add CO x c else c_sub CO x c) in
      Ok (if check_zero &&
             (k_is_zero KO k ss ||
              match tbl_find KO t2 k with Some e => c_is_zero CO (snd e) | None => false end)
          then tbl_erase KO t2 k else t2).

(** series.hpp:380-406: [series_add_term]: the table is selected by the hash; with a single table the
    table size check is off. *)
Definition series_add_term (sign check_zero check_compat check_table_size assume_unique : bool)
  (s : series K C Tag) (k : K) (c : C) : res (series K C Tag) :=
  let n := List.length (s_tables s) in
  let i := table_index KO n k in
  t <- rd (s_tables s) i ;;
  t' <- series_add_term_table sign check_zero check_compat (negb (Nat.eqb n 1) && check_table_size)
          assume_unique (s_ss s) (max_table_size (s_log2 s)) t k c ;;
  Ok (put_table s i t').

(** series.hpp:1285-1291: the member function [add_term]. *)
Definition add_term (sign : bool) (s : series K C Tag) (k : K) (c : C) : res (series K C Tag) :=
  series_add_term sign true true true false s k c.

(** series.hpp:688-699,801-813: constructors from an object of lesser rank (generic constructor, algorithm 1), with
    the symbol set [ss] (empty for the generic constructor). *)
Definition series_of_cf (c : C) (ss : symbol_set) : res (series K C Tag) :=
  t <- series_add_term_table true true false false true ss (max_table_size 0) [] (k_of_ss KO ss) c ;;
  Ok (Series [t] 0 (tag_default TO) ss).

(** series.hpp:1847-1861: [series_default_negate_impl]; 1867-1881 operator-(x). *)
Definition series_negate (s : series K C Tag) : series K C Tag :=
  set_tables s (map (map (fun e => (fst e, c_neg CO (snd e)))) (s_tables s)).

(** series.hpp:839-864: conversion to an object of rank 0 ([of_cf] is the conversion of the coefficient,
    [zero] is T(0)). *)
Definition series_to_cf {T : Type} (zero : T) (of_cf : C -> T) (s : series K C Tag) : res T :=
  match series_size s with
  | O => Ok zero
  | S O =>
      t <- it_deref s (series_begin s) ;;
      if k_is_one KO (fst t) (s_ss s) then Ok (of_cf (snd t)) else Throw invalid_argument
  | _ => Throw invalid_argument
  end.

(** series.hpp:592-622, 2440-2456 and similar: a loop [for (auto &t : terms) series_add_term<...>(retval, t.first, conv(t.second))]. *)
Definition add_terms {C' : Type} (sign check_zero check_compat check_table_size assume_unique : bool)
  (conv : C' -> C) (ts : list (K * C')) (s : series K C Tag) : res (series K C Tag) :=
  rfold (fun s e => series_add_term sign check_zero check_compat check_table_size assume_unique s (fst e) (conv (snd e))) ts s.

(** The same loop on one table (series.hpp:741-766 and similar): [series_add_term_table<...>(s, t, ...)]. *)
Definition add_terms_table {C' : Type} (sign check_zero check_compat check_table_size assume_unique : bool)
  (conv : C' -> C) (ss : symbol_set) (mts : Z) (ts : list (K * C')) (t : table K C) : res (table K C) :=
  rfold (fun t e => series_add_term_table sign check_zero check_compat check_table_size assume_unique ss mts t (fst e) (conv (snd e))) ts t.

(** series.hpp:700-768: generic constructor, algorithm 2: same key, other coefficient and/or tag; [tg] is the
    tag of x if the tag types coincide and the default tag otherwise. *)
Definition series_convert {C' Tag' : Type} (conv : C' -> C) (tg : Tag) (x : series K C' Tag') : res (series K C Tag) :=
  s0 <- set_n_segments (Series [[]] 0 tg (s_ss x)) (get_s_size x) ;;
  ts <- rmap (fun xt => add_terms_table true true false false true conv (s_ss x) (max_table_size (s_log2 x)) xt [])
             (s_tables x) ;;
  Ok (set_tables s0 ts).

(** series.hpp:769-797: generic constructor, algorithm 3: from a series of higher rank, whose coefficients [mk] converts to this
    type. *)
Definition series_of_higher_rank {K' C' Tag' : Type} (KO' : key_ops K') (mk : C' -> res (series K C Tag))
  (x : series K' C' Tag') : res (series K C Tag) :=
  single <- is_single_cf KO' x ;;
  if (single : bool) then
    if series_empty x then Ok (series_default TO)
    else t <- it_deref x (series_begin x) ;; mk (snd t)
  else Throw invalid_argument.

(** series.hpp:540-625: [series_sym_extender]: [to] is empty and has the merged symbol set; [check_zero] is the
    constant of lines 547-548. *)
Definition series_sym_extender {C' : Type} (check_zero : bool) (conv : C' -> C) (to : series K C Tag) (from : series K C' Tag)
  (ins_map : symbol_idx_map symbol_set) : res (series K C Tag) :=
  to <- set_n_segments to (get_s_size from) ;;
  if Nat.eqb (get_s_size from) 0 then
    from_t <- rd (s_tables from) 0 ;;
    to_t <- rd (s_tables to) 0 ;;
    t <- rfold (fun t e =>
           k <- k_merge KO (fst e) ins_map (s_ss from) ;;
           series_add_term_table true check_zero false false true (s_ss to) (max_table_size (s_log2 to)) t k (conv (snd e)))
         from_t to_t ;;
    Ok (put_table to 0 t)
  else
    rfold (fun to e =>
      k <- k_merge KO (fst e) ins_map (s_ss from) ;;
      series_add_term true check_zero false true true to k (conv (snd e)))
    (terms from) to.

(** series.hpp:2384-2460: [term_merger]: [mk] builds the return value from lhs (copy if the types coincide,
    generic construction otherwise). *)
Definition term_merger {CL CR : Type} (sign : bool) (mk : series K CL Tag -> res (series K C Tag)) (conv : CR -> C)
  (lhs : series K CL Tag) (rhs : series K CR Tag) : res (series K C Tag) :=
  retval <- mk lhs ;;
  if (1 <? List.length (s_tables retval))%nat
  then add_terms sign true false true false conv (terms rhs) retval
  else
    t <- rd (s_tables retval) 0 ;;
    t' <- add_terms_table sign true false false false conv (s_ss retval) (max_table_size (s_log2 retval)) (terms rhs) t ;;
    Ok (put_table retval 0 t').

(** series.hpp:2379-2478: [merge_with_identical_ss]. *)
Definition merge_with_identical_ss {CA CB : Type} (sign : bool)
  (mka : series K CA Tag -> res (series K C Tag)) (conva : CA -> C)
  (mkb : series K CB Tag -> res (series K C Tag)) (convb : CB -> C)
  (a : series K CA Tag) (b : series K CB Tag) : res (series K C Tag) :=
  if (series_size b <=? series_size a)%nat
  then term_merger sign mka convb a b
  else if sign
  then term_merger sign mkb conva b a
  else retval <- term_merger sign mkb conva b a ;; Ok (series_negate retval).

(** series.hpp:2379-2400: an operand of the binary operators: [o_mk] is the construction of the return type from it, [o_conv] the
    conversion of a coefficient, [o_same] whether its coefficient type is that of the return type. *)
Record operand (C' : Type) : Type := {
  o_mk : series K C' Tag -> res (series K C Tag);
  o_conv : C' -> C;
  o_same : bool
}.

(** series.hpp:2379-2400: an operand of the return type itself, and one of another coefficient type. *)
Definition op_same : operand C := {| o_mk := fun s => Ok s; o_conv := fun c => c; o_same := true |}.
Definition op_conv {C' : Type} (conv : C' -> C) : operand C' :=
  {| o_mk := fun s => series_convert conv (s_tag s) s; o_conv := conv; o_same := false |}.

(** [ret_t a; a.set_symbol_set(merged_ss); series_sym_extender(a, x, ins_map)]:
    series.hpp:2504-2507 and similar; [tg] is the tag given to the new series. *)
Definition extend_to {C' : Type} (tg : Tag) (check_zero : bool) (conv : C' -> C) (merged_ss : symbol_set)
  (x : series K C' Tag) (ins_map : symbol_idx_map symbol_set) : res (series K C Tag) :=
  a <- set_symbol_set (set_tag (series_default TO) tg) merged_ss ;;
  series_sym_extender check_zero conv a x ins_map.

(** operator== of flyweights of symbol sets (series.hpp:2481), and empty() of insertion maps (series.hpp:2494-2511). *)
Definition ss_eqb (a b : symbol_set) : bool := if list_eq_dec string_dec a b then true else false.

Definition map_empty {A : Type} (l : list A) : bool := match l with [] => true | _ => false end.

(** series.hpp:2335-2345,2374-2531: [series_default_addsub_impl], algorithm 3 (operands of equal rank). *)
Definition series_addsub {CX CY : Type} (sign : bool) (ox : operand CX) (oy : operand CY)
  (x : series K CX Tag) (y : series K CY Tag) : res (series K C Tag) :=
  if ss_eqb (s_ss x) (s_ss y)
  then merge_with_identical_ss sign (o_mk _ ox) (o_conv _ ox) (o_mk _ oy) (o_conv _ oy) x y
  else
    '(merged_ss, ins_map_x, ins_map_y) <- merge_symbol_sets (s_ss x) (s_ss y) ;;
    match map_empty ins_map_x, map_empty ins_map_y with
    | true, false =>
        b <- extend_to (tag_default TO) (o_same _ oy) (o_conv _ oy) merged_ss y ins_map_y ;;
        merge_with_identical_ss sign (o_mk _ ox) (o_conv _ ox) (o_mk _ op_same) (o_conv _ op_same) x b
    | false, true =>
        a <- extend_to (tag_default TO) (o_same _ ox) (o_conv _ ox) merged_ss x ins_map_x ;;
        merge_with_identical_ss sign (o_mk _ op_same) (o_conv _ op_same) (o_mk _ oy) (o_conv _ oy) a y
    | _, _ =>
        a <- extend_to (tag_default TO) (o_same _ ox) (o_conv _ ox) merged_ss x ins_map_x ;;
        b <- extend_to (tag_default TO) (o_same _ oy) (o_conv _ oy) merged_ss y ins_map_y ;;
        merge_with_identical_ss sign (o_mk _ op_same) (o_conv _ op_same) (o_mk _ op_same) (o_conv _ op_same) a b
    end.

(** series.hpp:2549-2552, 2925-2928: x + y and x - y of two series of the same type. *)
Definition series_add (x y : series K C Tag) : res (series K C Tag) := series_addsub true op_same op_same x y.
Definition series_sub (x y : series K C Tag) : res (series K C Tag) := series_addsub false op_same op_same x y.

(** series.hpp:2347-2365: algorithm 1: scalar (converted to c) +/- series. *)
Definition scalar_addsub_series (sign : bool) (c : C) (y : series K C Tag) : res (series K C Tag) :=
  let retval := if sign then y else series_negate y in
  series_add_term true true false true false retval (k_of_ss KO (s_ss retval)) c.
(** series.hpp:2366-2373: algorithm 2: series +/- scalar, and the in-place version, 2698-2708. *)
Definition series_addsub_scalar (sign : bool) (x : series K C Tag) (c : C) : res (series K C Tag) :=
  series_add_term sign true false true false x (k_of_ss KO (s_ss x)) c.

(** series.hpp:2713-2767: [in_place_with_identical_ss]; [aliased]: rhs is the same object as lhs (modifying a table
    while iterating over it is undefined behaviour). *)
Definition in_place_with_identical_ss {CR : Type} (sign : bool) (conv : CR -> C) (lhs : series K C Tag) (aliased : bool)
  (rhs : series K CR Tag) : res (series K C Tag) :=
  if aliased then UB
  else if (1 <? List.length (s_tables lhs))%nat
  then add_terms sign true false true false conv (terms rhs) lhs
  else
    t <- rd (s_tables lhs) 0 ;;
    t' <- add_terms_table sign true false false false conv (s_ss lhs) (max_table_size (s_log2 lhs)) (terms rhs) t ;;
    Ok (put_table lhs 0 t').
End Ops.
Arguments o_mk {K C Tag C'}. Arguments o_conv {K C Tag C'}. Arguments o_same {K C Tag C'}.

(** series.hpp:2680-2848: [series_default_in_place_addsub_impl], algorithm 3 (x op= y with series of equal rank); [aliased]: &x == &y;
    the result is the new value of x.  With differing symbol sets the symbol sets of x and y differ, so they are distinct objects. *)
Definition series_in_place_addsub {K C CY Tag : Type} (KO : key_ops K) (CO : cf_ops C) (PO : tbl_policy (K * C))
  (COY : cf_ops CY) (POY : tbl_policy (K * CY)) (TO : tag_ops Tag) (sign : bool) (conv : CY -> C)
  (x : series K C Tag) (aliased : bool) (y : series K CY Tag) : res (series K C Tag) :=
  if ss_eqb (s_ss x) (s_ss y)
  then
    if aliased then in_place_with_identical_ss KO CO PO sign conv x false y
    else in_place_with_identical_ss KO CO PO sign conv x aliased y
  else
    '(merged_ss, ins_map_x, ins_map_y) <- merge_symbol_sets (s_ss x) (s_ss y) ;;
    match map_empty ins_map_x, map_empty ins_map_y with
    | true, false =>
        b <- extend_to KO COY POY TO (tag_default TO) true (fun c => c) merged_ss y ins_map_y ;;
        in_place_with_identical_ss KO CO PO sign conv x false b
    | false, true =>
        a <- extend_to KO CO PO TO (tag_default TO) true (fun c => c) merged_ss x ins_map_x ;;
        in_place_with_identical_ss KO CO PO sign conv a aliased y
    | false, false =>
        a <- extend_to KO CO PO TO (tag_default TO) true (fun c => c) merged_ss x ins_map_x ;;
        b <- extend_to KO COY POY TO (tag_default TO) true (fun c => c) merged_ss y ins_map_y ;;
        in_place_with_identical_ss KO CO PO sign conv a false b
    | true, true => Ok x
    end.
