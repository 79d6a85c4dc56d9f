(** Model of include/obake/symbols.hpp and src/symbols.cpp: symbol sets. *)
From Coq Require Import ZArith List Bool String.
From Verif Require Import Base.
Import ListNotations.
Open Scope Z_scope.

(** include/obake/symbols.hpp:38-54: symbol_set, symbol_idx, symbol_idx_set,
    symbol_map, symbol_idx_map.  Flat sets/maps are sequences sorted by key;
    the model is the sequence itself. *)
Definition symbol_set : Type := list string.
(** include/obake/symbols.hpp:38-54 (with the previous definition). *)
Definition symbol_idx : Type := nat.
(** include/obake/symbols.hpp:38-54 (with the previous definition). *)
Definition symbol_idx_set : Type := list nat.
(** include/obake/symbols.hpp:38-54 (with the previous definition). *)
Definition symbol_map (T : Type) : Type := list (string * T).
(** include/obake/symbols.hpp:38-54 (with the previous definition). *)
Definition symbol_idx_map (T : Type) : Type := list (nat * T).

(** operator< of std::string: lexicographic comparison of unsigned bytes. *)
Definition str_lt (a b : string) : bool :=
  match String.compare a b with Lt => true | _ => false end.

(** std::set_union on two sorted ranges (src/symbols.cpp:96). *)
Fixpoint set_union (a b : list string) : list string :=
  let fix aux (b : list string) : list string :=
    match a with
    | [] => b
    | x :: a' =>
        match b with
        | [] => x :: a'
        | y :: b' =>
            if str_lt y x then y :: aux b'
            else if str_lt x y then x :: set_union a' (y :: b')
            else x :: set_union a' b'
        end
    end
  in aux b.

(** src/symbols.cpp:125-131: the symbols of the union before [cur_sym];
    dereferencing the end iterator is undefined behaviour. *)
Fixpoint take_before (u : list string) (cur_sym : string) : res (list string * list string) :=
  match u with
  | [] => UB
  | x :: u' =>
      if str_lt x cur_sym
      then '(pre, rest) <- take_before u' cur_sym ;; Ok (x :: pre, rest)
      else Ok ([], u)
  end.

(** src/symbols.cpp:106-144: [compute_map], from position [i] of [s] and the
    iterator [u_it] (the rest of the union). *)
Fixpoint compute_map (i : nat) (u_it : list string) (s : symbol_set) : res (symbol_idx_map symbol_set) :=
  match s with
  | [] => match u_it with [] => Ok [] | _ => Ok [(i, u_it)] end
  | cur_sym :: s' =>
      '(pre, rest) <- take_before u_it cur_sym ;;
      match rest with
      | [] => UB
      | _ :: u_it' =>
          m <- compute_map (S i) u_it' s' ;;
          Ok (match pre with [] => m | _ => (i, pre) :: m end)
      end
  end.

(** src/symbols.cpp:74-169: [merge_symbol_sets]. *)
Definition merge_symbol_sets (s1 s2 : symbol_set)
  : res (symbol_set * symbol_idx_map symbol_set * symbol_idx_map symbol_set) :=
  if imax size_t - Z.of_nat (List.length s2) <? Z.of_nat (List.length s1)
  then Throw overflow_error
  else
    let u := set_union s1 s2 in
    m1 <- compute_map 0 u s1 ;;
    m2 <- compute_map 0 u s2 ;;
    Ok (u, m1, m2).

(** std::lower_bound on a sorted range: the first position whose element is not
    less than [n].  Simplification: linear instead of binary search (same result
    on sorted ranges).  Returns the skipped count and the remaining range. *)
Fixpoint lower_bound (l : list string) (n : string) : nat * list string :=
  match l with
  | [] => (0%nat, [])
  | x :: l' => if str_lt x n then let '(k, r) := lower_bound l' n in (S k, r) else (0%nat, l)
  end.

(** include/obake/symbols.hpp:69-106: the loop of [sm_intersect_idx]; [off] is
    the index of the iterator [it] in [s_ref] and [it] the range from there on. *)
Fixpoint sm_intersect_loop {T : Type} (m : symbol_map T) (off : nat) (it : list string)
  : symbol_idx_map T :=
  match m with
  | [] => []
  | (n, v) :: m' =>
      let '(k, r) := lower_bound it n in
      match r with
      | [] => []
      | x :: r' =>
          if String.eqb x n
          then ((off + k)%nat, v) :: sm_intersect_loop m' (S (off + k)) r'
          else sm_intersect_loop m' (off + k) r
      end
  end.

(** include/obake/symbols.hpp:69-146: [sm_intersect_idx]. *)
Definition sm_intersect_idx {T : Type} (m : symbol_map T) (s_ref : symbol_set) : symbol_idx_map T :=
  sm_intersect_loop m 0 s_ref.

(** src/symbols.cpp:177-211: the loop of [ss_intersect_idx]. *)
Fixpoint ss_intersect_loop (s : symbol_set) (off : nat) (it : list string) : symbol_idx_set :=
  match s with
  | [] => []
  | n :: s' =>
      let '(k, r) := lower_bound it n in
      match r with
      | [] => []
      | x :: r' =>
          if String.eqb x n
          then (off + k)%nat :: ss_intersect_loop s' (S (off + k)) r'
          else ss_intersect_loop s' (off + k) r
      end
  end.

(** src/symbols.cpp:177-242: [ss_intersect_idx]. *)
Definition ss_intersect_idx (s s_ref : symbol_set) : symbol_idx_set := ss_intersect_loop s 0 s_ref.
