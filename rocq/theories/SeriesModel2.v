(** Model of include/obake/series.hpp, continued: comparison, scalar multiplication and division,
    degrees, evaluation, trimming, filtering, symbol addition, exponentiation. *)
From Coq Require Import ZArith List Bool String Arith.
From Verif Require Import Base IntModel SymModel KeyOps SeriesModel.
Import ListNotations.
Open Scope Z_scope.

Section Ops2.
Context {K C Tag : Type} (KO : key_ops K) (CO : cf_ops C) (PO : tbl_policy (K * C)) (TO : tag_ops Tag).

(** series.hpp:1554-1589: [series_cmp_identical_ss]; [ceq] is operator== between the coefficients
    of the two series.  (lhs.tag() != rhs.tag() is checked only if the tag type is comparable.) *)
Definition series_cmp_identical_ss {C' : Type} (ceq : C -> C' -> bool) (lhs : series K C Tag) (rhs : series K C' Tag) : res bool :=
  let tags_differ := match tag_eqb TO with Some eqb => negb (eqb (s_tag lhs) (s_tag rhs)) | None => false end in
  if tags_differ then Ok false
  else if negb (Nat.eqb (series_size lhs) (series_size rhs)) then Ok false
  else
    (fix loop (l : list (K * C)) : res bool :=
       match l with
       | [] => Ok true
       | (k, c) :: l' =>
           it <- series_find KO rhs k ;;
           if it_eqb it (series_end rhs) then Ok false
           else e <- it_deref rhs it ;; if negb (ceq c (snd e)) then Ok false else loop l'
       end) (terms lhs).

(** series.hpp:1594-1598: [series_are_identical]. *)
Definition series_are_identical (s1 s2 : series K C Tag) : res bool :=
  if ss_eqb (s_ss s1) (s_ss s2) then series_cmp_identical_ss (c_eqb CO) s1 s2 else Ok false.

(** series.hpp:3443-3507: [series_equal_to_impl], algorithm 3, for two series of the same type. *)
Definition series_equal_to (x y : series K C Tag) : res bool :=
  if ss_eqb (s_ss x) (s_ss y) then series_cmp_identical_ss (c_eqb CO) x y
  else
    '(merged_ss, ins_map_x, ins_map_y) <- merge_symbol_sets (s_ss x) (s_ss y) ;;
    match map_empty ins_map_x, map_empty ins_map_y with
    | true, false =>
        b <- extend_to KO CO PO TO (s_tag y) true (fun c => c) merged_ss y ins_map_y ;;
        series_cmp_identical_ss (c_eqb CO) x b
    | false, true =>
        a <- extend_to KO CO PO TO (s_tag x) true (fun c => c) merged_ss x ins_map_x ;;
        series_cmp_identical_ss (c_eqb CO) a y
    | _, _ =>
        a <- extend_to KO CO PO TO (s_tag x) true (fun c => c) merged_ss x ins_map_x ;;
        b <- extend_to KO CO PO TO (s_tag y) true (fun c => c) merged_ss y ins_map_y ;;
        series_cmp_identical_ss (c_eqb CO) a b
    end.

(** series.hpp:3554-3557: operator!=. *)
Definition series_not_equal_to (x y : series K C Tag) : res bool := b <- series_equal_to x y ;; Ok (negb b).

(** series.hpp:3511-3529: [diff_rank_cmp]: comparison of a series with an object of lower rank. *)
Definition series_equal_to_cf {T : Type} (t_is_zero : T -> bool) (ceq : C -> T -> bool) (lhs : series K C Tag) (rhs : T) : res bool :=
  match series_size lhs with
  | O => Ok (t_is_zero rhs)
  | S O => e <- it_deref lhs (series_begin lhs) ;; Ok (k_is_one KO (fst e) (s_ss lhs) && ceq (snd e) rhs)
  | _ => Ok false
  end.

(** series.hpp:3100-3177: the scalar multiplication of [series_default_mul_impl]; the keys whose coefficient
    became zero are collected and erased table by table. *)
Definition scalar_mul_table (b : C) (t : table K C) : table K C :=
  let t1 := map (fun e => (fst e, c_mul CO (snd e) b)) t in
  let v_keys := map fst (filter (fun e => c_is_zero CO (snd e)) t1) in
  fold_left (fun t k => tbl_erase KO t k) v_keys t1.
(** series.hpp:3100-3177 (with the previous definition). *)
Definition series_scalar_mul (a : series K C Tag) (b : C) : series K C Tag :=
  if series_empty a || c_is_zero CO b
  then Series [[]] 0 (s_tag a) (s_ss a)
  else set_tables a (map (scalar_mul_table b) (s_tables a)).

(** series.hpp:3291-3335: [series_default_div_impl]; [cdiv] is the in-place division of a coefficient, which may
    throw (mppp::zero_division_error). *)
Definition series_scalar_div {U : Type} (cdiv : C -> U -> res C) (x : series K C Tag) (y : U) : res (series K C Tag) :=
  ts <- rmap (fun t =>
          es <- rmap (fun e => c <- cdiv (snd e) y ;; Ok (fst e, c)) t ;;
          Ok (filter (fun e => negb (c_is_zero CO (snd e))) es)) (s_tables x) ;;
  Ok (set_tables x ts).

(** series.hpp:3652-3745 and series.hpp:3793-3903: the maximum loop of [degree] and [p_degree]; [deg] is the degree extractor (algorithm 3:
    the coefficient has no degree). *)
Definition max_degree (deg : K * C -> res Z) (s : series K C Tag) : res Z :=
  if series_empty s then Ok 0
  else match terms s with
  | [] => UB
  | e :: l => d <- deg e ;;
      rfold (fun max_deg e => cur <- deg e ;; Ok (if max_deg <? cur then cur else max_deg)) l d
  end.
(** series.hpp:3652-3745 (with the previous definition). *)
Definition series_degree (s : series K C Tag) : res Z := max_degree (fun e => k_degree KO (fst e) (s_ss s)) s.
(** series.hpp:3793-3903. *)
Definition series_p_degree (s : series K C Tag) (syms : symbol_set) : res Z :=
  max_degree (fun e => k_p_degree KO (fst e) (ss_intersect_idx syms (s_ss s)) (s_ss s)) s.

(** series.hpp:3994-4060: [series_default_evaluate_impl]; [ceval] is obake::evaluate on the coefficient. *)
Definition series_evaluate {V U : Type} (vzero vone : V) (vadd vmul : V -> V -> V) (vpow : U -> Z -> res V) (ceval : C -> res V)
  (s : series K C Tag) (sm : symbol_map U) : res V :=
  let si := sm_intersect_idx sm (s_ss s) in
  if negb (Nat.eqb (List.length si) (List.length (s_ss s))) then Throw invalid_argument
  else
    rfold (fun acc e =>
      kv <- k_evaluate KO vone vmul vpow (fst e) si (s_ss s) ;;
      cv <- ceval (snd e) ;;
      Ok (vadd acc (vmul kv cv))) (terms s) vzero.

(** series.hpp:4103-4183: [series_default_trim_impl] (the coefficient of rank 0 is trimmed to itself). *)
Definition series_trim (x : series K C Tag) : res (series K C Tag) :=
  let ss := s_ss x in
  trim_v <- rfold (fun v e => k_trim_identify KO v (fst e) ss) (terms x) (repeat 1 (List.length ss)) ;;
  let flags := combine (combine (seq 0 (List.length ss)) ss) trim_v in
  let si := map (fun p => fst (fst p)) (filter (fun p => negb (snd p =? 0)) flags) in
  let new_ss := map (fun p => snd (fst p)) (filter (fun p => snd p =? 0) flags) in
  r <- set_symbol_set (series_default TO) new_ss ;;
  let r := set_tag r (s_tag x) in
  r <- set_n_segments r (get_s_size r) ;;
  rfold (fun r e => k <- k_trim KO (fst e) si ss ;; add_term KO CO PO true r k (snd e)) (terms x) r.

(** series.hpp:4206-4234: [filtered_impl]. *)
Definition series_filtered (f : K * C -> bool) (s : series K C Tag) : res (series K C Tag) :=
  r <- set_n_segments (Series [[]] 0 (s_tag s) (s_ss s)) (get_s_size s) ;;
  Ok (set_tables r (map (fun in_table =>
        fold_left (fun out e => if f e then fst (tbl_try_emplace KO PO out (fst e) (snd e)) else out) in_table [])
      (s_tables s))).

(** series.hpp:4247-4267: [filter_impl]. *)
Definition series_filter (f : K * C -> bool) (s : series K C Tag) : series K C Tag :=
  set_tables s (map (filter f) (s_tables s)).

(** series.hpp:4285-4305: [add_symbols_impl]. *)
Definition add_symbols (s : series K C Tag) (ss : symbol_set) : res (series K C Tag) :=
  '(merged_ss, ins_map, _) <- merge_symbol_sets (s_ss s) ss ;;
  if map_empty ins_map then Ok s
  else extend_to KO CO PO TO (s_tag s) true (fun c => c) merged_ss s ins_map.

(** series.hpp:1600-1716: the cache of powers of one series type: base -> vector of powers. *)
Definition pow_cache : Type := list (series K C Tag * list (series K C Tag)).

(** series.hpp:1639-1668: the hasher of the cache; [th] is obake::hash on tags, or 0 if tags are not hashable. *)
Definition cache_hash (th : Tag -> Z) (s : series K C Tag) : Z :=
  fold_left (fun h e => (h + k_hash KO (fst e)) mod 2 ^ 64) (terms s) (th (s_tag s)).

(** series.hpp:1690-1705: unordered_map::try_emplace(base): looks the base up with [series_are_identical]
    (the buckets are not modelled: identical series have the same hash, theorem [identical_same_hash]). *)
Fixpoint cache_lookup (m : pow_cache) (base : series K C Tag) : res (option (series K C Tag * list (series K C Tag))) :=
  match m with
  | [] => Ok None
  | (b, v) :: m' => same <- series_are_identical b base ;; if (same : bool) then Ok (Some (b, v)) else cache_lookup m' base
  end.
Fixpoint cache_store (m : pow_cache) (base : series K C Tag) (v : list (series K C Tag)) : res pow_cache :=
  match m with
  | [] => Ok [(base, v)]
  | (b, w) :: m' =>
      same <- series_are_identical b base ;;
      if (same : bool) then Ok ((b, v) :: m') else m1 <- cache_store m' base v ;; Ok ((b, w) :: m1)
  end.

(** series.hpp:1708-1710: [while (v.size() <= n) v.emplace_back(v.back() * b)]; [fuel] is the number of missing
    powers.  The vector filled so far is returned also if a multiplication throws. *)
Fixpoint fill_powers (mul : series K C Tag -> series K C Tag -> res (series K C Tag)) (b : series K C Tag) (fuel : nat)
  (v : list (series K C Tag)) : list (series K C Tag) * res unit :=
  match fuel with
  | O => (v, Ok tt)
  | S f =>
      match (last <- rd v (List.length v - 1) ;; mul last b) with
      | Ok p => fill_powers mul b f (v ++ [p])
      | Throw e => (v, Throw e)
      | UB => (v, UB)
      end
  end.

(** series.hpp:1627-1716: [series_pow_from_cache].  The function runs under a mutex, so a history of calls
    from several threads is a sequence of calls.  The returned pair is the outcome and the new cache (powers computed before an
    exception remain stored). *)
Definition series_pow_from_cache (mul : series K C Tag -> series K C Tag -> res (series K C Tag)) (m : pow_cache)
  (base : series K C Tag) (n : nat) : res (series K C Tag) * pow_cache :=
  match cache_lookup m base with
  | Throw e => (Throw e, m)
  | UB => (UB, m)
  | Ok found =>
      let '(b, v) := match found with Some e => e | None => (base, []) end in
      match (match v with [] => one <- series_of_cf KO CO PO TO (c_one CO) [] ;; Ok [one] | _ => Ok v end) with
      | Throw e => (Throw e, m)
      | UB => (UB, m)
      | Ok v =>
          let '(v', status) := fill_powers mul b (S n - List.length v) v in
          match cache_store m base v' with
          | Throw e => (Throw e, m)
          | UB => (UB, m)
          | Ok m' => (_ <- status ;; rd v' n, m')
          end
      end
  end.

(** series.hpp:1764-1831: the default [pow]; [e_is_zero] is is_zero(e), [un] the result of converting the exponent to
    unsigned (None if it fails), [cpow] is obake::pow(c, e) on the coefficient. *)
Definition series_pow (mul : series K C Tag -> series K C Tag -> res (series K C Tag)) (cpow : C -> res C) (e_is_zero : bool)
  (un : option nat) (m : pow_cache) (b : series K C Tag) : res (series K C Tag) * pow_cache :=
  match is_single_cf KO b with
  | Ok true =>
      (if series_empty b
       then c <- cpow (c_zero CO) ;; series_of_cf KO CO PO TO c []
       else e <- it_deref b (series_begin b) ;; c <- cpow (snd e) ;; series_of_cf KO CO PO TO c [], m)
  | Ok false =>
      if e_is_zero then (series_of_cf KO CO PO TO (c_one CO) [], m)
      else match un with
      | None => (Throw invalid_argument, m)
      | Some n => series_pow_from_cache mul m b n
      end
  | Throw e => (Throw e, m)
  | UB => (UB, m)
  end.
End Ops2.
