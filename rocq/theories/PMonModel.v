(** Model of packed monomials: include/obake/polynomials/packed_monomial.hpp and
    src/polynomials/packed_monomial.cpp.

    A packed monomial is its packed value (a Z of type T = kd_ty D).  The
    asserts (disabled in release builds) are not modelled: they are the
    preconditions stated in the theorems.  static_cast<unsigned>(ss.size()) is the
    identity because compatibility bounds the size by the table length. *)
From Coq Require Import ZArith List Bool String.
From Verif Require Import Base KpackTables KpackModel IntModel SymModel.
Import ListNotations.
Open Scope Z_scope.

(** packed_monomial.hpp:66: default constructor. *)
Definition pm_default : Z := 0.
(** packed_monomial.hpp:68: constructor from symbol set. *)
Definition pm_of_symbol_set (ss : symbol_set) : Z := pm_default.

(** packed_monomial.hpp:72-81: constructor from input iterator and size; the
    range is the list of the values read, of integral type [u]. *)
Fixpoint pm_push_cast (D : kdata) (u : ity) (kp : kpacker) (vs : list Z) : res kpacker :=
  match vs with
  | [] => Ok kp
  | v :: vs' =>
      t <- safe_cast_int (kd_ty D) u v ;;
      kp' <- kpacker_push D kp t ;;
      pm_push_cast D u kp' vs'
  end.
(** packed_monomial.hpp:72-81 (with the previous definition). *)
Definition pm_of_iter (D : kdata) (u : ity) (vs : list Z) (n : nat) : res Z :=
  kp <- kpacker_new D n ;;
  kp' <- pm_push_cast D u kp (firstn n vs) ;;
  Ok (kpacker_get kp').

(** packed_monomial.hpp:86-122: constructors from a pair of forward iterators,
    forward range, initializer list (the distance is a ptrdiff_t). *)
Definition pm_of_range (D : kdata) (u : ity) (vs : list Z) : res Z :=
  n <- safe_cast_int uint32 int64 (Z.of_nat (List.length vs)) ;;
  kp <- kpacker_new D (Z.to_nat n) ;;
  kp' <- pm_push_cast D u kp vs ;;
  Ok (kpacker_get kp').

(** packed_monomial.hpp:145-149. *)
Definition pm_key_is_zero (p : Z) (ss : symbol_set) : bool := false.
(** packed_monomial.hpp:152-156. *)
Definition pm_key_is_one (p : Z) (ss : symbol_set) : bool := p =? 0.
(** packed_monomial.hpp:159-169. *)
Definition pm_eq (a b : Z) : bool := a =? b.
(** packed_monomial.hpp:159-169 (with the previous definition). *)
Definition pm_neq (a b : Z) : bool := negb (a =? b).
(** packed_monomial.hpp:172-176. *)
Definition pm_hash (p : Z) : Z := wrap size_t p.

(** packed_monomial.hpp:179-204: [key_is_compatible]. *)
Definition pm_compatible (D : kdata) (p : Z) (ss : symbol_set) : res bool :=
  match List.length ss with
  | O => Ok (p =? 0)
  | s_size =>
      if (kpack_max_size D <? s_size)%nat then Ok false
      else
        '(klim_min, klim_max) <- kpack_get_klims D s_size ;;
        Ok ((klim_min <=? p) && (p <=? klim_max))
  end.

(** packed_monomial.hpp:249-262: [monomial_mul]. *)
Definition pm_mul (D : kdata) (a b : Z) (ss : symbol_set) : res Z := arith (kd_ty D) (a + b).

(** src/polynomials/packed_monomial.cpp:56-58, 278, 345, 402 and others: the loop [for (i = 0; i < n; ++i) { ku >> tmp; body }] that most functions
    below share; [body] gets the state, i and tmp. *)
Fixpoint unpack_loop {S : Type} (D : kdata) (n i : nat) (ku : kunpacker)
    (body : S -> nat -> Z -> res S) (st : S) : res S :=
  match n with
  | O => Ok st
  | Datatypes.S n' =>
      '(tmp, ku') <- kunpacker_pop D ku ;;
      st' <- body st i tmp ;;
      unpack_loop D n' (Datatypes.S i) ku' body st'
  end.

(** packed_monomial.hpp:346-365: limits initialised from the first monomials.
    A limit is a pair (min, max); for unsigned T the code stores the maximum only
    and the first component of the pair is unused here. *)
Definition lims : Type := list (Z * Z).
(** packed_monomial.hpp:346-365 (with the previous definition). *)
Definition pm_init_limits (D : kdata) (s_size : nat) (p : Z) : res lims :=
  ku <- kunpacker_new D p s_size ;;
  unpack_loop D s_size 0 ku (fun l _ tmp => Ok (l ++ [(tmp, tmp)])) [].

(** packed_monomial.hpp:383-388, 418-423: updating one entry of the limits. *)
Definition pm_update_entry (D : kdata) (e : Z * Z) (tmp : Z) : Z * Z :=
  if sgnd (kd_ty D)
  then ((if tmp <? fst e then tmp else fst e), (if snd e <? tmp then tmp else snd e))
  else (fst e, if snd e <? tmp then tmp else snd e).

(** packed_monomial.hpp:375-395: limits[i] = x; out of range is undefined behaviour. *)
Definition upd_nth {A : Type} (l : list A) (i : nat) (f : A -> A) : res (list A) :=
  match nth_error l i with
  | None => UB
  | Some x => Ok (firstn i l ++ f x :: skipn (S i) l)
  end.

(** packed_monomial.hpp:374-390, 412-425: the body of the loops over monomials. *)
Definition pm_update_limits (D : kdata) (s_size : nat) (l : lims) (p : Z) : res lims :=
  ku <- kunpacker_new D p s_size ;;
  unpack_loop D s_size 0 ku (fun l i tmp => upd_nth l i (fun e => pm_update_entry D e tmp)) l.

(** packed_monomial.hpp:369-395: serial implementation for one range (without
    its first element). *)
Definition pm_limits_serial (D : kdata) (s_size : nat) (rest : list Z) (l : lims) : res lims :=
  rfold (pm_update_limits D s_size) rest l.

(** packed_monomial.hpp:430-446: the join functor of the parallel reduction. *)
Definition pm_join_entry (D : kdata) (e1 e2 : Z * Z) : Z * Z :=
  if sgnd (kd_ty D)
  then ((if fst e2 <? fst e1 then fst e2 else fst e1), (if snd e1 <? snd e2 then snd e2 else snd e1))
  else (fst e1, if snd e1 <? snd e2 then snd e2 else snd e1).
(** packed_monomial.hpp:430-446 (with the previous definition). *)
Fixpoint pm_join (D : kdata) (s_size : nat) (l1 l2 : lims) : res lims :=
  match s_size, l1, l2 with
  | O, _, _ => Ok []
  | S n, e1 :: l1', e2 :: l2' => r <- pm_join D n l1' l2' ;; Ok (pm_join_entry D e1 e2 :: r)
  | S _, _, _ => UB
  end.

(** packed_monomial.hpp:402-447: tbb::parallel_reduce over the rest of a range
    with identity [idv].  TBB may cut the range anywhere, run the functor on
    consecutive pieces continuing from the current value, start a new value from
    the identity for a stolen right part, and join it afterwards:
    [par_reduce f j idv v l r] means that processing [l] from the value [v] may
    yield [r]. *)
Inductive par_reduce (f : lims -> Z -> res lims) (j : lims -> lims -> res lims) (idv : lims)
  : lims -> list Z -> lims -> Prop :=
  | par_run : forall v l r, rfold f l v = Ok r -> par_reduce f j idv v l r
  | par_seq : forall v l1 l2 v1 r,
      par_reduce f j idv v l1 v1 -> par_reduce f j idv v1 l2 r -> par_reduce f j idv v (l1 ++ l2) r
  | par_split : forall v l1 l2 v1 v2 r,
      par_reduce f j idv v l1 v1 -> par_reduce f j idv idv l2 v2 -> j v1 v2 = Ok r ->
      par_reduce f j idv v (l1 ++ l2) r.

(** packed_monomial.hpp:460-485: interval sum against the component limits, in
    multiprecision arithmetic. *)
Fixpoint pm_check_sums (D : kdata) (lim_min lim_max : Z) (n : nat) (l1 l2 : lims) : res bool :=
  match n with
  | O => Ok true
  | S n' =>
      match l1, l2 with
      | e1 :: l1', e2 :: l2' =>
          if sgnd (kd_ty D)
          then
            if (fst e1 + fst e2 <? lim_min) || (lim_max <? snd e1 + snd e2) then Ok false
            else pm_check_sums D lim_min lim_max n' l1' l2'
          else
            if lim_max <? snd e1 + snd e2 then Ok false
            else pm_check_sums D lim_min lim_max n' l1' l2'
      | _, _ => UB
      end
  end.

(** packed_monomial.hpp:297-488: [monomial_range_overflow_check].  The relation
    contains every verdict that some schedule can produce; [ra] says whether
    both ranges are random-access. *)
Definition pm_par_path (ra : bool) (r1 r2 : list Z) : bool :=
  ra && ((5000 <? Z.of_nat (List.length r1)) || (5000 <? Z.of_nat (List.length r2))).

(** packed_monomial.hpp:297-488 (with the previous definition). *)
Inductive pm_overflow_check (D : kdata) (ra : bool) (ss : symbol_set)
  : list Z -> list Z -> res bool -> Prop :=
  | oc_no_symbols : forall r1 r2, ss = [] -> pm_overflow_check D ra ss r1 r2 (Ok true)
  | oc_empty : forall r1 r2, ss <> [] -> (r1 = [] \/ r2 = []) -> pm_overflow_check D ra ss r1 r2 (Ok true)
  | oc_serial : forall p1 r1 p2 r2,
      ss <> [] -> pm_par_path ra (p1 :: r1) (p2 :: r2) = false ->
      pm_overflow_check D ra ss (p1 :: r1) (p2 :: r2)
        (i1 <- pm_init_limits D (List.length ss) p1 ;;
         i2 <- pm_init_limits D (List.length ss) p2 ;;
         l1 <- pm_limits_serial D (List.length ss) r1 i1 ;;
         l2 <- pm_limits_serial D (List.length ss) r2 i2 ;;
         '(lim_min, lim_max) <- kpack_get_lims D (List.length ss) ;;
         pm_check_sums D lim_min lim_max (List.length ss) l1 l2)
  | oc_parallel : forall p1 r1 p2 r2 i1 i2 l1 l2,
      ss <> [] -> pm_par_path ra (p1 :: r1) (p2 :: r2) = true ->
      pm_init_limits D (List.length ss) p1 = Ok i1 ->
      pm_init_limits D (List.length ss) p2 = Ok i2 ->
      par_reduce (pm_update_limits D (List.length ss)) (pm_join D (List.length ss)) i1 i1 r1 l1 ->
      par_reduce (pm_update_limits D (List.length ss)) (pm_join D (List.length ss)) i2 i2 r2 l2 ->
      pm_overflow_check D ra ss (p1 :: r1) (p2 :: r2)
        ('(lim_min, lim_max) <- kpack_get_lims D (List.length ss) ;;
         pm_check_sums D lim_min lim_max (List.length ss) l1 l2).

(** packed_monomial.hpp:518-560: [monomial_pow].  The exponent is [None] when
    safe_convert to a multiprecision integer fails; static_cast<T> of a
    multiprecision integer throws overflow_error when it does not fit (mp++). *)
Definition pm_pow (D : kdata) (p : Z) (n : option Z) (ss : symbol_set) : res Z :=
  match n with
  | None => Throw invalid_argument
  | Some e =>
      let s_size := List.length ss in
      ku <- kunpacker_new D p s_size ;;
      kp <- kpacker_new D s_size ;;
      kp' <- unpack_loop D s_size 0 ku
               (fun kp _ tmp =>
                  if in_ity (kd_ty D) (tmp * e) then kpacker_push D kp (tmp * e)
                  else Throw overflow_error) kp ;;
      Ok (kpacker_get kp')
  end.

(** packed_monomial.hpp:608-631: [key_evaluate]; [vpow x e] is the outcome of
    obake::pow(x, e) and [vmul] in-place multiplication on the result type. *)
Fixpoint pm_eval_loop {V U : Type} (D : kdata) (vmul : V -> V -> V) (vpow : U -> Z -> res V)
    (sm : symbol_idx_map U) (ku : kunpacker) (retval : V) : res V :=
  match sm with
  | [] => Ok retval
  | (_, x) :: sm' =>
      '(tmp, ku') <- kunpacker_pop D ku ;;
      p <- vpow x tmp ;;
      pm_eval_loop D vmul vpow sm' ku' (vmul retval p)
  end.
(** packed_monomial.hpp:608-631 (with the previous definition). *)
Definition pm_evaluate {V U : Type} (D : kdata) (vone : V) (vmul : V -> V -> V) (vpow : U -> Z -> res V)
    (p : Z) (sm : symbol_idx_map U) (ss : symbol_set) : res V :=
  ku <- kunpacker_new D p (List.length ss) ;;
  pm_eval_loop D vmul vpow sm ku vone.

(** packed_monomial.hpp:654-697: [monomial_subs]; the state is (retval, kp, sm_it). *)
Definition pm_subs {V U : Type} (D : kdata) (vone : V) (vmul : V -> V -> V) (vpow : U -> Z -> res V)
    (p : Z) (sm : symbol_idx_map U) (ss : symbol_set) : res (V * Z) :=
  let s_size := List.length ss in
  ku <- kunpacker_new D p s_size ;;
  kp <- kpacker_new D s_size ;;
  '(retval, kp', _) <-
    unpack_loop D s_size 0 ku
      (fun '(retval, kp, sm_it) i tmp =>
         match sm_it with
         | (j, x) :: sm' =>
             if (j =? i)%nat
             then
               pw <- vpow x tmp ;;
               kp' <- kpacker_push D kp 0 ;;
               Ok (vmul retval pw, kp', sm')
             else kp' <- kpacker_push D kp tmp ;; Ok (retval, kp', sm_it)
         | [] => kp' <- kpacker_push D kp tmp ;; Ok (retval, kp', sm_it)
         end)
      (vone, kp, sm) ;;
  Ok (retval, kpacker_get kp').

(** src/polynomials/packed_monomial.cpp:244-254: the merged size. *)
Definition pm_merged_size (ins_map : symbol_idx_map symbol_set) (s : symbol_set) : res Z :=
  rfold (fun merged (p : nat * symbol_set) =>
           let tmp_size := Z.of_nat (List.length (snd p)) in
           if imax size_t - merged <? tmp_size then Throw overflow_error else Ok (merged + tmp_size))
        ins_map (Z.of_nat (List.length s)).

(** src/polynomials/packed_monomial.cpp:262-280 (loop over the symbols of s) and
    282-289 (symbols appended at the end). *)
Fixpoint pm_merge_loop (D : kdata) (n i : nat) (ku : kunpacker) (map_it : symbol_idx_map symbol_set)
    (kp : kpacker) : res kpacker :=
  match n with
  | O =>
      match map_it with
      | [] => Ok kp
      | (_, syms) :: _ => rfold (fun kp (_ : string) => kpacker_push D kp 0) syms kp
      end
  | S n' =>
      '(kp1, map_it') <-
        (match map_it with
         | (j, syms) :: rest =>
             if (j =? i)%nat
             then kp1 <- rfold (fun kp (_ : string) => kpacker_push D kp 0) syms kp ;; Ok (kp1, rest)
             else Ok (kp, map_it)
         | [] => Ok (kp, map_it)
         end) ;;
      '(tmp, ku') <- kunpacker_pop D ku ;;
      kp2 <- kpacker_push D kp1 tmp ;;
      pm_merge_loop D n' (S i) ku' map_it' kp2
  end.

(** src/polynomials/packed_monomial.cpp:234-292: [key_merge_symbols]. *)
Definition pm_merge_symbols (D : kdata) (m : Z) (ins_map : symbol_idx_map symbol_set) (s : symbol_set)
  : res Z :=
  merged_size <- pm_merged_size ins_map s ;;
  ku <- kunpacker_new D m (List.length s) ;;
  n <- safe_cast_int uint32 size_t merged_size ;;
  kp <- kpacker_new D (Z.to_nat n) ;;
  kp' <- pm_merge_loop D (List.length s) 0 ku ins_map kp ;;
  Ok (kpacker_get kp').

(** src/polynomials/packed_monomial.cpp:334-350: [key_degree]. *)
Definition pm_degree (D : kdata) (p : Z) (ss : symbol_set) : res Z :=
  ku <- kunpacker_new D p (List.length ss) ;;
  unpack_loop D (List.length ss) 0 ku (fun retval _ tmp => arith (kd_ty D) (retval + tmp)) 0.

(** src/polynomials/packed_monomial.cpp:388-412: [key_p_degree]; the loop stops
    as soon as the index set is exhausted. *)
Fixpoint pm_p_degree_loop (D : kdata) (n i : nat) (ku : kunpacker) (si_it : symbol_idx_set) (retval : Z)
  : res Z :=
  match n with
  | O => Ok retval
  | S n' =>
      match si_it with
      | [] => Ok retval
      | j :: si' =>
          '(tmp, ku') <- kunpacker_pop D ku ;;
          if (i =? j)%nat
          then r <- arith (kd_ty D) (retval + tmp) ;; pm_p_degree_loop D n' (S i) ku' si' r
          else pm_p_degree_loop D n' (S i) ku' si_it retval
      end
  end.
(** src/polynomials/packed_monomial.cpp:388-412 (with the previous definition). *)
Definition pm_p_degree (D : kdata) (p : Z) (si : symbol_idx_set) (ss : symbol_set) : res Z :=
  ku <- kunpacker_new D p (List.length ss) ;;
  pm_p_degree_loop D (List.length ss) 0 ku si 0.

(** src/polynomials/packed_monomial.cpp:451-471: [key_trim_identify]; v is a
    vector of flags. *)
Definition pm_trim_identify (D : kdata) (v : list Z) (p : Z) (ss : symbol_set) : res (list Z) :=
  ku <- kunpacker_new D p (List.length ss) ;;
  unpack_loop D (List.length ss) 0 ku
    (fun v i tmp => if negb (tmp =? 0) then upd_nth v i (fun _ => 0) else Ok v) v.

(** src/polynomials/packed_monomial.cpp:511-542: [key_trim]. *)
Definition pm_trim (D : kdata) (p : Z) (si : symbol_idx_set) (ss : symbol_set) : res Z :=
  let s_size := List.length ss in
  ku <- kunpacker_new D p s_size ;;
  kp <- kpacker_new D (s_size - List.length si) ;;
  '(kp', _) <-
    unpack_loop D s_size 0 ku
      (fun '(kp, si_it) i tmp =>
         match si_it with
         | j :: si' =>
             if (j =? i)%nat then Ok (kp, si') else kp' <- kpacker_push D kp tmp ;; Ok (kp', si_it)
         | [] => kp' <- kpacker_push D kp tmp ;; Ok (kp', si_it)
         end) (kp, si) ;;
  Ok (kpacker_get kp').

(** src/polynomials/packed_monomial.cpp:585-618: [monomial_diff]. *)
Definition pm_diff (D : kdata) (p : Z) (idx : symbol_idx) (ss : symbol_set) : res (Z * Z) :=
  let s_size := List.length ss in
  ku <- kunpacker_new D p s_size ;;
  kp <- kpacker_new D s_size ;;
  '(ret_exp, kp') <-
    unpack_loop D s_size 0 ku
      (fun '(ret_exp, kp) i tmp =>
         '(ret_exp', tmp') <-
           (if (i =? idx)%nat && negb (tmp =? 0)
            then t <- arith (kd_ty D) (tmp - 1) ;; Ok (tmp, t)
            else Ok (ret_exp, tmp)) ;;
         kp' <- kpacker_push D kp tmp' ;;
         Ok (ret_exp', kp')) (0, kp) ;;
  Ok (ret_exp, kpacker_get kp').

(** src/polynomials/packed_monomial.cpp:661-703: [monomial_integrate]. *)
Definition pm_integrate (D : kdata) (p : Z) (idx : symbol_idx) (ss : symbol_set) : res (Z * Z) :=
  let s_size := List.length ss in
  ku <- kunpacker_new D p s_size ;;
  kp <- kpacker_new D s_size ;;
  '(ret_exp, kp') <-
    unpack_loop D s_size 0 ku
      (fun '(ret_exp, kp) i tmp =>
         '(ret_exp', tmp') <-
           (if (i =? idx)%nat
            then
              if sgnd (kd_ty D) && (tmp =? -1) then Throw domain_error
              else t <- arith (kd_ty D) (tmp + 1) ;; Ok (t, t)
            else Ok (ret_exp, tmp)) ;;
         kp' <- kpacker_push D kp tmp' ;;
         Ok (ret_exp', kp')) (0, kp) ;;
  Ok (ret_exp, kpacker_get kp').
