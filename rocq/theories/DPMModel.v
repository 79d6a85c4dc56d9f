(** Model of dynamic packed monomials: include/obake/polynomials/d_packed_monomial.hpp.

    A dynamic packed monomial is its container (m_container): a list of packed
    values of type T = kd_ty D, [ps] exponents per value (PSize, between 1 and
    the maximal size).  Asserts are not modelled (they are the theorems'
    preconditions).  The casts of container sizes (std::size_t to std::size_t)
    are identities. *)
From Coq Require Import ZArith List Bool String.
From Verif Require Import Base KpackTables KpackModel IntModel SymModel PMonModel.
Import ListNotations.
Open Scope Z_scope.

Definition dpm : Type := list Z.

(** d_packed_monomial.hpp:71-74: [dpm_n_expos_to_vsize]. *)
Definition dpm_vsize (ps n : nat) : nat := (n / ps + (if Nat.eqb (n mod ps) 0 then 0 else 1))%nat.

(** d_packed_monomial.hpp:100: default constructor. *)
Definition dpm_default : dpm := [].
(** d_packed_monomial.hpp:103-107: constructor from symbol set (value-initialised). *)
Definition dpm_of_symbol_set (ps : nat) (ss : symbol_set) : dpm := repeat 0 (dpm_vsize ps (List.length ss)).

(** d_packed_monomial.hpp:127-131 and 151-155: the inner loop of the constructors,
    which packs at most [j] of the remaining input values of type [u]. *)
Fixpoint dpm_pack_inner (D : kdata) (u : ity) (j : nat) (kp : kpacker) (it : list Z) : res (kpacker * list Z) :=
  match j, it with
  | O, _ => Ok (kp, it)
  | _, [] => Ok (kp, it)
  | S j', v :: it' =>
      t <- safe_cast_int (kd_ty D) u v ;;
      kp' <- kpacker_push D kp t ;;
      dpm_pack_inner D u j' kp' it'
  end.

(** d_packed_monomial.hpp:110-135: constructor from an input iterator and size
    [n]; the outer loop runs over the [k] elements of the container. *)
Fixpoint dpm_iter_loop (D : kdata) (ps : nat) (u : ity) (k : nat) (it : list Z) : res dpm :=
  match k with
  | O => Ok []
  | S k' =>
      kp <- kpacker_new D ps ;;
      '(kp', it') <- dpm_pack_inner D u ps kp it ;;
      c <- dpm_iter_loop D ps u k' it' ;;
      Ok (kpacker_get kp' :: c)
  end.
(** d_packed_monomial.hpp:110-135 (with the previous definition). *)
Definition dpm_of_iter (D : kdata) (ps : nat) (u : ity) (vs : list Z) (n : nat) : res dpm :=
  dpm_iter_loop D ps u (dpm_vsize ps n) (firstn n vs).

(** d_packed_monomial.hpp:145-190: constructors from a pair of input iterators,
    input range, initializer list (while (b != e)).  [fuel] bounds the number of
    iterations of the outer loop; running out of it would mean that the loop does
    not terminate ([UB]). *)
Fixpoint dpm_range_loop (D : kdata) (ps : nat) (u : ity) (fuel : nat) (it : list Z) : res dpm :=
  match it with
  | [] => Ok []
  | _ =>
      match fuel with
      | O => UB
      | S fuel' =>
          kp <- kpacker_new D ps ;;
          '(kp', it') <- dpm_pack_inner D u ps kp it ;;
          c <- dpm_range_loop D ps u fuel' it' ;;
          Ok (kpacker_get kp' :: c)
      end
  end.
(** d_packed_monomial.hpp:145-190 (with the previous definition). *)
Definition dpm_of_range (D : kdata) (ps : nat) (u : ity) (vs : list Z) : res dpm :=
  dpm_range_loop D ps u (List.length vs) vs.

(** d_packed_monomial.hpp:247-258. *)
Definition dpm_key_is_zero (d : dpm) (ss : symbol_set) : bool := false.
(** d_packed_monomial.hpp:247-258 (with the previous definition). *)
Definition dpm_key_is_one (d : dpm) (ss : symbol_set) : bool := forallb (fun n => n =? 0) d.

(** d_packed_monomial.hpp:261-271: element-wise comparison of the containers. *)
Fixpoint dpm_eq (a b : dpm) : bool :=
  match a, b with
  | [], [] => true
  | x :: a', y :: b' => (x =? y) && dpm_eq a' b'
  | _, _ => false
  end.
(** d_packed_monomial.hpp:261-271 (with the previous definition). *)
Definition dpm_neq (a b : dpm) : bool := negb (dpm_eq a b).

(** d_packed_monomial.hpp:274-284: sum of the packs modulo 2^64. *)
Definition dpm_hash (d : dpm) : Z := fold_left (fun ret n => wrap size_t (ret + wrap size_t n)) d 0.

(** d_packed_monomial.hpp:291-325: [key_is_compatible]. *)
Definition dpm_compatible (D : kdata) (ps : nat) (d : dpm) (s : symbol_set) : res bool :=
  if negb (Nat.eqb (List.length d) (dpm_vsize ps (List.length s))) then Ok false
  else
    '(klim_min, klim_max) <- kpack_get_klims D ps ;;
    Ok (forallb (fun n => negb ((n <? klim_min) || (klim_max <? n))) d).

(** d_packed_monomial.hpp:309-321, 908-926, 938-955 and others: the loop
      for (n : c) { kunpacker ku(n, PSize); for (j = 0; j < PSize && cond; ++j, ++idx) { ku >> tmp; body } }
    shared by most functions below.  [cond] gets the state and idx. *)
Fixpoint dpm_inner {S : Type} (D : kdata) (cond : S -> nat -> bool) (body : S -> nat -> Z -> res S)
    (j idx : nat) (ku : kunpacker) (st : S) : res (nat * S) :=
  match j with
  | O => Ok (idx, st)
  | Datatypes.S j' =>
      if cond st idx
      then
        '(tmp, ku') <- kunpacker_pop D ku ;;
        st' <- body st idx tmp ;;
        dpm_inner D cond body j' (Datatypes.S idx) ku' st'
      else Ok (idx, st)
  end.
Fixpoint dpm_read {S : Type} (D : kdata) (ps : nat) (cond : S -> nat -> bool) (body : S -> nat -> Z -> res S)
    (c : dpm) (idx : nat) (st : S) : res S :=
  match c with
  | [] => Ok st
  | n :: c' =>
      ku <- kunpacker_new D n ps ;;
      '(idx', st') <- dpm_inner D cond body ps idx ku st ;;
      dpm_read D ps cond body c' idx' st'
  end.

(** The condition idx < s_size of these loops, d_packed_monomial.hpp:913, 945. *)
Definition dpm_lt (s_size : nat) {S : Type} (_ : S) (idx : nat) : bool := (idx <? s_size)%nat.

(** d_packed_monomial.hpp:1148-1175, 1247-1275, 1298-1330 and others: the same loop with a packer: a fresh packer for every pack, [g] computes the
    value that is pushed in place of tmp, and out_c.push_back(kp.get()) at the end. *)
Fixpoint dpm_repack {S : Type} (D : kdata) (ps s_size : nat) (g : S -> nat -> Z -> res (S * Z))
    (c : dpm) (idx : nat) (st : S) : res (S * dpm) :=
  match c with
  | [] => Ok (st, [])
  | n :: c' =>
      ku <- kunpacker_new D n ps ;;
      kp <- kpacker_new D ps ;;
      '(idx', (st', kp')) <-
        dpm_inner D (dpm_lt s_size)
          (fun '(st, kp) i tmp =>
             '(st', w) <- g st i tmp ;;
             kp' <- kpacker_push D kp w ;;
             Ok (st', kp')) ps idx ku (st, kp) ;;
      '(st'', out) <- dpm_repack D ps s_size g c' idx' st' ;;
      Ok (st'', kpacker_get kp' :: out)
  end.

(** d_packed_monomial.hpp:473-520: [key_merge_symbols]; the state is (tmp_v, map_it). *)
Definition dpm_merge_symbols (D : kdata) (ps : nat) (d : dpm) (ins_map : symbol_idx_map symbol_set) (s : symbol_set)
  : res dpm :=
  '(tmp_v, map_it) <-
    dpm_read D ps (dpm_lt (List.length s))
      (fun '(tmp_v, map_it) idx tmp =>
         let '(tmp_v', map_it') :=
           match map_it with
           | (j, syms) :: rest =>
               if (j =? idx)%nat then (tmp_v ++ repeat 0 (List.length syms), rest) else (tmp_v, map_it)
           | [] => (tmp_v, map_it)
           end in
         Ok (tmp_v' ++ [tmp], map_it'))
      d 0%nat ([], ins_map) ;;
  let tmp_v' := match map_it with [] => tmp_v | (_, syms) :: _ => tmp_v ++ repeat 0 (List.length syms) end in
  dpm_of_range D ps (kd_ty D) tmp_v'.

(** d_packed_monomial.hpp:532-551: [monomial_mul] (std::transform; reading b
    past its end is undefined behaviour). *)
Fixpoint dpm_mul (D : kdata) (a b : dpm) : res dpm :=
  match a, b with
  | [], _ => Ok []
  | x :: a', y :: b' => z <- arith (kd_ty D) (x + y) ;; c <- dpm_mul D a' b' ;; Ok (z :: c)
  | _ :: _, [] => UB
  end.

(** d_packed_monomial.hpp:618-706 (initialisation), 708-746 (serial update): the
    limits of a range: per component (min, max) and the degree's (min, max).
    For unsigned T only the maxima exist; the first components are then unused. *)
Definition dlims : Type := lims * (Z * Z).
(** d_packed_monomial.hpp:618-706 (with the previous definition). *)
Definition dpm_init_limits (D : kdata) (ps s_size : nat) (d : dpm) : res dlims :=
  '(l, deg) <- dpm_read D ps (dpm_lt s_size) (fun '(l, deg) _ tmp => Ok (l ++ [(tmp, tmp)], deg + tmp)) d 0%nat ([], 0) ;;
  Ok (l, (deg, deg)).

(** d_packed_monomial.hpp:711-745 and 771-801: one monomial. *)
Definition dpm_update_entry (D : kdata) (e : Z * Z) (x : Z) : Z * Z :=
  if sgnd (kd_ty D) then (Z.min (fst e) x, Z.max (snd e) x) else (fst e, Z.max (snd e) x).
(** d_packed_monomial.hpp:711-745 and 771-801 (with the previous definition). *)
Definition dpm_update_limits (D : kdata) (ps s_size : nat) (st : dlims) (d : dpm) : res dlims :=
  let '(l, dl) := st in
  '(l', deg) <-
    dpm_read D ps (dpm_lt s_size)
      (fun '(l, deg) idx tmp => l' <- upd_nth l idx (fun e => dpm_update_entry D e tmp) ;; Ok (l', deg + tmp))
      d 0%nat (l, 0) ;;
  Ok (l', dpm_update_entry D dl deg).

(** d_packed_monomial.hpp:803-832: the join of the parallel reduction. *)
Definition dpm_join_entry (D : kdata) (e1 e2 : Z * Z) : Z * Z :=
  if sgnd (kd_ty D) then (Z.min (fst e1) (fst e2), Z.max (snd e1) (snd e2)) else (fst e1, Z.max (snd e1) (snd e2)).
(** d_packed_monomial.hpp:803-832 (with the previous definition). *)
Fixpoint dpm_join_lims (D : kdata) (n : nat) (l1 l2 : lims) : res lims :=
  match n, l1, l2 with
  | O, _, _ => Ok []
  | S n', e1 :: l1', e2 :: l2' => r <- dpm_join_lims D n' l1' l2' ;; Ok (dpm_join_entry D e1 e2 :: r)
  | S _, _, _ => UB
  end.
(** d_packed_monomial.hpp:803-832 (with the previous definition). *)
Definition dpm_join (D : kdata) (n : nat) (s1 s2 : dlims) : res dlims :=
  l <- dpm_join_lims D n (fst s1) (fst s2) ;; Ok (l, dpm_join_entry D (snd s1) (snd s2)).

(** tbb::parallel_reduce, as in PMonModel.v ([par_reduce]). *)
Inductive dpar_reduce (f : dlims -> dpm -> res dlims) (j : dlims -> dlims -> res dlims) (idv : dlims)
  : dlims -> list dpm -> dlims -> Prop :=
  | dpar_run : forall v l r, rfold f l v = Ok r -> dpar_reduce f j idv v l r
  | dpar_seq : forall v l1 l2 v1 r,
      dpar_reduce f j idv v l1 v1 -> dpar_reduce f j idv v1 l2 r -> dpar_reduce f j idv v (l1 ++ l2) r
  | dpar_split : forall v l1 l2 v1 v2 r,
      dpar_reduce f j idv v l1 v1 -> dpar_reduce f j idv idv l2 v2 -> j v1 v2 = Ok r ->
      dpar_reduce f j idv v (l1 ++ l2) r.

(** d_packed_monomial.hpp:857-895: the sums against the component limits for
    [ps] and the degrees against the limits of T, in multiprecision arithmetic. *)
Definition dpm_final_check (D : kdata) (ps s_size : nat) (s1 s2 : dlims) : res bool :=
  '(lim_min, lim_max) <- kpack_get_lims D ps ;;
  b <- pm_check_sums D lim_min lim_max s_size (fst s1) (fst s2) ;;
  if negb b then Ok false
  else if sgnd (kd_ty D)
  then Ok (negb ((fst (snd s1) + fst (snd s2) <? imin (kd_ty D)) || (imax (kd_ty D) <? snd (snd s1) + snd (snd s2))))
  else Ok (negb (imax (kd_ty D) <? snd (snd s1) + snd (snd s2))).

(** d_packed_monomial.hpp:582-897: [monomial_range_overflow_check]. *)
Definition dpm_par_path (ra : bool) (r1 r2 : list dpm) : bool :=
  ra && ((5000 <? Z.of_nat (List.length r1)) || (5000 <? Z.of_nat (List.length r2))).
(** d_packed_monomial.hpp:582-897 (with the previous definition). *)
Inductive dpm_overflow_check (D : kdata) (ps : nat) (ra : bool) (ss : symbol_set)
  : list dpm -> list dpm -> res bool -> Prop :=
  | doc_no_symbols : forall r1 r2, ss = [] -> dpm_overflow_check D ps ra ss r1 r2 (Ok true)
  | doc_empty : forall r1 r2, ss <> [] -> (r1 = [] \/ r2 = []) -> dpm_overflow_check D ps ra ss r1 r2 (Ok true)
  | doc_serial : forall p1 r1 p2 r2,
      ss <> [] -> dpm_par_path ra (p1 :: r1) (p2 :: r2) = false ->
      dpm_overflow_check D ps ra ss (p1 :: r1) (p2 :: r2)
        (i1 <- dpm_init_limits D ps (List.length ss) p1 ;;
         i2 <- dpm_init_limits D ps (List.length ss) p2 ;;
         l1 <- rfold (dpm_update_limits D ps (List.length ss)) r1 i1 ;;
         l2 <- rfold (dpm_update_limits D ps (List.length ss)) r2 i2 ;;
         dpm_final_check D ps (List.length ss) l1 l2)
  | doc_parallel : forall p1 r1 p2 r2 i1 i2 l1 l2,
      ss <> [] -> dpm_par_path ra (p1 :: r1) (p2 :: r2) = true ->
      dpm_init_limits D ps (List.length ss) p1 = Ok i1 ->
      dpm_init_limits D ps (List.length ss) p2 = Ok i2 ->
      dpar_reduce (dpm_update_limits D ps (List.length ss)) (dpm_join D (List.length ss)) i1 i1 r1 l1 ->
      dpar_reduce (dpm_update_limits D ps (List.length ss)) (dpm_join D (List.length ss)) i2 i2 r2 l2 ->
      dpm_overflow_check D ps ra ss (p1 :: r1) (p2 :: r2) (dpm_final_check D ps (List.length ss) l1 l2).

(** d_packed_monomial.hpp:901-919: [key_degree] (safe_int_add; both of its versions agree, C21). *)
Definition dpm_degree (D : kdata) (ps : nat) (d : dpm) (ss : symbol_set) : res Z :=
  dpm_read D ps (dpm_lt (List.length ss)) (fun retval _ tmp => safe_int_add true (kd_ty D) retval tmp) d 0%nat 0.

(** d_packed_monomial.hpp:930-960: [key_p_degree]; the state is (retval, si_it). *)
Definition dpm_p_degree (D : kdata) (ps : nat) (d : dpm) (si : symbol_idx_set) (ss : symbol_set) : res Z :=
  '(retval, _) <-
    dpm_read D ps
      (fun '(_, si_it) idx => (idx <? List.length ss)%nat && negb (Nat.eqb (List.length si_it) 0))
      (fun '(retval, si_it) idx tmp =>
         match si_it with
         | j :: si' =>
             if (idx =? j)%nat then r <- safe_int_add true (kd_ty D) retval tmp ;; Ok (r, si') else Ok (retval, si_it)
         | [] => UB
         end)
      d 0%nat (0, si) ;;
  Ok retval.

(** d_packed_monomial.hpp:967-1024: [monomial_pow] (see PMonModel.v for the exponent). *)
Definition dpm_pow (D : kdata) (ps : nat) (d : dpm) (n : option Z) (ss : symbol_set) : res dpm :=
  match n with
  | None => Throw invalid_argument
  | Some e =>
      '(_, out) <- dpm_repack D ps (List.length ss)
        (fun (st : unit) _ tmp => if in_ity (kd_ty D) (tmp * e) then Ok (st, tmp * e) else Throw overflow_error)
        d 0%nat tt ;;
      Ok out
  end.

(** d_packed_monomial.hpp:1081-1103: [key_evaluate]; the state is (retval, sm_it). *)
Definition dpm_evaluate {V U : Type} (D : kdata) (ps : nat) (vone : V) (vmul : V -> V -> V) (vpow : U -> Z -> res V)
    (d : dpm) (sm : symbol_idx_map U) (ss : symbol_set) : res V :=
  '(retval, _) <-
    dpm_read D ps (fun '(_, sm_it) _ => negb (Nat.eqb (List.length sm_it) 0))
      (fun '(retval, sm_it) _ tmp =>
         match sm_it with
         | (_, x) :: sm' => pw <- vpow x tmp ;; Ok (vmul retval pw, sm')
         | [] => UB
         end)
      d 0%nat (vone, sm) ;;
  Ok retval.

(** d_packed_monomial.hpp:1129-1184: [monomial_subs]; the state is (retval, sm_it). *)
Definition dpm_subs {V U : Type} (D : kdata) (ps : nat) (vone : V) (vmul : V -> V -> V) (vpow : U -> Z -> res V)
    (d : dpm) (sm : symbol_idx_map U) (ss : symbol_set) : res (V * dpm) :=
  '((retval, _), out) <-
    dpm_repack D ps (List.length ss)
      (fun '(retval, sm_it) idx tmp =>
         match sm_it with
         | (j, x) :: sm' =>
             if (j =? idx)%nat
             then pw <- vpow x tmp ;; Ok ((vmul retval pw, sm'), 0)
             else Ok ((retval, sm_it), tmp)
         | [] => Ok ((retval, sm_it), tmp)
         end)
      d 0%nat (vone, sm) ;;
  Ok (retval, out).

(** d_packed_monomial.hpp:1188-1211: [key_trim_identify]. *)
Definition dpm_trim_identify (D : kdata) (ps : nat) (v : list Z) (d : dpm) (ss : symbol_set) : res (list Z) :=
  dpm_read D ps (dpm_lt (List.length ss))
    (fun v idx tmp => if negb (tmp =? 0) then upd_nth v idx (fun _ => 0) else Ok v) d 0%nat v.

(** d_packed_monomial.hpp:1225-1270: [key_trim]; the state is (tmp_v, si_it). *)
Definition dpm_trim (D : kdata) (ps : nat) (d : dpm) (si : symbol_idx_set) (ss : symbol_set) : res dpm :=
  '(tmp_v, _) <-
    dpm_read D ps (dpm_lt (List.length ss))
      (fun '(tmp_v, si_it) idx tmp =>
         match si_it with
         | j :: si' => if (j =? idx)%nat then Ok (tmp_v, si') else Ok (tmp_v ++ [tmp], si_it)
         | [] => Ok (tmp_v ++ [tmp], si_it)
         end)
      d 0%nat ([], si) ;;
  dpm_of_range D ps (kd_ty D) tmp_v.

(** d_packed_monomial.hpp:1281-1324: [monomial_diff]; the state is ret_exp. *)
Definition dpm_diff (D : kdata) (ps : nat) (d : dpm) (idx : symbol_idx) (ss : symbol_set) : res (Z * dpm) :=
  dpm_repack D ps (List.length ss)
    (fun ret_exp i tmp =>
       if (i =? idx)%nat && negb (tmp =? 0)
       then t <- arith (kd_ty D) (tmp - 1) ;; Ok (tmp, t)
       else Ok (ret_exp, tmp))
    d 0%nat 0.

(** d_packed_monomial.hpp:1335-1388: [monomial_integrate]; the state is ret_exp. *)
Definition dpm_integrate (D : kdata) (ps : nat) (d : dpm) (idx : symbol_idx) (ss : symbol_set) : res (Z * dpm) :=
  dpm_repack D ps (List.length ss)
    (fun ret_exp i tmp =>
       if (i =? idx)%nat
       then
         if sgnd (kd_ty D) && (tmp =? -1) then Throw domain_error
         else t <- arith (kd_ty D) (tmp + 1) ;; Ok (t, t)
       else Ok (ret_exp, tmp))
    d 0%nat 0.
