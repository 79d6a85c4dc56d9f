(** Model of include/obake/kpack.hpp: Kronecker packing and unpacking. *)
From Coq Require Import ZArith List Bool.
From Verif Require Import Base KpackTables.
Import ListNotations.
Open Scope Z_scope.

(** include/obake/kpack.hpp:77-99, 117-131: the static data of
    [kpack_data<T>], together with T. *)
Record kdata : Type := KData {
  kd_ty : ity;
  kd_deltas : list Z;
  kd_lims : list Z;
  kd_klims : list Z;
  kd_divcnst : list (list (Z * Z * Z))
}.

(** The four specialisations: include/obake/kpack.hpp:77-99, 117-131, data
    from src/kpack.cpp:39-1282. *)
Definition kd_int32 : kdata := KData int32 int32_deltas int32_lims int32_klims int32_divcnst.
(** include/obake/kpack.hpp:77-99, 117-131 (with the previous definition). *)
Definition kd_uint32 : kdata := KData uint32 uint32_deltas uint32_lims uint32_klims uint32_divcnst.
(** include/obake/kpack.hpp:77-99, 117-131 (with the previous definition). *)
Definition kd_int64 : kdata := KData int64 int64_deltas int64_lims int64_klims int64_divcnst.
(** include/obake/kpack.hpp:77-99, 117-131 (with the previous definition). *)
Definition kd_uint64 : kdata := KData uint64 uint64_deltas uint64_lims uint64_klims uint64_divcnst.

(** include/obake/kpack.hpp:166-175, [kpack_max_size]. *)
Definition kpack_max_size (D : kdata) : nat := length (kd_deltas D).

(** include/obake/kpack.hpp:178-184, [kpack_get_delta]; the assert on the size
    is an out-of-bounds access when it does not hold. *)
Definition kpack_get_delta (D : kdata) (size : nat) : res Z :=
  match size with O => UB | S i => rd (kd_deltas D) i end.

(** include/obake/kpack.hpp:187-199, [kpack_get_lims]. *)
Definition kpack_get_lims (D : kdata) (size : nat) : res (Z * Z) :=
  match size with
  | O => UB
  | S i =>
      lim <- rd (kd_lims D) i ;;
      if sgnd (kd_ty D)
      then m <- arith (kd_ty D) (- lim) ;; Ok (m, lim)
      else Ok (0, lim)
  end.

(** include/obake/kpack.hpp:202-214, [kpack_get_klims]. *)
Definition kpack_get_klims (D : kdata) (size : nat) : res (Z * Z) :=
  match size with
  | O => UB
  | S i =>
      klim <- rd (kd_klims D) i ;;
      if sgnd (kd_ty D)
      then m <- arith (kd_ty D) (- klim) ;; Ok (m, klim)
      else Ok (0, klim)
  end.

(** include/obake/kpack.hpp:222-225: the members of [kpacker<T>]. *)
Record kpacker : Type := KPacker {
  kp_value : Z;
  kp_cur_prod : Z;
  kp_index : nat;
  kp_size : nat
}.

(** include/obake/kpack.hpp:229-238: constructor from size. *)
Definition kpacker_new (D : kdata) (size : nat) : res kpacker :=
  if (kpack_max_size D <? size)%nat
  then Throw overflow_error
  else Ok (KPacker 0 1 0 size).

(** include/obake/kpack.hpp:241-270: [operator<<]. *)
Definition kpacker_push (D : kdata) (p : kpacker) (n : Z) : res kpacker :=
  if (kp_index p =? kp_size p)%nat
  then Throw out_of_range
  else
    '(lim_min, lim_max) <- kpack_get_lims D (kp_size p) ;;
    if (n <? lim_min) || (lim_max <? n)
    then Throw overflow_error
    else
      t <- arith (kd_ty D) (n * kp_cur_prod p) ;;
      v <- arith (kd_ty D) (kp_value p + t) ;;
      delta <- kpack_get_delta D (kp_size p) ;;
      cp <- arith (kd_ty D) (kp_cur_prod p * delta) ;;
      Ok (KPacker v cp (S (kp_index p)) (kp_size p)).

(** include/obake/kpack.hpp:273-279: [get]. *)
Definition kpacker_get (p : kpacker) : Z := kp_value p.

(** include/obake/kpack.hpp:286-289: the members of [kunpacker<T>]. *)
Record kunpacker : Type := KUnpacker {
  ku_value : Z;
  ku_cur_prod : Z;
  ku_index : nat;
  ku_size : nat
}.

(** include/obake/kpack.hpp:292-322: constructor. *)
Definition kunpacker_new (D : kdata) (n : Z) (size : nat) : res kunpacker :=
  match size with
  | O => if n =? 0 then Ok (KUnpacker n 1 0 0) else Throw invalid_argument
  | _ =>
      if (kpack_max_size D <? size)%nat
      then Throw overflow_error
      else
        '(klim_min, klim_max) <- kpack_get_klims D size ;;
        if (n <? klim_min) || (klim_max <? n)
        then Throw overflow_error
        else Ok (KUnpacker n 1 0 size)
  end.

(** include/obake/kpack.hpp:101-105 and 133-142, [mulhi]: high half of the
    double-width product of two w-bit unsigned integers. *)
Definition mulhi (w a b : Z) : Z := (a * b) / 2 ^ w.

(** Shift right of a w-bit unsigned value; invalid shift counts are UB. *)
Definition shr (w n sh : Z) : res Z :=
  if (0 <=? sh) && (sh <? w) then Ok (n / 2 ^ sh) else UB.

(** include/obake/kpack.hpp:352-356: the lambda [divcnst]. *)
Definition divcnst (w n mp sh1 sh2 : Z) : res Z :=
  let t1 := mulhi w mp n in
  tmp <- shr w ((n - t1) mod 2 ^ w) sh1 ;;
  shr w ((t1 + tmp) mod 2 ^ w) sh2.

(** include/obake/kpack.hpp:324-374: [operator>>]; returns the extracted value
    and the updated unpacker. *)
Definition kunpacker_pop (D : kdata) (u : kunpacker) : res (Z * kunpacker) :=
  if (ku_index u =? ku_size u)%nat
  then Throw out_of_range
  else
    let t := kd_ty D in
    let ut := unsigned_of t in
    delta <- kpack_get_delta D (ku_size u) ;;
    cp <- arith t (ku_cur_prod u * delta) ;;
    row <- rd (kd_divcnst D) (pred (ku_size u)) ;;
    '(mp_d, sh1_d, sh2_d) <- rd row (ku_index u) ;;
    '(mp_r, sh1_r, sh2_r) <- rd row (S (ku_index u)) ;;
    '(klim_min, _) <- kpack_get_klims D (ku_size u) ;;
    n <- arith t (ku_value u - klim_min) ;;
    let un := wrap ut n in
    q_r <- divcnst (bits t) un mp_r sh1_r sh2_r ;;
    m <- arith ut (q_r * wrap ut cp) ;;
    rem <- arith ut (un - m) ;;
    uq_d <- divcnst (bits t) rem mp_d sh1_d sh2_d ;;
    let q_d := wrap t uq_d in
    '(lim_min, _) <- kpack_get_lims D (ku_size u) ;;
    out <- arith t (q_d + lim_min) ;;
    Ok (out, KUnpacker (ku_value u) cp (S (ku_index u)) (ku_size u)).

(** Pushing a sequence of values: [kp << v0 << v1 << ...]. *)
Definition kpacker_push_all (D : kdata) (p : kpacker) (vs : list Z) : res kpacker :=
  rfold (kpacker_push D) vs p.

(** The idiom [kpacker<T> kp(n); for (...) kp << v_i; kp.get()] used all over
    packed_monomial.hpp (e.g. lines 101-119). *)
Definition kpack (D : kdata) (size : nat) (vs : list Z) : res Z :=
  p <- kpacker_new D size ;;
  p' <- kpacker_push_all D p vs ;;
  Ok (kpacker_get p').

(** [k] successive extractions [ku >> t]. *)
Fixpoint kunpacker_pops (D : kdata) (k : nat) (u : kunpacker) : res (list Z) :=
  match k with
  | O => Ok []
  | S k' =>
      '(v, u') <- kunpacker_pop D u ;;
      vs <- kunpacker_pops D k' u' ;;
      Ok (v :: vs)
  end.

(** The idiom [kunpacker<T> ku(v, n); for (i = 0; i < n; ++i) ku >> t] used all
    over packed_monomial.hpp (e.g. lines 194-210). *)
Definition kunpack (D : kdata) (n : Z) (size : nat) : res (list Z) :=
  u <- kunpacker_new D n size ;;
  kunpacker_pops D size u.
