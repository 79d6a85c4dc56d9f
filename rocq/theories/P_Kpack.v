(** Properties C01-C05: Kronecker packing (include/obake/kpack.hpp, src/kpack.cpp).
    Definitions used in the statements: KpackSpec.v (limits, [kron], [packable])
    and the modelled API of KpackModel.v ([kpack]: construct, push all, get;
    [kunpack]: construct, extract everything). *)
From Coq Require Import ZArith List Lia.
From Verif Require Import Base KpackTables KpackModel KpackSpec KpackProofs.
Import ListNotations.
Open Scope Z_scope.

(** C01. *)
Theorem kpack_roundtrip : forall D s vs,
  packable D -> good_size D s -> length vs = s -> Forall (comp_ok D s) vs ->
  exists v, kpack D s vs = Ok v /\ of_type D v /\ kunpack D v s = Ok vs.
Proof. exact kpack_roundtrip_lemma. Qed.
Print Assumptions kpack_roundtrip.

Example kpack_roundtrip_nonvacuous :
  packable kd_int64 /\ good_size kd_int64 3 /\
  Forall (comp_ok kd_int64 3) [-1048571; 5; 1048571] /\
  exists v, kpack kd_int64 3 [-1048571; 5; 1048571] = Ok v /\ v <> 0.
Proof.
  split; [right; right; left; reflexivity|].
  split; [unfold good_size, max_size; cbn; lia|].
  split; [repeat constructor; vm_compute; discriminate|].
  eexists. split; [vm_compute; reflexivity|discriminate].
Qed.

(** C02. *)
Theorem kunpack_bijection : forall D s n,
  packable D -> good_size D s ->
  (code_ok D s n ->
     exists vs, kunpack D n s = Ok vs /\ length vs = s /\ Forall (comp_ok D s) vs /\
                kpack D s vs = Ok n) /\
  (~ code_ok D s n -> kunpack D n s = Throw overflow_error) /\
  (forall vs ws, length vs = s -> length ws = s -> Forall (comp_ok D s) vs -> Forall (comp_ok D s) ws ->
     kpack D s vs = kpack D s ws -> vs = ws).
Proof. exact kunpack_bijection_lemma. Qed.
Print Assumptions kunpack_bijection.

Example kunpack_bijection_nonvacuous :
  code_ok kd_uint32 2 4293001440 /\ kunpack kd_uint32 4293001440 2 = Ok [65520; 65520] /\
  ~ code_ok kd_uint32 2 4293001441.
Proof. repeat split; vm_compute; try discriminate; try reflexivity; intuition congruence. Qed.

(** C03: constructors. *)
Theorem kpacker_new_exact : forall D s, packable D ->
  kpacker_new D s = (if (max_size D <? s)%nat then Throw overflow_error else Ok (KPacker 0 1 0 s)).
Proof. exact kpacker_new_exact_lemma. Qed.
Print Assumptions kpacker_new_exact.

(** C03: the outcome of a push after any history of successful pushes [vs]. *)
Theorem kpacker_push_exact : forall D s vs n p, packable D ->
  (s <= max_size D)%nat ->
  (p0 <- kpacker_new D s ;; kpacker_push_all D p0 vs) = Ok p ->
  (length vs <= s)%nat /\
  (length vs = s -> kpacker_push D p n = Throw out_of_range) /\
  ((length vs < s)%nat -> ~ comp_ok D s n -> kpacker_push D p n = Throw overflow_error) /\
  ((length vs < s)%nat -> comp_ok D s n ->
     exists p', kpacker_push D p n = Ok p' /\ kpacker_get p' = kron (delta D s) (vs ++ [n])).
Proof. exact kpacker_push_exact_lemma. Qed.
Print Assumptions kpacker_push_exact.

Example kpacker_push_exact_nonvacuous :
  exists p, (p0 <- kpacker_new kd_int32 3 ;; kpacker_push_all kd_int32 p0 [644; -644]) = Ok p /\
            kpacker_push kd_int32 p 645 = Throw overflow_error /\
            is_ok (kpacker_push kd_int32 p 644) = true.
Proof. eexists. repeat split; vm_compute; reflexivity. Qed.

(** C03: missing values count as zeros. *)
Theorem kpack_pad : forall D s vs, packable D -> good_size D s ->
  (length vs <= s)%nat -> Forall (comp_ok D s) vs ->
  kpack D s vs = kpack D s (vs ++ repeat 0 (s - length vs)).
Proof. exact kpack_pad_lemma. Qed.
Print Assumptions kpack_pad.

(** C03: the unpacker's constructor. *)
Theorem kunpacker_new_exact : forall D n s, packable D ->
  (s = 0%nat -> n = 0 -> exists u, kunpacker_new D n s = Ok u) /\
  (s = 0%nat -> n <> 0 -> kunpacker_new D n s = Throw invalid_argument) /\
  ((max_size D < s)%nat -> kunpacker_new D n s = Throw overflow_error) /\
  (good_size D s -> code_ok D s n -> exists u, kunpacker_new D n s = Ok u) /\
  (good_size D s -> ~ code_ok D s n -> kunpacker_new D n s = Throw overflow_error).
Proof. exact kunpacker_new_exact_lemma. Qed.
Print Assumptions kunpacker_new_exact.

(** C03: exactly [s] extractions succeed. *)
Theorem kunpacker_pops_exact : forall D n s k u, packable D ->
  kunpacker_new D n s = Ok u ->
  ((k <= s)%nat -> exists vs, kunpacker_pops D k u = Ok vs /\ length vs = k) /\
  ((s < k)%nat -> kunpacker_pops D k u = Throw out_of_range).
Proof. exact kunpacker_pops_exact_lemma. Qed.
Print Assumptions kunpacker_pops_exact.

Example kunpacker_pops_exact_nonvacuous :
  exists u, kunpacker_new kd_int32 1073558784 2 = Ok u /\
            kunpacker_pops kd_int32 2 u = Ok [23168; 23168] /\
            kunpacker_pops kd_int32 3 u = Throw out_of_range.
Proof. eexists. repeat split; vm_compute; reflexivity. Qed.

(** C04: no undefined behaviour for any size and any values, and the packed
    value is the mathematical (unwrapped) sum. *)
Theorem kpack_no_ub : forall D, packable D ->
  (forall s vs, kpack D s vs <> UB /\
     (forall v, kpack D s vs = Ok v -> of_type D v /\ (good_size D s -> v = kron (delta D s) vs))) /\
  (forall n s k, (u <- kunpacker_new D n s ;; kunpacker_pops D k u) <> UB) /\
  (forall n s vs, kunpack D n s = Ok vs -> Forall (of_type D) vs).
Proof. exact kpack_no_ub_lemma. Qed.
Print Assumptions kpack_no_ub.

(** C05: for each table entry that can be read, multiply-and-shift equals division. *)
Theorem kpack_divcnst_exact : forall D s i, packable D -> good_size D s -> (i <= s)%nat ->
  exists row mp sh1 sh2,
    nth_error (kd_divcnst D) (pred s) = Some row /\ nth_error row i = Some (mp, sh1, sh2) /\
    forall n, 0 <= n < 2 ^ bits (kd_ty D) ->
      divcnst (bits (kd_ty D)) n mp sh1 sh2 = Ok (n / delta D s ^ Z.of_nat i).
Proof. exact divcnst_exact_lemma. Qed.
Print Assumptions kpack_divcnst_exact.

Example kpack_divcnst_exact_nonvacuous :
  packable kd_uint64 /\ good_size kd_uint64 21 /\ delta kd_uint64 21 ^ 21 = 558545864083284007.
Proof.
  split; [right; right; right; reflexivity|].
  split; [unfold good_size, max_size; cbn; lia|vm_compute; reflexivity].
Qed.
