(** Specification of Kronecker packing, independent of the model's functions:
    only the tables (limits and deltas) are shared with it. *)
From Coq Require Import ZArith List.
From Verif Require Import Base KpackTables KpackModel.
Import ListNotations.
Open Scope Z_scope.

(** The packable types: "D is one of the four specialisations". *)
Definition packable (D : kdata) : Prop :=
  D = kd_int32 \/ D = kd_uint32 \/ D = kd_int64 \/ D = kd_uint64.

(** Largest admissible size, and "size is admissible (and nonzero)". *)
Definition max_size (D : kdata) : nat := length (kd_lims D).
Definition good_size (D : kdata) (s : nat) : Prop := (1 <= s <= max_size D)%nat.

(** Component limits for a size: [-lim, lim] if signed, [0, lim] otherwise. *)
Definition lim (D : kdata) (s : nat) : Z := nth (pred s) (kd_lims D) 0.
Definition lo (D : kdata) (s : nat) : Z := if sgnd (kd_ty D) then - lim D s else 0.
Definition comp_ok (D : kdata) (s : nat) (v : Z) : Prop := lo D s <= v <= lim D s.

(** Coded value limits for a size. *)
Definition klim (D : kdata) (s : nat) : Z := nth (pred s) (kd_klims D) 0.
Definition klo (D : kdata) (s : nat) : Z := if sgnd (kd_ty D) then - klim D s else 0.
Definition code_ok (D : kdata) (s : nat) (v : Z) : Prop := klo D s <= v <= klim D s.

(** The radix for a size, and the Kronecker code of a vector:
    v_0 + v_1*delta + v_2*delta^2 + ... *)
Definition delta (D : kdata) (s : nat) : Z := nth (pred s) (kd_deltas D) 0.
Fixpoint kron (d : Z) (vs : list Z) : Z :=
  match vs with
  | [] => 0
  | v :: vs' => v + d * kron d vs'
  end.

(** "z is a value of the type T". *)
Definition of_type (D : kdata) (z : Z) : Prop := imin (kd_ty D) <= z <= imax (kd_ty D).
