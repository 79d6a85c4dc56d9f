(** Coefficient, container and tag instances: mppp::integer as Z, mppp::rational as Qc, and integers modulo
    nothing else; hash-table iteration orders; tags. *)
From Coq Require Import ZArith List Bool String Permutation Lia Ring Ring_theory QArith.Qcanon.
From Verif Require Import Base KeyOps SeriesSpec.
Import ListNotations.
Open Scope Z_scope.

Definition Z_cf : cf_ops Z := {| c_zero := 0; c_one := 1; c_add := Z.add; c_sub := Z.sub; c_mul := Z.mul; c_fma := fun a b c => a + b * c; c_neg := Z.opp;
  c_is_zero := fun c => c =? 0; c_eqb := Z.eqb |}.
Definition Qc_cf : cf_ops Qc := {| c_zero := 0%Qc; c_one := 1%Qc; c_add := Qcplus; c_sub := Qcminus; c_mul := Qcmult; c_fma := fun a b c => (a + b * c)%Qc; c_neg := Qcopp;
  c_is_zero := fun c => if Qc_eq_dec c 0 then true else false; c_eqb := fun a b => if Qc_eq_dec a b then true else false |}.

Lemma Z_cf_laws : cf_laws Z_cf.
Proof.
  constructor; cbn.
  - constructor; intros; lia.
  - intros. apply Z.eqb_eq.
  - intros. apply Z.eqb_eq.
  - discriminate.
  - reflexivity.
Qed.

Lemma Qc_cf_laws : cf_laws Qc_cf.
Proof.
  constructor; cbn.
  - apply Qcrt.
  - intros c. destruct (Qc_eq_dec c 0); split; intros; auto; discriminate.
  - intros a b. destruct (Qc_eq_dec a b); split; intros; auto; try discriminate; contradiction.
  - discriminate.
  - reflexivity.
Qed.

(** Two iteration orders: newest element first, and newest last. *)
Definition po_front (A : Type) : tbl_policy A := {| reorder := fun l => l; reorder_perm := fun l => Permutation_refl l |}.
Definition po_rev (A : Type) : tbl_policy A := {| reorder := fun l => rev l; reorder_perm := fun l => Permutation_sym (Permutation_rev l) |}.

(** The tags of polynomials and power series' untruncated variant: an empty class without comparison, and a comparable tag. *)
Definition unit_tag : tag_ops unit := {| tag_default := tt; tag_eqb := None |}.
Definition Z_tag : tag_ops Z := {| tag_default := 0; tag_eqb := Some Z.eqb |}.
