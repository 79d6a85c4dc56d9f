(** Properties C21-C23: checked integer arithmetic, safe conversions, formatting.
    Vocabulary: IntSpec.v ([integral_type], [has_value], [read_int], [canonical]). *)
From Coq Require Import ZArith List Bool Ascii String Lia Znumtheory.
From Verif Require Import Base IntModel IntSpec IntProofs.
Import ListNotations.
Open Scope Z_scope.

Ltac split_ands := repeat match goal with |- _ /\ _ => split end.

(** C21: both implementations ([builtins] = true/false), every type and all operands. *)
Theorem safe_int_add_exact : forall builtins t a b,
  integral_type t -> has_value t a -> has_value t b ->
  (has_value t (a + b) -> safe_int_add builtins t a b = Ok (a + b)) /\
  (~ has_value t (a + b) -> safe_int_add builtins t a b = Throw overflow_error).
Proof.
  intros bi t a b Ht Ha Hb. rewrite safe_int_add_spec by assumption. split; intro H.
  - apply in_ity_iff in H. rewrite H. reflexivity.
  - apply in_ity_false in H. rewrite H. reflexivity.
Qed.
Print Assumptions safe_int_add_exact.

Theorem safe_int_sub_exact : forall builtins t a b,
  integral_type t -> has_value t a -> has_value t b ->
  (has_value t (a - b) -> safe_int_sub builtins t a b = Ok (a - b)) /\
  (~ has_value t (a - b) -> safe_int_sub builtins t a b = Throw overflow_error).
Proof.
  intros bi t a b Ht Ha Hb. rewrite safe_int_sub_spec by assumption. split; intro H.
  - apply in_ity_iff in H. rewrite H. reflexivity.
  - apply in_ity_false in H. rewrite H. reflexivity.
Qed.
Print Assumptions safe_int_sub_exact.

Example safe_int_add_nonvacuous :
  integral_type int64 /\ has_value int64 (-2^63) /\ has_value int64 (-1) /\
  ~ has_value int64 (-2^63 + -1) /\ has_value int64 (-2^63 + 1) /\
  safe_int_add false int64 (-2^63) (-1) = Throw overflow_error /\
  safe_int_add true int64 (-2^63) 1 = Ok (-2^63 + 1).
Proof.
  split; [right; exists 64, true; cbn; auto 10|].
  unfold has_value; cbn -[safe_int_add safe_convert_int]. split_ands; first [vm_compute; reflexivity | lia].
Qed.

(** C22: conversion between any two C++ integral types; [out] is the previous
    content of the destination. *)
Theorem safe_convert_int_exact : forall t u out n,
  integral_type t -> integral_type u -> has_value u n ->
  (has_value t n -> safe_convert_int t u out n = (true, n)) /\
  (~ has_value t n -> safe_convert_int t u out n = (false, out)).
Proof.
  intros t u out n Ht Hu Hn. rewrite safe_convert_int_spec by assumption. split; intro H.
  - apply in_ity_iff in H. rewrite H. reflexivity.
  - apply in_ity_false in H. rewrite H. reflexivity.
Qed.
Print Assumptions safe_convert_int_exact.

Example safe_convert_nonvacuous :
  integral_type (Ity 16 false) /\ integral_type (Ity 8 true) /\
  has_value (Ity 8 true) (-1) /\ ~ has_value (Ity 16 false) (-1) /\
  safe_convert_int (Ity 16 false) (Ity 8 true) 7 (-1) = (false, 7) /\
  safe_convert_int (Ity 1 false) uint64 0 1 = (true, 1) /\
  safe_convert_int (Ity 1 false) uint64 0 2 = (false, 0).
Proof.
  split; [right; exists 16, false; cbn; auto 10|].
  split; [right; exists 8, true; cbn; auto 10|].
  unfold has_value; cbn -[safe_int_add safe_convert_int]. split_ands; first [vm_compute; reflexivity | lia].
Qed.

Theorem safe_cast_int_exact : forall t u n,
  integral_type t -> integral_type u -> has_value u n ->
  (has_value t n -> safe_cast_int t u n = Ok n) /\
  (~ has_value t n -> safe_cast_int t u n = Throw safe_cast_failure).
Proof.
  intros t u n Ht Hu Hn. rewrite safe_cast_int_spec by assumption. split; intro H.
  - apply in_ity_iff in H. rewrite H. reflexivity.
  - apply in_ity_false in H. rewrite H. reflexivity.
Qed.
Print Assumptions safe_cast_int_exact.

(** A rational is kept in lowest terms with positive denominator; it is the
    integer z when num = z * den. *)
Definition lowest_terms (q : rational) : Prop := 0 < den q /\ Z.gcd (num q) (den q) = 1.
Definition is_integer (q : rational) (z : Z) : Prop := num q = z * den q.

Lemma lowest_integer : forall q z, lowest_terms q -> (is_integer q z <-> den q = 1 /\ num q = z).
Proof.
  intros [n d] z [Hd Hg]. cbn in *. unfold is_integer. cbn. split.
  - intros ->. assert (d = 1).
    { replace (z * d) with (0 + z * d) in Hg by lia. rewrite Z.gcd_comm, Z.gcd_add_mult_diag_r, Z.gcd_0_r in Hg. lia. }
    subst. lia.
  - intros [-> ->]. lia.
Qed.

(** C22: conversions from and to multiprecision integers and rationals. *)
Theorem safe_convert_mp_exact : forall t out m q,
  lowest_terms q ->
  safe_convert_bigint_int out m = (true, m) /\
  (has_value t m -> safe_convert_int_bigint t out m = (true, m)) /\
  (~ has_value t m -> safe_convert_int_bigint t out m = (false, out)) /\
  (forall z, is_integer q z -> safe_convert_bigint_rat out q = (true, z)) /\
  ((forall z, ~ is_integer q z) -> safe_convert_bigint_rat out q = (false, out)) /\
  (forall z, is_integer q z -> has_value t z -> safe_convert_int_rat t out q = (true, z)) /\
  ((forall z, is_integer q z -> ~ has_value t z) -> safe_convert_int_rat t out q = (false, out)) /\
  (forall r, safe_convert_rat_bigint r m = (true, Rational m 1) /\ is_integer (Rational m 1) m).
Proof.
  intros t out m q Hq.
  unfold safe_convert_bigint_int, safe_convert_int_rat, safe_convert_bigint_rat, safe_convert_int_bigint,
         safe_convert_rat_bigint.
  split; [reflexivity|].
  split. { intro H. apply in_ity_iff in H. rewrite H. reflexivity. }
  split. { intro H. apply in_ity_false in H. rewrite H. reflexivity. }
  split. { intros z H. apply (lowest_integer _ _ Hq) in H as [-> ->]. reflexivity. }
  split. { intros H. destruct (Z.eqb_spec (den q) 1); [|reflexivity].
           exfalso. apply (H (num q)). apply (lowest_integer _ _ Hq). auto. }
  split. { intros z H V. apply (lowest_integer _ _ Hq) in H as [-> ->]. apply in_ity_iff in V.
           cbn [Z.eqb Pos.eqb]. rewrite V. reflexivity. }
  split. { intros H. destruct (Z.eqb_spec (den q) 1); [|reflexivity].
           assert (I : is_integer q (num q)) by (apply (lowest_integer _ _ Hq); auto).
           apply H in I. apply in_ity_false in I. rewrite I. reflexivity. }
  intros r. split; [reflexivity|]. unfold is_integer. cbn. lia.
Qed.
Print Assumptions safe_convert_mp_exact.

Example safe_convert_mp_nonvacuous :
  lowest_terms (Rational 300 1) /\ is_integer (Rational 300 1) 300 /\ ~ has_value (Ity 8 false) 300 /\
  lowest_terms (Rational 3 2) /\ forall z, ~ is_integer (Rational 3 2) z.
Proof.
  unfold lowest_terms, is_integer, has_value; cbn. split_ands; first [reflexivity | lia | intros; lia].
Qed.

(** C23: every integral value (bool is formatted by std::to_string and not
    covered): the result is Ok (no write outside the buffer), reads back as n and
    is canonical. *)
Theorem to_string_exact : forall t n,
  integral_type t -> t <> Ity 1 false -> has_value t n ->
  exists s, to_string t n = Ok s /\ read_int s = Some n /\ canonical s.
Proof.
  intros t n Ht Hb Hn. apply to_string_lemma; [|exact Hn]. split; [exact Ht|].
  destruct Ht as [->|(w & s & Hw & ->)]; [congruence|].
  cbn in Hw. decompose [or] Hw; subst; try contradiction; reflexivity.
Qed.
Print Assumptions to_string_exact.

Example to_string_nonvacuous :
  integral_type (Ity 128 true) /\ has_value (Ity 128 true) (-2^127) /\
  to_string (Ity 128 true) (-2^127) = Ok "-170141183460469231731687303715884105728"%string.
Proof.
  split; [right; exists 128, true; cbn; auto 10|]. unfold has_value; cbn. split; [lia|reflexivity].
Qed.
