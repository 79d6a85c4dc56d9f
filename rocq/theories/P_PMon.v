(** Properties C06-C16: packed monomials.  Vocabulary: PMonSpec.v ([represents D n p vs]:
    the packed value p is the monomial with exponents vs over n symbols). *)
From Coq Require Import ZArith List Bool String Lia Sorted.
From Verif Require Import Base KpackTables KpackModel KpackSpec KpackProofs IntModel IntSpec IntProofs
  SymModel SymSpec SymProofs PMonModel PMonSpec PMonProofs PMonProofs2.
Import ListNotations.
Open Scope Z_scope.

Local Notation "'len' l" := (List.length l) (at level 9).

(** C06: construction from a range of values of an integral type u succeeds exactly on
    the representable vectors, and the result has the given exponents. *)
Theorem pm_construct_exact : forall D u vs,
  packable D -> integral_type u -> Forall (has_value u) vs -> Z.of_nat (len vs) <= imax int64 ->
  (representable D vs ->
     exists p, pm_of_range D u vs = Ok p /\ represents D (len vs) p vs /\ kunpack D p (len vs) = Ok vs) /\
  (~ representable D vs ->
     pm_of_range D u vs = Throw overflow_error \/ pm_of_range D u vs = Throw safe_cast_failure).
Proof.
  intros D u vs HD Hu Hv Hl.
  assert (SML : Z.of_nat (max_size D) <= 64) by (destruct HD as [->|[->|[->| ->]]]; vm_compute; discriminate).
  assert (SC : safe_cast_int uint32 int64 (Z.of_nat (len vs)) = if in_ity uint32 (Z.of_nat (len vs)) then Ok (Z.of_nat (len vs)) else Throw safe_cast_failure).
  { apply safe_cast_int_spec.
    - right. exists 32, false. cbn. auto 10.
    - right. exists 64, true. cbn. auto 10.
    - apply hv_unfold. unfold imin. cbn [sgnd int64 bits]. lia. }
  destruct (of_vec D u vs (len vs) HD Hu Hv eq_refl) as [A B].
  unfold pm_of_range. rewrite SC. split.
  - intros R. assert (IT : in_ity uint32 (Z.of_nat (len vs)) = true).
    { apply andb_true_iff. rewrite !Z.leb_le. destruct R as [R _]. change (imin uint32) with 0. change (imax uint32) with 4294967295. lia. }
    rewrite IT. cbn [bind]. rewrite Nat2Z.id. rewrite (A R).
    assert (RR : represents D (len vs) (kron (delta D (len vs)) vs) vs) by (destruct R; repeat split; auto).
    eexists. split; [reflexivity|]. split; [exact RR|].
    destruct (rep_unpack _ _ _ _ HD RR) as (k & E & P). unfold kunpack. rewrite E. cbn [bind]. exact P.
  - intros R. destruct (in_ity uint32 (Z.of_nat (len vs))); cbn [bind]; auto.
    rewrite Nat2Z.id. exact (B R).
Qed.
Print Assumptions pm_construct_exact.

Example pm_construct_exact_nonvacuous :
  pm_of_range kd_int64 int32 [2; -3; 1048571] = Ok 4611624446043618952 /\
  representable kd_int64 [2; -3; 1048571] /\
  pm_of_range kd_int64 int32 [2; -3; 1048572] = Throw overflow_error /\
  pm_of_range kd_uint32 int32 [-1] = Throw safe_cast_failure.
Proof.
  split; [vm_compute; reflexivity|]. split; [apply representableb_ok; vm_compute; reflexivity|].
  split; vm_compute; reflexivity.
Qed.

(** C06: construction from an input iterator and a count n reads exactly n values. *)
Theorem pm_construct_iter_exact : forall D u vs n,
  packable D -> integral_type u -> Forall (has_value u) vs -> (n <= len vs)%nat ->
  (representable D (firstn n vs) ->
     exists p, pm_of_iter D u vs n = Ok p /\ represents D n p (firstn n vs)) /\
  (~ representable D (firstn n vs) ->
     pm_of_iter D u vs n = Throw overflow_error \/ pm_of_iter D u vs n = Throw safe_cast_failure).
Proof.
  intros D u vs n HD Hu Hv Hl.
  assert (L : len (firstn n vs) = n) by (rewrite firstn_length; lia).
  assert (F : Forall (has_value u) (firstn n vs)).
  { apply Forall_forall. intros x I. rewrite Forall_forall in Hv. apply Hv. rewrite <- (firstn_skipn n vs). apply in_or_app. auto. }
  destruct (of_vec D u (firstn n vs) n HD Hu F L) as [A B]. unfold pm_of_iter. split.
  - intros R. rewrite (A R). eexists. split; [reflexivity|]. destruct R as [R1 R2]. rewrite L in *. repeat split; auto.
  - exact B.
Qed.
Print Assumptions pm_construct_iter_exact.

(** C06: equality, and the unit monomial. *)
Theorem pm_equality_exact : forall D n p q vs ws, packable D -> represents D n p vs -> represents D n q ws ->
  (pm_eq p q = true <-> vs = ws) /\ (pm_neq p q = true <-> vs <> ws).
Proof.
  intros D n p q vs ws HD R1 R2. unfold pm_eq, pm_neq.
  assert (p = q <-> vs = ws).
  { split; [intros ->; eapply rep_unique; eauto|]. intros ->. destruct R1 as (_ & _ & _ & ->), R2 as (_ & _ & _ & ->). reflexivity. }
  rewrite negb_true_iff, Z.eqb_neq, Z.eqb_eq. tauto.
Qed.
Print Assumptions pm_equality_exact.

Theorem pm_unit_exact : forall D ss p vs, packable D -> (len ss <= max_size D)%nat ->
  represents D (len ss) pm_default (repeat 0 (len ss)) /\
  represents D (len ss) (pm_of_symbol_set ss) (repeat 0 (len ss)) /\
  (represents D (len ss) p vs ->
    (pm_key_is_one p ss = true <-> vs = repeat 0 (len ss)) /\ pm_key_is_zero p ss = false).
Proof.
  intros D ss p vs HD Hn.
  assert (RU : represents D (len ss) 0 (repeat 0 (len ss))).
  { repeat split; auto; [apply repeat_length| |].
    - destruct (len ss) as [|k] eqn:E; [constructor|]. apply Forall_forall. intros x I. apply repeat_spec in I. subst.
      apply zero_comp; auto. split; lia.
    - generalize (delta D (len ss)). clear. intros d. induction (len ss) as [|k IH]; [reflexivity|]. cbn [repeat kron]. rewrite <- IH. ring. }
  split; [exact RU|]. split; [exact RU|]. intros R. split; [|reflexivity].
  unfold pm_key_is_one. rewrite Z.eqb_eq. split.
  - intros ->. eapply rep_unique; eauto.
  - intros ->. destruct R as (_ & _ & _ & ->), RU as (_ & _ & _ & E). congruence.
Qed.
Print Assumptions pm_unit_exact.

(** C07. *)
Theorem pm_compatible_exact : forall D p ss, packable D ->
  exists b, pm_compatible D p ss = Ok b /\ (b = true <-> exists vs, represents D (len ss) p vs).
Proof. exact compat_iff. Qed.
Print Assumptions pm_compatible_exact.

Example pm_compatible_exact_nonvacuous :
  pm_compatible kd_int32 1073558784 ["x"; "y"]%string = Ok true /\
  pm_compatible kd_int32 1073558785 ["x"; "y"]%string = Ok false /\
  pm_compatible kd_int32 0 [] = Ok true /\ pm_compatible kd_int32 1 [] = Ok false /\
  pm_compatible kd_int32 0 (repeat "x"%string 30) = Ok false.
Proof. repeat split; vm_compute; reflexivity. Qed.

(** C08/C09: whatever the schedule (any [v] in the relation), the verdict is "every pairwise
    sum of exponent vectors is within the limits"; some verdict is always reached.  Since the
    right-hand side mentions neither the path (serial or parallel, [ra]) nor the splitting,
    the verdict is independent of them. *)
Theorem pm_overflow_check_exact : forall D ra ss r1 r2, packable D ->
  (forall p, In p r1 -> exists vs, represents D (len ss) p vs) ->
  (forall p, In p r2 -> exists vs, represents D (len ss) p vs) ->
  (exists v, pm_overflow_check D ra ss r1 r2 v) /\
  (forall v, pm_overflow_check D ra ss r1 r2 v ->
    exists b, v = Ok b /\
      (b = true <->
       forall p q vs ws, In p r1 -> In q r2 ->
         represents D (len ss) p vs -> represents D (len ss) q ws ->
         Forall (comp_ok D (len ss)) (vadd vs ws))).
Proof.
  intros D ra ss r1 r2 HD A1 A2. rewrite <- Forall_forall in A1, A2. split.
  - apply overflow_check_exists; auto.
  - intros v H. eapply overflow_check_ok; eauto.
Qed.
Print Assumptions pm_overflow_check_exact.

Theorem pm_overflow_check_deterministic : forall D ss r1 r2 ra1 ra2 v1 v2, packable D ->
  (forall p, In p r1 -> exists vs, represents D (len ss) p vs) ->
  (forall p, In p r2 -> exists vs, represents D (len ss) p vs) ->
  pm_overflow_check D ra1 ss r1 r2 v1 -> pm_overflow_check D ra2 ss r1 r2 v2 -> v1 = v2.
Proof.
  intros D ss r1 r2 ra1 ra2 v1 v2 HD A1 A2 H1 H2.
  destruct (pm_overflow_check_exact D ra1 ss r1 r2 HD A1 A2) as [_ E1].
  destruct (pm_overflow_check_exact D ra2 ss r1 r2 HD A1 A2) as [_ E2].
  destruct (E1 _ H1) as (b1 & -> & B1). destruct (E2 _ H2) as (b2 & -> & B2).
  f_equal. destruct b1, b2; auto; [symmetry; apply B2, B1; reflexivity|apply B1, B2; reflexivity].
Qed.
Print Assumptions pm_overflow_check_deterministic.

(** C08: after an accepting check every product is exact, does not overflow, and is compatible. *)
Theorem pm_mul_after_check : forall D ra ss r1 r2 p q vs ws, packable D ->
  (forall p, In p r1 -> exists vs, represents D (len ss) p vs) ->
  (forall p, In p r2 -> exists vs, represents D (len ss) p vs) ->
  pm_overflow_check D ra ss r1 r2 (Ok true) -> In p r1 -> In q r2 ->
  represents D (len ss) p vs -> represents D (len ss) q ws ->
  exists r, pm_mul D p q ss = Ok r /\ represents D (len ss) r (vadd vs ws) /\
            pm_compatible D r ss = Ok true.
Proof.
  intros D ra ss r1 r2 p q vs ws HD A1 A2 H I1 I2 R1 R2.
  destruct (pm_overflow_check_exact D ra ss r1 r2 HD A1 A2) as [_ E].
  destruct (E _ H) as (b & Eb & Hb). inversion Eb; subst b.
  pose proof (proj1 Hb eq_refl p q vs ws I1 I2 R1 R2) as C.
  destruct (mul_ok D ss p q vs ws HD R1 R2 C) as (r & Er & Rr).
  exists r. split; [exact Er|]. split; [exact Rr|].
  destruct (compat_iff D r ss HD) as (b & Ec & Hc). rewrite Ec. f_equal. apply Hc. eauto.
Qed.
Print Assumptions pm_mul_after_check.

(** A concrete run: int32, two symbols (limits +-23168); accepted and rejected ranges, and a
    parallel reduction with a steal. *)
Example pm_overflow_check_nonvacuous :
  let ss := ["x"; "y"]%string in
  let k x y := kron (delta kd_int32 2) [x; y] in
  pm_overflow_check kd_int32 false ss [k 20000 1; k (-5) 7] [k 3168 0; k 0 (-9)] (Ok true) /\
  pm_overflow_check kd_int32 false ss [k 20000 1; k (-5) 7] [k 3168 0; k 3169 (-9)] (Ok false) /\
  par_reduce (pm_update_limits kd_int32 2) (pm_join kd_int32 2) [(20000, 20000); (1, 1)] [(20000, 20000); (1, 1)]
    ([k (-5) 7; k 2 2] ++ [k 4 9; k 20001 (-3)]) [(-5, 20001); (-3, 9)].
Proof.
  cbv zeta. repeat split.
  - apply oc_serial_eq; [discriminate|reflexivity|vm_compute; reflexivity].
  - apply oc_serial_eq; [discriminate|reflexivity|vm_compute; reflexivity].
  - apply par_split with (v1 := [(-5, 20000); (1, 7)]) (v2 := [(4, 20001); (-3, 9)]);
      [apply par_run; vm_compute; reflexivity|apply par_run; vm_compute; reflexivity|vm_compute; reflexivity].
Qed.

(** C10 (packed monomials): the hash depends on the monomial only and is additive modulo 2^64.
    Hence, for 2^k segments, the segment of a product is the sum of the segments modulo 2^k. *)
Theorem pm_hash_homomorphic : forall D ss p q vs ws, packable D ->
  represents D (len ss) p vs -> represents D (len ss) q ws ->
  (pm_eq p q = true -> pm_hash p = pm_hash q) /\
  0 <= pm_hash p < 2 ^ 64 /\
  (Forall (comp_ok D (len ss)) (vadd vs ws) ->
   exists r, pm_mul D p q ss = Ok r /\
     pm_hash r = (pm_hash p + pm_hash q) mod 2 ^ 64 /\
     forall k, 0 <= k <= 64 -> pm_hash r mod 2 ^ k = ((pm_hash p) mod 2 ^ k + (pm_hash q) mod 2 ^ k) mod 2 ^ k).
Proof.
  intros D ss p q vs ws HD R1 R2.
  assert (HW : forall z, pm_hash z = z mod 2 ^ 64) by (intro z; unfold pm_hash, wrap; reflexivity).
  split; [unfold pm_eq; rewrite Z.eqb_eq; intros ->; reflexivity|].
  split; [rewrite HW; apply Z.mod_pos_bound; lia|].
  intros C. destruct (mul_ok D ss p q vs ws HD R1 R2 C) as (r & Er & Rr).
  exists r. split; [exact Er|].
  assert (r = p + q).
  { destruct R1 as (L1 & _ & _ & ->), R2 as (L2 & _ & _ & ->), Rr as (_ & _ & _ & ->). apply (kron_add D (len ss)). lia. }
  subst r. rewrite !HW. split; [apply Z.add_mod; lia|].
  intros k Hk.
  assert (KD : forall z, (z mod 2 ^ 64) mod 2 ^ k = z mod 2 ^ k).
  { intros z. symmetry. apply Znumtheory.Zmod_div_mod; try lia.
    exists (2 ^ (64 - k)). rewrite <- Z.pow_add_r by lia. f_equal. lia. }
  rewrite !KD. apply Z.add_mod. apply Z.pow_nonzero; lia.
Qed.
Print Assumptions pm_hash_homomorphic.

Example pm_hash_homomorphic_nonvacuous :
  let p := kron (delta kd_int64 2) [-3; 5] in let q := kron (delta kd_int64 2) [1; -9] in
  represents kd_int64 2 p [-3; 5] /\ represents kd_int64 2 q [1; -9] /\
  pm_hash q <> q /\ pm_hash (p + q) = (pm_hash p + pm_hash q) mod 2 ^ 64.
Proof.
  cbv zeta. split; [apply representsb_ok; vm_compute; reflexivity|]. split; [apply representsb_ok; vm_compute; reflexivity|].
  split; [vm_compute; discriminate|vm_compute; reflexivity].
Qed.

(** C11. *)
Theorem pm_degree_exact : forall D ss p vs, packable D -> represents D (len ss) p vs ->
  pm_degree D p ss = Ok (vsum vs).
Proof. intros. eapply degree_ok; eauto. Qed.
Print Assumptions pm_degree_exact.

Theorem pm_p_degree_exact : forall D ss p vs si, packable D -> represents D (len ss) p vs -> StronglySorted lt si ->
  pm_p_degree D p si ss = Ok (vsum (select (fun i => mem i si) vs)).
Proof. intros. eapply p_degree_ok; eauto. Qed.
Print Assumptions pm_p_degree_exact.

Theorem pm_degree_product : forall D ss p q r vs ws d1 d2, packable D ->
  represents D (len ss) p vs -> represents D (len ss) q ws -> Forall (comp_ok D (len ss)) (vadd vs ws) ->
  pm_mul D p q ss = Ok r -> pm_degree D p ss = Ok d1 -> pm_degree D q ss = Ok d2 ->
  pm_degree D r ss = Ok (d1 + d2).
Proof.
  intros D ss p q r vs ws d1 d2 HD R1 R2 C M E1 E2.
  destruct (mul_ok D ss p q vs ws HD R1 R2 C) as (r' & Er & Rr). rewrite M in Er. inversion Er; subst r'.
  rewrite (degree_ok D ss p vs HD R1) in E1. rewrite (degree_ok D ss q ws HD R2) in E2. inversion E1; inversion E2; subst.
  rewrite (degree_ok D ss r _ HD Rr). f_equal. apply vsum_vadd. destruct R1 as [L1 _], R2 as [L2 _]. lia.
Qed.
Print Assumptions pm_degree_product.

Example pm_degree_nonvacuous :
  let p := kron (delta kd_int32 3) [-3; 644; 9] in
  represents kd_int32 3 p [-3; 644; 9] /\ pm_degree kd_int32 p ["x"; "y"; "z"]%string = Ok 650 /\
  pm_p_degree kd_int32 p [0; 2]%nat ["x"; "y"; "z"]%string = Ok 6.
Proof. cbv zeta. split; [apply representsb_ok; vm_compute; reflexivity|]. split; vm_compute; reflexivity. Qed.

(** C12: with a well-formed insertion map for the symbols s, the extended monomial has the old
    exponents with zeros inserted where the map says; failure exactly if that vector is not
    representable (overflow_error; safe_cast_failure only beyond 2^32-1 symbols); and, by name, no
    exponent changes. *)
Theorem pm_merge_symbols_exact : forall D s p vs m, packable D -> represents D (len s) p vs ->
  ins_map_ok (len s) m ->
  let ws := insert_zeros m vs in
  (representable D ws ->
     exists r, pm_merge_symbols D p m s = Ok r /\ represents D (len ws) r ws) /\
  (~ representable D ws -> Z.of_nat (len ws) <= imax uint32 -> pm_merge_symbols D p m s = Throw overflow_error) /\
  (imax uint32 < Z.of_nat (len ws) ->
     pm_merge_symbols D p m s = Throw overflow_error \/ pm_merge_symbols D p m s = Throw safe_cast_failure) /\
  (forall u, insert_all (ins_at m) 0 s = u -> NoDup u -> forall x, expo u ws x = expo s vs x).
Proof.
  intros D s p vs m HD R MO ws.
  pose proof (merge_ok D s p vs m HD R MO) as E. fold ws in E. cbn zeta in E.
  assert (SML : Z.of_nat (max_size D) <= 64) by (destruct HD as [->|[->|[->| ->]]]; vm_compute; discriminate).
  split; [|split; [|split]].
  - intros [R1 R2]. rewrite E.
    destruct (Z.ltb_spec (imax size_t) (Z.of_nat (len ws))); [change (imax size_t) with 18446744073709551615 in *; lia|].
    destruct (Z.ltb_spec (imax uint32) (Z.of_nat (len ws))); [change (imax uint32) with 4294967295 in *; lia|].
    destruct (Nat.leb_spec (len ws) (max_size D)); [|lia]. pose proof R2 as R3. apply fits_iff in R3. rewrite R3. cbn [andb].
    eexists. split; [reflexivity|]. repeat split; auto.
  - intros NR LE. rewrite E.
    destruct (Z.ltb_spec (imax size_t) (Z.of_nat (len ws))); [reflexivity|].
    destruct (Z.ltb_spec (imax uint32) (Z.of_nat (len ws))); [lia|].
    destruct (Nat.leb_spec (len ws) (max_size D)) as [LL|]; [|reflexivity].
    destruct (fits D (len ws) ws) eqn:F; [|reflexivity]. exfalso. apply NR. split; auto. apply fits_iff. exact F.
  - intros GT. rewrite E. destruct (Z.ltb_spec (imax size_t) (Z.of_nat (len ws))); [auto|].
    destruct (Z.ltb_spec (imax uint32) (Z.of_nat (len ws))); [auto|lia].
  - intros u Hu N x. subst u. unfold ws, insert_zeros. apply (expo_insert (ins_at m)); auto. destruct R as [L _]. lia.
Qed.
Print Assumptions pm_merge_symbols_exact.

Example pm_merge_symbols_nonvacuous :
  let s := ["b"; "c"; "e"]%string in let p := kron (delta kd_int64 3) [1; -2; 3] in
  let m := [(0%nat, ["a"]%string); (2%nat, ["d"]%string); (3%nat, ["f"; "g"]%string)] in
  represents kd_int64 3 p [1; -2; 3] /\ ins_map_ok 3 m /\
  pm_merge_symbols kd_int64 p m s = Ok (kron (delta kd_int64 7) [0; 1; -2; 0; 3; 0; 0]) /\
  pm_merge_symbols kd_int64 (kron (delta kd_int64 3) [1000; -2; 3]) m s = Throw overflow_error.
Proof.
  cbv zeta. split; [apply representsb_ok; vm_compute; reflexivity|]. split; [|split; vm_compute; reflexivity].
  split.
  - cbn. repeat constructor; cbn; lia.
  - repeat constructor; cbn; try lia; discriminate.
Qed.

(** C13: starting from all flags set, the flags after processing all the monomials mark the
    symbols whose exponent is zero everywhere. *)
Theorem pm_trim_identify_exact : forall D ss (terms : list (Z * list Z)), packable D ->
  Forall (fun t => represents D (len ss) (fst t) (snd t)) terms ->
  exists v, rfold (fun v p => pm_trim_identify D v p ss) (map fst terms) (repeat 1 (len ss)) = Ok v /\
    len v = len ss /\
    forall i, (i < len ss)%nat ->
      (nth i v 0 = 1 <-> forall t, In t terms -> nth i (snd t) 0 = 0) /\ (nth i v 0 = 1 \/ nth i v 0 = 0).
Proof.
  intros D ss terms HD F.
  destruct (identify_all D ss HD terms (repeat 1 (len ss)) F) as (v & E & L & N); [apply repeat_length|].
  exists v. split; [exact E|]. split; [exact L|]. intros i Hi. rewrite (N i Hi).
  assert (nth i (repeat 1 (len ss)) 0 = 1) as ->.
  { rewrite (nth_indep _ 0 1) by (rewrite repeat_length; exact Hi). apply nth_repeat. }
  destruct (forallb (fun t => nth i (snd t) 0 =? 0) terms) eqn:B.
  - rewrite forallb_forall in B. split; [|auto]. split; auto. intros _ t I. apply Z.eqb_eq. apply B. exact I.
  - split; [|auto]. split; [discriminate|]. intros H. exfalso.
    assert (forallb (fun t => nth i (snd t) 0 =? 0) terms = true); [|congruence].
    apply forallb_forall. intros t I. apply Z.eqb_eq. auto.
Qed.
Print Assumptions pm_trim_identify_exact.

(** C13: key_trim drops exactly the marked components; extending back (with any insertion map
    that rebuilds the original symbol set) gives the original if the dropped ones were zero. *)
Theorem pm_trim_exact : forall D ss p vs si, packable D -> represents D (len ss) p vs ->
  StronglySorted lt si -> (forall y, In y si -> (y < len ss)%nat) ->
  exists r, pm_trim D p si ss = Ok r /\
    represents D (len ss - len si) r (select (fun i => negb (mem i si)) vs) /\
    forall m, sorted_set ss -> (forall y, In y si -> nth y vs 0 = 0) ->
      let ss' := select (fun i => negb (mem i si)) ss in
      ins_map_ok (len ss') m -> insert_all (ins_at m) 0 ss' = ss ->
      pm_merge_symbols D r m ss' = Ok p.
Proof.
  intros D ss p vs si HD R S H. destruct (trim_ok D ss p vs si HD R S H) as (r & E & Rr).
  exists r. split; [exact E|]. split; [exact Rr|]. intros m Sss Z0 ss' MO I.
  eapply trim_extend; eauto.
Qed.
Print Assumptions pm_trim_exact.

Example pm_trim_nonvacuous :
  let ss := ["x"; "y"; "z"]%string in let p := kron (delta kd_int64 3) [7; 0; -2] in
  let q := kron (delta kd_int64 3) [0; 0; 4] in
  rfold (fun v p => pm_trim_identify kd_int64 v p ss) [p; q] [1; 1; 1] = Ok [0; 1; 0] /\
  pm_trim kd_int64 p [1%nat] ss = Ok (kron (delta kd_int64 2) [7; -2]) /\
  pm_merge_symbols kd_int64 (kron (delta kd_int64 2) [7; -2]) [(1%nat, ["y"]%string)] ["x"; "z"]%string = Ok p.
Proof. cbv zeta. repeat split; vm_compute; reflexivity. Qed.

(** C14: differentiation. *)
Theorem pm_diff_exact : forall D ss p vs idx, packable D -> represents D (len ss) p vs -> (idx < len ss)%nat ->
  let e := nth idx vs 0 in
  (e = 0 -> pm_diff D p idx ss = Ok (0, p)) /\
  (e <> 0 -> comp_ok D (len ss) (e - 1) ->
     exists r, pm_diff D p idx ss = Ok (e, r) /\ represents D (len ss) r (set_at idx (e - 1) vs)) /\
  (e <> 0 -> ~ comp_ok D (len ss) (e - 1) -> pm_diff D p idx ss = Throw overflow_error).
Proof.
  intros D ss p vs idx HD R Hi e. pose proof (diff_ok D ss p vs idx HD R Hi) as E. cbn zeta in E. fold e in E.
  rewrite E. split; [|split].
  - intros ->. reflexivity.
  - intros NZ C. destruct (Z.eqb_spec e 0); [contradiction|]. pose proof C as C'. apply comp_okb_iff in C'. rewrite C'.
    eexists. split; [reflexivity|]. eapply set_at_rep; eauto.
  - intros NZ C. destruct (Z.eqb_spec e 0); [contradiction|]. destruct (comp_okb D (len ss) (e - 1)) eqn:B; [|reflexivity].
    apply comp_okb_iff in B. contradiction.
Qed.
Print Assumptions pm_diff_exact.

(** C14: integration, and differentiation of the integral. *)
Theorem pm_integrate_exact : forall D ss p vs idx, packable D -> represents D (len ss) p vs -> (idx < len ss)%nat ->
  let e := nth idx vs 0 in
  (e = -1 -> pm_integrate D p idx ss = Throw domain_error) /\
  (e <> -1 -> ~ comp_ok D (len ss) (e + 1) -> pm_integrate D p idx ss = Throw overflow_error) /\
  (e <> -1 -> comp_ok D (len ss) (e + 1) ->
     exists r, pm_integrate D p idx ss = Ok (e + 1, r) /\ represents D (len ss) r (set_at idx (e + 1) vs) /\
               pm_diff D r idx ss = Ok (e + 1, p)).
Proof.
  intros D ss p vs idx HD R Hi e. pose proof (integrate_ok D ss p vs idx HD R Hi) as E. cbn zeta in E. fold e in E.
  rewrite E. split; [|split].
  - intros ->. reflexivity.
  - intros NZ C. destruct (Z.eqb_spec e (-1)); [contradiction|]. destruct (comp_okb D (len ss) (e + 1)) eqn:B; [|reflexivity].
    apply comp_okb_iff in B. contradiction.
  - intros NZ C. destruct (Z.eqb_spec e (-1)); [contradiction|]. pose proof C as C'. apply comp_okb_iff in C'. rewrite C'.
    eexists. split; [reflexivity|]. pose proof (set_at_rep D (len ss) p vs idx (e + 1) R Hi C) as R2. split; [exact R2|].
    assert (Li : (idx < len vs)%nat) by (destruct R as [L _]; lia).
    destruct (split_at vs idx Li) as (a & x & b & Ev & La & Ex).
    assert (N : nth idx (set_at idx (e + 1) vs) 0 = e + 1).
    { rewrite Ev, <- La, set_at_app. rewrite app_nth2, Nat.sub_diag by lia. reflexivity. }
    assert (S2 : set_at idx e (set_at idx (e + 1) vs) = vs).
    { rewrite Ev at 1. rewrite <- La, !set_at_app. rewrite Ev. f_equal. f_equal. unfold e. rewrite Ex. reflexivity. }
    pose proof (diff_ok D ss _ _ idx HD R2 Hi) as DF. cbn zeta in DF. rewrite DF, N.
    destruct (Z.eqb_spec (e + 1) 0); [lia|]. replace (e + 1 - 1) with e by lia.
    assert (CE : comp_ok D (len ss) e).
    { destruct R as (_ & _ & C0 & _). rewrite Forall_forall in C0. apply C0. apply nth_In. exact Li. }
    apply comp_okb_iff in CE. rewrite CE. rewrite S2. destruct R as (_ & _ & _ & <-). reflexivity.
Qed.
Print Assumptions pm_integrate_exact.

Example pm_integrate_nonvacuous :
  let ss := ["x"; "y"]%string in let p := kron (delta kd_int32 2) [-7; 23167] in
  pm_integrate kd_int32 p 1%nat ss = Ok (23168, kron (delta kd_int32 2) [-7; 23168]) /\
  pm_diff kd_int32 p 0%nat ss = Ok (-7, kron (delta kd_int32 2) [-8; 23167]) /\
  pm_integrate kd_int32 (kron (delta kd_int32 2) [-1; 4]) 0%nat ss = Throw domain_error /\
  pm_integrate kd_int32 (kron (delta kd_int32 2) [0; 23168]) 1%nat ss = Throw overflow_error.
Proof. cbv zeta. repeat split; vm_compute; reflexivity. Qed.

(** C15. *)
Theorem pm_pow_exact : forall D ss p vs n, packable D -> represents D (len ss) p vs ->
  (Forall (comp_ok D (len ss)) (vscale n vs) ->
     exists r, pm_pow D p (Some n) ss = Ok r /\ represents D (len ss) r (vscale n vs)) /\
  (~ Forall (comp_ok D (len ss)) (vscale n vs) -> pm_pow D p (Some n) ss = Throw overflow_error) /\
  pm_pow D p None ss = Throw invalid_argument.
Proof.
  intros D ss p vs n HD R. rewrite (pow_ok D ss p vs n HD R). split; [|split].
  - intros C. pose proof C as C'. apply fits_iff in C'. rewrite C'. eexists. split; [reflexivity|].
    destruct R as (L & B & _). repeat split; auto. unfold vscale. rewrite map_length. exact L.
  - intros C. destruct (fits D (len ss) (vscale n vs)) eqn:F; [|reflexivity]. apply fits_iff in F. contradiction.
  - reflexivity.
Qed.
Print Assumptions pm_pow_exact.

Example pm_pow_nonvacuous :
  let p := kron (delta kd_uint64 2) [3; 5] in
  represents kd_uint64 2 p [3; 5] /\ pm_pow kd_uint64 p (Some 7) ["x"; "y"]%string = Ok (kron (delta kd_uint64 2) [21; 35]) /\
  pm_pow kd_uint64 p (Some (-1)) ["x"; "y"]%string = Throw overflow_error.
Proof. cbv zeta. split; [apply representsb_ok; vm_compute; reflexivity|]. split; vm_compute; reflexivity. Qed.

(** C16: evaluation.  [xs] are the values of the symbols, in the order of the symbol set (the
    complete index map the code receives); [vpow] may throw, and the first exception wins. *)
Theorem pm_evaluate_exact : forall (V U : Type) D (vone : V) (vmul : V -> V -> V) (vpow : U -> Z -> res V) ss p vs (xs : list U),
  packable D -> represents D (len ss) p vs -> len xs = len ss ->
  let run := pm_evaluate D vone vmul vpow p (combine (seq 0 (len ss)) xs) ss in
  (forall pw, (forall x e, In (x, e) (combine xs vs) -> vpow x e = Ok (pw x e)) ->
     run = Ok (fold_left vmul (map (fun q => pw (fst q) (snd q)) (combine xs vs)) vone)) /\
  (forall k x e err, nth_error xs k = Some x -> nth_error vs k = Some e -> vpow x e = Throw err ->
     (forall j y f, (j < k)%nat -> nth_error xs j = Some y -> nth_error vs j = Some f -> exists r, vpow y f = Ok r) ->
     run = Throw err).
Proof.
  intros V U D vone vmul vpow ss p vs xs HD R L run.
  pose proof (evaluate_ok D vone vmul vpow ss p vs xs HD R L) as E. fold run in E. rewrite E. clear run E.
  destruct R as (Lv & _). assert (LL : len xs = len vs) by lia. clear L Lv HD. split.
  - intros pw. revert vs LL vone. induction xs as [|x xs IH]; intros [|v vs] LL vone H; try discriminate; [reflexivity|].
    cbn [combine rfold map fold_left]. unfold pstep at 1. cbn [fst snd]. rewrite (H x v) by (left; auto). cbn [bind].
    apply IH; [cbn in LL; lia|]. intros y e I1. apply H; right; auto.
  - intros k. revert xs vs LL vone. induction k as [|k IH]; intros [|x xs] [|v vs] LL vone y e err Hx Hv HT HP; try discriminate.
    + cbn in Hx, Hv. inversion Hx; inversion Hv; subst. cbn [combine rfold]. unfold pstep at 1. cbn [fst snd]. rewrite HT. reflexivity.
    + cbn in Hx, Hv. cbn [combine rfold]. unfold pstep at 1. cbn [fst snd].
      destruct (HP O x v) as (r & Er); [lia|reflexivity|reflexivity|]. rewrite Er. cbn [bind].
      apply (IH xs vs ltac:(cbn in LL; lia) _ y e); auto. intros j z f Hj Hz Hf. apply (HP (S j) z f); auto. lia.
Qed.
Print Assumptions pm_evaluate_exact.

(** C16: substitution.  [sm] maps positions to values. *)
Theorem pm_subs_exact : forall (V U : Type) D (vone : V) (vmul : V -> V -> V) (vpow : U -> Z -> res V) pw ss p vs (sm : list (nat * U)),
  packable D -> represents D (len ss) p vs ->
  StronglySorted lt (map fst sm) -> (forall y, In y (map fst sm) -> (y < len ss)%nat) ->
  (forall i x, In (i, x) sm -> vpow x (nth i vs 0) = Ok (pw x (nth i vs 0))) ->
  exists q, pm_subs D vone vmul vpow p sm ss =
              Ok (fold_left vmul (map (fun a => pw (snd a) (nth (fst a) vs 0)) sm) vone, q) /\
            represents D (len ss) q (zero_at (map fst sm) vs).
Proof.
  intros V U D vone vmul vpow pw ss p vs sm HD R S H P.
  destruct (subs_ok D vone vmul vpow ss p vs sm HD R S H) as [E RR]. rewrite E.
  eexists. split; [|exact RR].
  assert (F : rfold (pstep vmul vpow) (map (fun q => (snd q, nth (fst q) vs 0)) sm) vone = Ok (fold_left vmul (map (fun a => pw (snd a) (nth (fst a) vs 0)) sm) vone)).
  { clear -P. revert vone. induction sm as [|[i x] sm IH]; intros vone; [reflexivity|].
    cbn [map rfold fold_left]. unfold pstep at 1. cbn [fst snd]. rewrite (P i x) by (left; auto). cbn [bind].
    apply IH. intros j y I. apply P. right; auto. }
  rewrite F. reflexivity.
Qed.
Print Assumptions pm_subs_exact.

Example pm_subs_nonvacuous :
  let ss := ["x"; "y"; "z"]%string in let p := kron (delta kd_int64 3) [2; 3; 1] in
  let vpow := fun x e => if e <? 0 then Throw zero_division_error else Ok (x ^ e) in
  pm_evaluate kd_int64 1 Z.mul vpow p (combine (seq 0 3) [5; 2; 7]) ss = Ok 1400 /\
  pm_subs kd_int64 1 Z.mul vpow p [(0%nat, 5); (2%nat, 7)] ss = Ok (175, kron (delta kd_int64 3) [0; 3; 0]).
Proof. cbv zeta. repeat split; vm_compute; reflexivity. Qed.
