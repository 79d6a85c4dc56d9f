(** Properties C10 (dynamic packed part), C17, C18, C56: dynamic packed monomials.
    Vocabulary: DPMSpec.v ([drepresents D ps n d vs]: the container d is the monomial
    with exponents vs over n symbols, for pack size ps). *)
From Coq Require Import ZArith List Bool String Lia Sorted Arith.
From Verif Require Import Base KpackTables KpackModel KpackSpec KpackProofs IntModel IntSpec IntProofs
  SymModel SymSpec SymProofs PMonModel PMonSpec PMonProofs PMonProofs2 DPMModel DPMSpec DPMProofs DPMProofs2 DPMProofs3.
Import ListNotations.
Open Scope Z_scope.

Local Notation "'len' l" := (List.length l) (at level 9).

(** C17: the three constructors succeed exactly when every exponent is within the
    limits of the pack size; the result stores ceil(n/psize) packs and has the given exponents. *)
Theorem dpm_construct_exact : forall D ps u vs,
  packable D -> psize_ok D ps -> integral_type u -> Forall (has_value u) vs ->
  (Forall (comp_ok D ps) vs ->
     exists d, dpm_of_range D ps u vs = Ok d /\ dpm_of_iter D ps u vs (len vs) = Ok d /\
               drepresents D ps (len vs) d vs /\ len d = npacks ps (len vs)) /\
  (~ Forall (comp_ok D ps) vs ->
     (dpm_of_range D ps u vs = Throw overflow_error \/ dpm_of_range D ps u vs = Throw safe_cast_failure) /\
     (dpm_of_iter D ps u vs (len vs) = Throw overflow_error \/ dpm_of_iter D ps u vs (len vs) = Throw safe_cast_failure)).
Proof.
  intros D ps u vs HD G Hu Hv. unfold psize_ok in G.
  pose proof (of_range_ok D ps u vs HD G Hu Hv) as A. pose proof (of_iter_ok D ps u vs (len vs) HD G Hu Hv eq_refl) as B.
  unfold construct_spec in A, B. destruct (fits D ps vs) eqn:F.
  - apply fits_iff in F. split; [|contradiction]. intros _. exists (dcode D ps vs). split; [exact A|]. split; [exact B|].
    split; [repeat split; auto|]. apply dcode_length.
  - split; [|auto]. intros H. apply fits_iff in H. congruence.
Qed.
Print Assumptions dpm_construct_exact.

Theorem dpm_unit_exact : forall D ps ss d vs, packable D -> psize_ok D ps ->
  drepresents D ps (len ss) (dpm_of_symbol_set ps ss) (repeat 0 (len ss)) /\
  drepresents D ps 0 dpm_default [] /\
  (drepresents D ps (len ss) d vs ->
    (dpm_key_is_one d ss = true <-> vs = repeat 0 (len ss)) /\ dpm_key_is_zero d ss = false).
Proof.
  intros D ps ss d vs HD G. unfold psize_ok in G. pose proof G as [G1 _]. split; [|split].
  - unfold dpm_of_symbol_set. rewrite vsize_npacks by exact G1. apply dunit; auto.
  - repeat split; auto. rewrite dcode_nil by exact G1. reflexivity.
  - intros R. split; [|reflexivity]. apply (one_iff D ps HD G); exact R.
Qed.
Print Assumptions dpm_unit_exact.

Theorem dpm_equality_exact : forall D ps n d e vs ws, packable D -> psize_ok D ps ->
  drepresents D ps n d vs -> drepresents D ps n e ws ->
  (dpm_eq d e = true <-> vs = ws) /\ (dpm_neq d e = true <-> vs <> ws).
Proof.
  intros D ps n d e vs ws HD G R1 R2. unfold psize_ok in G.
  assert (d = e <-> vs = ws).
  { split; [intros ->; eapply (drep_unique D ps HD G); eauto|]. intros ->. destruct R1 as (_ & _ & ->), R2 as (_ & _ & ->). reflexivity. }
  unfold dpm_neq. rewrite negb_true_iff. rewrite <- not_true_iff_false, dpm_eq_iff. tauto.
Qed.
Print Assumptions dpm_equality_exact.

Example dpm_construct_nonvacuous :
  let vs := [1; -2; 3; 4; 5; 0; -7] in
  let d := dcode kd_int32 3 vs in
  good_size kd_int32 3 /\ drepresents kd_int32 3 7 d vs /\ len d = 3%nat /\
  dpm_of_range kd_int32 3 int64 vs = Ok d /\ dpm_of_iter kd_int32 3 int64 vs 7 = Ok d /\
  dpm_of_range kd_int32 3 int64 [1; 2; 3; 645] = Throw overflow_error /\
  dpm_of_range kd_int32 3 int64 [1; 2; 3; 2 ^ 40] = Throw safe_cast_failure.
Proof.
  cbn zeta. split; [split; vm_compute; repeat constructor|]. split; [apply drepresentsb_ok; vm_compute; reflexivity|].
  repeat split; vm_compute; reflexivity.
Qed.

(** C56: what key_is_compatible decides, and that it accepts containers that are not
    the code of any exponent vector over the given symbols. *)
Theorem dpm_compatible_sound_partial : forall D ps d ss, packable D -> psize_ok D ps ->
  (forall vs, drepresents D ps (len ss) d vs -> dpm_compatible D ps d ss = Ok true) /\
  (exists b, dpm_compatible D ps d ss = Ok b /\
     (b = true <-> len d = npacks ps (len ss) /\ Forall (code_ok D ps) d)) /\
  ((len ss mod ps = 0)%nat -> dpm_compatible D ps d ss = Ok true -> exists vs, drepresents D ps (len ss) d vs).
Proof.
  intros D ps d ss HD G. unfold psize_ok in G. pose proof G as [G1 G2].
  split; [intros vs R; eapply drep_compat; eauto|]. split; [apply dcompat_iff; auto|].
  intros M C. destruct (dcompat_iff D ps HD G d ss) as (b & Eb & Hb). rewrite Eb in C. inversion C; subst b.
  destruct (proj1 Hb eq_refl) as [L F]. clear Hb Eb C.
  assert (E : (len ss = len d * ps)%nat).
  { rewrite L. unfold npacks. pose proof (Nat.div_mod (len ss) ps ltac:(lia)) as DM. rewrite M, Nat.add_0_r in DM.
    replace (len ss + ps - 1)%nat with ((ps - 1) + (len ss / ps) * ps)%nat by nia.
    rewrite Nat.div_add by lia. rewrite (Nat.div_small (ps - 1)) by lia. lia. }
  rewrite E. clear L M E. induction F as [|x d Hx F IH].
  - exists []. repeat split; auto. rewrite dcode_nil by exact G1. reflexivity.
  - destruct IH as (vs & Lv & Cv & Ed). destruct (rep_exists D ps x HD G Hx) as (us & Lu & _ & Cu & Ex).
    exists (us ++ vs). repeat split.
    + rewrite app_length, Lu, Lv. reflexivity.
    + apply Forall_app; auto.
    + rewrite dcode_app by auto. congruence.
Qed.
Print Assumptions dpm_compatible_sound_partial.

Theorem dpm_compatible_exact_refuted :
  ~ (forall D ps d ss, packable D -> psize_ok D ps -> dpm_compatible D ps d ss = Ok true ->
       exists vs, drepresents D ps (len ss) d vs).
Proof.
  intros H. specialize (H kd_int32 3%nat [kron (delta kd_int32 3) [0; 0; 5]] ["x"%string]).
  destruct H as (vs & L & C & E).
  - left; reflexivity.
  - split; vm_compute; repeat constructor.
  - vm_compute. reflexivity.
  - destruct vs as [|v [|? ?]]; try discriminate L.
    rewrite dcode_short in E; [|lia|discriminate|cbn; lia]. inversion E as [E'].
    apply Forall_inv in C. unfold comp_ok in C.
    change (lim kd_int32 3) with 644 in C. unfold lo in C. change (lim kd_int32 3) with 644 in C. cbn [sgnd kd_ty kd_int32] in C.
    change (delta kd_int32 3) with 1291 in E'. cbn in E'. change (sgnd int32) with true in C. cbv iota in C. lia.
Qed.
Print Assumptions dpm_compatible_exact_refuted.

(** C10: hashing of dynamic packed monomials. *)
Theorem dpm_hash_homomorphic : forall D ps n d e vs ws, packable D -> psize_ok D ps ->
  drepresents D ps n d vs -> drepresents D ps n e ws ->
  (dpm_eq d e = true -> dpm_hash d = dpm_hash e) /\
  0 <= dpm_hash d < 2 ^ 64 /\
  (Forall (comp_ok D ps) (vadd vs ws) ->
   exists r, dpm_mul D d e = Ok r /\
     dpm_hash r = (dpm_hash d + dpm_hash e) mod 2 ^ 64 /\
     forall k, 0 <= k <= 64 -> dpm_hash r mod 2 ^ k = (dpm_hash d mod 2 ^ k + dpm_hash e mod 2 ^ k) mod 2 ^ k).
Proof.
  intros D ps n d e vs ws HD G R1 R2. unfold psize_ok in G.
  split; [intros H; apply (dpm_eq_iff) in H; subst; reflexivity|].
  split; [rewrite (dhash_sum D ps G); apply Z.mod_pos_bound; lia|].
  intros C. destruct (dmul_rep D ps HD G n d e vs ws R1 R2 C) as [E R]. exists (dcode D ps (vadd vs ws)). split; [exact E|].
  assert (VA : vsum (dcode D ps (vadd vs ws)) = vsum d + vsum e).
  { destruct R1 as (L1 & _ & ->), R2 as (L2 & _ & ->). apply vsum_dcode_vadd; auto. lia. }
  assert (HR : dpm_hash (dcode D ps (vadd vs ws)) = (dpm_hash d + dpm_hash e) mod 2 ^ 64).
  { rewrite !(dhash_sum D ps G), VA. rewrite <- Zplus_mod. reflexivity. }
  split; [exact HR|]. intros k Hk. rewrite HR.
  assert (DIV : (2 ^ k | 2 ^ 64)).
  { exists (2 ^ (64 - k)). rewrite <- Z.pow_add_r by lia. f_equal. lia. }
  rewrite <- (Znumtheory.Zmod_div_mod (2 ^ k) (2 ^ 64)); [|apply Z.pow_pos_nonneg; lia|lia|exact DIV].
  rewrite Zplus_mod. reflexivity.
Qed.
Print Assumptions dpm_hash_homomorphic.

(** C18: the verdict of the overflow check, for every schedule and both paths. *)
Theorem dpm_overflow_check_exact : forall D ps ra ss r1 r2, packable D -> psize_ok D ps ->
  (forall p, In p r1 -> exists vs, drepresents D ps (len ss) p vs) ->
  (forall p, In p r2 -> exists vs, drepresents D ps (len ss) p vs) ->
  (exists v, dpm_overflow_check D ps ra ss r1 r2 v) /\
  (forall v, dpm_overflow_check D ps ra ss r1 r2 v ->
    exists b, v = Ok b /\
      (b = true <->
       forall p q vs ws, In p r1 -> In q r2 ->
         drepresents D ps (len ss) p vs -> drepresents D ps (len ss) q ws ->
         Forall (comp_ok D ps) (vadd vs ws) /\ of_type D (vsum vs + vsum ws))).
Proof.
  intros D ps ra ss r1 r2 HD G A1 A2. unfold psize_ok in G. rewrite <- Forall_forall in A1, A2. split.
  - apply doverflow_exists; auto.
  - intros v H. eapply doverflow_ok; eauto.
Qed.
Print Assumptions dpm_overflow_check_exact.

(** C09: the verdict depends neither on the splits and joins of the parallel reduction nor on the path taken. *)
Theorem dpm_overflow_check_deterministic : forall D ps ss r1 r2 ra1 ra2 v1 v2, packable D -> psize_ok D ps ->
  (forall p, In p r1 -> exists vs, drepresents D ps (len ss) p vs) ->
  (forall p, In p r2 -> exists vs, drepresents D ps (len ss) p vs) ->
  dpm_overflow_check D ps ra1 ss r1 r2 v1 -> dpm_overflow_check D ps ra2 ss r1 r2 v2 -> v1 = v2.
Proof.
  intros D ps ss r1 r2 ra1 ra2 v1 v2 HD G A1 A2 H1 H2.
  destruct (dpm_overflow_check_exact D ps ra1 ss r1 r2 HD G A1 A2) as [_ E1].
  destruct (dpm_overflow_check_exact D ps ra2 ss r1 r2 HD G A1 A2) as [_ E2].
  destruct (E1 _ H1) as (b1 & -> & B1). destruct (E2 _ H2) as (b2 & -> & B2).
  f_equal. destruct b1, b2; auto; [symmetry; apply B2, B1; reflexivity|apply B1, B2; reflexivity].
Qed.
Print Assumptions dpm_overflow_check_deterministic.

(** C18: after an accepting check every product is exact and compatible, and its total
    degree is a value of T. *)
Theorem dpm_mul_after_check : forall D ps ra ss r1 r2 p q vs ws, packable D -> psize_ok D ps ->
  (forall p, In p r1 -> exists vs, drepresents D ps (len ss) p vs) ->
  (forall p, In p r2 -> exists vs, drepresents D ps (len ss) p vs) ->
  dpm_overflow_check D ps ra ss r1 r2 (Ok true) -> In p r1 -> In q r2 ->
  drepresents D ps (len ss) p vs -> drepresents D ps (len ss) q ws ->
  exists r, dpm_mul D p q = Ok r /\ drepresents D ps (len ss) r (vadd vs ws) /\
            dpm_compatible D ps r ss = Ok true /\ of_type D (vsum (vadd vs ws)).
Proof.
  intros D ps ra ss r1 r2 p q vs ws HD G A1 A2 H I1 I2 R1 R2.
  destruct (dpm_overflow_check_exact D ps ra ss r1 r2 HD G A1 A2) as [_ E]. unfold psize_ok in G.
  destruct (E _ H) as (b & Eb & Hb). inversion Eb; subst b.
  destruct (proj1 Hb eq_refl p q vs ws I1 I2 R1 R2) as [C T].
  destruct (dmul_rep D ps HD G _ p q vs ws R1 R2 C) as [M R].
  eexists. split; [exact M|]. split; [exact R|]. split; [eapply drep_compat; eauto|].
  rewrite vsum_vadd; [exact T|]. destruct R1 as (L1 & _), R2 as (L2 & _). lia.
Qed.
Print Assumptions dpm_mul_after_check.

Example dpm_overflow_check_nonvacuous :
  let a := dcode kd_int32 2 [22785; -5; 3] in let b := dcode kd_int32 2 [383; 7; 0] in let c := dcode kd_int32 2 [384; 7; 0] in
  let ss := ["x"; "y"; "z"]%string in
  drepresents kd_int32 2 3 a [22785; -5; 3] /\ drepresents kd_int32 2 3 b [383; 7; 0] /\
  dpm_overflow_check kd_int32 2 false ss [b; a] [b; b] (Ok true) /\
  dpm_overflow_check kd_int32 2 true ss [b; a] [b; c] (Ok false).
Proof.
  cbn zeta. split; [apply drepresentsb_ok; vm_compute; reflexivity|]. split; [apply drepresentsb_ok; vm_compute; reflexivity|].
  split.
  - match goal with |- dpm_overflow_check ?D ?ps ?ra ?ss (?p1 :: ?r1) (?p2 :: ?r2) _ =>
      pose proof (doc_serial D ps ra ss p1 r1 p2 r2 ltac:(discriminate) ltac:(reflexivity)) as H end.
    revert H. match goal with |- dpm_overflow_check _ _ _ _ _ _ ?v -> _ => replace v with (@Ok bool true) by (vm_compute; reflexivity) end. auto.
  - match goal with |- dpm_overflow_check ?D ?ps ?ra ?ss (?p1 :: ?r1) (?p2 :: ?r2) _ =>
      pose proof (doc_serial D ps ra ss p1 r1 p2 r2 ltac:(discriminate) ltac:(reflexivity)) as H end.
    revert H. match goal with |- dpm_overflow_check _ _ _ _ _ _ ?v -> _ => replace v with (@Ok bool false) by (vm_compute; reflexivity) end. auto.
Qed.

(** C17: degree and partial degree: exact whenever the running sums fit T, otherwise
    overflow_error (never a wrong value). *)
Theorem dpm_degree_exact : forall D ps ss d vs, packable D -> psize_ok D ps -> drepresents D ps (len ss) d vs ->
  (partial_sums_ok D vs -> dpm_degree D ps d ss = Ok (vsum vs)) /\
  (~ partial_sums_ok D vs -> dpm_degree D ps d ss = Throw overflow_error).
Proof. intros D ps ss d vs HD G R. apply ddeg_ok; auto. Qed.
Print Assumptions dpm_degree_exact.

Theorem dpm_p_degree_exact : forall D ps ss d vs si, packable D -> psize_ok D ps -> drepresents D ps (len ss) d vs ->
  StronglySorted lt si ->
  let ws := select (fun i => mem i si) vs in
  (partial_sums_ok D ws -> dpm_p_degree D ps d si ss = Ok (vsum ws)) /\
  (~ partial_sums_ok D ws -> dpm_p_degree D ps d si ss = Throw overflow_error).
Proof. intros D ps ss d vs si HD G R S. apply dpdeg_ok; auto. Qed.
Print Assumptions dpm_p_degree_exact.

(** C18, refuted part: the check promises that the total degree of every product fits T
    (dpm_mul_after_check), but for signed T computing that degree may still throw. *)
Theorem dpm_degree_after_check_refuted :
  ~ (forall D ps ra ss r1 r2 p q r, packable D -> psize_ok D ps ->
       (forall p, In p r1 -> exists vs, drepresents D ps (len ss) p vs) ->
       (forall p, In p r2 -> exists vs, drepresents D ps (len ss) p vs) ->
       dpm_overflow_check D ps ra ss r1 r2 (Ok true) -> In p r1 -> In q r2 -> dpm_mul D p q = Ok r ->
       exists k, dpm_degree D ps r ss = Ok k).
Proof.
  intros H.
  set (a := [500000000; 500000000; 500000000; -500000000]).
  specialize (H kd_int32 1%nat false ["w"; "x"; "y"; "z"]%string [a] [a] a a [1000000000; 1000000000; 1000000000; -1000000000]).
  assert (R : drepresents kd_int32 1 4 a a) by (apply drepresentsb_ok; vm_compute; reflexivity).
  destruct H as (k & E).
  - left; reflexivity.
  - split; vm_compute; repeat constructor.
  - intros p [<-|[]]. exists a. exact R.
  - intros p [<-|[]]. exists a. exact R.
  - match goal with |- dpm_overflow_check ?D ?ps ?ra ?ss (?p1 :: ?r1) (?p2 :: ?r2) _ =>
      pose proof (doc_serial D ps ra ss p1 r1 p2 r2 ltac:(discriminate) ltac:(reflexivity)) as H end.
    revert H. match goal with |- dpm_overflow_check _ _ _ _ _ _ ?v -> _ => replace v with (@Ok bool true) by (vm_compute; reflexivity) end. auto.
  - left; reflexivity.
  - left; reflexivity.
  - vm_compute. reflexivity.
  - vm_compute in E. discriminate.
Qed.
Print Assumptions dpm_degree_after_check_refuted.

(** For unsigned T it cannot throw. *)
Theorem dpm_degree_after_check_unsigned_partial : forall D ps ra ss r1 r2 p q vs ws r, packable D -> psize_ok D ps -> sgnd (kd_ty D) = false ->
  (forall p, In p r1 -> exists vs, drepresents D ps (len ss) p vs) ->
  (forall p, In p r2 -> exists vs, drepresents D ps (len ss) p vs) ->
  dpm_overflow_check D ps ra ss r1 r2 (Ok true) -> In p r1 -> In q r2 ->
  drepresents D ps (len ss) p vs -> drepresents D ps (len ss) q ws -> dpm_mul D p q = Ok r ->
  dpm_degree D ps r ss = Ok (vsum vs + vsum ws).
Proof.
  intros D ps ra ss r1 r2 p q vs ws r HD G SG A1 A2 H I1 I2 R1 R2 M.
  destruct (dpm_mul_after_check D ps ra ss r1 r2 p q vs ws HD G A1 A2 H I1 I2 R1 R2) as (r' & M' & R & _ & T).
  rewrite M in M'. inversion M'; subst r'. unfold psize_ok in G.
  assert (VS : vsum (vadd vs ws) = vsum vs + vsum ws) by (destruct R1 as (L1 & _), R2 as (L2 & _); apply vsum_vadd; lia).
  rewrite <- VS. apply (ddeg_ok D ps HD G ss r (vadd vs ws) R). intros k Hk.
  destruct R as (_ & C & _). rewrite <- (firstn_skipn k (vadd vs ws)) in T, C. rewrite vsum_app in T. apply Forall_app in C as [C1 C2].
  pose proof (nonneg_sum D ps G _ SG C1). pose proof (nonneg_sum D ps G _ SG C2).
  unfold of_type in *. unfold imin in *. rewrite SG in *. lia.
Qed.
Print Assumptions dpm_degree_after_check_unsigned_partial.

(** C17: symbol merging never fails and inserts zero exponents. *)
Theorem dpm_merge_symbols_exact : forall D ps s d vs m, packable D -> psize_ok D ps ->
  drepresents D ps (len s) d vs -> ins_map_ok (len s) m ->
  let ws := insert_zeros m vs in
  (exists r, dpm_merge_symbols D ps d m s = Ok r /\ drepresents D ps (len ws) r ws) /\
  (forall u, insert_all (ins_at m) 0 s = u -> NoDup u -> len ws = len u /\ forall x, expo u ws x = expo s vs x).
Proof.
  intros D ps s d vs m HD G R MO ws. unfold psize_ok in G.
  destruct (dmerge_ok D ps HD G s d vs m R MO) as [E RR]. split; [eauto|].
  intros u <- N. pose proof R as (L & _). split; [|intros x; apply expo_insert; auto].
  unfold ws, insert_zeros. destruct MO as [S F].
  assert (HP : forall j, In j (map fst m) -> (0 <= j <= 0 + len s)%nat).
  { intros j Hj. apply in_map_iff in Hj as ([j' y] & <- & I). rewrite Forall_forall in F. destruct (F _ I) as [F1 _]. cbn [fst] in *. lia. }
  rewrite (insert_all_len m (fun _ => 0)) by (auto; rewrite L; exact HP).
  pose proof (insert_all_len m (fun s => s) s 0 S HP) as L2.
  rewrite (insert_all_ext _ (ins_at m)) in L2 by (intros; apply map_id). rewrite L2, L. reflexivity.
Qed.
Print Assumptions dpm_merge_symbols_exact.

Theorem dpm_trim_exact : forall D ps ss d vs si, packable D -> psize_ok D ps -> drepresents D ps (len ss) d vs ->
  StronglySorted lt si -> (forall y, In y si -> (y < len ss)%nat) ->
  exists r, dpm_trim D ps d si ss = Ok r /\
    drepresents D ps (len ss - len si) r (select (fun i => negb (mem i si)) vs) /\
    forall m, sorted_set ss -> (forall y, In y si -> nth y vs 0 = 0) ->
      let ss' := select (fun i => negb (mem i si)) ss in
      ins_map_ok (len ss') m -> insert_all (ins_at m) 0 ss' = ss ->
      dpm_merge_symbols D ps r m ss' = Ok d.
Proof.
  intros D ps ss d vs si HD G R S H. unfold psize_ok in G. destruct (dtrim_ok D ps HD G ss d vs si R S H) as (r & E & Rr).
  exists r. split; [exact E|]. split; [exact Rr|]. intros m Sss Z0 ss' MO I.
  eapply (dtrim_extend D ps HD G); eauto.
Qed.
Print Assumptions dpm_trim_exact.

Theorem dpm_trim_identify_exact : forall D ps ss (terms : list (list Z * list Z)), packable D -> psize_ok D ps ->
  Forall (fun t => drepresents D ps (len ss) (fst t) (snd t)) terms ->
  exists v, rfold (fun v p => dpm_trim_identify D ps v p ss) (map fst terms) (repeat 1 (len ss)) = Ok v /\
    len v = len ss /\
    forall i, (i < len ss)%nat ->
      (nth i v 0 = 1 <-> forall t, In t terms -> nth i (snd t) 0 = 0) /\ (nth i v 0 = 1 \/ nth i v 0 = 0).
Proof.
  intros D ps ss terms HD G F. unfold psize_ok in G.
  destruct (dident_all D ps HD G ss terms (repeat 1 (len ss)) F) as (v & E & L & N); [apply repeat_length|].
  exists v. split; [exact E|]. split; [exact L|]. intros i Hi. rewrite (N i Hi). unfold dpm in *.
  assert (nth i (repeat 1 (len ss)) 0 = 1) as ->.
  { rewrite (nth_indep _ 0 1) by (rewrite repeat_length; exact Hi). apply nth_repeat. }
  destruct (forallb (fun t => nth i (snd t) 0 =? 0) terms) eqn:B.
  - rewrite forallb_forall in B. split; [|auto]. split; [|reflexivity]. intros _ t I. apply Z.eqb_eq. exact (B t I).
  - split; [|auto]. split; [discriminate|]. intros H. exfalso.
    assert (forallb (fun t => nth i (snd t) 0 =? 0) terms = true); [|congruence].
    apply forallb_forall. intros t I. apply Z.eqb_eq. auto.
Qed.
Print Assumptions dpm_trim_identify_exact.

Theorem dpm_pow_exact : forall D ps ss d vs n, packable D -> psize_ok D ps -> drepresents D ps (len ss) d vs ->
  (Forall (comp_ok D ps) (vscale n vs) ->
     exists r, dpm_pow D ps d (Some n) ss = Ok r /\ drepresents D ps (len ss) r (vscale n vs)) /\
  (~ Forall (comp_ok D ps) (vscale n vs) -> dpm_pow D ps d (Some n) ss = Throw overflow_error) /\
  dpm_pow D ps d None ss = Throw invalid_argument.
Proof.
  intros D ps ss d vs n HD G R. unfold psize_ok in G. unfold dpm_pow. rewrite (repack_lt D ps _ d vs) by auto. rewrite gmap_pow by auto.
  split; [|split; [|reflexivity]].
  - intros C. pose proof C as C'. apply fits_iff in C'. rewrite C'. cbn [bind]. eexists. split; [reflexivity|].
    destruct R as (L & _). repeat split; auto. unfold vscale. rewrite map_length. exact L.
  - intros C. destruct (fits D ps (vscale n vs)) eqn:F; [|reflexivity]. apply fits_iff in F. contradiction.
Qed.
Print Assumptions dpm_pow_exact.

Theorem dpm_diff_exact : forall D ps ss d vs idx, packable D -> psize_ok D ps -> drepresents D ps (len ss) d vs -> (idx < len ss)%nat ->
  let e := nth idx vs 0 in
  (e = 0 -> dpm_diff D ps d idx ss = Ok (0, d)) /\
  (e <> 0 -> comp_ok D ps (e - 1) ->
     exists r, dpm_diff D ps d idx ss = Ok (e, r) /\ drepresents D ps (len ss) r (set_at idx (e - 1) vs)) /\
  (e <> 0 -> ~ comp_ok D ps (e - 1) -> dpm_diff D ps d idx ss = Throw overflow_error).
Proof.
  intros D ps ss d vs idx HD G R Hi e. unfold psize_ok in G. pose proof (ddiff_ok D ps HD G ss d vs idx R Hi) as E. cbn zeta in E. fold e in E.
  rewrite E. split; [|split].
  - intros ->. reflexivity.
  - intros NZ C. destruct (Z.eqb_spec e 0); [contradiction|]. pose proof C as C'. apply comp_okb_iff in C'. rewrite C'.
    eexists. split; [reflexivity|]. eapply (dset_rep D ps G); eauto.
  - intros NZ C. destruct (Z.eqb_spec e 0); [contradiction|]. destruct (comp_okb D ps (e - 1)) eqn:B; [|reflexivity].
    apply comp_okb_iff in B. contradiction.
Qed.
Print Assumptions dpm_diff_exact.

Theorem dpm_integrate_exact : forall D ps ss d vs idx, packable D -> psize_ok D ps -> drepresents D ps (len ss) d vs -> (idx < len ss)%nat ->
  let e := nth idx vs 0 in
  (e = -1 -> dpm_integrate D ps d idx ss = Throw domain_error) /\
  (e <> -1 -> ~ comp_ok D ps (e + 1) -> dpm_integrate D ps d idx ss = Throw overflow_error) /\
  (e <> -1 -> comp_ok D ps (e + 1) ->
     exists r, dpm_integrate D ps d idx ss = Ok (e + 1, r) /\ drepresents D ps (len ss) r (set_at idx (e + 1) vs) /\
               dpm_diff D ps r idx ss = Ok (e + 1, d)).
Proof.
  intros D ps ss d vs idx HD G R Hi e. unfold psize_ok in G. pose proof (dint_ok D ps HD G ss d vs idx R Hi) as E. cbn zeta in E. fold e in E.
  rewrite E. split; [|split].
  - intros ->. reflexivity.
  - intros NZ C. destruct (Z.eqb_spec e (-1)); [contradiction|]. destruct (comp_okb D ps (e + 1)) eqn:B; [|reflexivity].
    apply comp_okb_iff in B. contradiction.
  - intros NZ C. destruct (Z.eqb_spec e (-1)); [contradiction|]. pose proof C as C'. apply comp_okb_iff in C'. rewrite C'.
    eexists. split; [reflexivity|]. pose proof (dset_rep D ps G _ d vs idx (e + 1) R Hi C) as R2. split; [exact R2|].
    rewrite (ddiff_ok D ps HD G ss _ _ idx R2 Hi). cbn zeta.
    pose proof R as (L & Cv & Ed).
    destruct (split_at vs idx) as (a & x & b & Ev & La & Ex); [lia|]. fold e in Ex.
    assert (N1 : nth idx (set_at idx (e + 1) vs) 0 = e + 1).
    { rewrite Ev, <- La, set_at_app. rewrite app_nth2, Nat.sub_diag by lia. reflexivity. }
    assert (N2 : set_at idx e (set_at idx (e + 1) vs) = vs).
    { rewrite Ev, <- La, !set_at_app, Ex. reflexivity. }
    rewrite N1. destruct (Z.eqb_spec (e + 1) 0); [lia|]. replace (e + 1 - 1) with e by lia.
    assert (Ce : comp_ok D ps e).
    { rewrite Forall_forall in Cv. apply Cv. rewrite Ev, <- Ex. apply in_or_app. right; left; auto. }
    apply comp_okb_iff in Ce. rewrite Ce, N2, <- Ed. reflexivity.
Qed.
Print Assumptions dpm_integrate_exact.

Theorem dpm_evaluate_exact : forall (V U : Type) D ps (vone : V) (vmul : V -> V -> V) (vpow : U -> Z -> res V) pw ss d vs (xs : list U),
  packable D -> psize_ok D ps -> drepresents D ps (len ss) d vs -> len xs = len ss ->
  (forall x e, In (x, e) (combine xs vs) -> vpow x e = Ok (pw x e)) ->
  dpm_evaluate D ps vone vmul vpow d (combine (seq 0 (len ss)) xs) ss =
  Ok (fold_left vmul (map (fun q => pw (fst q) (snd q)) (combine xs vs)) vone).
Proof.
  intros V U D ps vone vmul vpow pw ss d vs xs HD G R L. rewrite (deval_ok D ps HD G vone vmul vpow ss d vs xs R L).
  destruct R as (Lv & _). assert (LL : len xs = len vs) by lia. clear L Lv HD G.
  revert vs LL vone. induction xs as [|x xs IH]; intros [|v vs] LL vone H; try discriminate; [reflexivity|].
  cbn [combine rfold map fold_left]. unfold pstep at 1. cbn [fst snd]. rewrite (H x v) by (left; auto). cbn [bind].
  apply IH; [cbn in LL; lia|]. intros y e I1. apply H; right; auto.
Qed.
Print Assumptions dpm_evaluate_exact.

Theorem dpm_subs_exact : forall (V U : Type) D ps (vone : V) (vmul : V -> V -> V) (vpow : U -> Z -> res V) pw ss d vs (sm : list (nat * U)),
  packable D -> psize_ok D ps -> drepresents D ps (len ss) d vs ->
  StronglySorted lt (map fst sm) -> (forall y, In y (map fst sm) -> (y < len ss)%nat) ->
  (forall i x, In (i, x) sm -> vpow x (nth i vs 0) = Ok (pw x (nth i vs 0))) ->
  exists q, dpm_subs D ps vone vmul vpow d sm ss =
              Ok (fold_left vmul (map (fun a => pw (snd a) (nth (fst a) vs 0)) sm) vone, q) /\
            drepresents D ps (len ss) q (zero_at (map fst sm) vs).
Proof.
  intros V U D ps vone vmul vpow pw ss d vs sm HD G R S H P.
  destruct (dsubs_ok D ps HD G vone vmul vpow ss d vs sm R S H) as [E RR]. rewrite E.
  eexists. split; [|exact RR].
  assert (F : rfold (pstep vmul vpow) (map (fun q => (snd q, nth (fst q) vs 0)) sm) vone = Ok (fold_left vmul (map (fun a => pw (snd a) (nth (fst a) vs 0)) sm) vone)).
  { clear -P. revert vone. induction sm as [|[i x] sm IH]; intros vone; [reflexivity|].
    cbn [map rfold fold_left]. unfold pstep at 1. cbn [fst snd]. rewrite (P i x) by (left; auto). cbn [bind].
    apply IH. intros j y I. apply P. right; auto. }
  rewrite F. reflexivity.
Qed.
Print Assumptions dpm_subs_exact.

Example dpm_ops_nonvacuous :
  let vs := [1; 0; -3; 4; 0; 0; 7] in let d := dcode kd_int64 2 vs in
  let ss := ["a"; "b"; "c"; "d"; "e"; "f"; "g"]%string in
  good_size kd_int64 2 /\ drepresents kd_int64 2 7 d vs /\
  dpm_degree kd_int64 2 d ss = Ok 9 /\ dpm_p_degree kd_int64 2 d [2; 3]%nat ss = Ok 1 /\
  dpm_merge_symbols kd_int64 2 d [(0, ["A"]); (7, ["z"])]%nat%string ss = Ok (dcode kd_int64 2 [0; 1; 0; -3; 4; 0; 0; 7; 0]) /\
  dpm_trim kd_int64 2 d [1; 4; 5]%nat ss = Ok (dcode kd_int64 2 [1; -3; 4; 7]) /\
  dpm_diff kd_int64 2 d 2%nat ss = Ok (-3, dcode kd_int64 2 [1; 0; -4; 4; 0; 0; 7]) /\
  dpm_integrate kd_int64 2 d 6%nat ss = Ok (8, dcode kd_int64 2 [1; 0; -3; 4; 0; 0; 8]) /\
  dpm_pow kd_int64 2 d (Some (-2)) ss = Ok (dcode kd_int64 2 [-2; 0; 6; -8; 0; 0; -14]) /\
  dpm_subs kd_int64 2 1 Z.mul (fun x e => Ok (x ^ e)) d [(3%nat, 2); (6%nat, 3)] ss = Ok (34992, dcode kd_int64 2 [1; 0; -3; 0; 0; 0; 0]).
Proof.
  cbn zeta. split; [split; vm_compute; repeat constructor|]. split; [apply drepresentsb_ok; vm_compute; reflexivity|].
  repeat split; vm_compute; reflexivity.
Qed.
