From Coq Require Import ZArith List Lia Bool.
From Verif Require Import Base KpackTables KpackModel KpackSpec.
Import ListNotations.
Open Scope Z_scope.

(** * Division by invariant multiplication *)

Definition div_ok (w d : Z) (e : Z * Z * Z) : bool :=
  let '(mp, sh1, sh2) := e in
  if d =? 1 then (mp =? 1) && (sh1 =? 0) && (sh2 =? 0)
  else
    let L := sh2 + 1 in
    (0 <=? mp) && (mp <? 2 ^ w) && (sh1 =? 1) && (0 <=? sh2) && (sh2 <? w)
    && (2 ^ (w + L) <=? (2 ^ w + mp) * d)
    && ((2 ^ w + mp) * d <=? 2 ^ (w + L) + 2 ^ L).

Lemma divcnst_exact w d mp sh1 sh2 n :
  1 < w -> 0 < d -> div_ok w d (mp, sh1, sh2) = true ->
  0 <= n < 2 ^ w ->
  divcnst w n mp sh1 sh2 = Ok (n / d).
Proof.
  intros Hw Hd Hok Hn.
  assert (Hpw : 0 < 2 ^ w) by (apply Z.pow_pos_nonneg; lia).
  unfold div_ok in Hok.
  destruct (Z.eqb_spec d 1) as [->|Hd1].
  - rewrite !andb_true_iff, !Z.eqb_eq in Hok. destruct Hok as [[-> ->] ->].
    unfold divcnst, mulhi, shr.
    rewrite Z.mul_1_l, (Z.div_small n) by lia.
    destruct (Z.ltb_spec 0 w); [|lia].
    cbn [Z.leb andb Z.compare bind].
    rewrite Z.sub_0_r, (Z.mod_small n) by lia.
    change (2 ^ 0) with 1. rewrite !Z.div_1_r, Z.add_0_l, Z.mod_small by lia.
    reflexivity.
  - rewrite !andb_true_iff, !Z.leb_le, !Z.ltb_lt, !Z.eqb_eq in Hok.
    destruct Hok as [[[[[[Hmp0 Hmp1] ->] Hs0] Hs1] Hlo] Hhi].
    set (L := sh2 + 1) in *.
    set (t1 := mulhi w mp n).
    assert (Ht1 : 0 <= t1 <= n).
    { unfold t1, mulhi. split.
      - apply Z.div_pos; nia.
      - apply Z.div_le_upper_bound; nia. }
    unfold divcnst. fold t1.
    unfold shr at 1.
    destruct (Z.ltb_spec 1 w); [|lia].
    cbn [Z.leb andb Z.compare bind].
    change (2 ^ 1) with 2.
    rewrite (Z.mod_small (n - t1)) by lia.
    assert (Hsum : t1 + (n - t1) / 2 = (n + t1) / 2).
    { replace (n + t1) with (n - t1 + t1 * 2) by lia.
      rewrite Z.div_add by lia. lia. }
    rewrite Hsum.
    assert (Hhalf : 0 <= (n + t1) / 2 < 2 ^ w).
    { split; [apply Z.div_pos; lia | apply Z.div_lt_upper_bound; lia]. }
    rewrite Z.mod_small by lia.
    unfold shr.
    destruct (Z.leb_spec 0 sh2); [|lia].
    destruct (Z.ltb_spec sh2 w); [|lia].
    cbn [andb]. f_equal.
    assert (HpL : 0 < 2 ^ sh2) by (apply Z.pow_pos_nonneg; lia).
    rewrite Z.div_div by lia.
    replace (2 * 2 ^ sh2) with (2 ^ L) by (unfold L; rewrite Z.pow_add_r, ?Z.pow_1_r by lia; lia).
    assert (HpL' : 0 < 2 ^ L) by (apply Z.pow_pos_nonneg; lia).
    assert (Hnt : n + t1 = ((2 ^ w + mp) * n) / 2 ^ w).
    { unfold t1, mulhi.
      replace ((2 ^ w + mp) * n) with (mp * n + n * 2 ^ w) by lia.
      rewrite Z.div_add by lia. lia. }
    rewrite Hnt, Z.div_div by lia.
    rewrite <- Z.pow_add_r by lia.
    set (P := 2 ^ (w + L)) in *.
    assert (HP : P = 2 ^ w * 2 ^ L) by (unfold P; rewrite Z.pow_add_r, ?Z.pow_1_r by lia; lia).
    set (m := 2 ^ w + mp) in *.
    set (q := n / d).
    assert (Hq : q * d <= n < (q + 1) * d).
    { unfold q. pose proof (Z.mul_div_le n d Hd). pose proof (Z.mul_succ_div_gt n d Hd). lia. }
    assert (Hq0 : 0 <= q) by (apply Z.div_pos; lia).
    symmetry. apply Z.div_unique_pos with (r := m * n - P * q); [|lia].
    assert (0 <= m) by (unfold m; lia).
    assert (HPpos : 0 < P) by nia.
    split.
    + assert (P * q <= m * d * q) by nia.
      assert (m * (d * q) <= m * n) by (apply Z.mul_le_mono_nonneg_l; lia).
      lia.
    + assert (Hprod : m * d * n < P * (n + 1)).
      { assert ((m * d) * n <= (P + 2 ^ L) * n) by (apply Z.mul_le_mono_nonneg_r; lia).
        assert (2 ^ L * n < P) by (rewrite HP; nia). lia. }
      assert (P * (n + 1) <= P * ((q + 1) * d)) by (apply Z.mul_le_mono_nonneg_l; lia).
      assert (m * n * d < P * (q + 1) * d) by lia.
      assert (m * n < P * (q + 1)) by nia.
      lia.
Qed.

(** * The table checker *)

Fixpoint zsum_pow (d : Z) (s : nat) : Z :=
  match s with O => 0 | S s' => 1 + d * zsum_pow d s' end.

Definition entry_ok (D : kdata) (s i : nat) : bool :=
  match nth_error (kd_divcnst D) (pred s) with
  | Some row =>
      match nth_error row i with
      | Some e => div_ok (bits (kd_ty D)) (delta D s ^ Z.of_nat i) e
      | None => false
      end
  | None => false
  end.

Definition size_ok (D : kdata) (s : nat) : bool :=
  (delta D s =? lim D s - lo D s + 1)
  && (1 <=? lim D s)
  && (klim D s =? lim D s * zsum_pow (delta D s) s)
  && (delta D s ^ Z.of_nat s <=? imax (kd_ty D))
  && forallb (entry_ok D s) (seq 0 (S s)).

Definition kdata_ok (D : kdata) : bool :=
  (1 <? bits (kd_ty D))
  && (length (kd_deltas D) =? length (kd_lims D))%nat
  && (length (kd_klims D) =? length (kd_lims D))%nat
  && forallb (size_ok D) (seq 1 (length (kd_lims D))).

Lemma packable_ok D : packable D -> kdata_ok D = true.
Proof.
  intros [->|[->|[->| ->]]]; vm_compute; reflexivity.
Qed.

Record facts (D : kdata) (s : nat) : Prop := Facts {
  f_bits : 1 < bits (kd_ty D);
  f_len1 : length (kd_deltas D) = length (kd_lims D);
  f_len2 : length (kd_klims D) = length (kd_lims D);
  f_delta : delta D s = lim D s - lo D s + 1;
  f_lim : 1 <= lim D s;
  f_klim : klim D s = lim D s * zsum_pow (delta D s) s;
  f_pow : delta D s ^ Z.of_nat s <= imax (kd_ty D);
  f_entry : forall i, (i <= s)%nat -> entry_ok D s i = true
}.

Lemma facts_of D s : kdata_ok D = true -> good_size D s -> facts D s.
Proof.
  unfold kdata_ok, good_size, max_size. intros H Hs.
  rewrite !andb_true_iff, !Nat.eqb_eq, Z.ltb_lt, forallb_forall in H.
  destruct H as [[[Hb Hl1] Hl2] Hf].
  assert (Hin : In s (seq 1 (length (kd_lims D)))) by (apply in_seq; lia).
  specialize (Hf s Hin). unfold size_ok in Hf.
  rewrite !andb_true_iff, !Z.eqb_eq, !Z.leb_le, forallb_forall in Hf.
  destruct Hf as [[[[? ?] ?] ?] He].
  constructor; auto.
  intros i Hi. apply He, in_seq. lia.
Qed.

Lemma imax_pos t : 1 < bits t -> 0 < imax t.
Proof.
  intros H. unfold imax.
  assert (2 ^ 1 <= 2 ^ (bits t - 1)) by (apply Z.pow_le_mono_r; lia).
  assert (2 ^ 1 <= 2 ^ bits t) by (apply Z.pow_le_mono_r; lia).
  destruct (sgnd t); lia.
Qed.

Lemma imax_lt t : 1 < bits t -> imax t < 2 ^ bits t.
Proof.
  intros H. unfold imax.
  assert (2 ^ (bits t - 1) <= 2 ^ bits t) by (apply Z.pow_le_mono_r; lia).
  destruct (sgnd t); lia.
Qed.

Lemma arith_ok t z : 1 < bits t -> imin t <= z <= imax t -> arith t z = Ok z.
Proof.
  intros Hb Hz. unfold arith, in_ity. pose proof (imax_lt t Hb) as Hm.
  destruct (Z.leb_spec (imin t) z); [|lia].
  destruct (Z.leb_spec z (imax t)); [|lia].
  cbn [andb]. unfold imin in *. destruct (sgnd t); [reflexivity|].
  rewrite Z.mod_small by lia. reflexivity.
Qed.

Lemma wrap_id t z : 1 < bits t -> imin t <= z <= imax t -> wrap t z = z.
Proof.
  intros Hb Hz. unfold wrap. pose proof (imax_lt t Hb) as Hm.
  assert (Hpow : 2 ^ bits t = 2 * 2 ^ (bits t - 1)).
  { rewrite <- Z.pow_succ_r by lia. f_equal. lia. }
  unfold imin, imax in *.
  destruct (sgnd t) eqn:Es; cbn [andb].
  - destruct (Z.leb_spec 0 z).
    + rewrite Z.mod_small by lia. destruct (Z.leb_spec (2 ^ (bits t - 1)) z); lia.
    + assert (Hmod : z mod 2 ^ bits t = z + 2 ^ bits t).
      { symmetry. apply Z.mod_unique_pos with (q := -1); lia. }
      rewrite Hmod. destruct (Z.leb_spec (2 ^ (bits t - 1)) (z + 2 ^ bits t)); lia.
  - apply Z.mod_small; lia.
Qed.

Lemma wrap_unsigned_id t z : 1 < bits t -> 0 <= z <= imax t -> wrap (unsigned_of t) z = z.
Proof.
  intros Hb Hz. apply wrap_id; [exact Hb|].
  pose proof (imax_lt t Hb). unfold imin, imax at 1, unsigned_of. cbn [sgnd bits]. lia.
Qed.

(** * Sums of powers *)

Section Fixed.
Variables (D : kdata) (s : nat).
Hypothesis HD : kdata_ok D = true.
Hypothesis Hs : good_size D s.

Let F : facts D s := facts_of D s HD Hs.
Let T := kd_ty D.
Let d := delta D s.
Let l := lim D s.
Let L := lo D s.

Lemma L_range : - l <= L <= 0.
Proof. pose proof (f_lim D s F). unfold L, l, lo in *. destruct (sgnd (kd_ty D)); lia. Qed.

Lemma d_ge2 : 2 <= d.
Proof.
  pose proof (f_delta D s F). pose proof (f_lim D s F). pose proof L_range.
  unfold d, L, l in *. lia.
Qed.

Lemma dpow_pos i : 0 <= i -> 0 < d ^ i.
Proof. intros. apply Z.pow_pos_nonneg; [pose proof d_ge2; lia | lia]. Qed.

Lemma dpow_mono i : (i <= s)%nat -> d ^ Z.of_nat i <= imax T.
Proof.
  intros Hi. pose proof (f_pow D s F) as H. fold d T in H.
  assert (d ^ Z.of_nat i <= d ^ Z.of_nat s) by (apply Z.pow_le_mono_r; [pose proof d_ge2|]; lia).
  lia.
Qed.

(** (delta - 1) * (1 + delta + ... + delta^(k-1)) = delta^k - 1 *)
Lemma zsum_geom k : (d - 1) * zsum_pow d k = d ^ Z.of_nat k - 1.
Proof.
  induction k as [|k IH]; [cbn; lia|].
  cbn [zsum_pow]. rewrite Nat2Z.inj_succ, Z.pow_succ_r by lia. nia.
Qed.

Lemma klim_geom : klim D s - klo D s + 1 = d ^ Z.of_nat s.
Proof.
  pose proof (f_klim D s F) as Hk. pose proof (zsum_geom s) as Hg.
  pose proof (f_delta D s F) as Hd. fold d l L in Hd, Hk.
  unfold klo. unfold L, lo in Hd. fold l in Hd.
  destruct (sgnd (kd_ty D)); nia.
Qed.

Lemma klo_sum : klo D s = L * zsum_pow d s.
Proof.
  pose proof (f_klim D s F) as Hk. fold d l in Hk.
  unfold klo, L, lo. fold l. destruct (sgnd (kd_ty D)); lia.
Qed.

Lemma klo_nonpos : - klim D s <= klo D s <= 0.
Proof.
  pose proof (f_klim D s F) as Hk. fold d l in Hk.
  assert (0 <= zsum_pow d s).
  { pose proof (zsum_geom s). pose proof (dpow_pos (Z.of_nat s)). pose proof d_ge2. nia. }
  pose proof (f_lim D s F). fold l in H0.
  unfold klo. destruct (sgnd (kd_ty D)); nia.
Qed.

Lemma bits_gt1 : 1 < bits T.
Proof. exact (f_bits D s F). Qed.

Lemma imin_unsig : sgnd T = false -> imin T = 0.
Proof. unfold imin. intros ->. reflexivity. Qed.

Lemma imin_sig : sgnd T = true -> imin T = - imax T - 1.
Proof. unfold imin, imax. intros ->. lia. Qed.

Lemma klim_range : klim D s < imax T /\ imin T <= klo D s.
Proof.
  pose proof klim_geom. pose proof klo_nonpos.
  pose proof (dpow_mono s (le_n _)). 
  assert (0 <= klim D s) by lia.
  assert (klo D s < 0 \/ klo D s = 0) as [Hn|Hz] by lia.
  - split; [lia|]. unfold klo in *.
    destruct (sgnd (kd_ty D)) eqn:E; [rewrite imin_sig by exact E; lia | lia].
  - split; [lia|].
    destruct (sgnd T) eqn:E; [rewrite imin_sig by assumption; pose proof (imax_pos T bits_gt1); lia
                             | rewrite imin_unsig by assumption; lia].
Qed.

Lemma comp_bounds v : comp_ok D s v -> L <= v <= l.
Proof. exact (fun H => H). Qed.

(** ** kron *)

Lemma kron_app vs ws : kron d (vs ++ ws) = kron d vs + d ^ Z.of_nat (length vs) * kron d ws.
Proof.
  induction vs as [|v vs IH]; [cbn [app kron length]; change (d ^ Z.of_nat 0) with 1; lia|].
  cbn [app kron length]. rewrite IH, Nat2Z.inj_succ, Z.pow_succ_r by lia. ring.
Qed.

Lemma kron_bounds vs : Forall (comp_ok D s) vs ->
  L * zsum_pow d (length vs) <= kron d vs <= l * zsum_pow d (length vs).
Proof.
  induction 1 as [|v vs Hv Hvs IH]; [cbn; lia|].
  cbn [kron length zsum_pow]. apply comp_bounds in Hv. pose proof d_ge2. nia.
Qed.

Lemma zsum_mono k : (k <= s)%nat -> 0 <= zsum_pow d k <= zsum_pow d s.
Proof.
  intros Hk. pose proof (zsum_geom k). pose proof (zsum_geom s). pose proof d_ge2.
  assert (d ^ Z.of_nat k <= d ^ Z.of_nat s) by (apply Z.pow_le_mono_r; lia).
  pose proof (dpow_pos (Z.of_nat k)). nia.
Qed.

Lemma kron_range vs : Forall (comp_ok D s) vs -> (length vs <= s)%nat ->
  code_ok D s (kron d vs).
Proof.
  intros Hv Hl. pose proof (kron_bounds vs Hv). pose proof (zsum_mono _ Hl).
  pose proof L_range. pose proof (f_lim D s F) as Hl1. fold l in Hl1.
  pose proof klo_sum. pose proof (f_klim D s F) as Hk. fold l d in Hk.
  unfold code_ok. nia.
Qed.

Lemma code_type v : code_ok D s v -> imin T <= v <= imax T.
Proof. unfold code_ok. pose proof klim_range. lia. Qed.

(** ** Table accessors *)

Lemma s_cases : exists s', s = S s' /\ (s' < length (kd_lims D))%nat.
Proof. pose proof Hs as [H1 H2]. unfold max_size in H2. exists (pred s). lia. Qed.

Lemma rd_nth {A} (xs : list A) i def : (i < length xs)%nat -> rd xs i = Ok (nth i xs def).
Proof. intros. unfold rd. rewrite (nth_error_nth' xs def) by assumption. reflexivity. Qed.

Lemma l_type : l <= imax T /\ (sgnd T = true -> imin T <= - l).
Proof.
  pose proof (f_delta D s F) as Hd. fold d l L in Hd. pose proof L_range.
  pose proof (dpow_mono 1). pose proof Hs as [Hs1 _].
  change (Z.of_nat 1) with 1 in H0. rewrite Z.pow_1_r in H0. specialize (H0 Hs1).
  split; [lia|]. intros E. rewrite imin_sig by assumption. lia.
Qed.

Lemma get_lims : kpack_get_lims D s = Ok (L, l).
Proof.
  destruct s_cases as [s' [Es Hl]]. unfold kpack_get_lims. rewrite Es.
  rewrite (rd_nth _ _ 0) by lia. cbn [bind].
  replace (nth s' (kd_lims D) 0) with l by (unfold l, lim; rewrite Es; reflexivity).
  fold T. unfold L, lo. fold T l. destruct (sgnd T) eqn:E.
  - rewrite arith_ok; [reflexivity|exact bits_gt1|].
    pose proof l_type as [? Hm]. pose proof (f_lim D s F). fold l in H0.
    specialize (Hm E). lia.
  - reflexivity.
Qed.

Lemma get_klims : kpack_get_klims D s = Ok (klo D s, klim D s).
Proof.
  destruct s_cases as [s' [Es Hl]]. unfold kpack_get_klims. rewrite Es at 1.
  rewrite (rd_nth _ _ 0) by (rewrite (f_len2 D s F); lia). cbn [bind].
  replace (nth s' (kd_klims D) 0) with (klim D s) by (unfold klim; rewrite Es; reflexivity).
  pose proof klim_range as [? Hm]. pose proof klo_nonpos. pose proof (imax_pos T bits_gt1).
  unfold klo in *. destruct (sgnd (kd_ty D)) eqn:E.
  - rewrite arith_ok; [reflexivity|exact bits_gt1|]. fold T. lia.
  - reflexivity.
Qed.

Lemma get_delta : kpack_get_delta D s = Ok d.
Proof.
  destruct s_cases as [s' [Es Hl]]. unfold kpack_get_delta. rewrite Es.
  rewrite (rd_nth _ _ 0) by (rewrite (f_len1 D s F); lia).
  unfold d, delta. rewrite Es. reflexivity.
Qed.

(** ** Packing *)

Definition pstate (vs : list Z) : kpacker :=
  KPacker (kron d vs) (d ^ Z.of_nat (length vs)) (length vs) s.

Lemma comp_ok_dec v :
  ((v <? L) || (l <? v) = false <-> comp_ok D s v) /\
  ((v <? L) || (l <? v) = true <-> ~ comp_ok D s v).
Proof.
  unfold comp_ok. fold L l.
  destruct (Z.ltb_spec v L); destruct (Z.ltb_spec l v); cbn [orb]; split; split; intros; try discriminate; try lia; try reflexivity.
Qed.

Lemma push_ok vs v :
  Forall (comp_ok D s) vs -> (length vs < s)%nat -> comp_ok D s v ->
  kpacker_push D (pstate vs) v = Ok (pstate (vs ++ [v])).
Proof.
  intros Hvs Hl Hv. unfold kpacker_push, pstate. cbn [kp_index kp_size kp_cur_prod kp_value].
  destruct (Nat.eqb_spec (length vs) s); [lia|].
  rewrite get_lims. cbn [bind].
  rewrite (proj2 (proj1 (comp_ok_dec v)) Hv).
  assert (Hlen : length (vs ++ [v]) = S (length vs)) by (rewrite app_length; cbn; lia).
  assert (Hk : kron d (vs ++ [v]) = kron d vs + v * d ^ Z.of_nat (length vs)).
  { rewrite kron_app. cbn [kron]. ring. }
  assert (Hp : d ^ Z.of_nat (S (length vs)) = d ^ Z.of_nat (length vs) * d).
  { rewrite Nat2Z.inj_succ, Z.pow_succ_r by lia. ring. }
  assert (Hpos : 0 < d ^ Z.of_nat (length vs)) by (apply dpow_pos; lia).
  assert (Hmax : d ^ Z.of_nat (length vs) * d <= imax T) by (rewrite <- Hp; apply dpow_mono; lia).
  pose proof (f_delta D s F) as Hd. fold d l L in Hd.
  pose proof L_range as HL. pose proof (f_lim D s F) as Hl1. fold l in Hl1.
  pose proof (comp_bounds v Hv) as Hvb.
  set (P := d ^ Z.of_nat (length vs)) in *.
  assert (Hvhi : v * P <= P * d).
  { assert (v * P <= d * P) by (apply Z.mul_le_mono_nonneg_r; lia). lia. }
  assert (Hmin : imin T <= v * P).
  { destruct (sgnd T) eqn:E.
    - rewrite imin_sig by assumption.
      assert (- d * P <= v * P) by (apply Z.mul_le_mono_nonneg_r; lia). lia.
    - rewrite imin_unsig by assumption. unfold L, lo in Hvb. change (kd_ty D) with T in Hvb. rewrite E in Hvb.
      apply Z.mul_nonneg_nonneg; lia. }
  rewrite arith_ok; [|exact bits_gt1|fold T; lia].
  cbn [bind].
  rewrite <- Hk.
  rewrite arith_ok; [|exact bits_gt1|].
  2:{ apply code_type, kron_range; [apply Forall_app; auto|lia]. }
  cbn [bind]. rewrite get_delta. cbn [bind].
  rewrite arith_ok; [|exact bits_gt1|].
  2:{ fold T. pose proof (imax_pos T bits_gt1). split; [|lia].
      assert (imin T <= 0) by (destruct (sgnd T) eqn:E; [rewrite imin_sig by assumption; lia| rewrite imin_unsig by assumption; lia]).
      pose proof d_ge2. nia. }
  cbn [bind]. rewrite Hlen, Hp. reflexivity.
Qed.

Lemma push_bad vs v :
  (length vs < s)%nat -> ~ comp_ok D s v ->
  kpacker_push D (pstate vs) v = Throw overflow_error.
Proof.
  intros Hl Hv. unfold kpacker_push, pstate. cbn [kp_index kp_size].
  destruct (Nat.eqb_spec (length vs) s); [lia|].
  rewrite get_lims. cbn [bind].
  rewrite (proj2 (proj2 (comp_ok_dec v)) Hv). reflexivity.
Qed.

Lemma push_full vs v :
  length vs = s -> kpacker_push D (pstate vs) v = Throw out_of_range.
Proof.
  intros Hl. unfold kpacker_push, pstate. cbn [kp_index kp_size].
  rewrite Hl, Nat.eqb_refl. reflexivity.
Qed.

Lemma push_all_ok ws : forall vs,
  Forall (comp_ok D s) vs -> Forall (comp_ok D s) ws -> (length vs + length ws <= s)%nat ->
  kpacker_push_all D (pstate vs) ws = Ok (pstate (vs ++ ws)).
Proof.
  unfold kpacker_push_all.
  induction ws as [|w ws IH]; intros vs Hvs Hws Hl; cbn [rfold].
  - rewrite app_nil_r. reflexivity.
  - inversion Hws; subst. cbn [length] in Hl.
    rewrite push_ok by (auto; lia). cbn [bind].
    rewrite IH; [rewrite <- app_assoc; reflexivity|apply Forall_app; auto|assumption|rewrite app_length; cbn; lia].
Qed.

Lemma new_ok : kpacker_new D s = Ok (pstate []).
Proof.
  unfold kpacker_new, kpack_max_size. rewrite (f_len1 D s F).
  pose proof Hs as [H1 H2]. unfold max_size in H2.
  destruct (Nat.ltb_spec (length (kd_lims D)) s); [lia|]. reflexivity.
Qed.

Lemma kpack_ok vs :
  Forall (comp_ok D s) vs -> (length vs <= s)%nat -> kpack D s vs = Ok (kron d vs).
Proof.
  intros Hvs Hl. unfold kpack. rewrite new_ok. cbn [bind].
  rewrite push_all_ok by (auto; cbn; lia). reflexivity.
Qed.

(** Every outcome of pushing a list. *)
Lemma push_all_cases ws : forall vs, Forall (comp_ok D s) vs -> (length vs <= s)%nat ->
  (Forall (comp_ok D s) ws /\ (length vs + length ws <= s)%nat /\
     kpacker_push_all D (pstate vs) ws = Ok (pstate (vs ++ ws)))
  \/ (exists us w rest, ws = us ++ w :: rest /\ Forall (comp_ok D s) us /\ ~ comp_ok D s w /\
       (length vs + length us < s)%nat /\
       kpacker_push_all D (pstate vs) ws = Throw overflow_error)
  \/ (exists us w rest, ws = us ++ w :: rest /\ Forall (comp_ok D s) us /\
       (length vs + length us = s)%nat /\
       kpacker_push_all D (pstate vs) ws = Throw out_of_range).
Proof.
  induction ws as [|w ws IH]; intros vs Hvs Hl.
  - left. repeat split; [constructor|cbn; lia|]. unfold kpacker_push_all. cbn [rfold]. rewrite app_nil_r. reflexivity.
  - destruct (Nat.eq_dec (length vs) s) as [He|Hne].
    + right; right. exists [], w, ws. repeat split; [constructor|cbn; lia|].
      unfold kpacker_push_all. cbn [rfold]. rewrite push_full by assumption. reflexivity.
    + destruct ((w <? L) || (l <? w)) eqn:E.
      * apply (proj2 (comp_ok_dec w)) in E.
        right; left. exists [], w, ws. repeat split; [constructor|assumption|cbn; lia|].
        unfold kpacker_push_all. cbn [rfold]. rewrite push_bad by (auto; lia). reflexivity.
      * apply (proj1 (comp_ok_dec w)) in E.
        assert (Hpush : kpacker_push_all D (pstate vs) (w :: ws) = kpacker_push_all D (pstate (vs ++ [w])) ws).
        { unfold kpacker_push_all. cbn [rfold]. rewrite push_ok by (auto; lia). reflexivity. }
        rewrite Hpush.
        assert (Hlen : length (vs ++ [w]) = S (length vs)) by (rewrite app_length; cbn; lia).
        destruct (IH (vs ++ [w])) as [[H1 [H2 H3]]|[[us [w' [rest [H1 [H2 [H3 [H4 H5]]]]]]]|[us [w' [rest [H1 [H2 [H3 H4]]]]]]]].
        -- apply Forall_app; auto.
        -- lia.
        -- left. split; [constructor; auto|]. split; [cbn; lia|]. rewrite H3, <- app_assoc. reflexivity.
        -- right; left. exists (w :: us), w', rest. rewrite H1.
           repeat split; [constructor; auto|assumption|cbn; lia|]. rewrite <- H1. assumption.
        -- right; right. exists (w :: us), w', rest. rewrite H1.
           repeat split; [constructor; auto|cbn; lia|]. rewrite <- H1. assumption.
Qed.

(** ** Unpacking *)

Definition digit (n : Z) (i : nat) : Z := (n - klo D s) / d ^ Z.of_nat i mod d + L.

Definition ustate (n : Z) (i : nat) : kunpacker := KUnpacker n (d ^ Z.of_nat i) i s.

Lemma code_ok_dec v :
  ((v <? klo D s) || (klim D s <? v) = false <-> code_ok D s v) /\
  ((v <? klo D s) || (klim D s <? v) = true <-> ~ code_ok D s v).
Proof.
  unfold code_ok.
  destruct (Z.ltb_spec v (klo D s)); destruct (Z.ltb_spec (klim D s) v); cbn [orb]; split; split; intros; try discriminate; try lia; try reflexivity.
Qed.

Lemma unew_ok n : code_ok D s n -> kunpacker_new D n s = Ok (ustate n 0).
Proof.
  intros Hn. unfold kunpacker_new.
  destruct s_cases as [s' [Es Hl]]. rewrite Es at 1.
  unfold kpack_max_size. rewrite (f_len1 D s F).
  destruct (Nat.ltb_spec (length (kd_lims D)) s); [lia|].
  rewrite get_klims. cbn [bind]. rewrite (proj2 (proj1 (code_ok_dec n)) Hn).
  unfold ustate. reflexivity.
Qed.

Lemma unew_bad n : ~ code_ok D s n -> kunpacker_new D n s = Throw overflow_error.
Proof.
  intros Hn. unfold kunpacker_new.
  destruct s_cases as [s' [Es Hl]]. rewrite Es at 1.
  unfold kpack_max_size. rewrite (f_len1 D s F).
  destruct (Nat.ltb_spec (length (kd_lims D)) s); [lia|].
  rewrite get_klims. cbn [bind]. rewrite (proj2 (proj2 (code_ok_dec n)) Hn). reflexivity.
Qed.

Lemma entry_rd i : (i <= s)%nat -> exists row mp sh1 sh2,
  rd (kd_divcnst D) (pred s) = Ok row /\ rd row i = Ok (mp, sh1, sh2) /\
  div_ok (bits T) (d ^ Z.of_nat i) (mp, sh1, sh2) = true.
Proof.
  intros Hi. pose proof (f_entry D s F i Hi) as He. unfold entry_ok in He.
  unfold rd. fold d T in He.
  destruct (nth_error (kd_divcnst D) (pred s)) as [row|]; [|discriminate].
  destruct (nth_error row i) as [[[mp sh1] sh2]|] eqn:E; [|discriminate].
  exists row, mp, sh1, sh2. rewrite E. auto.
Qed.

Lemma pop_ok n i : code_ok D s n -> (i < s)%nat ->
  kunpacker_pop D (ustate n i) = Ok (digit n i, ustate n (S i)).
Proof.
  intros Hn Hi. unfold kunpacker_pop, ustate. cbn [ku_index ku_size ku_cur_prod ku_value].
  destruct (Nat.eqb_spec i s); [lia|].
  rewrite get_delta. cbn [bind]. fold T.
  assert (Hp : d ^ Z.of_nat (S i) = d ^ Z.of_nat i * d).
  { rewrite Nat2Z.inj_succ, Z.pow_succ_r by lia. ring. }
  assert (Hpos : 0 < d ^ Z.of_nat i) by (apply dpow_pos; lia).
  assert (Hmax : d ^ Z.of_nat (S i) <= imax T) by (apply dpow_mono; lia).
  pose proof d_ge2 as Hd2. pose proof bits_gt1 as Hb.
  pose proof (imax_pos T Hb) as Himax. pose proof (imax_lt T Hb) as Himaxlt.
  assert (Hmin0 : imin T <= 0) by (destruct (sgnd T) eqn:E; [rewrite imin_sig by assumption; lia| rewrite imin_unsig by assumption; lia]).
  rewrite <- Hp.
  assert (Hpos' : 0 < d ^ Z.of_nat (S i)) by (apply dpow_pos; lia).
  rewrite arith_ok by (auto; lia). cbn [bind].
  destruct (entry_rd i) as [row [mp_d [sh1_d [sh2_d [Hrow [Hrd1 Hok1]]]]]]; [lia|].
  destruct (entry_rd (S i)) as [row' [mp_r [sh1_r [sh2_r [Hrow' [Hrd2 Hok2]]]]]]; [lia|].
  rewrite Hrow in Hrow'. injection Hrow' as <-.
  rewrite Hrow. cbn [bind]. rewrite Hrd1. cbn [bind]. rewrite Hrd2. cbn [bind].
  rewrite get_klims. cbn [bind].
  pose proof klim_geom as Hg. pose proof (dpow_mono s (le_n _)) as Hms.
  unfold code_ok in Hn.
  set (un := n - klo D s) in *.
  assert (Hun : 0 <= un < d ^ Z.of_nat s) by (unfold un; lia).
  rewrite arith_ok by (auto; lia). cbn [bind].
  rewrite wrap_unsigned_id by (auto; lia).
  rewrite (divcnst_exact (bits T) (d ^ Z.of_nat (S i))) by (auto; lia).
  cbn [bind].
  set (P := d ^ Z.of_nat (S i)) in *.
  rewrite (wrap_unsigned_id T P) by (auto; lia).
  pose proof (Z.mul_div_le un P ltac:(lia)) as Hmul.
  assert (Hq0 : 0 <= un / P) by (apply Z.div_pos; lia).
  unfold arith at 1. cbn [unsigned_of sgnd bits bind].
  rewrite (Z.mod_small (un / P * P)) by nia.
  unfold arith at 1. cbn [unsigned_of sgnd bits bind].
  assert (Hrem : un - un / P * P = un mod P) by (rewrite Z.mod_eq by lia; lia).
  rewrite Hrem.
  pose proof (Z.mod_pos_bound un P ltac:(lia)) as Hmb.
  rewrite (Z.mod_small (un mod P)) by lia.
  rewrite (divcnst_exact (bits T) (d ^ Z.of_nat i)) by (auto; lia).
  cbn [bind].
  assert (Hdig : un mod P / d ^ Z.of_nat i = un / d ^ Z.of_nat i mod d).
  { rewrite Hp. rewrite Z.rem_mul_r by lia.
    rewrite (Z.add_comm (un mod d ^ Z.of_nat i)), Z.mul_comm.
    rewrite Z.div_add_l by lia.
    rewrite (Z.div_small (un mod d ^ Z.of_nat i)) by (apply Z.mod_pos_bound; lia). lia. }
  rewrite Hdig.
  set (q := un / d ^ Z.of_nat i mod d).
  pose proof (Z.mod_pos_bound (un / d ^ Z.of_nat i) d ltac:(lia)) as Hqb. fold q in Hqb.
  assert (Hdmax : d <= imax T) by (unfold P in Hmax; nia).
  rewrite wrap_id by (auto; lia).
  rewrite get_lims. cbn [bind].
  pose proof L_range as HL.
  pose proof (f_delta D s F) as Hd. fold d l L in Hd.
  rewrite arith_ok; [|exact Hb|].
  2:{ split; [|lia]. destruct (sgnd T) eqn:E.
      - pose proof l_type as [_ Hlt]. specialize (Hlt E). lia.
      - rewrite imin_unsig by assumption. unfold L, lo. fold T. rewrite E. lia. }
  cbn [bind]. reflexivity.
Qed.

Lemma pop_end n : kunpacker_pop D (ustate n s) = Throw out_of_range.
Proof. unfold kunpacker_pop, ustate. cbn [ku_index ku_size]. rewrite Nat.eqb_refl. reflexivity. Qed.

Lemma pops_ok n k : forall i, code_ok D s n -> (i + k <= s)%nat ->
  kunpacker_pops D k (ustate n i) = Ok (map (digit n) (seq i k)).
Proof.
  induction k as [|k IH]; intros i Hn Hi; [reflexivity|].
  cbn [kunpacker_pops]. rewrite pop_ok by (auto; lia). cbn [bind].
  rewrite IH by (auto; lia). reflexivity.
Qed.

Lemma pops_past n k : forall i, code_ok D s n -> (i <= s)%nat -> (s < i + k)%nat ->
  kunpacker_pops D k (ustate n i) = Throw out_of_range.
Proof.
  induction k as [|k IH]; intros i Hn Hi Hk; [lia|].
  cbn [kunpacker_pops].
  destruct (Nat.eq_dec i s) as [->|Hne].
  - rewrite pop_end. reflexivity.
  - rewrite pop_ok by (auto; lia). cbn [bind]. rewrite IH by (auto; lia). reflexivity.
Qed.

Lemma kunpack_ok n : code_ok D s n ->
  kunpack D n s = Ok (map (digit n) (seq 0 s)).
Proof.
  intros Hn. unfold kunpack. rewrite unew_ok by assumption. cbn [bind].
  apply pops_ok; [assumption|lia].
Qed.

Lemma kunpack_bad n : ~ code_ok D s n -> kunpack D n s = Throw overflow_error.
Proof. intros Hn. unfold kunpack. rewrite unew_bad by assumption. reflexivity. Qed.

Lemma digit_comp n i : comp_ok D s (digit n i).
Proof.
  unfold comp_ok, digit. fold L l.
  pose proof (Z.mod_pos_bound ((n - klo D s) / d ^ Z.of_nat i) d) as H. pose proof d_ge2.
  pose proof (f_delta D s F) as Hd. fold d l L in Hd. lia.
Qed.

(** Digits of a sum. *)
Lemma kron_shift vs : kron d vs - L * zsum_pow d (length vs) = kron d (map (fun v => v - L) vs).
Proof.
  induction vs as [|v vs IH]; [cbn; lia|].
  cbn [kron length zsum_pow map]. rewrite <- IH. ring.
Qed.

Lemma kron_digits ds : Forall (fun v => 0 <= v < d) ds ->
  forall i, (i < length ds)%nat -> kron d ds / d ^ Z.of_nat i mod d = nth i ds 0.
Proof.
  pose proof d_ge2 as Hd2.
  induction 1 as [|v vs Hv Hvs IH]; intros i Hi; [cbn in Hi; lia|].
  cbn [kron length] in *. destruct i as [|i]; cbn [nth].
  - change (d ^ Z.of_nat 0) with 1. rewrite Z.div_1_r.
    rewrite Z.mul_comm, Z.mod_add by lia. apply Z.mod_small; lia.
  - rewrite Nat2Z.inj_succ, Z.pow_succ_r by lia.
    rewrite <- Z.div_div by (try (pose proof (dpow_pos (Z.of_nat i)); lia); lia).
    replace (v + d * kron d vs) with (v + kron d vs * d) by ring.
    rewrite Z.div_add by lia. rewrite (Z.div_small v) by lia. rewrite Z.add_0_l.
    apply IH; lia.
Qed.

Lemma digit_kron vs i : Forall (comp_ok D s) vs -> length vs = s -> (i < s)%nat ->
  digit (kron d vs) i = nth i vs 0.
Proof.
  intros Hvs Hl Hi. unfold digit. rewrite klo_sum.
  rewrite <- Hl, kron_shift.
  rewrite kron_digits.
  - rewrite (nth_indep _ 0 (0 - L)) by (rewrite map_length; lia).
    rewrite (map_nth (fun v => v - L)). lia.
  - apply Forall_map. eapply Forall_impl; [|exact Hvs].
    intros v Hv. apply comp_bounds in Hv.
    pose proof (f_delta D s F) as Hd. fold d l L in Hd. cbn. lia.
  - rewrite map_length. lia.
Qed.

Lemma list_eq_nth (xs ys : list Z) : length xs = length ys ->
  (forall i, (i < length xs)%nat -> nth i xs 0 = nth i ys 0) -> xs = ys.
Proof. intros Hl Hn. apply (nth_ext xs ys 0 0 Hl). exact Hn. Qed.

Lemma roundtrip vs : Forall (comp_ok D s) vs -> length vs = s ->
  kunpack D (kron d vs) s = Ok vs.
Proof.
  intros Hvs Hl. rewrite kunpack_ok by (apply kron_range; [assumption|lia]).
  f_equal. apply list_eq_nth; rewrite map_length, seq_length; [lia|].
  intros i Hi. rewrite (nth_indep _ 0 (digit (kron d vs) 0)) by (rewrite map_length, seq_length; lia).
  rewrite map_nth, seq_nth by lia. apply digit_kron; assumption.
Qed.

(** Recombining digits. *)
Lemma recombine x k : forall j, 
  kron d (map (fun i => x / d ^ Z.of_nat i mod d) (seq j k))
  = (x / d ^ Z.of_nat j) mod d ^ Z.of_nat k.
Proof.
  pose proof d_ge2 as Hd2.
  induction k as [|k IH]; intros j; cbn [seq map kron].
  - change (d ^ Z.of_nat 0) with 1. rewrite Z.mod_1_r. reflexivity.
  - rewrite IH.
    assert (0 < d ^ Z.of_nat j) by (apply dpow_pos; lia).
    assert (0 < d ^ Z.of_nat k) by (apply dpow_pos; lia).
    rewrite (Nat2Z.inj_succ k), Z.pow_succ_r by lia.
    rewrite Z.rem_mul_r by lia.
    rewrite (Nat2Z.inj_succ j), Z.pow_succ_r by lia.
    rewrite (Z.mul_comm d (d ^ Z.of_nat j)), <- Z.div_div by lia. reflexivity.
Qed.

Lemma kron_digit_all n : code_ok D s n -> kron d (map (digit n) (seq 0 s)) = n.
Proof.
  intros Hn. unfold code_ok in Hn.
  pose proof (kron_shift (map (digit n) (seq 0 s))) as Hsh.
  rewrite map_length, seq_length in Hsh.
  rewrite map_map in Hsh.
  assert (He : map (fun x => digit n x - L) (seq 0 s) = map (fun i => (n - klo D s) / d ^ Z.of_nat i mod d) (seq 0 s)).
  { apply map_ext. intros i. unfold digit. lia. }
  rewrite He, recombine in Hsh. change (d ^ Z.of_nat 0) with 1 in Hsh.
  rewrite Z.div_1_r in Hsh. pose proof klim_geom as Hg.
  rewrite Z.mod_small in Hsh by lia. rewrite <- klo_sum in Hsh. lia.
Qed.

Lemma unpack_pack n : code_ok D s n ->
  exists vs, kunpack D n s = Ok vs /\ length vs = s /\ Forall (comp_ok D s) vs /\ kpack D s vs = Ok n.
Proof.
  intros Hn. exists (map (digit n) (seq 0 s)).
  assert (Hall : Forall (comp_ok D s) (map (digit n) (seq 0 s))).
  { apply Forall_map, Forall_forall. intros i _. apply digit_comp. }
  repeat split.
  - apply kunpack_ok; assumption.
  - rewrite map_length, seq_length. reflexivity.
  - assumption.
  - rewrite kpack_ok by (auto; rewrite map_length, seq_length; lia).
    rewrite kron_digit_all by assumption. reflexivity.
Qed.

Lemma kron_inj vs ws : Forall (comp_ok D s) vs -> Forall (comp_ok D s) ws ->
  length vs = s -> length ws = s -> kron d vs = kron d ws -> vs = ws.
Proof.
  intros H1 H2 L1 L2 He.
  pose proof (roundtrip vs H1 L1) as R1. pose proof (roundtrip ws H2 L2) as R2.
  rewrite He in R1. congruence.
Qed.

Lemma kron_add vs : forall ws, length vs = length ws ->
  kron d (map (fun p => fst p + snd p) (combine vs ws)) = kron d vs + kron d ws.
Proof.
  induction vs as [|v vs IH]; intros [|w ws] Hl; try discriminate; [reflexivity|].
  cbn [combine map kron fst snd]. rewrite IH by (cbn in Hl; lia). ring.
Qed.

Lemma kron_zeros k : kron d (repeat 0 k) = 0.
Proof. induction k as [|k IH]; [reflexivity|]. cbn [repeat kron]. rewrite IH. lia. Qed.

Lemma zero_comp : comp_ok D s 0.
Proof. unfold comp_ok. fold L l. pose proof L_range. pose proof (f_lim D s F). fold l in H0. lia. Qed.

Lemma kron_pad vs k : kron d (vs ++ repeat 0 k) = kron d vs.
Proof. rewrite kron_app, kron_zeros. lia. Qed.

End Fixed.

(** * Packaged statements used by P_Kpack.v *)

Lemma kpack_roundtrip_lemma D s vs :
  packable D -> good_size D s -> length vs = s -> Forall (comp_ok D s) vs ->
  exists v, kpack D s vs = Ok v /\ of_type D v /\ kunpack D v s = Ok vs.
Proof.
  intros HD Hs Hl Hv. apply packable_ok in HD.
  exists (kron (delta D s) vs). repeat split.
  - apply kpack_ok; auto; lia.
  - apply code_type with (s := s); auto. apply kron_range; auto; lia.
  - apply code_type with (s := s); auto. apply kron_range; auto; lia.
  - apply roundtrip; auto.
Qed.

Lemma kunpack_bijection_lemma D s n :
  packable D -> good_size D s ->
  (code_ok D s n ->
     exists vs, kunpack D n s = Ok vs /\ length vs = s /\ Forall (comp_ok D s) vs /\
                kpack D s vs = Ok n) /\
  (~ code_ok D s n -> kunpack D n s = Throw overflow_error) /\
  (forall vs ws, length vs = s -> length ws = s -> Forall (comp_ok D s) vs -> Forall (comp_ok D s) ws ->
     kpack D s vs = kpack D s ws -> vs = ws).
Proof.
  intros HD Hs. apply packable_ok in HD. repeat split.
  - intros Hn. apply unpack_pack; auto.
  - intros Hn. apply kunpack_bad; auto.
  - intros vs ws L1 L2 H1 H2 He.
    rewrite !kpack_ok in He by (auto; lia). injection He as He.
    apply (kron_inj D s HD Hs); auto.
Qed.

Lemma kpacker_new_exact_lemma D s : packable D ->
  kpacker_new D s = (if (max_size D <? s)%nat then Throw overflow_error else Ok (KPacker 0 1 0 s)).
Proof.
  intros HD. unfold kpacker_new, kpack_max_size, max_size.
  destruct HD as [->|[->|[->| ->]]]; reflexivity.
Qed.

Lemma kpacker_push_exact_lemma D s vs n p : packable D ->
  (s <= max_size D)%nat ->
  (p0 <- kpacker_new D s ;; kpacker_push_all D p0 vs) = Ok p ->
  (length vs <= s)%nat /\
  (length vs = s -> kpacker_push D p n = Throw out_of_range) /\
  ((length vs < s)%nat -> ~ comp_ok D s n -> kpacker_push D p n = Throw overflow_error) /\
  ((length vs < s)%nat -> comp_ok D s n ->
     exists p', kpacker_push D p n = Ok p' /\ kpacker_get p' = kron (delta D s) (vs ++ [n])).
Proof.
  intros HDp Hs Hp. pose proof (packable_ok D HDp) as HD.
  destruct s as [|s0].
  - rewrite kpacker_new_exact_lemma in Hp by assumption. cbn in Hp.
    destruct (max_size D <? 0)%nat eqn:E in Hp; cbn [bind] in Hp.
    { discriminate. }
    destruct vs as [|v vs]; [|discriminate].
    injection Hp as <-. cbn [length]. repeat split; try lia. 
  - set (s := S s0) in *. assert (Hg : good_size D s) by (unfold good_size, s in *; lia).
    rewrite (new_ok D s HD Hg) in Hp. cbn [bind] in Hp.
    destruct (push_all_cases D s HD Hg vs [] (Forall_nil _)) as [[H1 [H2 H3]]|[[us [w [rest [H1 [H2 [H3 [H4 H5]]]]]]]|[us [w [rest [H1 [H2 [H3 H4]]]]]]]].
    + cbn; lia.
    + rewrite H3 in Hp. injection Hp as <-. cbn [app].
      cbn [length] in H2. split; [lia|]. split; [|split].
      * intros He. apply push_full; auto.
      * intros Hl Hc. apply push_bad; auto.
      * intros Hl Hc. eexists. split; [apply push_ok; auto|]. reflexivity.
    + rewrite H5 in Hp. discriminate.
    + rewrite H4 in Hp. discriminate.
Qed.

Lemma kpack_pad_lemma D s vs : packable D -> good_size D s ->
  (length vs <= s)%nat -> Forall (comp_ok D s) vs ->
  kpack D s vs = kpack D s (vs ++ repeat 0 (s - length vs)).
Proof.
  intros HDp Hs Hl Hv. pose proof (packable_ok D HDp) as HD.
  rewrite !kpack_ok; auto.
  - rewrite kron_pad; auto.
  - apply Forall_app; split; auto. apply Forall_forall. intros x Hx.
    apply repeat_spec in Hx. subst. apply zero_comp; auto.
  - rewrite app_length, repeat_length. lia.
Qed.

Lemma kunpacker_new_exact_lemma D n s : packable D ->
  (s = 0%nat -> n = 0 -> exists u, kunpacker_new D n s = Ok u) /\
  (s = 0%nat -> n <> 0 -> kunpacker_new D n s = Throw invalid_argument) /\
  ((max_size D < s)%nat -> kunpacker_new D n s = Throw overflow_error) /\
  (good_size D s -> code_ok D s n -> exists u, kunpacker_new D n s = Ok u) /\
  (good_size D s -> ~ code_ok D s n -> kunpacker_new D n s = Throw overflow_error).
Proof.
  intros HDp. pose proof (packable_ok D HDp) as HD. repeat split.
  - intros -> ->. eexists. reflexivity.
  - intros -> Hn. unfold kunpacker_new. destruct (Z.eqb_spec n 0); [contradiction|reflexivity].
  - intros Hs. unfold kunpacker_new. destruct s; [lia|].
    assert (E : (kpack_max_size D <? S s)%nat = true).
    { apply Nat.ltb_lt. revert Hs. destruct HDp as [->|[->|[->| ->]]]; exact (fun H => H). }
    rewrite E. reflexivity.
  - intros Hs Hc. eexists. apply unew_ok; auto.
  - intros Hs Hc. apply unew_bad; auto.
Qed.

Lemma kunpacker_pops_exact_lemma D n s k u : packable D ->
  kunpacker_new D n s = Ok u ->
  ((k <= s)%nat -> exists vs, kunpacker_pops D k u = Ok vs /\ length vs = k) /\
  ((s < k)%nat -> kunpacker_pops D k u = Throw out_of_range).
Proof.
  intros HDp Hu. pose proof (packable_ok D HDp) as HD.
  destruct s as [|s0].
  - cbn in Hu. destruct (n =? 0); [|discriminate]. injection Hu as <-.
    split; intros Hk.
    + assert (k = 0)%nat as -> by lia. exists []. split; reflexivity.
    + destruct k; [lia|]. reflexivity.
  - set (s := S s0) in *.
    destruct (Nat.le_gt_cases s (max_size D)) as [Hle|Hgt].
    + assert (Hg : good_size D s) by (unfold good_size, s in *; lia).
      destruct ((n <? klo D s) || (klim D s <? n)) eqn:E.
      * apply (proj2 (code_ok_dec D s n)) in E. rewrite unew_bad in Hu by auto. discriminate.
      * apply (proj1 (code_ok_dec D s n)) in E. rewrite unew_ok in Hu by auto. injection Hu as <-.
        split; intros Hk.
        -- eexists. split; [apply pops_ok; auto|]. rewrite map_length, seq_length. reflexivity.
        -- apply pops_past; auto; lia.
    + pose proof (kunpacker_new_exact_lemma D n s HDp) as [_ [_ [H _]]].
      rewrite H in Hu by assumption. discriminate.
Qed.

Lemma kpack_no_ub_lemma D : packable D ->
  (forall s vs, kpack D s vs <> UB /\
     (forall v, kpack D s vs = Ok v -> of_type D v /\ (good_size D s -> v = kron (delta D s) vs))) /\
  (forall n s k, (u <- kunpacker_new D n s ;; kunpacker_pops D k u) <> UB) /\
  (forall n s vs, kunpack D n s = Ok vs -> Forall (of_type D) vs).
Proof.
  intros HDp. pose proof (packable_ok D HDp) as HD. split; [|split].
  - intros s vs. destruct (Nat.le_gt_cases s (max_size D)) as [Hle|Hgt].
    2:{ unfold kpack. rewrite kpacker_new_exact_lemma by assumption.
        destruct (Nat.ltb_spec (max_size D) s); [|lia]. cbn. split; [discriminate|]. intros; discriminate. }
    destruct s as [|s0].
    + unfold kpack. rewrite kpacker_new_exact_lemma by assumption.
      destruct (Nat.ltb_spec (max_size D) 0); [lia|]. cbn [bind].
      destruct vs as [|v vs]; cbn; [|split; [discriminate|intros; discriminate]].
      split; [discriminate|]. intros v Hv. injection Hv as <-.
      split; [|unfold good_size; lia].
      destruct HDp as [->|[->|[->| ->]]]; unfold of_type; vm_compute; split; discriminate.
    + set (s := S s0) in *. assert (Hg : good_size D s) by (unfold good_size, s in *; lia).
      unfold kpack. rewrite (new_ok D s HD Hg). cbn [bind].
      destruct (push_all_cases D s HD Hg vs [] (Forall_nil _)) as [[H1 [H2 H3]]|[[us [w [rest [H1 [H2 [H3 [H4 H5]]]]]]]|[us [w [rest [H1 [H2 [H3 H4]]]]]]]].
      * cbn; lia.
      * rewrite H3. cbn [bind]. split; [discriminate|]. intros v Hv. injection Hv as <-.
        split; [|intros _; reflexivity]. cbn [app pstate kpacker_get kp_value].
        apply code_type with (s := s); auto. apply kron_range; auto.
      * rewrite H5. cbn. split; [discriminate|]. intros; discriminate.
      * rewrite H4. cbn. split; [discriminate|]. intros; discriminate.
  - intros n s k. destruct (kunpacker_new D n s) as [u|e|] eqn:E; cbn [bind].
    + destruct (kunpacker_pops_exact_lemma D n s k u HDp E) as [H1 H2].
      destruct (Nat.le_gt_cases k s) as [Hk|Hk].
      * destruct (H1 Hk) as [vs [Hv _]]. rewrite Hv. discriminate.
      * rewrite H2 by assumption. discriminate.
    + discriminate.
    + destruct (kunpacker_new_exact_lemma D n s HDp) as [A1 [A2 [A3 [A4 A5]]]].
      destruct s as [|s0]; [cbn in E; destruct (n =? 0); discriminate|].
      set (s := S s0) in *.
      destruct (Nat.le_gt_cases s (max_size D)) as [Hle|Hgt].
      * assert (Hg : good_size D s) by (unfold good_size, s in *; lia).
        destruct ((n <? klo D s) || (klim D s <? n)) eqn:E2.
        -- apply (proj2 (code_ok_dec D s n)) in E2. rewrite A5 in E by auto. discriminate.
        -- apply (proj1 (code_ok_dec D s n)) in E2. destruct (A4 Hg E2) as [u Hu]. rewrite Hu in E. discriminate.
      * rewrite A3 in E by assumption. discriminate.
  - intros n s vs H. unfold kunpack in H.
    destruct (kunpacker_new D n s) as [u|e|] eqn:E; cbn [bind] in H; try discriminate.
    destruct s as [|s0]; [injection H as <-; constructor|].
    set (s := S s0) in *.
    destruct (kunpacker_new_exact_lemma D n s HDp) as [A1 [A2 [A3 [A4 A5]]]].
    destruct (Nat.le_gt_cases s (max_size D)) as [Hle|Hgt]; [|rewrite A3 in E by assumption; discriminate].
    assert (Hg : good_size D s) by (unfold good_size, s in *; lia).
    destruct ((n <? klo D s) || (klim D s <? n)) eqn:E2.
    + apply (proj2 (code_ok_dec D s n)) in E2. rewrite A5 in E by auto. discriminate.
    + apply (proj1 (code_ok_dec D s n)) in E2. rewrite unew_ok in E by auto. injection E as <-.
      rewrite pops_ok in H by auto. injection H as <-. change (digit D s n 0 :: map (digit D s n) (seq 1 s0)) with (map (digit D s n) (seq 0 s)).
      apply Forall_forall. intros x Hx. apply in_map_iff in Hx. destruct Hx as [i [<- _]].
      pose proof (digit_comp D s HD Hg n i) as Hc. unfold comp_ok in Hc.
      pose proof (l_type D s HD Hg) as [Hl1 Hl2].
      pose proof (L_range D s HD Hg) as HL.
      unfold of_type. split; [|lia].
      destruct (sgnd (kd_ty D)) eqn:Es.
      * specialize (Hl2 eq_refl). lia.
      * unfold imin. rewrite Es. unfold lo in Hc. rewrite Es in Hc. lia.
Qed.

Lemma divcnst_exact_lemma D s i : packable D -> good_size D s -> (i <= s)%nat ->
  exists row mp sh1 sh2,
    nth_error (kd_divcnst D) (pred s) = Some row /\ nth_error row i = Some (mp, sh1, sh2) /\
    forall n, 0 <= n < 2 ^ bits (kd_ty D) ->
      divcnst (bits (kd_ty D)) n mp sh1 sh2 = Ok (n / delta D s ^ Z.of_nat i).
Proof.
  intros HDp Hs Hi. pose proof (packable_ok D HDp) as HD.
  destruct (entry_rd D s HD Hs i Hi) as [row [mp [sh1 [sh2 [H1 [H2 H3]]]]]].
  exists row, mp, sh1, sh2.
  unfold rd in H1, H2.
  destruct (nth_error (kd_divcnst D) (pred s)) as [r|] eqn:E1; [|discriminate]. injection H1 as ->.
  destruct (nth_error row i) as [e|] eqn:E2; [|discriminate]. injection H2 as ->.
  repeat split. intros n Hn. apply divcnst_exact; auto.
  - exact (f_bits D s (facts_of D s HD Hs)).
  - apply dpow_pos; auto; lia.
Qed.
