From Coq Require Import ZArith List Bool Ascii String Lia.
From Verif Require Import Base IntModel IntSpec.
Import ListNotations.
Open Scope Z_scope.

Lemma integral_cases : forall t, integral_type t ->
  t = Ity 1 false \/
  (t = Ity 8 false \/ t = Ity 16 false \/ t = Ity 32 false \/ t = Ity 64 false \/ t = Ity 128 false) \/
  (t = Ity 8 true \/ t = Ity 16 true \/ t = Ity 32 true \/ t = Ity 64 true \/ t = Ity 128 true).
Proof.
  intros t [H|(w & s & Hw & ->)]; [auto|].
  cbn in Hw. destruct s; decompose [or] Hw; subst; try contradiction; auto 12.
Qed.

Ltac itypes H :=
  let H' := fresh in
  pose proof (integral_cases _ H) as H'; clear H; decompose [or] H'; clear H'; subst.

Ltac pows := cbv [bits sgnd unsigned_of imin imax in_ity wrap arith promote unbool common is_bool
  cle clt int32 uint32 Z.ltb Z.leb Z.eqb Z.compare Pos.compare Pos.compare_cont Pos.eqb Bool.eqb andb] in *.

Lemma in_ity_iff : forall t z, in_ity t z = true <-> has_value t z.
Proof.
  intros t z. unfold in_ity, has_value, imin, imax.
  rewrite andb_true_iff, !Z.leb_le. destruct (sgnd t); lia.
Qed.

Lemma wrap_has : forall t z, 1 <= bits t -> has_value t z -> wrap t z = z.
Proof.
  intros [w s] z; cbn [bits]. unfold has_value, wrap; cbn [bits sgnd]. intros Hw H.
  assert (E : 2 ^ w = 2 * 2 ^ (w - 1)).
  { rewrite <- Z.pow_succ_r by lia. f_equal. lia. }
  assert (0 < 2 ^ (w - 1)) by (apply Z.pow_pos_nonneg; lia).
  destruct s; cbn [andb].
  - destruct (Z.leb_spec (2 ^ (w - 1)) (z mod 2 ^ w)) as [L|L].
    + destruct (Z_lt_le_dec z 0).
      * replace z with ((z + 2 ^ w) + (-1) * 2 ^ w) at 1 by lia.
        rewrite Z.mod_add, Z.mod_small by lia. lia.
      * rewrite Z.mod_small in L by lia. lia.
    + destruct (Z_lt_le_dec z 0).
      * replace z with ((z + 2 ^ w) + (-1) * 2 ^ w) in L at 1 by lia.
        rewrite Z.mod_add, Z.mod_small in L by lia. lia.
      * rewrite Z.mod_small by lia. lia.
  - apply Z.mod_small. lia.
Qed.

Lemma promote_has : forall t z, integral_type t -> has_value t z -> has_value (promote t) z.
Proof.
  intros t z Ht. itypes Ht; unfold has_value; cbn -[Z.pow]; cbn; lia.
Qed.

Lemma arith_has : forall t z, 1 <= bits t -> has_value t z -> arith t z = Ok z.
Proof.
  intros t z Hw H. unfold arith. destruct (sgnd t) eqn:E.
  - apply in_ity_iff in H. rewrite H. reflexivity.
  - unfold has_value in H. rewrite E in H. rewrite Z.mod_small by lia. reflexivity.
Qed.

Lemma promote_bits : forall t, integral_type t -> 1 <= bits (promote t).
Proof. intros t Ht. itypes Ht; cbn; lia. Qed.

Lemma integral_bits : forall t, integral_type t -> 1 <= bits t.
Proof. intros t Ht. itypes Ht; cbn; lia. Qed.

(** safe_int_add / sub *)
Lemma in_ity_false : forall t z, in_ity t z = false <-> ~ has_value t z.
Proof. intros. rewrite <- in_ity_iff. destruct (in_ity t z); intuition congruence. Qed.

Lemma has_dec : forall t z, has_value t z \/ ~ has_value t z.
Proof. intros. rewrite <- in_ity_iff. destruct (in_ity t z); auto. Qed.

Lemma common_self : forall t, integral_type t -> common (promote t) t = promote t.
Proof. intros t Ht. itypes Ht; reflexivity. Qed.

Lemma hv_unfold : forall t z, has_value t z <-> imin t <= z <= imax t.
Proof. intros. unfold has_value, imin, imax. destruct (sgnd t); lia. Qed.

Lemma promote_lims : forall t, integral_type t ->
  imin (promote t) <= imin t /\ imax t <= imax (promote t) /\
  (sgnd t = true -> sgnd (promote t) = true) /\
  (sgnd t = true -> imin t = - imax t - 1) /\ (sgnd t = false -> imin t = 0) /\ 0 < imax t.
Proof. intros t Ht. itypes Ht; vm_compute; intuition discriminate. Qed.

Lemma safe_int_add_spec : forall bi t a b, integral_type t -> has_value t a -> has_value t b ->
  safe_int_add bi t a b = if in_ity t (a + b) then Ok (a + b) else Throw overflow_error.
Proof.
  intros bi t a b Ht Ha Hb. unfold safe_int_add.
  destruct (is_bool t) eqn:EB.
  - assert (t = Ity 1 false) as -> by (itypes Ht; [reflexivity|discriminate..]).
    unfold has_value in Ha, Hb; cbn in Ha, Hb.
    assert (Ca : a = 0 \/ a = 1) by lia. assert (Cb : b = 0 \/ b = 1) by lia.
    destruct Ca, Cb; subst; reflexivity.
  - destruct bi; [reflexivity|].
    pose proof (promote_lims _ Ht) as (P1 & P2 & P3 & P4 & P5 & P6).
    pose proof (promote_bits _ Ht) as PB. pose proof (integral_bits _ Ht) as B.
    apply hv_unfold in Ha, Hb. unfold safe_int_add_impl.
    assert (A : forall z, imin t <= z <= imax t -> arith (promote t) z = Ok z).
    { intros z Hz. apply arith_has; [exact PB|]. apply hv_unfold. lia. }
    assert (W : forall z, imin t <= z <= imax t -> wrap t z = z).
    { intros z Hz. apply wrap_has; [exact B|]. apply hv_unfold. lia. }
    unfold in_ity.
    destruct (sgnd t) eqn:ES.
    + specialize (P4 eq_refl).
      destruct (Z.leb_spec 0 b).
      * rewrite A by lia. cbn [bind].
        destruct (Z.ltb_spec (imax t - b) a); cbn [bind].
        -- destruct (Z.leb_spec (imin t) (a + b)), (Z.leb_spec (a + b) (imax t)); cbn [andb]; try reflexivity; lia.
        -- rewrite A by lia. cbn [bind]. rewrite W by lia.
           destruct (Z.leb_spec (imin t) (a + b)), (Z.leb_spec (a + b) (imax t)); cbn [andb]; try reflexivity; lia.
      * rewrite A by lia. cbn [bind].
        destruct (Z.ltb_spec a (imin t - b)); cbn [bind].
        -- destruct (Z.leb_spec (imin t) (a + b)), (Z.leb_spec (a + b) (imax t)); cbn [andb]; try reflexivity; lia.
        -- rewrite A by lia. cbn [bind]. rewrite W by lia.
           destruct (Z.leb_spec (imin t) (a + b)), (Z.leb_spec (a + b) (imax t)); cbn [andb]; try reflexivity; lia.
    + specialize (P5 eq_refl). rewrite A by lia. cbn [bind].
      unfold clt. rewrite common_self by exact Ht.
      assert (W' : forall z, imin t <= z <= imax t -> wrap (promote t) z = z).
      { intros z Hz. apply wrap_has; [exact PB|]. apply hv_unfold. lia. }
      rewrite !W' by lia.
      destruct (Z.ltb_spec (imax t - b) a); cbn [bind].
      -- destruct (Z.leb_spec (imin t) (a + b)), (Z.leb_spec (a + b) (imax t)); cbn [andb]; try reflexivity; lia.
      -- rewrite A by lia. cbn [bind]. rewrite W by lia.
         destruct (Z.leb_spec (imin t) (a + b)), (Z.leb_spec (a + b) (imax t)); cbn [andb]; try reflexivity; lia.
Qed.

Lemma safe_int_sub_spec : forall bi t a b, integral_type t -> has_value t a -> has_value t b ->
  safe_int_sub bi t a b = if in_ity t (a - b) then Ok (a - b) else Throw overflow_error.
Proof.
  intros bi t a b Ht Ha Hb. unfold safe_int_sub.
  destruct (is_bool t) eqn:EB.
  - assert (t = Ity 1 false) as -> by (itypes Ht; [reflexivity|discriminate..]).
    unfold has_value in Ha, Hb; cbn in Ha, Hb.
    assert (Ca : a = 0 \/ a = 1) by lia. assert (Cb : b = 0 \/ b = 1) by lia.
    destruct Ca, Cb; subst; reflexivity.
  - destruct bi; [reflexivity|].
    pose proof (promote_lims _ Ht) as (P1 & P2 & P3 & P4 & P5 & P6).
    pose proof (promote_bits _ Ht) as PB. pose proof (integral_bits _ Ht) as B.
    apply hv_unfold in Ha, Hb. unfold safe_int_sub_impl.
    assert (A : forall z, imin t <= z <= imax t -> arith (promote t) z = Ok z).
    { intros z Hz. apply arith_has; [exact PB|]. apply hv_unfold. lia. }
    assert (W : forall z, imin t <= z <= imax t -> wrap t z = z).
    { intros z Hz. apply wrap_has; [exact B|]. apply hv_unfold. lia. }
    unfold in_ity.
    destruct (sgnd t) eqn:ES.
    + specialize (P4 eq_refl).
      destruct (Z.leb_spec b 0).
      * rewrite A by lia. cbn [bind].
        destruct (Z.ltb_spec (imax t + b) a); cbn [bind].
        -- destruct (Z.leb_spec (imin t) (a - b)), (Z.leb_spec (a - b) (imax t)); cbn [andb]; try reflexivity; lia.
        -- rewrite A by lia. cbn [bind]. rewrite W by lia.
           destruct (Z.leb_spec (imin t) (a - b)), (Z.leb_spec (a - b) (imax t)); cbn [andb]; try reflexivity; lia.
      * rewrite A by lia. cbn [bind].
        destruct (Z.ltb_spec a (imin t + b)); cbn [bind].
        -- destruct (Z.leb_spec (imin t) (a - b)), (Z.leb_spec (a - b) (imax t)); cbn [andb]; try reflexivity; lia.
        -- rewrite A by lia. cbn [bind]. rewrite W by lia.
           destruct (Z.leb_spec (imin t) (a - b)), (Z.leb_spec (a - b) (imax t)); cbn [andb]; try reflexivity; lia.
    + specialize (P5 eq_refl). 
      destruct (Z.ltb_spec a b); cbn [bind].
      -- destruct (Z.leb_spec (imin t) (a - b)), (Z.leb_spec (a - b) (imax t)); cbn [andb]; try reflexivity; lia.
      -- rewrite A by lia. cbn [bind]. rewrite W by lia.
         destruct (Z.leb_spec (imin t) (a - b)), (Z.leb_spec (a - b) (imax t)); cbn [andb]; try reflexivity; lia.
Qed.

(** safe_convert *)
Definition plain (t : ity) : Prop := integral_type t /\ is_bool t = false.

Lemma unbool_plain : forall t, integral_type t -> integral_type (unbool t).
Proof.
  intros t Ht. unfold unbool. destruct (is_bool t); [|exact Ht].
  right. exists 32, false. cbn. auto.
Qed.

Lemma unbool_lims : forall t, integral_type t ->
  imin (unbool t) <= imin t /\ imax t <= imax (unbool t) /\ sgnd (unbool t) = sgnd t.
Proof. intros t Ht. itypes Ht; vm_compute; intuition discriminate. Qed.

Lemma uof_integral : forall t, integral_type t -> integral_type (unsigned_of t).
Proof.
  intros t [->|(w & s & Hw & ->)]; [left; reflexivity|]. right. exists w, false. auto.
Qed.

Lemma common_lims : forall t u, integral_type t -> integral_type u ->
  1 <= bits (common t u) /\
  imax t <= imax (common t u) /\ imax u <= imax (common t u) /\ imin (common t u) <= 0 /\
  (sgnd t = sgnd u -> imin (common t u) <= imin t /\ imin (common t u) <= imin u).
Proof.
  intros t u Ht Hu. pose proof (integral_cases _ Ht) as Ct. pose proof (integral_cases _ Hu) as Cu.
  clear Ht Hu.
  decompose [or] Ct; clear Ct; subst; decompose [or] Cu; clear Cu; subst; vm_compute; intuition discriminate.
Qed.

Lemma cle_ok : forall t u a b, integral_type t -> integral_type u ->
  has_value t a -> has_value u b -> (sgnd t = sgnd u \/ (0 <= a /\ 0 <= b)) ->
  cle t u a b = (a <=? b).
Proof.
  intros t u a b Ht Hu Ha Hb H. unfold cle.
  pose proof (common_lims t u Ht Hu) as (C0 & C1 & C2 & C3 & C4).
  apply hv_unfold in Ha, Hb.
  rewrite !wrap_has; try assumption; try reflexivity; apply hv_unfold; destruct H as [H|H]; try lia;
    specialize (C4 H); lia.
Qed.

Lemma clt_ok : forall t u a b, integral_type t -> integral_type u ->
  has_value t a -> has_value u b -> (sgnd t = sgnd u \/ (0 <= a /\ 0 <= b)) ->
  clt t u a b = (a <? b).
Proof.
  intros t u a b Ht Hu Ha Hb H. unfold clt.
  pose proof (common_lims t u Ht Hu) as (C0 & C1 & C2 & C3 & C4).
  apply hv_unfold in Ha, Hb.
  rewrite !wrap_has; try assumption; try reflexivity; apply hv_unfold; destruct H as [H|H]; try lia;
    specialize (C4 H); lia.
Qed.

Lemma lims_sane : forall t, integral_type t ->
  imin t <= 0 < imax t /\ imax t <= imax (unsigned_of t) /\ imin (unsigned_of t) = 0.
Proof. intros t Ht. itypes Ht; vm_compute; intuition discriminate. Qed.

Lemma imin_unsigned : forall t, sgnd t = false -> imin t = 0.
Proof. intros t H. unfold imin. rewrite H. reflexivity. Qed.

Lemma safe_convert_int_spec : forall t u out n, integral_type t -> integral_type u -> has_value u n ->
  safe_convert_int t u out n = if in_ity t n then (true, n) else (false, out).
Proof.
  intros t u out n Ht Hu Hn. unfold safe_convert_int.
  pose proof (unbool_plain _ Ht) as Ht'. pose proof (unbool_plain _ Hu) as Hu'.
  pose proof (unbool_lims _ Ht) as (T1 & T2 & T3). pose proof (unbool_lims _ Hu) as (U1 & U2 & U3).
  pose proof (lims_sane _ Ht) as (LT & LT2 & LT3). pose proof (lims_sane _ Hu) as (LU & LU2 & LU3).
  pose proof (integral_bits _ Ht) as BT. pose proof (integral_bits _ Hu) as BU.
  apply hv_unfold in Hn.
  assert (VTmin : has_value (unbool t) (imin t)) by (apply hv_unfold; lia).
  assert (VTmax : has_value (unbool t) (imax t)) by (apply hv_unfold; lia).
  assert (VN : has_value (unbool u) n) by (apply hv_unfold; lia).
  assert (W : in_ity t n = true -> wrap t n = n).
  { intro I. apply wrap_has; [exact BT|]. apply in_ity_iff. exact I. }
  unfold in_ity in *.
  destruct (Bool.eqb (sgnd t) (sgnd u)) eqn:ES.
  - apply eqb_prop in ES.
    rewrite cle_ok, cle_ok; try assumption; try (left; congruence).
    destruct (Z.leb_spec (imin t) n); cbn [andb] in *; [|reflexivity].
    destruct (Z.leb_spec n (imax t)); [rewrite W by reflexivity|]; reflexivity.
  - assert (ES' : sgnd t <> sgnd u) by (intro E; rewrite E, eqb_reflx in ES; discriminate).
    destruct (sgnd t) eqn:EST.
    + assert (ESU : sgnd u = false) by (destruct (sgnd u); congruence).
      assert (0 <= n) by (rewrite (imin_unsigned u ESU) in Hn; lia).
      assert (WM : wrap (unsigned_of t) (imax t) = imax t).
      { apply wrap_has; [exact BT|]. apply hv_unfold. lia. }
      rewrite WM.
      rewrite cle_ok; try assumption.
      * destruct (Z.leb_spec n (imax t)), (Z.leb_spec (imin t) n); cbn [andb] in *; try lia; try reflexivity.
        rewrite W by reflexivity. reflexivity.
      * apply uof_integral; exact Ht.
      * apply hv_unfold. lia.
      * right. lia.
    + assert (ESU : sgnd u = true) by (destruct (sgnd u); congruence).
      rewrite (imin_unsigned t EST) in *.
      destruct (Z.ltb_spec n 0); cbn [orb].
      * destruct (Z.leb_spec 0 n); [lia|]. reflexivity.
      * assert (WM : wrap (unsigned_of u) n = n).
        { apply wrap_has; [exact BU|]. apply hv_unfold. lia. }
        rewrite WM. rewrite clt_ok; try assumption.
        -- destruct (Z.leb_spec 0 n); [|lia]. cbn [andb] in *.
           destruct (Z.ltb_spec (imax t) n), (Z.leb_spec n (imax t)); try lia; try reflexivity.
           rewrite W by reflexivity. reflexivity.
        -- apply uof_integral; exact Hu.
        -- apply hv_unfold. lia.
        -- right. lia.
Qed.

Lemma safe_cast_int_spec : forall t u n, integral_type t -> integral_type u -> has_value u n ->
  safe_cast_int t u n = if in_ity t n then Ok n else Throw safe_cast_failure.
Proof.
  intros. unfold safe_cast_int. rewrite safe_convert_int_spec by assumption.
  destruct (in_ity t n); reflexivity.
Qed.

(** to_string *)
Lemma digit_char_value : forall d, 0 <= d < 10 -> digit_value (digit_char d) = Some d.
Proof.
  intros d Hd. assert (C : d = 0 \/ d = 1 \/ d = 2 \/ d = 3 \/ d = 4 \/ d = 5 \/ d = 6 \/ d = 7 \/ d = 8 \/ d = 9) by lia.
  decompose [or] C; subst; reflexivity.
Qed.

Lemma digit_char_not : forall d, 0 <= d < 10 -> digit_char d <> "-"%char /\ (d <> 0 -> digit_char d <> "0"%char).
Proof.
  intros d Hd. assert (C : d = 0 \/ d = 1 \/ d = 2 \/ d = 3 \/ d = 4 \/ d = 5 \/ d = 6 \/ d = 7 \/ d = 8 \/ d = 9) by lia.
  decompose [or] C; subst; cbv; split; try congruence; intros; congruence.
Qed.

(* number of digits: n < 10^k means at most k iterations *)
Lemma loop_ok : forall k fuel cap n buf, 0 <= n < 10 ^ Z.of_nat k -> (k < fuel)%nat ->
  (List.length buf + k <= cap)%nat ->
  exists ds, to_string_loop fuel cap n buf = Ok (ds ++ buf) /\
    (List.length ds <= k)%nat /\
    (n = 0 -> ds = []) /\
    (0 < n -> exists d ds', ds = digit_char d :: ds' /\ 0 < d < 10) /\
    (forall acc s, read_digits (string_of_list_ascii (ds ++ list_ascii_of_string s)) acc =
                   read_digits s (acc * 10 ^ Z.of_nat (List.length ds) + n)).
Proof.
  induction k; intros fuel cap n buf Hn Hf Hc.
  - assert (n = 0) by (cbn in Hn; lia). subst n. destruct fuel; [lia|]. cbn.
    exists []. split; [reflexivity|]. split; [cbn; lia|]. split; [auto|]. split; [lia|].
    intros acc s. cbn. rewrite string_of_list_ascii_of_string. f_equal. lia.
  - destruct fuel as [|fuel]; [lia|]. cbn [to_string_loop].
    destruct (Z.eqb_spec n 0) as [->|Hn0].
    + exists []. split; [reflexivity|]. split; [cbn; lia|]. split; [auto|]. split; [lia|].
      intros acc s. cbn. rewrite string_of_list_ascii_of_string. f_equal. lia.
    + unfold buf_push. replace (List.length buf <? cap)%nat with true by (symmetry; apply Nat.ltb_lt; lia).
      cbn [bind].
      assert (Hm : 0 <= n mod 10 < 10) by (apply Z.mod_pos_bound; lia).
      assert (Hd : n = 10 * (n / 10) + n mod 10) by (apply Z.div_mod; lia).
      rewrite Nat2Z.inj_succ, Z.pow_succ_r in Hn by lia.
      assert (Hq : 0 <= n / 10 < 10 ^ Z.of_nat k).
      { split; [apply Z.div_pos; lia|]. apply Z.div_lt_upper_bound; lia. }
      destruct (IHk fuel cap (n / 10) (digit_char (n mod 10) :: buf) Hq) as (ds & E & L & Z0 & P & R); [lia|cbn; lia|].
      exists (ds ++ [digit_char (n mod 10)]). rewrite <- app_assoc. cbn [app]. split; [exact E|].
      split; [rewrite app_length; cbn; lia|]. split; [lia|]. split.
      * intros Hp. destruct (Z_lt_le_dec 0 (n / 10)) as [Hpos|Hz].
        -- destruct (P Hpos) as (d & ds' & -> & Hdd). exists d, (ds' ++ [digit_char (n mod 10)]). auto.
        -- rewrite Z0 by lia. exists (n mod 10), []. split; [reflexivity|lia].
      * intros acc s. rewrite <- app_assoc. cbn [app].
        specialize (R acc (String (digit_char (n mod 10)) s)). cbn [list_ascii_of_string] in R. rewrite R.
        cbn [read_digits]. rewrite digit_char_value by exact Hm.
        f_equal. rewrite app_length. cbn [List.length]. rewrite Nat.add_1_r, Nat2Z.inj_succ, Z.pow_succ_r by lia. lia.
Qed.

Definition printable (t : ity) : Prop := integral_type t /\ is_bool t = false.

Lemma d10_ok : forall t, printable t ->
  (digits10 t + 1 < S (Z.to_nat (bits t)))%nat /\ (if sgnd t then imax t + 1 else imax t) < 10 ^ Z.of_nat (digits10 t + 1).
Proof.
  intros t [Ht B]. itypes Ht; try discriminate B; clear B; (split; [apply Nat.ltb_lt; vm_compute; reflexivity|apply Z.ltb_lt; vm_compute; reflexivity]).
Qed.

Lemma signed_lims : forall t, integral_type t -> sgnd t = true ->
  imin t = - imax t - 1 /\ imax t + 1 <= imax (unsigned_of t) /\
  (bits t <? 32 = true -> imax t + 1 <= imax uint32).
Proof.
  intros t Ht S. itypes Ht; try discriminate S; clear S; vm_compute; intuition discriminate.
Qed.

Lemma abs_ok : forall t n, printable t -> sgnd t = true -> has_value t n -> abs_unsigned t n = Ok (Z.abs n).
Proof.
  intros t n [Ht B] S Hn. apply hv_unfold in Hn.
  pose proof (integral_bits _ Ht) as Bt.
  assert (A : forall u z, sgnd u = false -> arith u z = Ok (wrap u z)) by (intros u z Hu; unfold arith, wrap; rewrite Hu; reflexivity).
  assert (Wm : forall u z, sgnd u = false -> 1 <= bits u -> has_value u (- z) -> wrap u (- wrap u z) = - z).
  { intros u z Hu Hb Hv. unfold has_value in Hv. rewrite Hu in Hv. unfold wrap. rewrite Hu. cbn [andb].
    replace (- (z mod 2 ^ bits u)) with (0 - (z mod 2 ^ bits u)) by lia.
    rewrite Zminus_mod_idemp_r. rewrite Z.mod_small; lia. }
  assert (HU : Z.abs n <= imax (unsigned_of t) /\ (bits t <? 32 = true -> Z.abs n <= imax uint32)).
  { pose proof (signed_lims _ Ht S) as (L1 & L2 & L3).
    split; [lia|]. intro Hb. specialize (L3 Hb). lia. }
  unfold abs_unsigned. destruct (bits t <? 32) eqn:E.
  - destruct HU as [HU1 HU2]. specialize (HU2 eq_refl).
    destruct (Z.ltb_spec n 0).
    + rewrite A by reflexivity. cbn [bind]. rewrite Wm; [|reflexivity|cbn; lia|apply hv_unfold; cbn [imin sgnd uint32]; unfold imin; cbn [sgnd uint32]; lia].
      rewrite wrap_has; [f_equal; lia|exact Bt|]. apply hv_unfold. unfold imin. cbn [sgnd unsigned_of]. lia.
    + cbn [bind]. rewrite (wrap_has uint32); [|cbn; lia|apply hv_unfold; unfold imin; cbn [sgnd uint32]; lia].
      rewrite wrap_has; [f_equal; lia|exact Bt|]. apply hv_unfold. unfold imin. cbn [sgnd unsigned_of]. lia.
  - destruct HU as [HU1 _].
    destruct (Z.ltb_spec n 0).
    + rewrite A by reflexivity. rewrite Wm; [f_equal; lia|reflexivity|exact Bt|].
      apply hv_unfold. unfold imin. cbn [sgnd unsigned_of]. lia.
    + rewrite wrap_has; [f_equal; lia|exact Bt|]. apply hv_unfold. unfold imin. cbn [sgnd unsigned_of]. lia.
Qed.

Lemma read_int_nosign : forall c s, c <> "-"%char -> read_int (String c s) = read_digits (String c s) 0.
Proof.
  intros c s H. unfold read_int. destruct c as [b0 b1 b2 b3 b4 b5 b6 b7].
  destruct b0, b1, b2, b3, b4, b5, b6, b7; try reflexivity. exfalso; apply H; reflexivity.
Qed.

Lemma to_string_lemma : forall t n, printable t -> has_value t n ->
  exists s, to_string t n = Ok s /\ read_int s = Some n /\ canonical s.
Proof.
  intros t n Hp Hn. destruct (d10_ok _ Hp) as [D1 D2].
  unfold to_string. destruct (sgnd t) eqn:ES.
  - unfold to_string_signed. rewrite abs_ok by assumption. cbn [bind].
    assert (HU : 0 <= Z.abs n < 10 ^ Z.of_nat (digits10 t + 1)).
    { split; [lia|]. apply hv_unfold in Hn.
      assert (imin t = - imax t - 1) by (unfold imin, imax; rewrite ES; lia).
      lia. }
    destruct (loop_ok _ _ (digits10 t + 2) _ [] HU D1) as (ds & E & L & Z0 & P & R); [cbn; lia|].
    rewrite app_nil_r in E. rewrite E. cbn [bind].
    destruct (Z.eq_dec n 0) as [->|Hn0].
    + rewrite Z0 by lia. exists "0"%string. repeat split; auto. left; reflexivity.
    + destruct P as (d & ds' & Eds & Hd); [lia|].
      destruct (digit_char_not d) as [N1 N2]; [lia|]. specialize (N2 ltac:(lia)).
      specialize (R 0 EmptyString). cbn [list_ascii_of_string] in R. rewrite app_nil_r in R. cbn [read_digits] in R.
      rewrite Eds. rewrite <- Eds.
      destruct (Z.ltb_spec n 0).
      * unfold buf_push. replace (List.length ds <? digits10 t + 2)%nat with true by (symmetry; apply Nat.ltb_lt; lia).
        cbn [bind]. eexists. split; [reflexivity|]. split.
        -- rewrite Eds in *. cbn [string_of_list_ascii read_int].
           cbn [string_of_list_ascii] in R. rewrite R. cbn [option_map]. f_equal. lia.
        -- right; right. rewrite Eds. cbn [string_of_list_ascii]. eauto.
      * cbn [bind]. eexists. split; [reflexivity|]. split.
        -- rewrite Eds in *. cbn [string_of_list_ascii] in *. rewrite read_int_nosign by exact N1. rewrite R. f_equal. lia.
        -- right; left. rewrite Eds. cbn [string_of_list_ascii]. eauto.
  - unfold to_string_unsigned.
    assert (HU : 0 <= n < 10 ^ Z.of_nat (digits10 t + 1)).
    { apply hv_unfold in Hn. unfold imin in Hn. rewrite ES in Hn.
      lia. }
    destruct (loop_ok _ _ (digits10 t + 1) _ [] HU D1) as (ds & E & L & Z0 & P & R); [cbn; lia|].
    rewrite app_nil_r in E. rewrite E. cbn [bind].
    destruct (Z.eq_dec n 0) as [->|Hn0].
    + rewrite Z0 by lia. exists "0"%string. repeat split; auto. left; reflexivity.
    + destruct P as (d & ds' & Eds & Hd); [lia|].
      destruct (digit_char_not d) as [N1 N2]; [lia|]. specialize (N2 ltac:(lia)).
      specialize (R 0 EmptyString). cbn [list_ascii_of_string] in R. rewrite app_nil_r in R. cbn [read_digits] in R.
      rewrite Eds. rewrite <- Eds. eexists. split; [reflexivity|]. split.
      * rewrite Eds in *. cbn [string_of_list_ascii] in *. rewrite read_int_nosign by exact N1. rewrite R. reflexivity.
      * right; left. rewrite Eds. cbn [string_of_list_ascii]. eauto.
Qed.
