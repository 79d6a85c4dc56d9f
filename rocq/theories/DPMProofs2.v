From Coq Require Import ZArith List Bool String Lia Sorted Arith.
From Verif Require Import Base KpackTables KpackModel KpackSpec KpackProofs IntModel IntSpec IntProofs
  SymModel SymSpec SymProofs PMonModel PMonSpec PMonProofs PMonProofs2 DPMModel DPMSpec DPMProofs.
Import ListNotations.
Open Scope Z_scope.

Section G.
Context (D : kdata) (ps : nat) (HD : packable D) (G : good_size D ps).
Let OK := packable_ok D HD.
Let G1 : (1 <= ps)%nat := proj1 G.

Lemma dzero_comp : comp_ok D ps 0.
Proof. apply PMonProofs2.zero_comp; auto. Qed.

(** * Codes *)
Lemma kron_short_code a : Forall (comp_ok D ps) a -> (List.length a <= ps)%nat -> code_ok D ps (kron (delta D ps) a).
Proof. intros F L. apply kron_range; auto. Qed.

Lemma dcode_codes vs : Forall (comp_ok D ps) vs -> Forall (code_ok D ps) (dcode D ps vs).
Proof.
  intros F. unfold dcode. apply Forall_forall. intros x I. apply in_map_iff in I as (i & <- & _).
  apply kron_short_code; [apply Forall_firstn, Forall_skipn; exact F|rewrite firstn_length; lia].
Qed.

Lemma short_inj a b : Forall (comp_ok D ps) a -> Forall (comp_ok D ps) b -> (List.length a <= ps)%nat ->
  List.length a = List.length b -> kron (delta D ps) a = kron (delta D ps) b -> a = b.
Proof.
  intros Fa Fb L E H.
  assert (P : forall x, Forall (comp_ok D ps) x -> Forall (comp_ok D ps) (x ++ repeat 0 (ps - List.length a))).
  { intros x Fx. apply Forall_app. split; auto. apply Forall_forall. intros y I. apply repeat_spec in I. subst. apply dzero_comp. }
  assert (a ++ repeat 0 (ps - List.length a) = b ++ repeat 0 (ps - List.length a)).
  { apply (kron_inj D ps); auto; try (rewrite app_length, repeat_length; lia). rewrite !kron_pad. exact H. }
  apply app_inv_tail in H0. exact H0.
Qed.

Lemma dcode_inj vs : Forall (comp_ok D ps) vs -> forall ws, Forall (comp_ok D ps) ws -> List.length vs = List.length ws ->
  dcode D ps vs = dcode D ps ws -> vs = ws.
Proof.
  revert vs. apply (chunk_ind ps (fun vs => Forall (comp_ok D ps) vs -> forall ws, Forall (comp_ok D ps) ws -> List.length vs = List.length ws ->
  dcode D ps vs = dcode D ps ws -> vs = ws) G1).
  - intros _ ws _ L _. destruct ws; [reflexivity|discriminate].
  - intros vs N IH F ws Fw L E. rewrite (dcode_step D ps vs), (dcode_step D ps ws) in E; auto.
    2:{ intros ->. destruct vs; [congruence|discriminate]. }
    inversion E as [[E1 E2]]. rewrite <- (firstn_skipn ps vs), <- (firstn_skipn ps ws). f_equal.
    + apply short_inj; auto using Forall_firstn; rewrite !firstn_length; lia.
    + apply IH; auto using Forall_skipn. rewrite !skipn_length. lia.
Qed.

Lemma drep_unique n d vs ws : drepresents D ps n d vs -> drepresents D ps n d ws -> vs = ws.
Proof. intros (L1 & C1 & E1) (L2 & C2 & E2). apply dcode_inj; auto; congruence. Qed.

Lemma dcode_drep vs : Forall (comp_ok D ps) vs -> drepresents D ps (List.length vs) (dcode D ps vs) vs.
Proof. intros F. repeat split; auto. Qed.

Lemma dpm_eq_iff a : forall b, dpm_eq a b = true <-> a = b.
Proof.
  induction a as [|x a IH]; intros [|y b]; cbn [dpm_eq]; try (split; [discriminate|congruence]); [split; auto|].
  rewrite andb_true_iff, Z.eqb_eq, IH. split; [intros [-> ->]; reflexivity|intros H; inversion H; auto].
Qed.

(** * Unit *)
Lemma dcode_zeros k : dcode D ps (repeat 0 k) = repeat 0 (npacks ps k).
Proof.
  unfold dcode. rewrite repeat_length.
  assert (Z0 : forall i, kron (delta D ps) (firstn ps (skipn (i * ps) (repeat 0 k))) = 0).
  { intros i. assert (F : Forall (fun x => x = 0) (firstn ps (skipn (i * ps) (repeat 0 k)))).
    { apply Forall_firstn, Forall_skipn, Forall_forall. intros x I. apply repeat_spec in I. exact I. }
    revert F. generalize (firstn ps (skipn (i * ps) (repeat 0 k))). induction 1; cbn [kron]; lia. }
  generalize (npacks ps k). intros m. generalize 0%nat as s. induction m as [|m IH]; intros s; [reflexivity|].
  cbn [seq map repeat]. rewrite Z0. f_equal. apply IH.
Qed.

Lemma dunit n : drepresents D ps n (repeat 0 (npacks ps n)) (repeat 0 n).
Proof.
  repeat split; [apply repeat_length| |symmetry; apply dcode_zeros].
  apply Forall_forall. intros x I. apply repeat_spec in I. subst. apply dzero_comp.
Qed.

Lemma one_iff n d vs : drepresents D ps n d vs -> (forallb (fun x => x =? 0) d = true <-> vs = repeat 0 n).
Proof.
  intros R. split.
  - intros H. assert (d = repeat 0 (npacks ps n)).
    { destruct R as (L & _ & Ed). assert (List.length d = npacks ps n) by (rewrite Ed, dcode_length, L; reflexivity).
      rewrite <- H0. clear -H. induction d as [|x d IH]; [reflexivity|]. cbn [forallb] in H. apply andb_true_iff in H as [A B].
      apply Z.eqb_eq in A. subst. cbn [List.length repeat]. f_equal. auto. }
    subst d. eapply drep_unique; [exact R|apply dunit].
  - intros ->. destruct R as (_ & _ & ->). rewrite dcode_zeros. apply forallb_forall. intros x I. apply repeat_spec in I. subst. reflexivity.
Qed.

(** * Compatibility *)
Lemma dcompat_eq d ss : dpm_compatible D ps d ss =
  Ok ((List.length d =? npacks ps (List.length ss))%nat && forallb (fun x => (klo D ps <=? x) && (x <=? klim D ps)) d).
Proof.
  unfold dpm_compatible. rewrite vsize_npacks by exact G1.
  destruct (Nat.eqb_spec (List.length d) (npacks ps (List.length ss))) as [E|E]; cbn [negb andb]; [|reflexivity].
  rewrite get_klims by auto. cbn [bind]. f_equal.
  induction d as [|x d IH]; [reflexivity|]. clear E IH. generalize (x :: d). clear. induction l as [|y l IH]; [reflexivity|].
  cbn [forallb]. rewrite IH. f_equal. rewrite negb_orb, <- !Z.leb_antisym. reflexivity.
Qed.

Lemma dcompat_iff d ss : exists b, dpm_compatible D ps d ss = Ok b /\
  (b = true <-> List.length d = npacks ps (List.length ss) /\ Forall (code_ok D ps) d).
Proof.
  rewrite dcompat_eq. eexists. split; [reflexivity|]. rewrite andb_true_iff, Nat.eqb_eq, forallb_forall, Forall_forall.
  split; intros [A B]; split; auto; intros x I; specialize (B x I); unfold code_ok in *.
  - rewrite andb_true_iff, !Z.leb_le in B. exact B.
  - rewrite andb_true_iff, !Z.leb_le. exact B.
Qed.

Lemma drep_compat ss d vs : drepresents D ps (List.length ss) d vs -> dpm_compatible D ps d ss = Ok true.
Proof.
  intros (L & C & E). destruct (dcompat_iff d ss) as (b & Eb & Hb). rewrite Eb. f_equal. apply Hb.
  subst d. rewrite dcode_length, L. split; auto. apply dcode_codes; exact C.
Qed.

(** * Multiplication *)
Lemma vadd_firstn k : forall a b, firstn k (vadd a b) = vadd (firstn k a) (firstn k b).
Proof. induction k; intros [|x a] [|y b]; try reflexivity. unfold vadd in *. cbn. f_equal. apply IHk. Qed.
Lemma vadd_nil_r a : vadd a [] = [].
Proof. destruct a; reflexivity. Qed.
Lemma vadd_skipn k : forall a b, skipn k (vadd a b) = vadd (skipn k a) (skipn k b).
Proof.
  induction k; intros [|x a] [|y b]; try reflexivity.
  - cbn [skipn]. rewrite !vadd_nil_r. reflexivity.
  - unfold vadd in *. cbn. apply IHk.
Qed.

Lemma dmul_ok vs : forall ws, Forall (comp_ok D ps) vs -> Forall (comp_ok D ps) ws -> List.length vs = List.length ws ->
  Forall (comp_ok D ps) (vadd vs ws) ->
  dpm_mul D (dcode D ps vs) (dcode D ps ws) = Ok (dcode D ps (vadd vs ws)).
Proof.
  revert vs. apply (chunk_ind ps (fun vs => forall ws, Forall (comp_ok D ps) vs -> Forall (comp_ok D ps) ws -> List.length vs = List.length ws ->
  Forall (comp_ok D ps) (vadd vs ws) ->
  dpm_mul D (dcode D ps vs) (dcode D ps ws) = Ok (dcode D ps (vadd vs ws))) G1).
  - intros ws _ _ L _. destruct ws; [|discriminate]. cbn [vadd combine map]. rewrite dcode_nil by exact G1. reflexivity.
  - intros vs N IH ws Fv Fw L Fa.
    assert (N2 : ws <> []) by (intros ->; destruct vs; [congruence|discriminate]).
    assert (N3 : vadd vs ws <> []) by (destruct vs, ws; try congruence; discriminate).
    rewrite (dcode_step D ps vs), (dcode_step D ps ws), (dcode_step D ps (vadd vs ws)) by auto.
    cbn [dpm_mul]. rewrite vadd_firstn, vadd_skipn.
    assert (LF : List.length (firstn ps vs) = List.length (firstn ps ws)) by (rewrite !firstn_length; lia).
    assert (KA : kron (delta D ps) (firstn ps vs) + kron (delta D ps) (firstn ps ws) = kron (delta D ps) (vadd (firstn ps vs) (firstn ps ws))) by (symmetry; apply kron_add; exact LF). rewrite KA. clear KA.
    rewrite arith_ok; [|apply bits_gt1 with (s := ps); auto|].
    2:{ apply (code_type D ps); auto. rewrite <- vadd_firstn. apply kron_short_code; [apply Forall_firstn; exact Fa|rewrite firstn_length; lia]. }
    cbn [bind]. rewrite IH; auto using Forall_skipn.
    + rewrite !skipn_length. lia.
    + rewrite <- vadd_skipn. apply Forall_skipn. exact Fa.
Qed.

Lemma dmul_rep n d e vs ws : drepresents D ps n d vs -> drepresents D ps n e ws -> Forall (comp_ok D ps) (vadd vs ws) ->
  dpm_mul D d e = Ok (dcode D ps (vadd vs ws)) /\ drepresents D ps n (dcode D ps (vadd vs ws)) (vadd vs ws).
Proof.
  intros (L1 & C1 & ->) (L2 & C2 & ->) C. split; [apply dmul_ok; auto; lia|].
  repeat split; auto. rewrite vadd_length; lia.
Qed.

(** * Hash *)
Lemma dhash_sum d : dpm_hash d = vsum d mod 2 ^ 64.
Proof.
  unfold dpm_hash. assert (W : forall z, wrap size_t z = z mod 2 ^ 64) by reflexivity.
  assert (Gen : forall acc, 0 <= acc < 2 ^ 64 -> fold_left (fun ret n => wrap size_t (ret + wrap size_t n)) d acc = (acc + vsum d) mod 2 ^ 64).
  { induction d as [|x d IH]; intros acc H.
    - cbn. rewrite Z.add_0_r. symmetry. apply Z.mod_small. exact H.
    - cbn [fold_left]. rewrite IH by (rewrite W; apply Z.mod_pos_bound; lia). rewrite !W.
      rewrite Zplus_mod_idemp_l. rewrite <- Z.add_assoc, (Z.add_comm (x mod _)), Z.add_assoc, Zplus_mod_idemp_r. f_equal.
      cbn [vsum fold_right]. fold (vsum d). lia. }
  apply Gen. lia.
Qed.

Lemma vsum_dcode_vadd vs : forall ws, List.length vs = List.length ws ->
  vsum (dcode D ps (vadd vs ws)) = vsum (dcode D ps vs) + vsum (dcode D ps ws).
Proof.
  revert vs. apply (chunk_ind ps (fun vs => forall ws, List.length vs = List.length ws ->
    vsum (dcode D ps (vadd vs ws)) = vsum (dcode D ps vs) + vsum (dcode D ps ws)) G1).
  - intros ws L. destruct ws; [|discriminate]. change (vadd [] []) with (@nil Z). rewrite dcode_nil by exact G1. reflexivity.
  - intros vs N IH ws L.
    assert (N2 : ws <> []) by (intros ->; destruct vs; [congruence|discriminate]).
    assert (N3 : vadd vs ws <> []) by (destruct vs, ws; try congruence; discriminate).
    rewrite (dcode_step D ps vs), (dcode_step D ps ws), (dcode_step D ps (vadd vs ws)) by auto.
    rewrite vadd_firstn, vadd_skipn. unfold vsum at 1 2 3. cbn [fold_right].
    fold (vsum (dcode D ps (vadd (skipn ps vs) (skipn ps ws)))) (vsum (dcode D ps (skipn ps vs))) (vsum (dcode D ps (skipn ps ws))).
    rewrite IH by (rewrite !skipn_length; lia).
    assert (KA : kron (delta D ps) (vadd (firstn ps vs) (firstn ps ws)) = kron (delta D ps) (firstn ps vs) + kron (delta D ps) (firstn ps ws))
      by (apply kron_add; rewrite !firstn_length; lia).
    rewrite KA. lia.
Qed.

(** * Exponentiation *)
Lemma gmap_pow e : forall vs i, gmap D ps (fun (st : unit) (_ : nat) tmp => if in_ity (kd_ty D) (tmp * e) then Ok (st, tmp * e) else Throw overflow_error) vs i tt =
  if fits D ps (vscale e vs) then Ok (tt, vscale e vs) else Throw overflow_error.
Proof.
  induction vs as [|v vs IH]; intros i; [reflexivity|].
  cbn [gmap vscale map fits forallb]. destruct (comp_okb D ps (v * e)) eqn:E.
  - assert (in_ity (kd_ty D) (v * e) = true) as ->.
    { apply comp_okb_iff in E. eapply comp_in_ity; eauto. }
    cbn [bind]. rewrite E, IH. cbn [andb]. unfold vscale, fits.
    destruct (forallb (comp_okb D ps) (map (fun v0 : Z => v0 * e) vs)); reflexivity.
  - cbn [andb]. destruct (in_ity (kd_ty D) (v * e)); cbn [bind]; [rewrite E|]; reflexivity.
Qed.

(** * Differentiation and integration *)
Lemma gmap_id {S} (g : S -> nat -> Z -> res (S * Z)) : forall vs i st, Forall (comp_ok D ps) vs ->
  (forall j st v, (i <= j < i + List.length vs)%nat -> g st j v = Ok (st, v)) ->
  gmap D ps g vs i st = Ok (st, vs).
Proof.
  induction vs as [|v vs IH]; intros i st F H; [reflexivity|]. inversion F; subst. cbn [gmap].
  rewrite H by (cbn [List.length]; lia). cbn [bind]. apply comp_okb_iff in H2. rewrite H2.
  rewrite IH; auto. intros j st' w Hj. apply H. cbn [List.length]. lia.
Qed.

Lemma gmap_at {S} (g : S -> nat -> Z -> res (S * Z)) vs idx st : Forall (comp_ok D ps) vs -> (idx < List.length vs)%nat ->
  (forall j st v, j <> idx -> g st j v = Ok (st, v)) ->
  gmap D ps g vs 0 st = ('(st', w) <- g st idx (nth idx vs 0) ;; if comp_okb D ps w then Ok (st', set_at idx w vs) else Throw overflow_error).
Proof.
  intros F Hi H. destruct (split_at vs idx Hi) as (a & x & b & Ev & La & Ex). rewrite Ex.
  assert (Fa : Forall (comp_ok D ps) a /\ Forall (comp_ok D ps) b).
  { rewrite Ev in F. apply Forall_app in F as [A B]. inversion B; subst. auto. }
  destruct Fa as [Fa Fb]. rewrite Ev at 1. rewrite gmap_app.
  rewrite gmap_id by (auto; intros; apply H; lia). cbn [bind Nat.add]. rewrite La. cbn [gmap].
  destruct (g st idx x) as [[st' w]| |]; cbn [bind]; auto. destruct (comp_okb D ps w); auto.
  rewrite gmap_id by (auto; intros; apply H; lia). cbn [bind]. rewrite Ev, <- La, set_at_app. reflexivity.
Qed.

Lemma ddiff_ok ss d vs idx : drepresents D ps (List.length ss) d vs -> (idx < List.length ss)%nat ->
  dpm_diff D ps d idx ss =
    let e := nth idx vs 0 in
    if e =? 0 then Ok (0, d)
    else if comp_okb D ps (e - 1) then Ok (e, dcode D ps (set_at idx (e - 1) vs)) else Throw overflow_error.
Proof.
  intros R Hi. unfold dpm_diff. rewrite (repack_lt D ps _ d vs) by auto. pose proof R as (L & C & Ed).
  rewrite (gmap_at _ vs idx); auto; try lia.
  2:{ intros j st v Hj. destruct (Nat.eqb_spec j idx); [congruence|reflexivity]. }
  rewrite Nat.eqb_refl. cbn [andb]. cbn zeta. set (e := nth idx vs 0).
  assert (Ce : comp_ok D ps e) by (rewrite Forall_forall in C; apply C, nth_In; lia).
  destruct (Z.eqb_spec e 0) as [E|E]; cbn [negb bind].
  - apply comp_okb_iff in Ce. rewrite Ce. cbn [bind]. rewrite Ed. do 3 f_equal.
    destruct (split_at vs idx ltac:(lia)) as (a & x & b & Ev & La & Ex). fold e in Ex. rewrite Ex. rewrite Ev, <- La. apply set_at_app.
  - pose proof (lim_pos D ps HD G) as (L1 & L2 & L3 & L4 & L5 & L6 & L7).
    rewrite arith_ok; [|apply bits_gt1 with (s := ps); auto|].
    2:{ unfold comp_ok in Ce. unfold lo in *. destruct (sgnd (kd_ty D)) eqn:S; [specialize (L4 eq_refl); lia|].
        unfold imin. rewrite S. lia. }
    cbn [bind]. destruct (comp_okb D ps (e - 1)); reflexivity.
Qed.

Lemma dint_ok ss d vs idx : drepresents D ps (List.length ss) d vs -> (idx < List.length ss)%nat ->
  dpm_integrate D ps d idx ss =
    let e := nth idx vs 0 in
    if e =? -1 then Throw domain_error
    else if comp_okb D ps (e + 1) then Ok (e + 1, dcode D ps (set_at idx (e + 1) vs)) else Throw overflow_error.
Proof.
  intros R Hi. unfold dpm_integrate. rewrite (repack_lt D ps _ d vs) by auto. pose proof R as (L & C & Ed).
  rewrite (gmap_at _ vs idx); auto; try lia.
  2:{ intros j st v Hj. destruct (Nat.eqb_spec j idx); [congruence|reflexivity]. }
  rewrite Nat.eqb_refl. cbn zeta. set (e := nth idx vs 0).
  assert (Ce : comp_ok D ps e) by (rewrite Forall_forall in C; apply C, nth_In; lia).
  assert (SG : sgnd (kd_ty D) && (e =? -1) = (e =? -1)).
  { destruct (sgnd (kd_ty D)) eqn:S; auto. cbn. symmetry. apply Z.eqb_neq. unfold comp_ok, lo in Ce. rewrite S in Ce. lia. }
  rewrite SG. destruct (Z.eqb_spec e (-1)) as [E|E]; [reflexivity|].
  pose proof (lim_pos D ps HD G) as (L1 & L2 & L3 & L4 & L5 & L6 & L7).
  rewrite arith_ok; [|apply bits_gt1 with (s := ps); auto|].
  2:{ unfold comp_ok in Ce. lia. }
  cbn [bind]. destruct (comp_okb D ps (e + 1)); reflexivity.
Qed.

Lemma set_at_len idx x (vs : list Z) : (idx < List.length vs)%nat -> List.length (set_at idx x vs) = List.length vs.
Proof.
  intros Hi. destruct (split_at vs idx Hi) as (a & y & b & Ev & La & _). rewrite Ev, <- La, set_at_app, !app_length. reflexivity.
Qed.
Lemma set_at_Forall (P : Z -> Prop) idx x vs : (idx < List.length vs)%nat -> P x -> Forall P vs -> Forall P (set_at idx x vs).
Proof.
  intros Hi Px F. destruct (split_at vs idx Hi) as (a & y & b & Ev & La & _). rewrite Ev, <- La, set_at_app.
  subst vs. apply Forall_app in F as [A B]. inversion B; subst. apply Forall_app; auto.
Qed.
Lemma dset_rep n d vs idx x : drepresents D ps n d vs -> (idx < n)%nat -> comp_ok D ps x ->
  drepresents D ps n (dcode D ps (set_at idx x vs)) (set_at idx x vs).
Proof.
  intros (L & C & E) Hi Cx. repeat split; auto.
  - rewrite set_at_len by lia. exact L.
  - apply set_at_Forall; auto. lia.
Qed.

(** * Evaluation and substitution *)
Lemma rfoldc_eval {V U} (vmul : V -> V -> V) (vpow : U -> Z -> res V) : forall vs (xs : list U) is i acc,
  List.length xs = List.length vs -> List.length is = List.length vs ->
  ('(_, (r, _)) <- rfoldc (fun '(_, sm_it) (_ : nat) => negb (Nat.eqb (List.length sm_it) 0))
      (fun '(retval, sm_it) (_ : nat) tmp =>
         match sm_it with
         | (_, x) :: sm' => pw <- vpow x tmp ;; Ok (vmul retval pw, sm')
         | [] => UB
         end) vs i (acc, combine (is : list nat) xs) ;; Ok r) = rfold (pstep vmul vpow) (combine xs vs) acc.
Proof.
  induction vs as [|v vs IH]; intros [|x xs] [|j is] i acc L1 L2; try discriminate; [reflexivity|].
  cbn [combine rfoldc List.length Nat.eqb negb rfold]. unfold pstep at 1. cbn [fst snd].
  destruct (vpow x v); cbn [bind]; auto.
Qed.

Lemma deval_ok {V U} (vone : V) (vmul : V -> V -> V) (vpow : U -> Z -> res V) ss d vs (xs : list U) :
  drepresents D ps (List.length ss) d vs -> List.length xs = List.length ss ->
  dpm_evaluate D ps vone vmul vpow d (combine (seq 0 (List.length ss)) xs) ss =
  rfold (pstep vmul vpow) (combine xs vs) vone.
Proof.
  intros (L & C & ->) Lx. unfold dpm_evaluate.
  rewrite (read_pure D ps (List.length vs) _ _ (fun '(_, sm) i => (List.length sm + i = List.length vs)%nat) HD G); auto.
  - rewrite <- (rfoldc_eval vmul vpow vs xs (seq 0 (List.length ss)) 0 vone); [|lia|rewrite seq_length; lia].
    unfold symbol_idx_map, symbol_idx.
    match goal with |- context [bind ?x _] => destruct x as [[? [? ?]]| |]; reflexivity end.
  - intros [a sm] i E1 E2. apply negb_true_iff, Nat.eqb_neq in E2. lia.
  - intros [a sm] i v [a' sm'] E1 E2 E3. destruct sm as [|[j x] sm]; [discriminate|].
    destruct (vpow x v); cbn [bind] in E3; try discriminate. inversion E3; subst. cbn [List.length] in *. lia.
  - rewrite combine_length, seq_length. lia.
Qed.

Lemma gmap_subs {V U} (vmul : V -> V -> V) (vpow : U -> Z -> res V) : forall vs i (sm : list (nat * U)) acc,
  Forall (comp_ok D ps) vs ->
  StronglySorted lt (map fst sm) -> (forall y, In y (map fst sm) -> (i <= y < i + List.length vs)%nat) ->
  gmap D ps (fun '(retval, sm_it) idx tmp =>
         match sm_it with
         | (j, x) :: sm' =>
             if (j =? idx)%nat
             then pw <- vpow x tmp ;; Ok ((vmul retval pw, sm'), 0)
             else Ok ((retval, sm_it), tmp)
         | [] => Ok ((retval, sm_it), tmp)
         end) vs i (acc, sm) =
  (r <- rfold (pstep vmul vpow) (sub_pairs sm i vs) acc ;; Ok ((r, []), zero_from (map fst sm) i vs)).
Proof.
  pose proof dzero_comp as Z0. apply comp_okb_iff in Z0.
  induction vs as [|v vs IH]; intros i sm acc Fv S H.
  - destruct sm as [|[j x] sm]; [reflexivity|].
    exfalso. specialize (H j (or_introl eq_refl)). cbn [List.length] in H. lia.
  - inversion Fv; subst. cbn [gmap]. rewrite zero_from_cons. pose proof H2 as H2'. apply comp_okb_iff in H2'.
    destruct sm as [|[j x] sm].
    + cbn [bind]. rewrite H2', IH; auto. intros y [].
    + cbn [map fst] in S, H. pose proof (sorted_gt _ _ S) as [S' Hj].
      destruct (Nat.eqb_spec j i) as [->|Hne].
      * cbn [sub_pairs map fst snd]. rewrite Nat.sub_diag. change (nth 0 (v :: vs) 0) with v. cbn [rfold]. unfold pstep at 1. cbn [fst snd].
        destruct (vpow x v) as [pw| |]; cbn [bind]; auto. rewrite Z0, IH; auto.
        -- assert (mem i (i :: map fst sm) = true) as -> by (apply mem_in; left; auto).
           assert (SP : sub_pairs sm (Datatypes.S i) vs = map (fun p => (snd p, nth (fst p - i) (v :: vs) 0)) sm).
           { unfold sub_pairs. apply map_ext_in. intros [q y] Iq. cbn [fst snd].
             assert (i < q)%nat by (apply Hj; apply in_map_iff; exists (q, y); auto).
             replace (q - i)%nat with (Datatypes.S (q - Datatypes.S i)) by lia. reflexivity. }
           rewrite <- SP. destruct (rfold _ _ _); cbn [bind]; auto.
           rewrite (zero_from_ext (i :: map fst sm) (map fst sm)); [reflexivity|].
           intros q Hq. unfold mem. cbn [existsb]. destruct (Nat.eqb_spec q i); [lia|]. reflexivity.
        -- intros y Hy. specialize (Hj _ Hy). specialize (H _ (or_intror Hy)). cbn [List.length] in H. lia.
      * assert (i < j)%nat by (assert (i <= j)%nat by (apply H; left; auto); lia).
        cbn [bind]. rewrite H2', IH; auto.
        -- assert (mem i (map fst ((j, x) :: sm)) = false) as ->.
           { apply mem_small. intros y [<-|Hy]; [exact H0|]. specialize (Hj _ Hy). lia. }
           assert (SP : sub_pairs ((j, x) :: sm) (Datatypes.S i) vs = sub_pairs ((j, x) :: sm) i (v :: vs)).
           { unfold sub_pairs. apply map_ext_in. intros [q y] Iq. cbn [fst snd].
             assert (i < q)%nat by (destruct Iq as [E|Iq]; [inversion E; subst; auto|]; assert (j < q)%nat by (apply Hj; apply in_map_iff; exists (q, y); auto); lia).
             replace (q - i)%nat with (Datatypes.S (q - Datatypes.S i)) by lia. reflexivity. }
           rewrite SP. destruct (rfold _ _ _); cbn [bind]; auto.
        -- intros y Hy. pose proof (H _ Hy) as HB. cbn [List.length] in HB. destruct Hy as [<-|Hy]; [cbn [fst] in *; lia|]. specialize (Hj _ Hy). lia.
Qed.

Lemma dsubs_ok {V U} (vone : V) (vmul : V -> V -> V) (vpow : U -> Z -> res V) ss d vs (sm : symbol_idx_map U) :
  drepresents D ps (List.length ss) d vs ->
  StronglySorted lt (map fst sm) -> (forall y, In y (map fst sm) -> (y < List.length ss)%nat) ->
  dpm_subs D ps vone vmul vpow d sm ss =
  (r <- rfold (pstep vmul vpow) (map (fun q => (snd q, nth (fst q) vs 0)) sm) vone ;;
   Ok (r, dcode D ps (zero_at (map fst sm) vs))) /\
  drepresents D ps (List.length ss) (dcode D ps (zero_at (map fst sm) vs)) (zero_at (map fst sm) vs).
Proof.
  intros R S H. pose proof R as (L & C & Ed). split.
  - unfold dpm_subs. rewrite (repack_lt D ps _ d vs) by auto. unfold symbol_idx_map in *.
    rewrite gmap_subs; auto.
    2:{ intros y Hy. specialize (H _ Hy). lia. }
    unfold sub_pairs.
    rewrite (map_ext (fun p0 : nat * U => (snd p0, nth (fst p0 - 0) vs 0)) (fun q => (snd q, nth (fst q) vs 0)))
          by (intros [q y]; cbn [fst snd]; rewrite Nat.sub_0_r; reflexivity).
    destruct (rfold _ _ _); cbn [bind]; auto.
  - repeat split; auto.
    + unfold zero_at. rewrite map_length, combine_length, seq_length. lia.
    + apply (zero_at_ok D ps HD G (map fst sm) vs 0). exact C.
Qed.

(** * Trimming *)
Lemma dident_ok ss d vs v : drepresents D ps (List.length ss) d vs -> List.length v = List.length ss ->
  dpm_trim_identify D ps v d ss = Ok (trim_flags v vs).
Proof.
  intros R L. unfold dpm_trim_identify. rewrite (read_lt D ps _ d vs) by auto.
  apply (identify_loop vs v []). destruct R as (L' & _). lia.
Qed.

Lemma dtrim_loop : forall vs i si out, StronglySorted lt si -> (forall y, In y si -> (i <= y)%nat) ->
  exists rest,
  rfoldi (fun '(tmp_v, si_it) idx tmp =>
         match si_it with
         | j :: si' => if (j =? idx)%nat then Ok (tmp_v, si') else Ok (tmp_v ++ [tmp], si_it)
         | [] => Ok (tmp_v ++ [tmp], si_it)
         end) vs i (out, si) = Ok (out ++ select_from (fun j => negb (mem j si)) i vs, rest).
Proof.
  induction vs as [|v vs IH]; intros i si out S H.
  - exists si. cbn. rewrite app_nil_r. reflexivity.
  - cbn [rfoldi]. rewrite select_from_cons. destruct si as [|j si].
    + change (negb (mem i [])) with true. cbv iota. cbn [bind].
      destruct (IH (Datatypes.S i) [] (out ++ [v])) as (rest & R); [constructor|intros y []|].
      exists rest. rewrite R. rewrite <- app_assoc. reflexivity.
    + pose proof (sorted_gt _ _ S) as [S' Hj].
      destruct (Nat.eqb_spec j i) as [->|Hne].
      * cbn [bind]. assert (mem i (i :: si) = true) as -> by (apply mem_in; left; auto). cbn [negb].
        destruct (IH (Datatypes.S i) si out S') as (rest & R).
        { intros y Hy. apply Hj in Hy. lia. }
        exists rest. rewrite R.
        rewrite (select_from_ext (fun j => negb (mem j (i :: si))) (fun j => negb (mem j si))); [reflexivity|].
        intros q Hq. f_equal. unfold mem. cbn. destruct (Nat.eqb_spec q i); [lia|]. reflexivity.
      * assert (i < j)%nat by (assert (i <= j)%nat by (apply H; left; auto); lia).
        rewrite mem_small by (intros y [->|Hy]; [lia|apply Hj in Hy; lia]). cbn [negb bind].
        destruct (IH (Datatypes.S i) (j :: si) (out ++ [v]) S) as (rest & R).
        { intros y [->|Hy]; [lia|apply Hj in Hy; lia]. }
        exists rest. rewrite R. rewrite <- app_assoc. reflexivity.
Qed.

Lemma values_of_comps vs : Forall (comp_ok D ps) vs -> Forall (has_value (kd_ty D)) vs.
Proof.
  intros F. eapply Forall_impl; [|exact F]. intros a Ha. pose proof (comp_in_ity D ps a HD G Ha) as I.
  unfold in_ity in I. apply andb_true_iff in I. rewrite !Z.leb_le in I. apply hv_unfold. exact I.
Qed.

Lemma of_range_fits vs : Forall (comp_ok D ps) vs -> dpm_of_range D ps (kd_ty D) vs = Ok (dcode D ps vs).
Proof.
  intros F. pose proof (of_range_ok D ps (kd_ty D) vs HD G (D_integral _ HD) (values_of_comps vs F)) as C.
  unfold construct_spec in C. apply fits_iff in F. rewrite F in C. exact C.
Qed.

Lemma dtrim_ok ss d vs si : drepresents D ps (List.length ss) d vs ->
  StronglySorted lt si -> (forall y, In y si -> (y < List.length ss)%nat) ->
  exists r, dpm_trim D ps d si ss = Ok r /\
    drepresents D ps (List.length ss - List.length si) r (select (fun j => negb (mem j si)) vs).
Proof.
  intros R S H. pose proof R as (L & C & _). unfold dpm_trim. rewrite (read_lt D ps _ d vs) by auto.
  destruct (dtrim_loop vs 0 si [] S ltac:(intros; lia)) as (rest & T). unfold symbol_idx_set, symbol_idx in *. rewrite T. cbn [bind app].
  assert (F : Forall (comp_ok D ps) (select_from (fun j => negb (mem j si)) 0 vs)) by (apply select_Forall; exact C).
  rewrite of_range_fits by exact F. eexists. split; [reflexivity|]. repeat split; auto.
  rewrite <- L. apply (select_from_len vs 0 si); auto. intros y Hy. apply H in Hy. lia.
Qed.

(** * Symbol merging *)
Lemma map_zero_repeat {A} (l : list A) : map (fun _ => 0) l = repeat 0 (List.length l).
Proof. induction l; [reflexivity|]. cbn. f_equal. exact IHl. Qed.

Lemma dmerge_loop : forall vs i (m : list (nat * list string)) out,
  StronglySorted lt (map fst m) -> (forall j, In j (map fst m) -> (i <= j <= i + List.length vs)%nat) ->
  ('(tmp_v, map_it) <- rfoldi (fun '(tmp_v, map_it) idx tmp =>
         let '(tmp_v', map_it') :=
           match map_it with
           | (j, syms) :: rest =>
               if (j =? idx)%nat then (tmp_v ++ repeat 0 (List.length syms), rest) else (tmp_v, map_it)
           | [] => (tmp_v, map_it)
           end in
         Ok (tmp_v' ++ [tmp], map_it')) vs i (out, m) ;;
   Ok (match map_it with [] => tmp_v | (_, syms) :: _ => tmp_v ++ repeat 0 (List.length syms) end))
  = Ok (out ++ insert_all (fun j => map (fun _ => 0) (ins_at m j)) i vs).
Proof.
  induction vs as [|v vs IH]; intros i m out S H.
  - cbn [rfoldi insert_all bind]. destruct m as [|[j syms] m]; [cbn; rewrite app_nil_r; reflexivity|].
    assert (j = i). { specialize (H j (or_introl eq_refl)). cbn [List.length] in H. lia. } subst j.
    rewrite ins_at_cons_eq, map_zero_repeat. reflexivity.
  - cbn [rfoldi insert_all]. cbn [List.length] in H. destruct m as [|[j syms] m].
    + cbn [bind]. change (ins_at ([] : list (nat * list string)) i) with (@nil string). cbn [map app].
      rewrite IH; [|constructor|intros j []]. rewrite <- app_assoc. reflexivity.
    + cbn [map fst] in S, H. pose proof (sorted_gt _ _ S) as [S' Hj].
      destruct (Nat.eqb_spec j i) as [->|Hne].
      * cbn [bind]. rewrite IH; auto.
        -- rewrite ins_at_cons_eq, map_zero_repeat. rewrite <- !app_assoc. cbn [app]. do 4 f_equal.
           apply insert_all_ext. intros q Hq. rewrite ins_at_cons_ne by lia. reflexivity.
        -- intros q Hq. specialize (Hj _ Hq). specialize (H _ (or_intror Hq)). lia.
      * assert (i < j)%nat by (specialize (H j (or_introl eq_refl)); lia).
        rewrite ins_at_none by (intros q [<-|Hq]; [exact H0|specialize (Hj _ Hq); lia]).
        cbn [bind map app]. rewrite IH; auto; [rewrite <- app_assoc; reflexivity|].
        intros q Hq. pose proof (H _ Hq). destruct Hq as [<-|Hq]; [cbn [fst] in *; lia|]. specialize (Hj _ Hq). lia.
Qed.

Lemma insert_all_Forall {A} (P : A -> Prop) (f : nat -> list A) : forall l i, Forall P l -> (forall j, Forall P (f j)) -> Forall P (insert_all f i l).
Proof.
  induction l as [|x l IH]; intros i F H; cbn [insert_all]; auto. inversion F; subst. apply Forall_app. split; auto.
Qed.

Lemma dmerge_ok s d vs (m : symbol_idx_map symbol_set) : drepresents D ps (List.length s) d vs -> ins_map_ok (List.length s) m ->
  dpm_merge_symbols D ps d m s = Ok (dcode D ps (insert_zeros m vs)) /\
  drepresents D ps (List.length (insert_zeros m vs)) (dcode D ps (insert_zeros m vs)) (insert_zeros m vs).
Proof.
  intros R [S F]. pose proof R as (L & C & _).
  assert (Fz : Forall (comp_ok D ps) (insert_zeros m vs)).
  { apply insert_all_Forall; auto. intros j. apply Forall_forall. intros x I. apply in_map_iff in I as (y & <- & _). apply dzero_comp. }
  split; [|apply dcode_drep; exact Fz].
  unfold dpm_merge_symbols. rewrite (read_lt D ps _ d vs) by auto.
  assert (Hpos : forall j, In j (map fst m) -> (0 <= j <= 0 + List.length vs)%nat).
  { intros j Hj. apply in_map_iff in Hj as ([j' x] & <- & I). rewrite Forall_forall in F. destruct (F _ I) as [F1 _]. cbn [fst] in *. lia. }
  pose proof (dmerge_loop vs 0 m [] S Hpos) as ML. unfold symbol_idx_map, symbol_set, symbol_idx in *.
  match type of ML with bind ?x _ = _ => destruct x as [[tv mi]| |]; cbn [bind] in ML |- *; try discriminate end.
  injection ML as ML. cbn zeta. rewrite ML. cbn [app]. apply of_range_fits. exact Fz.
Qed.
End G.
