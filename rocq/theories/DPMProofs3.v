From Coq Require Import ZArith List Bool String Lia Sorted Arith.
From Verif Require Import Base KpackTables KpackModel KpackSpec KpackProofs IntModel IntSpec IntProofs
  SymModel SymSpec SymProofs PMonModel PMonSpec PMonProofs PMonProofs2 DPMModel DPMSpec DPMProofs DPMProofs2.
Import ListNotations.
Open Scope Z_scope.

Section G.
Context (D : kdata) (ps : nat) (HD : packable D) (G : good_size D ps).
Let OK := packable_ok D HD.
Let G1 : (1 <= ps)%nat := proj1 G.

(** * Degree *)
Lemma of_type_hv z : of_type D z <-> has_value (kd_ty D) z.
Proof. unfold of_type. split; intro H; apply hv_unfold; exact H. Qed.
Lemma of_type_in z : of_type D z <-> in_ity (kd_ty D) z = true.
Proof. unfold of_type, in_ity. rewrite andb_true_iff, !Z.leb_le. reflexivity. Qed.
Lemma of_type_0 : of_type D 0.
Proof. apply of_type_in. destruct HD as [->|[->|[->| ->]]]; reflexivity. Qed.

Definition psok (acc : Z) (vs : list Z) : Prop := forall k, (k <= List.length vs)%nat -> of_type D (acc + vsum (firstn k vs)).
Lemma psok_cons acc v vs : psok acc (v :: vs) <-> of_type D acc /\ psok (acc + v) vs.
Proof.
  unfold psok. split.
  - intros H. split.
    + specialize (H O ltac:(lia)). cbn in H. rewrite Z.add_0_r in H. exact H.
    + intros k Hk. specialize (H (S k) ltac:(cbn; lia)). cbn [firstn vsum fold_right] in H. fold (vsum (firstn k vs)) in H.
      rewrite Z.add_assoc in H. exact H.
  - intros [H0 H] [|k] Hk; [cbn; rewrite Z.add_0_r; exact H0|]. cbn [firstn vsum fold_right]. fold (vsum (firstn k vs)).
    rewrite Z.add_assoc. apply H. cbn in Hk. lia.
Qed.

Lemma ddeg_loop : forall vs i acc, Forall (comp_ok D ps) vs -> of_type D acc ->
  (psok acc vs -> rfoldi (fun retval _ tmp => safe_int_add true (kd_ty D) retval tmp) vs i acc = Ok (acc + vsum vs)) /\
  (~ psok acc vs -> rfoldi (fun retval _ tmp => safe_int_add true (kd_ty D) retval tmp) vs i acc = Throw overflow_error).
Proof.
  induction vs as [|v vs IH]; intros i acc F A.
  - split; [intros _; cbn; rewrite Z.add_0_r; reflexivity|]. intros N. exfalso. apply N. intros k Hk. destruct k; [|cbn in Hk; lia].
    cbn. rewrite Z.add_0_r. exact A.
  - inversion F; subst. rewrite psok_cons. cbn [rfoldi].
    rewrite safe_int_add_spec; [|apply D_integral; auto|apply of_type_hv; auto|].
    2:{ pose proof (values_of_comps D ps HD G (v :: nil) (Forall_cons _ H1 (Forall_nil _))) as V. inversion V; auto. }
    destruct (in_ity (kd_ty D) (acc + v)) eqn:E.
    + apply of_type_in in E. cbn [bind]. destruct (IH (S i) (acc + v) H2 E) as [I1 I2]. split.
      * intros [_ P]. rewrite I1 by exact P. cbn [vsum fold_right]. fold (vsum vs). f_equal. lia.
      * intros N. apply I2. tauto.
    + split; [|reflexivity]. intros [_ P]. exfalso. specialize (P O ltac:(lia)). cbn in P. rewrite Z.add_0_r in P.
      apply of_type_in in P. congruence.
Qed.

Lemma psok_0 vs : psok 0 vs <-> partial_sums_ok D vs.
Proof. reflexivity. Qed.

Lemma ddeg_ok ss d vs : drepresents D ps (List.length ss) d vs ->
  (partial_sums_ok D vs -> dpm_degree D ps d ss = Ok (vsum vs)) /\
  (~ partial_sums_ok D vs -> dpm_degree D ps d ss = Throw overflow_error).
Proof.
  intros R. unfold dpm_degree. rewrite (read_lt D ps _ d vs) by auto. destruct R as (L & C & _).
  destruct (ddeg_loop vs 0 0 C of_type_0) as [A B]. split; [intros P; exact (A P)|intros N; exact (B N)].
Qed.

Lemma pdeg_rfoldc n : forall vs i si acc, StronglySorted lt si -> (forall y, In y si -> (i <= y)%nat) -> (i + List.length vs <= n)%nat ->
  exists b, rfoldc (fun '(_, si_it) idx => (idx <? n)%nat && negb (Nat.eqb (List.length si_it) 0))
      (fun '(retval, si_it) idx tmp =>
         match si_it with
         | j :: si' =>
             if (idx =? j)%nat then r <- safe_int_add true (kd_ty D) retval tmp ;; Ok (r, si') else Ok (retval, si_it)
         | [] => UB
         end) vs i (acc, si) =
  (r <- rfoldi (fun retval _ tmp => safe_int_add true (kd_ty D) retval tmp) (select_from (fun j => mem j si) i vs) 0 acc ;; Ok (fst b, (r, snd b))).
Proof.
  assert (IDX : forall (ws : list Z) i j acc, rfoldi (fun retval _ tmp => safe_int_add true (kd_ty D) retval tmp) ws i acc =
    rfoldi (fun retval _ tmp => safe_int_add true (kd_ty D) retval tmp) ws j acc).
  { induction ws as [|w ws IHw]; intros i j acc; cbn [rfoldi]; [reflexivity|]. destruct (safe_int_add _ _ acc w); cbn [bind]; auto. }
  induction vs as [|v vs IH]; intros i si acc S H L.
  - exists (i, si). reflexivity.
  - cbn [rfoldc List.length] in *. replace (i <? n)%nat with true by (symmetry; apply Nat.ltb_lt; lia). cbn [andb].
    rewrite select_from_cons. destruct si as [|j si].
    + cbn [List.length Nat.eqb negb]. change (mem i []) with false. cbv iota. rewrite select_from_none by reflexivity. cbn [rfoldi bind].
      exists (i, []). reflexivity.
    + cbn [List.length Nat.eqb negb]. pose proof (sorted_gt _ _ S) as [S' Hj].
      destruct (Nat.eqb_spec i j) as [->|Hne].
      * assert (mem j (j :: si) = true) as -> by (apply mem_in; left; auto).
        cbn [rfoldi]. destruct (safe_int_add true (kd_ty D) acc v) as [r| |]; cbn [bind]; [|exists (0%nat,[]); reflexivity|exists (0%nat,[]); reflexivity].
        destruct (IH (Datatypes.S j) si r S') as (b & Eb); [intros y Hy; apply Hj in Hy; lia|lia|].
        exists b. rewrite Eb. rewrite (IDX _ 1%nat 0%nat).
        rewrite (select_from_ext (fun q => mem q (j :: si)) (fun q => mem q si)); [reflexivity|].
        intros q Hq. unfold mem. cbn. destruct (Nat.eqb_spec q j); [lia|reflexivity].
      * assert (i < j)%nat by (assert (i <= j)%nat by (apply H; left; auto); lia).
        rewrite mem_small by (intros y [->|Hy]; [lia|apply Hj in Hy; lia]). cbn [bind].
        apply IH; auto; [|lia]. intros y [->|Hy]; [lia|apply Hj in Hy; lia].
Qed.

Lemma dpdeg_ok ss d vs si : drepresents D ps (List.length ss) d vs -> StronglySorted lt si ->
  (partial_sums_ok D (select (fun j => mem j si) vs) -> dpm_p_degree D ps d si ss = Ok (vsum (select (fun j => mem j si) vs))) /\
  (~ partial_sums_ok D (select (fun j => mem j si) vs) -> dpm_p_degree D ps d si ss = Throw overflow_error).
Proof.
  intros (L & C & ->) S. unfold dpm_p_degree.
  rewrite (read_pure D ps (List.length ss) _ _ (fun _ _ => True) HD G); auto.
  2:{ intros [a s] i _ E. apply andb_true_iff in E as [E _]. apply Nat.ltb_lt in E. exact E. }
  destruct (pdeg_rfoldc (List.length ss) vs 0 si 0 S ltac:(intros; lia) ltac:(lia)) as (b & Eb).
  unfold symbol_idx_set, symbol_idx in *. rewrite Eb.
  change (select_from (fun j => mem j si) 0 vs) with (select (fun j => mem j si) vs).
  assert (F : Forall (comp_ok D ps) (select (fun j => mem j si) vs)) by (apply (select_Forall _ _ vs 0); exact C).
  destruct (ddeg_loop _ 0 0 F of_type_0) as [A B]. split.
  - intros P. rewrite (A P). reflexivity.
  - intros P. rewrite (B P). reflexivity.
Qed.

(** * The overflow check *)
Definition gentry (P : list Z -> Prop) (f : list Z -> Z) (e : Z * Z) : Prop :=
  (exists vs, P vs /\ f vs = snd e) /\ (forall vs, P vs -> f vs <= snd e) /\
  (sgnd (kd_ty D) = true ->
   (exists vs, P vs /\ f vs = fst e) /\ (forall vs, P vs -> fst e <= f vs)).
Definition dlims_ok (n : nat) (P : list Z -> Prop) (s : dlims) : Prop :=
  List.length (fst s) = n /\ (forall i, (i < n)%nat -> gentry P (fun vs => nth i vs 0) (nth i (fst s) (0, 0))) /\
  gentry P vsum (snd s).

Lemma gentry_ext (P Q : list Z -> Prop) f e : (forall vs, P vs <-> Q vs) -> gentry P f e -> gentry Q f e.
Proof.
  intros H ((w & A & B) & C & S). split; [exists w; split; [apply H; auto|auto]|].
  split; [intros; apply C, H; auto|]. intros SG. destruct (S SG) as ((w2 & A2 & B2) & C2).
  split; [exists w2; split; [apply H; auto|auto]|]. intros; apply C2, H; auto.
Qed.
Lemma dlims_ext n (P Q : list Z -> Prop) s : (forall vs, P vs <-> Q vs) -> dlims_ok n P s -> dlims_ok n Q s.
Proof. intros H (L & E & Dg). split; [exact L|]. split; [intros i Hi|]; eapply gentry_ext; eauto. Qed.

Lemma gentry_one vs f : gentry (fun ws => ws = vs) f (f vs, f vs).
Proof.
  split; [exists vs; auto|]. split; [intros ws ->; cbn; lia|]. intros _. split; [exists vs; auto|intros ws ->; cbn; lia].
Qed.

Lemma gentry_update P f e vs : gentry P f e -> gentry (fun ws => P ws \/ ws = vs) f (dpm_update_entry D e (f vs)).
Proof.
  intros ((w1 & P1 & E1) & U1 & SG). unfold dpm_update_entry.
  assert (MX : (exists ws, (P ws \/ ws = vs) /\ f ws = Z.max (snd e) (f vs)) /\
               (forall ws, P ws \/ ws = vs -> f ws <= Z.max (snd e) (f vs))).
  { split.
    - destruct (Z.max_spec (snd e) (f vs)) as [[_ ->]|[_ ->]]; [exists vs|exists w1]; auto.
    - intros ws [Hw| ->]; [specialize (U1 _ Hw)|]; lia. }
  destruct (sgnd (kd_ty D)) eqn:S.
  - destruct (SG eq_refl) as ((w2 & P2 & E2) & U2).
    split; [exact (proj1 MX)|]. split; [exact (proj2 MX)|]. intros _. cbn [fst]. split.
    + destruct (Z.min_spec (fst e) (f vs)) as [[_ ->]|[_ ->]]; [exists w2|exists vs]; auto.
    + intros ws [Hw| ->]; [specialize (U2 _ Hw)|]; lia.
  - split; [exact (proj1 MX)|]. split; [exact (proj2 MX)|]. congruence.
Qed.

Lemma gentry_join P Q f e1 e2 : gentry P f e1 -> gentry Q f e2 -> gentry (fun ws => P ws \/ Q ws) f (dpm_join_entry D e1 e2).
Proof.
  intros ((w1 & P1 & E1) & U1 & S1) ((w2 & P2 & E2) & U2 & S2). unfold dpm_join_entry.
  assert (MX : (exists ws, (P ws \/ Q ws) /\ f ws = Z.max (snd e1) (snd e2)) /\
               (forall ws, P ws \/ Q ws -> f ws <= Z.max (snd e1) (snd e2))).
  { split.
    - destruct (Z.max_spec (snd e1) (snd e2)) as [[_ ->]|[_ ->]]; [exists w2|exists w1]; auto.
    - intros ws [Hw|Hw]; [specialize (U1 _ Hw)|specialize (U2 _ Hw)]; lia. }
  destruct (sgnd (kd_ty D)) eqn:S.
  - destruct (S1 eq_refl) as ((w3 & P3 & E3) & U3). destruct (S2 eq_refl) as ((w4 & P4 & E4) & U4).
    split; [exact (proj1 MX)|]. split; [exact (proj2 MX)|]. intros _. cbn [fst]. split.
    + destruct (Z.min_spec (fst e1) (fst e2)) as [[_ ->]|[_ ->]]; [exists w3|exists w4]; auto.
    + intros ws [Hw|Hw]; [specialize (U3 _ Hw)|specialize (U4 _ Hw)]; lia.
  - split; [exact (proj1 MX)|]. split; [exact (proj2 MX)|]. congruence.
Qed.

Lemma dinit_loop : forall vs i l deg, rfoldi (fun '(l, deg) (_ : nat) tmp => Ok (l ++ [(tmp, tmp)], deg + tmp)) vs i (l, deg)
  = Ok (l ++ map (fun v : Z => (v, v)) vs, deg + vsum vs).
Proof.
  induction vs as [|v vs IH]; intros i l deg; cbn [rfoldi map].
  - rewrite app_nil_r. cbn. rewrite Z.add_0_r. reflexivity.
  - cbn [bind]. rewrite IH, <- app_assoc. cbn [vsum fold_right]. fold (vsum vs). rewrite Z.add_assoc. reflexivity.
Qed.

Lemma dinit_ok n d vs : drepresents D ps n d vs ->
  exists s, dpm_init_limits D ps n d = Ok s /\ dlims_ok n (fun ws => ws = vs) s.
Proof.
  intros R. unfold dpm_init_limits. rewrite (read_lt D ps _ d vs) by auto. destruct R as (L & _).
  unfold lims. rewrite dinit_loop. cbn [bind app]. eexists. split; [reflexivity|].
  split; [cbn [fst]; rewrite map_length; exact L|]. split; [intros i Hi|].
  - cbn [fst]. assert (nth i (map (fun v : Z => (v, v)) vs) (0,0) = (nth i vs 0, nth i vs 0)) as -> by exact (map_nth (fun v => (v, v)) vs 0 i).
    apply (gentry_one vs (fun ws => nth i ws 0)).
  - cbn [snd]. rewrite Z.add_0_l. apply gentry_one.
Qed.

Lemma dupd_loop (g : Z * Z -> Z -> Z * Z) : forall vs l done deg, List.length l = List.length vs ->
  rfoldi (fun '(l, deg) i tmp => l' <- upd_nth l i (fun e => g e tmp) ;; Ok (l', deg + tmp)) vs (List.length done) (done ++ l, deg)
  = Ok (done ++ map (fun p => g (fst p) (snd p)) (combine l vs), deg + vsum vs).
Proof.
  induction vs as [|x vs IH]; intros [|e l] done deg L; try discriminate; [cbn; rewrite Z.add_0_r; reflexivity|].
  cbn [rfoldi]. cbn [List.length] in L. rewrite upd_nth_app. cbn [bind].
  specialize (IH l (done ++ [g e x])). rewrite app_length in IH. cbn [List.length] in IH. rewrite Nat.add_1_r in IH.
  rewrite <- app_assoc in IH. cbn [app] in IH. rewrite IH by lia. rewrite <- app_assoc.
  cbn [vsum fold_right]. fold (vsum vs). rewrite Z.add_assoc. reflexivity.
Qed.

Lemma dupdate_ok n P s d vs : drepresents D ps n d vs -> dlims_ok n P s ->
  exists s', dpm_update_limits D ps n s d = Ok s' /\ dlims_ok n (fun ws => P ws \/ ws = vs) s'.
Proof.
  intros R (L & E & Dg). destruct s as [l dl]. cbn [fst snd] in *. unfold dpm_update_limits.
  rewrite (read_lt D ps _ d vs) by auto. destruct R as (Lv & _).
  unfold lims in *. pose proof (dupd_loop (dpm_update_entry D) vs l [] 0 ltac:(lia)) as U. cbn [List.length app] in U. rewrite U.
  cbn [bind]. eexists. split; [reflexivity|]. split; [|split].
  - cbn [fst]. rewrite map_length, combine_length. lia.
  - intros i Hi. cbn [fst]. rewrite (nth_combine_map (dpm_update_entry D) (0,0) (0,0) 0) by lia.
    apply (gentry_update P (fun ws => nth i ws 0)). apply E. exact Hi.
  - cbn [snd]. rewrite Z.add_0_l. apply gentry_update. exact Dg.
Qed.

Definition dexps (n : nat) (r : list dpm) : list Z -> Prop := fun vs => exists p, In p r /\ drepresents D ps n p vs.
Definition dall_rep (n : nat) (r : list dpm) : Prop := Forall (fun p => exists vs, drepresents D ps n p vs) r.

Lemma dserial_ok n : forall r P s, dall_rep n r -> dlims_ok n P s ->
  exists s', rfold (dpm_update_limits D ps n) r s = Ok s' /\ dlims_ok n (fun ws => P ws \/ dexps n r ws) s'.
Proof.
  induction r as [|p r IH]; intros P l A Hl.
  - exists l. split; [reflexivity|]. eapply dlims_ext; [|exact Hl]. intros vs. split; auto. intros [H|(p & [] & _)]; auto.
  - inversion A; subst. destruct H1 as (vs & R). cbn [rfold].
    destruct (dupdate_ok n P l p vs R Hl) as (l1 & E & Hl1). rewrite E. cbn [bind].
    destruct (IH _ l1 H2 Hl1) as (l' & E' & Hl'). exists l'. split; auto.
    eapply dlims_ext; [|exact Hl']. intros ws. split.
    + intros [[H| ->]|(q & I & Rq)]; auto; right; [exists p|exists q]; split; auto; [left; auto|right; auto].
    + intros [H|(q & [<-|I] & Rq)]; auto.
      * left. right. symmetry. eapply drep_unique; eauto.
      * right. exists q. auto.
Qed.

Lemma djoin_ok n : forall P Q s1 s2, dlims_ok n P s1 -> dlims_ok n Q s2 ->
  exists s, dpm_join D n s1 s2 = Ok s /\ dlims_ok n (fun ws => P ws \/ Q ws) s.
Proof.
  intros P Q [l1 d1] [l2 d2] (L1 & E1 & D1) (L2 & E2 & D2). cbn [fst snd] in *.
  assert (J : dpm_join_lims D n l1 l2 = Ok (map (fun p => dpm_join_entry D (fst p) (snd p)) (combine l1 l2))).
  { clear E1 E2. revert l1 l2 L1 L2. induction n as [|k IH]; intros [|e1 l1] [|e2 l2] L1 L2; try discriminate; [reflexivity|].
    cbn [dpm_join_lims]. cbn [List.length] in *. rewrite IH by lia. reflexivity. }
  unfold dpm_join. cbn [fst snd]. rewrite J. cbn [bind]. eexists. split; [reflexivity|]. split; [|split]; cbn [fst snd].
  - rewrite map_length, combine_length; lia.
  - intros i Hi. rewrite (nth_combine_map (dpm_join_entry D) (0,0) (0,0) (0,0)) by lia. apply gentry_join; auto.
  - apply gentry_join; auto.
Qed.

Lemma dexps_app n a b ws : dexps n (a ++ b) ws <-> dexps n a ws \/ dexps n b ws.
Proof.
  unfold dexps. split.
  - intros (p & I & R). apply in_app_or in I as [I|I]; [left|right]; exists p; auto.
  - intros [(p & I & R)|(p & I & R)]; exists p; split; auto; apply in_or_app; auto.
Qed.

Lemma dpar_ok n f : forall i v l r,
  dpar_reduce (dpm_update_limits D ps n) (dpm_join D n) i v l r ->
  dlims_ok n (fun ws => ws = f) i -> dall_rep n l ->
  forall P : list Z -> Prop, P f -> dlims_ok n P v -> dlims_ok n (fun ws => P ws \/ dexps n l ws) r.
Proof.
  intros i v l r H. induction H as [v l r E|v l1 l2 v1 r H1 IH1 H2 IH2|v l1 l2 v1 v2 r H1 IH1 H2 IH2 J];
    intros Hi A P Pf Hv.
  - destruct (dserial_ok n l P v A Hv) as (l' & E' & Hl'). rewrite E in E'. inversion E'; subst. exact Hl'.
  - apply Forall_app in A as [A1 A2].
    specialize (IH2 Hi A2 (fun ws => P ws \/ dexps n l1 ws) (or_introl Pf) (IH1 Hi A1 P Pf Hv)).
    eapply dlims_ext; [|exact IH2]. intros ws. rewrite dexps_app. tauto.
  - apply Forall_app in A as [A1 A2].
    specialize (IH1 Hi A1 P Pf Hv). specialize (IH2 Hi A2 (fun ws => ws = f) eq_refl Hi).
    destruct (djoin_ok n _ _ _ _ IH1 IH2) as (l & E & Hl). rewrite J in E. inversion E; subst.
    eapply dlims_ext; [|exact Hl]. intros ws. rewrite dexps_app. split; [|tauto].
    intros [[K|K]|[K|K]]; auto. subst. auto.
Qed.

Definition pair_ok (vs ws : list Z) : Prop :=
  Forall (comp_ok D ps) (vadd vs ws) /\ of_type D (vsum vs + vsum ws).

Lemma nonneg_sum vs : sgnd (kd_ty D) = false -> Forall (comp_ok D ps) vs -> 0 <= vsum vs.
Proof.
  intros S F. induction F; [cbn; lia|]. cbn [vsum fold_right]. fold (vsum l). unfold comp_ok, lo in H. rewrite S in H. lia.
Qed.

Lemma dfinal_ok n (P Q : list Z -> Prop) s1 s2 :
  (forall vs, P vs -> List.length vs = n /\ Forall (comp_ok D ps) vs) ->
  (forall vs, Q vs -> List.length vs = n /\ Forall (comp_ok D ps) vs) ->
  dlims_ok n P s1 -> dlims_ok n Q s2 ->
  exists b, dpm_final_check D ps n s1 s2 = Ok b /\ (b = true <-> forall vs ws, P vs -> Q ws -> pair_ok vs ws).
Proof.
  intros HP HQ (L1 & E1 & D1) (L2 & E2 & D2). unfold dpm_final_check.
  rewrite get_lims by auto. cbn [bind].
  destruct (check_sums_ok D (lo D ps) (lim D ps) n (fst s1) (fst s2) L1 L2) as (b & Eb & Hb). rewrite Eb. cbn [bind].
  assert (COMP : b = true <-> forall vs ws, P vs -> Q ws -> Forall (comp_ok D ps) (vadd vs ws)).
  { rewrite Hb. split.
    - intros H vs ws Pv Qw. destruct (HP _ Pv) as [Lv Cv]. destruct (HQ _ Qw) as [Lw Cw].
      apply Forall_forall. intros x I. apply (In_nth _ _ 0) in I as (i & Hi & <-).
      rewrite vadd_length in Hi by lia. rewrite vadd_nth by lia.
      assert (Hi' : (i < n)%nat) by lia.
      destruct (E1 i Hi') as (_ & U1 & S1). destruct (E2 i Hi') as (_ & U2 & S2). destruct (H i Hi') as [HM HS].
      specialize (U1 _ Pv). specialize (U2 _ Qw). cbn beta in *.
      split; [|lia]. unfold lo in *. destruct (sgnd (kd_ty D)) eqn:SG.
      + destruct (S1 eq_refl) as (_ & V1). destruct (S2 eq_refl) as (_ & V2). specialize (HS eq_refl). specialize (V1 _ Pv). specialize (V2 _ Qw). lia.
      + rewrite Forall_forall in Cv, Cw. assert (comp_ok D ps (nth i vs 0)) by (apply Cv, nth_In; lia).
        assert (comp_ok D ps (nth i ws 0)) by (apply Cw, nth_In; lia). unfold comp_ok, lo in *. rewrite SG in *. lia.
    - intros H i Hi. destruct (E1 i Hi) as ((v1 & P1 & M1) & _ & S1). destruct (E2 i Hi) as ((w1 & Q1 & N1) & _ & S2).
      assert (GETC : forall vs ws, P vs -> Q ws -> comp_ok D ps (nth i vs 0 + nth i ws 0)).
      { intros vs ws Pv Qw. destruct (HP _ Pv) as [Lv _]. destruct (HQ _ Qw) as [Lw _].
        specialize (H vs ws Pv Qw). rewrite Forall_forall in H. rewrite <- vadd_nth by lia. apply H. apply nth_In. rewrite vadd_length; lia. }
      split.
      + pose proof (GETC _ _ P1 Q1) as [_ K]. lia.
      + intros SG. destruct (S1 SG) as ((v2 & P2 & M2) & _). destruct (S2 SG) as ((w2 & Q2 & N2) & _).
        pose proof (GETC _ _ P2 Q2) as [K _]. lia. }
  destruct b.
  2:{ cbn [negb]. exists false. split; [reflexivity|]. split; [discriminate|]. intros H. exfalso.
      assert (false = true); [|discriminate]. apply COMP. intros vs ws Pv Qw. exact (proj1 (H _ _ Pv Qw)). }
  cbn [negb]. pose proof (proj1 COMP eq_refl) as CO. clear COMP Hb Eb.
  destruct D1 as ((v1 & P1 & M1) & U1 & S1). destruct D2 as ((w1 & Q1 & N1) & U2 & S2).
  destruct (sgnd (kd_ty D)) eqn:SG.
  - destruct (S1 eq_refl) as ((v2 & P2 & M2) & U3). destruct (S2 eq_refl) as ((w2 & Q2 & N2) & U4).
    eexists. split; [reflexivity|]. rewrite negb_true_iff, orb_false_iff, !Z.ltb_ge. split.
    + intros [A B] vs ws Pv Qw. split; [auto|]. unfold of_type.
      specialize (U1 _ Pv). specialize (U2 _ Qw). specialize (U3 _ Pv). specialize (U4 _ Qw). lia.
    + intros H. destruct (H _ _ P1 Q1) as [_ [_ A]]. destruct (H _ _ P2 Q2) as [_ [B _]]. lia.
  - eexists. split; [reflexivity|]. rewrite negb_true_iff, Z.ltb_ge. split.
    + intros A vs ws Pv Qw. split; [auto|]. unfold of_type, imin. rewrite SG.
      specialize (U1 _ Pv). specialize (U2 _ Qw).
      pose proof (nonneg_sum vs SG (proj2 (HP _ Pv))). pose proof (nonneg_sum ws SG (proj2 (HQ _ Qw))). lia.
    + intros H. destruct (H _ _ P1 Q1) as [_ [_ A]]. lia.
Qed.

Lemma doverflow_ok ra ss r1 r2 v : dall_rep (List.length ss) r1 -> dall_rep (List.length ss) r2 ->
  dpm_overflow_check D ps ra ss r1 r2 v ->
  exists b, v = Ok b /\
    (b = true <-> forall p q vs ws, In p r1 -> In q r2 -> drepresents D ps (List.length ss) p vs -> drepresents D ps (List.length ss) q ws ->
       pair_ok vs ws).
Proof.
  intros A1 A2 H.
  assert (CONV : forall r1 r2 b, (b = true <-> forall vs ws, dexps (List.length ss) r1 vs -> dexps (List.length ss) r2 ws -> pair_ok vs ws) ->
     (b = true <-> forall p q vs ws, In p r1 -> In q r2 -> drepresents D ps (List.length ss) p vs -> drepresents D ps (List.length ss) q ws ->
       pair_ok vs ws)).
  { intros a1 a2 b Hb. rewrite Hb. split.
    - intros K p q vs ws I1 I2 R1 R2. apply K; [exists p|exists q]; auto.
    - intros K vs ws (p & I1 & R1) (q & I2 & R2). eapply K; eauto. }
  assert (HE : forall r vs, dexps (List.length ss) r vs -> List.length vs = List.length ss /\ Forall (comp_ok D ps) vs).
  { intros r vs (p & _ & (L & C & _)). auto. }
  assert (EXT : forall p vs r ws, drepresents D ps (List.length ss) p vs ->
    (ws = vs \/ dexps (List.length ss) r ws) <-> dexps (List.length ss) (p :: r) ws).
  { intros p vs r ws Rp. split.
    - intros [->|(q & I & Rq)]; [exists p|exists q]; split; auto; [left; auto|right; auto].
    - intros (q & [<-|I] & Rq); [left; eapply drep_unique; eauto|right; exists q; auto]. }
  inversion H as [r1' r2' S0|r1' r2' S0 EM|p1 t1 p2 t2 S0 PP|p1 t1 p2 t2 i1 i2 l1 l2 S0 PP E1 E2 R1 R2]; subst.
  - exists true. split; auto. split; auto. intros _ p q vs ws _ _ (L1 & _) (L2 & _).
    cbn [List.length] in L1, L2. destruct vs; [|discriminate]. destruct ws; [|discriminate].
    split; [constructor|]. cbn. apply of_type_0.
  - exists true. split; auto. split; auto. intros _ p q vs ws I1 I2. destruct EM; subst; contradiction.
  - inversion A1 as [|? ? (vs1 & Rp1) A1']; subst. inversion A2 as [|? ? (vs2 & Rp2) A2']; subst.
    destruct (dinit_ok _ _ _ Rp1) as (i1 & Ei1 & Hi1). destruct (dinit_ok _ _ _ Rp2) as (i2 & Ei2 & Hi2).
    rewrite Ei1. cbn [bind]. rewrite Ei2. cbn [bind].
    destruct (dserial_ok _ t1 _ i1 A1' Hi1) as (l1 & El1 & Hl1). destruct (dserial_ok _ t2 _ i2 A2' Hi2) as (l2 & El2 & Hl2).
    rewrite El1. cbn [bind]. rewrite El2. cbn [bind].
    destruct (dfinal_ok _ (dexps (List.length ss) (p1 :: t1)) (dexps (List.length ss) (p2 :: t2)) l1 l2 (HE _) (HE _)) as (b & Eb & Hb).
    + eapply dlims_ext; [|exact Hl1]. intros ws. apply EXT; auto.
    + eapply dlims_ext; [|exact Hl2]. intros ws. apply EXT; auto.
    + exists b. split; [exact Eb|]. apply CONV. exact Hb.
  - inversion A1 as [|? ? (vs1 & Rp1) A1']; subst. inversion A2 as [|? ? (vs2 & Rp2) A2']; subst.
    destruct (dinit_ok _ _ _ Rp1) as (j1 & Ei1 & Hi1). destruct (dinit_ok _ _ _ Rp2) as (j2 & Ei2 & Hi2).
    rewrite E1 in Ei1. inversion Ei1; subst j1. rewrite E2 in Ei2. inversion Ei2; subst j2.
    pose proof (dpar_ok _ vs1 _ _ _ _ R1 Hi1 A1' _ eq_refl Hi1) as Hl1.
    pose proof (dpar_ok _ vs2 _ _ _ _ R2 Hi2 A2' _ eq_refl Hi2) as Hl2.
    destruct (dfinal_ok _ (dexps (List.length ss) (p1 :: t1)) (dexps (List.length ss) (p2 :: t2)) l1 l2 (HE _) (HE _)) as (b & Eb & Hb).
    + eapply dlims_ext; [|exact Hl1]. intros ws. apply EXT; auto.
    + eapply dlims_ext; [|exact Hl2]. intros ws. apply EXT; auto.
    + exists b. split; [exact Eb|]. apply CONV. exact Hb.
Qed.

Lemma doverflow_exists ra ss r1 r2 : dall_rep (List.length ss) r1 -> dall_rep (List.length ss) r2 ->
  exists v, dpm_overflow_check D ps ra ss r1 r2 v.
Proof.
  intros A1 A2. destruct ss as [|s ss]; [eexists; apply doc_no_symbols; reflexivity|].
  destruct r1 as [|p1 r1]; [eexists; apply doc_empty; [discriminate|auto]|].
  destruct r2 as [|p2 r2]; [eexists; apply doc_empty; [discriminate|auto]|].
  inversion A1 as [|? ? (vs1 & Rp1) A1']; subst. inversion A2 as [|? ? (vs2 & Rp2) A2']; subst.
  destruct (dpm_par_path ra (p1 :: r1) (p2 :: r2)) eqn:PP; [|eexists; apply doc_serial; [discriminate|exact PP]].
  destruct (dinit_ok _ _ _ Rp1) as (i1 & Ei1 & Hi1). destruct (dinit_ok _ _ _ Rp2) as (i2 & Ei2 & Hi2).
  destruct (dserial_ok _ r1 _ i1 A1' Hi1) as (l1 & El1 & _). destruct (dserial_ok _ r2 _ i2 A2' Hi2) as (l2 & El2 & _).
  eexists. eapply doc_parallel; [discriminate|exact PP|exact Ei1|exact Ei2|apply dpar_run; exact El1|apply dpar_run; exact El2].
Qed.

Lemma dident_all ss : forall (terms : list (dpm * list Z)) v,
  Forall (fun t => drepresents D ps (List.length ss) (fst t) (snd t)) terms -> List.length v = List.length ss ->
  exists v', rfold (fun v p => dpm_trim_identify D ps v p ss) (map fst terms) v = Ok v' /\
    List.length v' = List.length ss /\
    forall i, (i < List.length ss)%nat ->
      nth i v' 0 = if forallb (fun t => nth i (snd t) 0 =? 0) terms then nth i v 0 else 0.
Proof.
  induction terms as [|[p vs] terms IH]; intros v F L.
  - exists v. repeat split; auto.
  - inversion F; subst. cbn [fst snd] in H1. cbn [map fst rfold].
    rewrite (dident_ok D ps HD G ss p vs v H1 L). cbn [bind].
    pose proof H1 as (L1 & _).
    destruct (IH (trim_flags v vs) H2) as (v' & E & L' & N); [rewrite trim_flags_len; lia|].
    exists v'. repeat split; auto. intros i Hi. rewrite N by exact Hi. cbn [forallb snd].
    rewrite trim_flags_nth by lia. destruct (nth i vs 0 =? 0); cbn [andb]; [reflexivity|].
    destruct (forallb _ terms); reflexivity.
Qed.

(** Extending a trimmed monomial back. *)
Lemma dtrim_extend ss d vs si r (m : symbol_idx_map symbol_set) : sorted_set ss ->
  drepresents D ps (List.length ss) d vs -> StronglySorted lt si -> (forall y, In y si -> (y < List.length ss)%nat) ->
  (forall y, In y si -> nth y vs 0 = 0) ->
  dpm_trim D ps d si ss = Ok r ->
  let ss' := select (fun j => negb (mem j si)) ss in
  ins_map_ok (List.length ss') m -> insert_all (ins_at m) 0 ss' = ss ->
  dpm_merge_symbols D ps r m ss' = Ok d.
Proof.
  intros Sss R S H Z T ss' MO I.
  destruct (dtrim_ok D ps HD G ss d vs si R S H) as (r' & T' & R'). rewrite T in T'. inversion T'; subst r'. clear T'.
  assert (Lss' : List.length ss' = (List.length ss - List.length si)%nat).
  { apply (select_from_len ss 0 si); auto. intros y Hy. specialize (H y Hy). lia. }
  set (vs' := select (fun j => negb (mem j si)) vs) in *.
  rewrite <- Lss' in R'.
  assert (MP : forall j, In j (map fst m) -> (0 <= j <= 0 + List.length ss')%nat).
  { intros j Hj. destruct MO as [_ F]. apply in_map_iff in Hj as ([j' x] & <- & Ij). rewrite Forall_forall in F. destruct (F _ Ij) as [F1 _]. cbn [fst] in *. lia. }
  assert (W : insert_zeros m vs' = vs).
  { pose proof R as (L & _). pose proof R' as (L' & _). apply (expo_inj ss); auto.
    - apply sorted_nodup; auto.
    - rewrite <- I. unfold insert_zeros.
      rewrite (insert_all_len m (fun _ => 0)); [|apply MO|rewrite L'; exact MP].
      pose proof (insert_all_len m (fun s => s) ss' 0) as L2.
      rewrite (insert_all_ext _ (ins_at m)) in L2 by (intros; apply map_id).
      rewrite L2; [|apply MO|exact MP]. rewrite L'. reflexivity.
    - intros x. unfold insert_zeros. rewrite <- I at 1. rewrite expo_insert.
      + unfold ss', vs'. apply (expo_select (fun j => negb (mem j si)) ss vs 0 x); auto.
        * apply sorted_nodup; auto.
        * intros j Hj K. cbn [Nat.add] in K. apply negb_false_iff, mem_in in K. apply Z. exact K.
      + rewrite I. apply sorted_nodup; auto.
      + lia. }
  destruct (dmerge_ok D ps HD G ss' r vs' m R' MO) as [E _]. rewrite E, W. destruct R as (_ & _ & ->). reflexivity.
Qed.

Definition drepresentsb (n : nat) (d vs : list Z) : bool :=
  (List.length vs =? n)%nat && forallb (comp_okb D ps) vs && dpm_eq d (dcode D ps vs).
Lemma drepresentsb_ok n d vs : drepresentsb n d vs = true -> drepresents D ps n d vs.
Proof.
  unfold drepresentsb. rewrite !andb_true_iff, Nat.eqb_eq, all_okb_iff, dpm_eq_iff. intros ((A & B) & C). repeat split; auto.
Qed.
End G.
