(** Series over any coefficient type: symbol extension, sums and differences. *)
From Coq Require Import ZArith List Bool String Arith Lia Permutation.
From Verif Require Import Base IntModel SymSpec SymModel SymProofs P_Sym PMonSpec PMonProofs2 KeyOps SeriesModel SeriesSpec LfSpec SeriesProofs SeriesProofs2 LfProofs.
Import ListNotations.
Open Scope Z_scope.
Open Scope res_scope.

Section S.
Context {K C Tag : Type} (KO : key_ops K) (KS : key_sem K) (CO : cf_ops C) (PO : tbl_policy (K * C)) (TO : tag_ops Tag).
Hypothesis KL : key_laws KO KS.
Hypothesis LL : light_laws CO.
Notation series := (series K C Tag).
Notation nonzero := (nonzero CO). Notation merged := (merged CO). Notation combined := (combined CO).
Notation LWF := (lwf KO KS CO).
Notation entry := (entry KS).
Notation sget := (sget KO).

Lemma vec_eqb_iff (a b : list Z) : vec_eqb a b = true <-> a = b.
Proof. unfold vec_eqb. destruct (list_eq_dec Z.eq_dec a b); split; congruence. Qed.

Lemma entry_key us (s : series) k k' c c' : wf KO KS CO s -> incl (s_ss s) us -> ks_valid KS (len (s_ss s)) k -> In (k', c') (terms s) ->
  spread (s_ss s) us (ks_exps KS (len (s_ss s)) k) = spread (s_ss s) us (ks_exps KS (len (s_ss s)) k') -> k = k' /\ (In (k, c) (terms s) -> c = c').
Proof.
  intros W I V I' E. assert (V' : ks_valid KS (len (s_ss s)) k') by exact (wf_valid _ _ _ _ W k' c' I').
  assert (EK : k = k').
  { apply (kl_inj _ _ KL (len (s_ss s))); auto. eapply (spread_inj (s_ss s) us); [exact I|apply sorted_set_nodup, (wf_ss _ _ _ _ W)|apply (kl_len _ _ KL); exact V|apply (kl_len _ _ KL); exact V'|exact E]. }
  split; [exact EK|]. subst k'. intros J. apply (sget_in KO KS CO KL s k c W) in J. apply (sget_in KO KS CO KL s k c' W) in I'. congruence.
Qed.
Lemma entry_in us (s : series) ws c : wf KO KS CO s -> incl (s_ss s) us ->
  (entry us s ws = Some c <-> exists k, In (k, c) (terms s) /\ spread (s_ss s) us (ks_exps KS (len (s_ss s)) k) = ws).
Proof.
  intros W I. unfold LfSpec.entry. split.
  - intros H. destruct (find _ (terms s)) as [[k c']|] eqn:F; [|discriminate]. cbn in H. inversion H; subst c'. apply List.find_some in F as [F1 F2]. cbn [fst] in F2. apply vec_eqb_iff in F2. eauto.
  - intros (k & Ik & E). destruct (find _ (terms s)) as [[k' c']|] eqn:F.
    + apply List.find_some in F as [F1 F2]. cbn [fst snd] in *. apply vec_eqb_iff in F2. cbn. f_equal. symmetry.
      destruct (entry_key us s k k' c c' W I (wf_valid _ _ _ _ W k c Ik) F1) as [_ X]; [congruence|auto].
    + exfalso. pose proof (List.find_none _ _ F _ Ik) as X. cbn [fst] in X. assert (Y : vec_eqb (spread (s_ss s) us (ks_exps KS (len (s_ss s)) k)) ws = true) by (apply vec_eqb_iff; exact E). congruence.
Qed.
Lemma entry_at us (s : series) k ws : wf KO KS CO s -> incl (s_ss s) us -> ks_valid KS (len (s_ss s)) k ->
  spread (s_ss s) us (ks_exps KS (len (s_ss s)) k) = ws -> entry us s ws = sget s k.
Proof.
  intros W I V E. apply opt_ext. intros c. rewrite entry_in by assumption. rewrite (sget_in KO KS CO KL s k c W). split.
  - intros (k' & Ik & E'). destruct (entry_key us s k k' c c W I V Ik) as [-> _]; [congruence|exact Ik].
  - intros J. eauto.
Qed.

(** Two series over the same symbols, and a third one whose coefficients are a function of theirs. *)
Lemma entry_pointwise us (a b r : series) (f : option C -> option C -> option C) ws : wf KO KS CO a -> wf KO KS CO b -> wf KO KS CO r ->
  s_ss b = s_ss a -> s_ss r = s_ss a -> incl (s_ss a) us -> f None None = None -> (forall x, sget r x = f (sget a x) (sget b x)) ->
  entry us r ws = f (entry us a ws) (entry us b ws).
Proof.
  intros WA WB WR SB SR I F0 G.
  assert (AT : forall k, ks_valid KS (len (s_ss a)) k -> spread (s_ss a) us (ks_exps KS (len (s_ss a)) k) = ws -> entry us r ws = f (entry us a ws) (entry us b ws)).
  { intros k V E. rewrite (entry_at us a k ws), (entry_at us b k ws), (entry_at us r k ws); try rewrite SB; try rewrite SR; auto. }
  destruct (entry us a ws) as [ca|] eqn:EA.
  { pose proof EA as X. apply entry_in in X as (k & Ik & E); auto. exact (AT k (wf_valid _ _ _ _ WA k ca Ik) E). }
  destruct (entry us b ws) as [cb|] eqn:EB.
  { pose proof EB as X. apply entry_in in X as (k & Ik & E); auto; [|rewrite SB; exact I]. rewrite SB in E. apply (AT k); [|exact E]. rewrite <- SB. exact (wf_valid _ _ _ _ WB k cb Ik). }
  destruct (entry us r ws) as [cr|] eqn:ER; [|symmetry; exact F0].
  pose proof ER as X. apply entry_in in X as (k & Ik & E); auto; [|rewrite SR; exact I]. rewrite SR in E. apply (AT k); [|exact E]. rewrite <- SR. exact (wf_valid _ _ _ _ WR k cr Ik).
Qed.

Lemma extend_lf tg (x : series) m u : LWF x -> ins_map_ok (len (s_ss x)) m -> insert_all (ins_at m) 0 (s_ss x) = u -> sorted_set u ->
  (exists a, extend_to KO CO PO TO tg true (fun c => c) u x m = Ok a /\ LWF a /\ s_ss a = u /\ s_tag a = tg /\ s_log2 a = s_log2 x /\
     (forall us ws, incl u us -> entry us a ws = entry us x ws) /\ len (terms a) = len (terms x)) \/
  ((extend_to KO CO PO TO tg true (fun c => c) u x m = Throw overflow_error \/ extend_to KO CO PO TO tg true (fun c => c) u x m = Throw safe_cast_failure) /\
   ((exists k c, In (k, c) (terms x) /\ ~ ks_fits KS (spread (s_ss x) u (ks_exps KS (len (s_ss x)) k))) \/
    (s_log2 x <> 0%nat /\ max_table_size (s_log2 x) <= Z.of_nat (len (terms x))))).
Proof.
  intros LW IM EU SU. pose proof (lw_wf _ _ _ _ LW) as W. pose proof (lw_nonzero _ _ _ _ LW) as NZ.
  pose proof (wf_valid _ _ _ _ W) as V.
  assert (SP : forall k c, In (k, c) (terms x) -> insert_zeros m (ks_exps KS (len (s_ss x)) k) = spread (s_ss x) u (ks_exps KS (len (s_ss x)) k)).
  { intros k c I. apply insert_is_spread; auto; [apply sorted_set_nodup; exact SU|]. apply (kl_len _ _ KL). eauto. }
  destruct (set_n_segments_ok KO KS CO (Series [[]] 0 tg u) (s_log2 x)) as [E0 W0]; [apply (wf_log2 _ _ _ _ W)|exact SU|].
  cbn [s_tag s_ss] in W0, E0. set (to := Series (repeat [] (2 ^ s_log2 x)) (s_log2 x) tg u) in *.
  assert (T0 : terms to = []) by apply terms_repeat_nil.
  assert (LW0 : LWF to) by (split; [exact W0|rewrite T0; intros k c []]).
  set (stepK := fun e : K * C => k <- k_merge KO (fst e) m (s_ss x) ;; Ok (k, snd e)).
  set (stepS := fun (to : series) (e : K * C) => series_add_term KO CO PO true true false true true to (fst e) (snd e)).
  assert (MAIN : extend_to KO CO PO TO tg true (fun c => c) u x m = rfold (fun to e => e' <- stepK e ;; stepS to e') (terms x) to).
  { unfold extend_to, set_symbol_set, set_tag, series_default. cbn [s_tables s_log2 s_tag s_ss series_empty forallb bind andb].
    unfold series_sym_extender, get_s_size. rewrite E0. cbn [bind].
    assert (EQ : forall (l : list (K * C)) (s : series), rfold (fun to e =>
      k <- k_merge KO (fst e) m (s_ss x) ;;
      series_add_term KO CO PO true true false true true to k (snd e)) l s = rfold (fun to e => e' <- stepK e ;; stepS to e') l s).
    { induction l as [|e l IH]; intros s; [reflexivity|]. cbn [rfold]. unfold stepK at 1, stepS at 1. destruct (k_merge KO (fst e) m (s_ss x)); cbn [bind fst snd]; auto.
      destruct (series_add_term KO CO PO true true false true true s a (snd e)); cbn [bind]; auto. }
    destruct (Nat.eqb_spec (s_log2 x) 0) as [L0|L0]; [|apply EQ].
    clear LW. apply (proj1 (wf_iff KO KS CO x)) in W. destruct W as (_ & _ & LT & _). rewrite L0 in LT. cbn in LT. unfold terms.
    destruct (s_tables x) as [|t [|? ?]]; try discriminate. cbn [rd nth_error bind List.concat]. rewrite app_nil_r.
    rewrite <- EQ. unfold to. rewrite L0. cbn [Nat.pow repeat s_tables rd nth_error bind s_ss s_log2].
    clear LT. generalize (@nil (K * C)). intros t0. revert t0. induction t as [|e t IH]; intros t0; [reflexivity|].
    cbn [rfold]. rewrite !bind_assoc. destruct (k_merge KO (fst e) m (s_ss x)); cbn [bind]; auto.
    unfold series_add_term at 1. cbn [s_tables List.length table_index Nat.eqb rd nth_error bind negb andb s_ss s_log2]. unfold table_index. cbn [Nat.eqb nth_error rd bind].
    destruct (series_add_term_table KO CO PO true true false false true u (max_table_size 0) t0 a (snd e)); cbn [bind]; auto.
    exact (IH _). }
  rewrite MAIN. clear MAIN.
  set (fit := fun e : K * C => ks_fits KS (spread (s_ss x) u (ks_exps KS (len (s_ss x)) (fst e)))).
  set (R := fun e e' : K * C => snd e' = snd e /\ ks_valid KS (len u) (fst e') /\ ks_exps KS (len u) (fst e') = spread (s_ss x) u (ks_exps KS (len (s_ss x)) (fst e))).
  assert (KM : forall l, incl l (terms x) -> (forall e, In e l -> fit e) -> exists l', rmap stepK l = Ok l' /\ Forall2 R l l').
  { intros l I F. apply rmap_ok. intros [k c] Ie. pose proof (kl_merge _ _ KL k (s_ss x) m (V k c (I _ Ie)) IM) as [A _].
    cbn zeta in A. rewrite (SP k c (I _ Ie)) in A. destruct (A (F _ Ie)) as (r & Er & Vr & Xr). rewrite spread_len in *.
    unfold stepK. cbn [fst snd]. rewrite Er. exists (r, c). split; [reflexivity|]. split; auto. }
  assert (FR : forall l l' e', Forall2 R l l' -> In e' l' -> exists e, In e l /\ R e e').
  { clear. intros l l' e' F J. induction F as [|a b l l' r F IH]; [contradiction|]. destruct J as [->|J]; [exists a; split; [left; auto|auto]|]. destruct (IH J) as (e & Ie & Re). exists e. split; [right|]; auto. }
  assert (FL : forall l l' e, Forall2 R l l' -> In e l -> exists e', In e' l' /\ R e e').
  { clear. intros l l' e F J. induction F as [|a b l l' r F IH]; [contradiction|]. destruct J as [->|J]; [exists b; split; [left; auto|auto]|]. destruct (IH J) as (e' & Ie & Re). exists e'. split; [right|]; auto. }
  assert (LOOP : forall l l', incl l (terms x) -> NoDup (map fst l) -> Forall2 R l l' -> NoDup (map fst l') /\
    ((exists s', rfold stepS l' to = Ok s' /\ LWF s' /\ s_all KO CO true to s' l') \/
    (rfold stepS l' to = Throw overflow_error /\ s_log2 x <> 0%nat /\ max_table_size (s_log2 x) <= Z.of_nat (len (terms x))))).
  { intros l l' I N F. assert (LEN : len l' = len l) by (symmetry; eapply Forall2_length; exact F).
    assert (N' : NoDup (map fst l')).
    { revert N I. clear -F KL V W SU EU FR. induction F as [|[k c] [k' c'] l l' (E1 & E2 & E3) F IH]; intros N I; [constructor|]. cbn [map fst snd] in *. inversion N; subst. constructor.
      - intros J. apply in_map_iff in J as ([k2 c2] & Ek & J). cbn in Ek. subst k2.
        destruct (FR l l' (k', c2) F J) as ([k3 c3] & I3 & R3 & R4 & R5).
        cbn [fst snd] in *. apply H1. assert (k = k3) as ->; [|apply in_map_iff; exists (k3, c3); auto].
        assert (V1 : ks_valid KS (len (s_ss x)) k) by (eapply V, I; left; reflexivity).
        assert (V3 : ks_valid KS (len (s_ss x)) k3) by (eapply V, I; right; exact I3).
        apply (kl_inj _ _ KL (len (s_ss x))); auto.
        eapply (spread_inj (s_ss x)); [|apply sorted_set_nodup, (wf_ss _ _ _ _ W)|apply (kl_len _ _ KL); auto|apply (kl_len _ _ KL); auto|rewrite <- E3, R5; reflexivity].
        apply insert_incl.
      - apply IH; auto. intros e Ie. apply I. right. exact Ie. }
    split; [exact N'|].
    destruct (add_terms_lf KO KS CO PO KL LL true false true true l' to LW0) as [X|(X1 & X2 & X3)].
    - cbn [s_ss to]. intros k c J. destruct (FR l l' (k, c) F J) as (e & _ & _ & r & _). exact r.
    - exact N'.
    - intros _. rewrite T0. auto.
    - auto.
    - left. exact X.
    - right. split; [exact X1|]. cbn [s_log2 to] in *. split; [exact X2|]. rewrite T0 in X3. cbn [List.length] in X3.
      assert (len l' <= len (terms x))%nat; [|lia]. rewrite LEN. rewrite <- (map_length fst l), <- (map_length fst (terms x)).
      apply NoDup_incl_length; auto. intros k J. apply in_map_iff in J as (e & <- & J). apply in_map. auto. }
  destruct (first_bad fit (fun e => kl_fits_dec _ _ KL _) (terms x)) as [ALL|(l1 & e & l2 & E & F1 & BAD)].
  - destruct (KM (terms x) (fun e H => H) ALL) as (l' & EM & F).
    rewrite (rfold_pre stepK stepS _ _ _ EM).
    destruct (LOOP (terms x) l' (fun e H => H) (wf_keys _ _ _ _ W) F) as [N' [(a & Ea & LWa & (Ma1 & Ma2 & Ma3) & Ga & La)|(X1 & X2 & X3)]].
    + left. exists a. pose proof (lw_wf _ _ _ _ LWa) as Wa.
      assert (IN : forall k c, In (k, c) (terms a) <-> In (k, c) l').
      { intros k c. rewrite <- (sget_in KO KS CO KL a k c Wa). rewrite Ga. unfold LfProofs.sget at 1. rewrite T0. cbn [tget tbl_find find option_map].
        rewrite <- (tget_in KO KS KL l' k c N'). change (tget KO [] k) with (@None C). destruct (tget KO l' k) as [d|] eqn:Q; cbn [LfSpec.merged]; [|tauto].
        assert (c_is_zero CO d = false) as Zd. { apply (tget_in KO KS KL l' k d N') in Q. destruct (FR _ _ _ F Q) as ([k0 c0] & I0 & R0 & _). cbn in R0. subst d. eauto. }
        unfold LfSpec.nonzero. rewrite Zd. tauto. }
      split; [exact Ea|]. split; [exact LWa|]. split; [exact Ma1|]. split; [exact Ma2|]. split; [exact Ma3|]. split.
      * intros us ws IU. cbn [s_ss to] in Ma1. assert (IX : incl (s_ss x) u) by (rewrite <- EU; apply insert_incl).
        apply opt_ext. intros c. rewrite !entry_in; auto; [|intros z Hz; apply IU, IX, Hz|rewrite Ma1; exact IU]. rewrite Ma1. split.
        -- intros (k & Ik & Ek). apply IN in Ik. destruct (FR _ _ _ F Ik) as ([k0 c0] & I0 & R0 & R1 & R2). cbn [fst snd] in *. subst c0. exists k0. split; [exact I0|]. rewrite <- Ek, R2. symmetry. apply spread_spread. exact IX.
        -- intros (k & Ik & Ek). destruct (FL _ _ _ F Ik) as ([k0 c0] & I0 & R0 & R1 & R2). cbn [fst snd] in *. subst c0. exists k0. split; [apply IN; exact I0|]. rewrite <- Ek, R2. apply spread_spread. exact IX.
      * rewrite (Forall2_length _ _ _ F). apply Permutation_length. apply NoDup_Permutation.
        -- eapply NoDup_map_inv. exact (wf_keys _ _ _ _ Wa).
        -- eapply NoDup_map_inv. exact N'.
        -- intros [k c]. apply IN.
    + right. split; [left; exact X1|right; auto].
  - right. assert (I1 : incl l1 (terms x)) by (rewrite E; intros y Iy; apply in_or_app; auto).
    assert (Ie : In e (terms x)) by (rewrite E; apply in_or_app; right; left; reflexivity).
    destruct e as [k c]. split; [|left; exists k, c; auto].
    destruct (KM l1 I1 F1) as (l' & EM & F). rewrite E, rfold_app, (rfold_pre stepK stepS _ _ _ EM).
    assert (N1 : NoDup (map fst l1)). { pose proof (wf_keys _ _ _ _ W) as N. rewrite E, map_app in N. apply nodup_app_l in N. exact N. }
    destruct (LOOP l1 l' I1 N1 F) as [_ [(a & Ea & _)|(X1 & _)]]; [|rewrite X1; left; reflexivity].
    rewrite Ea. cbn [bind rfold]. unfold stepK at 1 3. cbn [fst snd].
    pose proof (kl_merge _ _ KL k (s_ss x) m (V k c Ie) IM) as [_ B]. cbn zeta in B. rewrite (SP k c Ie) in B.
    destruct (B BAD) as [->| ->]; cbn [bind]; auto.
Qed.

Lemma merger_lf sign (lhs rhs : series) : LWF lhs -> LWF rhs -> s_ss rhs = s_ss lhs ->
  (exists r, term_merger KO CO PO sign (fun s => Ok s) (fun c => c) lhs rhs = Ok r /\ LWF r /\ same_meta lhs r /\
     (forall x, sget r x = merged sign (sget lhs x) (sget rhs x)) /\ (len (terms r) <= len (terms lhs) + len (terms rhs))%nat) \/
  (term_merger KO CO PO sign (fun s => Ok s) (fun c => c) lhs rhs = Throw overflow_error /\ s_log2 lhs <> 0%nat /\
   max_table_size (s_log2 lhs) <= Z.of_nat (len (terms lhs) + len (terms rhs))).
Proof.
  intros WL WR SS. unfold term_merger. cbn [bind]. fold (add_all KO CO PO sign (fun c : C => c) lhs (terms rhs)).
  destruct (add_all_lf KO KS CO PO KL LL sign lhs (terms rhs) WL) as [(r & E & W & M & P & N)|X].
  - intros k c I. rewrite <- SS. eapply (wf_valid _ _ _ _ (lw_wf _ _ _ _ WR)). exact I.
  - apply (wf_keys _ _ _ _ (lw_wf _ _ _ _ WR)).
  - left. exists r. split; [exact E|]. split; [exact W|]. split; [exact M|]. split; [exact P|exact N].
  - right. exact X.
Qed.

Lemma merge_lf sign (a b : series) : LWF a -> LWF b -> s_ss b = s_ss a ->
  (exists r, merge_with_identical_ss KO CO PO sign (fun s => Ok s) (fun c => c) (fun s => Ok s) (fun c => c) a b = Ok r /\ LWF r /\ s_ss r = s_ss a /\
     s_log2 r = (if bigger a b then s_log2 a else s_log2 b) /\
     (forall x, sget r x = combined sign (bigger a b) (sget a x) (sget b x)) /\ (len (terms r) <= len (terms a) + len (terms b))%nat) \/
  (merge_with_identical_ss KO CO PO sign (fun s => Ok s) (fun c => c) (fun s => Ok s) (fun c => c) a b = Throw overflow_error /\
   let lg := if bigger a b then s_log2 a else s_log2 b in
   lg <> 0%nat /\ max_table_size lg <= Z.of_nat (len (terms a) + len (terms b))).
Proof.
  intros WA WB SS. unfold merge_with_identical_ss. rewrite !size_terms. unfold bigger, LfSpec.combined.
  destruct (len (terms b) <=? len (terms a))%nat.
  - destruct (merger_lf sign a b WA WB SS) as [(r & E & W & (M1 & M2 & M3) & G & N)|H]; [left; exists r; auto 10|right; exact H].
  - destruct sign.
    + destruct (merger_lf true b a WB WA (eq_sym SS)) as [(r & E & W & (M1 & M2 & M3) & G & N)|(E & L & B)].
      * left. exists r. split; [exact E|]. split; [exact W|]. split; [congruence|]. split; [exact M3|]. split; [exact G|lia].
      * right. split; [exact E|]. cbn zeta. split; [exact L|lia].
    + destruct (merger_lf false b a WB WA (eq_sym SS)) as [(r & E & W & (M1 & M2 & M3) & G & N)|(E & L & B)].
      * left. rewrite E. cbn [bind]. exists (series_negate CO r). split; [reflexivity|].
        destruct (negate_lf KO KS CO KL LL r W) as (W' & (N1 & N2 & N3) & G' & N'). split; [exact W'|]. split; [congruence|]. split; [congruence|]. split; [|lia].
        intros x. rewrite G', G. reflexivity.
      * right. rewrite E. cbn [bind]. split; [reflexivity|]. cbn zeta. split; [exact L|lia].
Qed.

Lemma combined_none sign xl : combined sign xl None None = None.
Proof. destruct xl, sign; reflexivity. Qed.

Lemma addsub_lf sign (x y : series) : LWF x -> LWF y -> Z.of_nat (len (s_ss x) + len (s_ss y)) <= imax size_t ->
  (exists r, series_addsub KO CO PO TO sign op_same op_same x y = Ok r /\ LWF r /\
     (forall z, In z (s_ss r) <-> In z (s_ss x) \/ In z (s_ss y)) /\
     (forall us ws, incl (s_ss r) us -> entry us r ws = combined sign (bigger x y) (entry us x ws) (entry us y ws)) /\
     (len (terms r) <= len (terms x) + len (terms y))%nat) \/
  ((series_addsub KO CO PO TO sign op_same op_same x y = Throw overflow_error \/ series_addsub KO CO PO TO sign op_same op_same x y = Throw safe_cast_failure) /\
   ((exists u, sorted_set u /\ (forall z, In z u <-> In z (s_ss x) \/ In z (s_ss y)) /\ (unrep KS u x \/ unrep KS u y)) \/
    full (s_log2 x) (len (terms x) + len (terms y)) \/ full (s_log2 y) (len (terms x) + len (terms y)))).
Proof.
  intros WX WY SZ. unfold series_addsub. cbn [o_mk o_conv o_same op_same].
  destruct (ss_eqb (s_ss x) (s_ss y)) eqn:ES.
  - apply ss_eqb_iff in ES. destruct (merge_lf sign x y WX WY (eq_sym ES)) as [(r & E & W & S1 & L & G & N)|(E & F)].
    + left. exists r. split; [exact E|]. split; [exact W|]. split; [rewrite S1, <- ES; tauto|]. split; [|exact N].
      intros us ws I. apply (entry_pointwise us x y r); auto using combined_none; try (apply lw_wf; assumption). rewrite <- S1. exact I.
    + right. split; [left; exact E|]. right. cbn zeta in F. destruct (bigger x y); [left|right]; exact F.
  - pose proof (lw_wf _ _ _ _ WX) as WX0. pose proof (lw_wf _ _ _ _ WY) as WY0.
    destruct (merge_symbol_sets_exact (s_ss x) (s_ss y) (wf_ss _ _ _ _ WX0) (wf_ss _ _ _ _ WY0) SZ) as (u & mx & my & EM & SU & IU & IX & IY & MX & MY & _).
    rewrite EM. cbn [bind].
    pose proof (extend_lf (tag_default TO) x mx u WX MX IX SU) as EX. pose proof (extend_lf (tag_default TO) y my u WY MY IY SU) as EY.
    set (FAILS := fun q : res series => (q = Throw overflow_error \/ q = Throw safe_cast_failure) /\
       ((exists u, sorted_set u /\ (forall z, In z u <-> In z (s_ss x) \/ In z (s_ss y)) /\ (unrep KS u x \/ unrep KS u y)) \/
        full (s_log2 x) (len (terms x) + len (terms y)) \/ full (s_log2 y) (len (terms x) + len (terms y)))).
    set (GOOD := fun q : res series => exists r, q = Ok r /\ LWF r /\ (forall z, In z (s_ss r) <-> In z (s_ss x) \/ In z (s_ss y)) /\
       (forall us ws, incl (s_ss r) us -> entry us r ws = combined sign (bigger x y) (entry us x ws) (entry us y ws)) /\ (len (terms r) <= len (terms x) + len (terms y))%nat).
    assert (FIN : forall a b : series, LWF a -> LWF b -> s_ss a = u -> s_ss b = u ->
      (forall us ws, incl u us -> entry us a ws = entry us x ws) -> (forall us ws, incl u us -> entry us b ws = entry us y ws) ->
      len (terms a) = len (terms x) -> len (terms b) = len (terms y) -> s_log2 a = s_log2 x -> s_log2 b = s_log2 y ->
      GOOD (merge_with_identical_ss KO CO PO sign (fun s => Ok s) (fun c => c) (fun s => Ok s) (fun c => c) a b) \/
      FAILS (merge_with_identical_ss KO CO PO sign (fun s => Ok s) (fun c => c) (fun s => Ok s) (fun c => c) a b)).
    { intros a b WA WB SA SB EA EB NA NB LA LB.
      assert (BG : bigger a b = bigger x y) by (unfold bigger; rewrite NA, NB; reflexivity).
      destruct (merge_lf sign a b WA WB) as [(r & E & W & S1 & L & G & N)|(E & F)]; [congruence| |].
      - left. exists r. split; [exact E|]. split; [exact W|]. split; [rewrite S1, SA; exact IU|]. split; [|lia].
        intros us ws I. rewrite S1, SA in I. rewrite <- BG, <- (EA us ws I), <- (EB us ws I).
        apply (entry_pointwise us a b r); auto using combined_none; try (apply lw_wf; assumption); try congruence; rewrite SA; exact I.
      - right. split; [left; exact E|]. right. cbn zeta in F. rewrite BG, LA, LB, NA, NB in F. destruct (bigger x y); [left|right]; exact F. }
    assert (BX : mx = [] -> s_ss x = u) by (intros ->; exact (eq_trans (eq_sym (insert_nil _ 0)) IX)).
    assert (BY : my = [] -> s_ss y = u) by (intros ->; exact (eq_trans (eq_sym (insert_nil _ 0)) IY)).
    assert (ERX : forall f (q : res series), q = Throw overflow_error \/ q = Throw safe_cast_failure ->
      (exists k c, In (k, c) (terms x) /\ ~ ks_fits KS (spread (s_ss x) u (ks_exps KS (len (s_ss x)) k))) \/
      s_log2 x <> 0%nat /\ max_table_size (s_log2 x) <= Z.of_nat (len (terms x)) -> FAILS (bind q f)).
    { intros f q [-> | ->] H; cbn [bind]; (split; [auto|]); (destruct H as [H|[H1 H2]]; [left; exists u; split; [exact SU|]; split; [exact IU|]; left; exact H|right; left; split; [exact H1|lia]]). }
    assert (ERY : forall f (q : res series), q = Throw overflow_error \/ q = Throw safe_cast_failure ->
      (exists k c, In (k, c) (terms y) /\ ~ ks_fits KS (spread (s_ss y) u (ks_exps KS (len (s_ss y)) k))) \/
      s_log2 y <> 0%nat /\ max_table_size (s_log2 y) <= Z.of_nat (len (terms y)) -> FAILS (bind q f)).
    { intros f q [-> | ->] H; cbn [bind]; (split; [auto|]); (destruct H as [H|[H1 H2]]; [left; exists u; split; [exact SU|]; split; [exact IU|]; right; exact H|right; right; split; [exact H1|lia]]). }
    destruct mx as [|p1 mx'], my as [|p2 my']; cbn [map_empty].
    1, 4: destruct EX as [(a & Ea & Wa & Sa & _ & La & Da & Na)|[E H]]; [|right; apply ERX; assumption]; rewrite Ea; cbn [bind];
          (destruct EY as [(b & Eb & Wb & Sb & _ & Lb & Db & Nb)|[E H]]; [|right; apply ERY; assumption]); rewrite Eb; cbn [bind]; apply FIN; assumption.
    + destruct EY as [(b & Eb & Wb & Sb & _ & Lb & Db & Nb)|[E H]]; [|right; apply ERY; assumption]. rewrite Eb. cbn [bind]. apply FIN; auto.
    + destruct EX as [(a & Ea & Wa & Sa & _ & La & Da & Na)|[E H]]; [|right; apply ERX; assumption]. rewrite Ea. cbn [bind]. apply FIN; auto.
Qed.

Lemma in_place_lf sign aliased (x y : series) : LWF x -> LWF y -> (aliased = true -> y = x) -> Z.of_nat (len (s_ss x) + len (s_ss y)) <= imax size_t ->
  (exists r, series_in_place_addsub KO CO PO CO PO TO sign (fun c => c) x aliased y = Ok r /\ LWF r /\
     (forall z, In z (s_ss r) <-> In z (s_ss x) \/ In z (s_ss y)) /\
     (forall us ws, incl (s_ss r) us -> entry us r ws = merged sign (entry us x ws) (entry us y ws)) /\
     (len (terms r) <= len (terms x) + len (terms y))%nat /\ s_log2 r = s_log2 x) \/
  ((series_in_place_addsub KO CO PO CO PO TO sign (fun c => c) x aliased y = Throw overflow_error \/ series_in_place_addsub KO CO PO CO PO TO sign (fun c => c) x aliased y = Throw safe_cast_failure) /\
   ((exists u, sorted_set u /\ (forall z, In z u <-> In z (s_ss x) \/ In z (s_ss y)) /\ (unrep KS u x \/ unrep KS u y)) \/
    full (s_log2 x) (len (terms x) + len (terms y)) \/ full (s_log2 y) (len (terms x) + len (terms y)))).
Proof.
  intros WX WY AL SZ. unfold series_in_place_addsub.
  assert (IP : forall a b : series, LWF a -> LWF b -> s_ss b = s_ss a ->
    (exists r, in_place_with_identical_ss KO CO PO sign (fun c => c) a false b = Ok r /\ LWF r /\ s_ss r = s_ss a /\
       (forall k, sget r k = merged sign (sget a k) (sget b k)) /\ (len (terms r) <= len (terms a) + len (terms b))%nat /\ s_log2 r = s_log2 a) \/
    (in_place_with_identical_ss KO CO PO sign (fun c => c) a false b = Throw overflow_error /\ full (s_log2 a) (len (terms a) + len (terms b)))).
  { intros a b WA WB SS. unfold in_place_with_identical_ss. fold (add_all KO CO PO sign (fun c : C => c) a (terms b)).
    destruct (add_all_lf KO KS CO PO KL LL sign a (terms b) WA) as [(r & E & W & (M1 & M2 & M3) & P & N)|(E & X)].
    - intros k c I. rewrite <- SS. eapply (wf_valid _ _ _ _ (lw_wf _ _ _ _ WB)). exact I.
    - apply (wf_keys _ _ _ _ (lw_wf _ _ _ _ WB)).
    - left. exists r. split; [exact E|]. split; [exact W|]. split; [exact M1|]. split; [exact P|]. split; [exact N|exact M3].
    - right. split; [exact E|exact X]. }
  destruct (ss_eqb (s_ss x) (s_ss y)) eqn:ES.
  - apply ss_eqb_iff in ES. assert (Q : (if aliased then in_place_with_identical_ss KO CO PO sign (fun c => c) x false y else in_place_with_identical_ss KO CO PO sign (fun c => c) x aliased y) = in_place_with_identical_ss KO CO PO sign (fun c => c) x false y) by (destruct aliased; reflexivity).
    rewrite Q. destruct (IP x y WX WY (eq_sym ES)) as [(r & E & W & S1 & G & N & LR)|(E & F)].
    + left. exists r. split; [exact E|]. split; [exact W|]. split; [rewrite S1, <- ES; tauto|]. split; [|split; [exact N|exact LR]].
      intros us ws I. apply (entry_pointwise us x y r); auto; try (apply lw_wf; assumption). rewrite <- S1. exact I.
    + right. split; [left; exact E|]. right. left. exact F.
  - assert (aliased = false) as ->. { destruct aliased; [|reflexivity]. rewrite (AL eq_refl) in ES. assert (ss_eqb (s_ss x) (s_ss x) = true) by (apply ss_eqb_iff; reflexivity). congruence. }
    pose proof (lw_wf _ _ _ _ WX) as WX0. pose proof (lw_wf _ _ _ _ WY) as WY0.
    destruct (merge_symbol_sets_exact (s_ss x) (s_ss y) (wf_ss _ _ _ _ WX0) (wf_ss _ _ _ _ WY0) SZ) as (u & mx & my & EM & SU & IU & IX & IY & MX & MY & _).
    rewrite EM. cbn [bind].
    pose proof (extend_lf (tag_default TO) x mx u WX MX IX SU) as EX. pose proof (extend_lf (tag_default TO) y my u WY MY IY SU) as EY.
    set (FAILS := fun q : res series => (q = Throw overflow_error \/ q = Throw safe_cast_failure) /\
       ((exists u, sorted_set u /\ (forall z, In z u <-> In z (s_ss x) \/ In z (s_ss y)) /\ (unrep KS u x \/ unrep KS u y)) \/
        full (s_log2 x) (len (terms x) + len (terms y)) \/ full (s_log2 y) (len (terms x) + len (terms y)))).
    set (GOOD := fun q : res series => exists r, q = Ok r /\ LWF r /\ (forall z, In z (s_ss r) <-> In z (s_ss x) \/ In z (s_ss y)) /\
       (forall us ws, incl (s_ss r) us -> entry us r ws = merged sign (entry us x ws) (entry us y ws)) /\ (len (terms r) <= len (terms x) + len (terms y))%nat /\ s_log2 r = s_log2 x).
    assert (FIN : forall a b : series, LWF a -> LWF b -> s_ss a = u -> s_ss b = u ->
      (forall us ws, incl u us -> entry us a ws = entry us x ws) -> (forall us ws, incl u us -> entry us b ws = entry us y ws) ->
      len (terms a) = len (terms x) -> len (terms b) = len (terms y) -> s_log2 a = s_log2 x -> s_log2 b = s_log2 y ->
      GOOD (in_place_with_identical_ss KO CO PO sign (fun c => c) a false b) \/ FAILS (in_place_with_identical_ss KO CO PO sign (fun c => c) a false b)).
    { intros a b WA WB SA SB EA EB NA NB LA LB.
      destruct (IP a b WA WB) as [(r & E & W & S1 & G & N & LR)|(E & F)]; [congruence| |].
      - left. exists r. split; [exact E|]. split; [exact W|]. split; [rewrite S1, SA; exact IU|]. split; [|split; [lia|congruence]].
        intros us ws I. rewrite S1, SA in I. rewrite <- (EA us ws I), <- (EB us ws I).
        apply (entry_pointwise us a b r); auto; try (apply lw_wf; assumption); try congruence; rewrite SA; exact I.
      - right. split; [left; exact E|]. right. left. rewrite LA, NA, NB in F. exact F. }
    assert (BX : mx = [] -> s_ss x = u) by (intros ->; exact (eq_trans (eq_sym (insert_nil _ 0)) IX)).
    assert (BY : my = [] -> s_ss y = u) by (intros ->; exact (eq_trans (eq_sym (insert_nil _ 0)) IY)).
    assert (ERX : forall f (q : res series), q = Throw overflow_error \/ q = Throw safe_cast_failure ->
      (exists k c, In (k, c) (terms x) /\ ~ ks_fits KS (spread (s_ss x) u (ks_exps KS (len (s_ss x)) k))) \/
      s_log2 x <> 0%nat /\ max_table_size (s_log2 x) <= Z.of_nat (len (terms x)) -> FAILS (bind q f)).
    { intros f q [-> | ->] H; cbn [bind]; (split; [auto|]); (destruct H as [H|[H1 H2]]; [left; exists u; split; [exact SU|]; split; [exact IU|]; left; exact H|right; left; split; [exact H1|lia]]). }
    assert (ERY : forall f (q : res series), q = Throw overflow_error \/ q = Throw safe_cast_failure ->
      (exists k c, In (k, c) (terms y) /\ ~ ks_fits KS (spread (s_ss y) u (ks_exps KS (len (s_ss y)) k))) \/
      s_log2 y <> 0%nat /\ max_table_size (s_log2 y) <= Z.of_nat (len (terms y)) -> FAILS (bind q f)).
    { intros f q [-> | ->] H; cbn [bind]; (split; [auto|]); (destruct H as [H|[H1 H2]]; [left; exists u; split; [exact SU|]; split; [exact IU|]; right; exact H|right; right; split; [exact H1|lia]]). }
    destruct mx as [|p1 mx'], my as [|p2 my']; cbn [map_empty].
    + exfalso. assert (s_ss x = s_ss y) by (rewrite (BX eq_refl), (BY eq_refl); reflexivity). assert (ss_eqb (s_ss x) (s_ss y) = true) by (apply ss_eqb_iff; assumption). congruence.
    + destruct EY as [(b & Eb & Wb & Sb & _ & Lb & Db & Nb)|[E H]]; [|right; apply ERY; assumption]. rewrite Eb. cbn [bind]. apply FIN; auto.
    + destruct EX as [(a & Ea & Wa & Sa & _ & La & Da & Na)|[E H]]; [|right; apply ERX; assumption]. rewrite Ea. cbn [bind]. apply FIN; auto.
    + destruct EX as [(a & Ea & Wa & Sa & _ & La & Da & Na)|[E H]]; [|right; apply ERX; assumption]. rewrite Ea. cbn [bind].
      destruct EY as [(b & Eb & Wb & Sb & _ & Lb & Db & Nb)|[E H]]; [|right; apply ERY; assumption]. rewrite Eb. cbn [bind]. apply FIN; assumption.
Qed.
End S.
