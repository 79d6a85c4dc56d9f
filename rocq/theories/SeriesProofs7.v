(** More consequences: terms and coefficients determine each other. *)
From Coq Require Import ZArith List Bool String Arith Sorted Permutation Lia Ring Ring_theory.
From Verif Require Import Base IntModel SymModel SymSpec SymProofs P_Sym PMonSpec KeyOps SeriesModel SeriesModel2 SeriesSpec
  SeriesProofs SeriesProofs2 SeriesProofs3 SeriesProofs4 SeriesProofs5 SeriesProofs6 SeriesEval.
Import ListNotations.
Open Scope Z_scope.

Section P7.
Context {K C Tag : Type} (KO : key_ops K) (KS : key_sem K) (CO : cf_ops C).
Hypothesis KL : key_laws KO KS.
Hypothesis CL : cf_laws CO.
Notation series := (series K C Tag).
Notation exps s k := (ks_exps KS (List.length (s_ss s)) k).

Lemma spread_exps_inj us (s : series) k k' : wf KO KS CO s -> covers us s -> ks_valid KS (len (s_ss s)) k -> ks_valid KS (len (s_ss s)) k' ->
  spread (s_ss s) us (exps s k) = spread (s_ss s) us (exps s k') -> k = k'.
Proof.
  intros W [Su I] V V' E. apply (kl_inj _ _ KL (len (s_ss s))); auto.
  apply (spread_inj (s_ss s) us); auto; try (apply (kl_len _ _ KL); auto). apply sorted_set_nodup, (wf_ss _ _ _ _ W).
Qed.

Lemma coef_term us (s : series) k c : wf KO KS CO s -> covers us s -> In (k, c) (terms s) ->
  coef KS CO us s (spread (s_ss s) us (exps s k)) = c.
Proof.
  intros W Cv I. unfold coef. rewrite <- (lookup_ok KO KS CO KL CL (terms s) k c (wf_keys _ _ _ _ W) I). apply (psum_ext CO CL).
  intros x d J. destruct (k_eqb KO x k) eqn:E.
  - apply (kl_eqb _ _ KL) in E. subst. apply vec_eqb_iff. reflexivity.
  - apply (keqb_neq KO KS KL) in E. destruct (vec_eqb _ _) eqn:F; auto. apply vec_eqb_iff in F. exfalso. apply E.
    eapply (spread_exps_inj us s); eauto using wf_valid.
Qed.

Lemma coef_zero us (s : series) ws : (forall k c, In (k, c) (terms s) -> spread (s_ss s) us (exps s k) <> ws) -> coef KS CO us s ws = c_zero CO.
Proof.
  intros H. apply (psum_false CO CL). intros k c I. destruct (vec_eqb _ _) eqn:F; auto. apply vec_eqb_iff in F. exfalso. eapply H; eauto.
Qed.

Lemma coef_nonzero us (s : series) ws : wf KO KS CO s -> covers us s ->
  (coef KS CO us s ws <> c_zero CO <-> exists k c, In (k, c) (terms s) /\ spread (s_ss s) us (exps s k) = ws).
Proof.
  intros W Cv. split.
  - intros NZ. destruct (existsb (fun e => vec_eqb (spread (s_ss s) us (exps s (fst e))) ws) (terms s)) eqn:E.
    + apply existsb_exists in E as ([k c] & I & E). apply vec_eqb_iff in E. exists k, c. auto.
    + exfalso. apply NZ. apply coef_zero. intros k c I F. apply not_true_iff_false in E. apply E. apply existsb_exists. exists (k, c). split; auto. apply vec_eqb_iff. exact F.
  - intros (k & c & I & <-). rewrite (coef_term us s k c W Cv I). eapply wf_nonzero; eauto.
Qed.

(** "The symbol z occurs in s" is a property of the polynomial. *)
Lemma occurs_coef us (s : series) z : wf KO KS CO s -> covers us s ->
  ((exists i, nth_error (s_ss s) i = Some z /\ occurs KS s i) <-> In z us /\ exists ws, coef KS CO us s ws <> c_zero CO /\ expo us ws z <> 0).
Proof.
  intros W Cv. pose proof Cv as [Su I]. assert (ND := sorted_set_nodup _ (wf_ss _ _ _ _ W)). split.
  - intros (i & Ei & k & c & J & N). split; [apply I; eapply nth_error_In; eauto|].
    exists (spread (s_ss s) us (exps s k)). split; [apply (coef_nonzero us s); eauto|].
    unfold spread. rewrite expo_map. destruct (in_dec string_dec z us) as [_|NI]; [|exfalso; apply NI, I; eapply nth_error_In; eauto].
    assert (V := wf_valid _ _ _ _ W _ _ J). assert (L := kl_len _ _ KL _ _ V).
    assert (Li : (i < len (s_ss s))%nat) by (apply nth_error_Some; rewrite Ei; discriminate).
    rewrite (expo_nth (s_ss s) (exps s k) i z (nth i (exps s k) 0)); auto. apply nth_error_nth'. lia.
  - intros (Iz & ws & NZ & NE). apply (coef_nonzero us s) in NZ as (k & c & J & <-); auto.
    unfold spread in NE. rewrite expo_map in NE. destruct (in_dec string_dec z us) as [_|NI]; [|contradiction].
    assert (V := wf_valid _ _ _ _ W _ _ J). assert (L := kl_len _ _ KL _ _ V).
    destruct (in_dec string_dec z (s_ss s)) as [Is|Is]; [|rewrite expo_notin in NE by exact Is; contradiction].
    apply In_nth_error in Is as (i & Ei). exists i. split; auto. exists k, c. split; auto.
    assert (Li : (i < len (s_ss s))%nat) by (apply nth_error_Some; rewrite Ei; discriminate).
    rewrite (expo_nth (s_ss s) (exps s k) i z (nth i (exps s k) 0)) in NE; auto. apply nth_error_nth'. lia.
Qed.

Context (PO : tbl_policy (K * C)) (TO : tag_ops Tag).

Lemma not_unrep_self (s : series) : wf KO KS CO s -> ~ unrep KS (s_ss s) s.
Proof.
  intros W (k & c & I & NF). apply NF. assert (V := wf_valid _ _ _ _ W _ _ I). rewrite spread_self; [apply (kl_fits _ _ KL); auto| |apply (kl_len _ _ KL); auto].
  apply sorted_set_nodup, (wf_ss _ _ _ _ W).
Qed.

Lemma extend_unrep tg (x : series) m u : wf KO KS CO x -> ins_map_ok (len (s_ss x)) m -> insert_all (ins_at m) 0 (s_ss x) = u -> sorted_set u ->
  unrep KS u x -> forall a, extend_to KO CO PO TO tg true (fun c => c) u x m <> Ok a.
Proof.
  intros W IM EU SU (k & c & I & NF) a E.
  destruct (extend_ok KO KS CO CO PO TO KL CL (fun c => c) eq_refl (fun _ _ => eq_refl) tg true x m u W IM EU SU (or_introl eq_refl)) as [(a' & Ea & Wa & Sa & _ & _ & Da & _)|[[E'|E'] _]]; try congruence.
  assert (IS : incl (s_ss x) u) by (rewrite <- EU; apply insert_incl).
  assert (Ca : covers u a') by (split; auto; rewrite Sa; apply incl_refl).
  assert (Cx : covers u x) by (split; auto).
  assert (NZ : coef KS CO u a' (spread (s_ss x) u (exps x k)) <> c_zero CO).
  { rewrite coef_nden. unfold nden. rewrite Da.
    replace (vden KS CO x (fun v => vec_eqb (spread (s_ss a') u (spread (s_ss x) u v)) (spread (s_ss x) u (exps x k)))) with (coef KS CO u x (spread (s_ss x) u (exps x k))).
    - apply (coef_nonzero u x); eauto.
    - rewrite coef_nden. unfold nden. apply vden_ext; auto. intros v. rewrite Sa, spread_spread; auto. }
  apply (coef_nonzero u a') in NZ as (k' & d & J & Ek); auto. apply NF. rewrite <- Ek.
  assert (V := wf_valid _ _ _ _ Wa _ _ J). rewrite Sa in *. rewrite spread_self; [apply (kl_fits _ _ KL); auto|apply sorted_set_nodup; auto|apply (kl_len _ _ KL); auto].
Qed.

Lemma addsub_unrep sign (x y : series) u : wf KO KS CO x -> wf KO KS CO y -> Z.of_nat (len (s_ss x) + len (s_ss y)) <= imax size_t ->
  union_of (s_ss x) (s_ss y) u -> unrep KS u x \/ unrep KS u y -> forall r, series_addsub KO CO PO TO sign op_same op_same x y <> Ok r.
Proof.
  intros Wx Wy B [Su IU] UN r. unfold series_addsub. destruct (ss_eqb (s_ss x) (s_ss y)) eqn:ES.
  - apply ss_eqb_iff in ES. exfalso. assert (u = s_ss x) as ->.
    { apply sorted_ext; auto; [apply (wf_ss _ _ _ _ Wx)|]. intros z. rewrite IU, <- ES. tauto. }
    destruct UN as [UN|UN]; [exact (not_unrep_self x Wx UN)|]. rewrite ES in UN. exact (not_unrep_self y Wy UN).
  - destruct (merge_symbol_sets_exact (s_ss x) (s_ss y) (wf_ss _ _ _ _ Wx) (wf_ss _ _ _ _ Wy) B) as (u' & mx & my & EM & SU & IU' & IX & IY & MX & MY & _).
    rewrite EM. cbn [bind]. assert (u' = u) as -> by (apply sorted_ext; auto; intros z; rewrite IU', IU; tauto).
    assert (BX : mx = [] -> ~ unrep KS u x).
    { intros ->. assert (s_ss x = u) as <- by exact (eq_trans (eq_sym (insert_nil _ 0)) IX). apply not_unrep_self; auto. }
    assert (BY : my = [] -> ~ unrep KS u y).
    { intros ->. assert (s_ss y = u) as <- by exact (eq_trans (eq_sym (insert_nil _ 0)) IY). apply not_unrep_self; auto. }
    pose proof (extend_unrep (tag_default TO) x mx u Wx MX IX SU) as EX. pose proof (extend_unrep (tag_default TO) y my u Wy MY IY SU) as EY.
    cbn [op_same o_same o_conv].
    assert (BOTH : (a <- extend_to KO CO PO TO (tag_default TO) true (fun c => c) u x mx;; b <- extend_to KO CO PO TO (tag_default TO) true (fun c => c) u y my;;
      merge_with_identical_ss KO CO PO sign (o_mk (@op_same K C Tag)) (o_conv (@op_same K C Tag)) (o_mk (@op_same K C Tag)) (o_conv (@op_same K C Tag)) a b) <> Ok r).
    { destruct UN as [UN|UN].
      - destruct (extend_to KO CO PO TO (tag_default TO) true (fun c => c) u x mx) as [a| |] eqn:E; try discriminate. exfalso. apply (EX UN a). auto.
      - destruct (extend_to KO CO PO TO (tag_default TO) true (fun c => c) u x mx) as [a| |] eqn:E; try discriminate. cbn [bind].
        destruct (extend_to KO CO PO TO (tag_default TO) true (fun c => c) u y my) as [b| |] eqn:E'; try discriminate. exfalso. apply (EY UN b). auto. }
    destruct mx as [|p1 mx], my as [|p2 my]; cbn [map_empty]; try exact BOTH.
    + destruct UN as [UN|UN]; [exfalso; apply BX; auto|]. cbn [op_same o_same o_conv].
      destruct (extend_to KO CO PO TO (tag_default TO) true (fun c => c) u y (p2 :: my)) as [b| |] eqn:E'; try discriminate. exfalso. apply (EY UN b). auto.
    + destruct UN as [UN|UN]; [|exfalso; apply BY; auto]. cbn [op_same o_same o_conv].
      destruct (extend_to KO CO PO TO (tag_default TO) true (fun c => c) u x (p1 :: mx)) as [b| |] eqn:E'; try discriminate. exfalso. apply (EX UN b). auto.
Qed.

Lemma equal_unrep (x y : series) u : wf KO KS CO x -> wf KO KS CO y -> Z.of_nat (len (s_ss x) + len (s_ss y)) <= imax size_t ->
  union_of (s_ss x) (s_ss y) u -> unrep KS u x \/ unrep KS u y -> forall r, series_equal_to KO CO PO TO x y <> Ok r.
Proof.
  intros Wx Wy B [Su IU] UN r. unfold series_equal_to. destruct (ss_eqb (s_ss x) (s_ss y)) eqn:ES.
  - apply ss_eqb_iff in ES. exfalso. assert (u = s_ss x) as ->.
    { apply sorted_ext; auto; [apply (wf_ss _ _ _ _ Wx)|]. intros z. rewrite IU, <- ES. tauto. }
    destruct UN as [UN|UN]; [exact (not_unrep_self x Wx UN)|]. rewrite ES in UN. exact (not_unrep_self y Wy UN).
  - destruct (merge_symbol_sets_exact (s_ss x) (s_ss y) (wf_ss _ _ _ _ Wx) (wf_ss _ _ _ _ Wy) B) as (u' & mx & my & EM & SU & IU' & IX & IY & MX & MY & _).
    rewrite EM. cbn [bind]. assert (u' = u) as -> by (apply sorted_ext; auto; intros z; rewrite IU', IU; tauto).
    assert (BX : mx = [] -> ~ unrep KS u x).
    { intros ->. assert (s_ss x = u) as <- by exact (eq_trans (eq_sym (insert_nil _ 0)) IX). apply not_unrep_self; auto. }
    assert (BY : my = [] -> ~ unrep KS u y).
    { intros ->. assert (s_ss y = u) as <- by exact (eq_trans (eq_sym (insert_nil _ 0)) IY). apply not_unrep_self; auto. }
    pose proof (extend_unrep (s_tag x) x mx u Wx MX IX SU) as EX. pose proof (extend_unrep (s_tag y) y my u Wy MY IY SU) as EY.
    assert (FX : forall f, unrep KS u x -> (a <- extend_to KO CO PO TO (s_tag x) true (fun c => c) u x mx ;; f a) <> @Ok bool r).
    { intros f U. destruct (extend_to KO CO PO TO (s_tag x) true (fun c => c) u x mx) as [a| |] eqn:E; try discriminate. exfalso. apply (EX U a). auto. }
    assert (FY : forall f, unrep KS u y -> (a <- extend_to KO CO PO TO (s_tag y) true (fun c => c) u y my ;; f a) <> @Ok bool r).
    { intros f U. destruct (extend_to KO CO PO TO (s_tag y) true (fun c => c) u y my) as [a| |] eqn:E; try discriminate. exfalso. apply (EY U a). auto. }
    assert (BOTH : (a <- extend_to KO CO PO TO (s_tag x) true (fun c => c) u x mx;; b <- extend_to KO CO PO TO (s_tag y) true (fun c => c) u y my;;
      series_cmp_identical_ss KO TO (c_eqb CO) a b) <> Ok r).
    { destruct UN as [UN|UN]; [apply FX; exact UN|].
      destruct (extend_to KO CO PO TO (s_tag x) true (fun c => c) u x mx) as [a| |] eqn:E; try discriminate. cbn [bind]. apply FY; exact UN. }
    destruct mx as [|p1 mx], my as [|p2 my]; cbn [map_empty]; try exact BOTH.
    + destruct UN as [UN|UN]; [exfalso; apply BX; auto|]. apply FY; exact UN.
    + destruct UN as [UN|UN]; [|exfalso; apply BY; auto]. apply FX; exact UN.
Qed.
End P7.
