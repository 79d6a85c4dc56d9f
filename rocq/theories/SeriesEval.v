(** Proofs about evaluation: it computes the value of the polynomial at the given point. *)
From Coq Require Import ZArith List Bool String Arith Sorted Permutation Lia Ring Ring_theory.
From Verif Require Import Base IntModel SymModel SymSpec SymProofs P_Sym PMonSpec KeyOps SeriesModel SeriesModel2 SeriesSpec
  SeriesProofs SeriesProofs2 SeriesProofs3 SeriesProofs4 SeriesProofs6 Lin EvalSpec.
Import ListNotations.
Open Scope Z_scope.
Notation len := List.length.

(** A strictly increasing sequence of n numbers below n is 0, 1, ..., n-1. *)
Lemma sorted_full : forall (l : list nat) a n, StronglySorted lt l -> (forall i, In i l -> (a <= i < a + n)%nat) -> len l = n -> l = seq a n.
Proof.
  intros l a n HS HB HL. assert (ND : NoDup l).
  { clear HB HL. induction HS; constructor; auto. intros I. rewrite Forall_forall in H. apply H in I. lia. }
  assert (P : forall i, In i (seq a n) <-> In i l).
  { assert (I1 : incl l (seq a n)) by (intros i I; apply in_seq; apply HB; auto).
    assert (I2 : incl (seq a n) l) by (apply NoDup_length_incl; auto; rewrite seq_length; lia). intros i; split; [apply I2|apply I1]. }
  assert (S2 : StronglySorted lt (seq a n)).
  { clear. revert a. induction n; cbn; intros; constructor; auto. apply Forall_forall. intros i I. apply in_seq in I. lia. }
  clear HB HL ND. revert P S2. generalize (seq a n). clear a n.
  induction HS as [|x l HS IH HF]; intros s P S2.
  - destruct s; auto. exfalso. apply (P n). left; auto.
  - destruct S2 as [|y s S2 HF2]; [exfalso; apply (P x); left; auto|].
    rewrite Forall_forall in HF, HF2.
    assert (x = y).
    { assert (In x (y :: s)) by (apply P; left; auto). assert (In y (x :: l)) by (apply P; left; auto). cbn in *.
      destruct H as [->|H]; auto. destruct H0 as [->|H0]; auto. apply HF2 in H. apply HF in H0. lia. }
    subst y. f_equal. apply IH; auto. intros i. split; intros I.
    + assert (J : In i (x :: l)) by (apply P; right; auto). destruct J as [<-|J]; auto. apply HF2 in I. lia.
    + assert (J : In i (x :: s)) by (apply P; right; auto). destruct J as [<-|J]; auto. apply HF in I. lia.
Qed.

Lemma nth_error_ext {A} : forall a b : list A, (forall i, nth_error a i = nth_error b i) -> a = b.
Proof.
  induction a as [|x a IH]; intros [|y b] H; auto; try (specialize (H O); discriminate).
  f_equal; [specialize (H O); cbn in H; congruence|]. apply IH. intros i. apply (H (S i)).
Qed.

Lemma nodup_join {A} (a b : list A) : NoDup a -> NoDup b -> (forall x, In x a -> ~ In x b) -> NoDup (a ++ b).
Proof.
  induction 1 as [|x a NI ND IH]; cbn; intros NB D; auto. constructor.
  - rewrite in_app_iff. intros [I|I]; auto. apply (D x); auto.
  - apply IH; auto.
Qed.

Lemma expo_notin ss vs z : ~ In z ss -> expo ss vs z = 0.
Proof.
  revert vs. induction ss as [|a ss IH]; intros [|v vs] NI; cbn; auto.
  destruct (String.eqb_spec a z); [subst; exfalso; apply NI; left; auto|]. apply IH. intros I; apply NI; right; auto.
Qed.

Lemma expo_nth : forall (ss : list string) (vs : list Z) i z e, NoDup ss -> nth_error ss i = Some z -> nth_error vs i = Some e -> expo ss vs z = e.
Proof.
  induction ss as [|a ss IH]; intros [|v vs] [|i] z e ND E1 E2; cbn in *; try discriminate.
  - inversion E1; inversion E2; subst. rewrite String.eqb_refl. reflexivity.
  - inversion ND; subst. destruct (String.eqb_spec a z); [subst; exfalso; apply H1; eapply nth_error_In; eauto|]. eapply IH; eauto.
Qed.

Section E.
Context {K C Tag V U : Type} (KO : key_ops K) (KS : key_sem K) (CO : cf_ops C).
Context (KL : key_laws KO KS) (CL : cf_laws CO).
Context (vzero vone : V) (vadd vmul vsub : V -> V -> V) (vopp : V -> V).
Hypothesis VR : ring_theory vzero vone vadd vmul vsub vopp (@eq V).
Add Ring Vring : VR.
Context (vpow : U -> Z -> res V) (pw : U -> Z -> V) (ceval : C -> res V) (h : C -> V).
Hypothesis HC : forall c, ceval c = Ok (h c).
Hypothesis h0 : h (c_zero CO) = vzero.
Hypothesis h1 : forall a b, h (c_add CO a b) = vadd (h a) (h b).
Local Notation factor := (factor vone pw).
Local Notation mono := (mono vone vmul pw).
Local Notation value := (value KS vzero vone vadd vmul pw h).
Local Notation powers_exist := (powers_exist KS vpow pw).
Local Notation pow0 := (pow0 vone pw).



Lemma prod_perm (a b : list V) : Permutation a b -> fold_right vmul vone a = fold_right vmul vone b.
Proof. induction 1; cbn; try congruence; ring. Qed.

Lemma prod_left (l : list V) : forall acc, fold_left vmul l acc = vmul acc (fold_right vmul vone l).
Proof. induction l; intros acc; cbn; [ring|]. rewrite IHl. ring. Qed.

Lemma assoc_in (m : symbol_map U) z v : NoDup (map fst m) -> (assoc m z = Some v <-> In (z, v) m).
Proof.
  intros ND. unfold assoc. induction m as [|[n x] m IH]; cbn; [split; [discriminate|tauto]|].
  inversion ND; subst. destruct (String.eqb_spec n z).
  - subst. cbn. split; [intros [= ->]; auto|]. intros [[= <-]|I]; auto. exfalso. apply H1. apply in_map_iff. exists (z, v); auto.
  - rewrite IH; auto. split; auto. intros [[= ? ?]|I]; [congruence|auto].
Qed.

Lemma mono_more (m : symbol_map U) ss us vs : (forall z v, In (z, v) m -> pw v 0 = vone) -> NoDup (map fst m) -> NoDup ss -> NoDup us -> incl ss us -> mono m ss vs us = mono m ss vs ss.
Proof.
  intros P0 ND N1 N2 I. unfold mono.
  set (f := fun z => if in_dec string_dec z ss then false else true).
  assert (P : Permutation us (ss ++ filter f us)).
  { apply NoDup_Permutation; auto.
    - apply nodup_join; auto; [apply NoDup_filter; auto|]. intros z I1 I2. apply filter_In in I2 as [_ E]. unfold f in E. destruct (in_dec string_dec z ss); [discriminate|contradiction].
    - intros z. rewrite in_app_iff, filter_In. unfold f. split.
      + intros J. destruct (in_dec string_dec z ss); auto.
      + intros [J|[J _]]; auto. }
  rewrite (prod_perm _ _ (Permutation_map (factor m ss vs) P)), map_app, fold_right_app.
  assert (R : forall l, fold_right vmul vone (map (factor m ss vs) (filter f l)) = vone).
  { induction l as [|z l IH]; cbn; auto. unfold f at 1. destruct (in_dec string_dec z ss) as [J|J]; cbn; auto.
    rewrite IH. unfold factor. rewrite expo_notin by exact J. destruct (assoc m z) as [v|] eqn:E; [|ring].
    apply assoc_in in E; auto. rewrite (P0 z v E). ring. }
  rewrite R. reflexivity.
Qed.



Lemma intersect_full (m : symbol_map U) (ss : symbol_set) : sorted_set (map fst m) -> sorted_set ss ->
  (len (sm_intersect_idx m ss) = len ss <-> incl ss (map fst m)) /\
  (incl ss (map fst m) -> exists xs : list U, sm_intersect_idx m ss = combine (seq 0 (len ss)) xs /\ len xs = len ss /\
     forall i z x, nth_error ss i = Some z -> nth_error xs i = Some x -> In (z, x) m).
Proof.
  intros Hm Hs. destruct (sm_intersect_idx_exact U m ss Hm Hs) as [A B].
  set (r := sm_intersect_idx m ss) in *.
  assert (BD : forall i, In i (map fst r) -> (0 <= i < 0 + len ss)%nat).
  { intros i I. apply in_map_iff in I as ([j v] & <- & I). apply B in I as (n & E & _). cbn. split; [lia|]. apply nth_error_Some. rewrite E. discriminate. }
  assert (NDr : NoDup (map fst r)).
  { clear -A. induction A; constructor; auto. intros I. rewrite Forall_forall in H. apply H in I. lia. }
  assert (NDs : NoDup ss) by (apply sorted_set_nodup; auto).
  assert (FULL : len r = len ss -> map fst r = seq 0 (len ss)).
  { intros E. apply sorted_full; auto. rewrite map_length. exact E. }
  split.
  - split.
    + intros E z I. apply FULL in E. apply In_nth_error in I as (i & Ei).
      assert (In i (map fst r)). { rewrite E. apply in_seq. split; [lia|]. apply nth_error_Some. rewrite Ei. discriminate. }
      apply in_map_iff in H as ([j v] & <- & I). apply B in I as (n & En & I). cbn in *. assert (n = z) by congruence. subst. apply in_map_iff. exists (z, v); auto.
    + intros I. apply Nat.le_antisymm.
      * rewrite <- (map_length fst r), <- (seq_length (len ss) 0). apply NoDup_incl_length; auto. intros i J. apply in_seq. apply BD; auto.
      * rewrite <- (map_length fst r), <- (seq_length (len ss) 0). apply NoDup_incl_length; [apply seq_NoDup|]. intros i J. apply in_seq in J as [_ J].
        destruct (nth_error ss i) as [z|] eqn:E; [|apply nth_error_None in E; cbn in J; lia].
        assert (J2 := nth_error_In _ _ E). apply I in J2. apply in_map_iff in J2 as ([z' v] & Ez & J2). cbn in Ez. subst z'.
        apply in_map_iff. exists (i, v). split; auto. apply B. eauto.
  - intros I. assert (E : len r = len ss).
    { apply Nat.le_antisymm.
      * rewrite <- (map_length fst r), <- (seq_length (len ss) 0). apply NoDup_incl_length; auto. intros i J. apply in_seq. apply BD; auto.
      * rewrite <- (map_length fst r), <- (seq_length (len ss) 0). apply NoDup_incl_length; [apply seq_NoDup|]. intros i J. apply in_seq in J as [_ J].
        destruct (nth_error ss i) as [z|] eqn:E; [|apply nth_error_None in E; cbn in J; lia].
        assert (J2 := nth_error_In _ _ E). apply I in J2. apply in_map_iff in J2 as ([z' v] & Ez & J2). cbn in Ez. subst z'.
        apply in_map_iff. exists (i, v). split; auto. apply B. eauto. }
    exists (map snd r). rewrite <- (FULL E). split; [|split].
    + clear. induction r as [|[a b] r IH]; cbn; congruence.
    + rewrite map_length. exact E.
    + intros i z x E1 E2. assert (E3 : nth_error (map fst r) i = Some i).
      { rewrite (FULL E). assert (i < len ss)%nat by (apply nth_error_Some; rewrite E1; discriminate).
        rewrite (nth_error_nth' _ 0%nat) by (rewrite seq_length; lia). rewrite seq_nth by lia. reflexivity. }
      rewrite nth_error_map in E2, E3. destruct (nth_error r i) as [[a b]|] eqn:Er; cbn in *; try discriminate.
      inversion E2; inversion E3; subst. apply nth_error_In in Er. apply B in Er as (n & En & In'). congruence.
Qed.

Lemma mono_combine (m : symbol_map U) (ss : symbol_set) (xs : list U) vs : NoDup (map fst m) -> NoDup ss -> len xs = len ss -> len vs = len ss ->
  (forall i z x, nth_error ss i = Some z -> nth_error xs i = Some x -> In (z, x) m) ->
  map (fun q => pw (fst q) (snd q)) (combine xs vs) = map (factor m ss vs) ss.
Proof.
  intros NDm NDs L1 L2 H. apply nth_error_ext. intros i. rewrite !nth_error_map.
  destruct (nth_error ss i) as [z|] eqn:E.
  - assert (Li : (i < len ss)%nat) by (apply nth_error_Some; rewrite E; discriminate).
    destruct (nth_error xs i) as [x|] eqn:Ex; [|apply nth_error_None in Ex; lia].
    destruct (nth_error vs i) as [v|] eqn:Ev; [|apply nth_error_None in Ev; lia].
    assert (EC : nth_error (combine xs vs) i = Some (x, v)).
    { clear -Ex Ev. revert vs i Ex Ev. induction xs; intros [|b vs] [|i] Ex Ev; cbn in *; try discriminate; [congruence|eauto]. }
    rewrite EC. cbn. f_equal. unfold factor. assert (J := H _ _ _ E Ex). apply assoc_in in J; auto. rewrite J. f_equal. symmetry. eapply expo_nth; eauto.
  - assert (nth_error (combine xs vs) i = None) as ->; [|reflexivity]. apply nth_error_None. rewrite combine_length. apply nth_error_None in E. lia.
Qed.

Lemma evaluate_ok (m : symbol_map U) (s : series K C Tag) : wf KO KS CO s -> sorted_set (map fst m) ->
  (~ incl (s_ss s) (map fst m) -> series_evaluate KO vzero vone vadd vmul vpow ceval s m = Throw invalid_argument) /\
  (incl (s_ss s) (map fst m) -> powers_exist m s ->
     series_evaluate KO vzero vone vadd vmul vpow ceval s m = Ok (value m s)).
Proof.
  intros W Hm. assert (Hs := wf_ss _ _ _ _ W). destruct (intersect_full m (s_ss s) Hm Hs) as [A B]. unfold series_evaluate. split.
  - intros NI. destruct (Nat.eqb_spec (len (sm_intersect_idx m (s_ss s))) (len (s_ss s))); cbn; auto. exfalso. apply NI, A; auto.
  - intros I PE. destruct (B I) as (xs & E & L & H). apply A in I as LE. rewrite LE, Nat.eqb_refl. cbn [negb]. rewrite E.
    unfold value. unfold powers_exist in PE.
    assert (G : forall l acc, incl l (terms s) ->
      rfold (fun acc e => kv <- k_evaluate KO vone vmul vpow (fst e) (combine (seq 0 (len (s_ss s))) xs) (s_ss s) ;;
        cv <- ceval (snd e) ;; Ok (vadd acc (vmul kv cv))) l acc =
      Ok (vadd acc (fold_right vadd vzero (map (fun e => vmul (h (snd e)) (mono m (s_ss s) (ks_exps KS (len (s_ss s)) (fst e)) (s_ss s))) l)))).
    { induction l as [|[k c] l IH]; intros acc IL; cbn [rfold map fold_right fst snd].
      - f_equal. ring.
      - assert (J : In (k, c) (terms s)) by (apply IL; left; auto).
        assert (VK := wf_valid _ _ _ _ W _ _ J).
        rewrite (kl_evaluate _ _ KL V U vone vmul vpow pw k (s_ss s) xs VK L).
        + cbn [bind]. rewrite HC. cbn [bind]. rewrite IH by (intros e Ie; apply IL; right; auto). f_equal.
          assert (NDs : NoDup (s_ss s)) by (apply sorted_set_nodup; auto).
          rewrite (mono_combine m (s_ss s) xs (ks_exps KS (len (s_ss s)) k)); auto.
          * rewrite prod_left. fold (mono m (s_ss s) (ks_exps KS (len (s_ss s)) k) (s_ss s)). ring.
          * apply sorted_set_nodup; auto.
          * apply (kl_len _ _ KL); auto.
        + intros x e Ix. apply In_nth_error in Ix as (i & Ei).
          assert (EC : forall (a : list U) (b : list Z) i x e, nth_error (combine a b) i = Some (x, e) -> nth_error a i = Some x /\ nth_error b i = Some e).
          { clear. induction a; intros [|b bs] [|i] x e Ei; cbn in *; try discriminate; [inversion Ei; auto|auto]. }
          apply EC in Ei as [Ex Ee]. assert (Li : (i < len xs)%nat) by (apply nth_error_Some; rewrite Ex; discriminate).
          destruct (nth_error (s_ss s) i) as [z|] eqn:Ez; [|apply nth_error_None in Ez; lia].
          assert (NDs : NoDup (s_ss s)) by (apply sorted_set_nodup; auto).
          assert (EE := expo_nth _ _ _ _ _ NDs Ez Ee). rewrite <- EE. apply (PE z x k c); eauto using nth_error_In. }
    rewrite G by (intros e Ie; auto). f_equal. ring.
Qed.

(** The value depends only on the polynomial. *)
Definition vt (us : symbol_set) (s : series K C Tag) : list (list Z * C) :=
  map (fun e => (spread (s_ss s) us (ks_exps KS (len (s_ss s)) (fst e)), snd e)) (terms s).

Lemma vt_psum us (s : series K C Tag) Q : psum CO Q (vt us s) = nden KS CO us s Q.
Proof.
  unfold vt, nden, vden, psum. f_equal. induction (terms s) as [|e l IH]; cbn [map filter fst snd]; auto.
  destruct (Q _); cbn [map snd]; congruence.
Qed.

Notation LIN := (lin vzero vadd vmul h).
Notation W m us := (fun ws => mono m us ws us).
Notation vdec := (list_eq_dec Z.eq_dec).

Lemma mono_spread (m : symbol_map U) ss us vs : incl ss us -> NoDup us -> mono m us (spread ss us vs) us = mono m ss vs us.
Proof.
  intros I ND. unfold mono. f_equal. apply map_ext_in. intros z J. unfold factor. destruct (assoc m z); auto. f_equal.
  unfold spread. rewrite expo_map. destruct (in_dec string_dec z us); [reflexivity|contradiction].
Qed.


Lemma value_lin (m : symbol_map U) us (s : series K C Tag) : wf KO KS CO s -> covers us s -> sorted_set (map fst m) -> pow0 m ->
  value m s = LIN (W m us) (vt us s).
Proof.
  intros Wf [Su I] Hm P0. unfold value, vt. assert (Hs := wf_ss _ _ _ _ Wf). induction (terms s) as [|e l IH]; cbn [map fold_right lin fst snd]; auto.
  rewrite IH. f_equal. f_equal. rewrite mono_spread; auto; [|apply sorted_set_nodup; auto]. symmetry. apply mono_more; auto; apply sorted_set_nodup; auto.
Qed.

Lemma h_sg sign c : h (sg CO sign c) = (if sign then h c else vopp (h c)).
Proof.
  destruct sign; cbn [sg]; auto. assert (E : vadd (h (c_neg CO c)) (h c) = vzero).
  { rewrite <- h1, <- h0. f_equal. rewrite (Radd_comm (cl_ring _ CL)). apply (Ropp_def (cl_ring _ CL)). }
  transitivity (vadd (vadd (h (c_neg CO c)) (h c)) (vopp (h c))); [ring|]. rewrite E. ring.
Qed.

Lemma psum_sg sign (Q : list Z -> bool) (l : list (list Z * C)) : psum CO Q (map (fun e => (fst e, sg CO sign (snd e))) l) = sg CO sign (psum CO Q l).
Proof. destruct (sg_hom CO CL sign) as [S0 S1]. rewrite (psum_map CO CL Q (fun v => v) (sg CO sign) CO l S0 S1). reflexivity. Qed.

Lemma lin_sg sign w (l : list (list Z * C)) : LIN w (map (fun e => (fst e, sg CO sign (snd e))) l) = if sign then LIN w l else vopp (LIN w l).
Proof.
  induction l as [|e l IH]; cbn [map lin fst snd]; [destruct sign; ring|]. rewrite IH, h_sg. destruct sign; ring.
Qed.

Lemma value_sum (m : symbol_map U) us sign (r x y : series K C Tag) : wf KO KS CO r -> wf KO KS CO x -> wf KO KS CO y ->
  covers us r -> covers us x -> covers us y -> sorted_set (map fst m) -> pow0 m ->
  (forall ws, coef KS CO us r ws = c_add CO (coef KS CO us x ws) (sg CO sign (coef KS CO us y ws))) ->
  value m r = vadd (value m x) (if sign then value m y else vopp (value m y)).
Proof.
  intros Wr Wx Wy Cr Cx Cy Hm P0 E.
  rewrite (value_lin m us r), (value_lin m us x), (value_lin m us y) by auto.
  rewrite <- lin_sg. rewrite <- (lin_app vzero vone vadd vmul vsub vopp VR h).
  apply (lin_ext CO vzero vone vadd vmul vsub vopp VR vdec h h0 h1). intros a.
  change (psum CO (fun x => vec_eqb x a) (vt us r) = psum CO (fun x => vec_eqb x a) (vt us x ++ map (fun e => (fst e, sg CO sign (snd e))) (vt us y))).
  rewrite (psum_app CO CL), psum_sg, !vt_psum, <- !coef_nden. apply E.
Qed.

Lemma value_ext (m : symbol_map U) us (x y : series K C Tag) : wf KO KS CO x -> wf KO KS CO y -> covers us x -> covers us y -> sorted_set (map fst m) -> pow0 m ->
  (forall ws, coef KS CO us x ws = coef KS CO us y ws) -> value m x = value m y.
Proof.
  intros Wx Wy Cx Cy Hm P0 E. rewrite (value_lin m us x), (value_lin m us y) by auto.
  apply (lin_ext CO vzero vone vadd vmul vsub vopp VR vdec h h0 h1). intros a.
  change (psum CO (fun x => vec_eqb x a) (vt us x) = psum CO (fun x => vec_eqb x a) (vt us y)). rewrite !vt_psum, <- !coef_nden. apply E.
Qed.
End E.
