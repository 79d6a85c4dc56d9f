(** Proofs about series.hpp, part 2: symbol set extension, addition and subtraction. *)
From Coq Require Import ZArith List Bool String Arith Sorted Permutation Lia Ring Ring_theory.
From Verif Require Import Base IntModel SymModel SymSpec SymProofs P_Sym PMonSpec PMonProofs2 KeyOps SeriesModel SeriesModel2 SeriesSpec SeriesProofs.
Import ListNotations.
Open Scope Z_scope.

(** ** Exponents by name *)
Lemma sorted_set_nodup l : sorted_set l -> NoDup l.
Proof.
  induction 1 as [|a l S IH F]; constructor; auto. intros I. rewrite Forall_forall in F. specialize (F a I).
  exact (slt_irrefl a F).
Qed.

Lemma map_expo_self u : forall ws, NoDup u -> len ws = len u -> map (expo u ws) u = ws.
Proof.
  induction u as [|y u IH]; intros [|w ws] N L; try discriminate; [reflexivity|]. inversion N; subst. cbn [map expo]. rewrite String.eqb_refl. f_equal.
  transitivity (map (expo u ws) u); [|apply IH; auto]. apply map_ext_in. intros x I. cbn [expo].
  destruct (String.eqb_spec y x); [|reflexivity]. subst. contradiction.
Qed.

Lemma spread_self ss vs : NoDup ss -> len vs = len ss -> spread ss ss vs = vs.
Proof. apply map_expo_self. Qed.

Lemma expo_map ss (f : string -> Z) x : expo ss (map f ss) x = if in_dec string_dec x ss then f x else 0.
Proof.
  induction ss as [|y ss IH]; [reflexivity|]. cbn [map expo]. rewrite IH. destruct (String.eqb_spec y x) as [->|N].
  - destruct (in_dec string_dec x (x :: ss)) as [_|X]; [reflexivity|]. elim X. left. reflexivity.
  - destruct (in_dec string_dec x ss) as [I|I], (in_dec string_dec x (y :: ss)) as [J|J]; auto.
    + elim J. right. exact I.
    + destruct J; [congruence|contradiction].
Qed.

Lemma spread_spread ss u us vs : incl ss u -> spread u us (spread ss u vs) = spread ss us vs.
Proof.
  intros I. unfold spread. apply map_ext. intros x. rewrite expo_map. destruct (in_dec string_dec x u) as [J|J]; [reflexivity|].
  symmetry. apply expo_notin. intros X. apply J, I, X.
Qed.

Lemma spread_len ss u vs : len (spread ss u vs) = len u.
Proof. apply map_length. Qed.

Lemma insert_len (m : list (nat * list string)) : forall (s : list string) (vs : list Z) i, len vs = len s ->
  len (insert_all (fun j => map (fun _ => 0) (ins_at m j)) i vs) = len (insert_all (ins_at m) i s).
Proof.
  induction s as [|x s IH]; intros [|v vs] i L; try discriminate; cbn [insert_all].
  - apply map_length.
  - rewrite !app_length, map_length. cbn [List.length]. rewrite IH; auto.
Qed.

(** Inserting zeros according to the map is spreading over the union. *)
Lemma insert_is_spread m ss u vs : insert_all (ins_at m) 0 ss = u -> NoDup u -> len vs = len ss ->
  insert_zeros m vs = spread ss u vs.
Proof.
  intros E N L. unfold spread. rewrite <- (map_expo_self u (insert_zeros m vs) N).
  - apply map_ext. intros x. unfold insert_zeros. subst u. apply expo_insert; auto.
  - unfold insert_zeros. rewrite (insert_len m ss vs 0 L). rewrite E. reflexivity.
Qed.

Lemma insert_incl f : forall (ss : list string) i, incl ss (insert_all f i ss).
Proof.
  induction ss as [|y ss IH]; intros i x I; [contradiction|]. cbn [insert_all]. apply in_or_app. right.
  destruct I as [->|I]; [left; reflexivity|right; apply IH; exact I].
Qed.

Lemma spread_inj ss u vs ws : incl ss u -> NoDup ss -> len vs = len ss -> len ws = len ss -> spread ss u vs = spread ss u ws -> vs = ws.
Proof.
  intros I N L1 L2 E. apply (expo_inj ss); auto. intros x. destruct (in_dec string_dec x ss) as [J|J]; [|rewrite !expo_notin by auto; reflexivity].
  apply I in J. unfold spread in E. clear -E J. induction u as [|y u IH]; [contradiction|]. cbn [map] in E. inversion E. destruct J as [->|J]; auto.
Qed.

(** ** Generic loops *)
Lemma rfold_app {A S} (f : S -> A -> res S) a b s : rfold f (a ++ b) s = (s' <- rfold f a s ;; rfold f b s').
Proof. revert s. induction a as [|x a IH]; intros s; [reflexivity|]. cbn [app rfold]. destruct (f s x); cbn [bind]; auto. Qed.

Lemma rfold_pre {A B S} (pre : A -> res B) (f : S -> B -> res S) : forall l l' s, rmap pre l = Ok l' ->
  rfold (fun s a => b <- pre a ;; f s b) l s = rfold f l' s.
Proof.
  induction l as [|a l IH]; intros l' s H; cbn [rmap] in H; [inversion H; reflexivity|].
  cbn [rfold]. destruct (pre a) as [b| |]; try discriminate. cbn [bind] in *. destruct (rmap pre l) as [bs| |]; try discriminate.
  cbn [bind] in H. inversion H; subst. cbn [rfold]. destruct (f s b); cbn [bind]; auto.
Qed.

Lemma rmap_ok {A B} (f : A -> res B) (R : A -> B -> Prop) : forall l, (forall a, In a l -> exists b, f a = Ok b /\ R a b) ->
  exists l', rmap f l = Ok l' /\ Forall2 R l l'.
Proof.
  induction l as [|a l IH]; intros H; [exists []; split; [reflexivity|constructor]|].
  destruct (H a (or_introl eq_refl)) as (b & E & Rb). destruct IH as (l' & E' & F); [intros; apply H; right; assumption|].
  exists (b :: l'). split; [|constructor; auto]. cbn [rmap]. rewrite E, E'. reflexivity.
Qed.

Lemma Forall2_length {A B} (R : A -> B -> Prop) l l' : Forall2 R l l' -> len l = len l'.
Proof. induction 1; cbn; auto. Qed.

(** Either all the elements satisfy Q, or there is a first one which does not. *)
Lemma first_bad {A} (Q : A -> Prop) (dec : forall a, Q a \/ ~ Q a) (l : list A) :
  (forall a, In a l -> Q a) \/ exists l1 a l2, l = l1 ++ a :: l2 /\ (forall b, In b l1 -> Q b) /\ ~ Q a.
Proof.
  induction l as [|a l IH]; [left; intros a []|]. destruct (dec a) as [q|q].
  - destruct IH as [IH|(l1 & b & l2 & E & F & N)].
    + left. intros b [<-|I]; auto.
    + right. exists (a :: l1), b, l2. subst l. split; [reflexivity|]. split; auto. intros c [<-|I]; auto.
  - right. exists [], a, l. split; [reflexivity|]. split; auto. intros b [].
Qed.

Section Ext.
Context {K C' C Tag : Type} (KO : key_ops K) (KS : key_sem K) (CO' : cf_ops C') (CO : cf_ops C) (PO : tbl_policy (K * C)) (TO : tag_ops Tag).
Hypothesis KL : key_laws KO KS.
Hypothesis CL : cf_laws CO.
Variable g : C' -> C.
Hypothesis G0 : g (c_zero CO') = c_zero CO.
Hypothesis G1 : forall a b, g (c_add CO' a b) = c_add CO (g a) (g b).

Lemma set_n_segments_ok (s : series K C Tag) l : (l <= max_log2_size)%nat -> sorted_set (s_ss s) ->
  set_n_segments s l = Ok (Series (repeat [] (2 ^ l)) l (s_tag s) (s_ss s)) /\ wf KO KS CO (Series (repeat [] (2 ^ l)) l (s_tag s) (s_ss s)).
Proof.
  intros L SS. unfold set_n_segments. assert ((max_log2_size <? l)%nat = false) as -> by (apply Nat.ltb_ge; exact L).
  split; [reflexivity|]. apply wf_iff. unfold wf'. cbn [s_ss s_log2 s_tables].
  split; auto. split; auto. split; [apply repeat_length|]. intros i t H.
  apply nth_error_In in H. apply repeat_spec in H. subst t. split; [constructor|]. split; [intros k c []|]. intros _. cbn.
  unfold max_table_size. apply Z.div_pos; [cbn; lia|]. apply Z.pow_pos_nonneg; lia.
Qed.

Lemma terms_repeat_nil (A : Type) n : List.concat (repeat (@nil A) n) = [].
Proof. induction n; cbn; auto. Qed.

(** Vector-level denotation. *)
Definition vden {C0} (CO0 : cf_ops C0) (s : series K C0 Tag) (Q : list Z -> bool) : C0 :=
  psum CO0 (fun k => Q (ks_exps KS (len (s_ss s)) k)) (terms s).

Lemma vden_ext {C0} (CO0 : cf_ops C0) (CL0 : cf_laws CO0) (s : series K C0 Tag) Q Q' : (forall v, Q v = Q' v) -> vden CO0 s Q = vden CO0 s Q'.
Proof. intros H. apply psum_ext; auto. Qed.

Lemma extend_ok tg cz (x : series K C' Tag) m u :
  wf KO KS CO' x -> ins_map_ok (len (s_ss x)) m -> insert_all (ins_at m) 0 (s_ss x) = u -> sorted_set u ->
  (cz = true \/ forall c, c <> c_zero CO' -> g c <> c_zero CO) ->
  (exists a, extend_to KO CO PO TO tg cz g u x m = Ok a /\ wf KO KS CO a /\ s_ss a = u /\ s_tag a = tg /\ s_log2 a = s_log2 x /\
     (forall Q, vden CO a Q = g (vden CO' x (fun v => Q (spread (s_ss x) u v)))) /\ (len (terms a) <= len (terms x))%nat) \/
  ((extend_to KO CO PO TO tg cz g u x m = Throw overflow_error \/ extend_to KO CO PO TO tg cz g u x m = Throw safe_cast_failure) /\
   ((exists k c, In (k, c) (terms x) /\ ~ ks_fits KS (spread (s_ss x) u (ks_exps KS (len (s_ss x)) k))) \/
    (s_log2 x <> 0%nat /\ max_table_size (s_log2 x) <= Z.of_nat (len (terms x))))).
Proof.
  intros W IM EU SU CZ.
  pose proof (wf_valid _ _ _ _ W) as V.
  assert (SP : forall k c, In (k, c) (terms x) -> insert_zeros m (ks_exps KS (len (s_ss x)) k) = spread (s_ss x) u (ks_exps KS (len (s_ss x)) k)).
  { intros k c I. apply insert_is_spread; auto; [apply sorted_set_nodup; exact SU|]. apply (kl_len _ _ KL). eauto. }
  destruct (set_n_segments_ok (Series [[]] 0 tg u) (s_log2 x)) as [E0 W0]; [apply (wf_log2 _ _ _ _ W)|exact SU|].
  cbn [s_tag s_ss] in W0, E0. set (to := Series (repeat [] (2 ^ s_log2 x)) (s_log2 x) tg u) in *.
  assert (T0 : terms to = []) by apply terms_repeat_nil.
  set (stepK := fun e : K * C' => k <- k_merge KO (fst e) m (s_ss x) ;; Ok (k, snd e)).
  set (stepS := fun (to : series K C Tag) (e : K * C') => series_add_term KO CO PO true cz false true true to (fst e) (g (snd e))).
  assert (MAIN : extend_to KO CO PO TO tg cz g u x m = rfold (fun to e => e' <- stepK e ;; stepS to e') (terms x) to).
  { unfold extend_to, set_symbol_set, set_tag, series_default. cbn [s_tables s_log2 s_tag s_ss series_empty forallb bind andb].
    unfold series_sym_extender, get_s_size. rewrite E0. cbn [bind].
assert (EQ : forall (l : list (K * C')) (s : series K C Tag), rfold (fun to e =>
      k <- k_merge KO (fst e) m (s_ss x) ;;
      series_add_term KO CO PO true cz false true true to k (g (snd e))) l s = rfold (fun to e => e' <- stepK e ;; stepS to e') l s).
    { induction l as [|e l IH]; intros s; [reflexivity|]. cbn [rfold]. unfold stepK at 1, stepS at 1. destruct (k_merge KO (fst e) m (s_ss x)); cbn [bind fst snd]; auto.
      destruct (series_add_term KO CO PO true cz false true true s a (g (snd e))); cbn [bind]; auto. }
    destruct (Nat.eqb_spec (s_log2 x) 0) as [L0|L0]; [|apply EQ].
    apply (proj1 (wf_iff KO KS CO' x)) in W. destruct W as (_ & _ & LT & _). rewrite L0 in LT. cbn in LT. unfold terms.
    destruct (s_tables x) as [|t [|? ?]]; try discriminate. cbn [rd nth_error bind List.concat]. rewrite app_nil_r.
    rewrite <- EQ. unfold to. rewrite L0. cbn [Nat.pow repeat s_tables rd nth_error bind s_ss s_log2].
    clear LT. generalize (@nil (K * C)). intros t0. revert t0. induction t as [|e t IH]; intros t0; [reflexivity|].
    cbn [rfold]. rewrite !bind_assoc. destruct (k_merge KO (fst e) m (s_ss x)); cbn [bind]; auto.
    unfold series_add_term at 1. cbn [s_tables List.length table_index Nat.eqb rd nth_error bind negb andb s_ss s_log2]. unfold table_index. cbn [Nat.eqb nth_error rd bind].
    destruct (series_add_term_table KO CO PO true cz false false true u (max_table_size 0) t0 a (g (snd e))); cbn [bind]; auto.
    exact (IH _). }
  rewrite MAIN. clear MAIN.
  (* merging the keys of a list of representable terms *)
  set (fit := fun e : K * C' => ks_fits KS (spread (s_ss x) u (ks_exps KS (len (s_ss x)) (fst e)))).
  set (R := fun e e' : K * C' => snd e' = snd e /\ ks_valid KS (len u) (fst e') /\ ks_exps KS (len u) (fst e') = spread (s_ss x) u (ks_exps KS (len (s_ss x)) (fst e))).
  assert (KM : forall l, incl l (terms x) -> (forall e, In e l -> fit e) -> exists l', rmap stepK l = Ok l' /\ Forall2 R l l').
  { intros l I F. apply rmap_ok. intros [k c] Ie. pose proof (kl_merge _ _ KL k (s_ss x) m (V k c (I _ Ie)) IM) as [A _].
    cbn zeta in A. rewrite (SP k c (I _ Ie)) in A. destruct (A (F _ Ie)) as (r & Er & Vr & Xr). rewrite spread_len in *.
    unfold stepK. cbn [fst snd]. rewrite Er. exists (r, c). split; [reflexivity|]. split; auto. }
  assert (LOOP : forall l l', incl l (terms x) -> NoDup (map fst l) -> Forall2 R l l' ->
    (exists s', rfold stepS l' to = Ok s' /\ wf KO KS CO s' /\ s_added CO to s' (cv CO true g l')) \/
    (rfold stepS l' to = Throw overflow_error /\ s_log2 x <> 0%nat /\ max_table_size (s_log2 x) <= Z.of_nat (len (terms x)))).
  { intros l l' I N F. assert (LL : len l' = len l) by (symmetry; eapply Forall2_length; exact F).
    assert (N' : NoDup (map fst l')).
    { revert N I. clear -F KL V W SU EU. induction F as [|[k c] [k' c'] l l' (E1 & E2 & E3) F IH]; intros N I; [constructor|]. cbn [map fst snd] in *. inversion N; subst. constructor.
      - intros J. apply in_map_iff in J as ([k2 c2] & Ek & J). cbn in Ek. subst k2.
        assert (exists e, In e l /\ R e (k', c2)) as ([k3 c3] & I3 & R3 & R4 & R5).
        { clear -F J. induction F as [|a b l l' r F IH]; [contradiction|]. destruct J as [->|J]; [exists a; split; [left; auto|auto]|]. destruct (IH J) as (e & Ie & Re). exists e. split; [right|]; auto. }
        cbn [fst snd] in *. apply H1. assert (k = k3) as ->; [|apply in_map_iff; exists (k3, c3); auto].
        assert (V1 : ks_valid KS (len (s_ss x)) k) by (eapply V, I; left; reflexivity).
        assert (V3 : ks_valid KS (len (s_ss x)) k3) by (eapply V, I; right; exact I3).
        apply (kl_inj _ _ KL (len (s_ss x))); auto.
        eapply (spread_inj (s_ss x)); [|apply sorted_set_nodup, (wf_ss _ _ _ _ W)|apply (kl_len _ _ KL); auto|apply (kl_len _ _ KL); auto|rewrite <- E3, R5; reflexivity].
        apply insert_incl.
      - apply IH; auto. intros e Ie. apply I. right. exact Ie. }
    destruct (add_terms_ok KO KS CO PO KL CL g true cz false true true l' to W0) as [X|(X1 & X2 & X3)].
    - cbn [s_ss to]. intros k c J. clear -F J. induction F as [|a b l l' r F IH]; [contradiction|]. destruct J as [->|J]; [apply r|auto].
    - intros _. rewrite T0. split; auto.
    - intros ->. destruct CZ as [|CZ]; [discriminate|]. intros k c J. apply CZ.
      assert (exists e, In e l /\ snd e = c) as ([k3 c3] & I3 & E3).
      { clear -F J. induction F as [|a b l l' r F IH]; [contradiction|]. destruct J as [->|J]; [exists a; split; [left; auto|symmetry; apply r]|]. destruct (IH J) as (e & Ie & Re). exists e. split; [right|]; auto. }
      cbn in E3. subst c3. eapply (wf_nonzero _ _ _ _ W). apply I. exact I3.
    - auto.
    - left. exact X.
    - right. split; [exact X1|]. cbn [s_log2 to] in *. split; [exact X2|]. rewrite T0 in X3. cbn [List.length] in X3.
      assert (len l' <= len (terms x))%nat; [|lia]. rewrite LL. rewrite <- (map_length fst l), <- (map_length fst (terms x)).
      apply NoDup_incl_length; auto. intros k J. apply in_map_iff in J as (e & <- & J). apply in_map. auto. }
  destruct (first_bad fit (fun e => kl_fits_dec _ _ KL _) (terms x)) as [ALL|(l1 & e & l2 & E & F1 & BAD)].
  - destruct (KM (terms x) (fun e H => H) ALL) as (l' & EM & F).
    rewrite (rfold_pre stepK stepS _ _ _ EM).
    destruct (LOOP (terms x) l' (fun e H => H) (wf_keys _ _ _ _ W) F) as [(a & Ea & Wa & (Ma1 & Ma2 & Ma3) & Pa & Ka & La)|(X1 & X2 & X3)].
    + left. exists a. split; [exact Ea|]. split; [exact Wa|]. split; [exact Ma1|]. split; [exact Ma2|]. split; [exact Ma3|]. split.
      * intros Q. unfold vden. rewrite Pa, T0, psum_nil. rewrite Ma1. cbn [s_ss to].
        rewrite (psum_cv CO CL CO' true g) by auto. cbn [sg].
        assert (EQP : psum CO' (fun k => Q (ks_exps KS (len u) k)) l' = psum CO' (fun k => Q (spread (s_ss x) u (ks_exps KS (len (s_ss x)) k))) (terms x)).
        { clear -F. unfold psum. f_equal. induction F as [|a b l l' (r1 & r2 & r3) F IH]; [reflexivity|]. cbn [filter]. rewrite r3. destruct (Q _); cbn [map]; rewrite IH; congruence. }
        rewrite EQP. rewrite (Radd_0_l (cl_ring _ CL)). reflexivity.
      * rewrite T0 in La. cbn in La. unfold cv in La. rewrite map_length in La. rewrite (Forall2_length _ _ _ F). exact La.
    + right. split; [left; exact X1|right; auto].
  - right. assert (I1 : incl l1 (terms x)) by (rewrite E; intros y Iy; apply in_or_app; auto).
    assert (Ie : In e (terms x)) by (rewrite E; apply in_or_app; right; left; reflexivity).
    destruct e as [k c]. split; [|left; exists k, c; auto].
    destruct (KM l1 I1 F1) as (l' & EM & F). rewrite E, rfold_app, (rfold_pre stepK stepS _ _ _ EM).
    assert (N1 : NoDup (map fst l1)). { pose proof (wf_keys _ _ _ _ W) as N. rewrite E, map_app in N. apply nodup_app_l in N. exact N. }
    destruct (LOOP l1 l' I1 N1 F) as [(a & Ea & _)|(X1 & _)]; [|rewrite X1; left; reflexivity].
    rewrite Ea. cbn [bind rfold]. unfold stepK at 1 3. cbn [fst snd].
    pose proof (kl_merge _ _ KL k (s_ss x) m (V k c Ie) IM) as [_ B]. cbn zeta in B. rewrite (SP k c Ie) in B.
    destruct (B BAD) as [->| ->]; cbn [bind]; auto.
Qed.
End Ext.

(** ** Conversion *)
Section Conv.
Context {K C' C Tag : Type} (KO : key_ops K) (KS : key_sem K) (CO' : cf_ops C') (CO : cf_ops C) (PO : tbl_policy (K * C)).
Hypothesis KL : key_laws KO KS.
Hypothesis CL : cf_laws CO.
Hypothesis CL' : cf_laws CO'.
Variable g : C' -> C.
Hypothesis G0 : g (c_zero CO') = c_zero CO.
Hypothesis G1 : forall a b, g (c_add CO' a b) = c_add CO (g a) (g b).

Lemma table_mts sign cz cc au ss mts mts' (l : list (K * C')) : forall t,
  add_terms_table KO CO PO sign cz cc false au g ss mts l t = add_terms_table KO CO PO sign cz cc false au g ss mts' l t.
Proof. unfold add_terms_table. induction l as [|e l IH]; intros t; [reflexivity|]. cbn [rfold]. unfold series_add_term_table at 1 3. cbn [andb].
  match goal with |- bind ?a _ = bind ?b _ => change b with a; destruct a end; cbn [bind]; auto. Qed.

Lemma table_conv_ok n ss mts (xt : list (K * C')) : sorted_set ss -> len ss = n -> NoDup (map fst xt) -> (forall k c, In (k, c) xt -> ks_valid KS n k) ->
  exists t', add_terms_table KO CO PO true true false false true g ss mts xt [] = Ok t' /\
    NoDup (map fst t') /\ (forall k c, In (k, c) t' -> c <> c_zero CO) /\ (forall k, In k (map fst t') -> In k (map fst xt)) /\
    (forall P, psum CO P t' = g (psum CO' P xt)) /\ (len t' <= len xt)%nat.
Proof.
  intros SS L N V. set (s := Series (Tag := unit) [[]] 0 tt ss : series K C unit).
  assert (W : wf KO KS CO s). { destruct (set_n_segments_ok KO KS CO s 0) as [_ W]; [cbn; lia|exact SS|exact W]. }
  destruct (add_terms_ok KO KS CO PO KL CL g true true false false true xt s W) as [(s' & E & W' & A)|(_ & X & _)].
  - cbn [s_ss s]. rewrite L. exact V.
  - intros _. split; auto.
  - discriminate.
  - right. reflexivity.
  - rewrite <- (one_table KO CO PO g true true false false true xt s [] eq_refl) in E. rewrite (table_mts _ _ _ _ _ mts (max_table_size (s_log2 s))).
    cbn [s_ss s] in E. destruct (add_terms_table KO CO PO true true false false true g ss (max_table_size (s_log2 s)) xt []) as [t'| |]; try discriminate.
    cbn [bind] in E. inversion E; subst s'. exists t'. split; [reflexivity|].
    assert (T : terms (put_table s 0 t') = t') by (unfold terms; cbn; apply app_nil_r).
    destruct A as (_ & P & KK & LL). rewrite T in *. destruct W' as [_ _ _ WN _ WZ _ _]. rewrite T in *.
    split; [exact WN|]. split; [exact WZ|]. split; [intros k I; destruct (KK k I) as [J|J]; [destruct J|rewrite cv_keys in J; exact J]|].
    split; [|unfold cv in LL; rewrite map_length in LL; exact LL].
    intros Q. rewrite P. change (terms s) with (@nil (K * C)). rewrite psum_nil, (psum_cv CO CL CO') by auto. cbn [sg].
    apply (Radd_0_l (cl_ring _ CL)).
  - elim X. reflexivity.
Qed.

Lemma convert_ok {Tag'} tg (x : series K C' Tag') : wf KO KS CO' x ->
  exists r : series K C Tag, series_convert KO CO PO g tg x = Ok r /\ wf KO KS CO r /\ s_ss r = s_ss x /\ s_log2 r = s_log2 x /\ s_tag r = tg /\
    (forall P, psum CO P (terms r) = g (psum CO' P (terms x))) /\ (len (terms r) <= len (terms x))%nat.
Proof.
  intros W. pose proof W as W0. apply wf_iff in W as (W1 & W2 & W3 & W4). unfold series_convert, get_s_size.
  destruct (set_n_segments_ok KO KS CO (Series [[]] 0 tg (s_ss x)) (s_log2 x) W2 W1) as [E0 _]. rewrite E0. cbn [bind s_tag s_ss].
  destruct (rmap_ok (fun xt => add_terms_table KO CO PO true true false false true g (s_ss x) (max_table_size (s_log2 x)) xt [])
    (fun xt t' => NoDup (map fst t') /\ (forall k c, In (k, c) t' -> c <> c_zero CO) /\ (forall k, In k (map fst t') -> In k (map fst xt)) /\
    (forall P, psum CO P t' = g (psum CO' P xt)) /\ (len t' <= len xt)%nat) (s_tables x)) as (ts & E & F).
  { intros xt I. apply In_nth_error in I as [i I]. destruct (W4 i xt I) as (N & V & _).
    destruct (table_conv_ok (len (s_ss x)) (s_ss x) (max_table_size (s_log2 x)) xt W1 eq_refl N) as (t' & Et & H); [intros k c Ik; apply (V k c Ik)|]. eauto. }
  rewrite E. cbn [bind]. eexists. split; [reflexivity|]. cbn [set_tables s_ss s_log2 s_tag]. split; [|split; [auto|split; [auto|split; [auto|]]]].
  - apply wf_iff. unfold wf'. cbn [set_tables s_ss s_log2 s_tables]. split; auto. split; auto. split; [rewrite <- (Forall2_length _ _ _ F); exact W3|].
    intros i t' Ht. clear E.
    assert (exists xt, nth_error (s_tables x) i = Some xt /\ NoDup (map fst t') /\ (forall k c, In (k, c) t' -> c <> c_zero CO) /\ (forall k, In k (map fst t') -> In k (map fst xt)) /\ (len t' <= len xt)%nat) as (xt & Hx & A1 & A2 & A3 & A4).
    { revert i Ht. clear -F. induction F as [|a b l l' r F IH]; intros i Ht; [destruct i; discriminate|]. destruct i as [|i]; [|apply IH; exact Ht].
      cbn in Ht. inversion Ht; subst. exists a. split; [reflexivity|]. intuition. }
    destruct (W4 i xt Hx) as (_ & V & M). split; [exact A1|]. split; [|intros L; specialize (M L); lia].
    intros k c I. assert (J : In k (map fst xt)) by (apply A3; apply in_map_iff; exists (k, c); auto).
    apply in_map_iff in J as ([k' c'] & Ek & J). cbn in Ek. subst k'. destruct (V k c' J) as (V1 & _ & V3). eauto.
  - unfold terms. cbn [set_tables s_tables]. clear -F CL CL' G0 G1. split; [intros P|].
    + induction F as [|a b l l' r F IH]; cbn [List.concat]; [cbn; auto|]. rewrite (psum_app CO CL), IH.
      destruct r as (_ & _ & _ & r & _). rewrite r. rewrite <- G1. f_equal. symmetry. apply (psum_app CO' CL').
    + induction F as [|a b l l' r F IH]; cbn [List.concat]; [cbn; lia|]. rewrite !app_length. destruct r as (_ & _ & _ & _ & r). lia.
Qed.
End Conv.

(** ** Addition and subtraction *)
Section Add.
Context {K C Tag : Type} (KO : key_ops K) (KS : key_sem K) (CO : cf_ops C) (PO : tbl_policy (K * C)) (TO : tag_ops Tag).
Hypothesis KL : key_laws KO KS.
Hypothesis CL : cf_laws CO.
Notation "0c" := (c_zero CO).
Infix "+c" := (c_add CO) (at level 50, left associativity).
Infix "-c" := (c_sub CO) (at level 50, left associativity).
Notation "-c x" := (c_neg CO x) (at level 35).
Add Ring Cring : (cl_ring CO CL).

(** What is assumed of an operand. *)
Record opd_ok {C'} (CO' : cf_ops C') (o : @operand K C Tag C') : Prop := {
  oo_zero : o_conv o (c_zero CO') = 0c;
  oo_add : forall a b, o_conv o (c_add CO' a b) = o_conv o a +c o_conv o b;
  oo_mk : forall x, wf KO KS CO' x -> exists r, o_mk o x = Ok r /\ wf KO KS CO r /\ s_ss r = s_ss x /\ s_log2 r = s_log2 x /\ s_tag r = s_tag x /\
    (forall P, psum CO P (terms r) = o_conv o (psum CO' P (terms x))) /\ (len (terms r) <= len (terms x))%nat;
  oo_ext : o_same o = true \/ forall c, c <> c_zero CO' -> o_conv o c <> 0c
}.

Lemma op_same_ok : opd_ok CO op_same.
Proof. split; cbn; auto. intros x W. exists x. split; [reflexivity|]. split; [exact W|]. auto 10. Qed.

Lemma op_conv_ok {C'} (CO' : cf_ops C') (CL' : cf_laws CO') (g : C' -> C) : g (c_zero CO') = 0c -> (forall a b, g (c_add CO' a b) = g a +c g b) ->
  (forall c, c <> c_zero CO' -> g c <> 0c) -> opd_ok CO' (op_conv KO CO PO g).
Proof.
  intros G0 G1 GN. split; auto. intros x W. destruct (convert_ok (Tag := Tag) KO KS CO' CO PO KL CL CL' g G0 G1 (s_tag x) x W) as (r & E & H).
  exists r. split; [exact E|]. intuition.
Qed.

Lemma term_merger_ok {CL' CR} (COL : cf_ops CL') (COR : cf_ops CR) sign ol or (lhs : series K CL' Tag) (rhs : series K CR Tag) :
  opd_ok COL ol -> opd_ok COR or -> wf KO KS COL lhs -> wf KO KS COR rhs -> s_ss rhs = s_ss lhs ->
  (exists r, term_merger KO CO PO sign (o_mk ol) (o_conv or) lhs rhs = Ok r /\ wf KO KS CO r /\ s_ss r = s_ss lhs /\ s_log2 r = s_log2 lhs /\ s_tag r = s_tag lhs /\
     (forall P, psum CO P (terms r) = o_conv ol (psum COL P (terms lhs)) +c sg CO sign (o_conv or (psum COR P (terms rhs)))) /\
     (len (terms r) <= len (terms lhs) + len (terms rhs))%nat) \/
  (term_merger KO CO PO sign (o_mk ol) (o_conv or) lhs rhs = Throw overflow_error /\ s_log2 lhs <> 0%nat /\
   max_table_size (s_log2 lhs) <= Z.of_nat (len (terms lhs) + len (terms rhs))).
Proof.
  intros OL OR WL WR SS. unfold term_merger. destruct (oo_mk _ _ OL lhs WL) as (r0 & E0 & W0 & S0 & L0 & T0 & P0 & N0).
  rewrite E0. cbn [bind]. fold (add_all KO CO PO sign (o_conv or) r0 (terms rhs)).
  destruct (add_all_ok KO KS CO PO KL CL sign (o_conv or) r0 (terms rhs) W0) as [(r & E & W & (M1 & M2 & M3) & P & _ & N)|(E & L & B)].
  - intros k c I. rewrite S0, <- SS. eapply (wf_valid _ _ _ _ WR). exact I.
  - left. exists r. split; [exact E|]. split; [exact W|]. split; [congruence|]. split; [congruence|]. split; [congruence|]. split.
    + intros Q. rewrite P, P0, (psum_cv CO CL COR); [reflexivity|apply (oo_zero _ _ OR)|apply (oo_add _ _ OR)].
    + unfold cv in N. rewrite map_length in N. lia.
  - right. split; [exact E|]. rewrite <- L0. split; [exact L|]. lia.
Qed.

Definition bigger {CA CB} (a : series K CA Tag) (b : series K CB Tag) : bool := (len (terms b) <=? len (terms a))%nat.

Lemma merge_ok {CA CB} (COA : cf_ops CA) (COB : cf_ops CB) sign oa ob (a : series K CA Tag) (b : series K CB Tag) :
  opd_ok COA oa -> opd_ok COB ob -> wf KO KS COA a -> wf KO KS COB b -> s_ss b = s_ss a ->
  (exists r, merge_with_identical_ss KO CO PO sign (o_mk oa) (o_conv oa) (o_mk ob) (o_conv ob) a b = Ok r /\ wf KO KS CO r /\ s_ss r = s_ss a /\
     s_log2 r = (if bigger a b then s_log2 a else s_log2 b) /\ s_tag r = (if bigger a b then s_tag a else s_tag b) /\
     (forall P, psum CO P (terms r) = o_conv oa (psum COA P (terms a)) +c sg CO sign (o_conv ob (psum COB P (terms b)))) /\
     (len (terms r) <= len (terms a) + len (terms b))%nat) \/
  (merge_with_identical_ss KO CO PO sign (o_mk oa) (o_conv oa) (o_mk ob) (o_conv ob) a b = Throw overflow_error /\
   let lg := if bigger a b then s_log2 a else s_log2 b in
   lg <> 0%nat /\ max_table_size lg <= Z.of_nat (len (terms a) + len (terms b))).
Proof.
  intros OA OB WA WB SS. unfold merge_with_identical_ss. rewrite !size_terms. unfold bigger.
  destruct (len (terms b) <=? len (terms a))%nat.
  - destruct (term_merger_ok COA COB sign oa ob a b OA OB WA WB SS) as [(r & H)|H]; [left; exists r; exact H|right; exact H].
  - destruct sign.
    + destruct (term_merger_ok COB COA true ob oa b a OB OA WB WA (eq_sym SS)) as [(r & E & W & S1 & L1 & T1 & P & N)|(E & L & B)].
      * left. exists r. split; [exact E|]. split; [exact W|]. split; [congruence|]. split; [auto|]. split; [auto|]. split; [|lia].
        intros Q. rewrite P. cbn [sg]. ring.
      * right. split; [exact E|]. cbn zeta. split; [exact L|lia].
    + destruct (term_merger_ok COB COA false ob oa b a OB OA WB WA (eq_sym SS)) as [(r & E & W & S1 & L1 & T1 & P & N)|(E & L & B)].
      * left. rewrite E. cbn [bind]. exists (series_negate CO r). split; [reflexivity|].
        destruct (negate_ok KO KS CO CL r W) as (W' & (M1 & M2 & M3) & P' & N'). split; [exact W'|]. split; [congruence|]. split; [congruence|]. split; [congruence|]. split; [|lia].
        intros Q. rewrite P', P. cbn [sg]. ring.
      * right. rewrite E. cbn [bind]. split; [reflexivity|]. cbn zeta. split; [exact L|lia].
Qed.

Lemma ss_eqb_iff a b : ss_eqb a b = true <-> a = b.
Proof. unfold ss_eqb. destruct (list_eq_dec string_dec a b); split; congruence. Qed.

(** Name-level denotation: the coefficients of the terms whose exponents over us satisfy Q. *)
Definition nden {C0} (CO0 : cf_ops C0) (us : symbol_set) (s : series K C0 Tag) (Q : list Z -> bool) : C0 :=
  vden KS CO0 s (fun v => Q (spread (s_ss s) us v)).

(** The failure of one operand: its exponents are not representable over the union u, or its tables are full. *)
Local Notation unrep := (unrep KS).

Lemma map_empty_nil {A} (l : list A) : map_empty l = true -> l = [].
Proof. destruct l; [reflexivity|discriminate]. Qed.

Lemma insert_nil {A} (l : list A) : forall i, insert_all (ins_at []) i l = l.
Proof. induction l as [|x l IH]; intros i; [reflexivity|]. cbn [insert_all]. rewrite IH. reflexivity. Qed.

Lemma nden_of_vden {C0} (CO0 : cf_ops C0) us (s : series K C0 Tag) Q : nden CO0 us s Q = vden KS CO0 s (fun v => Q (spread (s_ss s) us v)).
Proof. reflexivity. Qed.

(** Spreading over a larger set first changes nothing. *)
Lemma vden_spread {C0} (CO0 : cf_ops C0) u us (s : series K C0 Tag) Q : incl (s_ss s) u ->
  vden KS CO0 s (fun v => Q (spread u us (spread (s_ss s) u v))) = nden CO0 us s Q.
Proof. intros I. unfold nden, vden, psum. f_equal. f_equal. apply filter_ext. intros e. rewrite spread_spread by exact I. reflexivity. Qed.

Lemma addsub_ok {CX CY} (COX : cf_ops CX) (COY : cf_ops CY) sign ox oy (x : series K CX Tag) (y : series K CY Tag) :
  opd_ok COX ox -> opd_ok COY oy -> wf KO KS COX x -> wf KO KS COY y ->
  Z.of_nat (len (s_ss x) + len (s_ss y)) <= imax size_t ->
  (exists r, series_addsub KO CO PO TO sign ox oy x y = Ok r /\ wf KO KS CO r /\
     (forall z, In z (s_ss r) <-> In z (s_ss x) \/ In z (s_ss y)) /\
     (s_log2 r = s_log2 x \/ s_log2 r = s_log2 y) /\
     (s_tag r = (if ss_eqb (s_ss x) (s_ss y) then if bigger x y then s_tag x else s_tag y else s_tag r)) /\
     (forall us Q, nden CO us r Q = o_conv ox (nden COX us x Q) +c sg CO sign (o_conv oy (nden COY us y Q))) /\
     (len (terms r) <= len (terms x) + len (terms y))%nat) \/
  ((series_addsub KO CO PO TO sign ox oy x y = Throw overflow_error \/ series_addsub KO CO PO TO sign ox oy x y = Throw safe_cast_failure) /\
   ((exists u, sorted_set u /\ (forall z, In z u <-> In z (s_ss x) \/ In z (s_ss y)) /\ (unrep u x \/ unrep u y)) \/
    full (s_log2 x) (len (terms x) + len (terms y)) \/ full (s_log2 y) (len (terms x) + len (terms y)))).
Proof.
  intros OX OY WX WY SZ. unfold series_addsub. destruct (ss_eqb (s_ss x) (s_ss y)) eqn:ES.
  - apply ss_eqb_iff in ES.
    destruct (merge_ok COX COY sign ox oy x y OX OY WX WY (eq_sym ES)) as [(r & E & W & S1 & L & T & P & N)|(E & F)].
    + left. exists r. split; [exact E|]. split; [exact W|]. split; [rewrite S1, <- ES; tauto|]. split; [rewrite L; destruct (bigger x y); auto|].
      split; [exact T|]. split; [|exact N]. intros us Q. unfold nden, vden. rewrite P, S1, <- ES. reflexivity.
    + right. split; [left; exact E|]. right. cbn zeta in F. destruct (bigger x y); [left|right]; exact F.
  - destruct (merge_symbol_sets_exact (s_ss x) (s_ss y) (wf_ss _ _ _ _ WX) (wf_ss _ _ _ _ WY) SZ) as (u & mx & my & EM & SU & IU & IX & IY & MX & MY & _).
    rewrite EM. cbn [bind].
    assert (CX' : incl (s_ss x) u) by (intros z Iz; apply IU; auto).
    assert (CY' : incl (s_ss y) u) by (intros z Iz; apply IU; auto).
    pose proof (extend_ok KO KS COX CO PO TO KL CL (o_conv ox) (oo_zero _ _ OX) (oo_add _ _ OX) (tag_default TO) (o_same ox) x mx u WX MX IX SU (oo_ext _ _ OX)) as EX.
    pose proof (extend_ok KO KS COY CO PO TO KL CL (o_conv oy) (oo_zero _ _ OY) (oo_add _ _ OY) (tag_default TO) (o_same oy) y my u WY MY IY SU (oo_ext _ _ OY)) as EY.
    assert (FIN : forall CA CB (COA : cf_ops CA) (COB : cf_ops CB) oa ob (a : series K CA Tag) (b : series K CB Tag),
      opd_ok COA oa -> opd_ok COB ob -> wf KO KS COA a -> wf KO KS COB b -> s_ss a = u -> s_ss b = u ->
      (forall Q, o_conv oa (vden KS COA a Q) = o_conv ox (vden KS COX x (fun v => Q (spread (s_ss x) u v)))) ->
      (forall Q, o_conv ob (vden KS COB b Q) = o_conv oy (vden KS COY y (fun v => Q (spread (s_ss y) u v)))) ->
      (len (terms a) <= len (terms x))%nat -> (len (terms b) <= len (terms y))%nat -> s_log2 a = s_log2 x -> s_log2 b = s_log2 y ->
      (exists r, merge_with_identical_ss KO CO PO sign (o_mk oa) (o_conv oa) (o_mk ob) (o_conv ob) a b = Ok r /\ wf KO KS CO r /\
         (forall z, In z (s_ss r) <-> In z (s_ss x) \/ In z (s_ss y)) /\
         (s_log2 r = s_log2 x \/ s_log2 r = s_log2 y) /\ s_tag r = s_tag r /\
         (forall us Q, nden CO us r Q = o_conv ox (nden COX us x Q) +c sg CO sign (o_conv oy (nden COY us y Q))) /\
         (len (terms r) <= len (terms x) + len (terms y))%nat) \/
      ((merge_with_identical_ss KO CO PO sign (o_mk oa) (o_conv oa) (o_mk ob) (o_conv ob) a b = Throw overflow_error \/
        merge_with_identical_ss KO CO PO sign (o_mk oa) (o_conv oa) (o_mk ob) (o_conv ob) a b = Throw safe_cast_failure) /\
       ((exists u, sorted_set u /\ (forall z, In z u <-> In z (s_ss x) \/ In z (s_ss y)) /\ (unrep u x \/ unrep u y)) \/
        full (s_log2 x) (len (terms x) + len (terms y)) \/ full (s_log2 y) (len (terms x) + len (terms y))))).
    { intros CA CB COA COB oa ob a b OA OB WA WB SA SB DA DB NA NB LA LB.
      destruct (merge_ok COA COB sign oa ob a b OA OB WA WB) as [(r & E & W & S1 & L & _ & P & N)|(E & F)]; [congruence| |].
      - left. exists r. split; [exact E|]. split; [exact W|]. split; [rewrite S1, SA; exact IU|]. split; [rewrite L, LA, LB; destruct (bigger a b); auto|].
        split; [reflexivity|]. split; [|lia]. intros us Q.
        rewrite <- (vden_spread COX u us x Q CX'), <- (vden_spread COY u us y Q CY').
        rewrite <- (DA (fun v => Q (spread u us v))), <- (DB (fun v => Q (spread u us v))).
        unfold nden, vden. rewrite P, S1, SA, SB. reflexivity.
      - right. split; [left; exact E|]. right. cbn zeta in F. rewrite LA, LB in F. unfold full. destruct (bigger a b); [left|right]; split; try apply F; destruct F; lia. }
    assert (BX : mx = [] -> s_ss x = u) by (intros ->; exact (eq_trans (eq_sym (insert_nil _ 0)) IX)).
    assert (BY : my = [] -> s_ss y = u) by (intros ->; exact (eq_trans (eq_sym (insert_nil _ 0)) IY)).
    assert (IDX : s_ss x = u -> forall Q, o_conv ox (vden KS COX x Q) = o_conv ox (vden KS COX x (fun v => Q (spread (s_ss x) u v)))).
    { intros E Q. f_equal. unfold vden, psum. f_equal. f_equal. apply filter_ext_in. intros [k c] I. cbn [fst]. rewrite <- E, spread_self; auto; [apply sorted_set_nodup, (wf_ss _ _ _ _ WX)|apply (kl_len _ _ KL), (wf_valid _ _ _ _ WX k c I)]. }
    assert (IDY : s_ss y = u -> forall Q, o_conv oy (vden KS COY y Q) = o_conv oy (vden KS COY y (fun v => Q (spread (s_ss y) u v)))).
    { intros E Q. f_equal. unfold vden, psum. f_equal. f_equal. apply filter_ext_in. intros [k c] I. cbn [fst]. rewrite <- E, spread_self; auto; [apply sorted_set_nodup, (wf_ss _ _ _ _ WY)|apply (kl_len _ _ KL), (wf_valid _ _ _ _ WY k c I)]. }
    assert (ERX : forall f, (exists k c, In (k, c) (terms x) /\ ~ ks_fits KS (spread (s_ss x) u (ks_exps KS (len (s_ss x)) k))) \/
      s_log2 x <> 0%nat /\ max_table_size (s_log2 x) <= Z.of_nat (len (terms x)) ->
      (extend_to KO CO PO TO (tag_default TO) (o_same ox) (o_conv ox) u x mx = Throw overflow_error \/ extend_to KO CO PO TO (tag_default TO) (o_same ox) (o_conv ox) u x mx = Throw safe_cast_failure) ->
      (bind (extend_to KO CO PO TO (tag_default TO) (o_same ox) (o_conv ox) u x mx) f = @Throw (series K C Tag) overflow_error \/
       bind (extend_to KO CO PO TO (tag_default TO) (o_same ox) (o_conv ox) u x mx) f = Throw safe_cast_failure) /\
      ((exists u, sorted_set u /\ (forall z, In z u <-> In z (s_ss x) \/ In z (s_ss y)) /\ (unrep u x \/ unrep u y)) \/
        full (s_log2 x) (len (terms x) + len (terms y)) \/ full (s_log2 y) (len (terms x) + len (terms y)))).
    { intros f H [E|E]; rewrite E; cbn [bind]; (split; [auto|]); (destruct H as [H|[H1 H2]]; [left; exists u; split; [exact SU|]; split; [exact IU|]; left; exact H|right; left; split; [exact H1|lia]]). }
    assert (ERY : forall f, (exists k c, In (k, c) (terms y) /\ ~ ks_fits KS (spread (s_ss y) u (ks_exps KS (len (s_ss y)) k))) \/
      s_log2 y <> 0%nat /\ max_table_size (s_log2 y) <= Z.of_nat (len (terms y)) ->
      (extend_to KO CO PO TO (tag_default TO) (o_same oy) (o_conv oy) u y my = Throw overflow_error \/ extend_to KO CO PO TO (tag_default TO) (o_same oy) (o_conv oy) u y my = Throw safe_cast_failure) ->
      (bind (extend_to KO CO PO TO (tag_default TO) (o_same oy) (o_conv oy) u y my) f = @Throw (series K C Tag) overflow_error \/
       bind (extend_to KO CO PO TO (tag_default TO) (o_same oy) (o_conv oy) u y my) f = Throw safe_cast_failure) /\
      ((exists u, sorted_set u /\ (forall z, In z u <-> In z (s_ss x) \/ In z (s_ss y)) /\ (unrep u x \/ unrep u y)) \/
        full (s_log2 x) (len (terms x) + len (terms y)) \/ full (s_log2 y) (len (terms x) + len (terms y)))).
    { intros f H [E|E]; rewrite E; cbn [bind]; (split; [auto|]); (destruct H as [H|[H1 H2]]; [left; exists u; split; [exact SU|]; split; [exact IU|]; right; exact H|right; right; split; [exact H1|lia]]). }
    assert (BOTH : (exists r, (a <- extend_to KO CO PO TO (tag_default TO) (o_same ox) (o_conv ox) u x mx ;;
        b <- extend_to KO CO PO TO (tag_default TO) (o_same oy) (o_conv oy) u y my ;;
        merge_with_identical_ss KO CO PO sign (o_mk (@op_same K C Tag)) (o_conv (@op_same K C Tag)) (o_mk (@op_same K C Tag)) (o_conv (@op_same K C Tag)) a b) = Ok r /\ wf KO KS CO r /\
         (forall z, In z (s_ss r) <-> In z (s_ss x) \/ In z (s_ss y)) /\
         (s_log2 r = s_log2 x \/ s_log2 r = s_log2 y) /\ s_tag r = s_tag r /\
         (forall us Q, nden CO us r Q = o_conv ox (nden COX us x Q) +c sg CO sign (o_conv oy (nden COY us y Q))) /\
         (len (terms r) <= len (terms x) + len (terms y))%nat) \/
        (((a <- extend_to KO CO PO TO (tag_default TO) (o_same ox) (o_conv ox) u x mx ;;
        b <- extend_to KO CO PO TO (tag_default TO) (o_same oy) (o_conv oy) u y my ;;
        merge_with_identical_ss KO CO PO sign (o_mk (@op_same K C Tag)) (o_conv (@op_same K C Tag)) (o_mk (@op_same K C Tag)) (o_conv (@op_same K C Tag)) a b) = Throw overflow_error \/
        (a <- extend_to KO CO PO TO (tag_default TO) (o_same ox) (o_conv ox) u x mx ;;
        b <- extend_to KO CO PO TO (tag_default TO) (o_same oy) (o_conv oy) u y my ;;
        merge_with_identical_ss KO CO PO sign (o_mk (@op_same K C Tag)) (o_conv (@op_same K C Tag)) (o_mk (@op_same K C Tag)) (o_conv (@op_same K C Tag)) a b) = Throw safe_cast_failure) /\
       ((exists u, sorted_set u /\ (forall z, In z u <-> In z (s_ss x) \/ In z (s_ss y)) /\ (unrep u x \/ unrep u y)) \/
        full (s_log2 x) (len (terms x) + len (terms y)) \/ full (s_log2 y) (len (terms x) + len (terms y))))).
    { destruct EX as [(a & Ea & Wa & Sa & _ & La & Da & Na)|[E H]]; [|right; apply ERX; assumption].
      rewrite Ea. cbn [bind].
      destruct EY as [(b & Eb & Wb & Sb & _ & Lb & Db & Nb)|[E H]]; [|right; apply ERY; assumption].
      rewrite Eb. cbn [bind]. apply FIN with (COA := CO) (COB := CO); auto using op_same_ok. }
    destruct mx as [|p1 mx'], my as [|p2 my']; cbn [map_empty]; try exact BOTH.
    + destruct EY as [(b & Eb & Wb & Sb & _ & Lb & Db & Nb)|[E H]]; [|right; apply ERY; assumption].
      rewrite Eb. cbn [bind]. apply FIN with (COA := COX) (COB := CO); auto using op_same_ok.
    + destruct EX as [(a & Ea & Wa & Sa & _ & La & Da & Na)|[E H]]; [|right; apply ERX; assumption].
      rewrite Ea. cbn [bind]. apply FIN with (COA := CO) (COB := COY); auto using op_same_ok.
Qed.
End Add.
