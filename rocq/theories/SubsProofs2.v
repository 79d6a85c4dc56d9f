(** Substitution and values. *)
From Coq Require Import ZArith List Bool String Arith Sorted Permutation Lia Ring Ring_theory.
From Verif Require Import Base IntModel SymModel SymSpec SymProofs P_Sym PMonSpec KeyOps
  SeriesModel SeriesModel2 SeriesSpec SeriesProofs SeriesProofs2 SeriesProofs3 SeriesProofs4 SeriesProofs5 SeriesProofs6 Lin EvalSpec SeriesEval SeriesProofs7 P_Series P_Series2
  PolyModel PolyModel2 PolySpec PolyProofs7 PolyProofs8 PolyProofs9 P_Poly DiffProofs SubsSpec SubsProofs.
Import ListNotations.
Open Scope Z_scope.
Open Scope res_scope.
Local Notation len := List.length.

Section SV.
Context {K C Tag : Type} (KO : key_ops K) (KS : key_sem K) (CO : cf_ops C) (PO : tbl_policy (K * C)) (TO : tag_ops Tag).
Context (KL : key_laws KO KS) (CL : cf_laws CO).
Notation series := (series K C Tag).
Notation WF := (wf KO KS CO).
Notation exps s k := (ks_exps KS (List.length (s_ss s)) k).
Infix "+c" := (c_add CO) (at level 50, left associativity).
Infix "*c" := (c_mul CO) (at level 40, left associativity).
Add Ring CringS : (cl_ring _ CL).
Context {V : Type} (vzero vone : V) (va vm vs : V -> V -> V) (vo : V -> V) (VR : ring_theory vzero vone va vm vs vo (@eq V)).
Context (pw : V -> Z -> V) (h : C -> V).
Context (h0 : h (c_zero CO) = vzero) (hone : h (c_one CO) = vone) (h1 : forall a b, h (a +c b) = va (h a) (h b)) (hm : forall a b, h (a *c b) = vm (h a) (h b)).
Add Ring VringS : VR.
Notation Mono := (mono vone vm).
Notation Value := (value KS vzero vone va vm pw h).

Lemma mono_override {U} (f : U -> V) (sm : symbol_map U) (m mc : symbol_map V) ss es : overridden f sm m mc -> NoDup (map fst m) -> pow0 vone pw m ->
  Mono pw mc ss es ss = vm (Mono (fun u e => pw (f u) e) sm ss es ss) (Mono pw m ss (keep sm ss es) ss).
Proof.
  intros OV ND P0. unfold mono. assert (G : forall l, incl l ss -> fold_right vm vone (map (factor vone pw mc ss es) l) =
     vm (fold_right vm vone (map (factor vone (fun u e => pw (f u) e) sm ss es) l)) (fold_right vm vone (map (factor vone pw m ss (keep sm ss es)) l))).
  { induction l as [|z l IH]; intros I; [cbn; ring|]. cbn [map fold_right]. rewrite IH by (intros y J; apply I; right; exact J).
    assert (EF : factor vone pw mc ss es z = vm (factor vone (fun u e => pw (f u) e) sm ss es z) (factor vone pw m ss (keep sm ss es) z)); [|rewrite EF; ring].
    unfold factor, keep. rewrite OV, expo_map. destruct (in_dec string_dec z ss) as [_|N]; [|elim N; apply I; left; reflexivity].
    destruct (assoc sm z) as [u|]; [|ring]. destruct (assoc m z) as [v|] eqn:A; [|ring]. rewrite (P0 z v) by (apply assoc_iff; auto). ring. }
  apply G, incl_refl.
Qed.
Lemma h_mono {U} (pc : U -> Z -> C) (f : U -> V) (sm : symbol_map U) ss es us : (forall z u, In (z, u) sm -> forall e, h (pc u e) = pw (f u) e) -> NoDup (map fst sm) ->
  h (mono (c_one CO) (c_mul CO) pc sm ss es us) = Mono (fun u e => pw (f u) e) sm ss es us.
Proof.
  intros H ND. unfold mono. induction us as [|z us IH]; [exact hone|]. cbn [map fold_right]. rewrite hm, IH. f_equal. unfold factor. destruct (assoc sm z) as [u|] eqn:A; [|exact hone]. apply (H z). apply assoc_iff; auto.
Qed.
Lemma keep_len {U} (sm : symbol_map U) ss es : len (keep sm ss es) = len ss. Proof. apply map_length. Qed.

(** Values of products and scalar multiples. *)
Lemma value_scalar (m : symbol_map V) (x : series) c : WF x -> sorted_set (map fst m) -> pow0 vone pw m -> Value m (series_scalar_mul KO CO x c) = vm (Value m x) (h c).
Proof.
  intros W Hm P0. destruct (scalar_mul_ok KO KS CO KL CL x c W) as (Wp & Sp & _). assert (Hs := wf_ss _ _ _ _ W).
  assert (Cx : covers (s_ss x) x) by (split; [exact Hs|apply incl_refl]). assert (Cp : covers (s_ss x) (series_scalar_mul KO CO x c)) by (split; [exact Hs|rewrite Sp; apply incl_refl]).
  rewrite !(value_lin KO KS CO vzero vone va vm vs vo VR (fun _ _ => UB) pw h h0 m (s_ss x)) by auto.
  rewrite (lin_ext CO vzero vone va vm vs vo VR (list_eq_dec Z.eq_dec) h h0 h1 _ _ (map (fun e => (fst e, snd e *c c)) (vt KS (s_ss x) x))) by (intros a; apply (scalar_vt KO KS CO KL CL); exact W).
  induction (vt KS (s_ss x) x) as [|e l IH]; cbn [map lin fst snd]; [ring|]. rewrite IH, hm. ring.
Qed.
Lemma value_scalar_subs {U} (f : U -> V) vpow (pc : U -> Z -> C) (x r : series) (sm : symbol_map U) (m mc : symbol_map V) : WF x -> sorted_set (map fst sm) -> powers_exist KS vpow pc sm x ->
  Z.of_nat (len (s_ss x) + len (s_ss x)) <= imax size_t -> subs_scalar KO CO PO TO vpow x sm = Ok r ->
  sorted_set (map fst m) -> overridden f sm m mc -> pow0 vone pw m -> (forall z u, In (z, u) sm -> forall e, h (pc u e) = pw (f u) e) ->
  Value m r = Value mc x.
Proof.
  intros W Sm PE SZ ER Hm OV P0 HP. destruct (subs_scalar_ok KO KS CO PO TO KL CL vpow pc x sm W Sm PE SZ) as (r' & ER' & Wr & SS & SM). assert (r' = r) by congruence. subst r'.
  assert (Hs := wf_ss _ _ _ _ W). assert (Cx : covers (s_ss x) x) by (split; [exact Hs|apply incl_refl]).
  assert (Cr : covers (s_ss x) r) by (split; [exact Hs|]; destruct SS as [->|[_ ->]]; [apply incl_refl|intros ? []]).
  rewrite (value_lin KO KS CO vzero vone va vm vs vo VR (fun _ _ => UB) pw h h0 m (s_ss x)) by auto.
  rewrite (lin_ext CO vzero vone va vm vs vo VR (list_eq_dec Z.eq_dec) h h0 h1 _ _ (map (sterm KS CO pc x sm (s_ss x)) (terms x))) by (intros a; apply SM; exact Cx).
  unfold value. clear SM SS. induction (terms x) as [|[k c] l IH]; cbn [map lin fold_right fst snd sterm]; [reflexivity|]. rewrite IH. f_equal. rewrite hm.
  rewrite (h_mono pc f sm) by (auto; apply sorted_set_nodup; auto). rewrite spread_self by (try apply sorted_set_nodup; auto; apply keep_len).
  rewrite (mono_override f sm m mc) by (auto; apply sorted_set_nodup; auto). ring.
Qed.

(** ** Polynomials *)
Variable E : mul_env K C Tag.
Hypothesis EO : env_ok KO KS E.
Hypothesis FN : ks_fits KS [].
Variables (vpow : series -> Z -> res series) (sm : symbol_map series) (m : symbol_map V) (B : symbol_set) (Ex : Z -> Prop).
Hypothesis (Sm : sorted_set (map fst sm)) (Hm : sorted_set (map fst m)) (HB : sorted_set B) (SZ : Z.of_nat (len B + len B) <= imax size_t).
Hypothesis (P0 : pow0 vone pw m) (PA : pow_adds vm pw Ex m) (EA : forall a b, Ex a -> Ex b -> Ex (a + b)).
Definition good_power (u : series) (n : Z) (q : res series) : Prop :=
  (exists p, q = Ok p /\ WF p /\ incl (s_ss p) B /\ expos_in KS Ex p /\ Value m p = pw (Value m u) n) \/ (exists e, q = Throw e).
Hypothesis VP : forall z u n, In (z, u) sm -> good_power u n (vpow u n).
Definition subs_exn (e : exn) : Prop := e = overflow_error \/ e = safe_cast_failure \/ exists z u n, In (z, u) sm /\ vpow u n = Throw e.

Lemma sub_len (a : symbol_set) : sorted_set a -> incl a B -> (len a <= len B)%nat.
Proof. intros S I. apply NoDup_incl_length; auto. apply sorted_set_nodup; auto. Qed.
Notation XIN := (expos_in KS Ex).
Lemma mul_in (x y : series) : WF x -> WF y -> incl (s_ss x) B -> incl (s_ss y) B -> XIN x -> XIN y ->
  (exists r, poly_mul KO CO PO TO E x y = Ok r /\ WF r /\ incl (s_ss r) B /\ XIN r /\ Value m r = vm (Value m x) (Value m y)) \/ (exists e, poly_mul KO CO PO TO E x y = Throw e /\ subs_exn e).
Proof.
  intros Wx Wy Ix Iy XX XY. assert (SZ' : Z.of_nat (len (s_ss x) + len (s_ss y)) <= imax size_t).
  { pose proof (sub_len _ (wf_ss _ _ _ _ Wx) Ix). pose proof (sub_len _ (wf_ss _ _ _ _ Wy) Iy). lia. }
  destruct (mul_exact KO KS CO PO TO KL CL E x y EO Wx Wy SZ') as (u & [SU U] & [(r & ER & Wr & SR & _)|[[X|X] _]]).
  - left. exists r. split; [exact ER|]. split; [exact Wr|]. split; [intros z I; rewrite SR in I; apply U in I as [I|I]; auto|]. split.
    + apply (mul_expos KO KS CO PO TO KL CL E Ex x y r); auto. apply (proj1 PA).
    + apply (value_mul KO KS CO PO TO KL CL vzero vone va vm vs vo VR (fun _ _ => UB) pw h h0 h1 hm E Ex); auto.
  - right. exists overflow_error. split; [exact X|]. left. reflexivity.
  - right. exists safe_cast_failure. split; [exact X|]. right. left. reflexivity.
Qed.
Notation vmul := (fun a b : res series => a <- a ;; b <- b ;; poly_mul KO CO PO TO E a b).
Lemma fold_throw (l : list (res series)) e p : fold_left vmul l (Throw e) = Ok p -> False.
Proof. induction l; cbn; [discriminate|auto]. Qed.
Lemma fold_powers (l : list (nat * series)) es : (forall i u, In (i, u) l -> exists z, In (z, u) sm) -> forall acc,
  ((exists a, acc = Ok a /\ WF a /\ incl (s_ss a) B /\ XIN a) \/ (exists e, acc = Throw e /\ subs_exn e)) ->
  (exists p, fold_left vmul (map (fun a => vpow (snd a) (nth (fst a) es 0)) l) acc = Ok p /\ WF p /\ incl (s_ss p) B /\ XIN p /\
     forall a, acc = Ok a -> Value m p = fold_left vm (map (fun a => pw (Value m (snd a)) (nth (fst a) es 0)) l) (Value m a)) \/
  (exists e, fold_left vmul (map (fun a => vpow (snd a) (nth (fst a) es 0)) l) acc = Throw e /\ subs_exn e).
Proof.
  induction l as [|[i u] l IH]; intros IL acc H.
  - cbn [map fold_left]. destruct H as [(a & -> & Wa & Ia & Xa)|(e & -> & X)]; [left; exists a; split; [reflexivity|split; [exact Wa|split; [exact Ia|split; [exact Xa|intros ? [= <-]; reflexivity]]]]|right; eauto].
  - cbn [map fold_left fst snd]. destruct (IL i u (or_introl eq_refl)) as (z & J). assert (IL' : forall i u, In (i, u) l -> exists z, In (z, u) sm) by (intros; eapply IL; right; eauto).
    destruct H as [(a & -> & Wa & Ia & Xa)|(e & -> & X)].
    + cbn [bind]. destruct (VP z u (nth i es 0) J) as [(p & EP & Wp & Ip & Xp & Vp)|(e & EP)].
      * rewrite EP. cbn [bind]. destruct (mul_in a p Wa Wp Ia Ip Xa Xp) as [(r & ER & Wr & Ir & Xr & Vr)|(e & ER & X)].
        -- rewrite ER. destruct (IH IL' (Ok r)) as [(q & EQ & Wq & Iq & Xq & Vq)|H]; [left; eauto| |right; exact H].
           left. exists q. split; [exact EQ|]. split; [exact Wq|]. split; [exact Iq|]. split; [exact Xq|]. intros a' [= <-]. rewrite (Vq r eq_refl), Vr, Vp. reflexivity.
        -- rewrite ER. destruct (IH IL' (Throw e)) as [(q & EQ & _)|H]; [right; eauto| |right; exact H]. elim (fold_throw _ _ _ EQ).
      * assert (X : subs_exn e) by (right; right; eauto 6). rewrite EP. cbn [bind]. destruct (IH IL' (Throw e)) as [(q & EQ & _)|H]; [right; eauto| |right; exact H]. elim (fold_throw _ _ _ EQ).
    + cbn [bind]. destruct (IH IL' (Throw e)) as [(q & EQ & _)|H]; [right; eauto| |right; exact H]. elim (fold_throw _ _ _ EQ).
Qed.
Lemma one_ok : exists o, series_of_cf KO CO PO TO (c_one CO) [] = Ok o /\ WF o /\ s_ss o = [] /\ XIN o /\ Value m o = vone.
Proof.
  destruct (of_cf_ok KO KS CO PO TO KL CL (c_one CO) [] ltac:(constructor) FN) as (o & EO' & Wo & So & _ & _ & T). exists o. split; [exact EO'|]. split; [exact Wo|]. split; [exact So|]. split.
  - intros k c I. assert (V' := wf_valid _ _ _ _ Wo k c I). assert (L := kl_len _ _ KL _ _ V'). rewrite So in *. destruct (ks_exps KS (len []) k); [constructor|discriminate].
  - unfold value. rewrite T, So. destruct (c_is_zero CO (c_one CO)) eqn:EZ; cbn [map fold_right fst snd mono]; [rewrite <- hone; apply (cl_zero _ CL) in EZ; rewrite EZ; symmetry; exact h0|]. rewrite hone. unfold mono. cbn. ring.
Qed.
Lemma expos_same (s : series) L : WF s -> same CO (vt KS (s_ss s) s) L -> (forall e, In e L -> Forall Ex (fst e)) -> XIN s.
Proof.
  intros W SM H k c I. assert (Cs : covers (s_ss s) s) by (split; [apply (wf_ss _ _ _ _ W)|apply incl_refl]). assert (NZ := wf_nonzero _ _ _ _ W k c I).
  rewrite <- (coef_term KO KS CO KL CL (s_ss s) s k c W Cs I), coef_nden, <- vt_psum, SM in NZ. rewrite spread_self in NZ; [|apply sorted_set_nodup, (wf_ss _ _ _ _ W)|apply (kl_len _ _ KL), (wf_valid _ _ _ _ W k c I)].
  clear SM. induction L as [|e l IH]; [elim NZ; reflexivity|]. rewrite (psum_cons CO CL) in NZ. unfold vec_eqb at 1 in NZ. destruct (list_eq_dec Z.eq_dec (fst e) (exps s k)) as [<-|Q]; [apply H; left; reflexivity|].
  apply IH; [intros; apply H; right; auto|]. intros Z. apply NZ. rewrite Z. cbn [ifP]. ring.
Qed.
Lemma scalar_expos (a : series) c : WF a -> XIN a -> XIN (series_scalar_mul KO CO a c).
Proof.
  intros W X. destruct (scalar_mul_ok KO KS CO KL CL a c W) as (Wp & Sp & _). eapply expos_same; [exact Wp|rewrite Sp; apply (scalar_vt KO KS CO KL CL a c (s_ss a) W)|].
  intros e I. apply in_map_iff in I as (e' & <- & I). cbn [fst]. apply (vt_in KS Ex (s_ss a) a e' (proj1 PA) X I).
Qed.
Lemma value_tmp (t : series) ss es : WF t -> s_ss t = ss -> sorted_set ss -> len es = len ss -> (forall us, same CO (vt KS us t) [(spread ss us es, c_one CO)]) -> Value m t = Mono pw m ss es ss.
Proof.
  intros W S Hs L VT. assert (Ct : covers ss t) by (split; [exact Hs|rewrite S; apply incl_refl]). rewrite (value_lin KO KS CO vzero vone va vm vs vo VR (fun _ _ => UB) pw h h0 m ss) by auto.
  rewrite (lin_ext CO vzero vone va vm vs vo VR (list_eq_dec Z.eq_dec) h h0 h1 _ _ [(spread ss ss es, c_one CO)]) by (intros a; apply VT). cbn [lin fst snd]. rewrite hone, spread_self by (auto; apply sorted_set_nodup; auto). ring.
Qed.

Lemma subs_poly_ok (x : series) (mc : symbol_map V) : WF x -> incl (s_ss x) B -> XIN x -> overridden (Value m) sm m mc ->
  (exists r, subs_poly KO CO PO TO E vpow x sm = Ok r /\ WF r /\ incl (s_ss r) B /\ Value m r = Value mc x) \/ (exists e, subs_poly KO CO PO TO E vpow x sm = Throw e /\ subs_exn e).
Proof.
  intros W IX XX OV. assert (Hs := wf_ss _ _ _ _ W). unfold subs_poly, poly_subs. unfold set_symbol_set. change (series_empty (series_default TO)) with true. cbn iota. cbn [bind].
  change (set_tag _ (s_tag x)) with (blank x). cbv zeta.
  match goal with |- context [rfold ?f _ _] => set (step := f) end.
  set (tv := fun e : K * C => vm (h (snd e)) (Mono pw mc (s_ss x) (exps x (fst e)) (s_ss x))).
  destruct (rfold_inv step (fun done r => WF r /\ incl (s_ss r) B /\ Value m r = fold_right va vzero (map tv done)) (fun q => exists e, q = Throw e /\ subs_exn e))
    with (l := terms x) (pre := @nil (K * C)) (b := series_default TO : series) as [(r & ER & (Wr & Ir & Vr))|H].
  - intros b (e & X & _). discriminate.
  - split; [apply default_wf|]. split; [intros ? []|reflexivity].
  - cbn [app]. intros p r [k c] q EQ (Wr & Ir & Vr). assert (I : In (k, c) (terms x)) by (rewrite EQ; apply in_or_app; right; left; reflexivity).
    pose proof (wf_valid _ _ _ _ W k c I) as Vk. assert (LE : len (exps x k) = len (s_ss x)) by (apply (kl_len _ _ KL); exact Vk).
    unfold step. cbn [fst snd].
    destruct (kl_subs _ _ KL (res series) series (series_of_cf KO CO PO TO (c_one CO) []) vmul (fun u z => Ok (vpow u z)) vpow k (s_ss x) (sm_intersect_idx sm (s_ss x)) Vk (idx_sorted sm (s_ss x) Sm Hs) (idx_bound sm (s_ss x) Sm Hs)) as (k' & EK & V' & X').
    { reflexivity. }
    rewrite EK. cbn [bind]. destruct one_ok as (o & EO' & Wo & So & Xo & Vo). rewrite EO'. rewrite (idx_zero sm (s_ss x) Sm Hs _ LE) in X'.
    destruct (tmp_ok KO KS CO PO KL CL x k' W V') as (t & ET & Wt & ST & LT & VT). rewrite ET. cbn [bind].
    destruct (fold_powers (sm_intersect_idx sm (s_ss x)) (exps x k)) with (acc := Ok o) as [(pv & EP & Wp & Ip & Xp & Vp)|(e & EP & X)].
    + intros i u J. apply (idx_iff sm (s_ss x) Sm Hs) in J as (n & _ & A). exists n. apply assoc_iff; auto. apply sorted_set_nodup; auto.
    + left. exists o. rewrite So. split; [reflexivity|]. split; [exact Wo|]. split; [intros ? []|exact Xo].
    + rewrite EP. cbn [bind]. specialize (Vp o eq_refl). rewrite Vo in Vp.
      rewrite (idx_mono sm (s_ss x) Sm Hs vzero vone va vm vs vo VR (fun u e => pw (Value m u) e) (exps x k) LE) in Vp.
      destruct (scalar_mul_ok KO KS CO KL CL pv c Wp) as (Wc & Sc & _).
      destruct (mul_in (series_scalar_mul KO CO pv c) t Wc Wt) as [(pt & EM & Wm & Im & Xm & Vm)|(e & EM & X)]; [rewrite Sc; exact Ip|rewrite ST; exact IX|apply scalar_expos; auto| | |].
      { eapply expos_same; [exact Wt|apply VT|]. intros e [<-|[]]. cbn [fst]. rewrite X', ST, spread_self; [|apply sorted_set_nodup; auto|apply keep_len]. unfold keep. apply Forall_forall. intros y J. apply in_map_iff in J as (z & <- & _).
        destruct (assoc sm z); [apply (proj1 PA)|]. apply expo_in; [apply (proj1 PA)|]. apply (XX k c I). }
      * rewrite EM. cbn [bind]. rewrite value_scalar in Vm by auto.
        rewrite (value_tmp t (s_ss x) (keep sm (s_ss x) (exps x k)) Wt ST Hs) in Vm; [|apply keep_len|intros us; rewrite <- X'; apply VT].
        assert (SZ' : Z.of_nat (len (s_ss r) + len (s_ss pt)) <= imax size_t) by (pose proof (sub_len _ (wf_ss _ _ _ _ Wr) Ir); pose proof (sub_len _ (wf_ss _ _ _ _ Wm) Im); lia).
        destruct (in_place_ok KO KS CO CO PO PO TO KL CL CL (fun c => c) eq_refl (fun _ _ => eq_refl) true r false pt Wr Wm SZ' ltac:(discriminate)) as [(r' & E' & Wr' & U' & L' & D' & _)|[H _]].
        -- left. exists r'. assert (Ir' : incl (s_ss r') B) by (intros z J; apply U' in J as [J|J]; auto). split; [exact E'|]. split; [exact Wr'|]. split; [exact Ir'|].
           assert (CV : forall s : series, incl (s_ss s) B -> covers B s) by (intros s J; split; [exact HB|exact J]).
           rewrite (value_sum KO KS CO CL vzero vone va vm vs vo VR (fun _ _ => UB) pw h h0 h1 m B true r' r pt); auto; [|intros ws; rewrite !coef_nden, D'; reflexivity].
           rewrite Vr, Vm, Vp, map_app, fold_right_app. cbn [map fold_right].
           assert (G : forall l acc, fold_right va acc (map tv l) = va (fold_right va vzero (map tv l)) acc) by (induction l as [|a l IH]; intros acc; cbn [map fold_right]; [ring|rewrite (IH acc); ring]).
           rewrite (G p (va _ _)). unfold tv at 3. cbn [fst snd]. rewrite (mono_override (Value m) sm m mc) by (auto; apply sorted_set_nodup; auto). ring.
        -- right. destruct H as [H|H]; rewrite H; eexists; (split; [reflexivity|]); [left|right; left]; reflexivity.
      * right. rewrite EM. cbn [bind]. eauto.
    + right. rewrite EP. cbn [bind]. eauto.
  - left. exists r. split; [exact ER|]. split; [exact Wr|]. split; [exact Ir|]. exact Vr.
  - right. exact H.
Qed.
End SV.
