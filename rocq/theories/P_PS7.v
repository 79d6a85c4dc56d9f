(** Property C92: substitution of scalars in power series.  Vocabulary: PSSpec.v ([within], [respects], [trunc_ok]), SubsSpec.v ([keep]), EvalSpec.v ([mono], [powers_exist]). *)
From Coq Require Import ZArith List Bool String Arith Sorted Permutation Lia Ring Ring_theory.
From Verif Require Import Base KpackModel KpackSpec IntModel IntSpec SymModel SymSpec SymProofs P_Sym PMonModel PMonSpec KeyOps KeyInst
  SeriesModel SeriesModel2 SeriesSpec SeriesProofs SeriesProofs2 SeriesProofs3 SeriesProofs4 SeriesProofs5 SeriesProofs6 Lin EvalSpec SeriesEval SeriesProofs7 CfInst P_Series P_Series2
  PolyModel PolyModel2 PolySpec PolyProofs7 PolyProofs8 PolyProofs9 P_Poly P_Poly2 PowProofs2 CalcSpec DiffProofs IntegProofs P_Calc P_Integ2 PSModel PSSpec PSProofs P_PS3 P_PS4 MixModel MixModel2 MixSpec MixProofs MixProofs2 P_Mix2 SubsSpec SubsProofs P_Subs CalcModel2 CalcProofs2 CalcProofs3 P_PS6 PSModel3.
Import ListNotations.
Open Scope Z_scope.
Open Scope res_scope.
Local Notation len := List.length.

Section P7.
Context {K C : Type} (KO : key_ops K) (KS : key_sem K) (CO : cf_ops C) (PO : tbl_policy (K * C)) (tD : ity).
Context (KL : key_laws KO KS) (CL : cf_laws CO) (HT : integral_type tD) (DI : degrees_in KS tD).
Notation series := (series K C trunc_t).
Notation WF := (wf KO KS CO).
Notation coef := (coef KS CO).
Notation exps s k := (ks_exps KS (List.length (s_ss s)) k).
Notation "0c" := (c_zero CO).
Infix "+c" := (c_add CO) (at level 50, left associativity).
Infix "*c" := (c_mul CO) (at level 40, left associativity).
Add Ring CringP7 : (cl_ring _ CL).
Context {U : Type} (vpow : U -> Z -> res C) (pw : U -> Z -> C).
Notation weight sm x k := (mono (c_one CO) (c_mul CO) pw sm (s_ss x) (exps x k) (s_ss x)).
Notation share sm x us ws := (fun e => if vec_eqb (spread (s_ss x) us (keep sm (s_ss x) (exps x (fst e)))) ws then weight sm x (fst e) *c snd e else 0c).
Notation stays sm x l := (forall k c, In (k, c) l -> within (s_tag x) (s_ss x) (keep sm (s_ss x) (exps x k)) = true).

Lemma csum_snoc (l : list C) a : csum CO (l ++ [a]) = csum CO l +c a.
Proof. induction l as [|b l IH]; [unfold csum; cbn; ring|]. change (csum CO ((b :: l) ++ [a])) with (b +c csum CO (l ++ [a])). change (csum CO (b :: l)) with (b +c csum CO l). rewrite IH. ring. Qed.
Lemma keep_length (sm : symbol_map U) ss vs : len (keep sm ss vs) = len ss.
Proof. unfold keep. apply map_length. Qed.

Lemma csum_zero (l : list C) : (forall a, In a l -> a = 0c) -> csum CO l = 0c.
Proof. induction l as [|a l IH]; intros H; [reflexivity|]. change (csum CO (a :: l)) with (a +c csum CO l). rewrite IH, (H a) by (try (left; reflexivity); intros b J; apply H; right; exact J). ring. Qed.
Lemma visit_same' (op : series -> series -> res series) x y : s_tag x = s_tag y -> ps_addsub_visit KO tD op x y = (ret <- op x y ;; Ok (set_tag ret (s_tag x))).
Proof.
  intros E. unfold ps_addsub_visit. rewrite <- E. destruct (s_tag x) as [|d|d s]; [reflexivity| |].
  - rewrite Z.eqb_refl. reflexivity.
  - rewrite Z.eqb_refl, (proj2 (ss_eqb_iff s s) eq_refl). reflexivity.
Qed.
Lemma tmp_tag (x t : series) k : WF x -> ks_valid KS (len (s_ss x)) k -> add_term KO CO PO true (clear_terms (blank x)) k (c_one CO) = Ok t -> s_tag t = s_tag x.
Proof.
  intros W V E. change (clear_terms (blank x)) with (blank x) in E. pose proof (blank_wf KO KS CO x W) as WB.
  destruct (add_ok KO KS CO PO KL CL (blank x) (blank x) k (c_one CO) WB WB) as [(t' & E' & _ & (_ & M2 & _) & _)|(_ & [F _])]; [split; [reflexivity|split; reflexivity]|exact V| |elim F; reflexivity].
  assert (t' = t) by congruence. subst t'. exact M2.
Qed.

Lemma ps_subs_loop (x : series) (sm : symbol_map U) : WF x -> sorted_set (map fst sm) -> powers_exist KS vpow pw sm x -> Z.of_nat (len (s_ss x) + len (s_ss x)) <= imax size_t -> trunc_ok tD (s_tag x) ->
  (exists r, ps_subs_scalar KO CO PO tD vpow x sm = Ok r /\ WF r /\ ((terms x = [] /\ r = series_default ps_tag_ops) \/ (s_ss r = s_ss x /\ s_tag r = s_tag x)) /\
    forall us ws, covers us x -> within (s_tag x) us ws = true \/ stays sm x (terms x) -> coef us r ws = csum CO (map (share sm x us ws) (terms x))) \/
  (ps_subs_scalar KO CO PO tD vpow x sm = Throw overflow_error /\ exists k c, In (k, c) (terms x) /\ degree_fails KS (s_tag x) (s_ss x) (keep sm (s_ss x) (exps x k))).
Proof.
  intros W Hm PE SZ TK. assert (Hs := wf_ss _ _ _ _ W). unfold ps_subs_scalar. unfold set_symbol_set. change (series_empty (series_default ps_tag_ops)) with true. cbn iota. cbn [bind].
  change (set_tag _ (s_tag x)) with (blank x). cbv zeta.
  match goal with |- context [rfold ?f _ _] => set (step := f) end.
  destruct (rfold_inv step (fun done r => WF r /\ s_log2 r = 0%nat /\ ((done = [] /\ r = series_default ps_tag_ops) \/ (s_ss r = s_ss x /\ s_tag r = s_tag x)) /\
      forall us ws, covers us x -> within (s_tag x) us ws = true \/ stays sm x done -> coef us r ws = csum CO (map (share sm x us ws) done))
      (fun o => o = Throw overflow_error /\ exists k c, In (k, c) (terms x) /\ degree_fails KS (s_tag x) (s_ss x) (keep sm (s_ss x) (exps x k))))
    with (l := terms x) (pre := @nil (K * C)) (b := series_default ps_tag_ops : series) as [(r & E & (Wr & _ & SS & SM))|H].
  - intros b [X _]. discriminate X.
  - split; [apply default_wf|]. split; [reflexivity|]. split; [left; auto|]. intros us ws _ _. reflexivity.
  - cbn [app]. intros p r [k c] q EQ (Wr & L0 & SS & SM). assert (I : In (k, c) (terms x)) by (rewrite EQ; apply in_or_app; right; left; reflexivity).
    pose proof (wf_valid _ _ _ _ W k c I) as V. assert (LE : len (exps x k) = len (s_ss x)) by (apply (kl_len _ _ KL); exact V).
    unfold step. cbn [fst snd].
    destruct (kl_subs _ _ KL C U (c_one CO) (c_mul CO) vpow pw k (s_ss x) (sm_intersect_idx sm (s_ss x)) V (idx_sorted sm (s_ss x) Hm Hs) (idx_bound sm (s_ss x) Hm Hs)) as (k' & EK & V' & X').
    { intros i u J. apply (idx_iff sm (s_ss x) Hm Hs) in J as (n & En & A). assert (EX : expo (s_ss x) (exps x k) n = nth i (exps x k) 0).
      { eapply expo_nth; eauto; [apply sorted_set_nodup; auto|]. apply nth_error_nth'. rewrite LE. apply nth_error_Some. congruence. }
      rewrite <- EX. apply (PE n u k c); [apply assoc_iff; auto; apply sorted_set_nodup; auto|exact I|eapply nth_error_In; eauto]. }
    rewrite EK. cbn [bind].
    rewrite (idx_mono sm (s_ss x) Hm Hs (c_zero CO) (c_one CO) (c_add CO) (c_mul CO) (c_sub CO) (c_neg CO) (cl_ring _ CL) pw (exps x k) LE) in *.
    rewrite (idx_zero sm (s_ss x) Hm Hs _ LE) in X'.
    destruct (tmp_ok KO KS CO PO KL CL x k' W V') as (t & ET & Wt & ST & LT & VT).
    assert (TT : s_tag t = s_tag x) by (apply (tmp_tag x t k' W V' ET)).
    rewrite ET. cbn [bind].
    destruct (scalar_mul_ok KO KS CO KL CL t (weight sm x k *c c) Wt) as (Wp & Sp & Tp & _ & _). set (pp := series_scalar_mul KO CO t (weight sm x k *c c)) in *.
    assert (Lp : s_log2 pp = 0%nat) by (apply scalar_log2; exact LT). rewrite ST in Sp. rewrite TT in Tp.
    assert (CP : forall us ws, coef us pp ws = if vec_eqb (spread (s_ss x) us (keep sm (s_ss x) (exps x k))) ws then weight sm x k *c c else 0c).
    { intros us ws. rewrite coef_nden, <- vt_psum. unfold pp. rewrite (scalar_vt KO KS CO KL CL t _ us Wt). rewrite (SeriesProofs.psum_map CO CL _ (fun v => v) (fun c0 => c0 *c (weight sm x k *c c)) CO (vt KS us t)) by (intros; ring). rewrite VT, X', (psum_cons CO CL), psum_nil. cbn [fst snd]. destruct (vec_eqb _ ws); cbn [ifP]; ring. }
    assert (SZ' : Z.of_nat (len (s_ss r) + len (s_ss pp)) <= imax size_t). { rewrite Sp. destruct SS as [[_ ->]|[-> _]]; [cbn [series_default s_ss List.length]; lia|exact SZ]. }
    destruct (in_place_ok KO KS CO CO PO PO ps_tag_ops KL CL CL (fun c => c) eq_refl (fun _ _ => eq_refl) true r false pp Wr Wp SZ' ltac:(discriminate)) as [(s & E' & Ws & U' & L' & D' & _)|[_ H]].
    + assert (Ss : s_ss s = s_ss x) by (apply sorted_ext; [apply (wf_ss _ _ _ _ Ws)|exact Hs|]; intros z; rewrite U', Sp; destruct SS as [[_ ->]|[-> _]]; cbn; tauto).
      assert (CS : forall us ws, coef us s ws = coef us r ws +c coef us pp ws) by (intros us ws; rewrite !coef_nden, D'; reflexivity).
      assert (SH : forall us ws, coef us pp ws = share sm x us ws (k, c)) by (intros us ws; apply CP).
      assert (SUM : forall us ws, covers us x -> within (s_tag x) us ws = true \/ stays sm x (p ++ [(k, c)]) -> coef us s ws = csum CO (map (share sm x us ws) (p ++ [(k, c)]))).
      { intros us ws CV H. rewrite CS, SM, map_app; [change (map (share sm x us ws) [(k, c)]) with [share sm x us ws (k, c)]; rewrite csum_snoc, SH; reflexivity|exact CV|]. destruct H as [H|H]; [left; exact H|right]. intros k0 c0 J. apply (H k0 c0). apply in_or_app. left. exact J. }
      unfold ps_in_place_addsub. destruct (visit_ok KO KS CO tD KL HT DI (fun a b => series_in_place_addsub KO CO PO CO PO ps_tag_ops true (fun c => c) a false b) r pp) as [_ VO].
      * destruct SS as [[_ ->]|[_ ->]]; [exact Logic.I|exact TK].
      * rewrite Tp. exact TK.
      * intros s' E2. rewrite E' in E2. injection E2 as <-. exact Ws.
      * assert (JT : joint (s_tag r) (s_tag pp) (s_tag x)) by (rewrite Tp; destruct SS as [[_ ->]|[_ ->]]; [right; left; split; reflexivity|left; split; reflexivity]).
        specialize (VO _ JT). rewrite E' in VO. destruct VO as [[_ EV]|[(r' & EV & Wr' & Sr' & Tr' & Lr' & Fr')|[EV (NT & k0 & c0 & J0 & N0)]]]; rewrite EV.
        -- left. eexists. split; [reflexivity|]. split; [apply set_tag_wf; exact Ws|]. split; [cbn; congruence|]. split; [right; split; [exact Ss|reflexivity]|]. intros us ws CV H. rewrite coef_tag. apply SUM; auto.
        -- left. exists r'. split; [reflexivity|]. split; [exact Wr'|]. split; [congruence|]. split; [right; split; congruence|]. intros us ws CV H. assert (CVs : covers us s) by (split; [apply CV|rewrite Ss; apply CV]).
           rewrite (kept_coef KO KS CO KL CL (s_tag x) us s r' ws CVs Ws Sr' Fr'). destruct (within (s_tag x) us ws) eqn:WI; [apply SUM; auto|]. destruct H as [H|H]; [discriminate H|]. symmetry.
           apply csum_zero. intros a Ja. apply in_map_iff in Ja as ([k1 c1] & <- & J1). cbn [fst snd]. unfold vec_eqb. destruct (list_eq_dec _ _ _) as [EW|]; [|reflexivity]. exfalso. rewrite <- EW in WI. rewrite within_spread in WI; [rewrite (H k1 c1 J1) in WI; discriminate WI|exact Hs|apply CV|apply CV|apply keep_length].
        -- right. split; [reflexivity|]. exists k, c. split; [exact I|]. split; [exact NT|]. rewrite Ss in N0. destruct SS as [[-> ->]|[_ TR]].
           ++ assert (CV : covers (s_ss x) x) by (split; [exact Hs|apply incl_refl]). assert (CVs : covers (s_ss x) s) by (split; [exact Hs|rewrite Ss; apply incl_refl]).
              pose proof (coef_term KO KS CO KL CL (s_ss x) s k0 c0 Ws CVs J0) as CT. rewrite CS, CP in CT. assert (Z0 : coef (s_ss x) (series_default ps_tag_ops) (spread (s_ss s) (s_ss x) (exps s k0)) = 0c) by reflexivity. rewrite Z0 in CT.
              unfold vec_eqb in CT. destruct (list_eq_dec _ _ _) as [EW|_]; [|exfalso; apply (wf_nonzero _ _ _ _ Ws k0 c0 J0); rewrite <- CT; ring].
              rewrite Ss in EW. rewrite !spread_self in EW; [rewrite EW; exact N0| | | |]; try (apply sorted_set_nodup; exact Hs); [apply (kl_len _ _ KL); rewrite <- Ss; eapply wf_valid; eauto|apply keep_length].
           ++ exfalso. rewrite visit_same' in EV by congruence. rewrite E' in EV. discriminate EV.
    + exfalso. destruct H as [(u & SU & IU & UN)|[[F _]|[F _]]]; [|congruence|congruence].
      assert (u = s_ss x) as -> by (apply sorted_ext; auto; intros z; rewrite IU, Sp; destruct SS as [[_ ->]|[-> _]]; cbn; tauto).
      destruct UN as [UN|UN]; [destruct SS as [[_ SS]|[SS _]]|].
      * subst r. destruct UN as (? & ? & [] & _).
      * rewrite <- SS in UN. exact (not_unrep_self KO KS CO KL r Wr UN).
      * rewrite <- Sp in UN. exact (not_unrep_self KO KS CO KL pp Wp UN).
  - left. exists r. split; [exact E|]. split; [exact Wr|]. split; [exact SS|exact SM].
  - right. exact H.
Qed.

(** C92. Substituting scalars in a power series with terms: the result has the symbols and the truncation of x; up to the truncation its coefficients are the exact ones: each term c m of x contributes
    c * (the value of the substituted symbols of m) to the monomial of the others; if no monomial of the others is beyond the truncation, the result respects the truncation and all its
    coefficients are exact.  The only exception is that of a degree which does not fit its type, in the first sum.
    Missing from the full claim (refuted below): power series without terms lose their truncation and their symbols; monomials beyond the truncation are not all removed. *)
Theorem ps_subs_scalar_exact_partial : forall (x : series) (sm : symbol_map U), WF x -> sorted_set (map fst sm) -> powers_exist KS vpow pw sm x -> Z.of_nat (len (s_ss x) + len (s_ss x)) <= imax size_t -> trunc_ok tD (s_tag x) -> terms x <> [] ->
  let total us ws := csum CO (map (fun e => if vec_eqb (spread (s_ss x) us (keep sm (s_ss x) (exps x (fst e)))) ws then mono (c_one CO) (c_mul CO) pw sm (s_ss x) (exps x (fst e)) (s_ss x) *c snd e else 0c) (terms x)) in
  (exists r, ps_subs_scalar KO CO PO tD vpow x sm = Ok r /\ WF r /\ s_ss r = s_ss x /\ s_tag r = s_tag x /\
    (forall us ws, covers us x -> within (s_tag x) us ws = true -> coef us r ws = total us ws) /\
    ((forall k c, In (k, c) (terms x) -> within (s_tag x) (s_ss x) (keep sm (s_ss x) (exps x k)) = true) -> respects KS r /\ forall us ws, covers us x -> coef us r ws = total us ws)) \/
  (ps_subs_scalar KO CO PO tD vpow x sm = Throw overflow_error /\ exists k c, In (k, c) (terms x) /\ degree_fails KS (s_tag x) (s_ss x) (keep sm (s_ss x) (exps x k))).
Proof.
  intros x sm W Hm PE SZ TK NE total. destruct (ps_subs_loop x sm W Hm PE SZ TK) as [(r & E & Wr & SS & SM)|H]; [left|right; exact H]. destruct SS as [[X _]|[SR TR]]; [congruence|].
  exists r. split; [exact E|]. split; [exact Wr|]. split; [exact SR|]. split; [exact TR|]. split; [intros us ws CV WI; apply SM; auto|]. intros ST. split; [|intros us ws CV; apply SM; auto].
  intros k c I. assert (Hs := wf_ss _ _ _ _ W). assert (CX : covers (s_ss x) x) by (split; [exact Hs|apply incl_refl]). assert (CR : covers (s_ss x) r) by (split; [exact Hs|rewrite SR; apply incl_refl]).
  assert (NZ := wf_nonzero _ _ _ _ Wr k c I). rewrite <- (coef_term KO KS CO KL CL (s_ss x) r k c Wr CR I), (SM _ _ CX (or_intror ST)) in NZ. apply (csum_nonzero CO CL) in NZ as (c' & I' & NZ). apply in_map_iff in I' as ([k1 c1] & EE & J1). cbn [fst snd] in EE.
  unfold vec_eqb in EE. destruct (list_eq_dec _ _ _) as [EX|]; [|congruence]. rewrite SR in EX |- *. rewrite !spread_self in EX; [| | |apply sorted_set_nodup; auto|apply keep_length]; [|apply sorted_set_nodup; auto|apply (kl_len _ _ KL); rewrite <- SR; eapply wf_valid; eauto].
  rewrite TR. rewrite <- EX. eapply ST; eauto.
Qed.

(** C92. In particular, if the exponents of the substituted symbols are not negative and x respects its truncation, so does the result. *)
Lemma keep_degree (sm : symbol_map U) sel ss vs : sorted_set ss -> len vs = len ss -> (forall z u, assoc sm z = Some u -> 0 <= expo ss vs z) -> degree_of sel ss (keep sm ss vs) <= degree_of sel ss vs.
Proof.
  intros S L H. assert (ND := sorted_set_nodup _ S). replace (degree_of sel ss vs) with (degree_of sel ss (map (expo ss vs) ss)) by (f_equal; exact (spread_self ss vs ND L)). unfold keep. rewrite !degree_wsum.
  assert (G : forall l, wsum (fun z => if sel z then match assoc sm z with Some _ => 0 | None => expo ss vs z end else 0) l <= wsum (fun z => if sel z then expo ss vs z else 0) l); [|apply G].
  induction l as [|z l IH]; [apply Z.le_refl|]. unfold wsum in *. cbn [map fold_right]. apply Z.add_le_mono; [|exact IH]. destruct (sel z); [|lia]. destruct (assoc sm z) as [u|] eqn:A; [specialize (H z u A)|]; lia.
Qed.
Theorem ps_subs_scalar_respects : forall (x r : series) (sm : symbol_map U), WF x -> sorted_set (map fst sm) -> powers_exist KS vpow pw sm x -> Z.of_nat (len (s_ss x) + len (s_ss x)) <= imax size_t -> trunc_ok tD (s_tag x) -> terms x <> [] ->
  respects KS x -> (forall k c z u, In (k, c) (terms x) -> In (z, u) sm -> 0 <= expo (s_ss x) (exps x k) z) -> ps_subs_scalar KO CO PO tD vpow x sm = Ok r ->
  respects KS r /\ forall us ws, covers us x -> coef us r ws =
    csum CO (map (fun e => if vec_eqb (spread (s_ss x) us (keep sm (s_ss x) (exps x (fst e)))) ws then mono (c_one CO) (c_mul CO) pw sm (s_ss x) (exps x (fst e)) (s_ss x) *c snd e else 0c) (terms x)).
Proof.
  intros x r sm W Hm PE SZ TK NE RX NN ER. destruct (ps_subs_scalar_exact_partial x sm W Hm PE SZ TK NE) as [(r' & E & _ & _ & _ & _ & H)|[E _]]; [|congruence]. assert (r' = r) by congruence. subst r'. apply H. clear H.
  intros k c I. specialize (RX k c I). assert (Hs := wf_ss _ _ _ _ W). assert (LE : len (exps x k) = len (s_ss x)) by (apply (kl_len _ _ KL); eapply wf_valid; eauto).
  assert (D : forall sel, degree_of sel (s_ss x) (keep sm (s_ss x) (exps x k)) <= degree_of sel (s_ss x) (exps x k)) by (intros sel; apply keep_degree; auto; intros z u A; apply assoc_iff in A; [eapply NN; eauto|apply sorted_set_nodup; exact Hm]).
  unfold within in *. destruct (s_tag x) as [|d|d s]; [reflexivity| |]; apply Z.leb_le in RX; apply Z.leb_le; [specialize (D all_symbols)|specialize (D (one_of s))]; lia.
Qed.
End P7.
Print Assumptions ps_subs_scalar_exact_partial.
Print Assumptions ps_subs_scalar_respects.

(** * The hypotheses are met: 1 + 2 a - 3 b + 5 a b, truncated to degree 2; 2 replaces a *)
Notation tD := (kd_ty kd_int64).
Notation Sb := (ps_subs_scalar exK Z_cf exP tD ex_vpow).
Definition at2 : symbol_map Z := [("a", 2)]%string.
Example ex_ps_subs_arg : powers_exist exS ex_vpow Z.pow at2 ps_x /\ sorted_set (map fst at2) /\ respects exS ps_x /\ terms ps_x <> [] /\
  (forall k c z u, In (k, c) (terms ps_x) -> In (z, u) at2 -> 0 <= expo (s_ss ps_x) (ks_exps exS (len (s_ss ps_x)) k) z).
Proof.
  split; [intros z v k c _ _ _; reflexivity|]. split; [repeat constructor|]. split; [apply ps_x_respects|]. split; [intros X; apply (f_equal (@List.length _)) in X; vm_compute in X; discriminate X|].
  intros k c z u J [E|[]]. injection E as <- <-. assert (F : forallb (fun e => 0 <=? expo (s_ss ps_x) (ks_exps exS (len (s_ss ps_x)) (fst e)) "a"%string) (terms ps_x) = true) by (vm_compute; reflexivity). apply Z.leb_le. exact (proj1 (forallb_forall _ _) F (k, c) J).
Qed.
Example ex_ps_subs : exists r, Sb ps_x at2 = Ok r /\ s_tag r = total_truncation 2 /\ s_ss r = ["a"; "b"]%string /\ series_size r = 2%nat /\ coef exS Z_cf ["a"; "b"]%string r [0; 0] = 5 /\ coef exS Z_cf ["a"; "b"]%string r [0; 1] = 7.
Proof. eexists. do 5 (split; [vm_compute; reflexivity|]). vm_compute; reflexivity. Qed.

(** C92, refuted: substitution keeps the truncation.  A power series truncated to degree 2 without terms becomes one without truncation. *)
Theorem ps_subs_truncation_refuted :
  ~ (forall (x r : series Z Z trunc_t) sm, wf exK exS Z_cf x -> trunc_ok tD (s_tag x) -> respects exS x -> sorted_set (map fst sm) -> Sb x sm = Ok r -> s_tag r = s_tag x).
Proof.
  intros H. assert (E : exists r, Sb ps_e at2 = Ok r /\ s_tag r = no_truncation) by (eexists; split; vm_compute; reflexivity). destruct E as (r & E & T).
  specialize (H ps_e r at2). rewrite T in H. assert (W : wf exK exS Z_cf ps_e) by (apply psb_wf; [repeat constructor|lia|vm_compute; reflexivity]).
  assert (X : no_truncation = s_tag ps_e); [|vm_compute in X; discriminate X]. apply H; [exact W| | |repeat constructor|exact E].
  - replace (s_tag ps_e) with (total_truncation 2) by (vm_compute; reflexivity). split; vm_compute; congruence.
  - intros k c I. assert (Y : terms ps_e = []) by (vm_compute; reflexivity). rewrite Y in I. destruct I.
Qed.
(** C92, refuted: the result respects the truncation.  1 replaces a in a^-2 b^2 + a^-2 b, truncated to degree 0: one of b^2 and b is not removed. *)
Definition ps_neg := psb (total_truncation 0) ["a"; "b"]%string 0 [([-2; 2], 3); ([-2; 1], 4)].
(** Powers of integers: 1 to any power is 1. *)
Definition unit_vpow (u e : Z) : res Z := if u =? 1 then Ok 1 else if e <? 0 then Throw domain_error else Ok (u ^ e).
Notation Su := (ps_subs_scalar exK Z_cf exP tD unit_vpow).
Definition at1 : symbol_map Z := [("a", 1)]%string.
Theorem ps_subs_respects_refuted :
  ~ (forall (x r : series Z Z trunc_t) sm, wf exK exS Z_cf x -> trunc_ok tD (s_tag x) -> respects exS x -> sorted_set (map fst sm) -> terms x <> [] -> Su x sm = Ok r -> respects exS r).
Proof.
  intros H. assert (E : is_ok (Su ps_neg at1) = true) by (vm_compute; reflexivity). apply (get_ok (series_default ps_tag_ops)) in E.
  specialize (H ps_neg (get (series_default ps_tag_ops) (Su ps_neg at1)) at1). assert (W : wf exK exS Z_cf ps_neg) by (apply psb_wf; [repeat constructor|lia|vm_compute; reflexivity]).
  assert (R : respects exS (get (series_default ps_tag_ops) (Su ps_neg at1))).
  { apply H; [exact W| | | | |exact E].
    - replace (s_tag ps_neg) with (total_truncation 0) by (vm_compute; reflexivity). split; vm_compute; congruence.
    - intros k c I. assert (F : forallb (fun e => within (s_tag ps_neg) (s_ss ps_neg) (ks_exps exS (len (s_ss ps_neg)) (fst e))) (terms ps_neg) = true) by (vm_compute; reflexivity). apply (proj1 (forallb_forall _ _) F (k, c) I).
    - repeat constructor.
    - intros X. apply (f_equal (@List.length _)) in X. vm_compute in X. discriminate X. }
  assert (F : forallb (fun e => within (s_tag (get (series_default ps_tag_ops) (Su ps_neg at1))) (s_ss (get (series_default ps_tag_ops) (Su ps_neg at1))) (ks_exps exS (len (s_ss (get (series_default ps_tag_ops) (Su ps_neg at1)))) (fst e))) (terms (get (series_default ps_tag_ops) (Su ps_neg at1))) = false) by (vm_compute; reflexivity).
  revert F R. generalize (get (series_default ps_tag_ops) (Su ps_neg at1)). clear. intros r F R. assert (T : forallb (fun e => within (s_tag r) (s_ss r) (ks_exps exS (len (s_ss r)) (fst e))) (terms r) = true); [|congruence].
  apply forallb_forall. intros [k c] I. exact (R k c I).
Qed.
Print Assumptions ps_subs_truncation_refuted.
Print Assumptions ps_subs_respects_refuted.
Print Assumptions ex_ps_subs_arg.
Print Assumptions ex_ps_subs.
