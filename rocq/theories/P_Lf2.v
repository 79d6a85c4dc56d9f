(** Property C79: scalar operations on series over any coefficient type.  Vocabulary: LfSpec.v. *)
From Coq Require Import ZArith List Bool String Arith Lia Permutation Sorted.
From Verif Require Import Base KpackModel KpackSpec KpackProofs P_Kpack SymSpec SymModel SymProofs P_Sym PMonSpec PMonModel PMonProofs P_PMon KeyOps KeyInst PMonProofs2 SeriesModel SeriesModel2 SeriesSpec PolyModel PolyModel2 PolySpec
  SeriesProofs SeriesProofs2 SeriesProofs3 SeriesProofs4 SeriesProofs5 CfInst P_Series P_Series2 P_PMon P_Poly P_Poly2 PolyProofs PolyProofs7 PolyProofs9 LfSpec LfProofs LfProofs2 LfProofs3 LfProofs4 P_Lf RecModel RecModel5.
Import ListNotations.
Open Scope Z_scope.
Open Scope res_scope.
Local Notation len := List.length.

Section P.
Context {K C Tag : Type} (KO : key_ops K) (KS : key_sem K) (CO : cf_ops C) (PO : tbl_policy (K * C)).
Context (KL : key_laws KO KS) (LL : light_laws CO).
Notation series := (series K C Tag).
Notation LWF := (lwf KO KS CO).
Notation entry := (entry KS).

Lemma same_key (t : list (K * C)) k c d : NoDup (map fst t) -> In (k, c) t -> In (k, d) t -> c = d.
Proof. intros N I J. apply (tget_in KO KS KL t k c N) in I. apply (tget_in KO KS KL t k d N) in J. congruence. Qed.
Lemma scalar_table_lf b (t : list (K * C)) : NoDup (map fst t) -> scalar_mul_table KO CO b t = filter (fun e => negb (c_is_zero CO (snd e))) (map (fun e => (fst e, c_mul CO (snd e) b)) t).
Proof.
  intros N. unfold scalar_mul_table. set (t1 := map (fun e => (fst e, c_mul CO (snd e) b)) t).
  assert (N1 : NoDup (map fst t1)) by (unfold t1; rewrite map_map; exact N). rewrite erase_fold. apply filter_ext_in. intros [k c] I. cbn [fst snd].
  apply eq_true_iff_eq. rewrite forallb_forall, negb_true_iff. split.
  - intros H. destruct (c_is_zero CO c) eqn:E; [|reflexivity]. exfalso. specialize (H k). rewrite (keqb_refl KO KS KL) in H. discriminate H.
    apply in_map_iff. exists (k, c). split; auto. apply filter_In. auto.
  - intros H k' I'. apply negb_true_iff, (keqb_neq KO KS KL). intros <-. apply in_map_iff in I' as ([k2 c2] & E & I'). cbn in E. subst k2. apply filter_In in I' as [I' Z].
    cbn [snd] in Z. rewrite (same_key t1 k c c2 N1 I I') in H. congruence.
Qed.
Lemma not_zero c : c_is_zero CO c = false -> c <> c_zero CO.
Proof. intros H ->. rewrite (ll_zero _ LL) in H. discriminate. Qed.

(** C79. Multiplication by a scalar: every coefficient is multiplied, in this order, and dropped if the product is zero. *)
Theorem any_cf_scalar_mul : forall (x : series) b, LWF x -> let r := series_scalar_mul KO CO x b in
  LWF r /\ s_ss r = s_ss x /\ s_tag r = s_tag x /\ (len (terms r) <= len (terms x))%nat /\
  (forall k d, In (k, d) (terms r) <-> c_is_zero CO b = false /\ c_is_zero CO d = false /\ exists c, In (k, c) (terms x) /\ d = c_mul CO c b) /\
  forall us ws, incl (s_ss x) us ->
    entry us r ws = match entry us x ws with Some c => if c_is_zero CO b then None else nonzero CO (c_mul CO c b) | None => None end.
Proof.
  intros x b LW. pose proof (lw_wf _ _ _ _ LW) as W.
  assert (MAIN : let r := series_scalar_mul KO CO x b in LWF r /\ s_ss r = s_ss x /\ s_tag r = s_tag x /\ (len (terms r) <= len (terms x))%nat /\ (forall k d, In (k, d) (terms r) <-> c_is_zero CO b = false /\ c_is_zero CO d = false /\ exists c, In (k, c) (terms x) /\ d = c_mul CO c b)).
  { cbv zeta. unfold series_scalar_mul. destruct (series_empty x || c_is_zero CO b) eqn:E.
    - split; [|split; [reflexivity|split; [reflexivity|split; [cbn; lia|]]]].
      + destruct (set_n_segments_ok KO KS CO (Series [[]] 0 (s_tag x) (s_ss x)) 0) as [_ X]; [cbn; lia|apply (wf_ss _ _ _ _ W)|]. constructor; [exact X|intros k c []].
      + intros k d. change (terms (Series [[]] 0 (s_tag x) (s_ss x))) with (@nil (K * C)). split; [intros []|]. intros (Z & _ & c & I & _). apply orb_true_iff in E as [E|E]; [|congruence]. apply empty_terms in E. rewrite E in I. exact I.
    - apply orb_false_iff in E as [_ EB]. assert (W0 := W). apply wf_iff in W0 as (_ & _ & _ & W4).
      assert (NT : forall t, In t (s_tables x) -> NoDup (map fst t)) by (intros t It; apply In_nth_error in It as [i Hi]; apply (W4 i t Hi)).
      assert (TT : terms (set_tables x (map (scalar_mul_table KO CO b) (s_tables x))) = filter (fun e => negb (c_is_zero CO (snd e))) (map (fun e => (fst e, c_mul CO (snd e) b)) (terms x))).
      { unfold terms. cbn [set_tables s_tables]. rewrite concat_map, <- concat_filter, map_map. f_equal. apply map_ext_in. intros t It. apply scalar_table_lf. auto. }
      split; [|split; [reflexivity|split; [reflexivity|split]]].
      + constructor.
        * apply map_tables_ok; auto. intros t It N. rewrite (scalar_table_lf b t N). split; [apply filter_nodup; rewrite map_map; exact N|].
          split; [intros k I; apply filter_keys in I; rewrite map_map in I; exact I|]. split.
          -- intros k c I. apply filter_In in I as [_ Z]. cbn [snd] in Z. apply not_zero. apply negb_true_iff. exact Z.
          -- eapply Nat.le_trans; [apply filter_len|]. rewrite map_length. lia.
        * intros k c I. rewrite TT in I. apply filter_In in I as [_ Z]. apply negb_true_iff. exact Z.
      + rewrite TT. eapply Nat.le_trans; [apply filter_len|]. rewrite map_length. lia.
      + intros k d. rewrite TT, filter_In, in_map_iff, negb_true_iff. cbn [snd]. split.
        * intros [([k' c] & E & I) Z]. cbn [fst snd] in E. split; [exact EB|]. split; [exact Z|]. exists c. split; congruence.
        * intros (_ & Z & c & I & ->). split; [|exact Z]. exists (k, c). auto. }
  intros r. destruct MAIN as (LR & S & T & L & H). fold r in LR, S, T, L, H. split; [exact LR|]. split; [exact S|]. split; [exact T|]. split; [exact L|]. split; [exact H|].
  intros us ws IU. pose proof (lw_wf _ _ _ _ LR) as WR. assert (IR : incl (s_ss r) us) by (rewrite S; exact IU).
  destruct (entry us x ws) as [c|] eqn:EX.
  - pose proof (proj1 (entry_in KO KS CO KL us x ws c W IU) EX) as (k & I & SP). apply opt_ext. intros d. rewrite (entry_in KO KS CO KL us r ws d WR IR). rewrite S. split.
    + intros (k' & J & SP'). apply H in J as (ZB & ZD & c' & J & ->). rewrite ZB. assert (EX' : entry us x ws = Some c') by (apply (entry_in KO KS CO KL us x ws c' W IU); eauto). assert (c = c') by congruence. subst c'. unfold nonzero. rewrite ZD. reflexivity.
    + intros E. destruct (c_is_zero CO b) eqn:ZB; [discriminate|]. unfold nonzero in E. destruct (c_is_zero CO (c_mul CO c b)) eqn:ZD; [discriminate|]. assert (d = c_mul CO c b) by congruence. subst d. exists k. split; [|exact SP]. apply H. eauto.
  - destruct (entry us r ws) as [d|] eqn:ER; [|reflexivity]. exfalso. apply (entry_in KO KS CO KL us r ws d WR IR) in ER as (k & J & SP). apply H in J as (_ & _ & c & J & _). rewrite S in SP. assert (X : entry us x ws = Some c) by (apply (entry_in KO KS CO KL us x ws c W IU); eauto). congruence.
Qed.

(** C79. Addition of a scalar, on either side: one operation on the coefficient of the unit monomial. *)
Theorem any_cf_scalar_addsub : forall (sign scalar_left : bool) (x : series) c, LWF x -> ks_fits KS (repeat 0 (len (s_ss x))) ->
  let out := if scalar_left then scalar_addsub_series KO CO PO sign c x else series_addsub_scalar KO CO PO sign x c in
  (exists r, out = Ok r /\ LWF r /\ s_ss r = s_ss x /\ s_tag r = s_tag x /\ s_log2 r = s_log2 x /\
     forall us ws, incl (s_ss x) us -> entry us r ws =
       let e := if scalar_left && negb sign then option_map (c_neg CO) (entry us x ws) else entry us x ws in
       if vec_eqb ws (spread (s_ss x) us (repeat 0 (len (s_ss x)))) then merged CO (scalar_left || sign) e (Some c) else e) \/
  (out = Throw overflow_error /\ full (s_log2 x) (series_size x)).
Proof.
  intros sign left x c LW F out. destruct (kl_unit _ _ KL (s_ss x) F) as [V X]. rewrite size_terms.
  assert (G : forall sg (z : series), LWF z -> s_ss z = s_ss x -> s_tag z = s_tag x -> s_log2 z = s_log2 x -> len (terms z) = len (terms x) ->
    (exists r, series_add_term KO CO PO sg true false true false z (k_of_ss KO (s_ss z)) c = Ok r /\ LWF r /\ s_ss r = s_ss x /\ s_tag r = s_tag x /\ s_log2 r = s_log2 x /\
       forall us ws, incl (s_ss x) us -> entry us r ws = if vec_eqb ws (spread (s_ss x) us (repeat 0 (len (s_ss x)))) then merged CO sg (entry us z ws) (Some c) else entry us z ws) \/
    (series_add_term KO CO PO sg true false true false z (k_of_ss KO (s_ss z)) c = Throw overflow_error /\ full (s_log2 x) (len (terms x)))).
  { intros sg z LZ E1 E2 E3 E4.
    assert (VZ : ks_valid KS (len (s_ss z)) (k_of_ss KO (s_ss z))) by (rewrite E1; exact V).
    destruct (add_term_lf KO KS CO PO KL LL sg false true false z (k_of_ss KO (s_ss z)) c LZ VZ) as [(r & E & LR & (M1 & M2 & M3) & GT & _)|(E & N & B)]; [discriminate|auto| |].
    - left. exists r. split; [exact E|]. split; [exact LR|]. split; [congruence|]. split; [congruence|]. split; [congruence|]. intros us ws IU.
      pose proof (lw_wf _ _ _ _ LZ) as WZ. pose proof (lw_wf _ _ _ _ LR) as WR. assert (IZ : incl (s_ss z) us) by (rewrite E1; exact IU). assert (IR : incl (s_ss r) us) by (rewrite M1; exact IZ).
      assert (SU : spread (s_ss z) us (ks_exps KS (len (s_ss z)) (k_of_ss KO (s_ss z))) = spread (s_ss x) us (repeat 0 (len (s_ss x)))) by (rewrite E1, X; reflexivity).
      destruct (vec_eqb ws _) eqn:EV.
      + apply vec_eqb_iff in EV. subst ws. rewrite (entry_at KO KS CO KL us z (k_of_ss KO (s_ss z)) _ WZ IZ VZ SU).
        rewrite (entry_at KO KS CO KL us r (k_of_ss KO (s_ss z)) _ WR IR); [|rewrite M1; exact VZ|rewrite M1; exact SU]. rewrite GT, (keqb_refl KO KS KL). reflexivity.
      + assert (NE : forall k, spread (s_ss z) us (ks_exps KS (len (s_ss z)) k) = ws -> k_eqb KO k (k_of_ss KO (s_ss z)) = false).
        { intros k SP. apply (keqb_neq KO KS KL). intros ->. rewrite SU in SP. rewrite SP in EV. assert (vec_eqb ws ws = true) by (apply vec_eqb_iff; reflexivity). congruence. }
        apply opt_ext. intros d. rewrite (entry_in KO KS CO KL us r ws d WR IR), (entry_in KO KS CO KL us z ws d WZ IZ), M1. split; intros (k & J & SP); exists k; (split; [|exact SP]); specialize (GT k); rewrite (NE k SP) in GT.
        * apply (sget_in KO KS CO KL z k d WZ). rewrite <- GT. apply (sget_in KO KS CO KL r k d WR). exact J.
        * apply (sget_in KO KS CO KL r k d WR). rewrite GT. apply (sget_in KO KS CO KL z k d WZ). exact J.
    - right. split; [exact E|]. rewrite <- E3, <- E4. split; auto. }
  unfold out. destruct left; unfold scalar_addsub_series, series_addsub_scalar; cbn [orb andb].
  - destruct sign; cbn [negb].
    + destruct (G true x LW eq_refl eq_refl eq_refl eq_refl) as [(r & E & H)|H]; [left; exists r; split; [exact E|exact H]|right; exact H].
    + destruct (negate_lf KO KS CO KL LL x LW) as (W' & (M1 & M2 & M3) & GN & L).
      destruct (G true (series_negate CO x) W' M1 M2 M3 L) as [(r & E & H1 & H2 & H3 & H4 & H5)|H]; [left|right; exact H].
      exists r. split; [exact E|]. repeat (split; [assumption|]). intros us ws IU. rewrite (H5 us ws IU). cbv zeta.
      assert (EN : entry us (series_negate CO x) ws = option_map (c_neg CO) (entry us x ws)).
      { apply (entry_pointwise KO KS CO KL us x x (series_negate CO x) (fun a _ => option_map (c_neg CO) a)); auto; [apply (lw_wf _ _ _ _ LW)|apply (lw_wf _ _ _ _ LW)|apply (lw_wf _ _ _ _ W')]. }
      rewrite EN. reflexivity.
  - destruct (G sign x LW eq_refl eq_refl eq_refl eq_refl) as [(r & E & H)|H]; [left; exists r; split; [exact E|exact H]|right; exact H].
Qed.

(** C79. Division by a scalar: every coefficient is divided; zero quotients are dropped; the first exception leaves the operation. *)
Theorem any_cf_scalar_div : forall (U : Type) (cdiv : C -> U -> res C) (x : series) (y : U), LWF x ->
  (exists r, series_scalar_div CO cdiv x y = Ok r /\ LWF r /\ s_ss r = s_ss x /\ s_tag r = s_tag x /\ s_log2 r = s_log2 x /\
     (forall k d, In (k, d) (terms r) <-> c_is_zero CO d = false /\ exists c, In (k, c) (terms x) /\ cdiv c y = Ok d) /\
     (forall k c, In (k, c) (terms x) -> exists d, cdiv c y = Ok d)) \/
  (exists k c, In (k, c) (terms x) /\ ((exists e, cdiv c y = Throw e /\ series_scalar_div CO cdiv x y = Throw e) \/
                                       (cdiv c y = UB /\ series_scalar_div CO cdiv x y = UB))).
Proof.
  intros U cdiv x y LW. pose proof (lw_wf _ _ _ _ LW) as W. unfold series_scalar_div.
  set (D := fun e : K * C => c <- cdiv (snd e) y ;; Ok (fst e, c)).
  set (T := fun t : list (K * C) => es <- rmap D t ;; Ok (filter (fun e => negb (c_is_zero CO (snd e))) es)).
  assert (HD : forall k c e', D (k, c) = Ok e' <-> exists d, cdiv c y = Ok d /\ e' = (k, d)).
  { intros k c e'. unfold D. cbn [fst snd]. destruct (cdiv c y); cbn [bind]; split; try discriminate; try (intros (d & ? & ?); discriminate).
    - intros H. inversion H. eauto.
    - intros (d & Hd & ->). inversion Hd. reflexivity. }
  destruct (rmap_spec T (s_tables x)) as [(ts & E & F)|(l1 & t & l2 & El & H1 & H2)].
  - left. rewrite E. cbn [bind]. eexists. split; [reflexivity|].
    assert (TB : forall t t', T t = Ok t' -> NoDup (map fst t) -> NoDup (map fst t') /\ (forall k, In k (map fst t') -> In k (map fst t)) /\ (len t' <= len t)%nat /\
      (forall k c, In (k, c) t -> exists d, cdiv c y = Ok d) /\ (forall k d, In (k, d) t' <-> c_is_zero CO d = false /\ exists c, In (k, c) t /\ cdiv c y = Ok d)).
    { intros t t' HT N. unfold T in HT. destruct (rmap_spec D t) as [(es & Ee & Fe)|(? & ? & ? & _ & _ & [(? & _ & Hr)|[_ Hr]])]; try (rewrite Hr in HT; discriminate).
      rewrite Ee in HT. cbn [bind] in HT. inversion HT; subst t'. clear HT Ee.
      assert (KE : map fst es = map fst t).
      { clear -Fe HD. induction Fe as [|[k c] b l l' r F IH]; [reflexivity|]. apply HD in r as (d & _ & ->). cbn [map fst]. rewrite IH. reflexivity. }
      assert (IE : forall k d, In (k, d) es <-> exists c, In (k, c) t /\ cdiv c y = Ok d).
      { clear -Fe HD. induction Fe as [|[k c] b l l' r F IH]; intros k0 d0; [cbn; split; [intros []|intros (? & [] & _)]|]. pose proof r as r0. apply HD in r as (d & Ed & ->). cbn [In]. rewrite IH. split.
        - intros [[= <- <-]|(c1 & I1 & E1)]; eauto.
        - intros (c1 & [[= <- <-]|I1] & E1); [left; congruence|right; eauto]. }
      assert (IT : forall k c, In (k, c) t -> exists d, cdiv c y = Ok d).
      { clear -Fe HD. induction Fe as [|[k c] b l l' r F IH]; intros k0 c0; [intros []|]. apply HD in r as (d & Ed & _). intros [[= <- <-]|I1]; eauto. }
      split; [apply filter_nodup; rewrite KE; exact N|]. split; [intros k I; apply filter_keys in I; rewrite KE in I; exact I|].
      split; [eapply Nat.le_trans; [apply filter_len|]; rewrite <- (map_length fst es), KE, map_length; lia|]. split; [exact IT|].
      intros k d. rewrite filter_In, negb_true_iff, IE. cbn [snd]. tauto. }
    pose proof W as W0. apply wf_iff in W0 as (W1 & W2 & W3 & W4).
    assert (GI : forall k d, In (k, d) (List.concat ts) <-> c_is_zero CO d = false /\ exists c, In (k, c) (terms x) /\ cdiv c y = Ok d).
    { unfold terms. assert (NT : forall t, In t (s_tables x) -> NoDup (map fst t)) by (intros t It; apply In_nth_error in It as [i Hi]; apply (W4 i t Hi)).
      revert NT. clear -F TB. induction F as [|t t' l l' r F IH]; intros NT k d; [cbn; split; [intros []|intros (_ & ? & [] & _)]|]. cbn [List.concat]. rewrite in_app_iff, IH by (intros; apply NT; right; auto).
      destruct (TB t t' r (NT t (or_introl eq_refl))) as (_ & _ & _ & _ & TI). rewrite TI. split.
      - intros [(Z & c & I & E)|(Z & c & I & E)]; split; auto; exists c; rewrite in_app_iff; auto.
      - intros (Z & c & I & E). apply in_app_iff in I as [I|I]; [left|right]; eauto. }
    split; [|split; [reflexivity|split; [reflexivity|split; [reflexivity|split]]]].
    + constructor; [|intros k c I; apply GI in I as [Z _]; exact Z]. apply wf_iff. unfold wf'. cbn [set_tables s_ss s_log2 s_tables].
      split; [auto|]. split; [auto|]. split; [rewrite <- W3; symmetry; eapply Forall2_length; exact F|].
      intros i t' Ht. assert (TX : exists t, nth_error (s_tables x) i = Some t /\ T t = Ok t').
      { clear -F Ht. revert i Ht. induction F as [|a b l l' r F IH]; intros [|i] Ht; cbn in *; try discriminate; [|apply IH; exact Ht]. exists a. split; [reflexivity|]. congruence. }
      destruct TX as (t & Et & HT). destruct (W4 i t Et) as (N & X & M). destruct (TB t t' HT N) as (A1 & A2 & A3 & A4 & A5). split; [exact A1|]. split; [|intros L; specialize (M L); lia].
      intros k c I. apply A5 in I as (Z & c0 & I & _). destruct (X k c0 I) as (X1 & X2 & X3). split; [exact X1|]. split; [apply not_zero; exact Z|exact X3].
    + exact GI.
    + intros k c I. unfold terms in I. apply in_concat in I as (t & It & I). assert (NT : NoDup (map fst t)) by (apply In_nth_error in It as [i Hi]; apply (W4 i t Hi)).
      assert (exists t', T t = Ok t') as (t' & HT). { clear -F It. induction F as [|a b l l' r F IH]; [destruct It|]. destruct It as [<-|It]; eauto. }
      destruct (TB t t' HT NT) as (_ & _ & _ & A4 & _). eauto.
  - right. assert (IT : In t (s_tables x)) by (rewrite El; apply in_elt).
    assert (HT : exists k c, In (k, c) t /\ ((exists e, cdiv c y = Throw e /\ T t = Throw e) \/ (cdiv c y = UB /\ T t = UB))).
    { unfold T. destruct (rmap_spec D t) as [(es & Ee & _)|(m1 & [k c] & m2 & Em & _ & Hm)].
      - exfalso. destruct H2 as [(e & X & _)|[X _]]; unfold T in X; rewrite Ee in X; discriminate.
      - exists k, c. split; [rewrite Em; apply in_elt|]. unfold D in Hm at 1 3. cbn [fst snd] in Hm. destruct (cdiv c y) as [d|e|]; cbn [bind] in Hm; destruct Hm as [(e' & X & Y)|[X Y]]; try discriminate; rewrite Y; cbn [bind]; [left; exists e; split; [reflexivity|congruence]|right; auto]. }
    destruct HT as (k & c & I & H). exists k, c. split; [unfold terms; apply in_concat; eauto|]. destruct H as [(e & X & Y)|[X Y]]; destruct H2 as [(e' & X' & Y')|[X' Y']]; try congruence.
    + left. exists e. split; [exact X|]. rewrite Y'. cbn [bind]. congruence.
    + right. split; [exact X|]. rewrite Y'. reflexivity.
Qed.
End P.
Print Assumptions any_cf_scalar_mul.
Print Assumptions any_cf_scalar_addsub.
Print Assumptions any_cf_scalar_div.

(** * The hypotheses are met: mx = A + A a with matrix coefficients *)
Lemma mx_wf : lwf exK exS M2_cf mx.
Proof. apply (exM_wf [([0], mA); ([1], mA)]); vm_compute; reflexivity. Qed.
Example ex_scalar : lwf exK exS M2_cf mx /\ ks_fits exS (repeat 0 (len (s_ss mx))) /\
  entry exS ["a"]%string (series_scalar_mul exK M2_cf mx mB) [1] = Some (m2_mul mA mB) /\
  (exists r, series_addsub_scalar exK M2_cf exMP false mx mA = Ok r /\ entry exS ["a"]%string r [0] = None /\ entry exS ["a"]%string r [1] = Some mA) /\
  (exists r, scalar_addsub_series exK M2_cf exMP false mB mx = Ok r /\ entry exS ["a"]%string r [0] = Some (m2_add (m2_neg mA) mB) /\ entry exS ["a"]%string r [1] = Some (m2_neg mA)).
Proof.
  split; [exact mx_wf|]. split; [change (representable kd_int64 [0]); split; [vm_compute; repeat constructor|apply all_okb_iff; vm_compute; reflexivity]|]. split; [vm_compute; reflexivity|]. split.
  - exists (get dM (series_addsub_scalar exK M2_cf exMP false mx mA)). split; [vm_compute; reflexivity|]. split; vm_compute; reflexivity.
  - exists (get dM (scalar_addsub_series exK M2_cf exMP false mB mx)). split; [vm_compute; reflexivity|]. split; vm_compute; reflexivity.
Qed.

(** C79. The claim that [b * x] multiplies the coefficients by b from the left is false: both orders compute [c *= b]. *)
Theorem scalar_left_refuted : ~ forall (x : series Z m2 Z) b (us : symbol_set) (ws : list Z), lwf exK exS M2_cf x -> c_is_zero M2_cf b = false -> incl (s_ss x) us ->
  entry exS us (scalar_mul_series exK M2_cf b x) ws = match entry exS us x ws with Some c => nonzero M2_cf (c_mul M2_cf b c) | None => None end.
Proof.
  intros H. specialize (H mx mB ["a"]%string [1] mx_wf eq_refl). assert (I : incl (s_ss mx) ["a"]%string) by (intros z J; vm_compute in J; vm_compute; exact J). specialize (H I). vm_compute in H. discriminate H.
Qed.
Print Assumptions scalar_left_refuted.
