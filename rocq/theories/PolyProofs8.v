(** Truncation arguments are exact. *)
From Coq Require Import ZArith List Bool String Arith Sorted Permutation Lia.
From Verif Require Import Base KpackModel KpackSpec KpackProofs P_Kpack IntModel IntSpec IntProofs SymModel SymSpec SymProofs P_Sym PMonModel PMonSpec PMonProofs PMonProofs2 P_PMon
  DPMModel DPMSpec DPMProofs DPMProofs2 DPMProofs3 P_DPM KeyOps KeyInst
  SeriesModel SeriesModel2 SeriesSpec SeriesProofs SeriesProofs2 SeriesProofs5 SeriesProofs6 SeriesEval P_Series PolyModel PolyModel2 PolySpec PolyProofs7.
Import ListNotations.
Open Scope Z_scope.
Local Notation len := List.length.

Lemma common_lims2 : forall t u, integral_type t -> integral_type u ->
  (sgnd t = true /\ bits u < bits t \/ sgnd u = true /\ bits t < bits u) -> imin (common t u) <= imin t /\ imin (common t u) <= imin u.
Proof.
  intros t u Ht Hu. pose proof (integral_cases _ Ht) as Ct. pose proof (integral_cases _ Hu) as Cu.
  clear Ht Hu.
  decompose [or] Ct; clear Ct; subst; decompose [or] Cu; clear Cu; subst; vm_compute; intuition discriminate.
Qed.

Lemma limit_clt tV tD lim d : limit_ok tV tD lim -> integral_type tD -> has_value tD d -> clt tV tD lim d = (lim <? d).
Proof.
  intros (HV & Vl & H) HD Vd. destruct H as [H|[H|[H|[S H]]]].
  - apply clt_ok; auto.
  - unfold clt. pose proof (common_lims tV tD HV HD) as (C0 & C1 & C2 & C3 & _). pose proof (common_lims2 tV tD HV HD (or_introl H)) as [C4 C5].
    apply hv_unfold in Vl, Vd. rewrite !wrap_has; try assumption; try reflexivity; apply hv_unfold; lia.
  - unfold clt. pose proof (common_lims tV tD HV HD) as (C0 & C1 & C2 & C3 & _). pose proof (common_lims2 tV tD HV HD (or_intror H)) as [C4 C5].
    apply hv_unfold in Vl, Vd. rewrite !wrap_has; try assumption; try reflexivity; apply hv_unfold; lia.
  - apply clt_ok; auto. right. split; [exact H|]. apply hv_unfold in Vd. rewrite (imin_unsigned tD S) in Vd. lia.
Qed.

(** The symbol subset. *)
Lemma selected_map sel us : forall vs, len vs = len us -> NoDup us -> selected sel us vs = map (expo us vs) (filter sel us).
Proof.
  unfold selected. induction us as [|z us IH]; intros [|v vs] L N; try discriminate; [reflexivity|]. inversion N as [|? ? N1 N2]; subst. cbn [combine filter fst].
  assert (R : map snd (filter (fun p : string * Z => sel (fst p)) (combine us vs)) = map (expo (z :: us) (v :: vs)) (filter sel us)).
  { rewrite IH by (auto; cbn in L; lia). apply map_ext_in. intros y I. apply filter_In in I as [I _]. cbn [expo]. destruct (String.eqb_spec z y); auto. subst. contradiction. }
  destruct (sel z); cbn [map snd]; rewrite R; auto. cbn [expo]. rewrite String.eqb_refl. reflexivity.
Qed.

Lemma selected_all us vs : len vs = len us -> selected all_symbols us vs = vs.
Proof.
  unfold selected. revert vs. induction us as [|z us IH]; intros [|v vs] L; try discriminate; [reflexivity|]. cbn. f_equal. apply IH. cbn in L. lia.
Qed.

Lemma select_syms syms us vs : sorted_set syms -> sorted_set us -> len vs = len us ->
  select (fun i => mem i (ss_intersect_idx syms us)) vs = selected (one_of syms) us vs.
Proof.
  intros Hy Hu L. destruct (ss_intersect_idx_exact syms us Hy Hu) as [SI BI]. rewrite selected_map by (auto; apply sorted_set_nodup; auto).
  unfold select. apply (select_expo (fun i => mem i (ss_intersect_idx syms us)) (one_of syms) us vs 0%nat); [apply sorted_set_nodup; auto|exact L|].
  intros i z E. cbn [Nat.add]. apply eq_iff_eq_true. rewrite mem_iff, BI. unfold one_of. destruct (in_dec string_dec z syms) as [J|J]; split; intros; auto; try discriminate.
  - exists z; auto.
  - destruct H as (n & E' & J'). assert (n = z) by congruence. subst. contradiction.
Qed.

(** The sum of the degrees of two terms whose product passes the overflow check is a value of the degree type. *)
Definition sums_fit {K : Type} (KS : key_sem K) (tD : ity) (sel : string -> bool) (u : symbol_set) : Prop :=
  forall v w, len v = len u -> len w = len u -> ks_fits KS v -> ks_fits KS w -> ks_fits KS (vadd v w) -> ks_total_ok KS (vsum v + vsum w) ->
    ks_deg_fits KS (selected sel u v) -> ks_deg_fits KS (selected sel u w) -> has_value tD (degree_of sel u v + degree_of sel u w).

Section TE.
Context {K : Type} (KO : key_ops K) (KS : key_sem K) (KL : key_laws KO KS) (tV tD : ity) (lim : Z).
Context (HD : integral_type tD) (HP : promote tD = tD) (LO : limit_ok tV tD lim).

Lemma over_exact d1 d2 : has_value tD (d1 + d2) -> over_cpp tV tD lim d1 d2 = Ok (lim <? d1 + d2).
Proof.
  intros H. unfold over_cpp. rewrite HP. pose proof H as H'. apply hv_unfold in H.
  assert (B : 1 < bits tD) by (pose proof HP as B; unfold promote in B; destruct (Z.ltb_spec (bits tD) 32); [|lia]; rewrite <- B; cbn; lia).
  rewrite (arith_ok tD _ B H). cbn [bind]. rewrite limit_clt; auto.
Qed.

Lemma total_exact u : sums_fit KS tD all_symbols u -> trunc_exact KS all_symbols lim u (tr_total KO tV tD lim).
Proof.
  intros SF. split.
  - intros k V vs. assert (L := kl_len _ _ KL _ _ V). unfold vs, degree_of. rewrite selected_all by auto. apply (kl_degree _ _ KL). exact V.
  - intros a b Va Vb v w F T DA DB. cbn [tr_over tr_total]. apply over_exact. apply SF; auto; try apply (kl_len _ _ KL); auto; apply (kl_fits _ _ KL); auto.
Qed.

Lemma partial_exact syms u : sorted_set syms -> sorted_set u -> sums_fit KS tD (one_of syms) u -> trunc_exact KS (one_of syms) lim u (tr_partial KO tV tD lim syms).
Proof.
  intros Hy Hu SF. split.
  - intros k V vs. assert (L := kl_len _ _ KL _ _ V). unfold vs, degree_of. rewrite <- select_syms by auto. cbn [tr_deg tr_partial]. apply (kl_p_degree _ _ KL); auto.
    apply (ss_intersect_idx_exact syms u Hy Hu).
  - intros a b Va Vb v w F T DA DB. cbn [tr_over tr_partial]. apply over_exact. apply SF; auto; try apply (kl_len _ _ KL); auto; apply (kl_fits _ _ KL); auto.
Qed.
End TE.

(** packed_monomial: any symbols. *)
Lemma selected_in sel us vs x : In x (selected sel us vs) -> In x vs.
Proof. unfold selected. rewrite in_map_iff. intros ([z y] & <- & I). apply filter_In in I as [I _]. apply in_combine_r in I. exact I. Qed.
Lemma selected_len sel us vs : (len (selected sel us vs) <= len us)%nat.
Proof. unfold selected. rewrite map_length. etransitivity; [apply filter_len|]. rewrite combine_length. lia. Qed.

Lemma ty_of_type D z : of_type D z <-> has_value (kd_ty D) z.
Proof. rewrite hv_unfold. reflexivity. Qed.

Lemma pm_degree_type D sel u vs : packable D -> len vs = len u -> representable D vs -> of_type D (degree_of sel u vs).
Proof.
  intros HD L [M F]. unfold degree_of. destruct (Nat.eq_dec (len vs) 0) as [Z0|NZ].
  - assert (E : selected sel u vs = []). { destruct vs; [|discriminate]. unfold selected. destruct u; reflexivity. } rewrite E. unfold of_type, vsum, imin, imax. cbn. destruct HD as [->|[->|[->| ->]]]; vm_compute; intuition discriminate.
  - assert (G : good_size D (len vs)) by (unfold good_size; lia). pose proof (lim_pos D (len vs) HD G) as (L1 & L2 & L3 & L4 & L5 & L6 & L7).
    assert (LO1 : - KpackSpec.lim D (len vs) <= lo D (len vs) <= 0) by (unfold lo; destruct (sgnd (kd_ty D)); lia).
    assert (F' : Forall (comp_ok D (len vs)) (selected sel u vs)). { apply Forall_forall. intros x I. rewrite Forall_forall in F. apply F. eapply selected_in; eauto. }
    pose proof (sum_bounds D (len vs) _ F' ltac:(lia) LO1) as B. pose proof (selected_len sel u vs) as SL.
    assert (A : arith (kd_ty D) (vsum (selected sel u vs)) = Ok (vsum (selected sel u vs))) by (apply (partial_ok D (len vs) (len (selected sel u vs))); auto; lia).
    set (k := len (selected sel u vs)) in *. assert (Z.of_nat k * KpackSpec.lim D (len vs) <= Z.of_nat (len vs) * KpackSpec.lim D (len vs)) by (apply Z.mul_le_mono_nonneg_r; lia).
    unfold of_type. unfold lo in *. destruct (sgnd (kd_ty D)) eqn:S; [specialize (L7 eq_refl); lia|]. unfold imin. rewrite S. lia.
Qed.

Lemma vadd_len' : forall v w : list Z, len v = len w -> len (vadd v w) = len v.
Proof. intros v w L. unfold vadd. rewrite map_length, combine_length. lia. Qed.

Lemma pm_sums_fit D sel u : packable D -> sums_fit (pm_sem D) (kd_ty D) sel u.
Proof.
  intros HD v w L1 L2 _ _ F _ _ _. apply ty_of_type. rewrite <- degree_vadd by auto. apply pm_degree_type; auto. rewrite vadd_len' by congruence. exact L1.
Qed.

(** d_packed_monomial: all the symbols, or any symbols if the exponents are unsigned. *)
Lemma dpm_total_fit D ps u : sums_fit (dpm_sem D ps) (kd_ty D) all_symbols u.
Proof. intros v w L1 L2 _ _ _ T _ _. apply ty_of_type. unfold degree_of. rewrite !selected_all by auto. exact T. Qed.

Lemma selected_bound sel u : forall v, Forall (fun x => 0 <= x) v -> 0 <= vsum (selected sel u v) <= vsum v.
Proof.
  unfold selected. induction u as [|z u IH]; intros [|x v] F; cbn [combine filter map]; try (cbn; lia).
  - clear - F. unfold vsum. induction F as [|y l H F IH]; cbn in *; lia.
  - inversion F; subst. specialize (IH v ltac:(assumption)). cbn [fst]. unfold vsum in *. destruct (sel z); cbn [map snd fold_right]; lia.
Qed.

Lemma dpm_unsigned_fit D ps sel u : sgnd (kd_ty D) = false -> sums_fit (dpm_sem D ps) (kd_ty D) sel u.
Proof.
  intros S v w L1 L2 F1 F2 _ T _ _. apply ty_of_type. cbn [ks_total_ok ks_fits dpm_sem] in *. unfold degree_of, of_type in *.
  assert (P : forall v, Forall (comp_ok D ps) v -> Forall (fun x => 0 <= x) v). { intros l F. eapply Forall_impl; [|exact F]. intros x [H _]. unfold lo in H. rewrite S in H. exact H. }
  pose proof (selected_bound sel u v (P v F1)). pose proof (selected_bound sel u w (P w F2)). unfold imin in *. rewrite S in *. lia.
Qed.

Lemma kd_type_ok D : packable D -> integral_type (kd_ty D) /\ promote (kd_ty D) = kd_ty D.
Proof. intros [->|[->|[->| ->]]]; split; try reflexivity; right; eexists _, _; (split; [|reflexivity]); cbn; tauto. Qed.

Lemma pm_degrees_in D : packable D -> degrees_in (pm_sem D) (kd_ty D).
Proof. intros HD sel u vs L F _. apply ty_of_type. apply pm_degree_type; auto. Qed.
Lemma dpm_degrees_in D ps : degrees_in (dpm_sem D ps) (kd_ty D).
Proof.
  intros sel u vs L F P. apply ty_of_type. cbn [ks_deg_fits dpm_sem] in P. specialize (P (len (selected sel u vs)) (le_n _)). rewrite firstn_all in P. exact P.
Qed.

(** Truncation. *)
Lemma rfilter_ok {A} (f : A -> res bool) (g : A -> bool) l : (forall a, In a l -> f a = Ok (g a)) -> rfilter f l = Ok (filter g l).
Proof.
  induction l as [|a l IH]; intros H; [reflexivity|]. cbn [rfilter filter]. rewrite (H a (or_introl eq_refl)). cbn [bind]. rewrite IH by (intros b I; apply H; right; exact I). cbn [bind]. destruct (g a); reflexivity.
Qed.
Lemma rfilter_bad {A} (f : A -> res bool) (g : A -> bool) (good : A -> Prop) l : (forall a, In a l -> good a \/ ~ good a) -> (forall a, In a l -> good a -> f a = Ok (g a)) -> (forall a, In a l -> ~ good a -> f a = Throw overflow_error) ->
  (exists a, In a l /\ ~ good a) -> rfilter f l = Throw overflow_error.
Proof.
  induction l as [|a l IH]; intros D H1 H2 (b & I & N); [destruct I|]. cbn [rfilter]. destruct (D a (or_introl eq_refl)) as [G|G]; [|rewrite (H2 a (or_introl eq_refl) G); reflexivity].
  rewrite (H1 a (or_introl eq_refl) G). cbn [bind]. destruct I as [->|I]; [contradiction|]. rewrite IH; eauto; intros; [apply D|apply H1|apply H2]; auto; right; auto.
Qed.
Section Tr.
Context {K C Tag : Type}.
Notation series := (series K C Tag).
Lemma filter_res_ok (f : K * C -> res bool) (g : K * C -> bool) (s : series) : (forall e, In e (terms s) -> f e = Ok (g e)) -> series_filter_res f s = Ok (series_filter g s).
Proof.
  intros H. unfold series_filter_res, series_filter. unfold terms in H. assert (X : rmap (rfilter f) (s_tables s) = Ok (map (filter g) (s_tables s))); [|rewrite X; reflexivity].
  induction (s_tables s) as [|t ts IH]; [reflexivity|]. cbn [rmap map]. rewrite (rfilter_ok f g) by (intros a I; apply H; cbn [List.concat]; apply in_or_app; auto). cbn [bind].
  rewrite IH by (intros e I; apply H; cbn [List.concat]; apply in_or_app; auto). reflexivity.
Qed.
Lemma filter_res_bad (f : K * C -> res bool) (g : K * C -> bool) (good : K * C -> Prop) (s : series) : (forall a, In a (terms s) -> good a \/ ~ good a) -> (forall a, In a (terms s) -> good a -> f a = Ok (g a)) -> (forall a, In a (terms s) -> ~ good a -> f a = Throw overflow_error) ->
  (exists a, In a (terms s) /\ ~ good a) -> series_filter_res f s = Throw overflow_error.
Proof.
  intros D H1 H2 H. unfold series_filter_res. unfold terms in *. assert (X : rmap (rfilter f) (s_tables s) = Throw overflow_error); [|rewrite X; reflexivity].
  induction (s_tables s) as [|t ts IH]; [destruct H as (a & [] & _)|]. cbn [rmap List.concat] in *.
  assert (IN : forall a, In a t -> In a (t ++ List.concat ts)) by (intros; apply in_or_app; auto). assert (IN' : forall a, In a (List.concat ts) -> In a (t ++ List.concat ts)) by (intros; apply in_or_app; auto).
  assert (DT : (exists a, In a t /\ ~ good a) \/ forall a, In a t -> good a).
  { clear - D IN. assert (Dt : forall a, In a t -> good a \/ ~ good a) by auto. clear D IN. induction t as [|a t IH]; [right; intros a []|]. destruct (Dt a (or_introl eq_refl)) as [G|G]; [|left; exists a; split; auto; left; reflexivity].
    destruct IH as [(b & I & N)|A]; [intros b I; apply Dt; right; exact I|left; exists b; split; auto; right; exact I|right]. intros b [->|I]; auto. }
  destruct DT as [X|X]; [rewrite (rfilter_bad f g good); auto|]. rewrite (rfilter_ok f g) by auto. cbn [bind]. rewrite IH; auto. destruct H as (a & I & N). exists a. split; auto. apply in_app_or in I as [I|I]; auto. exfalso. apply N, X, I.
Qed.

Context (KO : key_ops K) (KS : key_sem K) (CO : cf_ops C) (KL : key_laws KO KS) (CL : cf_laws CO) (tV tD : ity) (lim : Z).
Context (HD : integral_type tD) (LO : limit_ok tV tD lim) (DI : degrees_in KS tD).
Lemma truncate_gen (sel : string -> bool) (deg : K -> res Z) (x : series) : wf KO KS CO x ->
  (forall k, ks_valid KS (len (s_ss x)) k -> (ks_deg_fits KS (selected sel (s_ss x) (ks_exps KS (len (s_ss x)) k)) -> deg k = Ok (degree_of sel (s_ss x) (ks_exps KS (len (s_ss x)) k))) /\
     (~ ks_deg_fits KS (selected sel (s_ss x) (ks_exps KS (len (s_ss x)) k)) -> deg k = Throw overflow_error)) ->
  let f := (fun e : K * C => d <- deg (fst e) ;; Ok (negb (clt tV tD lim d))) in
  (exists r, series_filter_res f x = Ok r /\ wf KO KS CO r /\ s_ss r = s_ss x /\ s_tag r = s_tag x /\ s_log2 r = s_log2 x /\
     (forall k c, In (k, c) (terms r) <-> In (k, c) (terms x) /\ degree_of sel (s_ss x) (ks_exps KS (len (s_ss x)) k) <= lim) /\ series_filter_res f r = Ok r /\
     terms r = filter (fun e => degree_of sel (s_ss x) (ks_exps KS (len (s_ss x)) (fst e)) <=? lim) (terms x)) \/
  (series_filter_res f x = Throw overflow_error /\ exists k c, In (k, c) (terms x) /\ ~ ks_deg_fits KS (selected sel (s_ss x) (ks_exps KS (len (s_ss x)) k))).
Proof.
  intros W HDG f. set (dg := fun e : K * C => degree_of sel (s_ss x) (ks_exps KS (len (s_ss x)) (fst e))). set (good := fun e : K * C => ks_deg_fits KS (selected sel (s_ss x) (ks_exps KS (len (s_ss x)) (fst e)))).
  set (g := fun e => dg e <=? lim).
  assert (H1 : forall e, In e (terms x) -> good e -> f e = Ok (g e)).
  { intros [k c] I G. assert (V : ks_valid KS (len (s_ss x)) k) by (eapply wf_valid; eauto). unfold f. cbn [fst]. rewrite (proj1 (HDG k V) G). cbn [bind]. rewrite limit_clt; auto.
    - f_equal. unfold g, dg. cbn [fst]. rewrite Z.leb_antisym. reflexivity.
    - apply DI; auto; [apply (kl_len _ _ KL); exact V|apply (kl_fits _ _ KL); exact V]. }
  assert (H2 : forall e, In e (terms x) -> ~ good e -> f e = Throw overflow_error).
  { intros [k c] I G. assert (V : ks_valid KS (len (s_ss x)) k) by (eapply wf_valid; eauto). unfold f. cbn [fst]. rewrite (proj2 (HDG k V) G). reflexivity. }
  destruct (first_bad good (fun e => kl_deg_dec _ _ KL _) (terms x)) as [A|(pre & a & post & E & _ & N)].
  - left. exists (series_filter g x). rewrite (filter_res_ok f g x) by (intros e I; apply H1; auto). split; [reflexivity|]. destruct (filter_ok KO KS CO g x W) as [WR M]. split; [exact WR|].
    split; [reflexivity|]. split; [reflexivity|]. split; [reflexivity|]. split; [|split; [|apply filter_terms]].
    + intros k c. rewrite filter_terms, filter_In. unfold g, dg. cbn [fst]. rewrite Z.leb_le. tauto.
    + rewrite (filter_res_ok f g (series_filter g x)).
      * f_equal. unfold series_filter, set_tables. cbn. f_equal. rewrite map_map. apply map_ext. intros t. clear. induction t as [|e t IH]; [reflexivity|]. cbn [filter]. destruct (g e) eqn:G; cbn [filter]; rewrite ?G, IH; reflexivity.
      * intros e I. rewrite filter_terms in I. apply filter_In in I as [I _]. apply H1; auto.
  - right. split.
    + apply (filter_res_bad f g good); auto. { intros b _. apply (kl_deg_dec _ _ KL). } exists a. split; auto. rewrite E. apply in_elt.
    + destruct a as [k c]. exists k, c. split; [rewrite E; apply in_elt|exact N].
Qed.
End Tr.
