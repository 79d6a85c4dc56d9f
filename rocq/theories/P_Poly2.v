(** Properties C36, C37, C38: truncated multiplication and truncation for the two key types; non-vacuity examples for P_Poly.v and refuted cases.
    Vocabulary: PolySpec.v ([limit_ok]: the limit is compared with the degrees without a change of value; [degree_of]). *)
From Coq Require Import ZArith List Bool String Arith Sorted Permutation Lia Ring Ring_theory.
From Verif Require Import Base KpackTables KpackModel KpackSpec KpackProofs P_Kpack IntModel IntSpec IntProofs SymModel SymSpec SymProofs P_Sym PMonModel PMonSpec PMonProofs PMonProofs2 P_PMon
  DPMModel DPMSpec DPMProofs DPMProofs2 DPMProofs3 P_DPM KeyOps KeyInst
  SeriesModel SeriesModel2 SeriesSpec SeriesProofs SeriesProofs2 SeriesProofs3 SeriesProofs4 SeriesProofs5 SeriesProofs6 Lin EvalSpec SeriesEval SeriesProofs7 CfInst P_Series P_Series2
  PolyModel PolyModel2 PolySpec PolyProofs7 PolyProofs8 PolyProofs9 P_Poly.
Import ListNotations.
Open Scope Z_scope.
Open Scope res_scope.
Local Notation len := List.length.

Lemma union_sorted x y u : union_of x y u -> sorted_set u.
Proof. intros [S _]. exact S. Qed.

Section TM.
Context {C Tag : Type} (CO : cf_ops C) (TO : tag_ops Tag) (CL : cf_laws CO).

(** C36. packed_monomial (any of the integral types), total and partial degree. *)
Theorem pm_truncated_mul : forall D tV lim E E' PO (x y p : series Z C Tag), packable D -> limit_ok tV (kd_ty D) lim ->
  let KO := pm_ops D in let KS := pm_sem D in
  env_ok KO KS E -> env_ok KO KS E' -> wf KO KS CO x -> wf KO KS CO y -> Z.of_nat (len (s_ss x) + len (s_ss y)) <= imax size_t ->
  poly_mul KO CO PO TO E x y = Ok p ->
  (forall r, truncated_mul KO CO PO TO E' tV (kd_ty D) lim x y = Ok r ->
    s_ss r = s_ss p /\ forall k c, In (k, c) (terms r) <-> In (k, c) (terms p) /\ degree_of all_symbols (s_ss p) (ks_exps KS (len (s_ss p)) k) <= lim) /\
  (forall syms r, sorted_set syms -> truncated_mul_p KO CO PO TO E' tV (kd_ty D) lim syms x y = Ok r ->
    s_ss r = s_ss p /\ forall k c, In (k, c) (terms r) <-> In (k, c) (terms p) /\ degree_of (one_of syms) (s_ss p) (ks_exps KS (len (s_ss p)) k) <= lim).
Proof.
  intros D tV lim E E' PO x y p HD LO KO KS EO EO' Wx Wy B EP. assert (KL : key_laws KO KS) by (apply pm_key_laws; auto). destruct (kd_type_ok D HD) as [T1 T2]. split.
  - intros r ER. apply (truncated_mul_is_truncation KO KS CO PO TO KL CL E E' all_symbols lim _ x y p r EO EO' Wx Wy B) in ER; auto.
    intros u U. apply (total_exact KO KS KL); auto. apply pm_sums_fit; auto.
  - intros syms r SS ER. apply (truncated_mul_is_truncation KO KS CO PO TO KL CL E E' (one_of syms) lim _ x y p r EO EO' Wx Wy B) in ER; auto.
    intros u U. apply (partial_exact KO KS KL); auto; [eapply union_sorted; eauto|]. apply pm_sums_fit; auto.
Qed.

(** C36. It fails only when the product itself is not representable (degrees of packed monomials always are), or by lack of capacity. *)
Theorem pm_truncated_mul_fails : forall D tV lim E PO (x y : series Z C Tag) syms, packable D -> limit_ok tV (kd_ty D) lim -> sorted_set syms ->
  let KO := pm_ops D in let KS := pm_sem D in
  env_ok KO KS E -> wf KO KS CO x -> wf KO KS CO y -> Z.of_nat (len (s_ss x) + len (s_ss y)) <= imax size_t ->
  exists u, union_of (s_ss x) (s_ss y) u /\
  forall r, r = truncated_mul KO CO PO TO E tV (kd_ty D) lim x y \/ r = truncated_mul_p KO CO PO TO E tV (kd_ty D) lim syms x y ->
  (exists s, r = Ok s) \/ (key_overflow r /\ (unrepresentable KS u x y \/ capacity x y)).
Proof.
  intros D tV lim E PO x y syms HD LO SS KO KS EO Wx Wy B. assert (KL : key_laws KO KS) by (apply pm_key_laws; auto). destruct (kd_type_ok D HD) as [T1 T2].
  assert (ND : forall sel u (s : series Z C Tag), ~ degree_unrep KS sel u s) by (intros sel u s (k & c & _ & N); apply N; exact I).
  destruct (truncated_mul_exact KO KS CO PO TO KL CL E all_symbols lim (tr_total KO tV (kd_ty D) lim) x y EO Wx Wy B) as (u & U & H1).
  { intros u U. apply (total_exact KO KS KL); auto. apply pm_sums_fit; auto. }
  destruct (truncated_mul_exact KO KS CO PO TO KL CL E (one_of syms) lim (tr_partial KO tV (kd_ty D) lim syms) x y EO Wx Wy B) as (u' & U' & H2).
  { intros u' U'. apply (partial_exact KO KS KL); auto; [eapply union_sorted; eauto|]. apply pm_sums_fit; auto. }
  assert (u' = u) as -> by (eapply union_unique; eauto). exists u. split; [exact U|].
  intros r [->| ->]; [destruct H1 as [(s & ES & _)|[O H]]|destruct H2 as [(s & ES & _)|[O H]]]; try (left; exists s; exact ES).
  - right. split; [exact O|]. decompose [or] H; auto; exfalso; eapply ND; eauto.
  - right. split; [exact O|]. decompose [or] H; auto; exfalso; eapply ND; eauto.
Qed.

(** C36. d_packed_monomial: total degree; partial degree for unsigned exponents (see [dpm_truncated_mul_refuted] for the signed ones). *)
Theorem dpm_truncated_mul_partial : forall D ps tV lim E E' PO (x y p : series dpm C Tag), packable D -> psize_ok D ps -> limit_ok tV (kd_ty D) lim ->
  let KO := dpm_ops D ps in let KS := dpm_sem D ps in
  env_ok KO KS E -> env_ok KO KS E' -> wf KO KS CO x -> wf KO KS CO y -> Z.of_nat (len (s_ss x) + len (s_ss y)) <= imax size_t ->
  poly_mul KO CO PO TO E x y = Ok p ->
  (forall r, truncated_mul KO CO PO TO E' tV (kd_ty D) lim x y = Ok r ->
    s_ss r = s_ss p /\ forall k c, In (k, c) (terms r) <-> In (k, c) (terms p) /\ degree_of all_symbols (s_ss p) (ks_exps KS (len (s_ss p)) k) <= lim) /\
  (forall syms r, sgnd (kd_ty D) = false -> sorted_set syms -> truncated_mul_p KO CO PO TO E' tV (kd_ty D) lim syms x y = Ok r ->
    s_ss r = s_ss p /\ forall k c, In (k, c) (terms r) <-> In (k, c) (terms p) /\ degree_of (one_of syms) (s_ss p) (ks_exps KS (len (s_ss p)) k) <= lim).
Proof.
  intros D ps tV lim E E' PO x y p HD HP LO KO KS EO EO' Wx Wy B EP. assert (KL : key_laws KO KS) by (apply dpm_key_laws; auto). destruct (kd_type_ok D HD) as [T1 T2]. split.
  - intros r ER. apply (truncated_mul_is_truncation KO KS CO PO TO KL CL E E' all_symbols lim _ x y p r EO EO' Wx Wy B) in ER; auto.
    intros u U. apply (total_exact KO KS KL); auto. apply dpm_total_fit; auto.
  - intros syms r SG SS ER. apply (truncated_mul_is_truncation KO KS CO PO TO KL CL E E' (one_of syms) lim _ x y p r EO EO' Wx Wy B) in ER; auto.
    intros u U. apply (partial_exact KO KS KL); auto; [eapply union_sorted; eauto|]. apply dpm_unsigned_fit; auto.
Qed.

(** C37. Truncation, total degree, for keys whose degrees are values of the type tD (both key types: [pm_degrees_in], [dpm_degrees_in]). *)
Theorem truncate_degree_exact : forall K (KO : key_ops K) (KS : key_sem K) tV tD lim (x : series K C Tag), key_laws KO KS -> integral_type tD -> limit_ok tV tD lim -> degrees_in KS tD ->
  wf KO KS CO x ->
  (exists r, truncate_degree KO tV tD lim x = Ok r /\ wf KO KS CO r /\ s_ss r = s_ss x /\ s_tag r = s_tag x /\ s_log2 r = s_log2 x /\
     (forall k c, In (k, c) (terms r) <-> In (k, c) (terms x) /\ degree_of all_symbols (s_ss x) (ks_exps KS (len (s_ss x)) k) <= lim) /\
     truncate_degree KO tV tD lim r = Ok r) \/
  (truncate_degree KO tV tD lim x = Throw overflow_error /\ exists k c, In (k, c) (terms x) /\ ~ ks_deg_fits KS (ks_exps KS (len (s_ss x)) k)).
Proof.
  intros K KO KS tV tD lim x KL HT LO DI W.
  destruct (truncate_gen KO KS CO KL tV tD lim HT LO DI all_symbols (fun k => k_degree KO k (s_ss x)) x W) as [(r & ER & WR & SR & TR & LR & M & ID & _)|(ER & k & c & J & N)].
  - intros k V. assert (L := kl_len _ _ KL _ _ V). unfold degree_of. rewrite selected_all by auto. apply (kl_degree _ _ KL). exact V.
  - left. exists r. split; [exact ER|]. split; [exact WR|]. split; [exact SR|]. split; [exact TR|]. split; [exact LR|]. split; [exact M|]. unfold truncate_degree. rewrite SR. exact ID.
  - right. split; [exact ER|]. exists k, c. split; [exact J|]. rewrite selected_all in N; auto. apply (kl_len _ _ KL). eapply wf_valid; eauto.
Qed.

(** C37. Truncation, partial degree. *)
Theorem truncate_p_degree_exact : forall K (KO : key_ops K) (KS : key_sem K) tV tD lim syms (x : series K C Tag), key_laws KO KS -> integral_type tD -> limit_ok tV tD lim -> degrees_in KS tD ->
  wf KO KS CO x -> sorted_set syms ->
  (exists r, truncate_p_degree KO tV tD lim syms x = Ok r /\ wf KO KS CO r /\ s_ss r = s_ss x /\ s_tag r = s_tag x /\ s_log2 r = s_log2 x /\
     (forall k c, In (k, c) (terms r) <-> In (k, c) (terms x) /\ degree_of (one_of syms) (s_ss x) (ks_exps KS (len (s_ss x)) k) <= lim) /\
     truncate_p_degree KO tV tD lim syms r = Ok r) \/
  (truncate_p_degree KO tV tD lim syms x = Throw overflow_error /\ exists k c, In (k, c) (terms x) /\ ~ ks_deg_fits KS (selected (one_of syms) (s_ss x) (ks_exps KS (len (s_ss x)) k))).
Proof.
  intros K KO KS tV tD lim syms x KL HT LO DI W SS. assert (SX := wf_ss _ _ _ _ W).
  destruct (truncate_gen KO KS CO KL tV tD lim HT LO DI (one_of syms) (fun k => k_p_degree KO k (ss_intersect_idx syms (s_ss x)) (s_ss x)) x W) as [(r & ER & WR & SR & TR & LR & M & ID & _)|H].
  - intros k V. assert (L := kl_len _ _ KL _ _ V). unfold degree_of. rewrite <- select_syms by auto. apply (kl_p_degree _ _ KL); auto. apply (ss_intersect_idx_exact syms (s_ss x) SS SX).
  - left. exists r. split; [exact ER|]. split; [exact WR|]. split; [exact SR|]. split; [exact TR|]. split; [exact LR|]. split; [exact M|]. unfold truncate_p_degree. rewrite SR. exact ID.
  - right. exact H.
Qed.

(** C37, C38. For packed monomials truncation never fails; a negative limit whose type is wide enough to be compared exactly leaves no term of a polynomial with unsigned exponents. *)
Theorem pm_truncate_degree : forall D tV lim (x : series Z C Tag), packable D -> limit_ok tV (kd_ty D) lim -> wf (pm_ops D) (pm_sem D) CO x ->
  exists r, truncate_degree (pm_ops D) tV (kd_ty D) lim x = Ok r /\ wf (pm_ops D) (pm_sem D) CO r /\ s_ss r = s_ss x /\ s_tag r = s_tag x /\ s_log2 r = s_log2 x /\
    (forall k c, In (k, c) (terms r) <-> In (k, c) (terms x) /\ degree_of all_symbols (s_ss x) (ks_exps (pm_sem D) (len (s_ss x)) k) <= lim) /\
    truncate_degree (pm_ops D) tV (kd_ty D) lim r = Ok r.
Proof.
  intros D tV lim x HD LO W. destruct (kd_type_ok D HD) as [T1 T2].
  destruct (truncate_degree_exact Z (pm_ops D) (pm_sem D) tV (kd_ty D) lim x) as [H|(_ & k & c & _ & N)]; auto; [apply pm_key_laws; auto|apply pm_degrees_in; auto|].
  exfalso. apply N. exact I.
Qed.

Lemma degree_nonneg sel u vs : Forall (fun z => 0 <= z) vs -> 0 <= degree_of sel u vs.
Proof. intros F. unfold degree_of. apply selected_bound. exact F. Qed.

Lemma terms_none {A} (l : list A) : (forall a, ~ In a l) -> l = [].
Proof. destruct l as [|a l]; [reflexivity|]. intros H. exfalso. apply (H a). left; reflexivity. Qed.

Theorem negative_limit_partial : forall D tV lim E PO (x y : series Z C Tag), packable D -> sgnd (kd_ty D) = false -> limit_ok tV (kd_ty D) lim -> lim < 0 ->
  let KO := pm_ops D in let KS := pm_sem D in
  wf KO KS CO x -> wf KO KS CO y ->
  (forall r, truncate_degree KO tV (kd_ty D) lim x = Ok r -> terms r = []) /\
  (env_ok KO KS E -> Z.of_nat (len (s_ss x) + len (s_ss y)) <= imax size_t -> forall r, truncated_mul KO CO PO TO E tV (kd_ty D) lim x y = Ok r -> terms r = []).
Proof.
  intros D tV lim E PO x y HD SG LO NEG KO KS Wx Wy. assert (KL : key_laws KO KS) by (apply pm_key_laws; auto). destruct (kd_type_ok D HD) as [T1 T2].
  assert (NN : forall n k, ks_valid KS n k -> Forall (fun z => 0 <= z) (ks_exps KS n k)).
  { intros n k V. pose proof (kl_fits _ _ KL _ _ V) as F. cbn [ks_fits pm_sem KS] in F. destruct F as [_ F]. eapply Forall_impl; [|exact F]. intros z [H _]. unfold lo in H. rewrite SG in H. exact H. }
  split.
  - intros r ER. destruct (pm_truncate_degree D tV lim x HD LO Wx) as (r' & ER' & _ & _ & _ & _ & M & _). assert (r' = r) by (unfold KO in ER; congruence). subst r'.
    apply terms_none. intros [k c] J. apply M in J as [J L]. pose proof (degree_nonneg all_symbols (s_ss x) _ (NN _ k (wf_valid KO KS CO x Wx _ _ J))). unfold KS in *. lia.
  - intros EO B r ER. destruct (truncated_mul_exact KO KS CO PO TO KL CL E all_symbols lim (tr_total KO tV (kd_ty D) lim) x y EO Wx Wy B) as (u & U & [(r' & ER' & WR & SR & _ & _ & DR)|[[X|X] _]]).
    { intros u U. apply (total_exact KO KS KL); auto. apply pm_sums_fit; auto. }
    2, 3: unfold truncated_mul in ER; congruence.
    assert (r' = r) by (unfold truncated_mul in ER; congruence). subst r'. apply terms_none. intros [k c] J. assert (V : ks_valid KS (len u) k) by (rewrite <- SR; eapply wf_valid; eauto).
    pose proof (degree_nonneg all_symbols u _ (NN _ k V)) as NG. specialize (DR u (ks_exps KS (len u) k) (union_sorted _ _ _ U) (incl_refl _)).
    destruct (Z.leb_spec (degree_of all_symbols u (ks_exps KS (len u) k)) lim); [lia|]. apply (wf_nonzero KO KS CO r WR k c J). rewrite <- DR.
    assert (CV : covers u r) by (split; [eapply union_sorted; eauto|rewrite SR; apply incl_refl]).
    rewrite <- (coef_term KO KS CO KL CL u r k c WR CV J). f_equal. rewrite SR. apply spread_self; [apply sorted_set_nodup; eapply union_sorted; eauto|apply (kl_len _ _ KL); exact V].
Qed.
End TM.
Print Assumptions pm_truncated_mul.
Print Assumptions pm_truncated_mul_fails.
Print Assumptions dpm_truncated_mul_partial.
Print Assumptions truncate_degree_exact.
Print Assumptions truncate_p_degree_exact.
Print Assumptions pm_truncate_degree.
Print Assumptions negative_limit_partial.
Print Assumptions mul_exact.
Print Assumptions mul_commutative.
Print Assumptions mul_associative.
Print Assumptions mul_distributive.
Print Assumptions mul_unobservable.
Print Assumptions truncated_mul_exact.
Print Assumptions truncated_mul_is_truncation.
Print Assumptions evaluate_multiplicative.

(** * Non-vacuity: an environment for any key type whose check is decidable: insertion sort; algorithm and number of segments are parameters. *)
Fixpoint ins {A : Type} (f : A -> Z) (a : A) (l : list A) : list A :=
  match l with [] => [a] | b :: l' => if f a <=? f b then a :: l else b :: ins f a l' end.
Definition isort {A : Type} (f : A -> Z) (l : list A) : list A := fold_right (ins f) [] l.
Lemma ins_perm {A} (f : A -> Z) a l : Permutation (ins f a l) (a :: l).
Proof. induction l as [|b l IH]; cbn [ins]; [apply Permutation_refl|]. destruct (f a <=? f b); [apply Permutation_refl|]. rewrite IH. apply perm_swap. Qed.
Lemma isort_perm {A} (f : A -> Z) l : Permutation (isort f l) l.
Proof. induction l as [|a l IH]; cbn [isort fold_right]; [constructor|]. rewrite ins_perm. constructor. exact IH. Qed.
Lemma ins_sorted {A} (f : A -> Z) a l : StronglySorted (fun a b => f a <= f b) l -> StronglySorted (fun a b => f a <= f b) (ins f a l).
Proof.
  induction 1 as [|b l S IH F]; cbn [ins]; [repeat constructor|]. destruct (Z.leb_spec (f a) (f b)).
  - constructor; [constructor; auto|]. constructor; auto. eapply Forall_impl; [|exact F]. cbn. lia.
  - constructor; [exact IH|]. rewrite (ins_perm f a l). constructor; [lia|exact F].
Qed.
Lemma isort_sorted {A} (f : A -> Z) l : StronglySorted (fun a b => f a <= f b) (isort f l).
Proof. induction l as [|a l IH]; cbn [isort fold_right]; [constructor|]. apply ins_sorted. exact IH. Qed.

Definition ex_env {K C Tag : Type} (KS : key_sem K) (okb : nat -> list Z -> list Z -> bool) (mt : bool) (lg : nat) : mul_env K C Tag := {|
  me_check := fun ss r1 r2 => Ok (forallb (fun p => forallb (fun q => okb (len ss) (ks_exps KS (len ss) p) (ks_exps KS (len ss) q)) r2) r1);
  me_sort := fun A f l => isort f l; me_mt := fun _ _ => mt; me_log2 := fun _ _ => lg |}.
Lemma ex_env_ok {K C Tag} (KO : key_ops K) (KS : key_sem K) okb mt lg : key_laws KO KS ->
  (forall n v w, len v = n -> len w = n -> (okb n v w = true <-> ks_fits KS (vadd v w) /\ ks_total_ok KS (vsum v + vsum w))) ->
  env_ok KO KS (@ex_env K C Tag KS okb mt lg).
Proof.
  intros KL H. constructor; [|intros; apply isort_perm|intros; apply isort_sorted].
  intros ss r1 r2 F1 F2. destruct (kl_check _ _ KL true ss r1 r2 F1 F2) as [(v & Hv) CH]. destruct (CH v Hv) as (b & -> & BT). cbn [me_check ex_env].
  match goal with |- k_overflow_check _ _ _ _ _ (Ok ?b') => assert (b' = b) as ->; [|exact Hv] end. apply eq_iff_eq_true. rewrite BT, forallb_forall.
  rewrite Forall_forall in F1, F2. split.
  - intros X p q Ip Iq. specialize (X p Ip). rewrite forallb_forall in X. apply (H (len ss)); auto; apply (kl_len _ _ KL); auto.
  - intros X p Ip. apply forallb_forall. intros q Iq. apply H; try apply (kl_len _ _ KL); auto.
Qed.

Definition pm_okb (D : kdata) (n : nat) (v w : list Z) : bool := (len (vadd v w) <=? max_size D)%nat && forallb (comp_okb D (len (vadd v w))) (vadd v w).
Definition dpm_okb (D : kdata) (ps n : nat) (v w : list Z) : bool :=
  forallb (comp_okb D ps) (vadd v w) && ((imin (kd_ty D) <=? vsum v + vsum w) && (vsum v + vsum w <=? imax (kd_ty D))).
Lemma pm_env_ok {C Tag} D mt lg : packable D -> env_ok (pm_ops D) (pm_sem D) (@ex_env Z C Tag (pm_sem D) (pm_okb D) mt lg).
Proof.
  intros HD. apply ex_env_ok; [apply pm_key_laws; auto|]. intros n v w _ _. unfold pm_okb. cbn [ks_fits ks_total_ok pm_sem]. split.
  - intros H. split; [apply representableb_ok; exact H|exact I].
  - intros [[L F] _]. apply andb_true_iff. split; [apply Nat.leb_le; exact L|apply all_okb_iff; exact F].
Qed.
Lemma dpm_env_ok {C Tag} D ps mt lg : packable D -> psize_ok D ps -> env_ok (dpm_ops D ps) (dpm_sem D ps) (@ex_env dpm C Tag (dpm_sem D ps) (dpm_okb D ps) mt lg).
Proof.
  intros HD HP. apply ex_env_ok; [apply dpm_key_laws; auto|]. intros n v w _ _. unfold dpm_okb. cbn [ks_fits ks_total_ok dpm_sem]. unfold of_type.
  rewrite !andb_true_iff, all_okb_iff, !Z.leb_le. tauto.
Qed.

Definition exE (mt : bool) (lg : nat) : mul_env Z Z Z := ex_env exS (pm_okb kd_int64) mt lg.
Lemma exE_ok mt lg : env_ok exK exS (exE mt lg).
Proof. apply pm_env_ok. right. right. left. reflexivity. Qed.

(** (3 a b^2 - 2 a + 7 b) (5 b + 2 c^3 - 7 b^-1), by the simple and by the multi-threaded algorithm with 8 segments; the coefficient of a b is 0 - 10 - 21 = -31. *)
Example ex_mul : forall mt lg, (mt, lg) = (false, 0%nat) \/ (mt, lg) = (true, 3%nat) -> exists r, poly_mul exK Z_cf exP Z_tag (exE mt lg) ex_x ex_y = Ok r /\
  s_ss r = ["a"; "b"; "c"]%string /\ series_size r = 8%nat /\ s_log2 r = lg /\
  coef exS Z_cf ["a"; "b"; "c"]%string r [1; 1; 0] = -31 /\ prod_coef exS Z_cf ["a"; "b"; "c"]%string ex_x ex_y [1; 1; 0] = -31 /\
  coef exS Z_cf ["a"; "b"; "c"]%string r [1; 3; 0] = 15 /\ coef exS Z_cf ["a"; "b"; "c"]%string r [0; 0; 0] = -49.
Proof. intros mt lg [[= -> ->]|[= -> ->]]; (eexists; split; [vm_compute; reflexivity|]; do 6 (split; [vm_compute; reflexivity|]); vm_compute; reflexivity). Qed.

Example ex_truncated : forall mt lg, (mt, lg) = (false, 0%nat) \/ (mt, lg) = (true, 3%nat) -> exists r q p t tp,
  truncated_mul exK Z_cf exP Z_tag (exE mt lg) int32 (kd_ty kd_int64) 2 ex_x ex_y = Ok r /\ series_size r = 4%nat /\
  truncated_mul exK Z_cf exP Z_tag (exE mt lg) int32 (kd_ty kd_int64) (-1) ex_x ex_y = Ok q /\ series_size q = 0%nat /\
  truncated_mul_p exK Z_cf exP Z_tag (exE mt lg) int32 (kd_ty kd_int64) 0 ["c"; "zz"]%string ex_x ex_y = Ok p /\ series_size p = 5%nat /\
  truncate_degree exK int32 (kd_ty kd_int64) 1 ex_x = Ok t /\ series_size t = 2%nat /\
  truncate_p_degree exK int32 (kd_ty kd_int64) 0 ["a"]%string ex_x = Ok tp /\ series_size tp = 1%nat.
Proof. intros mt lg [[= -> ->]|[= -> ->]]; do 5 eexists; do 9 (split; [vm_compute; reflexivity|]); vm_compute; reflexivity. Qed.
Example ex_limit : limit_ok int32 (kd_ty kd_int64) (-1) /\ degrees_in exS (kd_ty kd_int64).
Proof.
  split; [|apply pm_degrees_in; right; right; left; reflexivity]. split; [right; eexists _, _; split; [|reflexivity]; cbn; tauto|]. split; [vm_compute; split; [discriminate|reflexivity]|]. left. reflexivity.
Qed.

(** * Refuted cases *)

(** Series built by [add_term]. *)
Definition build {K Tag : Type} (KO : key_ops K) (PO : tbl_policy (K * Z)) (tg : Tag) (ss : symbol_set) (l2 : nat) (l : list (K * Z)) : res (series K Z Tag) :=
  s <- set_n_segments (Series [[]] 0 tg ss) l2 ;; rfold (fun s e => add_term KO Z_cf PO true s (fst e) (snd e)) l s.
Lemma build_wf {K Tag} (KO : key_ops K) (KS : key_sem K) PO (tg : Tag) ss l2 l s : key_laws KO KS -> sorted_set ss -> (l2 <= 63)%nat ->
  (forall k c, In (k, c) l -> ks_valid KS (len ss) k) -> build KO PO tg ss l2 l = Ok s -> wf KO KS Z_cf s /\ s_ss s = ss /\ s_log2 s = l2 /\ s_tag s = tg.
Proof.
  intros KL S L V E. unfold build in E.
  destruct (set_n_segments_ok KO KS Z_cf (Series [[]] 0 tg ss) l2 L S) as [E0 W0]. cbn [s_tag s_ss] in *. rewrite E0 in E. cbn [bind] in E.
  assert (Q : forall l (s0 : series K Z Tag), rfold (fun s e => add_term KO Z_cf PO true s (fst e) (snd e)) l s0 = add_terms KO Z_cf PO true true true true false (fun c : Z => c) l s0).
  { clear. induction l; intros; [reflexivity|]. unfold add_terms in *. cbn [map rfold fst snd]. unfold add_term at 1. destruct (series_add_term _ _ _ _ _ _ _ _ _ _ _); cbn [bind]; auto. }
  rewrite Q in E.
  destruct (add_terms_ok KO KS Z_cf PO KL Z_cf_laws (fun c : Z => c) true true true true false l _ W0) as [(s' & E' & W' & ((M1 & M2 & M3) & _))|(E' & _)];
    try discriminate; auto.
  - intros [?|?]; discriminate.
  - assert (s = s') by congruence. subst. cbn in M1, M2, M3. auto.
  - congruence.
Qed.

(** C38. Unsigned 64-bit exponents, limit -1 of type int: the limit is converted to 2^64 - 1, so nothing is truncated. *)
Definition exu : series Z Z Z := get d0 (build (pm_ops kd_uint64) exP 0 ["a"]%string 0 [(1, 5)]).
Lemma exu_wf : wf (pm_ops kd_uint64) (pm_sem kd_uint64) Z_cf exu.
Proof.
  apply (build_wf _ _ exP 0 ["a"]%string 0 [(1, 5)]); [apply pm_key_laws; right; right; right; reflexivity|repeat constructor|lia| |vm_compute; reflexivity].
  intros k c [[= <- <-]|[]]. exists [1]. apply representsb_ok. vm_compute. reflexivity.
Qed.
Theorem negative_limit_refuted : exists (x t r : series Z Z Z), wf (pm_ops kd_uint64) (pm_sem kd_uint64) Z_cf x /\
  env_ok (pm_ops kd_uint64) (pm_sem kd_uint64) (ex_env (Tag := Z) (C := Z) (pm_sem kd_uint64) (pm_okb kd_uint64) false 0) /\
  truncate_degree (pm_ops kd_uint64) int32 (kd_ty kd_uint64) (-1) x = Ok t /\ terms t = [(1, 5)] /\
  truncated_mul (pm_ops kd_uint64) Z_cf exP Z_tag (ex_env (pm_sem kd_uint64) (pm_okb kd_uint64) false 0) int32 (kd_ty kd_uint64) (-1) x x = Ok r /\ terms r = [(2, 25)].
Proof.
  exists exu. do 2 eexists. split; [apply exu_wf|]. split; [apply pm_env_ok; right; right; right; reflexivity|].
  split; [vm_compute; reflexivity|]. split; [vm_compute; reflexivity|]. split; [vm_compute; reflexivity|]. vm_compute; reflexivity.
Qed.
Print Assumptions negative_limit_refuted.
(** 32-bit unsigned exponents and a 64-bit limit: [negative_limit_partial] applies. *)
Example ex_negative_limit : packable kd_uint32 /\ sgnd (kd_ty kd_uint32) = false /\ limit_ok (Ity 64 true) (kd_ty kd_uint32) (-1).
Proof.
  split; [right; left; reflexivity|]. split; [reflexivity|]. split; [right; eexists _, _; split; [|reflexivity]; cbn; tauto|]. split; [vm_compute; split; [discriminate|reflexivity]|]. right. left. split; reflexivity.
Qed.

(** C36. Signed d_packed_monomial, partial degree: a^t b^-t c^t d^-t e^t f^-t squared, with t = 2^61 - 1, is representable, but the truncated product adds the partial
    degrees 3 t + 3 t in a 64-bit signed integer, which is undefined behaviour. *)
Definition exD := dpm_ops kd_int64 1.
Definition exDS := dpm_sem kd_int64 1.
Definition exDP := po_rev (dpm * Z).
Definition ex_v := let t := 2 ^ 61 - 1 in [t; - t; t; - t; t; - t].
Definition exd : series dpm Z Z := get (series_default Z_tag) (build exD exDP 0 ["a"; "b"; "c"; "d"; "e"; "f"]%string 0 [(dcode kd_int64 1 ex_v, 1)]).
Lemma exD_laws : key_laws exD exDS.
Proof. apply dpm_key_laws; [right; right; left; reflexivity|split; vm_compute; repeat constructor]. Qed.
Lemma exd_wf : wf exD exDS Z_cf exd.
Proof.
  refine (proj1 (build_wf exD exDS exDP 0 ["a"; "b"; "c"; "d"; "e"; "f"]%string 0 [(dcode kd_int64 1 ex_v, 1)] exd exD_laws _ _ _ _)); [repeat constructor|lia| |vm_compute; reflexivity].
  intros k c [[= <- <-]|[]]. exists ex_v. apply drepresentsb_ok. vm_compute. reflexivity.
Qed.
Theorem dpm_truncated_mul_refuted : exists (x p : series dpm Z Z) (E : mul_env dpm Z Z), wf exD exDS Z_cf x /\ env_ok exD exDS E /\
  poly_mul exD Z_cf exDP Z_tag E x x = Ok p /\ series_size p = 1%nat /\
  truncated_mul_p exD Z_cf exDP Z_tag E (kd_ty kd_int64) (kd_ty kd_int64) 1000 ["a"; "c"; "e"]%string x x = UB.
Proof.
  exists exd. eexists. exists (ex_env exDS (dpm_okb kd_int64 1) false 0). split; [apply exd_wf|]. split; [apply dpm_env_ok; [right; right; left; reflexivity|split; vm_compute; repeat constructor]|].
  split; [vm_compute; reflexivity|]. split; vm_compute; reflexivity.
Qed.
Print Assumptions dpm_truncated_mul_refuted.
