(** Property C67: multiplication of polynomials whose coefficients have different types, as integers and rationals.  Vocabulary: SeriesSpec.v,
    PolySpec.v and MixSpec.v ([mixed_prod_coef]: the convolution; [cf_embedding]: a conversion of coefficients). *)
From Coq Require Import ZArith List Bool String Arith Sorted Permutation Lia QArith Qcanon.
From Verif Require Import Base KpackModel KpackSpec KpackProofs P_Kpack IntModel IntSpec IntProofs SymModel SymSpec SymProofs P_Sym PMonModel PMonSpec PMonProofs PMonProofs2 P_PMon
  DPMModel DPMSpec DPMProofs DPMProofs2 DPMProofs3 P_DPM KeyOps KeyInst
  SeriesModel SeriesModel2 SeriesSpec SeriesProofs SeriesProofs2 SeriesProofs3 SeriesProofs4 SeriesProofs5 SeriesProofs6 Lin EvalSpec SeriesEval SeriesProofs7 CfInst P_Series P_Series2
  PolyModel PolyModel2 PolySpec PolyProofs7 PolyProofs8 PolyProofs9 P_Poly P_Poly2 CalcSpec P_Calc MixModel MixSpec MixProofs MixProofs2.
Import ListNotations.
Open Scope Z_scope.
Open Scope res_scope.
Local Notation len := List.length.

Section PM.
Context {K C1 C2 C Tag : Type} (KO : key_ops K) (KS : key_sem K) (CO1 : cf_ops C1) (CO2 : cf_ops C2) (CO : cf_ops C) (mul12 : mix_mul C1 C2 C) (mul21 : mix_mul C2 C1 C)
  (PO1 : tbl_policy (K * C1)) (PO2 : tbl_policy (K * C2)) (PO : tbl_policy (K * C)) (TO : tag_ops Tag).
Context (KL : key_laws KO KS) (CL1 : cf_laws CO1) (CL2 : cf_laws CO2) (CL : cf_laws CO).
Notation WF1 := (wf KO KS CO1). Notation WF2 := (wf KO KS CO2). Notation WF := (wf KO KS CO).
Notation mul E12 E21 t := (mix_switch KO CO1 CO2 CO mul12 mul21 PO1 PO2 PO TO E12 E21 t).

(** Some segment of an operand, or of a result with as many terms as there are products of terms, can be full. *)
Definition mixed_capacity (x : series K C1 Tag) (y : series K C2 Tag) : Prop :=
  full (s_log2 x) (len (terms x)) \/ full (s_log2 y) (len (terms y)) \/
  exists lg, (lg <= max_log2_size)%nat /\ max_table_size lg < Z.of_nat (len (terms x) * len (terms y)).
(** Some term of x, of y or of the product is not representable over u. *)
Definition mixed_unrepresentable (u : symbol_set) (x : series K C1 Tag) (y : series K C2 Tag) : Prop := unrep KS u x \/ unrep KS u y \/ product_unrep KS u x y.
(** The multiplications of coefficients, in either order and fused with an addition, are those of C after conversion. *)
Definition mixed_mul (f1 : C1 -> C) (f2 : C2 -> C) : Prop := forall a b, mm_mul mul12 a b = c_mul CO (f1 a) (f2 b) /\ mm_mul mul21 b a = c_mul CO (f1 a) (f2 b) /\
  forall c, mm_fma mul12 c a b = c_add CO c (c_mul CO (f1 a) (f2 b)) /\ mm_fma mul21 c b a = c_add CO c (c_mul CO (f1 a) (f2 b)).

Lemma prod_coef_mapc f1 f2 us (x : series K C1 Tag) (y : series K C2 Tag) ws : mixed_mul f1 f2 -> prod_coef KS CO us (mapc f1 x) (mapc f2 y) ws = mixed_prod_coef KS CO (mm_mul mul12) us x y ws.
Proof.
  intros HM. unfold prod_coef, mixed_prod_coef. rewrite !terms_mapc, list_prod_map. cbn [mapc s_ss]. f_equal.
  induction (list_prod (terms x) (terms y)) as [|p l IH]; [reflexivity|]. cbn [map filter fst snd gt]. destruct (vec_eqb _ ws); cbn [map fst snd gt]; [|exact IH].
  rewrite IH. destruct (HM (snd (fst p)) (snd (snd p))) as (H & _). rewrite H. reflexivity.
Qed.
Lemma product_unrep_mapc (f1 : C1 -> C) (f2 : C2 -> C) u (x : series K C1 Tag) (y : series K C2 Tag) : product_unrep KS u (mapc f1 x) (mapc f2 y) <-> product_unrep KS u x y.
Proof.
  unfold product_unrep. rewrite !terms_mapc. split.
  - intros (a & b & Ia & Ib & N). apply in_map_iff in Ia as (a' & <- & Ia). apply in_map_iff in Ib as (b' & <- & Ib). exists a', b'. auto.
  - intros (a & b & Ia & Ib & N). exists (gt f1 a), (gt f2 b). split; [apply in_map; exact Ia|]. split; [apply in_map; exact Ib|exact N].
Qed.

Lemma mix_switch_ok E12 E21 f1 f2 sel lim t (x : series K C1 Tag) (y : series K C2 Tag) : mix_env_ok KO KS E12 -> mix_env_ok KO KS E21 ->
  cf_embedding CO1 CO f1 -> cf_embedding CO2 CO f2 -> mixed_mul f1 f2 -> WF1 x -> WF2 y -> Z.of_nat (len (s_ss x) + len (s_ss y)) <= imax size_t ->
  (forall u, union_of (s_ss x) (s_ss y) u -> match t with None => True | Some t => trunc_exact KS sel lim u t end) ->
  mul_good KO KS CO TO sel lim t (mapc f1 x) (mapc f2 y) (mul E12 E21 t x y).
Proof.
  intros O1 O2 M1 M2 HM WX WY SZ TE. unfold mix_switch. destruct (_ <=? _)%nat.
  - apply (mix_impl_ok KO KS CO1 CO2 CO mul12 PO1 PO2 PO TO E12 f1 f2); auto.
    + intros a b. apply HM.
    + intros c a b. rewrite (cl_fma CO CL). apply HM.
  - apply mul_good_swap; [exact CL|]. apply (mix_impl_ok KO KS CO2 CO1 CO mul21 PO2 PO1 PO TO E21 f2 f1); auto.
    + intros b a. destruct (HM a b) as (_ & H & _). rewrite H. apply (Rmul_comm (cl_ring _ CL)).
    + intros c b a. rewrite (cl_fma CO CL), (Rmul_comm (cl_ring _ CL)). apply HM.
    + rewrite Nat.add_comm. exact SZ.
    + intros u [SU IU]. apply TE. split; [exact SU|]. intros z. rewrite IU. tauto.
Qed.

(** C67. The product is the convolution, over the union of the symbols, of the two polynomials; or it is not representable and an exception is thrown. *)
Theorem mixed_mul_exact : forall E12 E21 f1 f2 (x : series K C1 Tag) (y : series K C2 Tag), mix_env_ok KO KS E12 -> mix_env_ok KO KS E21 ->
  cf_embedding CO1 CO f1 -> cf_embedding CO2 CO f2 -> mixed_mul f1 f2 -> WF1 x -> WF2 y -> Z.of_nat (len (s_ss x) + len (s_ss y)) <= imax size_t ->
  exists u, union_of (s_ss x) (s_ss y) u /\
  ((exists r, mul E12 E21 None x y = Ok r /\ WF r /\ s_ss r = u /\ s_tag r = tag_default TO /\ ~ mixed_unrepresentable u x y /\
      forall us ws, sorted_set us -> incl u us -> coef KS CO us r ws = mixed_prod_coef KS CO (mm_mul mul12) us x y ws) \/
   (key_overflow (mul E12 E21 None x y) /\ (mixed_unrepresentable u x y \/ mixed_capacity x y))).
Proof.
  intros E12 E21 f1 f2 x y O1 O2 M1 M2 HM WX WY SZ. destruct (mix_switch_ok E12 E21 f1 f2 all_symbols 0 None x y O1 O2 M1 M2 HM WX WY SZ (fun _ _ => I)) as (u & U & H).
  rewrite product_unrep_mapc, (unrep_mapc KS f1 u x), (unrep_mapc KS f2 u y), !terms_mapc, !map_length in H. exists u. split; [exact U|].
  destruct H as [(r & ER & W & SR & TR & NP & [NX NY] & D & _)|[ER H]].
  - rewrite product_unrep_mapc in NP. rewrite (unrep_mapc KS f1) in NX. rewrite (unrep_mapc KS f2) in NY. left. exists r. split; [exact ER|]. split; [exact W|]. split; [exact SR|]. split; [exact TR|]. split; [unfold mixed_unrepresentable; tauto|]. intros us ws SU IU.
    rewrite <- (prod_coef_mapc f1 f2) by exact HM. rewrite coef_nden, D by auto. apply (bil_kept KS CO all_symbols 0 None us (mapc f1 x) (mapc f2 y) ws).
  - right. split; [exact ER|]. unfold mixed_unrepresentable, mixed_capacity. change (s_log2 (mapc f1 x)) with (s_log2 x) in H. change (s_log2 (mapc f2 y)) with (s_log2 y) in H. destruct H as [H|[H|[H|[[N _]|[H|[H|H]]]]]]; try tauto.
Qed.

(** C67. Truncated: the terms of the product whose degree in the selected symbols does not exceed the limit. *)
Theorem mixed_truncated_mul_exact : forall E12 E21 f1 f2 sel lim t (x : series K C1 Tag) (y : series K C2 Tag), mix_env_ok KO KS E12 -> mix_env_ok KO KS E21 ->
  cf_embedding CO1 CO f1 -> cf_embedding CO2 CO f2 -> mixed_mul f1 f2 -> WF1 x -> WF2 y -> Z.of_nat (len (s_ss x) + len (s_ss y)) <= imax size_t ->
  (forall u, union_of (s_ss x) (s_ss y) u -> trunc_exact KS sel lim u t) ->
  exists u, union_of (s_ss x) (s_ss y) u /\
  ((exists r, mul E12 E21 (Some t) x y = Ok r /\ WF r /\ s_ss r = u /\ s_tag r = tag_default TO /\ ~ mixed_unrepresentable u x y /\
      forall us ws, sorted_set us -> incl u us -> coef KS CO us r ws = if degree_of sel us ws <=? lim then mixed_prod_coef KS CO (mm_mul mul12) us x y ws else c_zero CO) \/
   (key_overflow (mul E12 E21 (Some t) x y) /\
    (mixed_unrepresentable u x y \/ degree_unrep KS sel u x \/ degree_unrep KS sel u y \/ mixed_capacity x y))).
Proof.
  intros E12 E21 f1 f2 sel lim t x y O1 O2 M1 M2 HM WX WY SZ TE. destruct (mix_switch_ok E12 E21 f1 f2 sel lim (Some t) x y O1 O2 M1 M2 HM WX WY SZ TE) as (u & U & H).
  rewrite product_unrep_mapc, (unrep_mapc KS f1 u x), (unrep_mapc KS f2 u y), (degree_unrep_mapc KS f1 sel u x), (degree_unrep_mapc KS f2 sel u y), !terms_mapc, !map_length in H. exists u. split; [exact U|].
  destruct H as [(r & ER & W & SR & TR & NP & [NX NY] & D & _)|[ER H]].
  - rewrite product_unrep_mapc in NP. rewrite (unrep_mapc KS f1) in NX. rewrite (unrep_mapc KS f2) in NY. left. exists r. split; [exact ER|]. split; [exact W|]. split; [exact SR|]. split; [exact TR|]. split; [unfold mixed_unrepresentable; tauto|]. intros us ws SU IU.
    rewrite <- (prod_coef_mapc f1 f2) by exact HM. rewrite coef_nden, D by auto. apply (bil_kept KS CO sel lim (Some t) us (mapc f1 x) (mapc f2 y) ws).
  - right. split; [exact ER|]. unfold mixed_unrepresentable, mixed_capacity. change (s_log2 (mapc f1 x)) with (s_log2 x) in H. change (s_log2 (mapc f2 y)) with (s_log2 y) in H. destruct H as [H|[H|[H|[[N H]|[H|[H|H]]]]]]; tauto.
Qed.

(** C67. It does not matter whether an operand is converted before or during the multiplication. *)
Theorem mixed_mul_converts : forall E12 E21 E f1 f2 (x : series K C1 Tag) (y : series K C2 Tag) (x' y' r r' : series K C Tag), mix_env_ok KO KS E12 -> mix_env_ok KO KS E21 -> env_ok KO KS E ->
  cf_embedding CO1 CO f1 -> cf_embedding CO2 CO f2 -> mixed_mul f1 f2 -> WF1 x -> WF2 y -> Z.of_nat (len (s_ss x) + len (s_ss y)) <= imax size_t ->
  WF x' -> WF y' -> s_ss x' = s_ss x -> s_ss y' = s_ss y ->
  (forall us ws, covers us x -> coef KS CO us x' ws = f1 (coef KS CO1 us x ws)) -> (forall us ws, covers us y -> coef KS CO us y' ws = f2 (coef KS CO2 us y ws)) ->
  mul E12 E21 None x y = Ok r -> poly_mul KO CO PO TO E x' y' = Ok r' ->
  s_ss r = s_ss r' /\ forall us ws, covers us r -> coef KS CO us r ws = coef KS CO us r' ws.
Proof.
  intros E12 E21 E f1 f2 x y x' y' r r' O1 O2 EO M1 M2 HM WX WY SZ WX' WY' SX SY DX DY ER ER'.
  destruct (mix_switch_ok E12 E21 f1 f2 all_symbols 0 None x y O1 O2 M1 M2 HM WX WY SZ (fun _ _ => I)) as (u & U & H).
  assert (SZ' : Z.of_nat (len (s_ss x') + len (s_ss y')) <= imax size_t) by (rewrite SX, SY; exact SZ).
  destruct (switch_ok KO KS CO PO TO E KL CL EO all_symbols 0 None x' y' WX' WY' SZ' (fun _ _ => I)) as (u' & U' & H'). rewrite SX, SY in U'.
  rewrite ER in H. fold (poly_mul KO CO PO TO E x' y') in H'. rewrite ER' in H'.
  destruct H as [(q & EQ & _ & SR & _ & _ & _ & D & _)|[[?|?] _]]; try discriminate. destruct H' as [(q' & EQ' & _ & SR' & _ & _ & _ & D' & _)|[[?|?] _]]; try discriminate.
  assert (q = r) by congruence. assert (q' = r') by congruence. subst q q'.
  assert (u = u') as EU by (eapply union_unique; eauto). subst u'. split; [congruence|]. intros us ws [SU IU]. rewrite SR in IU.
  rewrite !coef_nden, D by auto. rewrite D' by (auto; rewrite <- EU; exact IU). apply (bil_ext CO CL); intros v.
  - rewrite !vt_psum, <- !coef_nden, (coef_mapc KS CO CO1 f1 M1). symmetry. apply DX. split; [exact SU|]. intros z Iz. apply IU, U. auto.
  - rewrite !vt_psum, <- !coef_nden, (coef_mapc KS CO CO2 f2 M2). symmetry. apply DY. split; [exact SU|]. intros z Iz. apply IU, U. auto.
Qed.
End PM.

Definition one_mul {C : Type} (CO : cf_ops C) : mix_mul C C C := {| mm_mul := c_mul CO; mm_fma := c_fma CO |}.
(** C67. With one coefficient type this is the multiplication of PolyModel.v. *)
Theorem mixed_mul_one_type : forall K C Tag (KO : key_ops K) (CO : cf_ops C) (PO : tbl_policy (K * C)) (TO : tag_ops Tag) (E : mix_env K C C Tag) t (x y : series K C Tag),
  mix_switch KO CO CO CO (one_mul CO) (one_mul CO) PO PO PO TO E E t x y =
  poly_mul_switch KO CO PO TO {| me_check := mx_check E; me_sort := sort_by (mx_sort E); me_mt := mx_mt E; me_log2 := mx_log2 E |} t x y.
Proof. reflexivity. Qed.

(** * Non-vacuity: integers and rationals *)
Definition ex_perm (ks : list Z) : list nat := me_sort (exE false 0) (fun i => nth i ks 0) (seq 0 (len ks)).
Lemma ex_perm_ok ks : Permutation (ex_perm ks) (seq 0 (len ks)) /\ StronglySorted Z.le (pick_all ks (ex_perm ks)).
Proof.
  destruct (exE_ok false 0) as [_ P S]. split; [apply P|]. specialize (S nat (fun i => nth i ks 0) (seq 0 (len ks))). specialize (P nat (fun i => nth i ks 0) (seq 0 (len ks))). fold (ex_perm ks) in S, P.
  assert (L : forall i, In i (ex_perm ks) -> (i < len ks)%nat) by (intros i I; apply (Permutation_in _ P) in I; apply in_seq in I; lia). clear P.
  assert (H : pick_all ks (ex_perm ks) = map (fun i => nth i ks 0) (ex_perm ks)).
  { unfold pick_all. clear S. induction (ex_perm ks) as [|i l IH]; [reflexivity|]. cbn [flat_map map]. rewrite IH by (intros j J; apply L; right; exact J).
    rewrite (nth_error_nth' ks 0) by (apply L; left; reflexivity). reflexivity. }
  rewrite H. clear H L. induction S as [|a l S IH F]; cbn [map]; [constructor|]. constructor; [exact IH|]. rewrite Forall_map. exact F.
Qed.
Definition mixE (C1 C2 : Type) (mt : bool) (lg : nat) : mix_env Z C1 C2 Z :=
  {| mx_check := me_check (exE false 0); mx_sort := ex_perm; mx_mt := fun _ _ => mt; mx_log2 := fun _ _ => lg |}.
Lemma mixE_ok C1 C2 mt lg : mix_env_ok exK exS (mixE C1 C2 mt lg).
Proof. split; [intros ss r1 r2 V1 V2; cbn [mixE mx_check]; apply (eo_check _ _ _ (exE_ok false 0)); auto|apply ex_perm_ok]. Qed.
Lemma Qz_embedding : cf_embedding Z_cf Qc_cf Qz.
Proof.
  split; [apply Qc_embedding|intros a b; apply Qc_embedding|]. intros c X.
  assert (Y : (Qred (inject_Z c) == Qred 0)%Q) by (change (this (Qz c) == this (Q2Qc 0))%Q; rewrite X; reflexivity). rewrite !Qred_correct in Y. unfold Qeq in Y. cbn in Y. cbn. lia.
Qed.
Lemma Qc_id : cf_embedding Qc_cf Qc_cf (fun c => c). Proof. split; auto. Qed.
Definition zq : mix_mul Z Qc Qc := {| mm_mul := fun z q => (Qz z * q)%Qc; mm_fma := fun c z q => (c + Qz z * q)%Qc |}.
Definition qz : mix_mul Qc Z Qc := {| mm_mul := fun q z => (q * Qz z)%Qc; mm_fma := fun c q z => (c + q * Qz z)%Qc |}.
Lemma ZQ_mul : mixed_mul Qc_cf zq qz Qz (fun q => q).
Proof. intros a b. cbn. split; [reflexivity|]. split; [apply Qcmult_comm|]. intros c. split; [reflexivity|]. rewrite (Qcmult_comm b). reflexivity. Qed.
Notation zq_mul := (mix_switch exK Z_cf Qc_cf Qc_cf zq qz exP (po_front _) (po_front _) Z_tag).
(** (5 b + 2 c^3 - 7 b^-1) (1/2 a b^2 - 3 a + 2/3 b) by both algorithms: the coefficient of a b is -7/2 - 15. *)
Example ex_mixed : forall mt lg, (mt, lg) = (false, 0%nat) \/ (mt, lg) = (true, 3%nat) ->
  (wf exK exS Z_cf ex_y /\ wf exK exS Qc_cf exq /\ cf_embedding Z_cf Qc_cf Qz /\ cf_embedding Qc_cf Qc_cf (fun q => q) /\
   mixed_mul Qc_cf zq qz Qz (fun q => q) /\ mix_env_ok exK exS (mixE Z Qc mt lg) /\ mix_env_ok exK exS (mixE Qc Z mt lg)) /\
  exists r, zq_mul (mixE Z Qc mt lg) (mixE Qc Z mt lg) None ex_y exq = Ok r /\ s_ss r = ["a"; "b"; "c"]%string /\ series_size r = 8%nat /\
    coef exS Qc_cf ["a"; "b"; "c"]%string r [1; 1; 0] = qf (-37) 2 /\ coef exS Qc_cf ["a"; "b"; "c"]%string r [0; 0; 0] = qf (-14) 3.
Proof.
  intros mt lg H. pose proof ex_y_wf as (WY & _). pose proof exq_wf as (WQ & _).
  split; [split; [exact WY|]; split; [exact WQ|]; split; [exact Qz_embedding|]; split; [exact Qc_id|]; split; [exact ZQ_mul|]; split; apply mixE_ok|].
  exists (get (series_default Z_tag) (zq_mul (mixE Z Qc mt lg) (mixE Qc Z mt lg) None ex_y exq)).
  split; [apply get_ok; destruct H as [[= -> ->]|[= -> ->]]; vm_compute; reflexivity|].
  split; [destruct H as [[= -> ->]|[= -> ->]]; vm_compute; reflexivity|]. split; [destruct H as [[= -> ->]|[= -> ->]]; vm_compute; reflexivity|].
  split; destruct H as [[= -> ->]|[= -> ->]]; apply (cl_eqb _ Qc_cf_laws); vm_compute; reflexivity.
Qed.

Print Assumptions mixed_mul_exact.
Print Assumptions mixed_truncated_mul_exact.
Print Assumptions mixed_mul_converts.
Print Assumptions mixed_mul_one_type.
