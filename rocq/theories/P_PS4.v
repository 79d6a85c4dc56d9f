(** Power series with the key types of obake: C50, C52 without the side conditions of P_PS.v and P_PS2.v; examples; what C52 does not give. *)
From Coq Require Import ZArith List Bool String Arith Sorted Permutation Lia QArith QArith.Qcanon.
From Verif Require Import Base KpackModel KpackSpec KpackProofs P_Kpack IntModel IntSpec IntProofs P_Int SymModel SymSpec SymProofs P_Sym PMonModel PMonSpec PMonProofs PMonProofs2 P_PMon
  DPMModel DPMSpec DPMProofs DPMProofs2 DPMProofs3 P_DPM KeyOps KeyInst
  SeriesModel SeriesModel2 SeriesSpec SeriesProofs SeriesProofs2 SeriesProofs3 SeriesProofs4 SeriesProofs5 SeriesProofs6 Lin EvalSpec SeriesEval SeriesProofs7 CfInst P_Series P_Series2
  PolyModel PolyModel2 PolySpec PolyProofs7 PolyProofs8 PolyProofs9 P_Poly P_Poly2 PowProofs PowProofs2 P_Pow CalcSpec DiffProofs IntegProofs P_Calc PSModel PSSpec PSProofs P_PS PSPow P_PS2 P_PS3 P_Gen.
Import ListNotations.
Open Scope Z_scope.
Open Scope res_scope.
Local Notation len := List.length.

(** The sums of degrees needed by the multiplication are values of the degree type: always for packed_monomial; for d_packed_monomial if the truncation is total or the exponents are unsigned
    (otherwise see dpm_truncated_mul_refuted). *)
Lemma pm_ps_arg {C} (CO : cf_ops C) D (x : series Z C trunc_t) : packable D -> wf (pm_ops D) (pm_sem D) CO x -> Z.of_nat (len (s_ss x) + len (s_ss x)) <= imax size_t -> trunc_ok (kd_ty D) (s_tag x) ->
  ps_arg (pm_ops D) (pm_sem D) CO (kd_ty D) x.
Proof. intros HD W B T. split; [exact W|]. split; [exact B|]. split; [exact T|]. intros _ u. apply pm_sums_fit. exact HD. Qed.
Definition dpm_trunc (D : kdata) (t : trunc_t) : Prop := match t with partial_truncation _ _ => sgnd (kd_ty D) = false | _ => True end.
Lemma dpm_trunc_fit D ps t u : dpm_trunc D t -> sums_fit (dpm_sem D ps) (kd_ty D) (counted t) u.
Proof. intros H. destruct t; cbn [counted]; try apply dpm_total_fit. apply dpm_unsigned_fit. exact H. Qed.
Lemma dpm_ps_arg {C} (CO : cf_ops C) D ps (x : series dpm C trunc_t) : wf (dpm_ops D ps) (dpm_sem D ps) CO x -> Z.of_nat (len (s_ss x) + len (s_ss x)) <= imax size_t -> trunc_ok (kd_ty D) (s_tag x) ->
  dpm_trunc D (s_tag x) -> ps_arg (dpm_ops D ps) (dpm_sem D ps) CO (kd_ty D) x.
Proof. intros W B T H. split; [exact W|]. split; [exact B|]. split; [exact T|]. intros _ u. apply dpm_trunc_fit. exact H. Qed.

(** C50, packed_monomial. *)
Theorem pm_ps_mul_exact : forall {C} (CO : cf_ops C) PO D E (x y : series Z C trunc_t), cf_laws CO -> packable D ->
  let KO := pm_ops D in let KS := pm_sem D in
  env_ok KO KS E -> wf KO KS CO x -> wf KO KS CO y -> trunc_ok (kd_ty D) (s_tag x) -> trunc_ok (kd_ty D) (s_tag y) ->
  Z.of_nat (len (s_ss x) + len (s_ss y)) <= imax size_t ->
  let out := ps_mul KO CO PO E (kd_ty D) x y in
  (clash (s_tag x) (s_tag y) /\ out = Throw invalid_argument) \/
  exists t u, joint (s_tag x) (s_tag y) t /\ union_of (s_ss x) (s_ss y) u /\
    ((exists r, out = Ok r /\ wf KO KS CO r /\ s_ss r = u /\ s_tag r = t /\ ~ unrepresentable KS u x y /\ respects KS r /\
        forall us ws, sorted_set us -> incl u us -> coef KS CO us r ws = if within t us ws then prod_coef KS CO us x y ws else c_zero CO) \/
     (key_overflow out /\ (unrepresentable KS u x y \/ capacity x y))).
Proof.
  intros C CO PO D E x y CL HD KO KS EO Wx Wy Tx Ty B out. destruct (kd_type_ok D HD) as [T1 T2].
  destruct (ps_mul_exact KO KS CO PO (kd_ty D) (pm_key_laws D HD) CL T1 T2 E x y EO Wx Wy Tx Ty B) as [A H].
  assert (DEC : clash (s_tag x) (s_tag y) \/ exists t, joint (s_tag x) (s_tag y) t).
  { destruct (s_tag x) eqn:EX; [right; exists (s_tag y); right; left; auto| |]; (destruct (s_tag y) eqn:EY; [right; eexists; right; right; split; reflexivity| |]); rewrite <- EX, <- EY;
      (destruct (trunc_eqb (s_tag x) (s_tag y)) eqn:EQ; [apply trunc_eqb_iff in EQ; right; exists (s_tag x); left; auto|left; split; [congruence|]; split; [congruence|]; intros X; apply trunc_eqb_iff in X; congruence]). }
  destruct DEC as [CL'|[t J]]; [left; auto|right]. destruct (H t J) as (u & U & [R|[KV R]]); [intros u U N; apply pm_sums_fit; exact HD| |]; exists t, u; split; auto; split; auto. right. split; [exact KV|].
  destruct R as [R|[R|[_ [(k & c & _ & N)|(k & c & _ & N)]]]]; auto; exfalso; apply N; exact I.
Qed.

(** ** Examples *)
Definition psb (t : trunc_t) (ss : symbol_set) (l2 : nat) (l : list (list Z * Z)) : series Z Z trunc_t :=
  get (series_default ps_tag_ops) (build exK exP t ss l2 (map (fun e => (exk (fst e), snd e)) l)).
Definition is_built (t : trunc_t) (ss : symbol_set) (l2 : nat) (l : list (list Z * Z)) : bool :=
  match build exK exP t ss l2 (map (fun e => (exk (fst e), snd e)) l) with Ok _ => forallb (fun e => representsb kd_int64 (len ss) (exk (fst e)) (fst e)) l | _ => false end.
Lemma psb_wf t ss l2 l : sorted_set ss -> (l2 <= 63)%nat -> is_built t ss l2 l = true ->
  let s := psb t ss l2 l in wf exK exS Z_cf s /\ s_ss s = ss /\ s_log2 s = l2 /\ s_tag s = t.
Proof.
  intros S L F s. unfold is_built, s, psb in *. destruct (build exK exP t ss l2 _) as [b| |] eqn:E; try discriminate. cbn [get]. refine (build_wf exK exS exP t ss l2 _ b exK_laws S L _ E).
  intros k c I. apply in_map_iff in I as (e & [= <- <-] & I). rewrite forallb_forall in F. specialize (F e I). apply representsb_ok in F. exists (fst e). exact F.
Qed.
Definition psE (mt : bool) (lg : nat) : mul_env Z Z trunc_t := ex_env exS (pm_okb kd_int64) mt lg.
Lemma psE_ok mt lg : env_ok exK exS (psE mt lg).
Proof. apply pm_env_ok. right. right. left. reflexivity. Qed.
Notation tD := (kd_ty kd_int64).

(** 1 + 2 a - 3 b + 5 a b, with total truncation 2, in two segments; 4 a - b, not truncated; a b + c, with partial truncation 1 in a. *)
Definition ps_x := psb (total_truncation 2) ["a"; "b"]%string 1 [([0; 0], 1); ([1; 0], 2); ([0; 1], -3); ([1; 1], 5)].
Definition ps_y := psb no_truncation ["a"; "b"]%string 0 [([1; 0], 4); ([0; 1], -1)].
Definition ps_z := psb (partial_truncation 1 ["a"]%string) ["a"; "b"; "c"]%string 0 [([1; 1; 0], 1); ([0; 0; 1], 1)].
Lemma ps_x_wf : wf exK exS Z_cf ps_x /\ s_ss ps_x = ["a"; "b"]%string /\ s_log2 ps_x = 1%nat /\ s_tag ps_x = total_truncation 2.
Proof. apply psb_wf; [repeat constructor|lia|vm_compute; reflexivity]. Qed.
Lemma ps_y_wf : wf exK exS Z_cf ps_y /\ s_ss ps_y = ["a"; "b"]%string /\ s_log2 ps_y = 0%nat /\ s_tag ps_y = no_truncation.
Proof. apply psb_wf; [repeat constructor|lia|vm_compute; reflexivity]. Qed.
Lemma ps_z_wf : wf exK exS Z_cf ps_z /\ s_ss ps_z = ["a"; "b"; "c"]%string /\ s_log2 ps_z = 0%nat /\ s_tag ps_z = partial_truncation 1 ["a"]%string.
Proof. apply psb_wf; [repeat constructor|lia|vm_compute; reflexivity]. Qed.
Lemma ps_trunc_ok : trunc_ok tD (s_tag ps_x) /\ trunc_ok tD (s_tag ps_y) /\ trunc_ok tD (s_tag ps_z) /\ clash (s_tag ps_x) (s_tag ps_z) /\ joint (s_tag ps_x) (s_tag ps_y) (total_truncation 2).
Proof.
  destruct ps_x_wf as (_ & _ & _ & ->), ps_y_wf as (_ & _ & _ & ->), ps_z_wf as (_ & _ & _ & ->). split; [split; vm_compute; congruence|]. split; [exact I|]. split; [split; [split; vm_compute; congruence|repeat constructor]|].
  split; [repeat split; discriminate|]. right. right. split; reflexivity.
Qed.
(** The hypotheses of the theorems of P_PS.v and P_PS2.v hold for these, and the results are what they say: (1 + 2 a - 3 b + 5 a b) (4 a - b) without the terms of degree 3. *)
Example ex_ps_mul : forall mt lg, (mt, lg) = (false, 0%nat) \/ (mt, lg) = (true, 2%nat) -> exists r, ps_mul exK Z_cf exP (psE mt lg) tD ps_x ps_y = Ok r /\ s_tag r = total_truncation 2 /\ series_size r = 5%nat /\
  coef exS Z_cf ["a"; "b"]%string r [1; 1] = -14 /\ coef exS Z_cf ["a"; "b"]%string r [2; 1] = 0 /\ prod_coef exS Z_cf ["a"; "b"]%string ps_x ps_y [2; 1] = 20.
Proof. intros mt lg [[= -> ->]|[= -> ->]]; (eexists; split; [vm_compute; reflexivity|]; do 4 (split; [vm_compute; reflexivity|]); vm_compute; reflexivity). Qed.
Example ex_ps_clash : ps_mul exK Z_cf exP (psE false 0) tD ps_x ps_z = Throw invalid_argument /\ ps_add exK Z_cf exP tD ps_x ps_z = Throw invalid_argument /\ ps_sub exK Z_cf exP tD ps_z ps_x = Throw invalid_argument.
Proof. do 2 (split; [vm_compute; reflexivity|]). vm_compute; reflexivity. Qed.
Example ex_ps_add : exists r q, ps_add exK Z_cf exP tD ps_x ps_y = Ok r /\ s_tag r = total_truncation 2 /\ coef exS Z_cf ["a"; "b"]%string r [1; 0] = 6 /\
  ps_sub exK Z_cf exP tD ps_y ps_z = Ok q /\ s_tag q = partial_truncation 1 ["a"]%string /\ series_size q = 4%nat.
Proof. do 2 eexists. do 5 (split; [vm_compute; reflexivity|]). vm_compute; reflexivity. Qed.
Definition ps_powx (n : nat) m x := ps_pow exK Z_cf exP (psE false 0) tD (fun c => Ok (cpower Z_cf c n)) (Some (Z.of_nat n)) (Nat.eqb n 0) (Some n) m x.
Example ex_ps_pow : exists r, fst (ps_powx 3 [] ps_x) = Ok r /\ s_tag r = total_truncation 2 /\ series_size r = 6%nat /\ coef exS Z_cf ["a"; "b"]%string r [1; 1] = -21 /\ power_coef exS Z_cf ["a"; "b"]%string ps_x 3 [1; 1] = -21.
Proof. eexists. do 4 (split; [vm_compute; reflexivity|]). vm_compute; reflexivity. Qed.
Lemma ps_x_arg : ps_arg exK exS Z_cf tD ps_x.
Proof. destruct ps_x_wf as (W & S & _), ps_trunc_ok as (T & _). apply (pm_ps_arg Z_cf kd_int64); [right; right; left; reflexivity|exact W|rewrite S; vm_compute; discriminate|exact T]. Qed.
Lemma ps_x_nonneg : no_negative exS (s_tag ps_x) ps_x /\ respects exS ps_x.
Proof.
  split; [right|]; (intros k c I; assert (A : forallb (fun e => (0 <=? degree_of (counted (s_tag ps_x)) (s_ss ps_x) (ks_exps exS (len (s_ss ps_x)) (fst e))) && within (s_tag ps_x) (s_ss ps_x) (ks_exps exS (len (s_ss ps_x)) (fst e))) (terms ps_x) = true) by (vm_compute; reflexivity);
  rewrite forallb_forall in A; specialize (A _ I); apply andb_true_iff in A as [A B]; cbn [fst] in *); [apply Z.leb_le; exact A|exact B].
Qed.

(** C52. With negative exponents pow is not the truncated exact power: (a + a^-1)^3 with limit 1 has the coefficient 2 for a, the exact power has 3. *)
Definition ps_l := psb (total_truncation 1) ["a"]%string 0 [([1], 1); ([-1], 1)].
Theorem ps_pow_truncated_exactly_refuted : exists (x r : series Z Z trunc_t), ps_arg exK exS Z_cf tD x /\ respects exS x /\ env_ok exK exS (psE false 0) /\ s_tag x = total_truncation 1 /\
  fst (ps_powx 3 [] x) = Ok r /\ within (s_tag x) ["a"]%string [1] = true /\ coef exS Z_cf ["a"]%string r [1] = 2 /\ power_coef exS Z_cf ["a"]%string x 3 [1] = 3.
Proof.
  pose proof (psb_wf (total_truncation 1) ["a"]%string 0 [([1], 1); ([-1], 1)] ltac:(repeat constructor) ltac:(lia) ltac:(vm_compute; reflexivity)) as W. fold ps_l in W. cbv zeta in W. destruct W as (W & S & _ & T).
  exists ps_l. eexists. split; [apply (pm_ps_arg Z_cf kd_int64); [right; right; left; reflexivity|exact W|rewrite S; vm_compute; discriminate|rewrite T; split; vm_compute; congruence]|].
  split. { intros k c I. assert (A : forallb (fun e => within (s_tag ps_l) (s_ss ps_l) (ks_exps exS (len (s_ss ps_l)) (fst e))) (terms ps_l) = true) by (vm_compute; reflexivity). rewrite forallb_forall in A. exact (A _ I). }
  split; [apply psE_ok|]. split; [exact T|]. do 3 (split; [vm_compute; reflexivity|]). vm_compute; reflexivity.
Qed.

(** Generators: a, b over themselves; over {a, b} with limits; an unknown symbol. *)
Notation kof := (pm_of_range kd_int64 int32).
Example ex_gen : exists r s t, make_polynomials exK Z_cf exP ps_tag_ops kof ["b"; "a"]%string = Ok [r; s] /\ s_ss r = ["b"]%string /\ coef exS Z_cf ["a"; "b"]%string r [0; 1] = 1 /\ coef exS Z_cf ["a"; "b"]%string s [1; 0] = 1 /\
  make_p_series_t exK Z_cf exP tD kof (Some ["a"; "b"]%string) int32 0 ["a"]%string = Ok [t] /\ s_tag t = total_truncation 0 /\ series_size t = 0%nat.
Proof. do 3 eexists. do 6 (split; [vm_compute; reflexivity|]). vm_compute; reflexivity. Qed.
Example ex_gen_bad : make_polynomials_ss exK Z_cf exP ps_tag_ops kof ["a"; "b"]%string ["a"; "c"]%string = Throw invalid_argument /\ (exists r, make_p_series_p exK Z_cf exP tD kof None int32 2 ["a"]%string ["a"; "c"]%string = Ok r) /\
  make_p_series_t exK Z_cf exP tD kof None (Ity 128 true) (2 ^ 70) ["a"]%string = Throw safe_cast_failure.
Proof. split; [vm_compute; reflexivity|]. split; [eexists; vm_compute; reflexivity|]. vm_compute; reflexivity. Qed.

(** Calculus: the derivative of 1 + 2 a - 3 b + 5 a b in a. *)
Example ex_ps_diff : exists r, ps_diff exK Z_cf exP (fun z => z) ps_x "a"%string = Ok r /\ s_tag r = total_truncation 2 /\ series_size r = 2%nat /\ coef exS Z_cf ["a"; "b"]%string r [0; 1] = 5.
Proof. eexists. do 3 (split; [vm_compute; reflexivity|]). vm_compute; reflexivity. Qed.
(** 1/2 a b^2 - 3 a + 2/3 b with truncation 3: the integral in b without its first term, which has degree 4. *)
Definition psq : series Z Qc trunc_t := set_tag (Series (s_tables exq) (s_log2 exq) no_truncation (s_ss exq)) (total_truncation 3).
Lemma psq_wf : wf exK exS Qc_cf psq /\ s_tag psq = total_truncation 3.
Proof. split; [|reflexivity]. destruct exq_wf as (W & _). destruct W as [A B C D F G H]. constructor; auto. Qed.
Definition psq_b := ps_integrate exK Qc_cf (po_front _) tD Qc_div psq "b".
Example ex_ps_integrate : exists r, psq_b = Ok r /\ series_size r = 2%nat /\ coef exS Qc_cf ["a"; "b"]%string r [1; 1] = qf (-3) 1 /\ coef exS Qc_cf ["a"; "b"]%string r [0; 2] = qf 1 3.
Proof.
  exists (get (series_default ps_tag_ops) psq_b). split; [apply get_ok; vm_compute; reflexivity|]. split; [vm_compute; reflexivity|].
  split; [apply (cl_eqb _ Qc_cf_laws); vm_compute; reflexivity|]. apply (cl_eqb _ Qc_cf_laws). vm_compute. reflexivity.
Qed.
Print Assumptions pm_ps_mul_exact.
Print Assumptions ps_pow_truncated_exactly_refuted.
Print Assumptions ps_diff_exact.
Print Assumptions ps_integrate_exact.
Print Assumptions make_polynomials_exact.
Print Assumptions make_polynomials_ss_exact.
Print Assumptions make_p_series_exact.
Print Assumptions make_p_series_t_exact.
Print Assumptions make_p_series_p_exact.
