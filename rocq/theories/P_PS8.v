(** C93: substitution of power series in power series.  Vocabulary: PSSubsSpec.v (formal sums and substitution in them), PSSpec.v ([within], [respects], [no_negative]), PolySpec.v ([power_coef]). *)
From Coq Require Import ZArith List Bool String Arith Sorted Permutation Lia Ring Ring_theory.
From Verif Require Import Base KpackModel KpackSpec IntModel IntSpec SymModel SymSpec SymProofs P_Sym PMonModel PMonSpec KeyOps KeyInst
  SeriesModel SeriesModel2 SeriesSpec SeriesProofs SeriesProofs2 SeriesProofs3 SeriesProofs4 SeriesProofs5 SeriesProofs6 Lin EvalSpec SeriesEval SeriesProofs7 CfInst P_Series P_Series2
  PolyModel PolyModel2 PolySpec PolyProofs7 PolyProofs8 PolyProofs9 P_Poly P_Poly2 PowProofs PowProofs2 P_Pow CalcSpec DiffProofs PSModel PSSpec PSProofs P_PS PSPow P_PS2 SubsSpec SubsProofs P_Subs PSModel3 PSSubsSpec PSSubs P_PS4.
Import ListNotations.
Open Scope Z_scope.
Open Scope res_scope.
Local Notation len := List.length.

Section P8.
Context {K C : Type} (KO : key_ops K) (KS : key_sem K) (CO : cf_ops C) (PO : tbl_policy (K * C)) (tD : ity).
Context (KL : key_laws KO KS) (CL : cf_laws CO) (HT : integral_type tD) (DI : degrees_in KS tD) (HP : promote tD = tD) (F0 : ks_fits KS []).
Notation series := (series K C trunc_t).
Notation WF := (wf KO KS CO).
Notation coef := (coef KS CO).
Notation exps s k := (ks_exps KS (List.length (s_ss s)) k).

(** What the substitution needs of pow() (see [ps_pow_is_power]): the power u^n up to the truncation t, or an exception. *)
Definition ps_power (t : trunc_t) (B : symbol_set) (u : series) (n : nat) (q : res series) : Prop :=
  (exists p, q = Ok p /\ WF p /\ incl (s_ss p) B /\ (s_tag p = no_truncation \/ s_tag p = t) /\ no_negative KS t p /\
     forall us ws, sorted_set us -> incl B us -> len ws = len us -> within t us ws = true -> coef us p ws = power_coef KS CO us u n ws) \/
  (exists e, q = Throw e).

(** C93. The power series x and the values of the map have at most one truncation t among them, the exponents of x are not negative and the values have no terms of negative degree.
    Then the substitution gives, up to the truncation, the exact result of replacing the symbols of x by the values in every term; the result respects its truncation, which is t if x has it (and has terms).
    The exceptions are those of sums and products of power series and those of pow(). *)
Theorem ps_subs_exact : forall (E : mul_env K C trunc_t) (vpow : series -> Z -> res series) (x : series) (sm : symbol_map series) (t : trunc_t) (B : symbol_set),
  env_ok KO KS E -> trunc_ok tD t -> (t <> no_truncation -> forall u, sums_fit KS tD (counted t) u) -> sorted_set B -> Z.of_nat (len B + len B) <= imax size_t ->
  WF x -> incl (s_ss x) B -> (s_tag x = no_truncation \/ s_tag x = t) -> (forall k c, In (k, c) (terms x) -> Forall (Z.le 0) (exps x k)) ->
  sorted_set (map fst sm) -> (forall z u, In (z, u) sm -> WF u /\ incl (s_ss u) B /\ no_negative KS t u /\ forall n, ps_power t B u n (vpow u (Z.of_nat n))) ->
  (exists r, ps_subs KO CO PO E tD vpow x sm = Ok r /\ WF r /\ incl (s_ss r) B /\ (s_tag r = no_truncation \/ s_tag r = t) /\ (s_tag x = t -> terms x <> [] -> s_tag r = t) /\ respects KS r /\
     forall us ws, sorted_set us -> incl B us -> len ws = len us -> within t us ws = true -> coef us r ws = f_coef CO (f_subst KS CO us sm x) ws) \/
  (exists e, ps_subs KO CO PO E tD vpow x sm = Throw e /\ (e = overflow_error \/ e = safe_cast_failure \/ exists z u n, In (z, u) sm /\ vpow u n = Throw e)).
Proof.
  intros E vpow x sm t B EO TK SF HB SZ W IX TX NX Sm H.
  assert (G : forall us, sorted_set us -> incl B us ->
    (exists r, ps_subs KO CO PO E tD vpow x sm = Ok r /\ means KO KS CO t us B r (f_subst KS CO us sm x) /\ respects KS r /\ (s_tag x = t -> terms x <> [] -> s_tag r = t)) \/
    (exists e, ps_subs KO CO PO E tD vpow x sm = Throw e /\ subs_exn sm vpow e)).
  { intros us HU IU. apply (ps_subs_ok KO KS CO PO tD KL CL HT DI HP F0 t us E B sm vpow EO TK SZ SF HU IU Sm); [|  |exact W|exact IX|exact TX|exact NX].
    - intros z u J. destruct (H z u J) as (A1 & A2 & A3 & _). auto.
    - intros z u n J. destruct (H z u J) as (_ & _ & _ & A). destruct (A n) as [(p & EP & Wp & Ip & Tp & Np & Cp)|X]; [left|right; exact X]. exists p. do 5 (split; [assumption|]). intros ws L WI. apply Cp; auto. }
  destruct (G B HB (incl_refl B)) as [(r & ER & (Wr & Ir & Tr & _) & Rr & TT)|X]; [left|right; exact X]. exists r. do 6 (split; [assumption|]). intros us ws HU IU L WI.
  destruct (G us HU IU) as [(r' & ER' & (_ & _ & _ & _ & _ & UP) & _)|(e & X & _)]; [|congruence]. assert (r' = r) by congruence. subst r'. rewrite f_coef_psum, <- (UP ws L WI). symmetry. apply psum_coef.
Qed.

(** C93. After any history of calls, pow() of power series is such a power: for every value without terms of negative degree whose truncation is t or none. *)
Theorem ps_pow_is_power : forall m (E : mul_env K C trunc_t) (cpow : nat -> C -> res C) (u : series) (t : trunc_t) (B : symbol_set) (n : nat),
  ps_reachable KO KS CO PO tD m -> env_ok KO KS E -> ps_arg KO KS CO tD u -> (forall c, cpow n c = Ok (cpower CO c n)) -> sorted_set B -> incl (s_ss u) B -> (s_tag u = no_truncation \/ s_tag u = t) -> no_negative KS t u ->
  ps_power t B u n (fst (ps_pow KO CO PO E tD (cpow n) (Some (Z.of_nat n)) (Nat.eqb n 0) (Some n) m u)).
Proof.
  intros m E cpow u t B n R EO AR CP HB IB TU NU. pose proof AR as (Wu & _).
  destruct (ps_pow_exact_partial KO KS CO PO tD KL CL HT DI HP F0 m E (cpow n) n u R EO AR CP) as [(r & ER & Wr & Tr & Ir & _ & CR)|[[X|X] _]]; [left|right; exists overflow_error; exact X|right; exists safe_cast_failure; exact X].
  exists r. split; [exact ER|]. split; [exact Wr|]. assert (IrB : incl (s_ss r) B) by (eapply incl_tran; eauto). split; [exact IrB|]. split; [rewrite Tr; exact TU|].
  assert (NU' : no_negative KS (s_tag u) u) by (destruct TU as [->| ->]; [left; reflexivity|exact NU]).
  assert (CV : forall us, sorted_set us -> incl B us -> covers us u) by (intros us SU IU; split; [exact SU|eapply incl_tran; eauto]).
  assert (CR' : forall us ws, sorted_set us -> incl B us -> len ws = len us -> coef us r ws = if within (s_tag u) us ws then power_coef KS CO us u n ws else c_zero CO).
  { intros us ws SU IU L. destruct (CR us ws (CV us SU IU) L) as [_ X]. apply X. left. exact NU'. }
  assert (CVr : covers B r) by (split; auto).
  split.
  - assert (NN : nn t B (vt KS B r)).
    { apply (nn_coef KO KS CO CL t B r (powl KS CO B u n) Wr CVr (nn_powl KS CO t B u n (nn_vt KO KS CO KL t B u Wu (CV B HB (incl_refl B)) NU))). intros k c I.
      pose proof (wf_nonzero _ _ _ _ Wr k c I) as NZ. rewrite <- (coef_term KO KS CO KL CL B r k c Wr CVr I), CR' in NZ by (auto using incl_refl; apply spread_len). rewrite (powl_coef KS CO CL) by apply spread_len.
      destruct (within _ _ _); [exact NZ|congruence]. }
    destruct t as [|d|d s] eqn:ET; [left; reflexivity| |]; right; intros k c I; (destruct (NN (spread (s_ss r) B (exps r k), c)) as [_ [X|X]]; [unfold vt; apply in_map_iff; exists (k, c); auto|discriminate X|]); cbn [fst] in X;
      (rewrite degree_spread in X; [exact X|apply sorted_set_nodup, (wf_ss _ _ _ _ Wr)|apply sorted_set_nodup; exact HB|exact IrB|apply (kl_len _ _ KL); eapply wf_valid; eauto]).
  - intros us ws SU IU L WI. rewrite CR' by auto. destruct TU as [->| ->]; [reflexivity|rewrite WI; reflexivity].
Qed.
End P8.
Print Assumptions ps_subs_exact.
Print Assumptions ps_pow_is_power.

(** * The hypotheses are met: 1 + 2 a - 3 b + 5 a b, truncated to degree 2; 1 + a + 2 c + a^2, with the same truncation, replaces b *)
Notation tD := (kd_ty kd_int64).
Definition ps8_u := psb (total_truncation 2) ["a"; "c"]%string 0 [([1; 0], 1); ([0; 1], 2); ([0; 0], 1); ([2; 0], 1)].
Definition ps8_m : symbol_map (series Z Z trunc_t) := [("b"%string, ps8_u)].
Definition ps8_B := ["a"; "b"; "c"]%string.
Definition ps8_pow (u : series Z Z trunc_t) (z : Z) : res (series Z Z trunc_t) := fst (ps_powx (Z.to_nat z) [] u).
Lemma ps8_u_wf : wf exK exS Z_cf ps8_u /\ s_ss ps8_u = ["a"; "c"]%string /\ s_tag ps8_u = total_truncation 2.
Proof.
  pose proof (psb_wf (total_truncation 2) ["a"; "c"]%string 0 [([1; 0], 1); ([0; 1], 2); ([0; 0], 1); ([2; 0], 1)] ltac:(repeat constructor) ltac:(lia) ltac:(vm_compute; reflexivity)) as W. cbv zeta in W. fold ps8_u in W.
  destruct W as (W & S & _ & T). auto.
Qed.
Example ex_ps_subs_arg : sorted_set ps8_B /\ incl (s_ss ps_x) ps8_B /\ s_tag ps_x = total_truncation 2 /\ trunc_ok tD (total_truncation 2) /\ (forall u, sums_fit exS tD (counted (total_truncation 2)) u) /\
  (forall k c, In (k, c) (terms ps_x) -> Forall (Z.le 0) (ks_exps exS (len (s_ss ps_x)) k)) /\
  (forall z u, In (z, u) ps8_m -> wf exK exS Z_cf u /\ incl (s_ss u) ps8_B /\ no_negative exS (total_truncation 2) u /\ forall n, ps_power exK exS Z_cf (total_truncation 2) ps8_B u n (ps8_pow u (Z.of_nat n))).
Proof.
  destruct ps8_u_wf as (W & S & T). assert (TX : trunc_ok tD (total_truncation 2)) by (split; vm_compute; congruence).
  split; [repeat constructor|]. split; [intros z; vm_compute; intuition|]. split; [vm_compute; reflexivity|]. split; [exact TX|]. split; [intros u; apply pm_sums_fit; right; right; left; reflexivity|]. split.
  { intros k c I. assert (A : forallb (fun e => forallb (Z.leb 0) (ks_exps exS (len (s_ss ps_x)) (fst e))) (terms ps_x) = true) by (vm_compute; reflexivity). rewrite forallb_forall in A. specialize (A _ I). cbn [fst] in A.
    rewrite forallb_forall in A. apply Forall_forall. intros y J. apply Z.leb_le. exact (A y J). }
  intros z u [X|[]]. assert (EU : u = ps8_u) by (apply (f_equal snd) in X; cbn [snd] in X; congruence). subst u. clear X.
  assert (IU : incl (s_ss ps8_u) ps8_B) by (rewrite S; intros y; vm_compute; intuition).
  assert (NN : no_negative exS (total_truncation 2) ps8_u).
  { right. intros k c I. assert (A : forallb (fun e => 0 <=? degree_of (counted (total_truncation 2)) (s_ss ps8_u) (ks_exps exS (len (s_ss ps8_u)) (fst e))) (terms ps8_u) = true) by (vm_compute; reflexivity). rewrite forallb_forall in A. apply Z.leb_le. exact (A _ I). }
  split; [exact W|]. split; [exact IU|]. split; [exact NN|]. intros n. unfold ps8_pow. rewrite Nat2Z.id. unfold ps_powx.
  apply (ps_pow_is_power exK exS Z_cf exP tD exK_laws Z_cf_laws (proj1 (kd_type_ok kd_int64 (or_intror (or_intror (or_introl eq_refl))))) (pm_degrees_in kd_int64 (or_intror (or_intror (or_introl eq_refl))))) with (cpow := fun n c => Ok (cpower Z_cf c n)); auto.
  - apply pm_fits_nil.
  - constructor.
  - apply psE_ok.
  - apply (pm_ps_arg Z_cf kd_int64); [right; right; left; reflexivity|exact W|rewrite S; vm_compute; discriminate|rewrite T; exact TX].
  - repeat constructor.
Qed.
Example ex_ps_subs : exists r, ps_subs exK Z_cf exP (psE false 0) tD ps8_pow ps_x ps8_m = Ok r /\ s_tag r = total_truncation 2 /\ s_ss r = ps8_B /\ series_size r = 5%nat /\
  map (coef exS Z_cf ps8_B r) [[0; 0; 0]; [1; 0; 0]; [0; 0; 1]; [2; 0; 0]; [1; 0; 1]; [3; 0; 0]] = [-2; 4; -6; 2; 10; 0] /\
  map (f_coef Z_cf (f_subst exS Z_cf ps8_B ps8_m ps_x)) [[0; 0; 0]; [1; 0; 0]; [0; 0; 1]; [2; 0; 0]; [1; 0; 1]; [3; 0; 0]] = [-2; 4; -6; 2; 10; 5].
Proof. eexists. do 5 (split; [vm_compute; reflexivity|]). vm_compute; reflexivity. Qed.
