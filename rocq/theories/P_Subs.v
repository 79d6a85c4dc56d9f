(** Property C43: substitution.  Vocabulary: SubsSpec.v, EvalSpec.v ([value]: the value of a polynomial at a point; [mono]: the value of a monomial). *)
From Coq Require Import ZArith List Bool String Arith Sorted Permutation Lia Ring Ring_theory.
From Verif Require Import Base KpackModel KpackSpec KpackProofs P_Kpack IntModel IntSpec IntProofs SymModel SymSpec SymProofs P_Sym PMonModel PMonSpec PMonProofs PMonProofs2 P_PMon
  DPMModel DPMSpec DPMProofs DPMProofs2 DPMProofs3 P_DPM KeyOps KeyInst
  SeriesModel SeriesModel2 SeriesSpec SeriesProofs SeriesProofs2 SeriesProofs3 SeriesProofs4 SeriesProofs5 SeriesProofs6 Lin EvalSpec SeriesEval SeriesProofs7 CfInst P_Series P_Series2
  PolyModel PolyModel2 PolySpec PolyProofs7 PolyProofs8 PolyProofs9 P_Poly P_Poly2 PowProofs PowProofs2 P_Pow DiffProofs SubsSpec SubsProofs SubsProofs2.
Import ListNotations.
Open Scope Z_scope.
Open Scope res_scope.
Local Notation len := List.length.

Section PS.
Context {K C Tag : Type} (KO : key_ops K) (KS : key_sem K) (CO : cf_ops C) (PO : tbl_policy (K * C)) (TO : tag_ops Tag).
Context (KL : key_laws KO KS) (CL : cf_laws CO).
Notation series := (series K C Tag).
Notation WF := (wf KO KS CO).
Notation coef := (coef KS CO).
Notation exps s k := (ks_exps KS (List.length (s_ss s)) k).
Infix "+c" := (c_add CO) (at level 50, left associativity).
Infix "*c" := (c_mul CO) (at level 40, left associativity).
Add Ring CringSB : (cl_ring _ CL).

(** C43. Substituting scalars never throws if the powers exist; each term c * m of x contributes c * (the value of the substituted symbols of m) to the monomial of
    the others. *)
Theorem subs_scalar_exact : forall (U : Type) vpow (pw : U -> Z -> C) (x : series) (sm : symbol_map U), WF x -> sorted_set (map fst sm) -> powers_exist KS vpow pw sm x ->
  Z.of_nat (len (s_ss x) + len (s_ss x)) <= imax size_t ->
  exists r, subs_scalar KO CO PO TO vpow x sm = Ok r /\ WF r /\ (s_ss r = s_ss x \/ (terms x = [] /\ r = series_default TO)) /\
    forall us ws, covers us x -> coef us r ws =
      csum CO (map (fun e => if vec_eqb (spread (s_ss x) us (keep sm (s_ss x) (exps x (fst e)))) ws then mono (c_one CO) (c_mul CO) pw sm (s_ss x) (exps x (fst e)) (s_ss x) *c snd e else c_zero CO) (terms x)).
Proof.
  intros U vpow pw x sm W Sm PE SZ. destruct (subs_scalar_ok KO KS CO PO TO KL CL vpow pw x sm W Sm PE SZ) as (r & ER & Wr & SS & SM). exists r. split; [exact ER|]. split; [exact Wr|]. split; [exact SS|].
  intros us ws CV. rewrite coef_nden, <- vt_psum, (SM us CV). clear -CL. induction (terms x) as [|e l IH]; [reflexivity|]. cbn [map]. rewrite (psum_cons CO CL), IH. cbn [fst snd sterm csum fold_right]. unfold csum. cbn [fold_right]. destruct (vec_eqb _ _); reflexivity.
Qed.

(** C43. The substituted symbols no longer occur. *)
Lemma csum_nonzero (l : list C) : csum CO l <> c_zero CO -> exists c, In c l /\ c <> c_zero CO.
Proof.
  induction l as [|a l IH]; intros H; [elim H; reflexivity|]. destruct (c_is_zero CO a) eqn:Z.
  - apply (cl_zero _ CL) in Z. subst a. destruct IH as (c & I & N); [intros E; apply H; change (csum CO (c_zero CO :: l)) with (c_zero CO +c csum CO l); rewrite E; ring|]. exists c. split; [right; exact I|exact N].
  - exists a. split; [left; reflexivity|]. intros X. apply (cl_zero _ CL) in X. congruence.
Qed.
Theorem subs_scalar_removes : forall (U : Type) vpow (pw : U -> Z -> C) (x r : series) (sm : symbol_map U), WF x -> sorted_set (map fst sm) -> powers_exist KS vpow pw sm x ->
  Z.of_nat (len (s_ss x) + len (s_ss x)) <= imax size_t -> subs_scalar KO CO PO TO vpow x sm = Ok r ->
  forall k c z u, In (k, c) (terms r) -> In (z, u) sm -> expo (s_ss r) (exps r k) z = 0.
Proof.
  intros U vpow pw x r sm W Sm PE SZ ER k c z u I J. destruct (subs_scalar_exact U vpow pw x sm W Sm PE SZ) as (r' & ER' & Wr & SS & SM). assert (r' = r) by congruence. subst r'.
  destruct SS as [SS|[_ ->]]; [|elim I]. assert (Hs := wf_ss _ _ _ _ W). assert (CX : covers (s_ss x) x) by (split; [exact Hs|apply incl_refl]). assert (CR : covers (s_ss x) r) by (split; [exact Hs|rewrite SS; apply incl_refl]).
  assert (NZ := wf_nonzero _ _ _ _ Wr k c I). rewrite <- (coef_term KO KS CO KL CL (s_ss x) r k c Wr CR I), (SM _ _ CX) in NZ. apply csum_nonzero in NZ as (c' & I' & NZ). apply in_map_iff in I' as (e & EE & _).
  unfold vec_eqb in EE. destruct (list_eq_dec _ _ _) as [EX|]; [|congruence]. rewrite SS in EX |- *. rewrite !spread_self in EX; [| | |apply sorted_set_nodup; auto|].
  - rewrite <- EX. unfold keep. rewrite expo_map. destruct (in_dec string_dec z (s_ss x)); [|reflexivity]. assert (A : assoc sm z = Some u) by (apply assoc_iff; auto; apply sorted_set_nodup; auto). rewrite A. reflexivity.
  - apply sorted_set_nodup; auto.
  - rewrite <- SS. apply (kl_len _ _ KL). apply (wf_valid _ _ _ _ Wr k c I).
  - apply keep_len.
Qed.

(** ** Values, in any commutative ring V into which the coefficients embed by the homomorphism h *)
Context {V : Type} (vzero vone : V) (va vm vs : V -> V -> V) (vo : V -> V) (VR : ring_theory vzero vone va vm vs vo (@eq V)).
Context (pw : V -> Z -> V) (h : C -> V).
Context (h0 : h (c_zero CO) = vzero) (hone : h (c_one CO) = vone) (h1 : forall a b, h (a +c b) = va (h a) (h b)) (hm : forall a b, h (a *c b) = vm (h a) (h b)).
Add Ring VringSB : VR.
Notation Value := (value KS vzero vone va vm pw h).

(** C43. Evaluating the result of a substitution of scalars at m is evaluating the polynomial at m overridden by the substituted values. *)
Theorem subs_scalar_value : forall (U : Type) (f : U -> V) vpow (pc : U -> Z -> C) (x r : series) (sm : symbol_map U) (m mc : symbol_map V), WF x -> sorted_set (map fst sm) -> powers_exist KS vpow pc sm x ->
  Z.of_nat (len (s_ss x) + len (s_ss x)) <= imax size_t -> subs_scalar KO CO PO TO vpow x sm = Ok r ->
  sorted_set (map fst m) -> overridden f sm m mc -> pow0 vone pw m -> (forall z u, In (z, u) sm -> forall e, h (pc u e) = pw (f u) e) ->
  Value m r = Value mc x.
Proof. intros U f vpow pc x r sm m mc. apply (value_scalar_subs KO KS CO PO TO KL CL vzero vone va vm vs vo VR pw h h0 hone h1 hm f). Qed.

(** C43. The same for the substitution of polynomials: the result or the exception of an unrepresentable product, or that of a power. *)
Theorem subs_poly_value : forall E (vpow : series -> Z -> res series) (x : series) (sm : symbol_map series) (m mc : symbol_map V) (B : symbol_set) (Ex : Z -> Prop), env_ok KO KS E -> ks_fits KS [] ->
  sorted_set (map fst sm) -> sorted_set (map fst m) -> pow0 vone pw m ->
  (* Ex: the exponents, closed under addition, for which v^(a + b) = v^a v^b *)
  pow_adds vm pw Ex m -> (forall a b, Ex a -> Ex b -> Ex (a + b)) -> expos_in KS Ex x ->
  (* B: the symbols of x and of the powers *)
  sorted_set B -> Z.of_nat (len B + len B) <= imax size_t -> WF x -> incl (s_ss x) B ->
  (forall z u n, In (z, u) sm -> (exists p, vpow u n = Ok p /\ WF p /\ incl (s_ss p) B /\ expos_in KS Ex p /\ Value m p = pw (Value m u) n) \/ (exists e, vpow u n = Throw e)) ->
  overridden (Value m) sm m mc ->
  (exists r, subs_poly KO CO PO TO E vpow x sm = Ok r /\ WF r /\ incl (s_ss r) B /\ Value m r = Value mc x) \/
  (exists e, subs_poly KO CO PO TO E vpow x sm = Throw e /\ (e = overflow_error \/ e = safe_cast_failure \/ exists z u n, In (z, u) sm /\ vpow u n = Throw e)).
Proof.
  intros E vpow x sm m mc B Ex EO FN Sm Hm P0 PA EA XX HB SZ W IX VP OV.
  exact (subs_poly_ok KO KS CO PO TO KL CL vzero vone va vm vs vo VR pw h h0 hone h1 hm E EO FN vpow sm m B Ex Sm Hm HB SZ P0 PA EA VP x mc W IX XX OV).
Qed.

(** The powers computed by pow (C46), for every state of the cache, satisfy the hypothesis of subs_poly_value. *)
Lemma powl_in (Ex : Z -> Prop) us (u : series) n : Ex 0 -> (forall a b, Ex a -> Ex b -> Ex (a + b)) -> expos_in KS Ex u -> forall e, In e (powl KS CO us u n) -> len (fst e) = len us /\ Forall Ex (fst e).
Proof.
  intros E0 EA X e I. split; [eapply powl_len; eauto|]. revert e I. induction n as [|n IH]; cbn [powl].
  - intros e [<-|[]]. cbn [fst]. apply Forall_forall. intros y J. apply repeat_spec in J. subst. exact E0.
  - intros e I. unfold vprod in I. apply in_map_iff in I as ([a b] & <- & I). apply in_prod_iff in I as [I J]. apply IH in I. destruct (vt_in KS Ex us u b E0 X J) as [_ F]. cbn [vmulp fst snd].
    unfold vadd. apply Forall_forall. intros z K1. apply in_map_iff in K1 as ([p q] & <- & K1). apply EA; [apply (proj1 (Forall_forall _ _) I); eapply in_combine_l; eauto|apply (proj1 (Forall_forall _ _) F); eapply in_combine_r; eauto].
Qed.
Lemma lin_powl (Ex : Z -> Prop) (m : symbol_map V) us (u : series) n : WF u -> covers us u -> sorted_set (map fst m) -> pow0 vone pw m -> pow_adds vm pw Ex m -> (forall a b, Ex a -> Ex b -> Ex (a + b)) -> expos_in KS Ex u ->
  (forall v, pw v 0 = vone) -> (forall v n, pw v (Z.of_nat (S n)) = vm (pw v (Z.of_nat n)) v) ->
  lin vzero va vm h (fun ws => mono vone vm pw m us ws us) (powl KS CO us u n) = pw (Value m u) (Z.of_nat n).
Proof.
  intros W CV Hm P0 PA EA X Q0 QS. assert (L0 : mono vone vm pw m us (repeat 0 (len us)) us = vone).
  { unfold mono. assert (G : forall l, fold_right vm vone (map (factor vone pw m us (repeat 0 (len us))) l) = vone); [|apply G]. induction l as [|z l IH]; [reflexivity|]. cbn [map fold_right]. rewrite IH. unfold factor. destruct (assoc m z); [|ring].
    assert (expo us (repeat 0 (len us)) z = 0) as ->; [|rewrite Q0; ring]. clear. induction us as [|y us IH]; [reflexivity|]. cbn. destruct (String.eqb y z); auto. }
  induction n as [|n IH]; [cbn [powl lin unit_vt fst snd]; rewrite L0, hone, Q0; ring|]. cbn [powl].
  rewrite (lin_vprod CO vzero vone va vm vs vo VR h hm).
  - rewrite IH, QS, <- (value_lin KO KS CO vzero vone va vm vs vo VR (fun _ _ => UB) pw h h0 m us u) by auto. reflexivity.
  - intros e e' I J. destruct (powl_in Ex us u n (proj1 PA) EA X e I), (vt_in KS Ex us u e' (proj1 PA) X J). apply (mono_vadd CO vzero vone va vm vs vo VR (fun _ _ => UB) pw h h0 Ex); auto. apply sorted_set_nodup, CV.
Qed.
Theorem pow_value : forall (Ex : Z -> Prop) (m : symbol_map V) (x r : series) n, WF x -> sorted_set (map fst m) -> pow0 vone pw m -> pow_adds vm pw Ex m -> (forall a b, Ex a -> Ex b -> Ex (a + b)) -> expos_in KS Ex x ->
  (forall v, pw v 0 = vone) -> (forall v n, pw v (Z.of_nat (S n)) = vm (pw v (Z.of_nat n)) v) -> is_power KO KS CO x n r -> expos_in KS Ex r /\ Value m r = pw (Value m x) (Z.of_nat n).
Proof.
  intros Ex m x r n W Hm P0 PA EA X Q0 QS (Wr & I & P). assert (Hs := wf_ss _ _ _ _ W). assert (CX : covers (s_ss x) x) by (split; [exact Hs|apply incl_refl]). assert (CR : covers (s_ss x) r) by (split; auto).
  assert (SM : same CO (vt KS (s_ss x) r) (powl KS CO (s_ss x) x n)).
  { apply (same_eqb CO CL). intros a. destruct (Nat.eq_dec (len a) (len (s_ss x))) as [L|L].
    - rewrite vt_psum, <- coef_nden, (P _ _ CX L). symmetry. apply (powl_coef KS CO CL). exact L.
    - assert (Z : forall l : list (list Z * C), (forall e, In e l -> len (fst e) = len (s_ss x)) -> psum CO (fun v => vec_eqb v a) l = c_zero CO).
      { induction l as [|e l IH]; intros H; [reflexivity|]. rewrite (psum_cons CO CL), IH by (intros; apply H; right; auto). unfold vec_eqb. destruct (list_eq_dec _ _ _) as [EQ|]; [|cbn [ifP]; ring]. exfalso. apply L. rewrite <- EQ. apply H. left. reflexivity. }
      transitivity (c_zero CO); [apply Z; intros e J; apply (vt_len KS _ r e J)|symmetry; apply Z; apply powl_len]. }
  split.
  - intros k c J. assert (NZ : coef (s_ss x) r (spread (s_ss r) (s_ss x) (exps r k)) <> c_zero CO) by (apply (coef_nonzero KO KS CO KL CL); eauto). rewrite coef_nden, <- vt_psum, SM in NZ.
    assert (G : forall (v : list Z) (l : list (list Z * C)), psum CO (fun w => vec_eqb w v) l <> c_zero CO -> exists e, In e l /\ fst e = v).
    { intros v. induction l as [|e l IH]; intros H; [elim H; reflexivity|]. rewrite (psum_cons CO CL) in H. unfold vec_eqb at 1 in H. destruct (list_eq_dec Z.eq_dec (fst e) v) as [Q|Q]; [exists e; split; [left; reflexivity|exact Q]|].
      destruct IH as (e' & J' & Q'); [intros Z; apply H; rewrite Z; cbn [ifP]; ring|]. exists e'. split; [right; exact J'|exact Q']. }
    destruct (G _ _ NZ) as (e & Je & EQ). destruct (powl_in Ex _ x n (proj1 PA) EA X e Je) as [_ F]. rewrite EQ in F. assert (V' := wf_valid _ _ _ _ Wr k c J). assert (L := kl_len _ _ KL _ _ V').
    assert (ND := sorted_set_nodup _ (wf_ss _ _ _ _ Wr)). apply Forall_forall. intros y Jy. apply In_nth_error in Jy as (i & Ei). assert (Li : (i < len (s_ss r))%nat) by (rewrite <- L; apply nth_error_Some; congruence).
    destruct (nth_error (s_ss r) i) as [z|] eqn:Ez; [|apply nth_error_None in Ez; lia]. rewrite <- (expo_nth _ _ _ _ _ ND Ez Ei). apply (proj1 (Forall_forall _ _) F). unfold spread. apply in_map_iff. exists z. split; [reflexivity|]. apply I. eapply nth_error_In; eauto.
  - rewrite <- (lin_powl Ex m (s_ss x) x n) by auto. rewrite (value_lin KO KS CO vzero vone va vm vs vo VR (fun _ _ => UB) pw h h0 m (s_ss x)) by auto.
    apply (lin_ext CO vzero vone va vm vs vo VR (list_eq_dec Z.eq_dec) h h0 h1). intros a. apply SM.
Qed.
End PS.
Print Assumptions subs_scalar_exact.
Print Assumptions subs_scalar_removes.
Print Assumptions subs_scalar_value.
Print Assumptions subs_poly_value.
Print Assumptions pow_value.

(** Non-vacuity.  3 a b^2 - 2 a + 7 b at a = 5 (and c = 9, which does not occur): 15 b^2 - 10 + 7 b. *)
Definition ex_vpow (u e : Z) : res Z := Ok (u ^ e).
Example ex_subs_scalar : powers_exist exS ex_vpow Z.pow [("a", 5); ("c", 9)]%string ex_x /\
  exists r, subs_scalar exK Z_cf exP Z_tag ex_vpow ex_x [("a", 5); ("c", 9)]%string = Ok r /\ series_size r = 3%nat /\ s_ss r = ["a"; "b"]%string /\
    coef exS Z_cf ["a"; "b"]%string r [0; 2] = 15 /\ coef exS Z_cf ["a"; "b"]%string r [0; 0] = -10 /\ coef exS Z_cf ["a"; "b"]%string r [0; 1] = 7 /\ coef exS Z_cf ["a"; "b"]%string r [1; 2] = 0.
Proof.
  split; [intros z v k c _ _ _; reflexivity|]. eexists. split; [vm_compute; reflexivity|]. split; [vm_compute; reflexivity|]. split; [vm_compute; reflexivity|]. split; [vm_compute; reflexivity|]. split; [vm_compute; reflexivity|]. split; vm_compute; reflexivity.
Qed.
(** x with b replaced by x itself, with the powers computed by pow: the hypotheses of subs_poly_value hold at a = 2, b = 3, and the value is that of x at a = 2, b = x(2, 3). *)
Definition ex_ppow (u : series Z Z Z) (n : Z) : res (series Z Z Z) := if n <? 0 then Throw invalid_argument else fst (ex_pow true 1 (Z.to_nat n) [] u).
Definition ex_pt : symbol_map Z := [("a", 2); ("b", 3)]%string.
Definition ex_val (m : symbol_map Z) (s : series Z Z Z) : Z := value exS 0 1 Z.add Z.mul Z.pow (fun c => c) m s.
Definition nonneg (e : Z) : Prop := 0 <= e.
Lemma ex_adds m : pow_adds Z.mul Z.pow nonneg m.
Proof. split; [unfold nonneg; lia|]. unfold nonneg. intros z v a b _ A B. apply Z.pow_add_r; auto. Qed.
Lemma ex_x_expos : expos_in exS nonneg ex_x.
Proof.
  intros k c I. assert (G : forallb (fun e => forallb (fun a => 0 <=? a) (ks_exps exS (len (s_ss ex_x)) (fst e))) (terms ex_x) = true) by (vm_compute; reflexivity).
  rewrite forallb_forall in G. specialize (G _ I). rewrite forallb_forall in G. apply Forall_forall. intros a J. apply Z.leb_le. apply G. exact J.
Qed.
Lemma ex_ppow_good n : (exists p, ex_ppow ex_x n = Ok p /\ wf exK exS Z_cf p /\ incl (s_ss p) ["a"; "b"]%string /\ expos_in exS nonneg p /\ ex_val ex_pt p = ex_val ex_pt ex_x ^ n) \/ (exists e, ex_ppow ex_x n = Throw e).
Proof.
  unfold ex_ppow. destruct (Z.ltb_spec n 0) as [H|H]; [right; eauto|]. unfold ex_pow. set (k := Z.to_nat n).
  destruct (pow_exact exK exS Z_cf exP Z_tag exK_laws Z_cf_laws (pm_fits_nil _) [] (exE true 1) (fun c => Ok (cpower Z_cf c k)) k ex_x ltac:(constructor) (exE_ok true 1) (proj1 ex_pow_arg) (fun c => eq_refl)) as [(r & ER & P)|[[ER|ER] _]]; [|right; eauto|right; eauto].
  left. exists r. split; [exact ER|]. pose proof P as (WP & IP & _). split; [exact WP|]. destruct ex_x_wf as (W & S & _). split; [rewrite S in IP; exact IP|].
  destruct (pow_value exK exS Z_cf exK_laws Z_cf_laws 0 1 Z.add Z.mul Z.sub Z.opp (cl_ring _ Z_cf_laws) Z.pow (fun c => c) eq_refl eq_refl (fun _ _ => eq_refl) (fun _ _ => eq_refl) nonneg ex_pt ex_x r k W) as [X Vv]; auto.
  - repeat constructor.
  - intros z v _. apply Z.pow_0_r.
  - apply ex_adds.
  - unfold nonneg. intros; lia.
  - exact ex_x_expos.
  - intros v i. rewrite Nat2Z.inj_succ, Z.pow_succ_r by lia. apply Z.mul_comm.
  - split; [exact X|]. unfold ex_val. rewrite Vv. unfold k. rewrite Z2Nat.id by exact H. reflexivity.
Qed.
Example ex_subs_poly : exists r, subs_poly exK Z_cf exP Z_tag (exE true 1) ex_ppow ex_x [("b"%string, ex_x)] = Ok r /\ s_ss r = ["a"; "b"]%string /\ ex_val ex_pt r = ex_val [("a", 2); ("b", ex_val ex_pt ex_x)]%string ex_x /\ ex_val ex_pt r = 30739 /\ series_size r = 8%nat.
Proof.
  destruct ex_x_wf as (W & S & _).
  destruct (subs_poly_value exK exS Z_cf exP Z_tag exK_laws Z_cf_laws 0 1 Z.add Z.mul Z.sub Z.opp (cl_ring _ Z_cf_laws) Z.pow (fun c => c) eq_refl eq_refl (fun _ _ => eq_refl) (fun _ _ => eq_refl) (exE true 1) ex_ppow ex_x [("b"%string, ex_x)] ex_pt
     [("a", 2); ("b", ex_val ex_pt ex_x)]%string ["a"; "b"]%string nonneg (exE_ok true 1) (pm_fits_nil _)) as [(r & ER & Wr & _ & VR)|(e & ER & _)].
  - repeat constructor.
  - repeat constructor.
  - intros z v _. apply Z.pow_0_r.
  - apply ex_adds.
  - unfold nonneg. intros; lia.
  - exact ex_x_expos.
  - repeat constructor.
  - vm_compute. discriminate.
  - exact W.
  - rewrite S. apply incl_refl.
  - intros z u n [J|[]]. apply (f_equal snd) in J. unfold snd in J. rewrite <- J. apply ex_ppow_good.
  - intros z. unfold assoc, ex_pt. cbn [find fst snd]. destruct (String.eqb_spec "a" z) as [<-|N1]; [reflexivity|]. destruct (String.eqb_spec "b" z) as [<-|N2]; reflexivity.
  - exists r. split; [exact ER|]. change (value exS 0 1 Z.add Z.mul Z.pow (fun c => c)) with ex_val in VR. split; [|split; [exact VR|split]].
    + enough (X : (r0 <- subs_poly exK Z_cf exP Z_tag (exE true 1) ex_ppow ex_x [("b"%string, ex_x)] ;; Ok (s_ss r0)) = Ok ["a"; "b"]%string) by (rewrite ER in X; cbn in X; congruence). vm_compute. reflexivity.
    + rewrite VR. vm_compute. reflexivity.
    + enough (X : (r0 <- subs_poly exK Z_cf exP Z_tag (exE true 1) ex_ppow ex_x [("b"%string, ex_x)] ;; Ok (series_size r0)) = Ok 8%nat) by (rewrite ER in X; cbn in X; congruence). vm_compute. reflexivity.
  - exfalso. enough (X : is_ok (subs_poly exK Z_cf exP Z_tag (exE true 1) ex_ppow ex_x [("b"%string, ex_x)]) = true) by (rewrite ER in X; discriminate). vm_compute. reflexivity.
Qed.
(** The hypotheses of evaluate_multiplicative hold for the integers. *)
Example ex_evaluate_mul : exists r, poly_mul exK Z_cf exP Z_tag (exE true 1) ex_x ex_x = Ok r /\ pow_adds Z.mul Z.pow nonneg ex_pt /\ expos_in exS nonneg ex_x /\ ex_val ex_pt r = ex_val ex_pt ex_x * ex_val ex_pt ex_x /\ ex_val ex_pt r = 5041.
Proof. eexists. split; [vm_compute; reflexivity|]. split; [apply ex_adds|]. split; [apply ex_x_expos|]. split; vm_compute; reflexivity. Qed.
