(** Powers of power series, through the cache. *)
From Coq Require Import ZArith List Bool String Arith Sorted Permutation Lia Ring Ring_theory.
From Verif Require Import Base KpackModel KpackSpec KpackProofs P_Kpack IntModel IntSpec IntProofs SymModel SymSpec SymProofs P_Sym PMonSpec KeyOps
  SeriesModel SeriesModel2 SeriesSpec SeriesProofs SeriesProofs2 SeriesProofs3 SeriesProofs4 SeriesProofs5 SeriesProofs6 Lin EvalSpec SeriesEval SeriesProofs7 P_Series P_Series2
  PolyModel PolyModel2 PolySpec PolyProofs7 PolyProofs8 PolyProofs9 P_Poly P_Poly2 PowProofs PowProofs2 P_Pow PSModel PSSpec PSProofs P_PS.
Import ListNotations.
Open Scope Z_scope.
Open Scope res_scope.
Local Notation len := List.length.

Lemma degree_minus sel u ws e : len ws = len u -> len e = len u -> degree_of sel u (vminus ws e) = degree_of sel u ws - degree_of sel u e.
Proof.
  unfold degree_of, selected, vminus. revert ws e. induction u as [|y u IH]; intros [|a ws] [|b e] L1 L2; try discriminate; [reflexivity|]. cbn [combine map filter fst snd].
  assert (X := IH ws e ltac:(cbn in *; lia) ltac:(cbn in *; lia)). destruct (sel y); cbn [map snd]; [|exact X]. unfold vsum in *. cbn [fold_right]. rewrite X. lia.
Qed.

Section PSPow.
Context {K C : Type} (KO : key_ops K) (KS : key_sem K) (CO : cf_ops C) (PO : tbl_policy (K * C)) (tD : ity).
Context (KL : key_laws KO KS) (CL : cf_laws CO) (HT : integral_type tD) (DI : degrees_in KS tD) (HP : promote tD = tD) (F0 : ks_fits KS []).
Notation series := (series K C trunc_t).
Notation WF := (wf KO KS CO).
Notation TO := ps_tag_ops.
Notation coef := (coef KS CO).
Notation tcoef := (truncated_power_coef KS CO).
Notation exps s k := (ks_exps KS (List.length (s_ss s)) k).
Notation "0c" := (c_zero CO).
Infix "+c" := (c_add CO) (at level 50, left associativity).
Infix "*c" := (c_mul CO) (at level 40, left associativity).
Add Ring CringPSP : (cl_ring _ CL).

Lemma csum_permute (l l' : list C) : Permutation l l' -> csum CO l = csum CO l'.
Proof. apply (csum_perm CO CL). Qed.
Lemma csum_zero (l : list C) : (forall c, In c l -> c = 0c) -> csum CO l = 0c.
Proof. induction l as [|c l IH]; intros H; [reflexivity|]. cbn. rewrite (H c (or_introl eq_refl)). unfold csum in IH. rewrite IH by (intros; apply H; right; auto). ring. Qed.

Lemma prod_coef_minus us (r b : series) ws : len ws = len us ->
  prod_coef KS CO us r b ws = csum CO (map (fun e => snd e *c coef us r (vminus ws (spread (s_ss b) us (exps b (fst e))))) (terms b)).
Proof.
  intros L. assert (PV : prod_coef KS CO us r b ws = psum CO (fun v => vec_eqb v ws) (vprod CO (vt KS us r) (vt KS us b))) by (rewrite psum_vprod; symmetry; apply bil_prod_coef).
  rewrite PV, (same_swap CO CL), (psum_vprod_minus CO CL) by (intros e I; rewrite L; apply (vt_len KS _ _ e I)). unfold vt at 2. rewrite map_map. f_equal. apply map_ext. intros e. cbn [fst snd]. f_equal. rewrite coef_nden, <- vt_psum. reflexivity.
Qed.

(** The series whose powers are taken: the sum of two degrees of terms never leaves the degree type (see [pm_ps_arg], [dpm_ps_arg]). *)
Definition ps_arg (x : series) : Prop :=
  WF x /\ Z.of_nat (len (s_ss x) + len (s_ss x)) <= imax size_t /\ trunc_ok tD (s_tag x) /\
  (s_tag x <> no_truncation -> forall u, sums_fit KS tD (counted (s_tag x)) u).
Definition same_ps (a b : series) : Prop := s_ss a = s_ss b /\ Permutation (terms a) (terms b) /\ s_tag a = s_tag b.
Lemma same_ps_sym a b : same_ps a b -> same_ps b a.
Proof. intros (A & B & D). split; [auto|]. split; [apply Permutation_sym; exact B|auto]. Qed.

(** r is the i-th power of b with truncated multiplications. *)
Definition is_tpow (b : series) (i : nat) (r : series) : Prop :=
  WF r /\ s_ss r = (match i with O => [] | S _ => s_ss b end) /\ s_tag r = (match i with O => no_truncation | S _ => s_tag b end) /\
  forall us ws, covers us b -> len ws = len us -> coef us r ws = tcoef (s_tag b) us b i ws.

Lemma tcoef_same (a b : series) t us : same_ps a b -> forall i ws, tcoef t us a i ws = tcoef t us b i ws.
Proof.
  intros (ES & P & _). induction i as [|i IH]; intros ws; [reflexivity|]. cbn [truncated_power_coef]. destruct (within t us ws); [|reflexivity]. rewrite ES. 
  etransitivity; [apply csum_permute, Permutation_map; exact P|]. f_equal. apply map_ext. intros e. rewrite IH. reflexivity.
Qed.
Lemma is_tpow_same a b i r : same_ps a b -> is_tpow a i r -> is_tpow b i r.
Proof.
  intros S (W & A & B & D). pose proof S as (E1 & E2 & E3). split; [exact W|]. split; [destruct i; congruence|]. split; [destruct i; congruence|]. intros us ws CV L. rewrite <- (tcoef_same a b) by exact S. rewrite <- E3. apply D; auto. unfold covers in *. rewrite E1. exact CV.
Qed.
Lemma ident_ps a b : ps_arg a -> ps_arg b -> exists t, series_are_identical KO CO TO a b = Ok t /\ (t = true -> same_ps a b).
Proof.
  intros (Wa & _) (Wb & _). unfold series_are_identical. destruct (ss_eqb (s_ss a) (s_ss b)) eqn:ES; [|exists false; split; [reflexivity|discriminate]].
  apply ss_eqb_iff in ES. destruct (cmp_ok KO KS CO TO KL CL a b Wa Wb ES) as (r & ER & TG & P). exists r. split; [exact ER|]. intros R. split; [exact ES|]. split; [auto|].
  apply TG in R as [R _]. apply trunc_eqb_iff. exact R.
Qed.
Lemma one_tpow : exists o, series_of_cf KO CO PO TO (c_one CO) [] = Ok o /\ forall b, ps_arg b -> is_tpow b 0 o.
Proof.
  destruct (of_cf_ok KO KS CO PO TO KL CL (c_one CO) [] ltac:(constructor) F0) as (o & E & W & ES & ET & _ & EE). exists o. split; [exact E|]. intros b G.
  split; [exact W|]. split; [exact ES|]. split; [exact ET|]. intros us ws _ L. destruct (c_is_zero CO (c_one CO)) eqn:Z; [apply (cl_zero _ CL) in Z; elim (cl_one _ CL Z)|].
  rewrite coef_nden, <- vt_psum, (one_vt KO KS CO KL F0 us o (c_one CO) W ES EE), (psum_cons CO CL). cbn [fst snd truncated_power_coef]. change (psum CO _ []) with 0c. unfold vec_eqb. destruct (list_eq_dec _ _ _), (list_eq_dec _ _ _); try congruence; cbn [ifP]; ring.
Qed.

Section E.
Variable E : mul_env K C trunc_t.
Hypothesis EO : env_ok KO KS E.
Notation mul := (ps_mul KO CO PO E tD).

Lemma tpow_step b i r : ps_arg b -> is_tpow b i r ->
  (exists r', mul r b = Ok r' /\ is_tpow b (S i) r') \/
  (key_overflow (mul r b) /\ (unrepresentable KS (s_ss b) r b \/ capacity r b \/ (s_tag b <> no_truncation /\ (degree_unrep KS (counted (s_tag b)) (s_ss b) r \/ degree_unrep KS (counted (s_tag b)) (s_ss b) b)))).
Proof.
  intros (Wb & B & TK & SF) (Wr & ER & TR & H).
  assert (B' : Z.of_nat (len (s_ss r) + len (s_ss b)) <= imax size_t) by (rewrite ER; destruct i; cbn [List.length]; lia).
  assert (TKr : trunc_ok tD (s_tag r)) by (rewrite TR; destruct i; [exact I|exact TK]).
  assert (J : joint (s_tag r) (s_tag b) (s_tag b)) by (rewrite TR; destruct i; [right; left; auto|left; auto]).
  destruct (ps_mul_exact KO KS CO PO tD KL CL HT HP E r b EO Wr Wb TKr TK B') as [_ M]. destruct (M (s_tag b) J (fun u _ N => SF N u)) as (u & U & MH).
  assert (ES : u = s_ss b). { destruct U as [SU U]. apply sorted_ext; [exact SU|apply (wf_ss _ _ _ _ Wb)|]. intros z. rewrite U, ER. destruct i; cbn; tauto. } subst u.
  destruct MH as [(r' & EM & Wr' & SR & TR' & _ & _ & D)|MH]; [left|right; exact MH]. exists r'. split; [exact EM|]. split; [exact Wr'|]. split; [exact SR|]. split; [exact TR'|].
  intros us ws CV L. pose proof CV as [SU IU]. rewrite D by auto. cbn [truncated_power_coef]. destruct (within (s_tag b) us ws); [|reflexivity]. rewrite prod_coef_minus by exact L. f_equal. apply map_ext. intros e. f_equal. apply H; [exact CV|]. rewrite vminus_len; [exact L|]. rewrite spread_len. exact L.
Qed.
Lemma tpow_mul_ok : mul_ok ps_arg is_tpow mul.
Proof. intros b i r r' G P M. destruct (tpow_step b i r G P) as [(r'' & M' & P')|[[X|X] _]]; congruence. Qed.

Definition tcok := cache_ok ps_arg is_tpow.
Lemma cache_tpow (m : @pow_cache K C trunc_t) x n : tcok m -> ps_arg x ->
  tcok (snd (series_pow_from_cache KO CO PO TO mul m x n)) /\
  let out := fst (series_pow_from_cache KO CO PO TO mul m x n) in
  ((exists r, out = Ok r /\ is_tpow x n r) \/
   (key_overflow out /\ exists i x' y, (i < n)%nat /\ (x' = x \/ ps_arg x' /\ same_ps x' x) /\ is_tpow x i y /\ mul y x' = out)).
Proof.
  intros OK G. pose proof (pow_from_cache_ok KO CO PO TO ps_arg same_ps is_tpow ident_ps (fun a b i r _ _ => is_tpow_same a b i r) (fun a b i r _ _ S => is_tpow_same b a i r (same_ps_sym _ _ S)) one_tpow mul m x n tpow_mul_ok OK G) as H.
  destruct (series_pow_from_cache KO CO PO TO mul m x n) as [out m']. cbn [fst snd]. destruct H as [H1 H2]. split; [exact H1|]. destruct H2 as [H2|(b & i & r & Gb & Sb & Pr & Li & HF)]; [left; exact H2|right].
  assert (EM : mul r b = out) by (destruct HF as [(e & M & ->)|[M ->]]; exact M). split.
  - destruct (tpow_step b i r Gb Pr) as [(r' & M & _)|[KV _]]; [exfalso; destruct HF as [(e & X & _)|[X _]]; congruence|]. rewrite <- EM. exact KV.
  - exists i, b, r. split; [exact Li|]. destruct Sb as [->|Sb]; [auto|]. split; [right; auto|]. split; [eapply is_tpow_same; eauto|exact EM].
Qed.
End E.

(** With no negative degrees, truncating every product gives the truncated power. *)
Lemma tcoef_power (x : series) us : WF x -> covers us x -> no_negative KS (s_tag x) x ->
  forall n ws, len ws = len us -> within (s_tag x) us ws = true -> tcoef (s_tag x) us x n ws = power_coef KS CO us x n ws.
Proof.
  intros W [SU IU] NN. induction n as [|n IH]; intros ws L IN; [reflexivity|]. cbn [truncated_power_coef power_coef]. rewrite IN. f_equal. apply map_ext_in. intros [k c] I. cbn [fst snd]. f_equal.
  assert (V := wf_valid _ _ _ _ W k c I). assert (LV := kl_len _ _ KL _ _ V). apply IH; [rewrite vminus_len; [exact L|rewrite spread_len; exact L]|].
  assert (DS : forall sel, degree_of sel us (spread (s_ss x) us (exps x k)) = degree_of sel (s_ss x) (exps x k)) by (intros sel; apply degree_spread; auto; apply sorted_set_nodup; auto; apply (wf_ss _ _ _ _ W)).
  destruct NN as [E|NN]; [rewrite E; reflexivity|]. specialize (NN k c I). destruct (s_tag x) as [|d|d s]; cbn [within counted] in *; [reflexivity| |];
    rewrite degree_minus by (try exact L; apply spread_len); rewrite DS; apply Z.leb_le; apply Z.leb_le in IN; lia.
Qed.
End PSPow.
