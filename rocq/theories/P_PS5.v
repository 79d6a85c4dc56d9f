(** C53, C46: integrals of power series with integer coefficients; the hash of power series.  Vocabulary: PSSpec.v, CalcSpec.v, SeriesSpec.v. *)
From Coq Require Import ZArith List Bool String Arith Sorted Permutation Lia.
From Verif Require Import Base KpackModel IntModel IntSpec SymModel SymSpec SymProofs P_Sym PMonSpec KeyOps KeyInst
  SeriesModel SeriesModel2 SeriesSpec SeriesProofs SeriesProofs2 SeriesProofs3 EvalSpec CfInst P_Series P_Series2
  PolyModel PolyModel2 PolySpec P_Poly P_Poly2 P_Pow CalcSpec DiffProofs IntegProofs P_Calc P_Integ2 PSModel PSSpec PSProofs P_PS P_PS3 P_PS4.
Import ListNotations.
Open Scope Z_scope.
Open Scope res_scope.
Local Notation len := List.length.

Section PS5.
Context {K : Type} (KO : key_ops K) (KS : key_sem K) (PO : tbl_policy (K * Z)) (tD : ity).
Context (KL : key_laws KO KS) (HT : integral_type tD) (DI : degrees_in KS tD).
Notation series := (series K Z trunc_t).
Notation WF := (wf KO KS Z_cf).
Notation coef := (coef KS Z_cf).
(** C53. With integer coefficients the terms of the integral that are within the truncation are those of the polynomial case (C83): divided by e + 1 and rounded towards zero. *)
Theorem ps_int_integrate_exact : forall (x : series) s, WF x -> trunc_ok tD (s_tag x) ->
  let out := ps_integrate KO Z_cf PO tD int_div x s in
  let t := s_tag x in
  exists u, with_symbol (s_ss x) s u /\
  ((exists r, out = Ok r /\ WF r /\ s_ss r = u /\ s_tag r = t /\ respects KS r /\ ~ integ_domain KS x s /\ ~ integ_unrep KS u x s /\
      forall us ws, sorted_set us -> incl u us -> len ws = len us ->
        (expo us ws s <> -1 -> coef us r (bump us s 1 ws) = if within t us (bump us s 1 ws) then Z.quot (coef us x ws) (expo us ws s + 1) else 0) /\
        (expo us ws s = 0 \/ within t us ws = false -> coef us r ws = 0)) \/
   (out = Throw domain_error /\ integ_domain KS x s) \/
   (key_overflow out /\
    (unrep KS u x \/ integ_unrep KS u x s \/ full (s_log2 x) (len (terms x)) \/
     exists i, poly_integrate KO Z_cf PO ps_tag_ops int_div x s = Ok i /\ degree_lost KS t i))).
Proof.
  intros x s W TK out t. destruct (ps_integrate_truncates KO KS Z_cf PO tD KL Z_cf_laws HT DI int_div int_div_total x s W TK) as (u & WS & H). cbv zeta in H. fold out t in H. exists u. split; [exact WS|].
  destruct H as [(i & r & EI & ER & WR & SR & TR & RR & ND & NU & D)|H]; [left|right; exact H]. exists r. split; [exact ER|]. split; [exact WR|]. split; [exact SR|]. split; [exact TR|]. split; [exact RR|]. split; [exact ND|]. split; [exact NU|].
  intros us ws SU IU L. destruct (int_integrate_exact KO KS PO ps_tag_ops KL x s W) as (u' & WS' & [(i' & EI' & _ & _ & _ & _ & _ & D')|[[E _]|[[E|E] _]]]); rewrite EI in *; try discriminate.
  assert (i' = i) by congruence. subst i'. assert (IU' : incl u' us) by (intros z I; apply IU, WS, WS', I). destruct (D' us ws SU IU' L) as [D1 D2]. rewrite !D by auto. change (c_zero Z_cf) with 0. split.
  - intros N. destruct (within t us (bump us s 1 ws)); [apply D1; exact N|reflexivity].
  - intros [Z0|O]; [destruct (within t us ws); [apply D2; exact Z0|reflexivity]|rewrite O; reflexivity].
Qed.
End PS5.

(** C46. Equal truncations have the same hash, so identical power series have the same hash: the cache of powers, which looks series up by hash, finds every identical power series. *)
Theorem equal_truncations_same_hash : forall (hz : Z -> Z) (hss : symbol_set -> Z) (a b : trunc_t), trunc_eqb a b = true -> trunc_hash hz hss a = trunc_hash hz hss b.
Proof.
  intros hz hss [|d|d s] [|e|e u]; cbn [trunc_eqb trunc_hash]; try discriminate; auto.
  - intros E. apply Z.eqb_eq in E. congruence.
  - intros E. apply andb_true_iff in E as [E1 E2]. apply Z.eqb_eq in E1. apply ss_eqb_iff in E2. congruence.
Qed.
Theorem ps_identical_same_hash : forall {K C} (KO : key_ops K) (KS : key_sem K) (CO : cf_ops C) (hz : Z -> Z) (hss : symbol_set -> Z) (x y : series K C trunc_t),
  key_laws KO KS -> cf_laws CO -> wf KO KS CO x -> wf KO KS CO y ->
  series_are_identical KO CO ps_tag_ops x y = Ok true -> cache_hash KO (trunc_hash hz hss) x = cache_hash KO (trunc_hash hz hss) y.
Proof.
  intros K C KO KS CO hz hss x y KL CL Wx Wy. apply (identical_same_hash KO KS CO ps_tag_ops KL CL _ x y Wx Wy). intros a b. apply equal_truncations_same_hash.
Qed.
Print Assumptions ps_int_integrate_exact.
Print Assumptions equal_truncations_same_hash.
Print Assumptions ps_identical_same_hash.

(** 1 + 2 a - 3 b + 5 a b with truncation 2: in the integral in a, the terms a^2 b is dropped, and -3 a b, a, 2/2 a^2 are kept; the hashes of two layouts. *)
Definition ps5_i := ps_integrate exK Z_cf (po_front _) (Ity 64 true) int_div ps_x "a".
Example ex_ps_int_integrate : exists r, ps5_i = Ok r /\ s_tag ps_x = total_truncation 2 /\ series_size r = 3%nat /\ coef exS Z_cf ["a"; "b"]%string r [2; 0] = 1 /\ coef exS Z_cf ["a"; "b"]%string r [1; 1] = -3 /\ coef exS Z_cf ["a"; "b"]%string r [2; 1] = 0.
Proof. eexists. do 5 (split; [vm_compute; reflexivity|]). vm_compute; reflexivity. Qed.
Definition ps5_y := psb (total_truncation 2) ["a"; "b"]%string 0 [([1; 1], 5); ([0; 1], -3); ([1; 0], 2); ([0; 0], 1)].
Example ex_ps_hash : series_are_identical exK Z_cf ps_tag_ops ps_x ps5_y = Ok true /\ terms ps_x <> terms ps5_y /\ trunc_hash (fun z => 3 * z) (fun s => Z.of_nat (len s)) (partial_truncation 5 ["a"; "b"]%string) = 17.
Proof. split; [vm_compute; reflexivity|]. split; [|vm_compute; reflexivity]. vm_compute. discriminate. Qed.
