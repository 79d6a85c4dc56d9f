(** Properties C53, C60: derivatives and integrals of power series, generators; examples and instances for power series.
    Vocabulary: PSSpec.v, CalcSpec.v ([bump]), SeriesSpec.v ([coef]). *)
From Coq Require Import ZArith List Bool String Arith Sorted Permutation Lia Ring Ring_theory QArith QArith.Qcanon.
From Verif Require Import Base KpackModel KpackSpec KpackProofs P_Kpack IntModel IntSpec IntProofs P_Int SymModel SymSpec SymProofs P_Sym PMonModel PMonSpec PMonProofs PMonProofs2 P_PMon
  DPMModel DPMSpec DPMProofs DPMProofs2 DPMProofs3 P_DPM KeyOps KeyInst
  SeriesModel SeriesModel2 SeriesSpec SeriesProofs SeriesProofs2 SeriesProofs3 SeriesProofs4 SeriesProofs5 SeriesProofs6 Lin EvalSpec SeriesEval SeriesProofs7 CfInst P_Series P_Series2
  PolyModel PolyModel2 PolySpec PolyProofs7 PolyProofs8 PolyProofs9 P_Poly P_Poly2 PowProofs PowProofs2 P_Pow CalcSpec DiffProofs IntegProofs P_Calc PSModel PSSpec PSProofs P_PS PSPow P_PS2.
Import ListNotations.
Open Scope Z_scope.
Open Scope res_scope.
Local Notation len := List.length.

Lemma degree_bump sel s n : forall us ws, 0 <= n -> len ws = len us -> degree_of sel us ws <= degree_of sel us (bump us s n ws).
Proof.
  intros us ws N. revert ws. induction us as [|z us IH]; intros [|w ws] L; try discriminate L; [cbn; lia|]. injection L as L. specialize (IH ws L). unfold degree_of, selected, bump in *. cbn [combine map filter fst snd].
  destruct (sel z); cbn [map vsum snd]; [|exact IH]. unfold vsum in *. cbn [fold_right]. destruct (String.eqb z s); lia.
Qed.
Lemma within_bump t s us ws : len ws = len us -> within t us (bump us s 1 ws) = true -> within t us ws = true.
Proof.
  intros L. destruct t as [|d|d v]; cbn [within]; auto; intros H; apply Z.leb_le in H; apply Z.leb_le.
  - pose proof (degree_bump all_symbols s 1 us ws ltac:(lia) L). lia.
  - pose proof (degree_bump (one_of v) s 1 us ws ltac:(lia) L). lia.
Qed.

Section PS3.
Context {K C : Type} (KO : key_ops K) (KS : key_sem K) (CO : cf_ops C) (PO : tbl_policy (K * C)) (tD : ity).
Context (KL : key_laws KO KS) (CL : cf_laws CO) (HT : integral_type tD) (DI : degrees_in KS tD).
Notation series := (series K C trunc_t).
Notation WF := (wf KO KS CO).
Notation TO := ps_tag_ops.
Notation coef := (coef KS CO).
Notation exps s k := (ks_exps KS (List.length (s_ss s)) k).
Notation "0c" := (c_zero CO).
Infix "*c" := (c_mul CO) (at level 40, left associativity).
Add Ring CringP3 : (cl_ring _ CL).
Context (cz : Z -> C) (CZ : int_embedding CO cz).

(** C53. The derivative of a power series is that of the polynomial of its terms, with the same truncation; if the terms of x are within its truncation so are those of the derivative. *)
Theorem ps_diff_exact : forall (x : series) s, WF x ->
  (exists r, ps_diff KO CO PO cz x s = Ok r /\ WF r /\ s_ss r = s_ss x /\ s_tag r = s_tag x /\ (~ In s (s_ss x) -> terms r = []) /\ (respects KS x -> respects KS r) /\
     forall us ws, covers us x -> In s us -> len ws = len us -> coef us r ws = cz (expo us ws s + 1) *c coef us x (bump us s 1 ws)) \/
  (ps_diff KO CO PO cz x s = Throw overflow_error /\ (diff_unrep KS x s \/ full (s_log2 x) (2 * len (terms x)))).
Proof.
  intros x s W. unfold ps_diff. destruct (diff_exact KO KS CO PO TO KL CL cz CZ x s W) as [(r & ER & WR & SR & TR & NI & D)|H]; [left|right; exact H].
  exists r. split; [exact ER|]. split; [exact WR|]. split; [exact SR|]. split; [exact TR|]. split; [exact NI|]. split; [|exact D].
  intros RX k c I. assert (SX := wf_ss _ _ _ _ W). assert (CX : covers (s_ss x) x) by (split; [exact SX|apply incl_refl]). assert (CR : covers (s_ss x) r) by (split; [exact SX|rewrite SR; apply incl_refl]).
  destruct (in_dec string_dec s (s_ss x)) as [IS|N]; [|rewrite NI in I by exact N; destruct I].
  assert (LK : len (exps r k) = len (s_ss x)) by (rewrite <- SR; apply (kl_len _ _ KL); eapply wf_valid; eauto).
  assert (NZ : coef (s_ss x) x (bump (s_ss x) s 1 (exps r k)) <> 0c).
  { intros Z0. apply (wf_nonzero _ _ _ _ WR k c I). rewrite <- (coef_term KO KS CO KL CL (s_ss x) r k c WR CR I). rewrite (f_equal (fun z => spread z (s_ss x) (exps r k)) SR), spread_self by (try (apply sorted_set_nodup; exact SX); exact LK).
    rewrite (D (s_ss x) _ CX IS LK), Z0. ring. }
  apply (coef_nonzero KO KS CO KL CL (s_ss x) x _ W CX) in NZ as (k' & c' & I' & EQ). specialize (RX k' c' I'). rewrite spread_self in EQ by (try (apply sorted_set_nodup; exact SX); apply (kl_len _ _ KL); eapply wf_valid; eauto).
  rewrite EQ in RX. rewrite TR, (f_equal (fun z => within (s_tag x) z (exps r k)) SR). eapply within_bump; eauto.
Qed.

(** C53. The integral of a power series is the truncation of the integral of the polynomial of its terms, whatever the division of coefficients is (C45, C83). *)
Theorem ps_integrate_truncates : forall (cdiv : C -> Z -> res C), total_division cdiv -> forall (x : series) s, WF x -> trunc_ok tD (s_tag x) ->
  let out := ps_integrate KO CO PO tD cdiv x s in
  let t := s_tag x in
  exists u, with_symbol (s_ss x) s u /\
  ((exists i r, poly_integrate KO CO PO TO cdiv x s = Ok i /\ out = Ok r /\ WF r /\ s_ss r = u /\ s_tag r = t /\ respects KS r /\ ~ integ_domain KS x s /\ ~ integ_unrep KS u x s /\
      forall us ws, sorted_set us -> incl u us -> coef us r ws = if within t us ws then coef us i ws else 0c) \/
   (out = Throw domain_error /\ integ_domain KS x s) \/
   (key_overflow out /\
    (unrep KS u x \/ integ_unrep KS u x s \/ full (s_log2 x) (len (terms x)) \/
     exists i, poly_integrate KO CO PO TO cdiv x s = Ok i /\ degree_lost KS t i))).
Proof.
  intros cdiv TD x s W TK out t. destruct (integ_ok KO KS CO PO TO KL CL cdiv TD x s W) as (u & WS & H). exists u. split; [exact WS|]. unfold out, ps_integrate.
  destruct H as [(i & EI & WI & SI & TI & _ & ND & NU & _)|[[EI H]|[KV H]]].
  - rewrite EI. cbn [bind]. destruct (truncate_ok KO KS CO tD KL HT DI t i WI TK TI) as [(r & ER & WR & SR & TR & LR & FT & _)|[ER DL]]; rewrite ER.
    + left. exists i, r. split; [reflexivity|]. split; [reflexivity|]. split; [exact WR|]. split; [congruence|]. split; [exact TR|]. split; [exact (kept_respects KS _ i r SR TR FT)|]. split; [exact ND|]. split; [exact NU|].
      intros us ws SU IU. assert (CI : covers us i) by (split; [exact SU|rewrite SI; exact IU]). exact (kept_coef KO KS CO KL CL t us i r _ CI WI SR FT).
    + right. right. split; [left; reflexivity|]. right. right. right. exists i. auto.
  - right. left. rewrite EI. auto.
  - right. right. split; [destruct KV as [->| ->]; [left|right]; reflexivity|]. tauto.
Qed.

Context (cdiv : C -> Z -> res C) (CD : exact_division CO cz cdiv).
(** C53. The integral of a power series is the truncation of the exact integral (C45): the terms beyond the truncation are dropped, the others are exact. *)
Theorem ps_integrate_exact : forall (x : series) s, WF x -> trunc_ok tD (s_tag x) ->
  let out := ps_integrate KO CO PO tD cdiv x s in
  let t := s_tag x in
  exists u, with_symbol (s_ss x) s u /\
  ((exists r, out = Ok r /\ WF r /\ s_ss r = u /\ s_tag r = t /\ respects KS r /\ ~ integ_domain KS x s /\ ~ integ_unrep KS u x s /\
      forall us ws, sorted_set us -> incl u us -> len ws = len us ->
        (expo us ws s <> -1 -> within t us (bump us s 1 ws) = true -> coef us r (bump us s 1 ws) *c cz (expo us ws s + 1) = coef us x ws) /\
        (expo us ws s = 0 \/ within t us ws = false -> coef us r ws = 0c)) \/
   (out = Throw domain_error /\ integ_domain KS x s) \/
   (key_overflow out /\
    (unrep KS u x \/ integ_unrep KS u x s \/ full (s_log2 x) (len (terms x)) \/
     exists i, poly_integrate KO CO PO TO cdiv x s = Ok i /\ degree_lost KS t i))).
Proof.
  intros x s W TK out t. destruct (integrate_exact KO KS CO PO TO KL CL cz cdiv CD x s W) as (u & WS & H). exists u. split; [exact WS|]. unfold out, ps_integrate.
  destruct H as [(i & EI & WI & SI & TI & ND & NU & D)|[[EI H]|[KV H]]].
  - rewrite EI. cbn [bind]. destruct (truncate_ok KO KS CO tD KL HT DI t i WI TK TI) as [(r & ER & WR & SR & TR & LR & FT & _)|[ER DL]]; rewrite ER.
    + left. exists r. split; [reflexivity|]. split; [exact WR|]. split; [congruence|]. split; [exact TR|]. split; [exact (kept_respects KS _ i r SR TR FT)|]. split; [exact ND|]. split; [exact NU|].
      intros us ws SU IU L. assert (CI : covers us i) by (split; [exact SU|rewrite SI; exact IU]). destruct (D us ws SU IU L) as [D1 D2].
      split.
      * intros NE IN. rewrite (kept_coef KO KS CO KL CL t us i r _ CI WI SR FT), IN. apply D1. exact NE.
      * intros [Z0|OUT]; rewrite (kept_coef KO KS CO KL CL t us i r _ CI WI SR FT); [rewrite D2 by exact Z0; destruct (within t us ws); reflexivity|rewrite OUT; reflexivity].
    + right. right. split; [left; reflexivity|]. right. right. right. exists i. auto.
  - right. left. rewrite EI. auto.
  - right. right. split; [destruct KV as [->| ->]; [left|right]; reflexivity|]. tauto.
Qed.
End PS3.
