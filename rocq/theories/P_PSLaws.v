(** Property C108: truncated power series that agree within the truncation may replace each other, and the laws of calculation within a truncation.  Vocabulary: ExprSpec.v ([expr], [denotes], [total]), PSSpec.v
    ([within], [counted]), PSLawSpec.v ([alike]: one program comes from the other by replacing parts by parts that agree within the truncation; [order_at_least], [taylor]), P_PSExpr.v ([ps_computes]: the runs of a
    program; [ps_proper]). *)
From Coq Require Import ZArith List Bool String Arith Sorted Permutation Lia Ring Ring_theory.
From Verif Require Import Base KpackModel KpackSpec IntModel IntSpec SymModel SymSpec SymProofs P_Sym PMonModel PMonSpec KeyOps KeyInst
  SeriesModel SeriesModel2 SeriesSpec SeriesProofs SeriesProofs2 SeriesProofs3 SeriesProofs4 SeriesProofs5 SeriesProofs6 Lin EvalSpec SeriesEval SeriesProofs7 CfInst P_Series P_Series2
  PolyModel PolyModel2 PolySpec PolyProofs7 PolyProofs8 PolyProofs9 P_Poly P_Poly2 CalcSpec DiffProofs P_Calc PSModel PSSpec PSProofs PowProofs PowProofs2 P_PS P_PS2 P_PS3 P_PS4 PSPow SubsSpec SubsProofs P_Subs PSSubs P_PS9 ExprSpec P_PSExpr LawSpec PSLawSpec.
From Verif Require P_Expr P_Laws IntegProofs.
Import ListNotations.
Open Scope Z_scope.
Open Scope res_scope.
Local Notation len := List.length.

Section PSL.
Context {K C : Type} (KO : key_ops K) (KS : key_sem K) (CO : cf_ops C) (PO : tbl_policy (K * C)) (tD : ity).
Context (KL : key_laws KO KS) (CL : cf_laws CO) (HT : integral_type tD) (DI : degrees_in KS tD) (HP : promote tD = tD).
Context (cz : Z -> C) (pw : C -> Z -> C).
Notation series := (series K C trunc_t).
Notation WF := (wf KO KS CO).
Notation TO := ps_tag_ops.
Notation coef := (coef KS CO).
Notation exps s k := (ks_exps KS (List.length (s_ss s)) k).
Notation "0c" := (c_zero CO).
Notation "1c" := (c_one CO).
Infix "+c" := (c_add CO) (at level 50, left associativity).
Infix "*c" := (c_mul CO) (at level 40, left associativity).
Add Ring CringPSL : (cl_ring _ CL).
Notation vterm := (list Z * C)%type.
Notation vt := (vt KS).
Notation expr := (@expr K C trunc_t).
Notation total := (total CO).
Notation same := (same CO).
Context (t : trunc_t) (us : symbol_set) (SU : sorted_set us) (BU : 2 * Z.of_nat (len us) <= imax size_t) (ZF : forall n, (n <= len us)%nat -> ks_fits KS (repeat 0 n)).
Notation denotes := (denotes KS CO cz pw us).
Notation proper := (ps_proper KO KS CO t us).
Notation computes := (ps_computes KO KS CO PO tD t).
Notation nn := (@PSSubs.nn C t us).
Notation upto := (PSSubs.upto CO t us).
Notation "a ~ b" := (alike KS CO cz pw us t proper a b) (at level 70).
Let NU : NoDup us := sorted_set_nodup us SU.

(** The denotation of a program on power series without negative degrees has none. *)
Lemma proper_nn (e : expr) : proper e -> nn (denotes e).
Proof.
  induction e as [x|c|sign a IHa b IHb|sign a IHa b IHb|a IHa|a IHa c|onleft sign a IHa c|a IHa b IHb|a IHa n|a IHa s|a IHa|a IHa ss|a IHa lim|a IHa lim syms|a IHa sm]; cbn [ps_proper ExprSpec.denotes]; intros P; try contradiction.
  - destruct P as (W & I & T & R & N). assert (CV : covers us x) by (split; auto). exact (nn_vt KO KS CO KL t us x W CV N).
  - apply nn_const.
  - destruct P. apply (nn_sum CO t us); auto.
  - destruct P. apply (nn_sum CO t us); auto.
  - apply nn_neg; auto.
  - apply nn_mul; auto. apply nn_const.
  - destruct onleft; apply (nn_sum CO t us); auto; apply nn_const.
  - destruct P. apply nn_mul; auto.
  - apply nn_pow; auto.
  - auto.
  - apply IHa, P.
Qed.
Lemma agree_upto (a b : expr) : proper a -> proper b -> (agree_within KS CO cz pw us t a b <-> upto (denotes a) (denotes b)).
Proof.
  intros Pa Pb. split; [intros H ws _ WI; exact (H ws WI)|]. intros H ws WI. destruct (Nat.eq_dec (len ws) (len us)) as [L|L]; [exact (H ws L WI)|].
  unfold ExprSpec.total. change (psum CO (fun v => vec_eqb v ws) (denotes a) = psum CO (fun v => vec_eqb v ws) (denotes b)). rewrite !(nn_len CO CL t us) by (auto using proper_nn). reflexivity.
Qed.
Lemma upto_sum (sign : bool) F F' G G' : upto F F' -> upto G G' -> upto (f_sum CO sign F G) (f_sum CO sign F' G').
Proof. intros HF HG ws L WI. rewrite !(P_Expr.sum_psum CO CL), (HF ws L WI), (HG ws L WI). reflexivity. Qed.
Lemma alike_upto (a b : expr) : a ~ b -> proper a -> proper b -> upto (denotes a) (denotes b).
Proof.
  induction 1 as [a b H|a b c Pb H IH H' IH'|sign a a' b b' H IH H' IH'|sign a a' b b' H IH H' IH'|a a' H IH|a a' c H IH|onleft sign a a' c H IH|a a' b b' H IH H' IH'|a a' n H IH|a a' H IH|a a' ss H IH]; cbn [ExprSpec.denotes ps_proper]; intros P P'.
  - apply agree_upto; auto.
  - intros ws L WI. rewrite (IH P Pb ws L WI). apply IH'; auto.
  - destruct P, P'. apply upto_sum; auto.
  - destruct P, P'. apply upto_sum; auto.
  - intros ws L WI. rewrite !(P_Expr.neg_psum CO CL), (IH P P' ws L WI). reflexivity.
  - apply (upto_prod CO CL t us); auto using proper_nn, nn_const. intros ws _ _. reflexivity.
  - destruct onleft; apply upto_sum; auto; intros ws _ _; reflexivity.
  - destruct P, P'. apply (upto_prod CO CL t us); auto using proper_nn.
  - apply (pow_upto CO CL us t); auto using proper_nn.
  - auto.
  - destruct P, P'. auto.
Qed.

(** C108. Equalities of polynomials (C107) hold within every truncation. *)
Theorem same_alike : forall a b : expr, denote_same KS CO cz pw us a b -> a ~ b.
Proof. intros a b H. apply al_within. intros ws _. apply H. Qed.

(** * Calculation within the truncation *)
Lemma law (a b : expr) : same (denotes a) (denotes b) -> a ~ b.
Proof. intros E. apply same_alike. intros ws. exact (E (fun v => vec_eqb v ws)). Qed.
Lemma f_mul_vprod (F G : list vterm) : f_mul CO F G = vprod CO F G. Proof. reflexivity. Qed.
Lemma vprod_neg (F G : list vterm) : vprod CO (f_neg CO F) G = f_neg CO (vprod CO F G).
Proof.
  unfold vprod, f_neg. induction F as [|[v c] F IH]; [reflexivity|]. cbn [map list_prod fst snd]. rewrite !map_app, IH. f_equal. rewrite !map_map. apply map_ext. intros [w d]. unfold vmulp. cbn [fst snd]. f_equal. ring.
Qed.
Lemma vprod_app_r (F G H : list vterm) : same (vprod CO F (G ++ H)) (vprod CO F G ++ vprod CO F H).
Proof. eapply same_trans; [apply (same_swap CO CL)|]. rewrite vprod_app. apply (same_app CO CL); apply (same_swap CO CL). Qed.
Lemma const_prod_l c (F : list vterm) : (forall e, In e F -> len (fst e) = len us) -> forall Q, psum CO Q (vprod CO (f_const us c) F) = c *c psum CO Q F.
Proof. intros L Q. rewrite (same_swap CO CL (f_const us c) F Q), (P_Expr.const_prod CO CL us c F L). ring. Qed.
Lemma dlen (e : expr) x : In x (denotes e) -> len (fst x) = len us.
Proof. apply P_Expr.denotes_len. Qed.

(** C108. The programs form a commutative ring: with [Number 0], [Number 1]. *)
Theorem ring_laws : forall a b c : expr, Sum true a b ~ Sum true b a /\ Sum true (Sum true a b) c ~ Sum true a (Sum true b c) /\ Sum true a (Number 0c) ~ a /\ Sum false a b ~ Sum true a (Minus b) /\ Sum true a (Minus a) ~ Number 0c /\
  Product a b ~ Product b a /\ Product (Product a b) c ~ Product a (Product b c) /\ Product a (Number 1c) ~ a /\ Product a (Sum true b c) ~ Sum true (Product a b) (Product a c) /\ (forall n, Power a (S n) ~ Product (Power a n) a) /\ Power a 0 ~ Number 1c.
Proof.
  intros a b c. assert (PC : forall k Q, psum CO Q (f_const us k) = if Q (repeat 0 (len us)) then k else 0c) by apply (psum_const CO CL us).
  split; [apply law; intros Q; cbn [ExprSpec.denotes]; rewrite !(P_Expr.sum_psum CO CL); ring|]. split; [apply law; intros Q; cbn [ExprSpec.denotes]; rewrite !(P_Expr.sum_psum CO CL); ring|].
  split; [apply law; intros Q; cbn [ExprSpec.denotes]; rewrite !(P_Expr.sum_psum CO CL), PC; destruct (Q _); ring|]. split; [apply law; intros Q; cbn [ExprSpec.denotes]; rewrite !(P_Expr.sum_psum CO CL), (P_Expr.neg_psum CO CL); ring|].
  split; [apply law; intros Q; cbn [ExprSpec.denotes]; rewrite !(P_Expr.sum_psum CO CL), (P_Expr.neg_psum CO CL), PC; destruct (Q _); ring|]. split; [apply law; exact (same_swap CO CL (denotes a) (denotes b))|].
  split; [apply law; cbn [ExprSpec.denotes]; rewrite !f_mul_vprod, (vprod_assoc CO CL); apply same_refl|]. split; [apply law; intros Q; cbn [ExprSpec.denotes]; rewrite f_mul_vprod, (P_Expr.const_prod CO CL) by (apply dlen); ring|].
  split; [apply law; cbn [ExprSpec.denotes]; rewrite !f_mul_vprod; apply vprod_app_r|]. split; [intros n|]; apply law; apply same_refl.
Qed.

Section Limit.
Context (d : Z) (HL : has_limit t d).
Notation order := (order_at_least KS CO cz pw us t).
Notation deg := (degree_of (counted t) us).
Lemma within_limit ws : within t us ws = (deg ws <=? d).
Proof. destruct t as [|d'|d' s]; cbn [has_limit] in HL; [contradiction| |]; subst d'; reflexivity. Qed.
Lemma beyond (F : list vterm) ws : (forall e, In e F -> d < deg (fst e)) -> within t us ws = true -> psum CO (fun v => vec_eqb v ws) F = 0c.
Proof.
  intros H W. rewrite within_limit in W. apply Z.leb_le in W. apply (IntegProofs.psum_none CO CL). intros J. apply in_map_iff in J as (e & E & I). specialize (H e I). rewrite E in H. lia.
Qed.
Lemma zero_total ws : psum CO (fun v => vec_eqb v ws) (f_const us 0c) = 0c.
Proof. rewrite (psum_const CO CL us). destruct (vec_eqb _ _); reflexivity. Qed.
Lemma order_mul m n (F G : list vterm) : (forall e, In e F -> len (fst e) = len us /\ m <= deg (fst e)) -> (forall e, In e G -> len (fst e) = len us /\ n <= deg (fst e)) -> forall e, In e (f_mul CO F G) -> len (fst e) = len us /\ m + n <= deg (fst e).
Proof.
  intros HF HG e I. unfold f_mul in I. apply in_map_iff in I as ([x y] & <- & I). apply in_prod_iff in I as [I J]. destruct (HF _ I) as [L1 D1]. destruct (HG _ J) as [L2 D2]. cbn [fst snd]. split; [apply vadd_len; assumption|]. rewrite degree_vadd by assumption. lia.
Qed.
Lemma order_pow m (F : list vterm) n : (forall e, In e F -> len (fst e) = len us /\ m <= deg (fst e)) -> forall e, In e (f_pow CO us F n) -> len (fst e) = len us /\ Z.of_nat n * m <= deg (fst e).
Proof.
  intros H. induction n as [|n IH]; cbn [f_pow].
  - intros e [<-|[]]. cbn [fst]. split; [apply repeat_length|]. rewrite (P_Laws.degree_zero us SU). lia.
  - intros e I. destruct (order_mul (Z.of_nat n * m) m _ _ IH H e I) as [L D]. split; [exact L|]. rewrite Nat2Z.inj_succ. lia.
Qed.
Lemma order_terms m (a : expr) : order m a -> forall e, In e (denotes a) -> len (fst e) = len us /\ m <= deg (fst e).
Proof. intros H e I. split; [apply (dlen a); exact I|apply H; exact I]. Qed.
Lemma pow_vanishes (a : expr) n ws : order 1 a -> d < Z.of_nat n -> within t us ws = true -> psum CO (fun v => vec_eqb v ws) (f_pow CO us (denotes a) n) = 0c.
Proof. intros O D W. apply beyond; [|exact W]. intros e I. destruct (order_pow 1 _ n (order_terms 1 a O) e I) as [_ X]. lia. Qed.

(** C108. A series has the order of its terms; products and powers whose degrees are beyond the limit vanish. *)
Theorem given_order : forall m (x : series), WF x -> incl (s_ss x) us -> (forall k c, In (k, c) (terms x) -> m <= degree_of (counted t) (s_ss x) (exps x k)) -> order m (Given x).
Proof.
  intros m x W I H e J. cbn [ExprSpec.denotes] in J. change (In e (vt us x)) in J. unfold SeriesEval.vt in J. apply in_map_iff in J as ([k c] & <- & J). cbn [fst]. rewrite degree_spread; [eapply H; eauto|apply sorted_set_nodup, (wf_ss _ _ _ _ W)|exact NU|exact I|apply (kl_len _ _ KL); eapply wf_valid; eauto].
Qed.
Theorem product_beyond : forall m n (a b : expr), order m a -> order n b -> d < m + n -> Product a b ~ Number 0c.
Proof.
  intros m n a b A B D. apply al_within. intros ws W. cbn [ExprSpec.denotes]. change (psum CO (fun v => vec_eqb v ws) (f_mul CO (denotes a) (denotes b)) = psum CO (fun v => vec_eqb v ws) (f_const us 0c)). rewrite zero_total. apply beyond; [|exact W].
  intros e I. destruct (order_mul m n _ _ (order_terms m a A) (order_terms n b B) e I) as [_ X]. lia.
Qed.
Theorem power_beyond : forall m n (a : expr), order m a -> d < Z.of_nat n * m -> Power a n ~ Number 0c.
Proof.
  intros m n a A D. apply al_within. intros ws W. cbn [ExprSpec.denotes]. change (psum CO (fun v => vec_eqb v ws) (f_pow CO us (denotes a) n) = psum CO (fun v => vec_eqb v ws) (f_const us 0c)). rewrite zero_total. apply beyond; [|exact W].
  intros e I. destruct (order_pow m _ n (order_terms m a A) e I) as [_ X]. lia.
Qed.
(** C108. A Taylor polynomial of a series without constant term needs the powers only up to the limit. *)
Theorem taylor_stops : forall (c : nat -> C) (a : expr) n n', order 1 a -> d <= Z.of_nat n -> (n <= n')%nat -> taylor c a n' ~ taylor c a n.
Proof.
  intros c a n n' O D L. apply al_within. intros ws W. unfold ExprSpec.total. change (psum CO (fun v => vec_eqb v ws) (denotes (taylor c a n')) = psum CO (fun v => vec_eqb v ws) (denotes (taylor c a n))).
  induction L as [|n' L IH]; [reflexivity|]. cbn [taylor ExprSpec.denotes]. rewrite (P_Expr.sum_psum CO CL), IH. rewrite f_mul_vprod, (P_Expr.const_prod CO CL) by (apply (dlen (Power a (S n')))).
  rewrite pow_vanishes by (auto; lia). ring.
Qed.
(** C108. 1 - a is inverted by 1 + a + a^2 + ... + a^n, if a has no constant term and n is at least the limit. *)
Theorem geometric_inverse : forall (a : expr) n, order 1 a -> d <= Z.of_nat n -> Product (Sum false (Number 1c) a) (taylor (fun _ => 1c) a n) ~ Number 1c.
Proof.
  intros a n O D. set (F := denotes a). set (T := fun n => denotes (taylor (fun _ => 1c) a n)). set (G := f_sum CO false (f_const us 1c) F).
  assert (LF : forall e, In e F -> len (fst e) = len us) by (apply dlen). assert (LP : forall n e, In e (f_pow CO us F n) -> len (fst e) = len us) by (intros n0; apply (dlen (Power a n0))).
  assert (LG : forall e, In e G -> len (fst e) = len us) by (apply (dlen (Sum false (Number 1c) a))).
  assert (X : forall n Q, psum CO Q (vprod CO G (T n)) +c psum CO Q (f_pow CO us F (S n)) = psum CO Q (f_const us 1c)).
  { clear n D. induction n as [|n IH]; intros Q.
    - unfold T. cbn [taylor ExprSpec.denotes]. rewrite (P_Expr.const_prod CO CL us 1c G LG). cbn [f_pow]. rewrite f_mul_vprod, (const_prod_l 1c F LF). unfold G. rewrite (P_Expr.sum_psum CO CL). ring.
    - assert (E1 : psum CO Q (vprod CO G (T (S n))) = psum CO Q (vprod CO G (T n)) +c psum CO Q (vprod CO G (f_pow CO us F (S n)))).
      { unfold T at 1. cbn [taylor ExprSpec.denotes]. unfold f_sum. rewrite (vprod_app_r G _ _ Q), (psum_app CO CL). f_equal. apply (same_prod CO CL); [apply same_refl|]. intros Q'. rewrite f_mul_vprod. fold F. rewrite (P_Expr.const_prod CO CL us 1c _ (LP (S n))). match goal with |- ?x *c _ = ?y => change y with x; generalize x end. intros x0. ring. }
      assert (E2 : psum CO Q (vprod CO G (f_pow CO us F (S n))) = c_sub CO (psum CO Q (f_pow CO us F (S n))) (psum CO Q (f_pow CO us F (S (S n))))).
      { unfold G at 1. unfold f_sum. rewrite vprod_app, (psum_app CO CL), vprod_neg, (P_Expr.neg_psum CO CL), (const_prod_l 1c _ (LP (S n))). cbn [f_pow]. rewrite !f_mul_vprod. rewrite (same_swap CO CL F (vprod CO (f_pow CO us F n) F) Q). change (f_mul CO (vprod CO (f_pow CO us F n) F) F) with (vprod CO (vprod CO (f_pow CO us F n) F) F). ring. }
      rewrite E1, E2, <- (IH Q). ring. }
  apply al_within. intros ws W. cbn [ExprSpec.denotes]. rewrite f_mul_vprod. unfold ExprSpec.total. change (psum CO (fun v => vec_eqb v ws) (vprod CO G (T n)) = psum CO (fun v => vec_eqb v ws) (f_const us 1c)).
  rewrite <- (X n). assert (V : psum CO (fun v => vec_eqb v ws) (f_pow CO us F (S n)) = 0c) by (apply pow_vanishes; [exact O|lia|exact W]). rewrite V. ring.
Qed.
End Limit.

(** * Replacement *)
Context (TK : trunc_ok tD t) (SF : degrees_fit KS tD t).
(** C108. Replacing parts of a program by parts that agree within the truncation does not change what it computes with this truncation. *)
Theorem alike_equal : forall e e' r r', e ~ e' -> proper e -> proper e' -> computes e r -> computes e' r' -> s_tag r = t -> s_tag r' = t ->
  (forall vs ws, coef vs r ws = coef vs r' ws) /\ (forall b, series_equal_to KO CO PO TO r r' = Ok b -> b = true).
Proof.
  intros e e' r r' A P P' H H' T T'. assert (TT : s_tag r = s_tag r') by congruence. destruct (ps_programs_equal KO KS CO PO tD KL CL HT DI HP cz pw t us SU BU ZF TK SF e e' r r' P P' H H' TT) as [X Y].
  assert (Q : forall ws, within (s_tag r) us ws = true -> total (denotes e) ws = total (denotes e') ws). { rewrite T. apply agree_upto; auto. apply alike_upto; auto. }
  split; [apply X; exact Q|]. intros b E. apply (Y b E). exact Q.
Qed.
(** C108. Conversely, programs whose results have the truncation and compare equal may replace each other. *)
Theorem equal_alike : forall e e' r r', proper e -> proper e' -> computes e r -> computes e' r' -> s_tag r = t -> s_tag r' = t -> series_equal_to KO CO PO TO r r' = Ok true -> e ~ e'.
Proof.
  intros e e' r r' P P' H H' T T' E. assert (TT : s_tag r = s_tag r') by congruence. destruct (ps_programs_equal KO KS CO PO tD KL CL HT DI HP cz pw t us SU BU ZF TK SF e e' r r' P P' H H' TT) as [_ Y].
  apply al_within. intros ws WI. apply (proj1 (Y true E) eq_refl). rewrite T. exact WI.
Qed.
(** C108. The result of a program may replace the program in other programs; in particular a copy with the truncation set may replace the series itself. *)
Theorem result_alike : forall e r, proper e -> computes e r -> Given r ~ e /\ proper (Given r).
Proof.
  intros e r P H. destruct (ps_run_good KO KS CO PO tD KL CL HT DI HP cz pw t us SU BU ZF TK SF e r H P) as [G _]. pose proof (pgood_respects KO KS CO KL CL t us SU r _ G) as R. pose proof G as (W & I & T & _).
  destruct (pgood_upto KO KS CO KL CL t us SU t r _ (or_intror eq_refl) T G) as [NN UP].
  assert (Pr : proper (Given r)).
  { cbn [ps_proper]. split; [exact W|]. split; [exact I|]. split; [exact T|]. split; [exact R|]. unfold no_negative. destruct t as [|d|d s] eqn:Et; [left; reflexivity| |]; right; intros k c J;
    (destruct (NN (spread (s_ss r) us (exps r k), c)) as [_ [X|X]]; [unfold SeriesEval.vt; apply in_map_iff; exists (k, c); auto|discriminate X|]); cbn [fst] in X;
    (rewrite degree_spread in X; [exact X|apply sorted_set_nodup, (wf_ss _ _ _ _ W)|apply sorted_set_nodup; exact SU|exact I|apply (kl_len _ _ KL); eapply wf_valid; eauto]). }
  split; [|exact Pr]. apply al_within. apply (agree_upto (Given r) e Pr P). exact UP.
Qed.
End PSL.

Print Assumptions alike_equal.
Print Assumptions equal_alike.
Print Assumptions result_alike.
Print Assumptions same_alike.
Print Assumptions ring_laws.
Print Assumptions given_order.
Print Assumptions product_beyond.
Print Assumptions power_beyond.
Print Assumptions taylor_stops.
Print Assumptions geometric_inverse.

(** * Non-vacuity: with the truncation 2, x = 1 + 2 a - 3 b^3 + 5 a b and y = 4 a - b: the copy of x with the truncation set may replace x; pow(y, 3) is 0; 1 - y is inverted by 1 + y + pow(y, 2), and the
    product, computed on truncated operands, is 1. *)
Notation pruns := (ps_computes exK exS Z_cf exP tD t2).
Notation pP := (ps_proper exK exS Z_cf t2).
Notation pX := (Given ps9_x).
Notation pY := (Given ps_y).
Lemma pl_packable : packable kd_int64. Proof. right. right. left. reflexivity. Qed.
Definition pl_us : symbol_set := ["a"; "b"; "c"]%string.
Notation "a ~ b" := (alike exS Z_cf (fun z => z) Z.pow pl_us t2 (pP pl_us) a b) (at level 70).
Definition pl_1 := get dP (series_of_cf exK Z_cf exP ps_tag_ops 1 []).
Definition pl_s := xaddx false pl_1 py'.
Definition pl_p1 := get dP (fst (ps_powx 1 [] py')).
Definition pl_p2 := get dP (fst (ps_powx 2 [] py')).
Definition pl_p3 := get dP (fst (ps_powx 3 [] py')).
Definition pl_t1 := xaddx true pl_1 (series_scalar_mul exK Z_cf pl_p1 1).
Definition pl_t2 := xaddx true pl_t1 (series_scalar_mul exK Z_cf pl_p2 1).
Definition pl_r := xmulx (psE true 1) pl_s pl_t2.
Definition pl_e : @expr Z Z trunc_t := Product (Sum false (Number 1) pY) (taylor (fun _ => 1) pY 2).
Lemma pl_power n a x r E' : E' = psE false 0 -> pruns a x -> fst (ps_powx n [] x) = Ok r -> pruns (Power a n) r.
Proof. intros -> H ER. apply (psr_power _ _ _ _ _ _ [] (psE false 0) (fun c => Ok (cpower Z_cf c n)) _ n x); [exact H|constructor|apply psE_ok|reflexivity|exact ER]. Qed.
Lemma pl_runs : pruns pl_e pl_r.
Proof.
  destruct p_given' as [HX HY]. assert (H1 : pruns (Number 1) pl_1) by (constructor; vm_compute; reflexivity).
  apply (psr_product _ _ _ _ _ _ (psE true 1) _ _ pl_s pl_t2); [| |apply psE_ok|vm_compute; reflexivity].
  - apply (psr_sum _ _ _ _ _ _ false _ _ pl_1 py'); [exact H1|exact HY|vm_compute; reflexivity].
  - apply (psr_sum _ _ _ _ _ _ true _ _ pl_t1 (series_scalar_mul exK Z_cf pl_p2 1)); [|apply psr_scale; apply (pl_power 2 _ py' _ _ eq_refl HY); vm_compute; reflexivity|vm_compute; reflexivity].
    apply (psr_sum _ _ _ _ _ _ true _ _ pl_1 (series_scalar_mul exK Z_cf pl_p1 1)); [exact H1|apply psr_scale; apply (pl_power 1 _ py' _ _ eq_refl HY); vm_compute; reflexivity|vm_compute; reflexivity].
Qed.
Example ex_ps_laws : Given px' ~ pX /\ Power pY 3 ~ Number 0 /\ pl_e ~ Number 1 /\ pP pl_us pl_e /\ pruns pl_e pl_r /\ s_tag pl_r = t2 /\ series_size pl_s = 3%nat /\ series_size pl_t2 = 6%nat /\
  series_size pl_r = 1%nat /\ coef exS Z_cf pl_us pl_r [0; 0; 0] = 1 /\ s_tag pl_p3 = t2 /\ series_size pl_p3 = 0%nat.
Proof.
  destruct ex_ps_programs as (SU & BU & ZF & TK & SF & P1 & _). fold pl_us in SU, BU, ZF, P1. destruct P1 as [[PX PY] _]. destruct p_given' as [HX HY].
  assert (O : order_at_least exS Z_cf (fun z => z) Z.pow pl_us t2 1 pY).
  { destruct PY as (W & I & _). apply (given_order exK exS Z_cf exK_laws (fun z => z) Z.pow t2 pl_us SU 1 ps_y W I). intros k c J.
    assert (A : forallb (fun e => 1 <=? degree_of (counted t2) (s_ss ps_y) (ks_exps exS (len (s_ss ps_y)) (fst e))) (terms ps_y) = true) by (vm_compute; reflexivity).
    rewrite forallb_forall in A. specialize (A _ J). apply Z.leb_le. exact A. }
  split; [|split; [|split; [|split]]].
  - apply (result_alike exK exS Z_cf exP tD exK_laws Z_cf_laws (proj1 (kd_type_ok kd_int64 pl_packable)) (pm_degrees_in kd_int64 pl_packable) eq_refl (fun z => z) Z.pow t2 pl_us SU BU ZF TK SF pX px' PX HX).
  - apply (power_beyond exK exS Z_cf Z_cf_laws (fun z => z) Z.pow t2 pl_us SU 2 eq_refl 1 3 pY O). reflexivity.
  - apply (geometric_inverse exK exS Z_cf Z_cf_laws (fun z => z) Z.pow t2 pl_us SU 2 eq_refl pY 2 O). vm_compute. discriminate.
  - exact (conj (conj Logic.I PY) (conj (conj Logic.I PY) PY)).
  - split; [exact pl_runs|]. do 6 (split; [vm_compute; reflexivity|]). vm_compute; reflexivity.
Qed.
