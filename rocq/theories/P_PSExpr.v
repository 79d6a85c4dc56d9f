(** Property C101: any program of power series operations computes the polynomial that it denotes, up to the truncation.  Vocabulary: ExprSpec.v ([expr]: expressions; [denotes]: the polynomial of an
    expression, computed exactly, as a formal sum; [total]: the coefficient of a monomial in it), PSSpec.v ([within]: the monomials kept by a truncation; [respects], [no_negative]), SeriesSpec.v ([coef]),
    P_PS2.v ([ps_reachable]: the caches of powers left by earlier calls). *)
From Coq Require Import ZArith List Bool String Arith Sorted Permutation Lia Ring Ring_theory.
From Verif Require Import Base KpackModel KpackSpec IntModel IntSpec SymModel SymSpec SymProofs P_Sym PMonModel PMonSpec KeyOps KeyInst
  SeriesModel SeriesModel2 SeriesSpec SeriesProofs SeriesProofs2 SeriesProofs3 SeriesProofs4 SeriesProofs5 SeriesProofs6 Lin EvalSpec SeriesEval SeriesProofs7 CfInst P_Series P_Series2
  PolyModel PolyModel2 PolySpec PolyProofs7 PolyProofs8 PolyProofs9 P_Poly P_Poly2 CalcSpec DiffProofs P_Calc PSModel PSSpec PSProofs PowProofs PowProofs2 P_PS P_PS2 P_PS3 P_PS4 PSPow SubsSpec SubsProofs P_Subs PSSubs P_PS9 ExprSpec.
From Verif Require P_Expr.
Import ListNotations.
Open Scope Z_scope.
Open Scope res_scope.
Local Notation len := List.length.

Section PSE.
Context {K C : Type} (KO : key_ops K) (KS : key_sem K) (CO : cf_ops C) (PO : tbl_policy (K * C)) (tD : ity).
Context (KL : key_laws KO KS) (CL : cf_laws CO) (HT : integral_type tD) (DI : degrees_in KS tD) (HP : promote tD = tD).
Context (cz : Z -> C) (pw : C -> Z -> C).
Notation series := (series K C trunc_t).
Notation WF := (wf KO KS CO).
Notation TO := ps_tag_ops.
Notation coef := (coef KS CO).
Notation exps s k := (ks_exps KS (List.length (s_ss s)) k).
Notation "0c" := (c_zero CO).
Infix "+c" := (c_add CO) (at level 50, left associativity).
Infix "*c" := (c_mul CO) (at level 40, left associativity).
Add Ring CringPSE : (cl_ring _ CL).
Notation vterm := (list Z * C)%type.
Notation vt := (vt KS).
Notation expr := (@expr K C trunc_t).
Notation denotes := (denotes KS CO cz pw).
Notation total := (total CO).

Section Truncation.
Variable (t : trunc_t).

(** A run of the expression: each operation is a call of the library on power series, in any environment (scheduling, hashing, segmentation) and with any cache of powers left by earlier calls, that
    returns normally.  At any point the truncation t may be set on an intermediate result ([run_limit], [run_limit_p]).  Derivatives, substitutions and unset_truncation lose terms within the truncation: they are not among the operations. *)
Inductive ps_computes : expr -> series -> Prop :=
| psr_given x : ps_computes (Given x) x
| psr_number c r : series_of_cf KO CO PO TO c [] = Ok r -> ps_computes (Number c) r
| psr_sum (sign : bool) a b x y r : ps_computes a x -> ps_computes b y -> (if sign then ps_add KO CO PO tD x y else ps_sub KO CO PO tD x y) = Ok r -> ps_computes (Sum sign a b) r
| psr_assign sign al a b x y r : ps_computes a x -> ps_computes b y -> (al = true -> y = x) -> ps_in_place_addsub KO CO PO tD sign x al y = Ok r -> ps_computes (Assign sign a b) r
| psr_minus a x : ps_computes a x -> ps_computes (Minus a) (series_negate CO x)
| psr_scale a c x : ps_computes a x -> ps_computes (Scale a c) (series_scalar_mul KO CO x c)
| psr_shift (onleft sign : bool) a c x r : ps_computes a x -> (if onleft then scalar_addsub_ps KO CO PO tD sign c x else ps_addsub_scalar KO CO PO tD sign x c) = Ok r -> ps_computes (Shift onleft sign a c) r
| psr_product E a b x y r : ps_computes a x -> ps_computes b y -> env_ok KO KS E -> ps_mul KO CO PO E tD x y = Ok r -> ps_computes (Product a b) r
| psr_power m E cpow a n x r : ps_computes a x -> ps_reachable KO KS CO PO tD m -> env_ok KO KS E -> (forall c, cpow c = Ok (cpower CO c n)) ->
    fst (ps_pow KO CO PO E tD cpow (Some (Z.of_nat n)) (Nat.eqb n 0) (Some n) m x) = Ok r -> ps_computes (Power a n) r
| psr_trimmed a x r : ps_computes a x -> series_trim KO CO PO TO x = Ok r -> ps_computes (Trimmed a) r
| psr_with a ss x r : ps_computes a x -> add_symbols KO CO PO TO x ss = Ok r -> ps_computes (With a ss) r
| psr_limit tV d a x r : ps_computes a x -> t = total_truncation d -> limit_value tV d -> set_truncation KO tD tV d x = (Ok tt, r) -> ps_computes a r
| psr_limit_p tV d s a x r : ps_computes a x -> t = partial_truncation d s -> limit_value tV d -> sorted_set s -> set_truncation_p KO tD tV d s x = (Ok tt, r) -> ps_computes a r.

(** The objects are valid power series over symbols among us, not truncated or with the truncation t, which their terms respect, and without terms of negative degree. *)
Fixpoint ps_proper (us : symbol_set) (e : expr) : Prop :=
  match e with
  | Given x => WF x /\ incl (s_ss x) us /\ (s_tag x = no_truncation \/ s_tag x = t) /\ respects KS x /\ no_negative KS t x
  | Number c => True
  | Sum _ a b | Assign _ a b | Product a b => ps_proper us a /\ ps_proper us b
  | Minus a | Scale a _ | Shift _ _ a _ | Power a _ | Trimmed a => ps_proper us a
  | With a ss => ps_proper us a /\ sorted_set ss /\ incl ss us
  | Derivative _ _ | Low _ _ | LowIn _ _ _ | Substitute _ _ => False
  end.
(** One of the objects has the truncation t. *)
Fixpoint limited (e : expr) : Prop :=
  match e with
  | Given x => s_tag x = t
  | Number c => False
  | Sum _ a b | Assign _ a b | Product a b => limited a \/ limited b
  | Minus a | Scale a _ | Shift _ _ a _ | Power a _ | Trimmed a | With a _ => limited a
  | Derivative _ _ | Low _ _ | LowIn _ _ _ | Substitute _ _ => False
  end.

Section Over.
Context (us : symbol_set) (SU : sorted_set us) (BU : 2 * Z.of_nat (len us) <= imax size_t) (ZF : forall n, (n <= len us)%nat -> ks_fits KS (repeat 0 n)).
Context (TK : trunc_ok tD t) (SF : degrees_fit KS tD t).
Notation nn := (@PSSubs.nn C t us).
Notation upto t' := (PSSubs.upto CO t' us).
Definition one_of_two (u : trunc_t) : Prop := u = no_truncation \/ u = t.
Definition pgood (x : series) (F : list vterm) : Prop :=
  WF x /\ incl (s_ss x) us /\ one_of_two (s_tag x) /\ nn F /\ forall ws, coef us x ws = if within (s_tag x) us ws then psum CO (fun v => vec_eqb v ws) F else 0c.

Lemma pgood_covers x F : pgood x F -> covers us x.
Proof. intros (W & I & _). split; auto. Qed.
Lemma pgood_len x F : pgood x F -> (len (s_ss x) <= len us)%nat.
Proof. intros (W & I & _). apply NoDup_incl_length; [apply sorted_set_nodup, (wf_ss _ _ _ _ W)|exact I]. Qed.
Lemma two_ok u : one_of_two u -> trunc_ok tD u.
Proof. intros [->| ->]; [exact Logic.I|exact TK]. Qed.
Lemma two_fit u : one_of_two u -> degrees_fit KS tD u.
Proof. intros [->| ->]; [intros N; elim N; reflexivity|exact SF]. Qed.
Lemma two_nn u F : one_of_two u -> nn F -> @PSSubs.nn C u us F.
Proof. intros [->| ->] N e I; [|exact (N e I)]. split; [apply (N e I)|left; reflexivity]. Qed.
Lemma nn_len F ws : nn F -> len ws <> len us -> psum CO (fun v => vec_eqb v ws) F = 0c.
Proof. intros N L. apply (psum_false CO CL). intros v c I. destruct (vec_eqb v ws) eqn:E; [|reflexivity]. apply vec_eqb_iff in E. subst v. elim L. apply (N _ I). Qed.
Lemma within_spread u (x : series) k c : WF x -> covers us x -> In (k, c) (terms x) -> within u us (spread (s_ss x) us (exps x k)) = within u (s_ss x) (exps x k).
Proof.
  intros W CV I. assert (DG : forall sel, degree_of sel us (spread (s_ss x) us (exps x k)) = degree_of sel (s_ss x) (exps x k)).
  { intros sel. apply degree_spread; [apply sorted_set_nodup, (wf_ss _ _ _ _ W)|apply sorted_set_nodup, CV|apply CV|apply (kl_len _ _ KL); eapply wf_valid; eauto]. }
  destruct u; cbn [within]; rewrite ?DG; reflexivity.
Qed.
(** A series with such coefficients respects its truncation. *)
Lemma pgood_respects x F : pgood x F -> respects KS x.
Proof.
  intros G k c I. pose proof (pgood_covers _ _ G) as CV. destruct G as (W & _ & _ & _ & D). rewrite <- (within_spread _ x k c W CV I). destruct (within _ us _) eqn:EW; [reflexivity|]. exfalso. apply (wf_nonzero _ _ _ _ W k c I).
  rewrite <- (coef_term KO KS CO KL CL us x k c W CV I), D, EW. reflexivity.
Qed.
Lemma pgood_intro (x : series) F : WF x -> incl (s_ss x) us -> one_of_two (s_tag x) -> nn F ->
  (forall ws, len ws = len us -> coef us x ws = if within (s_tag x) us ws then psum CO (fun v => vec_eqb v ws) F else 0c) -> pgood x F.
Proof.
  intros W I T N H. do 4 (split; [assumption|]). intros ws. destruct (Nat.eq_dec (len ws) (len us)) as [L|L]; [auto|]. rewrite (vden_len KS CO CL us x ws L), (nn_len F ws N L). destruct (within _ _ _); reflexivity.
Qed.
(** Up to a truncation of which that of x is a part. *)
Lemma pgood_upto u x F : one_of_two u -> s_tag x = no_truncation \/ s_tag x = u -> pgood x F -> @PSSubs.nn C u us (vt us x) /\ upto u (vt us x) F.
Proof.
  intros TU TX G. pose proof (pgood_covers _ _ G) as CV. destruct G as (W & _ & _ & N & D). apply (inv_upto KO KS CO KL CL u us x F W TX CV (two_nn u F TU N) D).
Qed.
Lemma pgood_nonneg x F : pgood x F -> no_negative KS (s_tag x) x.
Proof.
  intros G. pose proof (pgood_covers _ _ G) as CV. pose proof G as (W & I & T & _). destruct (pgood_upto (s_tag x) x F T (or_intror eq_refl) G) as [NN _].
  destruct (s_tag x) as [|d|d s] eqn:ET; [left; reflexivity| |]; right; intros k c J; (destruct (NN (spread (s_ss x) us (exps x k), c)) as [_ [X|X]]; [unfold SeriesEval.vt; apply in_map_iff; exists (k, c); auto|discriminate X|]); cbn [fst] in X;
    (rewrite degree_spread in X; [exact X|apply sorted_set_nodup, (wf_ss _ _ _ _ W)|apply sorted_set_nodup; exact SU|exact I|apply (kl_len _ _ KL); eapply wf_valid; eauto]).
Qed.
Lemma pgood_coef u x F ws : s_tag x = no_truncation \/ s_tag x = u -> pgood x F -> within u us ws = true -> coef us x ws = psum CO (fun v => vec_eqb v ws) F.
Proof. intros TX (_ & _ & _ & _ & D) WI. rewrite D. destruct TX as [->| ->]; [reflexivity|rewrite WI; reflexivity]. Qed.
Lemma nn_const c : nn (f_const us c).
Proof. intros e [<-|[]]. cbn [fst]. split; [apply repeat_length|]. right. apply degree_nonneg. apply Forall_forall. intros z J. apply repeat_spec in J. lia. Qed.
Lemma nn_neg F : nn F -> nn (f_neg CO F).
Proof. intros N e I. apply in_map_iff in I as (e' & <- & I). exact (N e' I). Qed.
Lemma nn_sum (sign : bool) F G : nn F -> nn G -> nn (f_sum CO sign F G).
Proof. intros A B. unfold f_sum. apply nn_app; [exact A|]. destruct sign; [exact B|apply nn_neg; exact B]. Qed.
Lemma nn_mul F G : nn F -> nn G -> nn (f_mul CO F G).
Proof. intros A B. exact (nn_prod CO t us F G A B). Qed.
Lemma nn_pow F : nn F -> forall n, nn (f_pow CO us F n).
Proof. intros N. induction n as [|n IH]; cbn [f_pow]; [apply nn_const|apply nn_mul; auto]. Qed.
Lemma sum_tags a b u : one_of_two a -> one_of_two b -> joint a b u -> one_of_two u /\ (a = no_truncation \/ a = u) /\ (b = no_truncation \/ b = u) /\ (a = t \/ b = t -> u = t).
Proof. unfold one_of_two. intros [->| ->] [->| ->] [[J ->]|[[J ->]|[J ->]]]; try rewrite J in *; try rewrite <- J; intuition congruence. Qed.

(** Sums, binary or in place. *)
Lemma pgood_sum sign ip al x y r F G : pgood x F -> pgood y G -> (al = true -> y = x) ->
  (if ip : bool then ps_in_place_addsub KO CO PO tD sign x al y else if sign then ps_add KO CO PO tD x y else ps_sub KO CO PO tD x y) = Ok r -> pgood r (f_sum CO sign F G) /\ (s_tag x = t \/ s_tag y = t -> s_tag r = t).
Proof.
  intros Gx Gy AL E. pose proof (pgood_len _ _ Gx). pose proof (pgood_len _ _ Gy). pose proof (pgood_respects _ _ Gx) as RX. pose proof (pgood_respects _ _ Gy) as RY. pose proof Gx as (Wx & IX & TX & NX & _). pose proof Gy as (Wy & IY & TY & NY & _).
  destruct (ps_add_sub_exact KO KS CO PO tD KL CL HT DI sign ip al x y Wx Wy (two_ok _ TX) (two_ok _ TY) AL ltac:(lia)) as [_ M]. cbv zeta in M.
  destruct (tg_joint KS tD t TK SF x y TX TY) as [J _]. destruct (sum_tags _ _ _ TX TY J) as (TU & TXU & TYU & TT).
  destruct (M _ J) as [(r' & E' & Wr & TR & U & H1)|[KE _]]; [|exfalso; unfold key_overflow in KE; rewrite E in KE; destruct KE as [KE|KE]; discriminate KE]. assert (r' = r) by (rewrite E in E'; congruence). subst r'. destruct (H1 RX RY) as [_ D]. rewrite <- TR in *.
  assert (IR : incl (s_ss r) us) by (intros z I; apply U in I as [I|I]; auto). split; [|exact TT]. apply pgood_intro; [exact Wr|exact IR|exact TU|apply nn_sum; assumption|]. intros ws _.
  rewrite D by (split; assumption). destruct (within (s_tag r) us ws) eqn:WI; [|reflexivity]. rewrite (P_Expr.sum_psum CO CL), (pgood_coef _ _ _ _ TXU Gx WI), (pgood_coef _ _ _ _ TYU Gy WI). reflexivity.
Qed.
Lemma psum_const c Q : psum CO Q (f_const us c) = if Q (repeat 0 (len us)) then c else 0c.
Proof. unfold f_const. rewrite (psum_cons CO CL). cbn [fst snd]. destruct (Q _); cbn [ifP]; unfold psum; cbn; ring. Qed.
Lemma pgood_const c r : series_of_cf KO CO PO TO c [] = Ok r -> pgood r (f_const us c).
Proof.
  intros E. pose proof (P_Expr.good_const KO KS CO PO TO KL CL us ZF c r E) as (W & I & D). pose proof (of_coefficient_exact KO KS CO PO TO KL CL c [] ltac:(constructor) (ZF 0%nat ltac:(lia))) as (r' & E' & _ & _ & TG & _). assert (r' = r) by congruence. subst r'. cbn in TG.
  split; [exact W|]. split; [exact I|]. split; [left; exact TG|]. split; [apply nn_const|]. intros ws. rewrite TG. cbn [within]. apply (P_Expr.same_coef KS CO us r). exact D.
Qed.
(** The same terms, with another coefficient. *)
Lemma pgood_same (x r : series) F G : pgood x F -> WF r -> incl (s_ss r) us -> s_tag r = s_tag x -> nn G ->
  (forall ws, coef us x ws = psum CO (fun v => vec_eqb v ws) F -> coef us r ws = psum CO (fun v => vec_eqb v ws) G) -> (forall ws, coef us x ws = 0c -> coef us r ws = 0c) -> pgood r G.
Proof.
  intros Gx W I T N A B. pose proof Gx as (_ & _ & TX & _ & D). split; [exact W|]. split; [exact I|]. split; [rewrite T; exact TX|]. split; [exact N|]. intros ws. specialize (D ws). rewrite T. destruct (within _ us ws); [apply A|apply B]; exact D.
Qed.
(** Products. *)
Lemma pgood_prod Ev x y r F G : env_ok KO KS Ev -> pgood x F -> pgood y G -> ps_mul KO CO PO Ev tD x y = Ok r -> pgood r (f_mul CO F G) /\ (s_tag x = t \/ s_tag y = t -> s_tag r = t).
Proof.
  intros EO Gx Gy E. pose proof (pgood_len _ _ Gx). pose proof (pgood_len _ _ Gy). pose proof Gx as (Wx & IX & TX & NX & _). pose proof Gy as (Wy & IY & TY & NY & _).
  destruct (tg_joint KS tD t TK SF x y TX TY) as [J _]. destruct (sum_tags _ _ _ TX TY J) as (TU & TXU & TYU & TT).
  destruct (mul_inv KO KS CO PO tD KL CL HT HP t TK SF Ev x y r EO Wx Wy TX TY ltac:(lia) E) as (Wr & U & _ & JR & _ & D). rewrite <- JR in *.
  assert (IR : incl (s_ss r) us) by (intros z I; apply U in I as [I|I]; auto). split; [|exact TT]. apply pgood_intro; [exact Wr|exact IR|exact TU|apply nn_mul; assumption|]. intros ws L.
  rewrite D by (split; assumption). destruct (within (s_tag r) us ws) eqn:WI; [|reflexivity]. destruct (pgood_upto _ x F TU TXU Gx) as [N1 U1]. destruct (pgood_upto _ y G TU TYU Gy) as [N2 U2].
  apply (upto_prod CO CL (s_tag r) us); auto; apply two_nn; assumption.
Qed.
(** Truncations. *)
Lemma pgood_limit x r F : pgood x F -> WF r -> s_ss r = s_ss x -> s_tag r = t -> (forall k c, In (k, c) (terms r) <-> In (k, c) (terms x) /\ within t (s_ss x) (exps x k) = true) -> pgood r F.
Proof.
  intros G W S T M. pose proof (pgood_covers _ _ G) as CV. pose proof G as (Wx & IX & TX & N & D). split; [exact W|]. split; [rewrite S; exact IX|]. split; [right; exact T|]. split; [exact N|]. intros ws. rewrite T.
  rewrite (kept_part KO KS CO tD KL CL t TK SF x r Wx W S M us ws CV). destruct (within t us ws) eqn:WI; [|reflexivity]. apply (pgood_coef t x F ws TX G WI).
Qed.

Lemma pow_upto u (l F : list vterm) n : @PSSubs.nn C u us l -> @PSSubs.nn C u us F -> upto u l F -> upto u (f_pow CO us l n) (f_pow CO us F n).
Proof.
  intros N1 N2 U. assert (NP : forall G, @PSSubs.nn C u us G -> forall n, @PSSubs.nn C u us (f_pow CO us G n)).
  { intros G NG. induction n0 as [|n0 IH]; cbn [f_pow]; [|exact (nn_prod CO u us _ _ IH NG)]. intros e [<-|[]]. cbn [fst]. split; [apply repeat_length|]. right. apply degree_nonneg. apply Forall_forall. intros z J. apply repeat_spec in J. lia. }
  induction n as [|n IH]; cbn [f_pow]; [intros ws _ _; reflexivity|]. apply (upto_prod CO CL u us); auto.
Qed.

Lemma ps_run_good : forall e r, ps_computes e r -> ps_proper us e -> pgood r (denotes us e) /\ (limited e -> s_tag r = t).
Proof.
  induction 1 as [x|c r E|sign a b x y r Ha IHa Hb IHb E|sign al a b x y r Ha IHa Hb IHb AL E|a x Ha IHa|a c x Ha IHa|onleft sign a c x r Ha IHa E|Ev a b x y r Ha IHa Hb IHb EO E|m Ev cpow a n x r Ha IHa R EO CP E|a x r Ha IHa E|a ss x r Ha IHa E
    |tV d a x r Ha IHa ET LV E|tV d s a x r Ha IHa ET LV SS E]; cbn [ps_proper ExprSpec.denotes limited]; intros P.
  - destruct P as (W & I & T & R & N). split; [|auto]. assert (CV : covers us x) by (split; auto). split; [exact W|]. split; [exact I|]. split; [exact T|]. split; [exact (nn_vt KO KS CO KL t us x W CV N)|].
    intros ws. rewrite (respects_coef KO KS CO KL CL x us ws W CV R). rewrite <- psum_coef. reflexivity.
  - split; [apply pgood_const; exact E|intros []].
  - destruct P as [Pa Pb]. destruct (IHa Pa) as [Ga La]. destruct (IHb Pb) as [Gb Lb]. destruct (pgood_sum sign false false x y r _ _ Ga Gb ltac:(discriminate) E) as [G T]. split; [exact G|]. intros [L|L]; apply T; auto.
  - destruct P as [Pa Pb]. destruct (IHa Pa) as [Ga La]. destruct (IHb Pb) as [Gb Lb]. destruct (pgood_sum sign true al x y r _ _ Ga Gb AL E) as [G T]. split; [exact G|]. intros [L|L]; apply T; auto.
  - destruct (IHa P) as [Ga La]. pose proof Ga as (Wx & IX & TX & NX & _). destruct (negate_exact KO KS CO CL x Wx) as (W & S & T & _ & _ & D). split; [|rewrite T; exact La].
    apply (pgood_same x _ _ _ Ga W ltac:(rewrite S; exact IX) T (nn_neg _ NX)); intros ws H; rewrite D, H; [rewrite (P_Expr.neg_psum CO CL); reflexivity|ring].
  - destruct (IHa P) as [Ga La]. pose proof Ga as (Wx & IX & TX & NX & _). destruct (scalar_mul_exact KO KS CO KL CL x c Wx) as (W & S & T & D & _). split; [|rewrite T; exact La].
    apply (pgood_same x _ _ _ Ga W ltac:(rewrite S; exact IX) T (nn_mul _ _ NX (nn_const c))); intros ws H; rewrite D, H; [|ring].
    change (f_mul CO (denotes us a) (f_const us c)) with (vprod CO (denotes us a) (f_const us c)). rewrite (P_Expr.const_prod CO CL) by (intros e I; apply (NX e I)). reflexivity.
  - destruct (IHa P) as [Ga La]. pose proof (pgood_len _ _ Ga) as LX. pose proof Ga as (Wx & IX & TX & NX & DX).
    destruct (ps_scalar_exact KO KS CO PO tD KL CL HT DI sign onleft x c Wx (two_ok _ TX) (ZF _ LX)) as [(r' & E' & W & S & T & RR & D)|[X _]]; [|congruence]. assert (r' = r) by congruence. subst r'. split; [|rewrite T; exact La].
    assert (SX : sorted_set (s_ss x)) by apply (wf_ss _ _ _ _ Wx). set (K1 := f_const (s_ss x) c).
    assert (CP : forall Q, psum CO Q K1 = if Q (repeat 0 (len (s_ss x))) then c else 0c). { intros Q. unfold K1, f_const. rewrite (psum_cons CO CL). cbn [fst snd]. destruct (Q _); cbn [ifP]; unfold psum; cbn; ring. }
    set (F1 := if onleft then f_sum CO sign K1 (vt (s_ss x) x) else f_sum CO sign (vt (s_ss x) x) K1).
    (* the terms of r are those of the sum within the truncation *)
    assert (DS : same CO (vt (s_ss x) r) (filter (fun e => within (s_tag x) (s_ss x) (fst e)) F1)).
    { apply (P_Expr.coef_same KS CO CL). intros ws. rewrite D. cbv zeta. rewrite (P_Expr.low_psum CO CL _ (fun v => within (s_tag x) (s_ss x) v)).
      assert (SWP : vec_eqb ws (repeat 0 (len (s_ss x))) = vec_eqb (repeat 0 (len (s_ss x))) ws) by (apply eq_iff_eq_true; rewrite !vec_eqb_iff; split; auto). rewrite SWP, <- psum_coef.
      destruct (within (s_tag x) (s_ss x) ws) eqn:WI.
      - transitivity (psum CO (fun v => vec_eqb v ws) F1); [unfold F1; destruct onleft; rewrite (P_Expr.sum_psum CO CL), CP; reflexivity|]. apply (psum_ext CO CL). intros v c' _. destruct (vec_eqb v ws) eqn:EV; [apply vec_eqb_iff in EV; subst v; rewrite WI; reflexivity|rewrite andb_false_r; reflexivity].
      - symmetry. apply (psum_false CO CL). intros v c' _. destruct (vec_eqb v ws) eqn:EV; [apply vec_eqb_iff in EV; subst v; rewrite WI; reflexivity|apply andb_false_r]. }
    assert (L : forall (s : series) Q, incl (s_ss s) (s_ss x) -> psum CO Q (vt us s) = psum CO (fun v => Q (spread (s_ss x) us v)) (vt (s_ss x) s)).
    { intros s Q I. rewrite !vt_psum. symmetry. apply (vden_spread KS CO (s_ss x) us s Q I). }
    assert (L1 : forall e, In e F1 -> len (fst e) = len (s_ss x)).
    { assert (LK : forall e, In e K1 -> len (fst e) = len (s_ss x)) by (intros e [<-|[]]; apply repeat_length). pose proof (vt_len KS (s_ss x) x) as LV.
      assert (LS : forall A B : list vterm, (forall e, In e A -> len (fst e) = len (s_ss x)) -> (forall e, In e B -> len (fst e) = len (s_ss x)) -> forall e, In e (f_sum CO sign A B) -> len (fst e) = len (s_ss x)).
      { intros A B HA HB e I. unfold f_sum in I. apply in_app_iff in I as [I|I]; [auto|]. destruct sign; [auto|]. apply in_map_iff in I as (e' & <- & I). exact (HB e' I). }
      unfold F1. destruct onleft; apply LS; auto. }
    assert (NC : nn (if onleft then f_sum CO sign (f_const us c) (denotes us a) else f_sum CO sign (denotes us a) (f_const us c))) by (destruct onleft; apply nn_sum; try assumption; apply nn_const).
    apply pgood_intro; [exact W|rewrite S; exact IX|rewrite T; exact TX|exact NC|]. intros ws _. rewrite <- psum_coef, L by (rewrite S; apply incl_refl). rewrite (DS _), (P_Expr.low_psum CO CL _ (fun v => within (s_tag x) (s_ss x) v)), T.
    transitivity (if within (s_tag x) us ws then psum CO (fun v => vec_eqb (spread (s_ss x) us v) ws) F1 else 0c).
    + assert (WS : forall v (d : C), In (v, d) F1 -> vec_eqb (spread (s_ss x) us v) ws = true -> within (s_tag x) (s_ss x) v = within (s_tag x) us ws).
      { intros v d I EV. apply vec_eqb_iff in EV. subst ws. assert (DG : forall sel, degree_of sel us (spread (s_ss x) us v) = degree_of sel (s_ss x) v) by (intros sel; apply degree_spread; [apply sorted_set_nodup; exact SX|apply sorted_set_nodup; exact SU|exact IX|apply (L1 _ I)]).
        destruct (s_tag x); cbn [within]; rewrite ?DG; reflexivity. }
      destruct (within (s_tag x) us ws) eqn:WI.
      * apply (psum_ext CO CL). intros v d I. destruct (vec_eqb (spread (s_ss x) us v) ws) eqn:EV; [rewrite (WS v d I EV); reflexivity|rewrite andb_false_r; reflexivity].
      * apply (psum_false CO CL). intros v d I. destruct (vec_eqb (spread (s_ss x) us v) ws) eqn:EV; [rewrite (WS v d I EV); reflexivity|apply andb_false_r].
    + destruct (within (s_tag x) us ws) eqn:WI; [|reflexivity].
      assert (EX : psum CO (fun v => vec_eqb (spread (s_ss x) us v) ws) (vt (s_ss x) x) = psum CO (fun v => vec_eqb v ws) (denotes us a)).
      { rewrite <- (L x (fun v => vec_eqb v ws) (incl_refl _)), psum_coef. apply (pgood_coef (s_tag x) x _ ws (or_intror eq_refl) Ga WI). }
      unfold F1. destruct onleft; rewrite !(P_Expr.sum_psum CO CL), CP, psum_const, P_Expr.spread0, EX; reflexivity.
  - destruct P as [Pa Pb]. destruct (IHa Pa) as [Ga La]. destruct (IHb Pb) as [Gb Lb]. destruct (pgood_prod Ev x y r _ _ EO Ga Gb E) as [G T]. split; [exact G|]. intros [L|L]; apply T; auto.
  - destruct (IHa P) as [Ga La]. pose proof (pgood_len _ _ Ga) as LX. pose proof (pgood_covers _ _ Ga) as CV. pose proof Ga as (Wx & IX & TX & NX & DX). assert (F0 : ks_fits KS []) by (apply (ZF 0%nat); lia).
    assert (AR : ps_arg KO KS CO tD x) by (split; [exact Wx|]; split; [lia|]; split; [apply two_ok; exact TX|apply two_fit; exact TX]).
    destruct (ps_pow_exact_partial KO KS CO PO tD KL CL HT DI HP F0 m Ev cpow n x R EO AR CP) as [(r' & E' & Wr & Tr & Ir & _ & D)|[[X|X] _]]; try congruence. assert (r' = r) by congruence. subst r'. split; [|rewrite Tr; exact La].
    apply pgood_intro; [exact Wr|intros z I; apply IX, Ir, I|rewrite Tr; exact TX|apply nn_pow; exact NX|]. intros ws L. destruct (D us ws CV L) as [_ D2]. rewrite D2, Tr by (left; eapply pgood_nonneg; eauto).
    destruct (within (s_tag x) us ws) eqn:WI; [|reflexivity]. rewrite <- (powl_coef KS CO CL) by exact L. rewrite <- P_Expr.pow_powl. destruct (pgood_upto (s_tag x) x _ TX (or_intror eq_refl) Ga) as [N1 U1]. apply (pow_upto (s_tag x)); auto. apply two_nn; assumption.
  - destruct (IHa P) as [Ga La]. pose proof Ga as (Wx & IX & TX & NX & _). destruct (trim_ok KO KS CO PO TO KL CL x Wx) as (r' & E' & W & Z0 & T & _ & D & _). assert (r' = r) by congruence. subst r'. split; [|rewrite T; exact La].
    assert (EQ : forall ws, coef us r ws = coef us x ws) by (intros ws; rewrite !coef_nden; apply D).
    apply (pgood_same x _ _ _ Ga W); auto; try (intros ws H; rewrite EQ; exact H). intros z J. apply Z0 in J as (i & J & _). apply IX. eapply nth_error_In; eauto.
  - destruct P as (P & SS & IS). destruct (IHa P) as [Ga La]. pose proof (pgood_len _ _ Ga) as LX. pose proof Ga as (Wx & IX & TX & NX & _). assert (LS : (len ss <= len us)%nat) by (apply NoDup_incl_length; [apply sorted_set_nodup; exact SS|exact IS]).
    destruct (add_symbols_exact KO KS CO PO TO KL CL x ss Wx SS ltac:(lia)) as [(r' & E' & W & [_ U] & T & _ & D)|[[X|X] _]]; try congruence. assert (r' = r) by congruence. subst r'. split; [|rewrite T; exact La].
    apply (pgood_same x _ _ _ Ga W); auto; try (intros ws H; rewrite D; exact H). intros z J. apply U in J as [J|J]; auto.
  - destruct (IHa P) as [Ga La]. pose proof Ga as (Wx & _). pose proof (set_truncation_exact KO KS CO tD KL HT DI tV d x Wx LV) as S. rewrite E in S. destruct S as [(_ & W & SE & _ & G & _ & M)|[(X & _)|(X & _)]]; try discriminate X.
    unfold get_truncation in G. assert (TR : s_tag r = t) by congruence. split; [|auto]. apply (pgood_limit x r _ Ga W SE TR). intros k c. rewrite M, ET. cbn [within]. rewrite Z.leb_le. reflexivity.
  - destruct (IHa P) as [Ga La]. pose proof Ga as (Wx & _). pose proof (set_truncation_p_exact KO KS CO tD KL HT DI tV d s x Wx LV SS) as S. rewrite E in S. destruct S as [(_ & W & SE & _ & G & _ & M)|[(X & _)|(X & _)]]; try discriminate X.
    unfold get_truncation in G. assert (TR : s_tag r = t) by congruence. split; [|auto]. apply (pgood_limit x r _ Ga W SE TR). intros k c. rewrite M, ET. cbn [within]. rewrite Z.leb_le. reflexivity.
Qed.
(** C101. The result is a valid power series whose symbols are among us; it is not truncated or has the truncation t (which it has if one of the objects has it), it respects its truncation, and within it
    the coefficients are those of the polynomial denoted by the expression: products and powers computed by dropping terms at every step agree with the exact ones. *)
Theorem ps_program_exact : forall e r, ps_proper us e -> ps_computes e r ->
  WF r /\ incl (s_ss r) us /\ (s_tag r = no_truncation \/ s_tag r = t) /\ (limited e -> s_tag r = t) /\ respects KS r /\ forall ws, coef us r ws = if within (s_tag r) us ws then total (denotes us e) ws else 0c.
Proof.
  intros e r P H. destruct (ps_run_good e r H P) as [G L]. pose proof (pgood_respects r _ G) as R. destruct G as (W & I & T & _ & D). do 5 (split; [assumption|]). exact D.
Qed.

(** C101. Two programs whose results have the same truncation and that denote the same polynomial within it compute results with the same coefficients over any symbols, and the library finds them equal
    (if the comparison does not throw); conversely results that are found equal come from programs that denote the same polynomial within the truncation. *)
Theorem ps_programs_equal : forall e e' r r', ps_proper us e -> ps_proper us e' -> ps_computes e r -> ps_computes e' r' -> s_tag r = s_tag r' ->
  ((forall ws, within (s_tag r) us ws = true -> total (denotes us e) ws = total (denotes us e') ws) -> forall vs ws, coef vs r ws = coef vs r' ws) /\
  (forall b, series_equal_to KO CO PO TO r r' = Ok b -> (b = true <-> forall ws, within (s_tag r) us ws = true -> total (denotes us e) ws = total (denotes us e') ws)).
Proof.
  intros e e' r r' P P' H H' TT. destruct (ps_run_good e r H P) as [G _]. destruct (ps_run_good e' r' H' P') as [G' _]. pose proof (pgood_len _ _ G) as L. pose proof (pgood_len _ _ G') as L'. pose proof G as (W & I & _ & _ & D). pose proof G' as (W' & I' & _ & _ & D').
  assert (X : (forall ws, within (s_tag r) us ws = true -> total (denotes us e) ws = total (denotes us e') ws) -> forall vs ws, coef vs r ws = coef vs r' ws).
  { intros EQ vs ws. assert (SS : same CO (vt us r) (vt us r')). { apply (same_eqb CO CL). intros v. rewrite !psum_coef, D, D', <- TT. destruct (within (s_tag r) us v) eqn:WI; [apply EQ; exact WI|reflexivity]. }
    assert (N : forall s : series, incl (s_ss s) us -> coef vs s ws = psum CO (fun v => vec_eqb (spread us vs v) ws) (vt us s)).
    { intros s Is. rewrite vt_psum. unfold nden. rewrite coef_nden. unfold nden. symmetry. apply (vden_spread KS CO us vs s (fun v => vec_eqb v ws) Is). }
    rewrite (N r I), (N r' I'). apply SS. }
  split; [exact X|]. intros b EB. destruct (equality_exact KO KS CO PO TO KL CL r r' W W' ltac:(lia)) as [(b' & E' & _ & Q)|[[Z0|Z0] _]]; try congruence. assert (b' = b) by congruence. subst b'. rewrite Q. split.
  - intros [_ Y] ws WI. pose proof (D ws) as A. pose proof (D' ws) as B. rewrite <- TT in B. rewrite WI in A, B. change (psum CO (fun v => vec_eqb v ws) (denotes us e) = psum CO (fun v => vec_eqb v ws) (denotes us e')). rewrite <- A, <- B. apply Y; split; auto.
  - intros Y. split; [|intros vs ws _ _; apply X; exact Y]. cbn. apply trunc_eqb_iff. exact TT.
Qed.

(** C101. In particular it does not matter when the truncation is set: two runs of the same program, one on truncated operands, the other on exact operands, truncated at the end, give results that are found equal. *)
Theorem truncation_commutes : forall e r r' b, ps_proper us e -> ps_computes e r -> ps_computes e r' -> s_tag r = s_tag r' -> series_equal_to KO CO PO TO r r' = Ok b -> b = true.
Proof. intros e r r' b P H H' TT EB. apply (proj2 (ps_programs_equal e e r r' P P H H' TT) b EB). reflexivity. Qed.
End Over.
End Truncation.
End PSE.

Print Assumptions ps_program_exact.
Print Assumptions ps_programs_equal.
Print Assumptions truncation_commutes.

(** * Non-vacuity: x = 1 + 2 a - 3 b^3 + 5 a b and y = 4 a - b, not truncated.  The program pow(x * y - (x + 3), 2) runs with the truncation 2 set on x and y, and on exact operands with the truncation set at
    the end; so does the program that expands the square; z has the truncation from the start. *)
Notation pruns := (ps_computes exK exS Z_cf exP tD t2).
Notation pX := (Given ps9_x).
Notation pY := (Given ps_y).
Notation pP := (ps_proper exK exS Z_cf t2).
Notation pden := (denotes exS Z_cf (fun z => z) Z.pow).
Definition pe_b : @expr Z Z trunc_t := Sum false (Product pX pY) (Shift false true pX 3).
Definition pe_1 := Power pe_b 2.
Definition pe_2 := Sum true (Assign false (Power (Product pX pY) 2) (Scale (Product (Product pX pY) (Shift true true (Trimmed pX) 3)) 2)) (Product (With (Shift false true pX 3) ["c"]%string) (Shift false true pX 3)).
Definition pe_3 := Sum true (Minus (Given ps_x)) (Product pX (Number 7)).
Definition dP : series Z Z trunc_t := series_default ps_tag_ops.
Definition dO (p : res unit * series Z Z trunc_t) : series Z Z trunc_t := snd p.
Definition px' := dO (set_truncation exK tD int32 2 ps9_x).
Definition py' := dO (set_truncation exK tD int32 2 ps_y).
Definition xmulx E (x y : series Z Z trunc_t) := get dP (ps_mul exK Z_cf exP E tD x y).
Definition xaddx (sign : bool) (x y : series Z Z trunc_t) := get dP (if sign then ps_add exK Z_cf exP tD x y else ps_sub exK Z_cf exP tD x y).
Definition xshift (sign : bool) (x : series Z Z trunc_t) c := get dP (ps_addsub_scalar exK Z_cf exP tD sign x c).
Definition pq' := xaddx false (xmulx (psE true 2) px' py') (xshift true px' 3).
Definition pr_early := get dP (fst (ps_powx 2 [] pq')).
Definition pq := xaddx false (xmulx (psE false 0) ps9_x ps_y) (xshift true ps9_x 3).
Definition pp := get dP (fst (ps_powx 2 [] pq)).
Definition pr_late := dO (set_truncation exK tD int32 2 pp).
Definition p_xy := xmulx (psE true 1) px' ps_y.
Definition p_sq := get dP (fst (ps_powx 2 [] p_xy)).
Definition p_tx := get dP (series_trim exK Z_cf exP ps_tag_ops ps9_x).
Definition p_s3 := get dP (scalar_addsub_ps exK Z_cf exP tD true 3 p_tx).
Definition p_d := series_scalar_mul exK Z_cf (xmulx (psE false 0) p_xy p_s3) 2.
Definition p_in := get dP (ps_in_place_addsub exK Z_cf exP tD false p_sq false p_d).
Definition p_w := get dP (add_symbols exK Z_cf exP ps_tag_ops (xshift true px' 3) ["c"]%string).
Definition p_ww := xmulx (psE true 2) p_w (xshift true ps9_x 3).
Definition pr_2 := xaddx true p_in p_ww.
Definition p_7 := get dP (series_of_cf exK Z_cf exP ps_tag_ops 7 []).
Definition p_x7 := xmulx (psE false 0) ps9_x p_7.
Definition pr_3 := xaddx true (series_negate Z_cf ps_x) p_x7.
Lemma p_lv : limit_value int32 2. Proof. apply ps9_x_ok. Qed.
Lemma p_given' : pruns pX px' /\ pruns pY py'.
Proof.
  split.
  - apply (psr_limit _ _ _ _ _ _ int32 2 _ ps9_x); [constructor|reflexivity|exact p_lv|vm_compute; reflexivity].
  - apply (psr_limit _ _ _ _ _ _ int32 2 _ ps_y); [constructor|reflexivity|exact p_lv|vm_compute; reflexivity].
Qed.
Lemma p_power E' a x r : E' = psE false 0 -> pruns a x -> fst (ps_powx 2 [] x) = Ok r -> pruns (Power a 2) r.
Proof. intros -> H ER. apply (psr_power _ _ _ _ _ _ [] (psE false 0) (fun c => Ok (cpower Z_cf c 2)) _ 2 x); [exact H|constructor|apply psE_ok|reflexivity|exact ER]. Qed.
Lemma p_early : pruns pe_1 pr_early.
Proof.
  destruct p_given' as [HX HY]. apply (p_power _ _ pq' _ eq_refl); [|vm_compute; reflexivity]. apply (psr_sum _ _ _ _ _ _ false _ _ (xmulx (psE true 2) px' py') (xshift true px' 3)); [| |vm_compute; reflexivity].
  - apply (psr_product _ _ _ _ _ _ (psE true 2) _ _ px' py'); [exact HX|exact HY|apply psE_ok|vm_compute; reflexivity].
  - apply (psr_shift _ _ _ _ _ _ false true _ 3 px'); [exact HX|vm_compute; reflexivity].
Qed.
Lemma p_late : pruns pe_1 pr_late.
Proof.
  apply (psr_limit _ _ _ _ _ _ int32 2 _ pp); [|reflexivity|exact p_lv|vm_compute; reflexivity]. apply (p_power _ _ pq _ eq_refl); [|vm_compute; reflexivity].
  apply (psr_sum _ _ _ _ _ _ false _ _ (xmulx (psE false 0) ps9_x ps_y) (xshift true ps9_x 3)); [| |vm_compute; reflexivity].
  - apply (psr_product _ _ _ _ _ _ (psE false 0) _ _ ps9_x ps_y); [constructor|constructor|apply psE_ok|vm_compute; reflexivity].
  - apply (psr_shift _ _ _ _ _ _ false true _ 3 ps9_x); [constructor|vm_compute; reflexivity].
Qed.
Lemma p_expanded : pruns pe_2 pr_2.
Proof.
  destruct p_given' as [HX HY].
  assert (HP : pruns (Product pX pY) p_xy) by (apply (psr_product _ _ _ _ _ _ (psE true 1) _ _ px' ps_y); [exact HX|constructor|apply psE_ok|vm_compute; reflexivity]).
  assert (HS : pruns (Shift false true pX 3) (xshift true ps9_x 3)) by (apply (psr_shift _ _ _ _ _ _ false true _ 3 ps9_x); [constructor|vm_compute; reflexivity]).
  apply (psr_sum _ _ _ _ _ _ true _ _ p_in p_ww); [| |vm_compute; reflexivity].
  - apply (psr_assign _ _ _ _ _ _ false false _ _ p_sq p_d); [apply (p_power _ _ p_xy _ eq_refl HP); vm_compute; reflexivity| |discriminate|vm_compute; reflexivity].
    unfold p_d. apply psr_scale. apply (psr_product _ _ _ _ _ _ (psE false 0) _ _ p_xy p_s3); [exact HP| |apply psE_ok|vm_compute; reflexivity].
    apply (psr_shift _ _ _ _ _ _ true true _ 3 p_tx); [|vm_compute; reflexivity]. apply (psr_trimmed _ _ _ _ _ _ _ ps9_x); [constructor|vm_compute; reflexivity].
  - apply (psr_product _ _ _ _ _ _ (psE true 2) _ _ p_w (xshift true ps9_x 3)); [|exact HS|apply psE_ok|vm_compute; reflexivity].
    apply (psr_with _ _ _ _ _ _ _ _ (xshift true px' 3)); [|vm_compute; reflexivity]. apply (psr_shift _ _ _ _ _ _ false true _ 3 px'); [exact HX|vm_compute; reflexivity].
Qed.
Lemma p_mixed : pruns pe_3 pr_3.
Proof.
  apply (psr_sum _ _ _ _ _ _ true _ _ (series_negate Z_cf ps_x) p_x7); [apply psr_minus; constructor| |vm_compute; reflexivity].
  apply (psr_product _ _ _ _ _ _ (psE false 0) _ _ ps9_x p_7); [constructor|constructor; vm_compute; reflexivity|apply psE_ok|vm_compute; reflexivity].
Qed.
Example ex_ps_programs : let us := ["a"; "b"; "c"]%string in
  sorted_set us /\ 2 * Z.of_nat (len us) <= imax size_t /\ (forall n, (n <= len us)%nat -> ks_fits exS (repeat 0 n)) /\ trunc_ok tD t2 /\ degrees_fit exS tD t2 /\
  pP us pe_1 /\ pP us pe_2 /\ pP us pe_3 /\ limited t2 pe_3 /\ pruns pe_1 pr_early /\ pruns pe_1 pr_late /\ pruns pe_2 pr_2 /\ pruns pe_3 pr_3 /\
  s_tag pr_early = t2 /\ s_tag pr_late = t2 /\ s_tag pr_2 = t2 /\ s_tag pr_3 = t2 /\ series_size pp = 32%nat /\ series_size pr_early = 6%nat /\
  xequal pr_early pr_late = Ok true /\ xequal pr_early pr_2 = Ok true /\ xequal pr_early pr_3 = Ok false /\
  coef exS Z_cf us pr_early [0; 0; 0] = 16 /\ total Z_cf (pden us pe_1) [0; 0; 0] = 16 /\ coef exS Z_cf us pr_early [1; 1; 0] = 52 /\ total Z_cf (pden us pe_1) [1; 1; 0] = 52 /\
  coef exS Z_cf us pr_early [2; 1; 0] = 0 /\ total Z_cf (pden us pe_1) [2; 1; 0] = -204.
Proof.
  intros us. destruct ps9_x_ok as (Wx & Tx & Nx & _), ps_y_wf as (Wy & Sy & _ & Ty), ps_x_wf as (Wz & Sz & _ & Tz), ps_x_nonneg as (Nz & Rz). rewrite Tz in Nz.
  assert (Sx : s_ss ps9_x = ["a"; "b"]%string) by (vm_compute; reflexivity).
  assert (SU : sorted_set us) by repeat constructor. assert (IN : incl ["a"; "b"]%string us) by (intros z [<-|[<-|[]]]; cbn; tauto).
  assert (Ny : no_negative exS t2 ps_y).
  { right. intros k c J. assert (A : forallb (fun e => 0 <=? degree_of (counted t2) (s_ss ps_y) (ks_exps exS (len (s_ss ps_y)) (fst e))) (terms ps_y) = true) by (vm_compute; reflexivity).
    rewrite forallb_forall in A. specialize (A _ J). apply Z.leb_le. exact A. }
  assert (PX : pP us pX) by (cbn [ps_proper]; rewrite Sx; split; [exact Wx|]; split; [exact IN|]; split; [left; exact Tx|]; split; [intros k c _; rewrite Tx; reflexivity|exact Nx]).
  assert (PY : pP us pY) by (cbn [ps_proper]; rewrite Sy; split; [exact Wy|]; split; [exact IN|]; split; [left; exact Ty|]; split; [intros k c _; rewrite Ty; reflexivity|exact Ny]).
  assert (PZ : pP us (Given ps_x)) by (cbn [ps_proper]; rewrite Sz; split; [exact Wz|]; split; [exact IN|]; split; [right; exact Tz|]; split; [exact Rz|exact Nz]).
  split; [exact SU|]. split; [vm_compute; discriminate|]. split; [intros n L; apply P_Expr.ex_zeros; exact L|]. split; [split; vm_compute; congruence|]. split; [apply ex_fit|].
  split; [exact (conj (conj PX PY) PX)|]. split.
  { split; [split; [exact (conj PX PY)|exact (conj (conj PX PY) PX)]|]. split; [|exact PX]. split; [exact PX|]. split; [repeat constructor|]. intros z [<-|[]]. cbn. tauto. }
  split; [exact (conj PZ (conj PX Logic.I))|]. split; [left; exact Tz|]. split; [exact p_early|]. split; [exact p_late|]. split; [exact p_expanded|]. split; [exact p_mixed|].
  do 14 (split; [vm_compute; reflexivity|]). vm_compute; reflexivity.
Qed.
