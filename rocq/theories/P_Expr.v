(** Property C100: any program of polynomial operations computes the polynomial that it denotes.  Vocabulary: ExprSpec.v ([expr]: expressions; [denotes]: the polynomial of an expression, as a formal
    sum; [total]: the coefficient of a monomial in it; [compute]: the value of an expression at a point), SeriesSpec.v ([coef]), P_Pow.v ([reachable]: the caches of powers left by earlier calls). *)
From Coq Require Import ZArith List Bool String Arith Sorted Permutation Lia Ring Ring_theory.
From Verif Require Import Base KpackModel KpackSpec KpackProofs P_Kpack PMonProofs IntModel IntSpec SymModel SymSpec SymProofs P_Sym PMonModel PMonSpec KeyOps KeyInst
  SeriesModel SeriesModel2 SeriesSpec SeriesProofs SeriesProofs2 SeriesProofs3 SeriesProofs4 SeriesProofs5 SeriesProofs6 Lin EvalSpec SeriesEval SeriesProofs7 CfInst P_Series P_Series2
  PolyModel PolyModel2 PolySpec PolyProofs7 PolyProofs8 PolyProofs9 P_Poly P_Poly2 PowProofs PowProofs2 P_Pow CalcSpec DiffProofs IntegProofs P_Calc SubsSpec SubsProofs P_Subs DomProofs P_Dom ExprSpec.
Import ListNotations.
Open Scope Z_scope.
Open Scope res_scope.
Local Notation len := List.length.

Section PE.
Context {K C Tag : Type} (KO : key_ops K) (KS : key_sem K) (CO : cf_ops C) (PO : tbl_policy (K * C)) (TO : tag_ops Tag).
Context (KL : key_laws KO KS) (CL : cf_laws CO).
Context (cz : Z -> C) (CZ : int_embedding CO cz) (vpow : C -> Z -> res C) (pw : C -> Z -> C).
Context (tV tD : ity) (HT : integral_type tD) (DI : degrees_in KS tD).
Notation series := (series K C Tag).
Notation WF := (wf KO KS CO).
Notation coef := (coef KS CO).
Notation exps s k := (ks_exps KS (List.length (s_ss s)) k).
Notation "0c" := (c_zero CO).
Infix "+c" := (c_add CO) (at level 50, left associativity).
Infix "*c" := (c_mul CO) (at level 40, left associativity).
Add Ring CringPE : (cl_ring _ CL).
Notation vterm := (list Z * C)%type.
Notation vt := (vt KS).
Notation expr := (@expr K C Tag).
Notation denotes := (denotes KS CO cz pw).
Notation total := (total CO).
Notation proper := (proper KO KS CO pw).

(** A run of the expression: each operation is a call of the library, in any environment (scheduling, hashing, segmentation) and with any cache of powers left by earlier calls, that returns
    normally.  The limits of truncations have type tV, the degrees type tD. *)
Inductive computes : expr -> series -> Prop :=
| run_given x : computes (Given x) x
| run_number c r : series_of_cf KO CO PO TO c [] = Ok r -> computes (Number c) r
| run_sum (sign : bool) a b x y r : computes a x -> computes b y -> (if sign then series_add KO CO PO TO x y else series_sub KO CO PO TO x y) = Ok r -> computes (Sum sign a b) r
| run_assign sign al a b x y r : computes a x -> computes b y -> (al = true -> y = x) -> series_in_place_addsub KO CO PO CO PO TO sign (fun c => c) x al y = Ok r -> computes (Assign sign a b) r
| run_minus a x : computes a x -> computes (Minus a) (series_negate CO x)
| run_scale a c x : computes a x -> computes (Scale a c) (series_scalar_mul KO CO x c)
| run_shift (onleft sign : bool) a c x r : computes a x -> (if onleft then scalar_addsub_series KO CO PO sign c x else series_addsub_scalar KO CO PO sign x c) = Ok r -> computes (Shift onleft sign a c) r
| run_product E a b x y r : computes a x -> computes b y -> env_ok KO KS E -> poly_mul KO CO PO TO E x y = Ok r -> computes (Product a b) r
| run_power m E cpow a n x r : computes a x -> reachable KO KS CO PO TO m -> env_ok KO KS E -> (forall c, cpow c = Ok (cpower CO c n)) ->
    fst (poly_pow KO CO PO TO E cpow (Some (Z.of_nat n)) (Nat.eqb n 0) (Some n) m x) = Ok r -> computes (Power a n) r
| run_derivative a s x r : computes a x -> poly_diff KO CO PO TO cz x s = Ok r -> computes (Derivative a s) r
| run_trimmed a x r : computes a x -> series_trim KO CO PO TO x = Ok r -> computes (Trimmed a) r
| run_with a ss x r : computes a x -> add_symbols KO CO PO TO x ss = Ok r -> computes (With a ss) r
| run_low a lim x r : computes a x -> limit_ok tV tD lim -> truncate_degree KO tV tD lim x = Ok r -> computes (Low a lim) r
| run_low_in a lim syms x r : computes a x -> limit_ok tV tD lim -> truncate_p_degree KO tV tD lim syms x = Ok r -> computes (LowIn a lim syms) r
| run_substitute a sm x r : computes a x -> powers_exist KS vpow pw sm x -> subs_scalar KO CO PO TO vpow x sm = Ok r -> computes (Substitute a sm) r.

Lemma as_formal_vt us (x : series) : as_formal KS us x = vt us x. Proof. reflexivity. Qed.
Lemma f_mul_vprod F G : f_mul CO F G = vprod CO F G. Proof. reflexivity. Qed.
Lemma f_diff_dterm us s F : f_diff CO cz us s F = map (dterm CO cz us s) F. Proof. reflexivity. Qed.
Lemma total_psum F ws : total F ws = psum CO (fun v => vec_eqb v ws) F. Proof. reflexivity. Qed.

(** Maps of terms that are linear in the coefficient respect the equality of formal sums. *)
Lemma map_same (g : list Z -> list Z) (w : list Z -> C) (l l' : list vterm) : same CO l l' -> same CO (map (fun t => (g (fst t), w (fst t) *c snd t)) l) (map (fun t => (g (fst t), w (fst t) *c snd t)) l').
Proof.
  intros H Q. assert (X : forall l : list vterm, psum CO Q (map (fun t => (g (fst t), w (fst t) *c snd t)) l) = lin 0c (c_add CO) (c_mul CO) (fun c => c) (fun v => w v *c (if Q (g v) then c_one CO else 0c)) l).
  { induction l0 as [|e l0 IH]; [reflexivity|]. cbn [map lin]. rewrite (psum_cons CO CL), IH. cbn [fst snd]. destruct (Q _); cbn [ifP]; ring. }
  rewrite !X. apply (lin_ext CO _ _ _ _ _ _ (cl_ring CO CL) (list_eq_dec Z.eq_dec) (fun c => c)); auto.
Qed.
Lemma neg_psum Q (l : list vterm) : psum CO Q (f_neg CO l) = c_neg CO (psum CO Q l).
Proof. unfold f_neg. induction l as [|e l IH]; [unfold psum; cbn; ring|]. cbn [map]. rewrite !(psum_cons CO CL), IH. cbn [fst snd]. destruct (Q (fst e)); cbn [ifP]; ring. Qed.
Lemma sum_psum Q (sign : bool) (l l' : list vterm) : psum CO Q (f_sum CO sign l l') = if sign then psum CO Q l +c psum CO Q l' else c_sub CO (psum CO Q l) (psum CO Q l').
Proof. unfold f_sum. destruct sign; rewrite (psum_app CO CL); [reflexivity|]. rewrite neg_psum. ring. Qed.
Lemma low_psum Q (P : list Z -> bool) (l : list vterm) : psum CO Q (filter (fun t => P (fst t)) l) = psum CO (fun v => P v && Q v) l.
Proof. induction l as [|e l IH]; [reflexivity|]. cbn [filter]. rewrite (psum_cons CO CL (fun v => P v && Q v)). destruct (P (fst e)); [rewrite (psum_cons CO CL), IH; reflexivity|]. cbn [andb ifP]. rewrite IH. ring. Qed.
Lemma coef_same us (x : series) F : (forall ws, coef us x ws = psum CO (fun v => vec_eqb v ws) F) -> same CO (vt us x) F.
Proof. intros H. apply (same_eqb CO CL). intros v. rewrite vt_psum, <- coef_nden. apply H. Qed.
Lemma same_coef us (x : series) F ws : same CO (vt us x) F -> coef us x ws = psum CO (fun v => vec_eqb v ws) F.
Proof. intros H. rewrite coef_nden, <- vt_psum. apply H. Qed.
Lemma spread0 ss us : spread ss us (repeat 0 (len ss)) = repeat 0 (len us).
Proof.
  unfold spread. assert (H : forall s, expo ss (repeat 0 (len ss)) s = 0). { intros s. induction ss as [|a ss IH]; [reflexivity|]. cbn [List.length repeat expo]. destruct (String.eqb a s); auto. }
  induction us as [|z us IH]; [reflexivity|]. cbn [map List.length repeat]. rewrite H, IH. reflexivity.
Qed.
Lemma const_prod us c (l : list vterm) : (forall e, In e l -> len (fst e) = len us) -> forall Q, psum CO Q (vprod CO l (f_const us c)) = psum CO Q l *c c.
Proof.
  intros L Q. rewrite (same_swap CO CL l (f_const us c) Q). unfold f_const. rewrite vprod_cons. unfold vprod at 1. cbn [list_prod map]. rewrite List.app_nil_r.
  induction l as [|[v d] l IH]; [unfold psum; cbn; ring|]. cbn [map]. rewrite !(psum_cons CO CL), IH by (intros; apply L; right; auto). unfold vmulp. cbn [fst snd].
  assert (E : vadd (repeat 0 (len us)) v = v). { specialize (L _ (or_introl eq_refl)). cbn [fst] in L. rewrite <- L. clear. induction v as [|a v IH]; [reflexivity|]. cbn [List.length repeat]. rewrite vadd_cons, IH. reflexivity. }
  rewrite E. destruct (Q v); cbn [ifP]; ring.
Qed.
Lemma pow_same us F G : same CO F G -> forall n, same CO (f_pow CO us F n) (f_pow CO us G n).
Proof. intros H. induction n as [|n IH]; [apply same_refl|]. cbn [f_pow]. rewrite !f_mul_vprod. apply (same_prod CO CL); auto. Qed.
Lemma pow_powl us (x : series) : forall n, f_pow CO us (vt us x) n = powl KS CO us x n.
Proof. induction n as [|n IH]; [reflexivity|]. cbn [f_pow powl]. rewrite IH. reflexivity. Qed.
Lemma keep_spread (sm : symbol_map C) ss us v : incl ss us -> NoDup us -> spread ss us (keep sm ss v) = keep sm us (spread ss us v).
Proof.
  intros I N. unfold keep, spread. apply map_ext_in. intros z J. rewrite !expo_map. destruct (in_dec string_dec z us) as [_|]; [|contradiction]. destruct (assoc sm z) eqn:A.
  - destruct (in_dec string_dec z ss); [|reflexivity]. rewrite ?A. reflexivity.
  - destruct (in_dec string_dec z ss) as [i|i]; [rewrite ?A; reflexivity|]. symmetry. apply expo_notin. exact i.
Qed.
Lemma denotes_len us : forall (e : expr) t, In t (denotes us e) -> len (fst t) = len us.
Proof.
  assert (CN : forall c (t : vterm), In t (f_const us c) -> len (fst t) = len us) by (intros c t [<-|[]]; apply repeat_length).
  assert (NG : forall F, (forall t : vterm, In t F -> len (fst t) = len us) -> forall t, In t (f_neg CO F) -> len (fst t) = len us) by (intros F H t I; apply in_map_iff in I as (t' & <- & I); exact (H t' I)).
  assert (SM : forall (sign : bool) F G, (forall t : vterm, In t F -> len (fst t) = len us) -> (forall t, In t G -> len (fst t) = len us) -> forall t, In t (f_sum CO sign F G) -> len (fst t) = len us)
    by (intros sign F G HF HG t I; apply in_app_or in I as [I|I]; [auto|]; destruct sign; [auto|eapply NG; eauto]).
  assert (MU : forall F G, (forall t : vterm, In t F -> len (fst t) = len us) -> (forall t, In t G -> len (fst t) = len us) -> forall t, In t (f_mul CO F G) -> len (fst t) = len us) by (intros F G HF HG; rewrite f_mul_vprod; apply vprod_len; auto).
  induction e as [x|c|sign a IHa b IHb|sign a IHa b IHb|a IHa|a IHa c|onleft sign a IHa c|a IHa b IHb|a IHa n|a IHa s|a IHa|a IHa ss|a IHa lim|a IHa lim syms|a IHa sm]; cbn [ExprSpec.denotes]; intros t I.
  - eapply vt_len; eauto.
  - eauto.
  - exact (SM sign _ _ IHa IHb t I).
  - exact (SM sign _ _ IHa IHb t I).
  - exact (NG _ IHa t I).
  - exact (MU _ _ IHa (CN c) t I).
  - destruct onleft; [exact (SM sign _ _ (CN c) IHa t I)|exact (SM sign _ _ IHa (CN c) t I)].
  - exact (MU _ _ IHa IHb t I).
  - revert t I. induction n as [|n IH]; cbn [f_pow]; [apply CN|]. exact (MU _ _ IH IHa).
  - apply in_map_iff in I as (t' & <- & I). cbn [fst]. rewrite bump_len; auto.
  - auto.
  - auto.
  - apply filter_In in I as [I _]. auto.
  - apply filter_In in I as [I _]. auto.
  - apply in_map_iff in I as (t' & <- & I). cbn [fst]. unfold keep. apply map_length.
Qed.

Section Over.
Context (us : symbol_set) (SU : sorted_set us) (BU : 2 * Z.of_nat (len us) <= imax size_t) (ZF : forall n, (n <= len us)%nat -> ks_fits KS (repeat 0 n)).
Definition good (x : series) (F : list vterm) : Prop := WF x /\ incl (s_ss x) us /\ same CO (vt us x) F.

Lemma good_len x F : good x F -> (len (s_ss x) <= len us)%nat.
Proof. intros (W & I & _). apply NoDup_incl_length; [apply sorted_set_nodup, (wf_ss _ _ _ _ W)|exact I]. Qed.
Lemma good_covers x F : good x F -> covers us x.
Proof. intros (W & I & _). split; auto. Qed.
Lemma const_psum c Q : psum CO Q (f_const us c) = if Q (repeat 0 (len us)) then c else 0c.
Proof. unfold f_const. rewrite (psum_cons CO CL). cbn [fst snd]. destruct (Q _); cbn [ifP]; unfold psum; cbn; ring. Qed.
Lemma union_incl x y (r : series) F G : good x F -> good y G -> union_of (s_ss x) (s_ss y) (s_ss r) -> incl (s_ss r) us.
Proof. intros (_ & IX & _) (_ & IY & _) [_ U] z J. apply U in J as [J|J]; auto. Qed.

(** A single term with zero exponents. *)
Lemma good_const c r : series_of_cf KO CO PO TO c [] = Ok r -> good r (f_const us c).
Proof.
  intros E. destruct (of_coefficient_exact KO KS CO PO TO KL CL c [] ltac:(constructor) (ZF 0%nat ltac:(lia))) as (r' & E' & W & S & _ & Z0 & NZ & _). assert (r' = r) by congruence. subst r'.
  split; [exact W|]. split; [rewrite S; intros z []|]. intros Q. rewrite const_psum, vt_psum. unfold nden, vden.
  destruct (c_is_zero CO c) eqn:EZ.
  - apply (cl_zero _ CL) in EZ. rewrite (Z0 EZ), EZ. destruct (Q _); reflexivity.
  - assert (N : c <> 0c) by (intros H; apply (cl_zero _ CL) in H; congruence). destruct (NZ N) as (k & T & X). rewrite T, (psum_cons CO CL). cbn [fst snd]. rewrite S. cbn [List.length] in *. rewrite X. cbn [repeat].
    replace (spread [] us []) with (repeat 0 (len us)) by (symmetry; apply (spread0 [] us)). destruct (Q _); cbn [ifP]; unfold psum; cbn; ring.
Qed.
(** Truncations. *)
Lemma good_low sel lim x F (r : series) : good x F -> WF r -> s_ss r = s_ss x -> (forall k c, In (k, c) (terms r) <-> In (k, c) (terms x) /\ degree_of sel (s_ss x) (exps x k) <= lim) -> good r (f_low sel us lim F).
Proof.
  intros G W S M. pose proof (good_covers _ _ G) as CX. pose proof G as (Wx & IX & D). assert (CR : covers us r) by (split; [exact SU|rewrite S; exact IX]). split; [exact W|]. split; [rewrite S; exact IX|]. apply coef_same. intros ws. unfold f_low. rewrite (low_psum _ (fun v => degree_of sel us v <=? lim)).
  assert (DG : forall k c, In (k, c) (terms x) -> degree_of sel us (spread (s_ss x) us (exps x k)) = degree_of sel (s_ss x) (exps x k)).
  { intros k c J. apply degree_spread; [apply sorted_set_nodup, (wf_ss _ _ _ _ Wx)|apply sorted_set_nodup; exact SU|exact IX|]. apply (kl_len _ _ KL). eapply wf_valid; eauto. }
  rewrite <- (D _). transitivity (if degree_of sel us ws <=? lim then coef us x ws else 0c).
  - destruct (Z.leb_spec (degree_of sel us ws) lim) as [LE|GT].
    + destruct (c_is_zero CO (coef us x ws)) eqn:EZ.
      * apply (cl_zero _ CL) in EZ. rewrite EZ. apply (coef_zero KS CO CL). intros k c J E. apply M in J as [J _]. apply (wf_nonzero _ _ _ _ Wx k c J). rewrite <- (coef_term KO KS CO KL CL us x k c Wx CX J). rewrite S in E. rewrite E. exact EZ.
      * assert (N : coef us x ws <> 0c) by (intros H; apply (cl_zero _ CL) in H; congruence). apply (coef_nonzero KO KS CO KL CL us x ws Wx CX) in N as (k & c & J & <-). rewrite (coef_term KO KS CO KL CL us x k c Wx CX J).
        assert (JR : In (k, c) (terms r)) by (apply M; split; [exact J|]; rewrite <- (DG k c J); exact LE). rewrite <- S. rewrite (coef_term KO KS CO KL CL us r k c W CR JR). reflexivity.
    + apply (coef_zero KS CO CL). intros k c J E. apply M in J as [J H]. rewrite S in E. rewrite <- (DG k c J), E in H. lia.
  - rewrite coef_nden, <- vt_psum. destruct (degree_of sel us ws <=? lim) eqn:EL.
    + apply (psum_ext CO CL). intros v c J. destruct (vec_eqb v ws) eqn:EV; [apply vec_eqb_iff in EV; subst v; rewrite EL; reflexivity|rewrite andb_false_r; reflexivity].
    + symmetry. apply (psum_false CO CL). intros v c J. destruct (vec_eqb v ws) eqn:EV; [apply vec_eqb_iff in EV; subst v; rewrite EL; reflexivity|apply andb_false_r].
Qed.

Lemma run_good : forall e r, computes e r -> proper us e -> good r (denotes us e).
Proof.
  induction 1 as [x|c r E|sign a b x y r Ha IHa Hb IHb E|sign al a b x y r Ha IHa Hb IHb AL E|a x Ha IHa|a c x Ha IHa|onleft sign a c x r Ha IHa E|Ev a b x y r Ha IHa Hb IHb EO E|m Ev cpow a n x r Ha IHa R EO CP E|a s x r Ha IHa E|a x r Ha IHa E|a ss x r Ha IHa E|a lim x r Ha IHa LO E|a lim syms x r Ha IHa LO E|a sm x r Ha IHa PE E];
    cbn [ExprSpec.proper ExprSpec.denotes]; intros P.
  - destruct P as [W I]. split; [exact W|]. split; [exact I|]. apply same_refl.
  - apply good_const. exact E.
  - destruct P as [Pa Pb]. specialize (IHa Pa). specialize (IHb Pb). pose proof (good_len _ _ IHa). pose proof (good_len _ _ IHb). pose proof IHa as (Wx & IX & DX). pose proof IHb as (Wy & IY & DY).
    destruct (add_sub_exact KO KS CO PO TO KL CL sign x y Wx Wy ltac:(lia)) as [(r' & E' & W & U & _ & _ & D)|[[X|X] _]]; try congruence. assert (r' = r) by congruence. subst r'.
    split; [exact W|]. split; [exact (union_incl x y r _ _ IHa IHb U)|]. apply coef_same. intros ws. rewrite D, sum_psum, (same_coef _ _ _ _ DX), (same_coef _ _ _ _ DY). reflexivity.
  - destruct P as [Pa Pb]. specialize (IHa Pa). specialize (IHb Pb). pose proof (good_len _ _ IHa). pose proof (good_len _ _ IHb). pose proof IHa as (Wx & IX & DX). pose proof IHb as (Wy & IY & DY).
    destruct (in_place_exact KO KS CO PO TO KL CL sign x al y Wx Wy AL ltac:(lia)) as [(r' & E' & W & U & _ & D & _)|[[X|X] _]]; try congruence. assert (r' = r) by congruence. subst r'.
    split; [exact W|]. split; [exact (union_incl x y r _ _ IHa IHb U)|]. apply coef_same. intros ws. rewrite D, sum_psum, (same_coef _ _ _ _ DX), (same_coef _ _ _ _ DY). reflexivity.
  - specialize (IHa P). pose proof IHa as (Wx & IX & DX). destruct (negate_exact KO KS CO CL x Wx) as (W & S & _ & _ & _ & D). split; [exact W|]. split; [rewrite S; exact IX|]. apply coef_same. intros ws. rewrite D, neg_psum, (same_coef _ _ _ _ DX). reflexivity.
  - specialize (IHa P). pose proof IHa as (Wx & IX & DX). destruct (scalar_mul_exact KO KS CO KL CL x c Wx) as (W & S & _ & D & _). split; [exact W|]. split; [rewrite S; exact IX|]. apply coef_same. intros ws. rewrite D, f_mul_vprod.
    rewrite const_prod by (intros t; apply denotes_len). rewrite (same_coef _ _ _ _ DX). reflexivity.
  - specialize (IHa P). pose proof (good_len _ _ IHa) as LX. pose proof IHa as (Wx & IX & DX).
    destruct (scalar_addsub_exact KO KS CO PO KL CL sign x c Wx (ZF _ LX) _ onleft eq_refl) as [(r' & E' & W & S & _ & _ & D)|[X _]]; try congruence. assert (r' = r) by congruence. subst r'.
    split; [exact W|]. split; [rewrite S; exact IX|].
    (* over us *)
    set (K1 := f_const (s_ss x) c). assert (SX : sorted_set (s_ss x)) by apply (wf_ss _ _ _ _ Wx).
    assert (CP : forall Q, psum CO Q K1 = if Q (repeat 0 (len (s_ss x))) then c else 0c). { intros Q. unfold K1, f_const. rewrite (psum_cons CO CL). cbn [fst snd]. destruct (Q _); cbn [ifP]; unfold psum; cbn; ring. }
    assert (DS : same CO (vt (s_ss x) r) (if onleft then f_sum CO sign K1 (vt (s_ss x) x) else f_sum CO sign (vt (s_ss x) x) K1)).
    { apply coef_same. intros ws. rewrite D. cbv zeta. assert (SWP : vec_eqb ws (repeat 0 (len (s_ss x))) = vec_eqb (repeat 0 (len (s_ss x))) ws) by (apply eq_iff_eq_true; rewrite !vec_eqb_iff; split; auto).
      rewrite SWP, coef_nden, <- vt_psum. destruct onleft; rewrite sum_psum, CP; reflexivity. }
    assert (L : forall (s : series) Q, incl (s_ss s) (s_ss x) -> psum CO Q (vt us s) = psum CO (fun v => Q (spread (s_ss x) us v)) (vt (s_ss x) s)).
    { intros s Q I. rewrite !vt_psum. symmetry. apply (vden_spread KS CO (s_ss x) us s Q I). }
    intros Q. rewrite L by (rewrite S; apply incl_refl). rewrite (DS _). specialize (DX Q). rewrite (L x Q (incl_refl _)) in DX.
    destruct onleft; rewrite !sum_psum, CP, const_psum, spread0, DX; reflexivity.
  - destruct P as [Pa Pb]. specialize (IHa Pa). specialize (IHb Pb). pose proof (good_len _ _ IHa). pose proof (good_len _ _ IHb). pose proof IHa as (Wx & IX & DX). pose proof IHb as (Wy & IY & DY).
    assert (B : Z.of_nat (len (s_ss x) + len (s_ss y)) <= imax size_t) by lia. destruct (mul_exact' KO KS CO PO TO KL CL Ev x y r EO Wx Wy B E) as (W & U & _). assert (IR : incl (s_ss r) us) by (exact (union_incl x y r _ _ IHa IHb U)).
    split; [exact W|]. split; [exact IR|]. rewrite f_mul_vprod. eapply same_trans; [apply (mul_same KO KS CO PO TO KL CL Ev x y r us EO Wx Wy B E SU IR)|]. apply (same_prod CO CL); auto.
  - specialize (IHa P). pose proof (good_len _ _ IHa) as LX. pose proof (good_covers _ _ IHa) as CX. pose proof IHa as (Wx & IX & DX). assert (PC : pow_call KO KS CO PO TO x n r) by (exists m, Ev, cpow; auto).
    assert (F0 : ks_fits KS []) by (apply (ZF 0%nat); lia). pose proof (pow_call_is KO KS CO PO TO KL CL F0 x r n Wx ltac:(lia) PC) as IP. pose proof IP as (W & IR & _).
    split; [exact W|]. split; [intros z J; apply IX, IR, J|]. eapply same_trans; [apply (power_same KO KS CO CL us x r n IP CX)|]. rewrite <- pow_powl. apply pow_same. exact DX.
  - specialize (IHa P). pose proof (good_covers _ _ IHa) as CX. pose proof IHa as (Wx & IX & DX). destruct (diff_ok KO KS CO PO TO KL CL cz CZ x r s Wx E) as (W & S & D). split; [exact W|]. split; [rewrite S; exact IX|].
    rewrite f_diff_dterm. eapply same_trans; [apply D; exact CX|]. apply (dterm_same CO CL cz). exact DX.
  - specialize (IHa P). pose proof IHa as (Wx & IX & DX). destruct (trim_ok KO KS CO PO TO KL CL x Wx) as (r' & E' & W & Z0 & _ & _ & D & _). assert (r' = r) by congruence. subst r'. split; [exact W|]. split.
    + intros z J. apply Z0 in J as (i & J & _). apply IX. eapply nth_error_In; eauto.
    + intros Q. rewrite vt_psum, D, <- vt_psum. apply DX.
  - destruct P as (P & SS & IS). specialize (IHa P). pose proof (good_len _ _ IHa) as LX. pose proof IHa as (Wx & IX & DX). assert (LS : (len ss <= len us)%nat) by (apply NoDup_incl_length; [apply sorted_set_nodup; exact SS|exact IS]).
    destruct (add_symbols_exact KO KS CO PO TO KL CL x ss Wx SS ltac:(lia)) as [(r' & E' & W & [_ U] & _ & _ & D)|[[X|X] _]]; try congruence. assert (r' = r) by congruence. subst r'. split; [exact W|]. split; [intros z J; apply U in J as [J|J]; auto|].
    apply coef_same. intros ws. rewrite D. apply same_coef. exact DX.
  - specialize (IHa P). pose proof IHa as (Wx & IX & DX). destruct (truncate_degree_exact CO K KO KS tV tD lim x KL HT LO DI Wx) as [(r' & E' & W & S & _ & _ & M & _)|[X _]]; try congruence. assert (r' = r) by congruence. subst r'. eapply good_low; eauto.
  - destruct P as [P SY]. specialize (IHa P). pose proof IHa as (Wx & IX & DX). destruct (truncate_p_degree_exact CO K KO KS tV tD lim syms x KL HT LO DI Wx SY) as [(r' & E' & W & S & _ & _ & M & _)|[X _]]; try congruence. assert (r' = r) by congruence. subst r'. eapply good_low; eauto.
  - destruct P as (P & SY & P0). specialize (IHa P). pose proof (good_len _ _ IHa) as LX. pose proof (good_covers _ _ IHa) as CX. pose proof IHa as (Wx & IX & DX).
    destruct (subs_scalar_ok KO KS CO PO TO KL CL vpow pw x sm Wx SY PE ltac:(lia)) as (r' & E' & W & S & D). assert (r' = r) by congruence. subst r'. split; [exact W|]. split; [destruct S as [S|[_ ->]]; [rewrite S; exact IX|intros z []]|].
    eapply same_trans; [apply D; exact CX|]. unfold f_subs. eapply same_trans; [|apply (map_same (fun v => keep sm us v) (fun v => mono (c_one CO) (c_mul CO) pw sm us v us)); exact DX].
    unfold SeriesEval.vt. rewrite map_map. intros Q. f_equal. apply map_ext. intros e. unfold sterm. cbn [fst snd]. f_equal.
    + apply keep_spread; [exact IX|apply sorted_set_nodup; exact SU].
    + f_equal. rewrite mono_spread by (try exact IX; apply sorted_set_nodup; exact SU). symmetry.
      apply (mono_more CO 0c (c_one CO) (c_add CO) (c_mul CO) (c_sub CO) (c_neg CO) (cl_ring _ CL) vpow pw (fun c => c) eq_refl); [exact P0| | |apply sorted_set_nodup; exact SU|exact IX]; apply sorted_set_nodup; [exact SY|apply (wf_ss _ _ _ _ Wx)].
Qed.

(** C100. The result is a valid polynomial whose symbols are among us and whose coefficients are those of the polynomial denoted by the expression. *)
Theorem program_exact : forall e r, proper us e -> computes e r -> WF r /\ incl (s_ss r) us /\ forall ws, coef us r ws = total (denotes us e) ws.
Proof. intros e r P H. destruct (run_good e r H P) as (W & I & D). split; [exact W|]. split; [exact I|]. intros ws. apply same_coef. exact D. Qed.

(** C100. Two programs that denote the same polynomial compute results with the same coefficients over any symbols, and the library finds the results equal (if their tags are and the comparison does not
    throw); conversely results that are found equal come from programs that denote the same polynomial. *)
Theorem programs_equal : forall e e' r r', proper us e -> proper us e' -> computes e r -> computes e' r' ->
  ((forall ws, total (denotes us e) ws = total (denotes us e') ws) -> forall vs ws, coef vs r ws = coef vs r' ws) /\
  (forall b, series_equal_to KO CO PO TO r r' = Ok b -> tags_equal TO (s_tag r) (s_tag r') -> (b = true <-> forall ws, total (denotes us e) ws = total (denotes us e') ws)).
Proof.
  intros e e' r r' P P' H H'. pose proof (run_good e r H P) as G. pose proof (run_good e' r' H' P') as G'. pose proof (good_len _ _ G) as L. pose proof (good_len _ _ G') as L'. pose proof G as (W & I & D). pose proof G' as (W' & I' & D').
  assert (X : (forall ws, total (denotes us e) ws = total (denotes us e') ws) -> forall vs ws, coef vs r ws = coef vs r' ws).
  { intros EQ vs ws. assert (SS : same CO (vt us r) (vt us r')). { eapply same_trans; [exact D|]. eapply same_trans; [|apply same_sym; exact D']. apply (same_eqb CO CL). exact EQ. }
    assert (N : forall s : series, incl (s_ss s) us -> coef vs s ws = psum CO (fun v => vec_eqb (spread us vs v) ws) (vt us s)).
    { intros s Is. rewrite vt_psum. unfold nden. rewrite coef_nden. unfold nden. symmetry. apply (vden_spread KS CO us vs s (fun v => vec_eqb v ws) Is). }
    rewrite (N r I), (N r' I'). apply SS. }
  split; [exact X|]. intros b EB T. destruct (equality_exact KO KS CO PO TO KL CL r r' W W' ltac:(lia)) as [(b' & E' & _ & Q)|[[Z0|Z0] _]]; try congruence. assert (b' = b) by congruence. subst b'. rewrite Q. split.
  - intros [_ Y] ws.
    rewrite total_psum, <- (same_coef us r _ ws D), total_psum, <- (same_coef us r' _ ws D'). apply Y; split; auto.
  - intros Y. split; [exact T|]. intros vs ws _ _. apply X. exact Y.
Qed.
End Over.

(** ** Values *)
Context {V U : Type} (vzero vone : V) (va vm vs : V -> V -> V) (vo : V -> V) (VR : ring_theory vzero vone va vm vs vo (@eq V)).
Context (vpowv : U -> Z -> res V) (pwv : U -> Z -> V) (ceval : C -> res V) (h : C -> V).
Context (HC : forall c, ceval c = Ok (h c)) (h0 : h 0c = vzero) (hone : h (c_one CO) = vone) (h1 : forall a b, h (a +c b) = va (h a) (h b)) (hm : forall a b, h (a *c b) = vm (h a) (h b)).
Add Ring VringPE : VR.
Notation LIN := (lin vzero va vm h).
Notation compute := (compute KS vzero vone va vm vs vo pwv h).

Lemma h_neg c : h (c_neg CO c) = vo (h c).
Proof.
  assert (E : va (h (c_neg CO c)) (h c) = vzero) by (rewrite <- h1, <- h0; f_equal; ring).
  transitivity (va (va (h (c_neg CO c)) (h c)) (vo (h c))); [ring|]. rewrite E. ring.
Qed.
Lemma lin_neg w (F : list vterm) : LIN w (f_neg CO F) = vo (LIN w F).
Proof. unfold f_neg. induction F as [|e F IH]; cbn [map lin fst snd]; [ring|]. rewrite IH, h_neg. ring. Qed.
Lemma lin_fsum w (sign : bool) F G : LIN w (f_sum CO sign F G) = if sign then va (LIN w F) (LIN w G) else vs (LIN w F) (LIN w G).
Proof. unfold f_sum. rewrite (lin_app vzero vone va vm vs vo VR h). destruct sign; [reflexivity|]. rewrite lin_neg. ring. Qed.

(** The exponents of the denotation of an arithmetic expression. *)
Lemma denotes_in (Ex : Z -> Prop) us : Ex 0 -> (forall a b, Ex a -> Ex b -> Ex (a + b)) -> forall e : expr, arithmetic e -> objects_in KS Ex e -> forall t, In t (denotes us e) -> Forall Ex (fst t).
Proof.
  intros E0 EA. assert (CN : forall c (t : vterm), In t (f_const us c) -> Forall Ex (fst t)) by (intros c t [<-|[]]; cbn [fst]; apply Forall_forall; intros z J; apply repeat_spec in J; subst; exact E0).
  assert (NG : forall F, (forall t : vterm, In t F -> Forall Ex (fst t)) -> forall t, In t (f_neg CO F) -> Forall Ex (fst t)) by (intros F H t I; apply in_map_iff in I as (t' & <- & I); exact (H t' I)).
  assert (SM : forall (sign : bool) F G, (forall t : vterm, In t F -> Forall Ex (fst t)) -> (forall t, In t G -> Forall Ex (fst t)) -> forall t, In t (f_sum CO sign F G) -> Forall Ex (fst t))
    by (intros sign F G HF HG t I; apply in_app_or in I as [I|I]; [auto|]; destruct sign; [auto|eapply NG; eauto]).
  assert (MU : forall F G, (forall t : vterm, In t F -> Forall Ex (fst t)) -> (forall t, In t G -> Forall Ex (fst t)) -> forall t, In t (f_mul CO F G) -> Forall Ex (fst t)).
  { intros F G HF HG t I. apply in_map_iff in I as ([p q] & <- & I). apply in_prod_iff in I as [I J]. cbn [fst snd]. specialize (HF _ I). specialize (HG _ J). unfold vadd. apply Forall_forall. intros z K1. apply in_map_iff in K1 as ([a b] & <- & K1).
    apply EA; [apply (proj1 (Forall_forall _ _) HF); eapply in_combine_l; eauto|apply (proj1 (Forall_forall _ _) HG); eapply in_combine_r; eauto]. }
  induction e as [x|c|sign a IHa b IHb|sign a IHa b IHb|a IHa|a IHa c|onleft sign a IHa c|a IHa b IHb|a IHa n|a IHa s|a IHa|a IHa ss|a IHa lim|a IHa lim syms|a IHa sm]; cbn [ExprSpec.denotes arithmetic objects_in]; intros A O; try contradiction.
  - intros t I. exact (proj2 (vt_in KS Ex us x t E0 O I)).
  - apply CN.
  - destruct A, O. apply SM; auto.
  - destruct A, O. apply SM; auto.
  - apply NG; auto.
  - apply MU; [auto|apply CN].
  - destruct onleft; apply SM; auto; apply CN.
  - destruct A, O. apply MU; auto.
  - induction n as [|n IH]; cbn [f_pow]; [apply CN|]. apply MU; auto.
  - auto.
  - auto.
Qed.

(** C100. The value of the result of an arithmetic program at a point is what the program computes on the values of its objects: evaluate(f(x, y, ...), m) = f(evaluate(x, m), evaluate(y, m), ...). *)
Theorem program_value : forall us (Ex : Z -> Prop) (m : symbol_map U) e r, sorted_set us -> 2 * Z.of_nat (len us) <= imax size_t -> (forall n, (n <= len us)%nat -> ks_fits KS (repeat 0 n)) ->
  sorted_set (map fst m) -> incl us (map fst m) -> pow0 vone pwv m -> pow_adds vm pwv Ex m -> (forall a b, Ex a -> Ex b -> Ex (a + b)) ->
  proper us e -> arithmetic e -> objects_in KS Ex e -> computes e r -> powers_exist KS vpowv pwv m r ->
  series_evaluate KO vzero vone va vm vpowv ceval r m = Ok (compute m e).
Proof.
  intros us Ex m e r SU BU ZF Sm Im P0 PA EA P A O H PR. destruct (run_good us SU BU ZF e r H P) as (W & I & D).
  rewrite (proj2 (evaluate_exact KO KS CO KL vzero vone va vm vs vo VR vpowv pwv ceval h HC h0 m r W Sm)); [|intros z J; apply Im, I, J|exact PR]. f_equal.
  set (w := fun ws => mono vone vm pwv m us ws us).
  rewrite (value_lin KO KS CO vzero vone va vm vs vo VR vpowv pwv h h0 m us r W (conj SU I) Sm P0). fold w.
  rewrite (lin_ext CO vzero vone va vm vs vo VR (list_eq_dec Z.eq_dec) h h0 h1 w (vt us r) (denotes us e)) by (intros a; apply D). clear r H PR W I D.
  pose proof (fun e => denotes_in Ex us (proj1 PA) EA e) as DE.
  assert (WC : forall c, LIN w (f_const us c) = h c).
  { intros c. unfold f_const. cbn [lin fst snd]. assert (W0 : w (repeat 0 (len us)) = vone); [|rewrite W0; ring]. unfold w, mono. assert (EX : forall z, expo us (repeat 0 (len us)) z = 0). { clear. induction us as [|a us IH]; intros z; [reflexivity|]. cbn [List.length repeat expo]. destruct (String.eqb a z); auto. }
    assert (FZ : forall us', fold_right vm vone (map (factor vone pwv m us (repeat 0 (len us))) us') = vone); [|apply FZ]. induction us' as [|z us' IH]; [reflexivity|]. cbn [map fold_right]. rewrite IH. unfold factor. destruct (assoc m z) as [v|] eqn:AZ; [|ring]. rewrite EX.
    apply (assoc_in CO vzero vone va vm vs vo VR vpowv pwv h h0 m z v (sorted_set_nodup _ Sm)) in AZ. rewrite (P0 _ _ AZ). ring. }
  assert (WM : forall F G, (forall t : vterm, In t F -> len (fst t) = len us /\ Forall Ex (fst t)) -> (forall t, In t G -> len (fst t) = len us /\ Forall Ex (fst t)) -> LIN w (f_mul CO F G) = vm (LIN w F) (LIN w G)).
  { intros F G HF HG. rewrite f_mul_vprod. apply (lin_vprod CO vzero vone va vm vs vo VR h hm). intros t t' I J. destruct (HF t I), (HG t' J). unfold w. apply (mono_vadd CO vzero vone va vm vs vo VR vpowv pwv h h0 Ex); auto. apply sorted_set_nodup; auto. }
  assert (OK : forall e : expr, arithmetic e -> objects_in KS Ex e -> forall t, In t (denotes us e) -> len (fst t) = len us /\ Forall Ex (fst t)) by (intros e' A' O' t I; split; [eapply denotes_len; eauto|eapply DE; eauto]).
  assert (OC : forall c (t : vterm), In t (f_const us c) -> len (fst t) = len us /\ Forall Ex (fst t)) by (intros c t [<-|[]]; cbn [fst]; split; [apply repeat_length|apply Forall_forall; intros z J; apply repeat_spec in J; subst; apply (proj1 PA)]).
  revert P A O. induction e as [x|c|sign a IHa b IHb|sign a IHa b IHb|a IHa|a IHa c|onleft sign a IHa c|a IHa b IHb|a IHa n|a IHa s|a IHa|a IHa ss|a IHa lim|a IHa lim syms|a IHa sm]; cbn [ExprSpec.denotes arithmetic objects_in ExprSpec.proper ExprSpec.compute]; intros P A O; try contradiction.
  - rewrite as_formal_vt. symmetry. apply (value_lin KO KS CO vzero vone va vm vs vo VR vpowv pwv h h0 m us x); auto; [apply P|split; [exact SU|apply P]].
  - apply WC.
  - destruct A, O, P. rewrite lin_fsum, IHa, IHb; auto.
  - destruct A, O, P. rewrite lin_fsum, IHa, IHb; auto.
  - rewrite lin_neg, IHa; auto.
  - rewrite (WM _ _ (OK a A O) (OC c)), WC, IHa; auto.
  - cbv zeta. destruct onleft; rewrite lin_fsum, WC, IHa; auto.
  - destruct A as [A1 A2], O as [O1 O2], P as [P1 P2]. rewrite (WM _ _ (OK a A1 O1) (OK b A2 O2)), IHa, IHb; auto.
  - specialize (IHa P A O). clear - IHa WC WM OK OC A O hone. 
    assert (LP : forall n t, In t (f_pow CO us (denotes us a) n) -> len (fst t) = len us /\ Forall Ex (fst t)).
    { intros n0 t I. exact (OK (Power a n0) A O t I). }
    induction n as [|n IH]; cbn [f_pow vpower]; [rewrite WC; exact hone|]. rewrite (WM _ _ (LP n) (OK a A O)), IH, IHa. reflexivity.
  - auto.
  - apply IHa; auto. apply P.
Qed.
End PE.

Print Assumptions program_exact.
Print Assumptions programs_equal.
Print Assumptions program_value.

(** * Non-vacuity: with x = 3 a b^2 - 2 a + 7 b, the programs (x + 1) * (x - 1) and pow(x, 2) - 1 run, their results are found equal and evaluate at a = 2, b = 3 to 71^2 - 1; a third program
    differentiates, truncates and substitutes. *)
Notation exT := (kd_ty kd_int64).
Notation runs := (computes exK exS Z_cf exP Z_tag (fun z => z) ex_vpow Z.pow int32 exT).
Notation eX := (Given ex_x).
Definition ex_e1 : @expr Z Z Z := Product (Sum true eX (Number 1)) (Shift false false eX 1).
Definition ex_e2 : @expr Z Z Z := Sum false (Power eX 2) (Number 1).
Definition ex_e3 : @expr Z Z Z := Substitute (Derivative (Low (Assign true (Power eX 2) (Minus (Scale (LowIn (With eX ["c"]%string) 1 ["b"]%string) 4))) 3) "a"%string) [("a", 5)]%string.
Lemma ex_zeros n : (n <= 3)%nat -> ks_fits exS (repeat 0 n).
Proof.
  intros L. assert (n = 0 \/ n = 1 \/ n = 2 \/ n = 3)%nat as [->|[->|[->| ->]]] by lia; [apply pm_fits_nil| | |];
    (cbn [repeat]; (change (representable kd_int64 [0]) || change (representable kd_int64 [0; 0]) || change (representable kd_int64 [0; 0; 0])); split; [vm_compute; repeat constructor|apply all_okb_iff; vm_compute; reflexivity]).
Qed.
Definition dS : series Z Z Z := Series [] 0 0 [].
Definition ex_one := get dS (series_of_cf exK Z_cf exP Z_tag 1 []).
Definition ex_xp := get dS (series_add exK Z_cf exP Z_tag ex_x ex_one).
Definition ex_xm := get dS (series_addsub_scalar exK Z_cf exP false ex_x 1).
Definition ex_r1 := get dS (poly_mul exK Z_cf exP Z_tag (exE true 1) ex_xp ex_xm).
Definition ex_p2 := get dS (fst (ex_pow true 1 2 [] ex_x)).
Definition ex_r2 := get dS (series_sub exK Z_cf exP Z_tag ex_p2 ex_one).
Definition ex_w := get dS (add_symbols exK Z_cf exP Z_tag ex_x ["c"]%string).
Definition ex_l := get dS (truncate_p_degree exK int32 exT 1 ["b"]%string ex_w).
Definition ex_s := series_negate Z_cf (series_scalar_mul exK Z_cf ex_l 4).
Definition ex_a := get dS (series_in_place_addsub exK Z_cf exP Z_cf exP Z_tag true (fun c => c) ex_p2 false ex_s).
Definition ex_t := get dS (truncate_degree exK int32 exT 3 ex_a).
Definition ex_d := get dS (poly_diff exK Z_cf exP Z_tag (fun z => z) ex_t "a"%string).
Definition ex_r3 := get dS (subs_scalar exK Z_cf exP Z_tag ex_vpow ex_d [("a", 5)]%string).
Lemma ex_lim n : n = 1 \/ n = 3 -> limit_ok int32 exT n.
Proof. intros [->| ->]; (split; [right; eexists _, _; split; [|reflexivity]; cbn; tauto|]; split; [vm_compute; split; [discriminate|discriminate || reflexivity]|left; reflexivity]). Qed.
Lemma ex_runs1 : runs ex_e1 ex_r1.
Proof.
  apply (run_product _ _ _ _ _ _ _ _ _ _ (exE true 1) _ _ ex_xp ex_xm); [|apply (run_shift _ _ _ _ _ _ _ _ _ _ false false _ 1 ex_x); [constructor|vm_compute; reflexivity]|apply exE_ok|vm_compute; reflexivity].
  apply (run_sum _ _ _ _ _ _ _ _ _ _ true _ _ ex_x ex_one); [constructor|constructor; vm_compute; reflexivity|vm_compute; reflexivity].
Qed.
Lemma ex_runs_p2 : runs (Power eX 2) ex_p2.
Proof. apply (run_power _ _ _ _ _ _ _ _ _ _ [] (exE true 1) (fun c => Ok (cpower Z_cf c 2)) _ 2 ex_x); [constructor|constructor|apply exE_ok|reflexivity|vm_compute; reflexivity]. Qed.
Lemma ex_runs2 : runs ex_e2 ex_r2.
Proof. apply (run_sum _ _ _ _ _ _ _ _ _ _ false _ _ ex_p2 ex_one); [apply ex_runs_p2|constructor; vm_compute; reflexivity|vm_compute; reflexivity]. Qed.
Lemma ex_runs3 : runs ex_e3 ex_r3.
Proof.
  apply (run_substitute _ _ _ _ _ _ _ _ _ _ _ _ ex_d); [|intros z v k c _ _ _; reflexivity|vm_compute; reflexivity].
  apply (run_derivative _ _ _ _ _ _ _ _ _ _ _ _ ex_t); [|vm_compute; reflexivity]. apply (run_low _ _ _ _ _ _ _ _ _ _ _ _ ex_a); [|apply ex_lim; lia|vm_compute; reflexivity].
  apply (run_assign _ _ _ _ _ _ _ _ _ _ true false _ _ ex_p2 ex_s); [apply ex_runs_p2| |discriminate|vm_compute; reflexivity]. unfold ex_s. apply run_minus, run_scale.
  apply (run_low_in _ _ _ _ _ _ _ _ _ _ _ _ _ ex_w); [|apply ex_lim; lia|vm_compute; reflexivity]. apply (run_with _ _ _ _ _ _ _ _ _ _ _ _ ex_x); [constructor|vm_compute; reflexivity].
Qed.
Example ex_programs : let us := ["a"; "b"; "c"]%string in
  sorted_set us /\ 2 * Z.of_nat (len us) <= imax size_t /\ (forall n, (n <= len us)%nat -> ks_fits exS (repeat 0 n)) /\
  proper exK exS Z_cf Z.pow us ex_e1 /\ proper exK exS Z_cf Z.pow us ex_e2 /\ proper exK exS Z_cf Z.pow us ex_e3 /\ runs ex_e1 ex_r1 /\ runs ex_e2 ex_r2 /\ runs ex_e3 ex_r3 /\
  series_equal_to exK Z_cf exP Z_tag ex_r1 ex_r2 = Ok true /\ series_size ex_r1 = 7%nat /\ series_size ex_r3 = 2%nat /\ coef exS Z_cf us ex_r3 [0; 0; 0] = 48 /\ coef exS Z_cf us ex_r3 [0; 1; 0] = -28 /\
  arithmetic ex_e1 /\ objects_in exS nonneg ex_e1 /\ compute exS 0 1 Z.add Z.mul Z.sub Z.opp Z.pow (fun c => c) ex_pt ex_e1 = 71 * 71 - 1 /\
  series_evaluate exK 0 1 Z.add Z.mul (fun u e => Ok (u ^ e)) (fun c => Ok c) ex_r1 ex_pt = Ok 5040.
Proof.
  intros us. destruct ex_x_wf as (W & S & _). assert (SU : sorted_set us) by repeat constructor. assert (PX : wf exK exS Z_cf ex_x /\ incl (s_ss ex_x) us) by (split; [exact W|rewrite S; intros z [<-|[<-|[]]]; cbn; tauto]).
  split; [exact SU|]. split; [vm_compute; discriminate|]. split; [intros n L; apply ex_zeros; exact L|]. split; [split; [split; [exact PX|exact I]|exact PX]|]. split; [split; [exact PX|exact I]|].
  split. { cbn [proper ex_e3]. split; [split; [exact PX|]|split; [repeat constructor|intros z v _; reflexivity]]. split; [split; [exact PX|]|repeat constructor]. split; [repeat constructor|]. intros z [<-|[]]. cbn. tauto. }
  split; [apply ex_runs1|]. split; [apply ex_runs2|]. split; [apply ex_runs3|]. do 5 (split; [vm_compute; reflexivity|]). split; [cbn; tauto|]. split; [split; [split; [apply ex_x_expos|exact I]|apply ex_x_expos]|]. split; vm_compute; reflexivity.
Qed.
