(** Powers of polynomials with polynomial coefficients: lemmas. *)
From Coq Require Import ZArith List Bool String Arith Lia Permutation Sorted Ring Ring_theory.
From Verif Require Import Base KpackModel KpackSpec KpackProofs P_Kpack SymSpec SymModel SymProofs P_Sym PMonSpec PMonModel PMonProofs PMonProofs2 P_PMon KeyOps KeyInst SeriesModel SeriesModel2 SeriesSpec PolyModel PolyModel2 PolySpec CalcSpec PolyProofs PolyProofs2
  SeriesProofs SeriesProofs2 SeriesProofs3 SeriesProofs4 SeriesProofs5 SeriesProofs6 Lin EvalSpec SeriesEval SeriesProofs7 CfInst P_Series P_Series2 P_Poly P_Poly2 PolyProofs5 PolyProofs6 PolyProofs7 PowProofs PowProofs2 P_Pow LfSpec LfProofs LfProofs2 LfProofs3 LfProofs4 P_Lf P_Lf2
  RecModel RecModel6 RecModel7 RecModel8 RecSpec RecPowSpec RecProofs P_Rec P_Rec4 EqProofs P_Rec7 P_Rec8.
Import ListNotations.
Open Scope Z_scope.
Open Scope res_scope.
Local Notation len := List.length.

Section F.
Context {K Tag KI C TagI : Type} (KS : key_sem K) (KSI : key_sem KI) (CO : cf_ops C).
Hypothesis CL : cf_laws CO.
Notation inner := (series KI C TagI).
Notation outer := (series K (res inner) Tag).
Notation flat := (flat KS KSI).
Notation coef2 := (coef2 KS KSI CO).
Notation prod2 := (prod2 KS KSI CO).
Notation power2 := (power2_coef KS KSI CO).
Notation "a +c b" := (c_add CO a b) (at level 50, left associativity).
Notation "a *c b" := (c_mul CO a b) (at level 40, left associativity).
Add Ring CringRPw : (cl_ring _ CL).

Lemma flat_len us vs (x : outer) p : In p (flat us vs x) -> len (fst (fst p)) = len us /\ len (snd (fst p)) = len vs.
Proof.
  unfold RecSpec.flat. rewrite in_flat_map. intros ([k c] & _ & I). cbn [fst snd] in I. destruct c as [q| |]; [|destruct I|destruct I]. apply in_map_iff in I as (f & <- & _). cbn [fst snd]. split; apply spread_len.
Qed.
Lemma prod2_minus us vs (x y : outer) ws ts : len ws = len us -> len ts = len vs ->
  prod2 us vs x y ws ts = csum CO (map (fun p => snd p *c coef2 us vs x (vminus ws (fst (fst p))) (vminus ts (snd (fst p)))) (flat us vs y)).
Proof.
  intros LW LT. rewrite (prod2_comm KS KSI CO CL). unfold RecSpec.prod2, RecSpec.coef2. pose proof (flat_len us vs x) as LX. pose proof (flat_len us vs y) as LY. revert LX LY. generalize (flat us vs x) as m, (flat us vs y) as l. intros m l LX LY.
  induction l as [|a l IH]; [reflexivity|]. cbn [list_prod map]. rewrite filter_app, map_app, (csum_app CO CL), IH by (intros p I; apply LY; right; exact I). cbn [map csum fold_right]. f_equal. clear IH.
  destruct (LY a (or_introl eq_refl)) as [A1 A2]. clear LY. induction m as [|e m IH]; [cbn; ring|]. cbn [map filter fst snd]. destruct (LX e (or_introl eq_refl)) as [E1 E2].
  rewrite (vadd_minus (fst (fst a)) (fst (fst e)) ws) by congruence. rewrite (vadd_minus (snd (fst a)) (snd (fst e)) ts) by congruence.
  specialize (IH (fun p I => LX p (or_intror I))). destruct (_ && _); [|exact IH]. cbn [map csum fold_right fst snd]. unfold csum in IH |- *. rewrite IH. ring.
Qed.
(** Powers depend on the coefficients only. *)
Lemma power2_ext us vs (a b : outer) : (forall ws ts, coef2 us vs a ws ts = coef2 us vs b ws ts) -> forall n ws ts, len ws = len us -> len ts = len vs -> power2 us vs a n ws ts = power2 us vs b n ws ts.
Proof.
  intros H. induction n as [|n IH]; intros ws ts LW LT; [reflexivity|]. cbn [power2_coef].
  rewrite (map_ext_in _ (fun p => snd p *c power2 us vs b n (vminus ws (fst (fst p))) (vminus ts (snd (fst p))))).
  2:{ intros p I. destruct (flat_len us vs a p I) as [L1 L2]. f_equal. apply IH; rewrite vminus_len; congruence. }
  assert (LL : forall l : list ((list Z * list Z) * C), csum CO (map (fun p => snd p *c power2 us vs b n (vminus ws (fst (fst p))) (vminus ts (snd (fst p)))) l) = lin (c_zero CO) (c_add CO) (c_mul CO) (fun c => c) (fun v => power2 us vs b n (vminus ws (fst v)) (vminus ts (snd v))) l).
  { induction l as [|p l IHl]; [reflexivity|]. cbn [map csum fold_right lin]. unfold csum in IHl. rewrite IHl. reflexivity. }
  rewrite !LL. apply (lin_ext CO (c_zero CO) (c_one CO) (c_add CO) (c_mul CO) (c_sub CO) (c_neg CO) (cl_ring _ CL) pdec (fun c => c) eq_refl (fun _ _ => eq_refl)).
  intros [w t]. rewrite <- !(coef2_psum KS KSI CO). apply H.
Qed.
(** The power of a single outer term. *)
Lemma power2_single us vs (x : outer) k (q : inner) : terms x = [(k, Ok q)] -> covers vs q -> forall n ws ts, len ws = len us -> len ts = len vs ->
  power2 us vs x n ws ts = if vec_eqb (vscale (Z.of_nat n) (spread (s_ss x) us (ks_exps KS (len (s_ss x)) k))) ws then power_coef KSI CO vs q n ts else c_zero CO.
Proof.
  intros T CV. set (e := spread (s_ss x) us (ks_exps KS (len (s_ss x)) k)). assert (LE : len e = len us) by apply spread_len.
  induction n as [|n IH]; intros ws ts LW LT; cbn [power2_coef power_coef].
  - change (Z.of_nat 0) with 0. rewrite vscale_0, LE. assert (E : vec_eqb (repeat 0 (len us)) ws = vec_eqb ws (repeat 0 (len us))) by (apply eq_true_iff_eq; rewrite !vec_eqb_iff; split; congruence). rewrite E. destruct (vec_eqb ws _); reflexivity.
  - unfold RecSpec.flat. rewrite T. cbn [flat_map fst snd]. rewrite app_nil_r, map_map. cbn [fst snd]. fold e.
    assert (X : vec_eqb (vscale (Z.of_nat (S n)) e) ws = vec_eqb (vscale (Z.of_nat n) e) (vminus ws e)).
    { rewrite <- vscale_succ, vadd_comm. apply vadd_minus; [congruence|]. rewrite vscale_len. congruence. }
    rewrite X. assert (LM : len (vminus ws e) = len us) by (rewrite vminus_len; congruence).
    destruct (vec_eqb (vscale (Z.of_nat n) e) (vminus ws e)) eqn:V.
    + f_equal. apply map_ext_in. intros f I. rewrite IH; [|exact LM|rewrite vminus_len; rewrite ?spread_len; congruence]. rewrite V. reflexivity.
    + generalize (terms q) as l. induction l as [|f l IHl]; [reflexivity|]. cbn [map csum fold_right]. unfold csum in IHl. rewrite IHl. rewrite IH; [|exact LM|rewrite vminus_len; rewrite ?spread_len; congruence]. rewrite V. ring.
Qed.
Lemma power2_none us vs (x : outer) (q : inner) : terms x = [] -> terms q = [] -> forall n ws ts, power2 us vs x n ws ts = if vec_eqb ws (repeat 0 (len us)) then power_coef KSI CO vs q n ts else c_zero CO.
Proof.
  intros T TQ n ws ts. destruct n as [|n]; cbn [power2_coef power_coef]; [destruct (vec_eqb ws _); reflexivity|]. unfold RecSpec.flat. rewrite T, TQ. cbn. destruct (vec_eqb ws _); reflexivity.
Qed.
End F.

Section R.
Context {K Tag KI C TagI : Type} (KO : key_ops K) (KS : key_sem K) (TO : tag_ops Tag)
  (KOI : key_ops KI) (KSI : key_sem KI) (CO : cf_ops C) (POI : tbl_policy (KI * C)) (TOI : tag_ops TagI) (EI : mul_env KI C TagI).
Hypothesis KL : key_laws KO KS.
Hypothesis KLI : key_laws KOI KSI.
Hypothesis CL : cf_laws CO.
Hypothesis EOI : env_ok KOI KSI EI.
Hypothesis F0 : ks_fits KS [].
Hypothesis F0I : ks_fits KSI [].
Notation inner := (series KI C TagI).
Notation outer := (series K (res inner) Tag).
Variable PO : tbl_policy (K * res inner).
Notation RC := (rec_cf KOI CO POI TOI EI).
Notation RWF := (rwf KO KS RC KOI KSI CO).
Notation coef2 := (coef2 KS KSI CO).
Notation power2 := (power2_coef KS KSI CO).
Notation wfI := (wf KOI KSI CO).
Notation cache := (@pow_cache K (res inner) Tag).

(** The polynomials whose powers are taken. *)
Definition good2 (V : symbol_set) (b : outer) : Prop := RWF V b /\ Z.of_nat (len V + len V) <= imax size_t /\ Z.of_nat (len (s_ss b) + len (s_ss b)) <= imax size_t.
(** The same symbols, and the same coefficients in all the symbols together. *)
Definition same2 (a b : outer) : Prop := s_ss a = s_ss b /\ forall us vs ws ts, covers us a -> coef2 us vs a ws ts = coef2 us vs b ws ts.
(** r is the i-th power of b, its coefficients in symbols of V. *)
Definition pow2 (V : symbol_set) (b : outer) (i : nat) (r : outer) : Prop :=
  RWF V r /\ s_ss r = (match i with O => [] | S _ => s_ss b end) /\
  forall us vs ws ts, covers us b -> sorted_set vs -> incl V vs -> len ws = len us -> len ts = len vs -> coef2 us vs r ws ts = power2 us vs b i ws ts.

Lemma inner_len V (q : inner) : wfI q -> incl (s_ss q) V -> (len (s_ss q) <= len V)%nat.
Proof. intros W I. apply NoDup_incl_length; [apply sorted_set_nodup, (wf_ss _ _ _ _ W)|exact I]. Qed.

Lemma identical_ok V V' (a b : outer) : good2 V a -> good2 V' b ->
  (exists t, rec_identical KO TO KOI CO POI TOI a b = Ok t /\ (t = true -> same2 a b)) \/ key_overflow (rec_identical KO TO KOI CO POI TOI a b).
Proof.
  intros (WA & BA & _) (WB & BB & _). unfold rec_identical. destruct (ss_eqb (s_ss a) (s_ss b)) eqn:ES; [|left; exists false; split; [reflexivity|discriminate]]. apply ss_eqb_iff in ES.
  pose proof (lw_wf _ _ _ _ (rw_lwf _ _ _ _ _ _ _ _ WA)) as LA. pose proof (lw_wf _ _ _ _ (rw_lwf _ _ _ _ _ _ _ _ WB)) as LB.
  assert (CMP : forall k l c d, In (k, c) (terms a) -> In (l, d) (terms b) -> exists p q, c = Ok p /\ d = Ok q /\
     ((exists t, rec_ceq KOI CO POI TOI c d = Ok t /\ (t = true -> forall us ws, coef KSI CO us p ws = coef KSI CO us q ws)) \/ key_overflow (rec_ceq KOI CO POI TOI c d))).
  { intros k l c d I J. destruct (rw_inner _ _ _ _ _ _ _ _ WA k c I) as (p & -> & Wp & Ip). destruct (rw_inner _ _ _ _ _ _ _ _ WB l d J) as (q & -> & Wq & Iq). exists p, q. split; [reflexivity|]. split; [reflexivity|].
    assert (B : Z.of_nat (len (s_ss p) + len (s_ss q)) <= imax size_t) by (pose proof (inner_len V p Wp Ip); pose proof (inner_len V' q Wq Iq); lia).
    unfold rec_ceq. cbn [bind]. destruct (equal_ok KOI KSI CO POI TOI KLI CL p q Wp Wq B) as [(t & ET & H)|[H _]]; [left; exists t; split; [exact ET|]; intros X; apply H in X; apply X|right; exact H]. }
  destruct (cmp_lf KO KS RC RC TO KL (rec_ceq KOI CO POI TOI) a b LA LB ES) as [(E & _ & H)|[(E & _)|(_ & k & c & d & I & J & E & N)]].
  - left. exists true. split; [exact E|]. intros _. split; [exact ES|]. intros us vs ws ts CV. assert (IB : incl (s_ss b) us) by (rewrite <- ES; apply CV).
    rewrite (coef2_entry KO KS KOI KSI CO POI TOI EI KL CL us vs a ws ts LA (proj2 CV)), (coef2_entry KO KS KOI KSI CO POI TOI EI KL CL us vs b ws ts LB IB).
    destruct (entry KS us a ws) as [c|] eqn:EA.
    + apply (entry_in KO KS RC KL us a ws c LA (proj2 CV)) in EA as (k & I & EX). specialize (H k). rewrite (proj2 (sget_in KO KS RC KL a k c LA) I) in H. destruct (sget KO b k) as [d|] eqn:SB; [|destruct H]. cbn [entries_equal] in H.
      apply (sget_in KO KS RC KL b k d LB) in SB. assert (EB : entry KS us b ws = Some d) by (apply (entry_in KO KS RC KL us b ws d LB IB); exists k; split; [exact SB|rewrite <- ES; exact EX]). rewrite EB.
      destruct (CMP k k c d I SB) as (p & q & -> & -> & [(t & ET & HT)|[X|X]]); [|rewrite H in X; discriminate|rewrite H in X; discriminate]. rewrite H in ET. injection ET as <-. cbn [g]. apply HT. reflexivity.
    + destruct (entry KS us b ws) as [d|] eqn:EB; [|reflexivity]. exfalso. apply (entry_in KO KS RC KL us b ws d LB IB) in EB as (k & J & EX). specialize (H k). rewrite (proj2 (sget_in KO KS RC KL b k d LB) J) in H.
      destruct (sget KO a k) as [c|] eqn:SA; [|destruct H]. apply (sget_in KO KS RC KL a k c LA) in SA. assert (X : entry KS us a ws = Some c) by (apply (entry_in KO KS RC KL us a ws c LA (proj2 CV)); exists k; split; [exact SA|rewrite ES; exact EX]). congruence.
  - left. exists false. split; [exact E|discriminate].
  - right. rewrite E. destruct (CMP k k c d I J) as (p & q & _ & _ & [(t & ET & _)|X]); [elim (N t ET)|exact X].
Qed.

Lemma one2 : exists o, rec_of_number KO TO KOI CO POI TOI EI PO (c_one CO) [] = Ok o /\ forall V b, pow2 V b 0 o.
Proof.
  destruct (rec_of_number_exact KO KS TO KOI KSI CO POI TOI EI KL KLI CL PO [] (c_one CO) [] ltac:(constructor) F0 F0I) as (o & E & W & S & _ & H). exists o. split; [exact E|]. intros V b.
  split; [constructor; [exact (rw_lwf _ _ _ _ _ _ _ _ W)|]; intros k c I; destruct (rw_inner _ _ _ _ _ _ _ _ W k c I) as (s & A & B & D); exists s; split; [exact A|]; split; [exact B|]; intros z Iz; destruct (D z Iz)|].
  split; [exact S|]. intros us vs ws ts CV SV _ _ _. cbn [power2_coef]. apply H; [|exact SV]. split; [apply CV|rewrite S; intros z []].
Qed.

Section E.
Variable E : mul_env K (res inner) Tag.
Hypothesis EO : env_ok KO KS E.
Notation times := (rec_times KO TO KOI CO POI TOI EI PO E).
(** Why a product of a power y by the base x fails. *)
Definition product_fails (y x : outer) : Prop := coefficient_throws (poly_mul KO RC PO TO E y x) \/ unrepresentable KS (s_ss x) y x \/ capacity y x.
Lemma pow2_step V (b r : outer) i : good2 V b -> pow2 V b i r ->
  (exists r', times r b = Ok r' /\ pow2 V b (S i) r') \/ (key_overflow (times r b) /\ product_fails r b).
Proof.
  intros (WB & BV & BB) (WR & SR & H). assert (B : Z.of_nat (len (s_ss r) + len (s_ss b)) <= imax size_t) by (rewrite SR; destruct i; cbn [List.length]; lia).
  destruct (rec_mul KO KS TO KOI KSI CO POI TOI EI PO KL KLI CL EOI V BV E r b EO WR WB B) as (u & UN & M). cbv zeta in M. pose proof (lw_wf _ _ _ _ (rw_lwf _ _ _ _ _ _ _ _ WB)) as LB.
  assert (u = s_ss b). { destruct UN as [SU UN]. apply sorted_ext; [exact SU|apply (wf_ss _ _ _ _ LB)|]. intros z. rewrite UN, SR. destruct i; cbn; tauto. }
  subst u. unfold rec_times. destruct M as [(r' & ER & S' & _ & W' & HC)|[KE M]]; [left|right; split; [exact KE|]; exact M].
  exists r'. split; [exact ER|]. split; [exact W'|]. split; [exact S'|]. intros us vs ws ts CV SV IV LW LT. destruct CV as [SU IU]. rewrite HC by auto. rewrite (prod2_minus KS KSI CO CL) by auto. cbn [power2_coef]. f_equal. apply map_ext_in. intros p I.
  destruct (flat_len KS KSI us vs b p I) as [L1 L2]. f_equal. apply H; auto; [split; auto|rewrite vminus_len; congruence|rewrite vminus_len; congruence].
Qed.
Lemma pow2_mul_ok V : mul_ok (good2 V) (pow2 V) times.
Proof. intros b i r r' G P M. destruct (pow2_step V b r i G P) as [(r1 & E1 & P1)|[[X|X] _]]; rewrite M in *; [injection E1 as ->; exact P1|discriminate|discriminate]. Qed.

(** ** The cache *)
Definition cok2 (m : cache) : Prop := forall b v, In (b, v) m -> exists V, good2 V b /\ powers (pow2 V) b v.
Lemma cache_find_ok V (m : cache) x : cok2 m -> good2 V x ->
  (exists i, cache_find KO TO KOI CO POI TOI m x = Ok i /\ (i = len m \/ exists b v, nth_error m i = Some (b, v) /\ same2 b x)) \/
  (key_overflow (cache_find KO TO KOI CO POI TOI m x) /\ exists b v, In (b, v) m /\ key_overflow (rec_identical KO TO KOI CO POI TOI b x)).
Proof.
  intros OK G. induction m as [|[b v] m IH]; [left; exists O; split; [reflexivity|left; reflexivity]|]. cbn [cache_find]. destruct (OK b v (or_introl eq_refl)) as (V' & Gb & _).
  destruct (identical_ok V' V b x Gb G) as [(t & -> & HT)|KE].
  - cbn [bind]. destruct t; [left; exists O; split; [reflexivity|]; right; exists b, v; auto|]. destruct IH as [(i & -> & H)|[KE H]]; [intros b' v' I; apply OK; right; exact I| |].
    + left. exists (S i). split; [reflexivity|]. destruct H as [->|(b' & v' & N & S)]; [left; reflexivity|right; exists b', v'; auto].
    + right. destruct H as (b' & v' & I & KB). split; [destruct KE as [-> | ->]; [left|right]; reflexivity|]. exists b', v'. split; [right; exact I|exact KB].
  - right. split; [destruct KE as [-> | ->]; [left|right]; reflexivity|]. exists b, v. split; [left; reflexivity|exact KE].
Qed.
Lemma put_in (m : cache) i e b v : In (b, v) (cache_put m i e) -> In (b, v) m \/ (b, v) = e.
Proof.
  unfold cache_put. rewrite in_app_iff. intros [I|[I|I]]; [left|right; auto|left]; rewrite <- (firstn_skipn i m), in_app_iff; [left; exact I|right].
  revert I. rewrite <- (firstn_skipn 1 (skipn i m)), in_app_iff. rewrite skipn_skipn. auto.
Qed.
Lemma same2_refl x : same2 x x. Proof. split; auto. Qed.
Lemma from_cache_ok V (m : cache) x n : cok2 m -> good2 V x ->
  cok2 (snd (rec_pow_from_cache KO TO KOI CO POI TOI EI PO E m x n)) /\
  let out := fst (rec_pow_from_cache KO TO KOI CO POI TOI EI PO E m x n) in
  ((exists V' b r, out = Ok r /\ good2 V' b /\ same2 b x /\ pow2 V' b n r) \/
   (key_overflow out /\ ((exists b v, In (b, v) m /\ key_overflow (rec_identical KO TO KOI CO POI TOI b x)) \/
      exists V' b i y, (i < n)%nat /\ good2 V' b /\ same2 b x /\ pow2 V' b i y /\ product_fails y b))).
Proof.
  intros OK G. cbv zeta. unfold rec_pow_from_cache. destruct (cache_find_ok V m x OK G) as [(i & -> & HI)|[KE H]].
  2:{ destruct KE as [KE|KE]; rewrite KE; cbn [fst snd]; (split; [exact OK|]); right; (split; [|left; exact H]); [left|right]; reflexivity. }
  assert (X : exists V' b v, nth i m (x, []) = (b, v) /\ good2 V' b /\ same2 b x /\ powers (pow2 V') b v).
  { destruct HI as [->|(b & v & N & S)].
    - exists V, x, []. rewrite nth_overflow by lia. split; [reflexivity|]. split; [exact G|]. split; [apply same2_refl|]. intros j r. destruct j; discriminate.
    - destruct (OK b v (nth_error_In _ _ N)) as (V' & Gb & Pv). exists V', b, v. split; [apply (nth_error_nth m i (x, []) N)|]. auto. }
  destruct X as (V' & b & v & -> & Gb & Sb & Pv). destruct one2 as (o1 & E1 & P1).
  assert (Y : exists w, (match v with [] => one <- rec_of_number KO TO KOI CO POI TOI EI PO (c_one CO) [] ;; Ok [one] | _ => Ok v end) = Ok w /\ w <> [] /\ powers (pow2 V') b w).
  { destruct v as [|v0 v]; [|exists (v0 :: v); split; [reflexivity|]; split; [discriminate|exact Pv]]. rewrite E1. cbn [bind]. exists [o1]. split; [reflexivity|]. split; [discriminate|].
    intros j r Ej. destruct j as [|[|j]]; try discriminate. injection Ej as <-. apply P1. }
  destruct Y as (w & -> & NW & Pw). pose proof (fill_ok (good2 V') (pow2 V') times b (pow2_mul_ok V') Gb (S n - len w) w NW Pw) as F. destruct (fill_powers times b (S n - len w) w) as [v' st]. destruct F as (PV' & (w' & EW) & ST). cbn [fst snd]. split.
  - intros b' u I. apply put_in in I. destruct I as [I|I]; [apply OK; exact I|]. injection I as -> ->. exists V'. auto.
  - destruct ST as [[-> L]|(j & r & Pr & LI & NF & H)].
    + left. cbn [bind]. assert (LN : (n < len v')%nat) by lia. apply nth_error_Some in LN. destruct (nth_error v' n) as [r|] eqn:En; [|congruence]. exists V', b, r. split; [unfold Base.rd; rewrite En; reflexivity|]. split; [exact Gb|]. split; [exact Sb|]. exact (PV' n r En).
    + right. destruct (pow2_step V' b r j Gb Pr) as [(r' & ER & _)|[KE PF]]; [destruct H as [(e & H & _)|[H _]]; congruence|].
      split; [|right; exists V', b, j, r; split; [lia|auto]]. destruct H as [(e & H & ->)|[H _]]; rewrite H in KE; [|destruct KE; discriminate]. destruct KE as [KE|KE]; injection KE as ->; [left|right]; reflexivity.
Qed.
End E.
End R.
