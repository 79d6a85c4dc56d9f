(** Property C80: operations between a polynomial with polynomial coefficients and a polynomial of the coefficient type, or a number.
    Vocabulary: RecSpec.v ([coef2], [scaled2]), CalcSpec.v ([exact_division]), P_Rec.v ([coefficient_throws]). *)
From Coq Require Import ZArith List Bool String Arith Lia Permutation Sorted Ring Ring_theory.
From Verif Require Import Base KpackModel KpackSpec KpackProofs P_Kpack SymSpec SymModel SymProofs P_Sym PMonSpec PMonModel PMonProofs PMonProofs2 P_PMon KeyOps KeyInst SeriesModel SeriesModel2 SeriesSpec PolyModel PolyModel2 PolySpec CalcSpec PolyProofs PolyProofs2
  SeriesProofs SeriesProofs2 SeriesProofs3 SeriesProofs4 SeriesProofs5 SeriesProofs6 SeriesEval CfInst P_Series P_Series2 P_Poly P_Poly2 PolyProofs5 PolyProofs6 PolyProofs7 LfSpec LfProofs LfProofs2 LfProofs3 LfProofs4 P_Lf P_Lf2 RecModel RecModel3 RecModel5 RecSpec RecProofs P_Rec P_Rec3 P_Calc.
Import ListNotations.
Open Scope Z_scope.
Open Scope res_scope.
Local Notation len := List.length.

Lemma spread_zeros ss us : spread ss us (repeat 0 (len ss)) = repeat 0 (len us).
Proof.
  unfold spread. assert (H : forall s, expo ss (repeat 0 (len ss)) s = 0).
  { intros s. apply (expo_in (fun z => z = 0)); [reflexivity|]. apply Forall_forall. intros z. apply repeat_spec. }
  induction us as [|a us IH]; [reflexivity|]. cbn [map List.length repeat]. rewrite IH, H. reflexivity.
Qed.

Section R.
Context {K Tag KI C TagI : Type} (KO : key_ops K) (KS : key_sem K)
  (KOI : key_ops KI) (KSI : key_sem KI) (CO : cf_ops C) (POI : tbl_policy (KI * C)) (TOI : tag_ops TagI) (EI : mul_env KI C TagI) (PO : tbl_policy (K * res (series KI C TagI))).
Hypothesis KL : key_laws KO KS.
Hypothesis KLI : key_laws KOI KSI.
Hypothesis CL : cf_laws CO.
Hypothesis EOI : env_ok KOI KSI EI.
Notation inner := (series KI C TagI).
Notation outer := (series K (res inner) Tag).
Notation RC := (rec_cf KOI CO POI TOI EI).
Notation "0c" := (c_zero CO).
Notation "a +c b" := (c_add CO a b) (at level 50, left associativity).
Notation "a -c b" := (c_sub CO a b) (at level 50, left associativity).
Notation "a *c b" := (c_mul CO a b) (at level 40, left associativity).
Notation RWF := (rwf KO KS RC KOI KSI CO).
Notation coef2 := (coef2 KS KSI CO).
Notation scaled2 := (scaled2 KS KSI CO).
Notation coefI := (coef KSI CO).
Notation g := (g KSI CO).
Notation gp := (gp KSI CO).
Notation okc := (okc KOI KSI CO).
Notation val := (val KSI CO).
Notation lift_exact := (lift_exact KO KS KOI KSI CO POI TOI EI KL CL).
Add Ring Cring6 : (cl_ring _ CL).

(** The convolution with q, from the stored coefficient. *)
Notation okey x us e := (spread (s_ss x) us (ks_exps KS (len (s_ss x)) (fst e))).
Lemma scaled2_sum us vs (x : outer) q ws ts : scaled2 us vs x q ws ts = csum CO (map (fun e => gp vs ts (snd e, Ok q)) (filter (fun e => vec_eqb (okey x us e) ws) (terms x))).
Proof.
  unfold RecSpec.scaled2, flat. set (m := map _ (terms q)). 
  match goal with |- csum CO (map ?F (filter ?P (list_prod ?l m))) = _ => change (S2 CO F P l m = csum CO (map (fun e => gp vs ts (snd e, Ok q)) (filter (fun e => vec_eqb (okey x us e) ws) (terms x)))) end.
  induction (terms x) as [|e l IH]; [reflexivity|]. cbn [flat_map]. rewrite (S2_app_l CO CL), IH. cbn [filter].
  destruct (snd e) as [c| |] eqn:EC.
  - unfold S2 at 1. unfold m. rewrite list_prod_map, filter_map_gen, map_map. cbn [fst snd]. destruct (vec_eqb (okey x us e) ws) eqn:EV.
    + cbn [map]. rewrite EC. reflexivity.
    + cbn [andb]. rewrite filter_false. cbn [map]. change (csum CO []) with 0c. ring.
  - destruct (vec_eqb (okey x us e) ws); cbn [map]; rewrite ?EC; unfold S2 at 1; cbn [list_prod filter map RecProofs.gp]; change (csum CO []) with 0c; [|ring]. change (0c +c csum CO (map (fun e => gp vs ts (snd e, Ok q)) (filter (fun e => vec_eqb (okey x us e) ws) l)) = 0c +c csum CO (map (fun e => gp vs ts (snd e, Ok q)) (filter (fun e => vec_eqb (okey x us e) ws) l))). reflexivity.
  - destruct (vec_eqb (okey x us e) ws); cbn [map]; rewrite ?EC; unfold S2 at 1; cbn [list_prod filter map RecProofs.gp]; change (csum CO []) with 0c; [|ring]. change (0c +c csum CO (map (fun e => gp vs ts (snd e, Ok q)) (filter (fun e => vec_eqb (okey x us e) ws) l)) = 0c +c csum CO (map (fun e => gp vs ts (snd e, Ok q)) (filter (fun e => vec_eqb (okey x us e) ws) l))). reflexivity.
Qed.
Lemma scaled2_entry us vs (x : outer) q ws ts : wf KO KS RC x -> incl (s_ss x) us ->
  scaled2 us vs x q ws ts = match entry KS us x ws with Some c => gp vs ts (c, Ok q) | None => 0c end.
Proof.
  intros W I. rewrite scaled2_sum. destruct (entry KS us x ws) as [c|] eqn:EE.
  - apply (entry_in KO KS RC KL us x ws c W I) in EE as (k & J & EW).
    assert (F : filter (fun e => vec_eqb (okey x us e) ws) (terms x) = [(k, c)]).
    { pose proof (wf_keys _ _ _ _ W) as N. assert (M : forall e, In e (terms x) -> vec_eqb (okey x us e) ws = true -> fst e = k).
      { intros [k' c'] I' EV. apply vec_eqb_iff in EV. cbn [fst] in *. destruct (entry_key KO KS RC KL us x k k' c c' W I (wf_valid _ _ _ _ W k c J) I') as [-> _]; [congruence|reflexivity]. }
      assert (M' : vec_eqb (okey x us (k, c)) ws = true) by (apply vec_eqb_iff; exact EW).
      exact (filter_one (fun e => okey x us e) (terms x) k c ws N M J M'). }
    rewrite F. cbn [map snd csum fold_right]. ring.
  - rewrite (filter_ext_in _ (fun _ => false)); [rewrite filter_false; reflexivity|]. intros [k c] J. cbn [fst]. destruct (vec_eqb _ ws) eqn:EV; [|reflexivity]. exfalso.
    apply vec_eqb_iff in EV. assert (X : entry KS us x ws = Some c) by (apply (entry_in KO KS RC KL us x ws c W I); exists k; auto). congruence.
Qed.

Section U.
Variable U : symbol_set.
Hypothesis UB : Z.of_nat (len U + len U) <= imax size_t.

Lemma gp_zero vs ts (c : res inner) q : c_is_zero RC (Ok q) = true -> gp vs ts (c, Ok q) = 0c.
Proof.
  cbn. intros H. apply empty_terms in H. destruct c as [s| |]; [|reflexivity..]. cbn [RecProofs.gp]. unfold prod_coef. rewrite H. replace (list_prod (terms s) (@nil (KI * C))) with (@nil ((KI * C) * (KI * C))); [reflexivity|]. induction (terms s); auto.
Qed.

(** C80. x * q and q * x: exact in all the symbols together, with the symbols and the tag of x; or an exception, thrown by the product of two coefficients. *)
Theorem rec_scalar_mul_exact : forall (x : outer) (q : inner), RWF U x -> wf KOI KSI CO q -> incl (s_ss q) U ->
  let out := Ok (rec_scalar_mul KO KOI CO POI TOI EI x q) in
  (exists r, settle out = Ok r /\ s_ss r = s_ss x /\ s_tag r = s_tag x /\ RWF U r /\
     forall us vs ws ts, incl (s_ss x) us -> sorted_set vs -> incl U vs -> coef2 us vs r ws ts = scaled2 us vs x q ws ts) \/
  (key_overflow (settle out) /\ coefficient_throws out).
Proof.
  intros x q WX WQ IQ out. unfold rec_scalar_mul in out. destruct (any_cf_scalar_mul KO KS RC KL (rec_light KOI CO POI TOI EI) x (Ok q) (rw_lwf _ _ _ _ _ _ _ _ WX)) as (LW & S1 & S2 & _ & _ & HE).
  set (r := series_scalar_mul KO RC x (Ok q)) in *. destruct (lift_exact U r (fun us vs ws ts => scaled2 us vs x q ws ts) (fun _ => True) LW I) as [A1 A2].
  - intros us ws IU _. rewrite S1 in IU. rewrite (HE us ws IU). destruct (entry KS us x ws) as [c|] eqn:EE.
    + pose proof (entry_okc KO KS KOI KSI CO POI TOI EI KL U us x ws c WX IU EE) as OC. assert (OQ : okc U (Ok q)) by (exists q; auto).
      destruct (c_is_zero RC (Ok q)) eqn:EZ.
      * split; [discriminate|]. intros _ vs ts SV IV. cbn [P_Rec.val]. rewrite scaled2_entry by (auto; apply (rw_lwf _ _ _ _ _ _ _ _ WX)). rewrite EE. symmetry. apply gp_zero. exact EZ.
      * destruct (prod_ok KOI KSI CO POI TOI EI KLI CL EOI U UB c (Ok q) OC OQ) as [[OP HP]|BP].
        -- split; [unfold nonzero; intros d; destruct (c_is_zero RC (c_mul RC c (Ok q))); [discriminate|]; intros X; apply (f_equal (fun o => match o with Some d => d | None => d end)) in X; subst d; left; exact OP|].
           intros _ vs ts SV IV. rewrite (val_nonzero KOI KSI CO POI TOI EI). rewrite HP by auto. rewrite scaled2_entry by (auto; apply (rw_lwf _ _ _ _ _ _ _ _ WX)). rewrite EE. reflexivity.
        -- assert (Z0 : c_is_zero RC (c_mul RC c (Ok q)) = false) by (destruct BP as [B|B]; rewrite B; reflexivity). unfold nonzero. rewrite Z0. split; [intros d X; injection X as <-; right; exact BP|].
           intros N. exfalso. destruct (N _ eq_refl) as (s & E). destruct BP as [B|B]; rewrite B in E; discriminate E.
    + split; [discriminate|]. intros _ vs ts SV IV. cbn [P_Rec.val]. rewrite scaled2_entry by (auto; apply (rw_lwf _ _ _ _ _ _ _ _ WX)). rewrite EE. reflexivity.
  - assert (A1' : forall k c, In (k, c) (terms r) -> (exists s, c = Ok s) \/ key_overflow c) by (intros k c J; destruct (A1 k c J) as [(s & -> & _)|Z]; [left; eauto|right; exact Z]).
    unfold out. destruct (settle_spec r A1') as [[S N]|[S N]]; [left|right; auto]. exists r. destruct (A2 N) as [A3 A4]. split; [exact S|]. split; [exact S1|]. split; [exact S2|]. split; [exact A3|]. intros. apply A4; auto. rewrite S1. assumption.
Qed.

(** C80. x + q, x - q, q + x, q - x, x += q, x -= q: q is added to the coefficient of the unit monomial. *)
Theorem rec_scalar_addsub_exact : forall (sign scalar_left : bool) (x : outer) (q : inner), RWF U x -> wf KOI KSI CO q -> incl (s_ss q) U -> ks_fits KS (repeat 0 (len (s_ss x))) ->
  let out := if scalar_left then scalar_addsub_rec KO KOI CO POI TOI EI PO sign q x else rec_addsub_scalar KO KOI CO POI TOI EI PO sign x q in
  (exists r, settle out = Ok r /\ s_ss r = s_ss x /\ s_tag r = s_tag x /\ s_log2 r = s_log2 x /\ RWF U r /\
     forall us vs ws ts, incl (s_ss x) us -> sorted_set vs -> incl U vs ->
       let a := coef2 us vs x ws ts in let b := if vec_eqb ws (repeat 0 (len us)) then coefI vs q ts else 0c in
       coef2 us vs r ws ts = if sign then a +c b else if scalar_left then b -c a else a -c b) \/
  (key_overflow (settle out) /\ (coefficient_throws out \/ full (s_log2 x) (series_size x))).
Proof.
  intros sign left x q WX WQ IQ F out. destruct (any_cf_scalar_addsub KO KS RC PO KL (rec_light KOI CO POI TOI EI) sign left x (Ok q) (rw_lwf _ _ _ _ _ _ _ _ WX) F) as [(r & E & LW & S1 & S2 & S3 & HE)|[E FU]].
  2:{ right. split; [left; unfold out, scalar_addsub_rec, rec_addsub_scalar; rewrite E; reflexivity|right; exact FU]. }
  change (out = Ok r) in E. rewrite E.
  destruct (lift_exact U r (fun us vs ws ts => let a := coef2 us vs x ws ts in let b := if vec_eqb ws (repeat 0 (len us)) then coefI vs q ts else 0c in if sign then a +c b else if left then b -c a else a -c b) (fun _ => True) LW I) as [A1 A2].
  - intros us ws IU _. rewrite S1 in IU. rewrite (HE us ws IU), spread_zeros. clear HE. set (e := if left && negb sign then option_map (c_neg RC) (entry KS us x ws) else entry KS us x ws).
    assert (OE : forall c, e = Some c -> okc U c).
    { intros c. unfold e. destruct (left && negb sign); [|apply (entry_okc KO KS KOI KSI CO POI TOI EI KL U us x ws c WX IU)]. destruct (entry KS us x ws) as [d|] eqn:EE; [|discriminate]. cbn [option_map]. intros X. injection X as <-.
      apply (neg_okc KOI KSI CO POI TOI EI CL U d). apply (entry_okc KO KS KOI KSI CO POI TOI EI KL U us x ws d WX IU EE). }
    assert (OV : forall vs ts, val vs ts e = if left && negb sign then 0c -c coef2 us vs x ws ts else coef2 us vs x ws ts).
    { intros vs ts. rewrite (coef2_entry KO KS KOI KSI CO POI TOI EI KL CL us vs x ws ts (lw_wf _ _ _ _ (rw_lwf _ _ _ _ _ _ _ _ WX)) IU). unfold e. destruct (left && negb sign); [|reflexivity]. destruct (entry KS us x ws) as [d|] eqn:EE; cbn [option_map P_Rec.val]; [|ring].
      apply (neg_okc KOI KSI CO POI TOI EI CL U d). apply (entry_okc KO KS KOI KSI CO POI TOI EI KL U us x ws d WX IU EE). }
    cbv zeta. destruct (vec_eqb ws (repeat 0 (len us))).
    + destruct (merged_val KOI KSI CO POI TOI EI KLI CL U UB (left || sign) e (Some (Ok q)) OE) as [M1 M2]; [intros c X; injection X as <-; exists q; auto|]. split; [exact M1|]. intros N vs ts SV IV. rewrite (M2 N), OV. cbn [P_Rec.val RecProofs.g].
      destruct left, sign; cbn [orb andb negb]; ring.
    + split; [intros c X; left; apply OE; exact X|]. intros _ vs ts SV IV. rewrite OV. destruct left, sign; cbn [orb andb negb]; ring.
  - assert (A1' : forall k c, In (k, c) (terms r) -> (exists s, c = Ok s) \/ key_overflow c) by (intros k c J; destruct (A1 k c J) as [(s & -> & _)|Z]; [left; eauto|right; exact Z]).
    destruct (settle_spec r A1') as [[S N]|[S N]]; [left|right; auto]. exists r. destruct (A2 N) as [A3 A4]. split; [exact S|]. split; [exact S1|]. split; [exact S2|]. split; [exact S3|]. split; [exact A3|]. intros. apply A4; auto. rewrite S1. assumption.
Qed.

(** C80. x / n for a number n, with exact division of the numbers: exact in all the symbols together; nothing is dropped. *)
Variables (cz : Z -> C) (cdiv : C -> Z -> res C).
Hypothesis CD : exact_division CO cz cdiv.
Theorem rec_scalar_div_exact : forall (x : outer) n, RWF U x -> n <> 0 ->
  exists r, rec_scalar_div KOI CO POI TOI EI cdiv x n = Ok r /\ s_ss r = s_ss x /\ s_tag r = s_tag x /\ s_log2 r = s_log2 x /\ RWF U r /\
    forall us vs ws ts, incl (s_ss x) us -> sorted_set vs -> incl U vs -> coef2 us vs r ws ts *c cz n = coef2 us vs x ws ts.
Proof.
  intros x n WX N. unfold rec_scalar_div. set (D := fun (c : res inner) (y : Z) => c <- c;; d <- series_scalar_div CO cdiv c y;; Ok (Ok d)).
  assert (HD : forall c, okc U c -> exists d, D c n = Ok d /\ okc U d /\ c_is_zero RC d = c_is_zero RC c /\ forall vs ts, sorted_set vs -> incl U vs -> g vs ts d *c cz n = g vs ts c).
  { intros c OC. destruct (cf_div_ok KOI KSI CO KLI CL cz cdiv CD U c n OC N) as [OD H]. pose proof OD as (d & ED & WD & ID). destruct OC as (s & -> & WS & IS).
    unfold RecModel3.cf_div_exp in OD, ED, H. cbn [bind] in OD, ED, H. exists (Ok d). unfold D. cbn [bind]. rewrite ED. split; [reflexivity|]. rewrite ED in H. split; [exists d; auto|]. split; [|exact H].
    cbn. destruct (scalar_div_exact KOI KSI CO CL Z cdiv s n WS) as [(d' & E' & _ & _ & _ & _ & HT & HA)|(k & c & _ & [(e & X & _)|[X _]])]; [|destruct (CD c n N) as (q0 & Y & _); congruence|destruct (CD c n N) as (q0 & Y & _); congruence].
    assert (d' = d) by congruence. subst d'. destruct (series_empty s) eqn:ES.
    - destruct (series_empty d) eqn:EDD; [reflexivity|]. exfalso. apply empty_terms in ES. assert (T : terms d = []). { destruct (terms d) as [|[k c] l] eqn:ET; [reflexivity|]. assert (J : In (k, c) ((k, c) :: l)) by (left; reflexivity). apply HT in J as (_ & c' & J & _). rewrite ES in J. contradiction. } apply empty_terms in T. congruence.
    - destruct (series_empty d) eqn:EDD; [|reflexivity]. exfalso. apply empty_terms in EDD. destruct (terms s) as [|[k c] l] eqn:ET; [apply empty_terms in ET; congruence|]. destruct (CD c n N) as (q0 & Y & HY).
      assert (J : In (k, q0) (terms d)). { apply HT. split; [|exists c; split; [left; reflexivity|exact Y]]. intros ->. apply (wf_nonzero _ _ _ _ WS k c); [rewrite ET; left; reflexivity|]. rewrite <- HY. ring. } rewrite EDD in J. contradiction. }
  destruct (any_cf_scalar_div KO KS RC (rec_light KOI CO POI TOI EI) Z D x n (rw_lwf _ _ _ _ _ _ _ _ WX)) as [(r & E & LW & S1 & S2 & S3 & HT & _)|(k & c & J & X)].
  2:{ exfalso. destruct (HD c (rw_inner _ _ _ _ _ _ _ _ WX k c J)) as (d & ED & _). destruct X as [(e & X & _)|[X _]]; congruence. }
  exists r. split; [exact E|]. split; [exact S1|]. split; [exact S2|]. split; [exact S3|].
  assert (OR : forall k d, In (k, d) (terms r) -> okc U d). { intros k d J. apply HT in J as (_ & c & J & X). destruct (HD c (rw_inner _ _ _ _ _ _ _ _ WX k c J)) as (d' & ED & OD & _). congruence. }
  split; [constructor; [exact LW|exact OR]|]. intros us vs ws ts IU SV IV.
  rewrite (coef2_entry KO KS KOI KSI CO POI TOI EI KL CL us vs x ws ts (lw_wf _ _ _ _ (rw_lwf _ _ _ _ _ _ _ _ WX)) IU). rewrite (coef2_entry KO KS KOI KSI CO POI TOI EI KL CL us vs r ws ts (lw_wf _ _ _ _ LW)) by (rewrite S1; exact IU).
  destruct (entry KS us x ws) as [c|] eqn:EX.
  - apply (entry_in KO KS RC KL us x ws c (lw_wf _ _ _ _ (rw_lwf _ _ _ _ _ _ _ _ WX)) IU) in EX as (k & J & EW). destruct (HD c (rw_inner _ _ _ _ _ _ _ _ WX k c J)) as (d & ED & OD & ZD & H).
    assert (ER : entry KS us r ws = Some d). { apply (entry_in KO KS RC KL us r ws d (lw_wf _ _ _ _ LW)); [rewrite S1; exact IU|]. exists k. rewrite S1. split; [|exact EW]. apply HT. split; [rewrite ZD; apply (lw_nonzero _ _ _ _ (rw_lwf _ _ _ _ _ _ _ _ WX) k c J)|]. exists c. auto. }
    rewrite ER. apply H; auto.
  - destruct (entry KS us r ws) as [d|] eqn:ER; [|ring]. exfalso. apply (entry_in KO KS RC KL us r ws d (lw_wf _ _ _ _ LW)) in ER as (k & J & EW); [|rewrite S1; exact IU]. rewrite S1 in EW. apply HT in J as (_ & c & J & _).
    assert (X : entry KS us x ws = Some c) by (apply (entry_in KO KS RC KL us x ws c (lw_wf _ _ _ _ (rw_lwf _ _ _ _ _ _ _ _ WX)) IU); exists k; auto). congruence.
Qed.
(** C80. A division which throws for every number (division by zero) throws from x / y, unless x is zero. *)
Theorem rec_scalar_div_throws : forall (x : outer) n e, RWF U x -> (forall c, cdiv c n = Throw e) -> series_empty x = false -> rec_scalar_div KOI CO POI TOI EI cdiv x n = Throw e.
Proof.
  intros x n e WX CT NE. unfold rec_scalar_div. set (D := fun (c : res inner) (y : Z) => c <- c;; d <- series_scalar_div CO cdiv c y;; Ok (Ok d)).
  assert (HD : forall k c, In (k, c) (terms x) -> D c n = Throw e).
  { intros k c J. destruct (rw_inner _ _ _ _ _ _ _ _ WX k c J) as (s & -> & WS & _). pose proof (lw_nonzero _ _ _ _ (rw_lwf _ _ _ _ _ _ _ _ WX) k (Ok s) J) as NZ. cbn in NZ. unfold D. cbn [bind].
    destruct (scalar_div_exact KOI KSI CO CL Z cdiv s n WS) as [(d & E' & _ & _ & _ & _ & HT & HA)|(k' & c & _ & [(e' & X & Y)|[X _]])]; [|rewrite Y; cbn [bind]; rewrite CT in X; injection X as <-; reflexivity|rewrite CT in X; discriminate].
    exfalso. destruct (terms s) as [|[k' c] l] eqn:ET; [apply empty_terms in ET; congruence|]. destruct (HA k' c (or_introl eq_refl)) as (d' & X). rewrite CT in X. discriminate. }
  destruct (any_cf_scalar_div KO KS RC (rec_light KOI CO POI TOI EI) Z D x n (rw_lwf _ _ _ _ _ _ _ _ WX)) as [(r & E & _ & _ & _ & _ & _ & HA)|(k & c & J & X)].
  - exfalso. destruct (terms x) as [|[k c] l] eqn:ET; [apply empty_terms in ET; congruence|]. destruct (HA k c (or_introl eq_refl)) as (d & X). rewrite (HD k c (or_introl eq_refl)) in X. discriminate.
  - destruct X as [(e' & X & Y)|[X _]]; rewrite (HD k c J) in X; [injection X as <-; exact Y|discriminate].
Qed.
End U.
End R.

(** * The hypotheses are met *)
Definition j2 := get (series_default Z_tag) i2.
Lemma j2_wf : wf exK exS Z_cf j2 /\ incl (s_ss j2) xy.
Proof. destruct (inner_ok i2) as (s & E & W & I); [auto|]. unfold j2. rewrite E. auto. Qed.
(** x = (x + y^2) a + (x - 3) b^2, q = x - 3: x q has (x - 3)^2 = x^2 - 6 x + 9 at b^2; x - q and q - x at the unit monomial; the
    coefficient of b^2 vanishes in x q when q is zero. *)
Example ex_rec_scalar : rwf exK exS rC exK exS Z_cf xy rx /\ ks_fits exS (repeat 0 (len (s_ss rx))) /\
  exists p s d z, settle (Ok (rec_scalar_mul exK exK Z_cf exP Z_tag rI rx j2)) = Ok p /\ settle (rec_addsub_scalar exK exK Z_cf exP Z_tag rI rP false rx j2) = Ok s /\
  settle (scalar_addsub_rec exK exK Z_cf exP Z_tag rI rP false j2 rx) = Ok d /\ settle (Ok (rec_scalar_mul exK exK Z_cf exP Z_tag rI rx (series_default Z_tag))) = Ok z /\
  coef2 exS exS Z_cf ["a"; "b"]%string xy p [0; 2] [1; 0] = -6 /\ coef2 exS exS Z_cf ["a"; "b"]%string xy p [1; 0] [0; 2] = -3 /\ coef2 exS exS Z_cf ["a"; "b"]%string xy s [0; 0] [0; 0] = 3 /\
  coef2 exS exS Z_cf ["a"; "b"]%string xy d [0; 0] [0; 0] = -3 /\ coef2 exS exS Z_cf ["a"; "b"]%string xy d [0; 2] [0; 0] = 3 /\ series_size z = 0%nat.
Proof.
  split; [exact rx_rwf|]. split; [change (representable kd_int64 [0; 0]); split; [vm_compute; repeat constructor|apply all_okb_iff; vm_compute; reflexivity]|].
  do 4 eexists. do 4 (split; [vm_compute; reflexivity|]). do 5 (split; [vm_compute; reflexivity|]). vm_compute. reflexivity.
Qed.
Example ex_rec_scalar_div : rwf exK exS qRC exK exS Qc_cf ["a"; "b"]%string (get dQ (rq (-2))) /\ exact_division Qc_cf Qz Qc_div /\
  (exists r, rec_scalar_div exK Qc_cf qP Z_tag qI Qc_div (get dQ (rq (-2))) 4 = Ok r /\ coef2 exS exS Qc_cf ["x"]%string ["a"; "b"]%string r [-2] [1; 2] = qf 1 8) /\
  (forall c, Qc_div c 0 = Throw zero_division_error) /\ rec_scalar_div exK Qc_cf qP Z_tag qI Qc_div (get dQ (rq (-2))) 0 = Throw zero_division_error.
Proof.
  split; [exact (proj1 rq_ok)|]. split; [exact Qc_division|]. split.
  - eexists. split; [vm_compute; reflexivity|]. apply (cl_eqb _ Qc_cf_laws). vm_compute. reflexivity.
  - split; [reflexivity|]. vm_compute. reflexivity.
Qed.

Print Assumptions rec_scalar_mul_exact.
Print Assumptions rec_scalar_addsub_exact.
Print Assumptions rec_scalar_div_exact.
Print Assumptions rec_scalar_div_throws.
Print Assumptions ex_rec_scalar.
Print Assumptions ex_rec_scalar_div.
