(** Properties C71 and C72: sums, differences and products of series over any coefficient type.  No law of the coefficient
    operations is assumed besides [light_laws] (LfSpec.v): the coefficients may be floating point numbers, matrices or series.
    Vocabulary: LfSpec.v ([entry]: the stored coefficient of a monomial; [combined], [merged]: the single coefficient operation
    which produces a coefficient of a sum; [factors]: the pairs of coefficients which meet in a monomial of a product;
    [accumulated_nonzero]: their accumulation in a given order). *)
From Coq Require Import ZArith List Bool String Arith Lia Permutation Sorted.
From Coq Require Import Floats.SpecFloat.
From Verif Require Import Base KpackModel KpackSpec KpackProofs P_Kpack SymSpec SymModel SymProofs P_Sym PMonSpec PMonModel PMonProofs P_PMon KeyOps KeyInst PMonProofs2 SeriesModel SeriesModel2 SeriesSpec PolyModel PolyModel2 PolySpec
  SeriesProofs SeriesProofs2 SeriesProofs3 SeriesProofs4 CfInst P_Series P_Series2 P_PMon P_Poly P_Poly2 PolyProofs PolyProofs7 PolyProofs9 LfSpec LfProofs LfProofs2 LfProofs3 LfProofs4.
Import ListNotations.
Open Scope Z_scope.
Open Scope res_scope.
Local Notation len := List.length.

Section P.
Context {K C Tag : Type} (KO : key_ops K) (KS : key_sem K) (CO : cf_ops C) (PO : tbl_policy (K * C)) (TO : tag_ops Tag).
Context (KL : key_laws KO KS) (LL : light_laws CO).
Notation series := (series K C Tag).
Notation LWF := (lwf KO KS CO).
Notation entry := (entry KS).
Notation factors := (factors KS).

(** C71. add_term() combines the coefficient with the stored one by one operation, and changes no other coefficient. *)
Theorem any_cf_add_term : forall (sign : bool) (s : series) k c, LWF s -> ks_valid KS (len (s_ss s)) k ->
  (exists s', add_term KO CO PO sign s k c = Ok s' /\ LWF s' /\ s_ss s' = s_ss s /\ s_tag s' = s_tag s /\ s_log2 s' = s_log2 s /\
     forall us ws, incl (s_ss s) us -> sorted_set us ->
       entry us s' ws = if vec_eqb (spread (s_ss s) us (ks_exps KS (len (s_ss s)) k)) ws then merged CO sign (entry us s ws) (Some c) else entry us s ws) \/
  (add_term KO CO PO sign s k c = Throw overflow_error /\ full (s_log2 s) (len (terms s))).
Proof.
  intros sign s k c W V. destruct (add_term_lf KO KS CO PO KL LL sign true true false s k c W V) as [(s' & E & W' & (M1 & M2 & M3) & G & _)|(E & N & B)]; [discriminate|auto| |].
  - left. exists s'. split; [exact E|]. split; [exact W'|]. split; [auto|]. split; [auto|]. split; [auto|]. intros us ws IU SU.
    pose proof (lw_wf _ _ _ _ W) as W0. pose proof (lw_wf _ _ _ _ W') as W0'. assert (IU' : incl (s_ss s') us) by (rewrite M1; exact IU).
    destruct (vec_eqb _ ws) eqn:EV.
    + apply vec_eqb_iff in EV. rewrite (entry_at KO KS CO KL us s k ws W0 IU V EV). rewrite (entry_at KO KS CO KL us s' k ws W0' IU'); [|rewrite M1; exact V|rewrite M1; exact EV].
      rewrite G. rewrite (proj2 (kl_eqb _ _ KL k k) eq_refl). reflexivity.
    + apply opt_ext. intros d. rewrite (entry_in KO KS CO KL us s' ws d W0' IU'), (entry_in KO KS CO KL us s ws d W0 IU). rewrite M1.
      assert (H : forall k', spread (s_ss s) us (ks_exps KS (len (s_ss s)) k') = ws -> (In (k', d) (terms s') <-> In (k', d) (terms s))).
      { intros k' EW. rewrite <- (sget_in KO KS CO KL s' k' d W0'), <- (sget_in KO KS CO KL s k' d W0), G. destruct (k_eqb KO k' k) eqn:EK; [|tauto].
        apply (kl_eqb _ _ KL) in EK. subst k'. apply vec_eqb_iff in EW. congruence. }
      split; intros (k' & J & EW); exists k'; split; auto; apply (H k' EW); exact J.
  - right. split; [exact E|]. split; auto.
Qed.

(** C71. Addition and subtraction. *)
Theorem any_cf_add_sub : forall (sign : bool) (x y : series), LWF x -> LWF y -> Z.of_nat (len (s_ss x) + len (s_ss y)) <= imax size_t ->
  let out := if sign then series_add KO CO PO TO x y else series_sub KO CO PO TO x y in
  (exists r, out = Ok r /\ LWF r /\ union_of (s_ss x) (s_ss y) (s_ss r) /\
     forall us ws, incl (s_ss r) us -> entry us r ws = combined CO sign (series_size y <=? series_size x)%nat (entry us x ws) (entry us y ws)) \/
  (key_overflow out /\
   ((exists u, union_of (s_ss x) (s_ss y) u /\ (unrep KS u x \/ unrep KS u y)) \/
    full (s_log2 x) (series_size x + series_size y) \/ full (s_log2 y) (series_size x + series_size y))).
Proof.
  intros sign x y WX WY B out. assert (OUT : out = series_addsub KO CO PO TO sign op_same op_same x y) by (unfold out; destruct sign; reflexivity). rewrite OUT. clear OUT out.
  rewrite !size_terms. destruct (addsub_lf KO KS CO PO TO KL LL sign x y WX WY B) as [(r & E & W & U & H & _)|[E H]].
  - left. exists r. split; [exact E|]. split; [exact W|]. split; [split; [apply (wf_ss _ _ _ _ (lw_wf _ _ _ _ W))|exact U]|]. exact H.
  - right. split; [exact E|]. destruct H as [(u & SU & U & H)|H]; [|tauto]. left. exists u. split; [split; auto|exact H].
Qed.

(** C71. The operators += and -=, with aliased operands too. *)
Theorem any_cf_in_place : forall (sign : bool) (x : series) (aliased : bool) (y : series), LWF x -> LWF y -> (aliased = true -> y = x) -> Z.of_nat (len (s_ss x) + len (s_ss y)) <= imax size_t ->
  let out := series_in_place_addsub KO CO PO CO PO TO sign (fun c => c) x aliased y in
  (exists r, out = Ok r /\ LWF r /\ union_of (s_ss x) (s_ss y) (s_ss r) /\
     forall us ws, incl (s_ss r) us -> entry us r ws = merged CO sign (entry us x ws) (entry us y ws)) \/
  (key_overflow out /\
   ((exists u, union_of (s_ss x) (s_ss y) u /\ (unrep KS u x \/ unrep KS u y)) \/
    full (s_log2 x) (series_size x + series_size y) \/ full (s_log2 y) (series_size x + series_size y))).
Proof.
  intros sign x al y WX WY A B out. unfold out. rewrite !size_terms. destruct (in_place_lf KO KS CO PO TO KL LL sign al x y WX WY A B) as [(r & E & W & U & H & _)|[E H]].
  - left. exists r. split; [exact E|]. split; [exact W|]. split; [split; [apply (wf_ss _ _ _ _ (lw_wf _ _ _ _ W))|exact U]|]. exact H.
  - right. split; [exact E|]. destruct H as [(u & SU & U & H)|H]; [|tauto]. left. exists u. split; [split; auto|exact H].
Qed.

(** C72. The pairs of coefficients which are multiplied: those of the shorter operand on the left. *)
Definition ordered_factors (us : symbol_set) (x y : series) (ws : list Z) : list (C * C) :=
  if (series_size x <=? series_size y)%nat then factors us x y ws else factors us y x ws.

Lemma good_swap sel lim t (x y : series) (out : res series) :
  (if (series_size x <=? series_size y)%nat then mul_lf_good KO KS CO TO sel lim t x y out else mul_lf_good KO KS CO TO sel lim t y x out) ->
  exists u, union_of (s_ss x) (s_ss y) u /\
  ((exists r, out = Ok r /\ LWF r /\ s_ss r = u /\ s_tag r = tag_default TO /\ ~ unrepresentable KS u x y /\
     (forall us ws, sorted_set us -> incl u us -> exists l, Permutation l (if kept_at sel lim t us ws then ordered_factors us x y ws else []) /\ entry us r ws = accumulated_nonzero CO l)) \/
   (key_overflow out /\ (unrepresentable KS u x y \/ (t <> None /\ (degree_unrep KS sel u x \/ degree_unrep KS sel u y)) \/ capacity x y))).
Proof.
  unfold ordered_factors. assert (PS : forall u (a b : series), product_unrep KS u a b -> product_unrep KS u b a).
  { intros u a b (p & q & Ip & Iq & B). exists q, p. split; [exact Iq|]. split; [exact Ip|]. cbn zeta in *. rewrite vadd_comm, Z.add_comm. exact B. }
  unfold unrepresentable, capacity. destruct (_ <=? _)%nat.
  - intros (u & U & [(r & E & W & SR & TR & NP & [N1 N2] & H & _)|[E H]]); exists u; (split; [exact U|]).
    + left. exists r. split; [exact E|]. split; [exact W|]. split; [exact SR|]. split; [exact TR|]. split; [tauto|exact H].
    + right. split; [exact E|]. tauto.
  - intros (u & [SU U] & [(r & E & W & SR & TR & NP & [N1 N2] & H & _)|[E H]]); exists u; (split; [split; [exact SU|]; intros z; rewrite U; tauto|]).
    + left. exists r. split; [exact E|]. split; [exact W|]. split; [exact SR|]. split; [exact TR|]. split; [|exact H]. intros [?|[?|P]]; try tauto. apply NP, PS, P.
    + right. split; [exact E|]. rewrite Nat.mul_comm in H. pose proof (PS u y x). tauto.
Qed.

(** C72. The product: every coefficient is accumulated from exactly the pairs of coefficients which meet in its monomial, each once. *)
Theorem any_cf_mul : forall E (x y : series), env_ok KO KS E -> LWF x -> LWF y -> Z.of_nat (len (s_ss x) + len (s_ss y)) <= imax size_t ->
  exists u, union_of (s_ss x) (s_ss y) u /\
  ((exists r, poly_mul KO CO PO TO E x y = Ok r /\ LWF r /\ s_ss r = u /\ s_tag r = tag_default TO /\ ~ unrepresentable KS u x y /\
      forall us ws, sorted_set us -> incl u us -> exists l, Permutation l (ordered_factors us x y ws) /\ entry us r ws = accumulated_nonzero CO l) \/
   (key_overflow (poly_mul KO CO PO TO E x y) /\ (unrepresentable KS u x y \/ capacity x y))).
Proof.
  intros E x y EO WX WY B. pose proof (switch_lf KO KS CO PO TO E KL LL EO all_symbols 0 None x y WX WY B (fun _ _ => I)) as H. apply good_swap in H as (u & U & H).
  exists u. split; [exact U|]. destruct H as [H|[H1 H2]]; [left; exact H|right; split; [exact H1|]]. destruct H2 as [H2|[[N _]|H2]]; tauto.
Qed.

(** C72. The truncated product, by total or partial degree ([trunc_exact], PolySpec.v). *)
Theorem any_cf_truncated_mul : forall E sel lim t (x y : series), env_ok KO KS E -> LWF x -> LWF y -> Z.of_nat (len (s_ss x) + len (s_ss y)) <= imax size_t ->
  (forall u, union_of (s_ss x) (s_ss y) u -> trunc_exact KS sel lim u t) ->
  exists u, union_of (s_ss x) (s_ss y) u /\
  ((exists r, poly_mul_switch KO CO PO TO E (Some t) x y = Ok r /\ LWF r /\ s_ss r = u /\ s_tag r = tag_default TO /\ ~ unrepresentable KS u x y /\
      forall us ws, sorted_set us -> incl u us -> exists l, Permutation l (if degree_of sel us ws <=? lim then ordered_factors us x y ws else []) /\ entry us r ws = accumulated_nonzero CO l) \/
   (key_overflow (poly_mul_switch KO CO PO TO E (Some t) x y) /\ (unrepresentable KS u x y \/ degree_unrep KS sel u x \/ degree_unrep KS sel u y \/ capacity x y))).
Proof.
  intros E sel lim t x y EO WX WY B TE. pose proof (switch_lf KO KS CO PO TO E KL LL EO sel lim (Some t) x y WX WY B TE) as H. apply good_swap in H as (u & U & H).
  exists u. split; [exact U|]. destruct H as [H|[H1 H2]]; [left; exact H|right; split; [exact H1|]]. destruct H2 as [H2|[[_ H2]|H2]]; tauto.
Qed.

Lemma mul_of E (x y r : series) : env_ok KO KS E -> LWF x -> LWF y -> Z.of_nat (len (s_ss x) + len (s_ss y)) <= imax size_t -> poly_mul KO CO PO TO E x y = Ok r ->
  union_of (s_ss x) (s_ss y) (s_ss r) /\ forall us ws, sorted_set us -> incl (s_ss r) us -> exists l, Permutation l (ordered_factors us x y ws) /\ entry us r ws = accumulated_nonzero CO l.
Proof.
  intros EO WX WY B ER. destruct (any_cf_mul E x y EO WX WY B) as (u & U & [(r' & ER' & _ & SR & _ & _ & H)|[[X|X] _]]); try congruence.
  assert (r' = r) by congruence. subst r'. rewrite SR. auto.
Qed.

(** C72. A monomial in which exactly one pair of terms meets has the coefficient of one multiplication, without any rounding by an
    accumulation; a monomial in which none meets has no coefficient. *)
Theorem any_cf_mul_single : forall E (x y r : series), env_ok KO KS E -> LWF x -> LWF y -> Z.of_nat (len (s_ss x) + len (s_ss y)) <= imax size_t -> poly_mul KO CO PO TO E x y = Ok r ->
  forall us ws, sorted_set us -> incl (s_ss r) us ->
  (forall a b, ordered_factors us x y ws = [(a, b)] -> entry us r ws = nonzero CO (c_mul CO a b)) /\
  (ordered_factors us x y ws = [] -> entry us r ws = None).
Proof.
  intros E x y r EO WX WY B ER us ws SU IU. destruct (mul_of E x y r EO WX WY B ER) as [_ H]. destruct (H us ws SU IU) as (l & P & EE). rewrite EE. split.
  - intros a b F. rewrite F in P. apply Permutation_sym, Permutation_length_1_inv in P. subst l. reflexivity.
  - intros F. rewrite F in P. apply Permutation_sym, Permutation_nil in P. subst l. reflexivity.
Qed.

(** C72. If the accumulation does not depend on the order, then neither does the product on the algorithm, the number of segments
    or the sorting of the terms. *)
Theorem any_cf_mul_schedule : forall E E' (x y r r' : series), env_ok KO KS E -> env_ok KO KS E' -> LWF x -> LWF y -> Z.of_nat (len (s_ss x) + len (s_ss y)) <= imax size_t ->
  poly_mul KO CO PO TO E x y = Ok r -> poly_mul KO CO PO TO E' x y = Ok r' ->
  s_ss r = s_ss r' /\
  forall us ws, sorted_set us -> incl (s_ss r) us -> (forall l, Permutation l (ordered_factors us x y ws) -> accumulated CO l = accumulated CO (ordered_factors us x y ws)) ->
    entry us r ws = entry us r' ws.
Proof.
  intros E E' x y r r' EO EO' WX WY B ER ER'. destruct (mul_of E x y r EO WX WY B ER) as [U H]. destruct (mul_of E' x y r' EO' WX WY B ER') as [U' H'].
  assert (S : s_ss r = s_ss r') by (eapply union_unique; eauto). split; [exact S|]. intros us ws SU IU A.
  destruct (H us ws SU IU) as (l & P & ->). destruct (H' us ws SU) as (l' & P' & ->); [rewrite <- S; exact IU|]. unfold accumulated_nonzero. rewrite (A l P), (A l' P'). reflexivity.
Qed.
End P.

(** * Series built by [add_term] *)
Lemma buildC_lwf {K C Tag} (KO : key_ops K) (KS : key_sem K) (CO : cf_ops C) PO (tg : Tag) ss l2 l (s : series K C Tag) : key_laws KO KS -> light_laws CO -> sorted_set ss -> (l2 <= 63)%nat ->
  (forall k c, In (k, c) l -> ks_valid KS (len ss) k) ->
  (s <- set_n_segments (Series [[]] 0 tg ss) l2 ;; rfold (fun s e => add_term KO CO PO true s (fst e) (snd e)) l s) = Ok s -> lwf KO KS CO s /\ s_ss s = ss /\ s_log2 s = l2 /\ s_tag s = tg.
Proof.
  intros KL LL S L V E. destruct (set_n_segments_ok KO KS CO (Series [[]] 0 tg ss : series K C Tag) l2 L S) as [E0 W0]. cbn [s_tag s_ss] in *. rewrite E0 in E. cbn [bind] in E.
  match type of E with rfold _ _ ?z = _ => assert (G : lwf KO KS CO z /\ s_ss z = ss /\ s_log2 z = l2 /\ s_tag z = tg); [|set (s0 := z) in *; clearbody s0] end.
  { split; [split; [exact W0|]|auto]. unfold terms. cbn [s_tables]. intros k c I. exfalso. apply in_concat in I as (t & I & J). apply repeat_spec in I. subst t. exact J. }
  clear E0 W0. revert s0 G E. induction l as [|[k c] l IH]; intros s0 (W & A1 & A2 & A3) E; cbn [rfold fst snd] in E; [injection E as <-; auto|].
  destruct (add_term_lf KO KS CO PO KL LL true true true false s0 k c W) as [(s1 & E1 & W1 & (M1 & M2 & M3) & _)|(E1 & _)].
  - rewrite A1. apply (V k c). left. reflexivity.
  - discriminate.
  - auto.
  - unfold add_term in E. rewrite E1 in E. cbn [bind] in E. apply (IH (fun k' c' I => V k' c' (or_intror I)) s1); [|exact E]. rewrite M1, M2, M3. auto.
  - unfold add_term in E. rewrite E1 in E. discriminate.
Qed.

(** * Examples: IEEE double precision numbers *)
Definition fprec := 53. Definition femax := 1024.
Definition f_add := SFadd fprec femax. Definition f_mul := SFmul fprec femax. Definition f_sub := SFsub fprec femax.
(** std::fma: the exact product and the exact sum of finite numbers, rounded once. *)
Definition f_fma (a b c : spec_float) : spec_float :=
  match a, b, c with
  | S754_finite sa ma ea, S754_finite sb mb eb, S754_finite sc mc ec =>
      let ep := eb + ec in let e := Z.min ea ep in
      binary_normalize fprec femax (cond_Zopp sa (Zpos (fst (shl_align ma ea e))) + cond_Zopp (xorb sb sc) (Zpos (fst (shl_align (mb * mc) ep e)))) e false
  | _, _, _ => f_add a (f_mul b c)
  end.
Definition f_of (m e : Z) : spec_float := binary_normalize fprec femax m e false.
Definition F_cf : cf_ops spec_float := {| c_zero := S754_zero false; c_one := f_of 1 0; c_add := f_add; c_sub := f_sub; c_mul := f_mul; c_fma := f_fma; c_neg := SFopp;
  c_is_zero := fun c => SFeqb c (S754_zero false); c_eqb := SFeqb |}.
Lemma F_light : light_laws F_cf.
Proof. constructor; [reflexivity|]. intros [[]|[]| |[] m e]; reflexivity. Qed.

Definition exFP : tbl_policy (Z * spec_float) := po_rev _.
Definition exF (ss : symbol_set) (l2 : nat) (l : list (list Z * spec_float)) : res (series Z spec_float Z) :=
  s <- set_n_segments (Series [[]] 0 0 ss) l2 ;; rfold (fun s e => add_term exK F_cf exFP true s (fst e) (snd e)) (map (fun e => (exk (fst e), snd e)) l) s.
Definition dF : series Z spec_float Z := series_default Z_tag.
(** 0.1 a + 2^53 b and 1 + 0.1 a + b. *)
Definition tenth := f_of 7205759403792794 (-56).
Definition fx := get dF (exF ["a"; "b"]%string 2 [([1; 0], tenth); ([0; 1], f_of 1 53)]).
Definition fy := get dF (exF ["a"; "b"]%string 0 [([0; 0], f_of 1 0); ([1; 0], tenth); ([0; 1], f_of 1 0)]).
Lemma exF_wf ss l2 l s : sorted_set ss -> (l2 <= 63)%nat -> forallb (fun e => representsb kd_int64 (len ss) (exk (fst e)) (fst e)) l = true -> exF ss l2 l = Ok s -> lwf exK exS F_cf s /\ s_ss s = ss.
Proof.
  intros S L F E. assert (X : lwf exK exS F_cf s /\ s_ss s = ss /\ s_log2 s = l2 /\ s_tag s = 0); [|destruct X as (A & B & _); auto].
  apply (buildC_lwf exK exS F_cf exFP 0 ss l2 (map (fun e => (exk (fst e), snd e)) l) s exK_laws F_light S L); [|exact E].
  intros k c I. apply in_map_iff in I as (e & [= <- <-] & I). rewrite forallb_forall in F. apply F in I. apply representsb_ok in I. exists (fst e). exact I.
Qed.
Lemma ab_sorted : sorted_set ["a"; "b"]%string. Proof. repeat constructor. Qed.
Example fx_wf : lwf exK exS F_cf fx. Proof. apply (exF_wf ["a"; "b"]%string 2 [([1; 0], tenth); ([0; 1], f_of 1 53)]); [apply ab_sorted|lia|reflexivity|vm_compute; reflexivity]. Qed.
Example fy_wf : lwf exK exS F_cf fy. Proof. apply (exF_wf ["a"; "b"]%string 0 [([0; 0], f_of 1 0); ([1; 0], tenth); ([0; 1], f_of 1 0)]); [apply ab_sorted|lia|reflexivity|vm_compute; reflexivity]. Qed.

(** x + y: the coefficient of b is 2^53 + 1 rounded to 2^53; x * y: the coefficient of a b is 0.1 + 2^53 * 0.1 accumulated in some order. *)
Definition fE (mt : bool) (lg : nat) : mul_env Z spec_float Z := ex_env exS (pm_okb kd_int64) mt lg.
Lemma fE_ok mt lg : env_ok exK exS (fE mt lg).
Proof. apply pm_env_ok. right. right. left. reflexivity. Qed.
Example ex_float : exists s p q, series_add exK F_cf exFP Z_tag fx fy = Ok s /\ entry exS ["a"; "b"]%string s [0; 1] = Some (f_of 1 53) /\ c_add F_cf (f_of 1 53) (f_of 1 0) = f_of 1 53 /\
  poly_mul exK F_cf exFP Z_tag (fE false 0) fx fy = Ok p /\ poly_mul exK F_cf exFP Z_tag (fE true 2) fx fy = Ok q /\ s_log2 q = 2%nat /\
  ordered_factors exS ["a"; "b"]%string fx fy [1; 1] = [(tenth, f_of 1 0); (f_of 1 53, tenth)] /\
  entry exS ["a"; "b"]%string p [1; 1] = entry exS ["a"; "b"]%string q [1; 1] /\ entry exS ["a"; "b"]%string p [2; 0] = Some (f_mul tenth tenth) /\ entry exS ["a"; "b"]%string p [3; 0] = None.
Proof.
  do 3 eexists. split; [vm_compute; reflexivity|]. split; [vm_compute; reflexivity|]. split; [vm_compute; reflexivity|]. split; [vm_compute; reflexivity|]. split; [vm_compute; reflexivity|].
  do 4 (split; [vm_compute; reflexivity|]). vm_compute. reflexivity.
Qed.
(** The light laws hold although these numbers are not a ring: addition is not associative. *)
Example float_not_ring : f_add (f_add (f_of 1 53) (f_of 1 0)) (f_of 1 0) <> f_add (f_of 1 53) (f_add (f_of 1 0) (f_of 1 0)).
Proof. vm_compute. discriminate. Qed.

(** * The order of the factors: matrices *)
Record m2 : Type := M2 { m11 : Z; m12 : Z; m21 : Z; m22 : Z }.
Definition m2_add a b := M2 (m11 a + m11 b) (m12 a + m12 b) (m21 a + m21 b) (m22 a + m22 b).
Definition m2_neg a := M2 (- m11 a) (- m12 a) (- m21 a) (- m22 a).
Definition m2_mul a b := M2 (m11 a * m11 b + m12 a * m21 b) (m11 a * m12 b + m12 a * m22 b) (m21 a * m11 b + m22 a * m21 b) (m21 a * m12 b + m22 a * m22 b).
Definition m2_eqb a b := (m11 a =? m11 b) && (m12 a =? m12 b) && (m21 a =? m21 b) && (m22 a =? m22 b).
Definition M2_cf : cf_ops m2 := {| c_zero := M2 0 0 0 0; c_one := M2 1 0 0 1; c_add := m2_add; c_sub := fun a b => m2_add a (m2_neg b); c_mul := m2_mul;
  c_fma := fun a b c => m2_add a (m2_mul b c); c_neg := m2_neg; c_is_zero := fun c => m2_eqb c (M2 0 0 0 0); c_eqb := m2_eqb |}.
Lemma M2_light : light_laws M2_cf.
Proof.
  constructor; [reflexivity|]. intros c. cbn. unfold m2_eqb, m2_neg. cbn [m11 m12 m21 m22]. assert (H : forall a, (- a =? 0) = (a =? 0)) by (intros a; apply eq_iff_eq_true; rewrite !Z.eqb_eq; lia).
  rewrite !H. reflexivity.
Qed.
Definition exMP : tbl_policy (Z * m2) := po_rev _.
Definition exM (l : list (list Z * m2)) : res (series Z m2 Z) :=
  s <- set_n_segments (Series [[]] 0 0 ["a"]%string) 0 ;; rfold (fun s e => add_term exK M2_cf exMP true s (fst e) (snd e)) (map (fun e => (exk (fst e), snd e)) l) s.
Definition dM : series Z m2 Z := series_default Z_tag.
Definition mA := M2 1 1 0 1. Definition mB := M2 1 0 1 1.
Definition mx := get dM (exM [([0], mA); ([1], mA)]).
Definition my := get dM (exM [([0], mB)]).
Lemma exM_wf l s : forallb (fun e => representsb kd_int64 1 (exk (fst e)) (fst e)) l = true -> exM l = Ok s -> lwf exK exS M2_cf s.
Proof.
  intros F E. assert (X : lwf exK exS M2_cf s /\ s_ss s = ["a"]%string /\ s_log2 s = 0%nat /\ s_tag s = 0); [|destruct X as (A & B & _); auto].
  apply (buildC_lwf exK exS M2_cf exMP 0 ["a"]%string 0 (map (fun e => (exk (fst e), snd e)) l) s exK_laws M2_light); [repeat constructor|lia| |exact E].
  intros k c I. apply in_map_iff in I as (e & [= <- <-] & I). rewrite forallb_forall in F. apply F in I. apply representsb_ok in I. exists (fst e). exact I.
Qed.

(** The claim that x * y multiplies the coefficients of x by those of y, in this order. *)
Definition left_to_right {K C Tag} (KO : key_ops K) (KS : key_sem K) (CO : cf_ops C) (PO : tbl_policy (K * C)) (TO : tag_ops Tag) : Prop :=
  forall E (x y r : series K C Tag), env_ok KO KS E -> lwf KO KS CO x -> lwf KO KS CO y -> poly_mul KO CO PO TO E x y = Ok r ->
  forall us ws, sorted_set us -> incl (s_ss r) us -> exists l, Permutation l (factors KS us x y ws) /\ entry KS us r ws = accumulated_nonzero CO l.

(** C72. If x has more terms than y, the coefficients of y are on the left. *)
Theorem product_order_refuted : ~ left_to_right exK exS M2_cf exMP Z_tag.
Proof.
  intros H. assert (EO : env_ok exK exS (ex_env (C := m2) (Tag := Z) exS (pm_okb kd_int64) false 0)) by (apply pm_env_ok; right; right; left; reflexivity).
  assert (W1 : lwf exK exS M2_cf mx) by (apply (exM_wf [([0], mA); ([1], mA)]); vm_compute; reflexivity).
  assert (W2 : lwf exK exS M2_cf my) by (apply (exM_wf [([0], mB)]); vm_compute; reflexivity).
  destruct (H _ mx my (get dM (poly_mul exK M2_cf exMP Z_tag (ex_env exS (pm_okb kd_int64) false 0) mx my)) EO W1 W2) with (us := ["a"]%string) (ws := [1]) as (l & P & EE).
  - vm_compute. reflexivity.
  - repeat constructor.
  - vm_compute. tauto.
  - assert (F : factors exS ["a"]%string mx my [1] = [(mA, mB)]) by (vm_compute; reflexivity). rewrite F in P. apply Permutation_sym, Permutation_length_1_inv in P. subst l. vm_compute in EE. discriminate.
Qed.

Print Assumptions any_cf_add_term.
Print Assumptions any_cf_add_sub.
Print Assumptions any_cf_in_place.
Print Assumptions any_cf_mul.
Print Assumptions any_cf_truncated_mul.
Print Assumptions any_cf_mul_single.
Print Assumptions any_cf_mul_schedule.
Print Assumptions ex_float.
Print Assumptions product_order_refuted.
