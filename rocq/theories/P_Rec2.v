(** Property C74: degrees and truncation of polynomials with polynomial coefficients.  Vocabulary: RecSpec.v ([flat]: the terms in the outer and
    the inner symbols), PolySpec.v ([degree_of sel us ws]: the sum of the exponents of the symbols selected by sel). *)
From Coq Require Import ZArith List Bool String Arith Lia Permutation Sorted Ring Ring_theory.
From Verif Require Import Base IntModel IntSpec IntProofs P_Int KpackModel KpackSpec KpackProofs P_Kpack SymSpec SymModel SymProofs P_Sym PMonSpec PMonModel PMonProofs PMonProofs2 P_PMon KeyOps KeyInst SeriesModel SeriesModel2 SeriesSpec PolyModel PolyModel2 PolySpec PolyProofs PolyProofs2
  SeriesProofs SeriesProofs2 SeriesProofs3 SeriesProofs4 SeriesProofs5 SeriesProofs6 SeriesEval CfInst P_Series P_Series2 P_Poly P_Poly2 P_Calc P_Inv PolyProofs5 PolyProofs6 PolyProofs7 PolyProofs8 LfSpec LfProofs LfProofs2 LfProofs3 LfProofs4 P_Lf RecModel RecModel2 RecSpec RecProofs P_Rec.
Import ListNotations.
Open Scope Z_scope.
Open Scope res_scope.
Local Notation len := List.length.

(** The degrees of the keys and of the coefficients are added without a change of value by the conversions of C++: the types have
    the same signedness, or the signed one is wider. *)
Definition same_sign (t u : ity) : Prop := sgnd t = sgnd u \/ (sgnd t = true /\ bits u < bits t) \/ (sgnd u = true /\ bits t < bits u).

Lemma common_integral t u : integral_type t -> integral_type u -> integral_type (common t u).
Proof.
  intros Ht Hu. assert (P : forall t, integral_type t -> integral_type (promote t)).
  { intros a Ha. unfold promote. destruct (bits a <? 32); [right; exists 32, true; cbn; tauto|exact Ha]. }
  unfold common. destruct (Bool.eqb _ _); destruct (_ <? _) || destruct (_ <=? _); try destruct (sgnd (promote t)); apply P; auto.
Qed.
Lemma common_keep t u a : integral_type t -> integral_type u -> same_sign t u -> has_value t a \/ has_value u a -> has_value (common t u) a.
Proof.
  intros Ht Hu S V. pose proof (common_lims t u Ht Hu) as (C0 & C1 & C2 & C3 & C4). rewrite !hv_unfold in *.
  destruct S as [S|S]; [specialize (C4 S); lia|]. pose proof (common_lims2 t u Ht Hu S). lia.
Qed.

Section R.
Context {K Tag KI C TagI : Type} (KO : key_ops K) (KS : key_sem K)
  (KOI : key_ops KI) (KSI : key_sem KI) (CO : cf_ops C) (POI : tbl_policy (KI * C)) (TOI : tag_ops TagI) (EI : mul_env KI C TagI).
Hypothesis KL : key_laws KO KS.
Hypothesis KLI : key_laws KOI KSI.
Notation inner := (series KI C TagI).
Notation outer := (series K (res inner) Tag).
Notation RC := (rec_cf KOI CO POI TOI EI).
Notation RWF := (rwf KO KS RC KOI KSI CO).
Notation flat := (flat KS KSI).
Notation odeg sel x k := (degree_of sel (s_ss x) (ks_exps KS (len (s_ss x)) k)).
Notation ideg sel s k := (degree_of sel (s_ss s) (ks_exps KSI (len (s_ss s)) k)).

(** The degree, in the selected symbols, of a term of the flattened polynomial. *)
Definition fdeg (sel : string -> bool) (us vs : symbol_set) (p : (list Z * list Z) * C) : Z := degree_of sel us (fst (fst p)) + degree_of sel vs (snd (fst p)).
(** The degree of a stored term: that of its key plus the largest degree in its coefficient. *)
Definition term_degree (sel : string -> bool) (x : outer) (k : K) (c : res inner) (d : Z) : Prop :=
  exists s m, c = Ok s /\ is_max (map (fun f => ideg sel s (fst f)) (terms s)) m /\ d = odeg sel x k + m.
(** Some degree, in the selected symbols, does not fit: that of a key, of a term of a coefficient (in their types), or that of a stored term in the type of the sum. *)
Definition degree_overflow (tS : ity) (sel : string -> bool) (x : outer) : Prop :=
  exists k s, In (k, Ok s) (terms x) /\
    (~ ks_deg_fits KS (selected sel (s_ss x) (ks_exps KS (len (s_ss x)) k)) \/
     (exists k' c', In (k', c') (terms s) /\ ~ ks_deg_fits KSI (selected sel (s_ss s) (ks_exps KSI (len (s_ss s)) k'))) \/
     (exists k' c', In (k', c') (terms s) /\ ~ has_value tS (odeg sel x k + ideg sel s k'))).

Section D.
Variables (bi : bool) (tK tC : ity).
Hypothesis HK : integral_type tK.
Hypothesis HC : integral_type tC.
Hypothesis SG : same_sign tK tC.
Hypothesis DK : degrees_in KS tK.
Hypothesis DC : degrees_in KSI tC.
Notation tS := (common tK tC).

Section G.
Variable (sel : string -> bool) (U : symbol_set) (x : outer) (ext : K * res inner -> res Z) (kd : K -> res Z) (cd : inner -> res Z).
Hypothesis W : RWF U x.
Hypothesis EXT : forall e, ext e = d_sum bi tK tC (kd (fst e)) (c <- snd e ;; cd c).
Hypothesis KD : forall k, ks_valid KS (len (s_ss x)) k -> let vs := selected sel (s_ss x) (ks_exps KS (len (s_ss x)) k) in
  (ks_deg_fits KS vs -> kd k = Ok (vsum vs)) /\ (~ ks_deg_fits KS vs -> kd k = Throw overflow_error).
Hypothesis CD : forall s, wf KOI KSI CO s -> 
  (exists m, cd s = Ok m /\ (forall k c, In (k, c) (terms s) -> ks_deg_fits KSI (selected sel (s_ss s) (ks_exps KSI (len (s_ss s)) k))) /\ is_max (map (fun f => ideg sel s (fst f)) (terms s)) m) \/
  (cd s = Throw overflow_error /\ exists k c, In (k, c) (terms s) /\ ~ ks_deg_fits KSI (selected sel (s_ss s) (ks_exps KSI (len (s_ss s)) k))).

Lemma ext_spec k c : In (k, c) (terms x) ->
  (exists d, ext (k, c) = Ok d /\ term_degree sel x k c d /\ has_value tS d) \/ (ext (k, c) = Throw overflow_error /\ degree_overflow tS sel x).
Proof.
  intros I. destruct (rw_inner _ _ _ _ _ _ _ _ W k c I) as (s & -> & WS & IS). rewrite EXT. unfold d_sum. cbn [fst snd bind].
  assert (V : ks_valid KS (len (s_ss x)) k) by (eapply wf_valid; [apply (lw_wf _ _ _ _ (rw_lwf _ _ _ _ _ _ _ _ W))|exact I]).
  destruct (kl_deg_dec _ _ KL (selected sel (s_ss x) (ks_exps KS (len (s_ss x)) k))) as [G|G].
  2: { rewrite (proj2 (KD k V) G). cbn [bind]. right. split; [reflexivity|]. exists k, s. auto. }
  rewrite (proj1 (KD k V) G). cbn [bind]. destruct (CD s WS) as [(m & -> & F & M)|(-> & k' & c' & I' & N)]; cbn [bind].
  2: { right. split; [reflexivity|]. exists k, s. split; [exact I|]. right. left. eauto. }
  change (vsum (selected sel (s_ss x) (ks_exps KS (len (s_ss x)) k))) with (odeg sel x k).
  assert (NE : terms s <> []). { intros E. pose proof (lw_nonzero _ _ _ _ (rw_lwf _ _ _ _ _ _ _ _ W) k (Ok s) I) as Z0. cbn in Z0. apply empty_terms in E. congruence. }
  assert (AT : exists k' c', In (k', c') (terms s) /\ m = ideg sel s k'). { destruct M as [[M _]|[M _]]; [apply map_eq_nil in M; contradiction|]. apply in_map_iff in M as ([k' c'] & <- & J). eauto. }
  destruct AT as (k' & c' & I' & Em).
  assert (V1 : has_value tK (odeg sel x k)) by (apply DK; [apply (kl_len _ _ KL); exact V|apply (kl_fits _ _ KL); exact V|exact G]).
  assert (V' : ks_valid KSI (len (s_ss s)) k') by (eapply wf_valid; eauto).
  assert (V2 : has_value tC m) by (rewrite Em; apply DC; [apply (kl_len _ _ KLI); exact V'|apply (kl_fits _ _ KLI); exact V'|eapply F; eauto]).
  pose proof (common_lims tK tC HK HC) as (C0 & _). rewrite !wrap_has by (auto; apply common_keep; auto).
  destruct (safe_int_add_exact bi tS (odeg sel x k) m (common_integral tK tC HK HC) (common_keep _ _ _ HK HC SG (or_introl V1)) (common_keep _ _ _ HK HC SG (or_intror V2))) as [A1 A2].
  destruct (in_ity tS (odeg sel x k + m)) eqn:EI0.
  - assert (HV : has_value tS (odeg sel x k + m)) by (apply hv_unfold; unfold in_ity in EI0; apply andb_true_iff in EI0; lia). left. exists (odeg sel x k + m). split; [apply A1; exact HV|]. split; [exists s, m; auto|exact HV].
  - assert (HV : ~ has_value tS (odeg sel x k + m)) by (rewrite hv_unfold; unfold in_ity in EI0; apply andb_false_iff in EI0; lia). right. split; [apply A2; exact HV|]. exists k, s. split; [exact I|]. right. right. exists k', c'. rewrite <- Em. auto.
Qed.

Lemma flat_in us vs p : In p (flat us vs x) <-> exists k s k' c', In (k, Ok s) (terms x) /\ In (k', c') (terms s) /\
  p = ((spread (s_ss x) us (ks_exps KS (len (s_ss x)) k), spread (s_ss s) vs (ks_exps KSI (len (s_ss s)) k')), c').
Proof.
  unfold RecSpec.flat. rewrite in_flat_map. split.
  - intros ([k [s| |]] & I & J); cbn [snd fst] in J; try destruct J. apply in_map_iff in J as ([k' c'] & <- & J). exists k, s, k', c'. auto.
  - intros (k & s & k' & c' & I & J & ->). exists (k, Ok s). split; [exact I|]. cbn [snd fst]. apply in_map_iff. exists (k', c'). auto.
Qed.
Lemma fdeg_in us vs k s k' c' : sorted_set us -> sorted_set vs -> incl (s_ss x) us -> incl U vs -> In (k, Ok s) (terms x) -> In (k', c') (terms s) ->
  fdeg sel us vs ((spread (s_ss x) us (ks_exps KS (len (s_ss x)) k), spread (s_ss s) vs (ks_exps KSI (len (s_ss s)) k')), c') = odeg sel x k + ideg sel s k'.
Proof.
  intros SU SV IU IV I J. unfold fdeg. cbn [fst snd]. destruct (rw_inner _ _ _ _ _ _ _ _ W k _ I) as (s' & [= <-] & WS & IS). pose proof (lw_wf _ _ _ _ (rw_lwf _ _ _ _ _ _ _ _ W)) as W0.
  rewrite !degree_spread; auto; try (apply sorted_set_nodup; auto; eapply wf_ss; eassumption).
  - intros z Iz. apply IV, IS, Iz.
  - apply (kl_len _ _ KLI). eapply wf_valid; eauto.
  - apply (kl_len _ _ KL). eapply wf_valid; eauto.
Qed.

Lemma degree_gen : (exists m, max_degree ext x = Ok m /\ forall us vs, sorted_set us -> sorted_set vs -> incl (s_ss x) us -> incl U vs -> is_max (map (fdeg sel us vs) (flat us vs x)) m) \/
  (max_degree ext x = Throw overflow_error /\ degree_overflow tS sel x).
Proof.
  destruct (max_degree_ok ext (fun e => match ext e with Ok d => d | _ => 0 end) (fun e => exists d, ext e = Ok d) x) as [(m & E & A & M)|(E & [k c] & I & N)].
  - intros e. destruct (ext e); [left; eauto|right; intros (? & ?); discriminate..].
  - intros e _ (d & ->). reflexivity.
  - intros [k c] I N. destruct (ext_spec k c I) as [(d & ED & _)|[ED _]]; [exfalso; eauto|exact ED].
  - left. exists m. split; [exact E|]. intros us vs SU SV IU IV.
    assert (TD : forall k c, In (k, c) (terms x) -> exists s m' , c = Ok s /\ (exists k' c', In (k', c') (terms s) /\ m' = ideg sel s k') /\ (forall k' c', In (k', c') (terms s) -> ideg sel s k' <= m') /\ ext (k, c) = Ok (odeg sel x k + m')).
    { intros k c I. destruct (ext_spec k c I) as [(d & ED & (s & m' & -> & MX & ->) & _)|[ED _]].
      - exists s, m'. split; [reflexivity|]. destruct MX as [[MX _]|[MX MY]].
        + apply map_eq_nil in MX. pose proof (lw_nonzero _ _ _ _ (rw_lwf _ _ _ _ _ _ _ _ W) k (Ok s) I) as Z0. cbn in Z0. apply empty_terms in MX. congruence.
        + split; [apply in_map_iff in MX as ([k' c'] & <- & J); eauto|]. split; [|exact ED]. intros k' c' J. apply MY. apply in_map_iff. exists (k', c'). auto.
      - destruct (A _ I) as (d & ED'). congruence. }
    destruct M as [[M ->]|[M1 M2]].
    + left. split; [|reflexivity]. apply map_eq_nil in M. unfold RecSpec.flat. rewrite M. reflexivity.
    + right. split.
      * apply in_map_iff in M1 as ([k c] & E1 & I). destruct (TD k c I) as (s & m' & -> & (k' & c' & J & ->) & _ & ED). rewrite ED in E1. subst m. apply in_map_iff.
        exists ((spread (s_ss x) us (ks_exps KS (len (s_ss x)) k), spread (s_ss s) vs (ks_exps KSI (len (s_ss s)) k')), c'). split; [eapply fdeg_in; eauto|]. apply flat_in. exists k, s, k', c'. auto.
      * intros v Iv. apply in_map_iff in Iv as (p & <- & Ip). apply flat_in in Ip as (k & s & k' & c' & I & J & ->). rewrite (fdeg_in us vs k s k' c') by assumption.
        destruct (TD k (Ok s) I) as (s' & m' & [= <-] & _ & MX & ED). specialize (MX k' c' J). assert (L : odeg sel x k + m' <= m); [|lia]. apply M2. apply in_map_iff. exists (k, Ok s). split; [rewrite ED; reflexivity|exact I].
  - right. split; [exact E|]. destruct (ext_spec k c I) as [(d & ED & _)|[_ D]]; [exfalso; eauto|exact D].
Qed.

Lemma truncate_rec tV lim : limit_ok tV tS lim ->
  let f := fun e => d <- ext e ;; Ok (negb (clt tV tS lim d)) in
  (exists r, series_filter_res f x = Ok r /\ RWF U r /\ s_ss r = s_ss x /\ s_tag r = s_tag x /\ s_log2 r = s_log2 x /\
    (forall k c, In (k, c) (terms r) <-> In (k, c) (terms x) /\ exists d, term_degree sel x k c d /\ d <= lim)) \/
  (series_filter_res f x = Throw overflow_error /\ degree_overflow tS sel x).
Proof.
  intros LO f. set (good := fun e => exists d, ext e = Ok d). set (gb := fun e => match ext e with Ok d => d <=? lim | _ => false end).
  assert (DEC : forall e, good e \/ ~ good e). { intros e. unfold good. destruct (ext e); [left; eauto|right; intros (? & ?); discriminate..]. }
  assert (H1 : forall e, In e (terms x) -> good e -> f e = Ok (gb e)).
  { intros [k c] I (d & ED). unfold f, gb. rewrite ED. cbn [bind]. destruct (ext_spec k c I) as [(d' & ED' & _ & HV)|[ED' _]]; [|congruence]. assert (d' = d) by congruence. subst d'.
    rewrite (limit_clt tV tS lim d LO (common_integral _ _ HK HC) HV). rewrite Z.leb_antisym. reflexivity. }
  assert (H2 : forall e, In e (terms x) -> ~ good e -> f e = Throw overflow_error).
  { intros [k c] I N. unfold f. destruct (ext_spec k c I) as [(d & ED & _)|[ED _]]; [exfalso; apply N; exists d; exact ED|]. rewrite ED. reflexivity. }
  assert (ALL : (forall e, In e (terms x) -> good e) \/ exists e, In e (terms x) /\ ~ good e).
  { clear - DEC. induction (terms x) as [|e l IH]; [left; intros e []|]. destruct (DEC e) as [G|G]; [|right; exists e; split; [left; reflexivity|exact G]]. destruct IH as [IH|(e' & I & N)]; [left; intros e' [<-|I]; auto|right; exists e'; split; [right; exact I|exact N]]. }
  destruct ALL as [ALL|(e & I & N)].
  - left. assert (EF : series_filter_res f x = Ok (series_filter gb x)) by (apply filter_res_ok; auto). exists (series_filter gb x). split; [exact EF|]. pose proof (lw_wf _ _ _ _ (rw_lwf _ _ _ _ _ _ _ _ W)) as W0.
    destruct (filter_ok KO KS RC gb x W0) as (W' & M1 & M2 & M3). assert (IN : forall k c, In (k, c) (terms (series_filter gb x)) <-> In (k, c) (terms x) /\ gb (k, c) = true) by (intros k c; rewrite filter_terms; apply filter_In).
    split; [|split; [exact M1|split; [exact M2|split; [exact M3|]]]].
    + constructor; [constructor; [exact W'|]|]; intros k c I; apply IN in I as [I _]; [apply (lw_nonzero _ _ _ _ (rw_lwf _ _ _ _ _ _ _ _ W) k c I)|apply (rw_inner _ _ _ _ _ _ _ _ W k c I)].
    + intros k c. rewrite IN. split; intros [I H]; (split; [exact I|]).
      * unfold gb in H. destruct (ext_spec k c I) as [(d & ED & TD & _)|[ED _]]; rewrite ED in H; [|discriminate]. exists d. split; [exact TD|lia].
      * destruct H as (d & TD & L). unfold gb. destruct (ext_spec k c I) as [(d' & ED & TD' & _)|[ED D]]; rewrite ED.
        -- assert (d' = d); [|subst; lia]. destruct TD as (s & m & -> & MX & ->), TD' as (s' & m' & [= <-] & MX' & ->). f_equal.
           destruct MX as [[E ->]|[A B]], MX' as [[E' ->]|[A' B']]; try reflexivity; try (rewrite E in A'; destruct A'); try (rewrite E' in A; destruct A). specialize (B _ A'). specialize (B' _ A). lia.
        -- exfalso. destruct (ALL _ I) as (d' & ED'). congruence.
  - right. assert (BAD : series_filter_res f x = Throw overflow_error). { apply (filter_res_bad f gb good x); eauto. } split; [exact BAD|]. destruct e as [k c]. destruct (ext_spec k c I) as [(d & ED & _)|[_ D]]; [exfalso; apply N; exists d; exact ED|exact D].
Qed.
End G.

(** The degree functions of keys and coefficients. *)
Lemma key_total x k : ks_valid KS (len (s_ss (x : outer))) k -> let vs := selected all_symbols (s_ss x) (ks_exps KS (len (s_ss x)) k) in
  (ks_deg_fits KS vs -> k_degree KO k (s_ss x) = Ok (vsum vs)) /\ (~ ks_deg_fits KS vs -> k_degree KO k (s_ss x) = Throw overflow_error).
Proof. intros V vs. unfold vs. rewrite selected_all by (apply (kl_len _ _ KL); exact V). apply (kl_degree _ _ KL). exact V. Qed.
Lemma key_partial syms x k : sorted_set syms -> sorted_set (s_ss (x : outer)) -> ks_valid KS (len (s_ss x)) k -> let vs := selected (one_of syms) (s_ss x) (ks_exps KS (len (s_ss x)) k) in
  (ks_deg_fits KS vs -> k_p_degree KO k (ss_intersect_idx syms (s_ss x)) (s_ss x) = Ok (vsum vs)) /\ (~ ks_deg_fits KS vs -> k_p_degree KO k (ss_intersect_idx syms (s_ss x)) (s_ss x) = Throw overflow_error).
Proof.
  intros SY SX V vs. unfold vs. rewrite <- select_syms by (auto; apply (kl_len _ _ KL); exact V). apply (kl_p_degree _ _ KL); [exact V|]. apply (ss_intersect_idx_exact syms (s_ss x) SY SX).
Qed.
Lemma inner_total (s : inner) : wf KOI KSI CO s ->
  (exists m, series_degree KOI s = Ok m /\ (forall k c, In (k, c) (terms s) -> ks_deg_fits KSI (selected all_symbols (s_ss s) (ks_exps KSI (len (s_ss s)) k))) /\ is_max (map (fun f => ideg all_symbols s (fst f)) (terms s)) m) \/
  (series_degree KOI s = Throw overflow_error /\ exists k c, In (k, c) (terms s) /\ ~ ks_deg_fits KSI (selected all_symbols (s_ss s) (ks_exps KSI (len (s_ss s)) k))).
Proof.
  intros W. assert (V : forall k c, In (k, c) (terms s) -> ks_valid KSI (len (s_ss s)) k) by (intros k c I; eapply wf_valid; eauto).
  destruct (max_degree_ok (fun e => k_degree KOI (fst e) (s_ss s)) (fun e => ideg all_symbols s (fst e)) (fun e => ks_deg_fits KSI (selected all_symbols (s_ss s) (ks_exps KSI (len (s_ss s)) (fst e)))) s) as [(m & E & G & M)|[E ([k c] & I & N)]].
  - intros e. apply (kl_deg_dec _ _ KLI).
  - intros [k c] I G. unfold degree_of. cbn [fst] in *. rewrite selected_all in * by (apply (kl_len _ _ KLI); eauto). apply (kl_degree _ _ KLI); eauto.
  - intros [k c] I G. cbn [fst] in *. rewrite selected_all in * by (apply (kl_len _ _ KLI); eauto). apply (kl_degree _ _ KLI); eauto.
  - left. exists m. split; [exact E|]. split; [|exact M]. intros k c I. apply (G (k, c) I).
  - right. split; [exact E|]. exists k, c. auto.
Qed.
Lemma inner_partial syms (s : inner) : sorted_set syms -> wf KOI KSI CO s ->
  (exists m, series_p_degree KOI s syms = Ok m /\ (forall k c, In (k, c) (terms s) -> ks_deg_fits KSI (selected (one_of syms) (s_ss s) (ks_exps KSI (len (s_ss s)) k))) /\ is_max (map (fun f => ideg (one_of syms) s (fst f)) (terms s)) m) \/
  (series_p_degree KOI s syms = Throw overflow_error /\ exists k c, In (k, c) (terms s) /\ ~ ks_deg_fits KSI (selected (one_of syms) (s_ss s) (ks_exps KSI (len (s_ss s)) k))).
Proof.
  intros SY W. assert (V : forall k c, In (k, c) (terms s) -> ks_valid KSI (len (s_ss s)) k) by (intros k c I; eapply wf_valid; eauto). pose proof (wf_ss _ _ _ _ W) as SX.
  destruct (ss_intersect_idx_exact syms (s_ss s) SY SX) as [SI _].
  destruct (max_degree_ok (fun e => k_p_degree KOI (fst e) (ss_intersect_idx syms (s_ss s)) (s_ss s)) (fun e => ideg (one_of syms) s (fst e)) (fun e => ks_deg_fits KSI (selected (one_of syms) (s_ss s) (ks_exps KSI (len (s_ss s)) (fst e)))) s) as [(m & E & G & M)|[E ([k c] & I & N)]].
  - intros e. apply (kl_deg_dec _ _ KLI).
  - intros [k c] I G. unfold degree_of. cbn [fst] in *. rewrite <- select_syms in * by (auto; apply (kl_len _ _ KLI); eauto). apply (kl_p_degree _ _ KLI); eauto.
  - intros [k c] I G. cbn [fst] in *. rewrite <- select_syms in * by (auto; apply (kl_len _ _ KLI); eauto). apply (kl_p_degree _ _ KLI); eauto.
  - left. exists m. split; [exact E|]. split; [|exact M]. intros k c I. apply (G (k, c) I).
  - right. split; [exact E|]. exists k, c. auto.
Qed.

(** C74. degree() and p_degree(): the largest degree of a monomial in all the symbols, or overflow_error because some degree does not fit. *)
Theorem rec_degree_partial : forall U (x : outer), RWF U x ->
  (exists m, rec_degree KO KOI bi tK tC x = Ok m /\ forall us vs, sorted_set us -> sorted_set vs -> incl (s_ss x) us -> incl U vs -> is_max (map (fdeg all_symbols us vs) (flat us vs x)) m) \/
  (rec_degree KO KOI bi tK tC x = Throw overflow_error /\ degree_overflow tS all_symbols x).
Proof.
  intros U x W. apply (degree_gen all_symbols U x (rec_d KO KOI bi tK tC (s_ss x)) (fun k => k_degree KO k (s_ss x)) (fun s => series_degree KOI s) W); [reflexivity|apply key_total|apply inner_total].
Qed.
Theorem rec_p_degree_partial : forall U (x : outer) syms, RWF U x -> sorted_set syms ->
  (exists m, rec_p_degree KO KOI bi tK tC x syms = Ok m /\ forall us vs, sorted_set us -> sorted_set vs -> incl (s_ss x) us -> incl U vs -> is_max (map (fdeg (one_of syms) us vs) (flat us vs x)) m) \/
  (rec_p_degree KO KOI bi tK tC x syms = Throw overflow_error /\ degree_overflow tS (one_of syms) x).
Proof.
  intros U x syms W SY. apply (degree_gen (one_of syms) U x (rec_pd KO KOI bi tK tC syms (s_ss x)) (fun k => k_p_degree KO k (ss_intersect_idx syms (s_ss x)) (s_ss x)) (fun s => series_p_degree KOI s syms) W); [reflexivity| |].
  - intros k. apply key_partial; auto. apply (wf_ss _ _ _ _ (lw_wf _ _ _ _ (rw_lwf _ _ _ _ _ _ _ _ W))).
  - intros s. apply inner_partial. exact SY.
Qed.

(** C74. truncate_degree() and truncate_p_degree(): exactly the stored terms whose degree is at most the limit are kept, with their coefficients, so no monomial above the limit is left. *)
Lemma within_limit sel U (x r : outer) lim : RWF U x -> s_ss r = s_ss x -> (forall k c, In (k, c) (terms r) <-> In (k, c) (terms x) /\ exists d, term_degree sel x k c d /\ d <= lim) ->
  forall us vs p, sorted_set us -> sorted_set vs -> incl (s_ss x) us -> incl U vs -> In p (flat us vs r) -> In p (flat us vs x) /\ fdeg sel us vs p <= lim.
Proof.
  intros W SS H us vs p SU SV IU IV I. apply flat_in in I as (k & s & k' & c' & I & J & ->). apply H in I as [I (d & (s' & m & [= <-] & M & ->) & L)]. rewrite SS. split.
  - apply flat_in. exists k, s, k', c'. auto.
  - rewrite (fdeg_in sel U x W us vs k s k' c') by assumption. destruct M as [[M _]|[_ M]]; [apply map_eq_nil in M; rewrite M in J; destruct J|].
    assert (ideg sel s k' <= m); [|lia]. apply M. apply in_map_iff. exists (k', c'). auto.
Qed.
Theorem rec_truncate_degree_partial : forall U (x : outer) tV lim, RWF U x -> limit_ok tV tS lim ->
  let out := rec_truncate_degree KO KOI bi tK tC tV lim x in
  (exists r, out = Ok r /\ RWF U r /\ s_ss r = s_ss x /\ s_tag r = s_tag x /\ s_log2 r = s_log2 x /\
    (forall k c, In (k, c) (terms r) <-> In (k, c) (terms x) /\ exists d, term_degree all_symbols x k c d /\ d <= lim) /\
    forall us vs p, sorted_set us -> sorted_set vs -> incl (s_ss x) us -> incl U vs -> In p (flat us vs r) -> In p (flat us vs x) /\ fdeg all_symbols us vs p <= lim) \/
  (out = Throw overflow_error /\ degree_overflow tS all_symbols x).
Proof.
  intros U x tV lim W LO out. destruct (truncate_rec all_symbols U x (rec_d KO KOI bi tK tC (s_ss x)) (fun k => k_degree KO k (s_ss x)) (fun s => series_degree KOI s) W) with (tV := tV) (lim := lim) as [(r & E & WR & S1 & S2 & S3 & H)|H];
    [reflexivity|apply key_total|apply inner_total|exact LO| |right; exact H].
  left. exists r. repeat (split; [assumption|]). eapply within_limit; eauto.
Qed.
Theorem rec_truncate_p_degree_partial : forall U (x : outer) tV lim syms, RWF U x -> limit_ok tV tS lim -> sorted_set syms ->
  let out := rec_truncate_p_degree KO KOI bi tK tC tV lim syms x in
  (exists r, out = Ok r /\ RWF U r /\ s_ss r = s_ss x /\ s_tag r = s_tag x /\ s_log2 r = s_log2 x /\
    (forall k c, In (k, c) (terms r) <-> In (k, c) (terms x) /\ exists d, term_degree (one_of syms) x k c d /\ d <= lim) /\
    forall us vs p, sorted_set us -> sorted_set vs -> incl (s_ss x) us -> incl U vs -> In p (flat us vs r) -> In p (flat us vs x) /\ fdeg (one_of syms) us vs p <= lim) \/
  (out = Throw overflow_error /\ degree_overflow tS (one_of syms) x).
Proof.
  intros U x tV lim syms W LO SY out. destruct (truncate_rec (one_of syms) U x (rec_pd KO KOI bi tK tC syms (s_ss x)) (fun k => k_p_degree KO k (ss_intersect_idx syms (s_ss x)) (s_ss x)) (fun s => series_p_degree KOI s syms) W) with (tV := tV) (lim := lim) as [(r & E & WR & S1 & S2 & S3 & H)|H];
    [reflexivity| | |exact LO| |right; exact H].
  - intros k. apply key_partial; auto. apply (wf_ss _ _ _ _ (lw_wf _ _ _ _ (rw_lwf _ _ _ _ _ _ _ _ W))).
  - intros s. apply inner_partial. exact SY.
  - left. exists r. repeat (split; [assumption|]). eapply within_limit; eauto.
Qed.
End D.
End R.

(** * The hypotheses are met *)
Notation i64 := (kd_ty kd_int64).
Lemma i64_ok : integral_type i64 /\ same_sign i64 i64 /\ degrees_in exS i64.
Proof. split; [apply (kd_type_ok kd_int64); exact ex_packable|]. split; [left; reflexivity|]. apply (pm_degrees_in kd_int64). exact ex_packable. Qed.
(** x = (x + y^2) a + (x - 3) b^2: the degree is 3, that in y and b is 2; limit 2 in y and b keeps everything, limit 1 in them nothing, limit 0 in y the second term. *)
Example ex_rec_degree : rec_degree exK exK true i64 i64 rx = Ok 3 /\ rec_p_degree exK exK true i64 i64 rx ["b"; "y"]%string = Ok 2 /\ limit_ok i64 (common i64 i64) 2 /\
  (exists r, rec_truncate_degree exK exK true i64 i64 i64 2 rx = Ok r /\ series_size r = 0%nat) /\
  (exists r, rec_truncate_p_degree exK exK true i64 i64 i64 0 ["y"]%string rx = Ok r /\ series_size r = 1%nat /\ coef2 exS exS Z_cf ["a"; "b"]%string xy r [0; 2] [1; 0] = 1 /\ coef2 exS exS Z_cf ["a"; "b"]%string xy r [0; 2] [0; 0] = -3).
Proof.
  split; [vm_compute; reflexivity|]. split; [vm_compute; reflexivity|]. split; [split; [apply i64_ok|]; split; [vm_compute; split; [discriminate|reflexivity]|left; reflexivity]|].
  split; [eexists; split; vm_compute; reflexivity|]. eexists. split; [vm_compute; reflexivity|]. split; [vm_compute; reflexivity|]. split; vm_compute; reflexivity.
Qed.

(** * What truncation does not do *)
(** The claim that truncation keeps every monomial whose degree is at most the limit. *)
Definition truncation_keeps {K Tag KI C TagI} (KO : key_ops K) (KS : key_sem K) (KOI : key_ops KI) (KSI : key_sem KI) (CO : cf_ops C) (RC : cf_ops (res (series KI C TagI))) (t : ity) : Prop :=
  forall U (x r : series K (res (series KI C TagI)) Tag) lim, rwf KO KS RC KOI KSI CO U x -> limit_ok t (common t t) lim -> rec_truncate_degree KO KOI true t t t lim x = Ok r ->
  forall p, In p (flat KS KSI (s_ss x) U x) -> fdeg all_symbols (s_ss x) U p <= lim -> In p (flat KS KSI (s_ss x) U r).
(** Truncating (x + y^2) a + (x - 3) b^2 to degree 2 loses x a and -3 b^2, of degree 2. *)
Theorem rec_truncation_refuted : ~ truncation_keeps (Tag := Z) (TagI := Z) exK exS exK exS Z_cf rC i64.
Proof.
  intros H. specialize (H xy rx (get dR (rec_truncate_degree exK exK true i64 i64 i64 2 rx)) 2 rx_rwf (proj1 (proj2 (proj2 ex_rec_degree)))).
  assert (E : rec_truncate_degree exK exK true i64 i64 i64 2 rx = Ok (get dR (rec_truncate_degree exK exK true i64 i64 i64 2 rx))) by (vm_compute; reflexivity).
  specialize (H E (([1; 0], [1; 0]), 1)). assert (T : flat exS exS (s_ss rx) xy (get dR (rec_truncate_degree exK exK true i64 i64 i64 2 rx)) = []) by (vm_compute; reflexivity). rewrite T in H. apply H; [vm_compute; tauto|vm_compute; discriminate].
Qed.

(** The claim that the degree is right whatever the types of the degrees. *)
Definition degree_any_types {Tag TagI} : Prop :=
  forall D D' U (x : series Z (res (series Z Z TagI)) Tag) POI TOI EI, packable D -> packable D' -> rwf (pm_ops D) (pm_sem D) (rec_cf (pm_ops D') Z_cf POI TOI EI) (pm_ops D') (pm_sem D') Z_cf U x ->
  forall m, rec_degree (pm_ops D) (pm_ops D') true (kd_ty D) (kd_ty D') x = Ok m -> is_max (map (fdeg all_symbols (s_ss x) U) (flat (pm_sem D) (pm_sem D') (s_ss x) U x)) m.
Definition uK := pm_ops kd_uint64.
Definition uI : res (series Z Z Z) := buildC uK Z_cf exP 0 [] 0 [(0, 1)].
Definition uC := rec_cf uK Z_cf exP Z_tag (ex_env (pm_sem kd_uint64) (pm_okb kd_uint64) false 0).
Definition ux := get dR (buildC exK uC rP 0 ["a"]%string 0 [(exk [-1], uI)]).
Lemma uK_packable : packable kd_uint64. Proof. right. right. right. reflexivity. Qed.
Lemma ux_rwf : rwf exK exS uC uK (pm_sem kd_uint64) Z_cf [] ux.
Proof.
  constructor.
  - assert (X : lwf exK exS uC ux /\ s_ss ux = ["a"]%string /\ s_log2 ux = 0%nat /\ s_tag ux = 0); [|apply X].
    apply (buildC_lwf exK exS uC rP 0 ["a"]%string 0 [(exk [-1], uI)]); [apply exK_laws|apply rec_light|repeat constructor|lia| |vm_compute; reflexivity].
    intros k c [[= <- <-]|[]]. exists [-1]. apply representsb_ok. vm_compute. reflexivity.
  - assert (T : map snd (terms ux) = [uI]) by (vm_compute; reflexivity). intros k c I. apply (in_map snd) in I. cbn [snd] in I. rewrite T in I. destruct I as [<-|[]].
    assert (E : uI = Ok (get d0 uI)) by (vm_compute; reflexivity). exists (get d0 uI). split; [exact E|].
    destruct (buildC_wf uK (pm_sem kd_uint64) Z_cf exP 0 [] 0 [(0, 1)] (get d0 uI)) as (A & B & _); [apply pm_key_laws, uK_packable|apply Z_cf_laws|constructor|lia| |exact E|].
    + intros k' c [[= <- <-]|[]]. exists []. apply representsb_ok. vm_compute. reflexivity.
    + split; [exact A|]. rewrite B. apply incl_refl.
Qed.
(** a^-1, with coefficients whose exponents are unsigned, has degree 2^64 - 1. *)
Theorem rec_degree_types_refuted : ~ degree_any_types (Tag := Z) (TagI := Z).
Proof.
  intros H. specialize (H kd_int64 kd_uint64 [] ux exP Z_tag (ex_env (pm_sem kd_uint64) (pm_okb kd_uint64) false 0) ex_packable uK_packable ux_rwf (2 ^ 64 - 1)).
  assert (E : rec_degree (pm_ops kd_int64) (pm_ops kd_uint64) true (kd_ty kd_int64) (kd_ty kd_uint64) ux = Ok (2 ^ 64 - 1)) by (vm_compute; reflexivity). specialize (H E).
  assert (F : map (fdeg all_symbols (s_ss ux) []) (flat (pm_sem kd_int64) (pm_sem kd_uint64) (s_ss ux) [] ux) = [-1]) by (vm_compute; reflexivity). rewrite F in H.
  clear E F. generalize (eq_refl : (-1 =? 2 ^ 64 - 1) = false). revert H. generalize (2 ^ 64 - 1). intros z H N. destruct H as [[H _]|[[H|[]] _]]; [discriminate|]. subst z. discriminate.
Qed.

Print Assumptions rec_degree_partial.
Print Assumptions rec_p_degree_partial.
Print Assumptions rec_truncate_degree_partial.
Print Assumptions rec_truncate_p_degree_partial.
Print Assumptions ex_rec_degree.
Print Assumptions rec_truncation_refuted.
Print Assumptions rec_degree_types_refuted.
