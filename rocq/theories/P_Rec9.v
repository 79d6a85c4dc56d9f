(** Property C91: powers of polynomials with polynomial coefficients, for every history of the caches of powers.  Vocabulary: RecPowSpec.v ([power2_coef]: the coefficients of the n-th
    power in all the symbols together, by recursion on n), RecSpec.v ([coef2], [rwf]), RecPow.v ([good2]: the arguments; [same2]: the same polynomial with the same
    outer symbols; [pow2]: a power in the cache; [product_fails]). *)
From Coq Require Import ZArith List Bool String Arith Lia Permutation Sorted Ring Ring_theory.
From Verif Require Import Base KpackModel KpackSpec KpackProofs P_Kpack SymSpec SymModel SymProofs P_Sym PMonSpec PMonModel PMonProofs PMonProofs2 P_PMon KeyOps KeyInst SeriesModel SeriesModel2 SeriesSpec PolyModel PolyModel2 PolySpec CalcSpec PolyProofs PolyProofs2
  SeriesProofs SeriesProofs2 SeriesProofs3 SeriesProofs4 SeriesProofs5 SeriesProofs6 Lin EvalSpec SeriesEval SeriesProofs7 CfInst P_Series P_Series2 P_Poly P_Poly2 PolyProofs5 PolyProofs6 PolyProofs7 PowProofs PowProofs2 P_Pow LfSpec LfProofs LfProofs2 LfProofs3 LfProofs4 P_Lf P_Lf2
  RecModel RecModel6 RecModel7 RecModel8 RecSpec RecPowSpec RecProofs P_Rec P_Rec4 EqProofs P_Rec7 P_Rec8 RecPow.
Import ListNotations.
Open Scope Z_scope.
Open Scope res_scope.
Local Notation len := List.length.

Section R.
Context {K Tag KI C TagI : Type} (KO : key_ops K) (KS : key_sem K) (TO : tag_ops Tag)
  (KOI : key_ops KI) (KSI : key_sem KI) (CO : cf_ops C) (POI : tbl_policy (KI * C)) (TOI : tag_ops TagI) (EI : mul_env KI C TagI).
Hypothesis KL : key_laws KO KS.
Hypothesis KLI : key_laws KOI KSI.
Hypothesis CL : cf_laws CO.
Hypothesis EOI : env_ok KOI KSI EI.
Hypothesis F0 : ks_fits KS [].
Hypothesis F0I : ks_fits KSI [].
Notation inner := (series KI C TagI).
Notation outer := (series K (res inner) Tag).
Variable PO : tbl_policy (K * res inner).
Notation RC := (rec_cf KOI CO POI TOI EI).
Notation RWF := (rwf KO KS RC KOI KSI CO).
Notation coef2 := (coef2 KS KSI CO).
Notation power2 := (power2_coef KS KSI CO).
Notation wfI := (wf KOI KSI CO).
Notation exps s k := (ks_exps KS (List.length (s_ss s)) k).
Notation good2 := (good2 KO KS KOI KSI CO POI TOI EI).
Notation same2 := (same2 KS KSI CO).
Notation pow2 := (pow2 KO KS KOI KSI CO POI TOI EI).
Notation cok2 := (cok2 KO KS KOI KSI CO POI TOI EI).
Notation pow := (rec_pow KO TO KOI CO POI TOI EI PO).
Notation ipow := (poly_pow KOI CO POI TOI EI).
Notation caches := (@pow_cache K (res inner) Tag * @pow_cache KI C TagI)%type.

(** The caches a program can reach: both empty (at the start, and after clear_series_pow_map); after any call of pow on a polynomial of the coefficient type; after any call of pow on
    a polynomial with such coefficients; whatever the arguments, the environment of the multiplications and the outcome. *)
Inductive reachable2 : caches -> Prop :=
  | r2_empty : reachable2 ([], [])
  | r2_inner E cpow kn z un mo mi q : reachable2 (mo, mi) -> env_ok KOI KSI E -> pow_arg KOI KSI CO q -> reachable2 (mo, snd (poly_pow KOI CO POI TOI E cpow kn z un mi q))
  | r2_pow E cpow kn z un m x U : reachable2 m -> env_ok KO KS E -> good2 U x -> reachable2 (snd (pow E cpow kn z un m x)).

Lemma arg_inner U (q : inner) : wfI q -> incl (s_ss q) U -> Z.of_nat (len U + len U) <= imax size_t -> pow_arg KOI KSI CO q.
Proof. intros W I B. split; [exact W|]. pose proof (inner_len KOI KSI CO U q W I). lia. Qed.
Lemma arg_default : pow_arg KOI KSI CO (series_default TOI : inner).
Proof. split; [apply default_ok|]. cbn. discriminate. Qed.
Lemma one_entry (x : outer) k c : terms x = [(k, c)] -> it_deref x (series_begin x) = Ok (k, c).
Proof. apply begin_single. Qed.

Lemma cf_pow_reachable cpow kn z un (m : caches) c : reachable KOI KSI CO POI TOI (snd m) -> (exists q, c = Ok q /\ pow_arg KOI KSI CO q) ->
  reachable KOI KSI CO POI TOI (snd (rec_cf_pow KOI CO POI TOI EI cpow kn z un (snd m) c)).
Proof. intros R (q & -> & A). cbn [rec_cf_pow]. apply r_pow; auto. Qed.
Lemma pow_keeps E cpow kn z un (m : caches) x U : env_ok KO KS E -> good2 U x -> cok2 (fst m) -> reachable KOI KSI CO POI TOI (snd m) ->
  cok2 (fst (snd (pow E cpow kn z un m x))) /\ reachable KOI KSI CO POI TOI (snd (snd (pow E cpow kn z un m x))).
Proof.
  intros EO G OK R. pose proof G as (W & B & _). unfold rec_pow. rewrite size_terms. destruct (Nat.eqb (len (terms x)) 1) eqn:EL.
  - apply Nat.eqb_eq in EL. destruct (terms x) as [|[k c] [|e l]] eqn:T; try discriminate. rewrite (one_entry x k c T). cbn [snd fst].
    destruct (rw_inner _ _ _ _ _ _ _ _ W k c) as (q & -> & WQ & IQ); [rewrite T; left; reflexivity|].
    pose proof (cf_pow_reachable cpow kn z un m (Ok q) R (ex_intro _ q (conj eq_refl (arg_inner U q WQ IQ B)))) as R'. destruct (rec_cf_pow _ _ _ _ _ _ _ _ _ _ _) as [p mi]. cbn [fst snd] in *. auto.
  - unfold rec_series_pow. destruct (is_single_cf KO x) as [[|]| |] eqn:IS; cbn [fst snd]; auto.
    + destruct (terms x) as [|[k c] [|e l]] eqn:T; try discriminate.
      * rewrite (proj2 (empty_terms x) T). change (c_zero RC) with (Ok (series_default TOI : inner)). pose proof (cf_pow_reachable cpow kn z un m _ R (ex_intro _ _ (conj eq_refl arg_default))) as R'.
        destruct (rec_cf_pow _ _ _ _ _ _ _ _ _ _ _) as [p mi]. cbn [fst snd] in *. auto.
      * rewrite (multi_not_single KO KS RC KL x (lw_wf _ _ _ _ (rw_lwf _ _ _ _ _ _ _ _ W))) in IS by (rewrite T; cbn; lia). discriminate.
    + destruct z; cbn [fst snd]; auto. destruct un as [n|]; cbn [fst snd]; auto.
      destruct (from_cache_ok KO KS TO KOI KSI CO POI TOI EI KL KLI CL EOI F0 F0I PO E EO U (fst m) x n OK G) as [OK' _]. destruct (rec_pow_from_cache _ _ _ _ _ _ _ _ _ _ _ _) as [o mo]. cbn [fst snd] in *. auto.
Qed.
Lemma reachable2_ok m : reachable2 m -> cok2 (fst m) /\ reachable KOI KSI CO POI TOI (snd m).
Proof.
  induction 1 as [|E cpow kn z un mo mi q R [IH1 IH2] EO A|E cpow kn z un m x U R [IH1 IH2] EO G]; cbn [fst snd] in *; [split; [intros b v []|constructor]|split; [exact IH1|apply r_pow; auto]|].
  eapply pow_keeps; eauto.
Qed.

(** ** Single terms *)
Lemma single_term (x : outer) U k' (p : inner) : RWF U x -> ks_valid KS (len (s_ss x)) k' -> wfI p -> incl (s_ss p) U ->
  exists r, (retval <- set_symbol_set (series_default TO) (s_ss x) ;; add_term KO RC PO true retval k' (Ok p)) = Ok r /\ RWF U r /\ s_ss r = s_ss x /\
    forall us vs ws ts, covers us x -> coef2 us vs r ws ts = if vec_eqb (spread (s_ss x) us (exps x k')) ws then coef KSI CO vs p ts else c_zero CO.
Proof.
  intros W V WP IP. pose proof (lw_wf _ _ _ _ (rw_lwf _ _ _ _ _ _ _ _ W)) as LX. unfold set_symbol_set. change (series_empty (series_default TO)) with true. cbn iota. cbn [bind s_tables s_log2 s_tag series_default].
  destruct (set_n_segments_ok KO KS RC (Series [[]] 0 (tag_default TO) (s_ss x)) 0) as [_ W0]; [cbn; lia|apply (wf_ss _ _ _ _ LX)|]. cbn [s_tag s_ss] in W0.
  change (repeat [] (2 ^ 0)) with [@nil (K * res inner)] in W0. set (s0 := Series [[]] 0 (tag_default TO) (s_ss x)) in *.
  assert (L0 : lwf KO KS RC s0) by (constructor; [exact W0|intros k c []]).
  destruct (any_cf_add_term KO KS RC PO KL (rec_light KOI CO POI TOI EI) true s0 k' (Ok p) L0 V) as [(r & ER & LR & SR & _ & _ & H)|[_ [X _]]]; [|elim X; reflexivity].
  exists r. split; [exact ER|]. cbn [s_ss s0] in SR, H. pose proof (lw_wf _ _ _ _ LR) as WR.
  assert (H' : forall us ws, covers us x -> entry KS us r ws = if vec_eqb (spread (s_ss x) us (exps x k')) ws then nonzero RC (Ok p) else None) by (intros us ws [SU IU]; rewrite H by auto; reflexivity).
  split; [|split; [exact SR|]].
  - constructor; [exact LR|]. intros k c I. destruct (in_entry KO KS KOI CO POI TOI EI KL r k c WR I) as (ws & EE). rewrite SR in EE. rewrite H' in EE by (split; [apply (wf_ss _ _ _ _ LX)|apply incl_refl]).
    destruct (vec_eqb _ ws); [|discriminate]. unfold nonzero in EE. destruct (c_is_zero RC (Ok p)); [discriminate|]. injection EE as <-. exists p. auto.
  - intros us vs ws ts CV. rewrite (coef2_entry KO KS KOI KSI CO POI TOI EI KL CL us vs r ws ts WR) by (rewrite SR; apply CV). rewrite H' by exact CV. destruct (vec_eqb _ ws); [|reflexivity].
    pose proof (val_nonzero KOI KSI CO POI TOI EI (Ok p) vs ts) as X. exact X.
Qed.

(** C91. The power of a single outer term with any integral exponent (negative ones included): its exponents are multiplied by it, its coefficient is the power of the coefficient;
    overflow_error if the exponents are not representable, the exception of the power of the coefficient if that throws. *)
Theorem rec_pow_single_term : forall (E : mul_env K (res inner) Tag) cpow n z un (m : caches) U (x : outer) k q, RWF U x -> terms x = [(k, Ok q)] ->
  let out := fst (pow E cpow (Some n) z un m x) in
  let p := fst (ipow cpow (Some n) z un (snd m) q) in
  (ks_fits KS (vscale n (exps x k)) -> forall q', p = Ok q' -> wfI q' -> exists V r, incl U V /\ incl (s_ss q') V /\ out = Ok r /\ RWF V r /\ s_ss r = s_ss x /\
     forall us vs ws ts, covers us x -> coef2 us vs r ws ts = if vec_eqb (vscale n (spread (s_ss x) us (exps x k))) ws then coef KSI CO vs q' ts else c_zero CO) /\
  (ks_fits KS (vscale n (exps x k)) -> forall e, p = Throw e -> out = Throw e) /\
  (~ ks_fits KS (vscale n (exps x k)) -> out = Throw overflow_error) /\
  fst (pow E cpow None z un m x) = Throw invalid_argument.
Proof.
  intros E cpow n z un m U x k q W T. pose proof (lw_wf _ _ _ _ (rw_lwf _ _ _ _ _ _ _ _ W)) as LX. assert (V : ks_valid KS (len (s_ss x)) k) by (apply (wf_valid _ _ _ _ LX k (Ok q)); rewrite T; left; reflexivity).
  destruct (kl_pow _ _ KL k (s_ss x) n V) as (K1 & K2 & K3).
  assert (SS : set_symbol_set (series_default TO : outer) (s_ss x) = Ok (Series [[]] 0 (tag_default TO) (s_ss x))) by reflexivity.
  unfold rec_pow. rewrite size_terms, T. cbn [List.length Nat.eqb]. rewrite (one_entry x k (Ok q) T). cbn [fst snd rec_cf_pow].
  cbv zeta. destruct (ipow cpow (Some n) z un (snd m) q) as [p mi]. cbn [fst snd]. split; [|split; [|split]].
  - intros F q' -> WQ. destruct (K1 F) as (k' & EK & V' & EX). rewrite EK. cbn [bind].
    assert (WV : RWF (U ++ s_ss q') x) by (constructor; [exact (rw_lwf _ _ _ _ _ _ _ _ W)|]; intros k0 c0 I; destruct (rw_inner _ _ _ _ _ _ _ _ W k0 c0 I) as (s & A & B & D); exists s; split; [exact A|]; split; [exact B|]; apply incl_appl; exact D).
    destruct (single_term x (U ++ s_ss q') k' q' WV V' WQ ltac:(apply incl_appr, incl_refl)) as (r & ER & WR & SR & H). exists (U ++ s_ss q'), r. split; [apply incl_appl, incl_refl|]. split; [apply incl_appr, incl_refl|].
    split; [exact ER|]. split; [exact WR|]. split; [exact SR|]. intros us vs ws ts CV. rewrite H by exact CV. rewrite EX, spread_scale. reflexivity.
  - intros F e ->. destruct (K1 F) as (k' & -> & _). rewrite SS. reflexivity.
  - intros F. rewrite SS. cbn [bind]. rewrite (K2 F). reflexivity.
  - destruct (ipow cpow None z un (snd m) q) as [p' mi']. cbn [fst]. rewrite SS. cbn [bind]. rewrite K3. reflexivity.
Qed.

(** C91. After any history, pow(x, n) is the n-th power of x in all the symbols together, or an exception is thrown: x is a single term whose power, or the power of whose coefficient, is not
    representable; or the product of some lower power y by x fails; or the comparison of x with a polynomial in the cache fails. *)
Theorem rec_pow_exact : forall (m : caches) (E : mul_env K (res inner) Tag) cpow n U (x : outer), reachable2 m -> env_ok KO KS E -> good2 U x -> (forall c, cpow c = Ok (cpower CO c n)) ->
  let out := fst (pow E cpow (Some (Z.of_nat n)) (Nat.eqb n 0) (Some n) m x) in
  (exists V r, out = Ok r /\ RWF V r /\ incl (s_ss r) (s_ss x) /\
     forall us vs ws ts, covers us x -> sorted_set vs -> incl U vs -> incl V vs -> len ws = len us -> len ts = len vs -> coef2 us vs r ws ts = power2 us vs x n ws ts) \/
  (key_overflow out /\
   ((exists k q, terms x = [(k, Ok q)] /\ (~ ks_fits KS (vscale (Z.of_nat n) (exps x k)) \/ key_overflow (fst (ipow cpow (Some (Z.of_nat n)) (Nat.eqb n 0) (Some n) (snd m) q)))) \/
    (exists b v, In (b, v) (fst m) /\ key_overflow (rec_identical KO TO KOI CO POI TOI b x)) \/
    exists V b i y, (i < n)%nat /\ same2 b x /\ pow2 V b i y /\ product_fails KO KS TO KOI CO POI TOI EI PO E y b)).
Proof.
  intros m E cpow n U x R EO G CP. destruct (reachable2_ok m R) as [OK RI]. pose proof (reachable_ok KOI KSI CO POI TOI KLI CL F0I _ RI) as OKI. pose proof G as (W & B & BX). pose proof (lw_wf _ _ _ _ (rw_lwf _ _ _ _ _ _ _ _ W)) as LX. cbv zeta.
  destruct (terms x) as [|[k c] [|e2 l]] eqn:T.
  - left. unfold rec_pow. rewrite size_terms, T. cbn [List.length Nat.eqb]. unfold rec_series_pow. rewrite (empty_single KO KS RC KL x LX T), (proj2 (empty_terms x) T). change (c_zero RC) with (Ok (series_default TOI : inner)). cbn [rec_cf_pow].
    assert (TD : terms (series_default TOI : inner) = []) by reflexivity.
    pose proof (pow_raw KOI KSI CO POI TOI KLI CL F0I EI cpow n (snd m) (series_default TOI) EOI arg_default OKI CP) as H. cbv zeta in H. destruct (ipow _ _ _ _ (snd m) (series_default TOI)) as [p mi]. cbn [fst] in H |- *.
    destruct H as [(r0 & -> & (W0 & I0 & P0) & _)|[_ [(k & c & T' & _)|[L _]]]]; [|rewrite TD in T'; discriminate|rewrite TD in L; cbn in L; lia].
    cbn [bind]. destruct (rec_of_inner_exact KO KS TO KOI KSI CO POI TOI EI KL CL PO [] r0 [] W0 I0 ltac:(constructor) F0) as (r & ER & WR & SR & _ & _ & HR). exists [], r. split; [exact ER|]. split; [exact WR|]. split; [rewrite SR; intros z []|].
    intros us vs ws ts CV SV _ _ LW LT. rewrite HR by (split; [apply CV|rewrite SR; intros z []]). rewrite (power2_none KS KSI CO us vs x _ T TD). destruct (vec_eqb ws _); [|reflexivity]. apply P0; [|exact LT]. split; [exact SV|intros z []].
  - destruct (rw_inner _ _ _ _ _ _ _ _ W k c) as (q & -> & WQ & IQ); [rewrite T; left; reflexivity|]. pose proof (arg_inner U q WQ IQ B) as AQ.
    destruct (rec_pow_single_term E cpow (Z.of_nat n) (Nat.eqb n 0) (Some n) m U x k q W T) as (S1 & S2 & S3 & _). cbv zeta in S1, S2, S3.
    destruct (kl_fits_dec _ _ KL (vscale (Z.of_nat n) (exps x k))) as [F|F]; [|right; rewrite (S3 F); split; [left; reflexivity|left; exists k, q; auto]].
    pose proof (pow_raw KOI KSI CO POI TOI KLI CL F0I EI cpow n (snd m) q EOI AQ OKI CP) as H. cbv zeta in H. destruct H as [(r0 & E0 & (W0 & I0 & P0) & _)|[KE _]].
    + left. destruct (S1 F r0 E0 W0) as (V & r & IV & IQ' & ER & WR & SR & HR). exists V, r. split; [exact ER|]. split; [exact WR|]. split; [rewrite SR; apply incl_refl|].
      intros us vs ws ts CV SV IU IV' LW LT. rewrite HR by exact CV. assert (CQ : covers vs q) by (split; [exact SV|intros z Iz; auto]). rewrite (power2_single KS KSI CO CL us vs x k q T CQ n ws ts LW LT). destruct (vec_eqb _ ws); [|reflexivity]. apply P0; auto.
    + right. split; [|left; exists k, q; auto]. destruct KE as [KE|KE]; rewrite (S2 F _ KE); [left|right]; reflexivity.
  - assert (L2 : (2 <= len (terms x))%nat) by (rewrite T; cbn; lia). unfold rec_pow. rewrite size_terms. assert (NE : Nat.eqb (len (terms x)) 1 = false) by (apply Nat.eqb_neq; lia). rewrite NE. rewrite <- T in *. clear k c e2 l T.
    unfold rec_series_pow. rewrite (multi_not_single KO KS RC KL x LX L2). destruct n as [|n]; cbn [Nat.eqb].
    + left. destruct (one2 KO KS TO KOI KSI CO POI TOI EI KL KLI CL F0 F0I PO) as (o & EQ & H). destruct (H U x) as (WO & SO & HO). exists U, o. cbn [fst]. split; [exact EQ|]. split; [exact WO|]. split; [rewrite SO; intros z []|]. intros; apply HO; auto.
    + destruct (from_cache_ok KO KS TO KOI KSI CO POI TOI EI KL KLI CL EOI F0 F0I PO E EO U (fst m) x (S n) OK G) as [_ H]. cbv zeta in H. destruct (rec_pow_from_cache _ _ _ _ _ _ _ _ _ _ _ _) as [o mo]. cbn [fst] in H |- *.
      destruct H as [(V & b & r & -> & Gb & Sb & WR & SR & HR)|[KE [H|(V & b & i & y & L & Gb & Sb & P & PF)]]].
      * left. exists V, r. split; [reflexivity|]. split; [exact WR|]. destruct Sb as [SS SC]. split; [rewrite SR, SS; apply incl_refl|]. intros us vs ws ts CV SV IU IV LW LT.
        assert (CB : covers us b) by (split; [apply CV|rewrite SS; apply CV]). rewrite HR by auto. apply (power2_ext KS KSI CO CL); auto.
      * right. split; [exact KE|]. right. left. exact H.
      * right. split; [exact KE|]. right. right. exists V, b, i, y. auto.
Qed.

(** C91. The history, the environment and the segmentation are unobservable in the value: two successful results are the same polynomial. *)
Theorem rec_pow_unobservable : forall (m m' : caches) (E E' : mul_env K (res inner) Tag) cpow n U (x r r' : outer), reachable2 m -> reachable2 m' -> env_ok KO KS E -> env_ok KO KS E' -> good2 U x -> (forall c, cpow c = Ok (cpower CO c n)) ->
  fst (pow E cpow (Some (Z.of_nat n)) (Nat.eqb n 0) (Some n) m x) = Ok r -> fst (pow E' cpow (Some (Z.of_nat n)) (Nat.eqb n 0) (Some n) m' x) = Ok r' ->
  forall us vs ws ts, covers us x -> sorted_set vs -> incl U vs -> inner_in vs r -> inner_in vs r' -> len ws = len us -> len ts = len vs -> coef2 us vs r ws ts = coef2 us vs r' ws ts.
Proof.
  intros m m' E E' cpow n U x r r' R R' EO EO' G CP ER ER' us vs ws ts CV SV IU IR IR' LW LT. pose proof (rec_pow_exact m E cpow n U x R EO G CP) as H. pose proof (rec_pow_exact m' E' cpow n U x R' EO' G CP) as H'. cbv zeta in H, H'. rewrite ER in H. rewrite ER' in H'.
  destruct H as [(V & r0 & X & W & I & P)|[[X|X] _]]; [|discriminate X|discriminate X]. destruct H' as [(V' & r0' & X' & W' & I' & P')|[[X'|X'] _]]; [|discriminate X'|discriminate X']. injection X as <-. injection X' as <-.
  destruct (sorted_cover (vs ++ V ++ V')) as (bs & SB & IB). assert (IVB : incl vs bs) by (intros z Iz; apply IB, in_app_iff; auto).
  assert (EQ : forall bt, len bt = len bs -> coef2 us bs r ws bt = coef2 us bs r' ws bt).
  { intros bt LB. rewrite P, P'; auto; try (eapply incl_tran; [|exact IVB]; assumption); intros z Iz; apply IB, in_app_iff; right; apply in_app_iff; auto. }
  (* the coefficients over bs determine those over vs *)
  assert (CU : incl (s_ss r) us /\ incl (s_ss r') us) by (split; eapply incl_tran; [exact I|apply CV|exact I'|apply CV]). destruct CU as [CU CU'].
  pose proof (lw_wf _ _ _ _ (rw_lwf _ _ _ _ _ _ _ _ W)) as LR. pose proof (lw_wf _ _ _ _ (rw_lwf _ _ _ _ _ _ _ _ W')) as LR'.
  rewrite (coef2_entry KO KS KOI KSI CO POI TOI EI KL CL us vs r ws ts LR CU), (coef2_entry KO KS KOI KSI CO POI TOI EI KL CL us vs r' ws ts LR' CU').
  assert (EQ' : forall bt, match entry KS us r ws with Some c => g KSI CO bs bt c | None => c_zero CO end = match entry KS us r' ws with Some c => g KSI CO bs bt c | None => c_zero CO end).
  { intros bt. destruct (Nat.eq_dec (len bt) (len bs)) as [LB|LB]; [rewrite <- (coef2_entry KO KS KOI KSI CO POI TOI EI KL CL us bs r ws bt LR CU), <- (coef2_entry KO KS KOI KSI CO POI TOI EI KL CL us bs r' ws bt LR' CU'); apply EQ; exact LB|].
    assert (Z0 : forall c : res inner, g KSI CO bs bt c = c_zero CO). { intros [q| |]; cbn [g]; try reflexivity. apply (coef_zero KSI CO CL). intros k c _ X. apply LB. rewrite <- X. apply spread_len. }
    destruct (entry KS us r ws), (entry KS us r' ws); rewrite ?Z0; reflexivity. }
  assert (EI' : forall (z : outer) V0 c, wf KO KS RC z -> RWF V0 z -> incl (s_ss z) us -> incl V0 bs -> entry KS us z ws = Some c -> exists q, c = Ok q /\ wfI q /\ incl (s_ss q) bs).
  { intros z V0 c LZ WZ IZ IV0 EE. apply (entry_in KO KS RC KL us z ws c LZ IZ) in EE as (k & J & _). destruct (rw_inner _ _ _ _ _ _ _ _ WZ k c J) as (q & -> & WQ & IQ). exists q. split; [reflexivity|]. split; [exact WQ|]. eapply incl_tran; eauto. }
  assert (IV1 : incl V bs) by (intros z Iz; apply IB, in_app_iff; right; apply in_app_iff; auto). assert (IV2 : incl V' bs) by (intros z Iz; apply IB, in_app_iff; right; apply in_app_iff; auto).
  set (d0 := (series_default TOI : inner)). assert (D0 : forall bt vv, coef KSI CO vv d0 bt = c_zero CO) by (intros bt vv; apply (coef_zero KSI CO CL); intros k c []).
  destruct (entry KS us r ws) as [c|] eqn:E1, (entry KS us r' ws) as [c'|] eqn:E2; [| | |reflexivity].
  - destruct (EI' r V c LR W CU IV1 E1) as (q & -> & _ & IQ). destruct (EI' r' V' c' LR' W' CU' IV2 E2) as (q' & -> & _ & IQ'). cbn [g] in *. apply (coef_any KSI CO CL bs q q' IQ IQ'). exact EQ'.
  - destruct (EI' r V c LR W CU IV1 E1) as (q & -> & _ & IQ). cbn [g] in *. rewrite <- (D0 ts vs). apply (coef_any KSI CO CL bs q d0 IQ); [intros z []|]. intros bt. rewrite D0. apply EQ'.
  - destruct (EI' r' V' c' LR' W' CU' IV2 E2) as (q' & -> & _ & IQ'). cbn [g] in *. rewrite <- (D0 ts vs). apply (coef_any KSI CO CL bs d0 q'); [intros z []|exact IQ'|]. intros bt. rewrite D0. apply EQ'.
Qed.

(** C91. pow(x, 0) is 1 and exponents which are neither zero nor convertible to unsigned are rejected, for series of several terms; the caches are unchanged. *)
Theorem rec_pow_zero_rejects : forall (m : caches) (E : mul_env K (res inner) Tag) cpow kn un U (x : outer), RWF U x -> (2 <= len (terms x))%nat ->
  (exists r, pow E cpow kn true un m x = (Ok r, m) /\ RWF [] r /\ forall us vs ws ts, covers us x -> sorted_set vs -> coef2 us vs r ws ts = if vec_eqb ws (repeat 0 (len us)) && vec_eqb ts (repeat 0 (len vs)) then c_one CO else c_zero CO) /\
  pow E cpow kn false None m x = (Throw invalid_argument, m).
Proof.
  intros m E cpow kn un U x W L. pose proof (lw_wf _ _ _ _ (rw_lwf _ _ _ _ _ _ _ _ W)) as LX. unfold rec_pow. rewrite size_terms. assert (NE : Nat.eqb (len (terms x)) 1 = false) by (apply Nat.eqb_neq; lia). rewrite NE. unfold rec_series_pow. rewrite (multi_not_single KO KS RC KL x LX L).
  split; [|reflexivity]. destruct (rec_of_number_exact KO KS TO KOI KSI CO POI TOI EI KL KLI CL PO [] (c_one CO) [] ltac:(constructor) F0 F0I) as (o & EQ & WO & SO & _ & H). exists o. rewrite EQ. split; [reflexivity|]. split; [exact WO|].
  intros us vs ws ts CV SV. apply H; [|exact SV]. split; [apply CV|rewrite SO; intros z []].
Qed.
End R.
Print Assumptions rec_pow_single_term.
Print Assumptions rec_pow_exact.
Print Assumptions rec_pow_unobservable.
Print Assumptions rec_pow_zero_rejects.

(** * The hypotheses are met: powers of (x + y^2) a + (x - 3) b^2; the square is read from the cache filled by the cube *)
Definition rpow (mt : bool) (lg n : nat) m x := rec_pow exK Z_tag exK Z_cf exP Z_tag rI rP (rE mt lg) (fun c => Ok (cpower Z_cf c n)) (Some (Z.of_nat n)) (Nat.eqb n 0) (Some n) m x.
Definition rm3 := snd (rpow true 1 3 ([], []) rx).
Example ex_rec_pow_arg : good2 exK exS exK exS Z_cf exP Z_tag rI xy rx /\ reachable2 exK exS Z_tag exK exS Z_cf exP Z_tag rI rP rm3 /\ ks_fits exS [] /\ (forall n c, (fun c => Ok (cpower Z_cf c n)) c = Ok (cpower Z_cf c n)).
Proof.
  assert (G : good2 exK exS exK exS Z_cf exP Z_tag rI xy rx) by (split; [apply rx_rwf|split; vm_compute; discriminate]). split; [exact G|]. split; [|split; [apply pm_fits_nil|reflexivity]].
  apply (r2_pow _ _ _ _ _ _ _ _ _ _ (rE true 1) _ _ _ _ ([], []) rx xy); [constructor|apply rE_ok|exact G].
Qed.
Example ex_rec_pow : exists p q, fst (rpow true 1 3 ([], []) rx) = Ok p /\ rpow false 0 2 rm3 rx = (Ok q, rm3) /\ s_log2 q = 1%nat /\ series_size p = 4%nat /\ len (fst rm3) = 1%nat /\
  coef2 exS exS Z_cf ["a"; "b"]%string xy p [1; 4] [2; 2] = 3 /\ power2_coef exS exS Z_cf ["a"; "b"]%string xy rx 3 [1; 4] [2; 2] = 3 /\
  coef2 exS exS Z_cf ["a"; "b"]%string xy q [1; 2] [1; 0] = -6 /\ power2_coef exS exS Z_cf ["a"; "b"]%string xy rx 2 [1; 2] [1; 0] = -6.
Proof. do 2 eexists. split; [vm_compute; reflexivity|]. split; [vm_compute; reflexivity|]. repeat (split; [vm_compute; reflexivity|]). vm_compute. reflexivity. Qed.
(** A single term: ((x + y^2) a)^2, the coefficient through the cache of the inner type. *)
Definition rx1 := get dR (exR ["a"]%string 0 [([1], (["x"; "y"]%string, [([1; 0], 1); ([0; 2], 1)]))]).
Example ex_rec_pow_single : exists p, fst (rpow false 0 2 ([], []) rx1) = Ok p /\ len (snd (snd (rpow false 0 2 ([], []) rx1))) = 1%nat /\ fst (snd (rpow false 0 2 ([], []) rx1)) = [] /\
  coef2 exS exS Z_cf ["a"]%string xy p [2] [1; 2] = 2 /\ power2_coef exS exS Z_cf ["a"]%string xy rx1 2 [2] [1; 2] = 2 /\ map (fun e => is_ok (snd e)) (terms rx1) = [true].
Proof. eexists. split; [vm_compute; reflexivity|]. repeat (split; [vm_compute; reflexivity|]). vm_compute. reflexivity. Qed.

(** C91. The symbols of the coefficients of a power depend on the history: x a + 2 x b, its coefficients in the symbol x, is identical, for the cache, to the same polynomial with coefficients in the symbols x and y. *)
Definition rs1 := get dR (exR ["a"; "b"]%string 0 [([1; 0], (["x"]%string, [([1], 1)])); ([0; 1], (["x"]%string, [([1], 2)]))]).
Definition rs2 := get dR (exR ["a"; "b"]%string 0 [([1; 0], (["x"; "y"]%string, [([1; 0], 1)])); ([0; 1], (["x"; "y"]%string, [([1; 0], 2)]))]).
Lemma rs_good : good2 exK exS exK exS Z_cf exP Z_tag rI xy rs1 /\ good2 exK exS exK exS Z_cf exP Z_tag rI xy rs2.
Proof.
  assert (G : forall ss l c, sorted_set ss -> forallb (fun e => representsb kd_int64 (len ss) (exk (fst e)) (fst e)) l = true -> is_ok (exs 0 ss 0 l) = true -> c = exs 0 ss 0 l -> incl ss xy -> exists s, c = Ok s /\ wf exK exS Z_cf s /\ incl (s_ss s) xy).
  { intros ss l c S F OK -> IX. destruct (exs 0 ss 0 l) as [s| |] eqn:E; try discriminate. exists s. destruct (inner_wf ss l s S F E) as [A B]. rewrite B. auto. }
  assert (IX : incl ["x"]%string xy) by (intros z [<-|[]]; left; reflexivity).
  split; (split; [|split; vm_compute; discriminate]); constructor.
  - apply (exR_lwf ["a"; "b"]%string 0 [([1; 0], (["x"]%string, [([1], 1)])); ([0; 1], (["x"]%string, [([1], 2)]))]); [apply ab_sorted|lia|reflexivity|vm_compute; reflexivity].
  - set (j1 := exs 0 ["x"]%string 0 [([1], 1)]). set (j2 := exs 0 ["x"]%string 0 [([1], 2)]).
    assert (T : map snd (terms rs1) = [j1; j2] \/ map snd (terms rs1) = [j2; j1]) by (vm_compute; auto). intros k c I. apply (in_map snd) in I. cbn [snd] in I.
    assert (X : j1 = c \/ j2 = c) by (destruct T as [T|T]; rewrite T in I; destruct I as [I|[I|[]]]; auto). destruct X as [<-|<-]; (eapply G; [apply x_sorted| | |reflexivity|exact IX]; vm_compute; reflexivity).
  - apply (exR_lwf ["a"; "b"]%string 0 [([1; 0], (["x"; "y"]%string, [([1; 0], 1)])); ([0; 1], (["x"; "y"]%string, [([1; 0], 2)]))]); [apply ab_sorted|lia|reflexivity|vm_compute; reflexivity].
  - set (j1 := exs 0 ["x"; "y"]%string 0 [([1; 0], 1)]). set (j2 := exs 0 ["x"; "y"]%string 0 [([1; 0], 2)]).
    assert (T : map snd (terms rs2) = [j1; j2] \/ map snd (terms rs2) = [j2; j1]) by (vm_compute; auto). intros k c I. apply (in_map snd) in I. cbn [snd] in I.
    assert (X : j1 = c \/ j2 = c) by (destruct T as [T|T]; rewrite T in I; destruct I as [I|[I|[]]]; auto). destruct X as [<-|<-]; (eapply G; [apply xy_sorted| | |reflexivity|apply incl_refl]; vm_compute; reflexivity).
Qed.
(** The symbols of the coefficients are as in x. *)
Definition inner_symbols {K C TagI Tag KI : Type} (r : series K (res (series KI C TagI)) Tag) : list symbol_set := map (fun e => match snd e with Ok q => s_ss q | _ => [] end) (terms r).
Theorem rec_pow_symbols_refuted : ~ forall m m' n (x r r' : series Z (res (series Z Z Z)) Z), reachable2 exK exS Z_tag exK exS Z_cf exP Z_tag rI rP m -> reachable2 exK exS Z_tag exK exS Z_cf exP Z_tag rI rP m' -> good2 exK exS exK exS Z_cf exP Z_tag rI xy x ->
  fst (rpow false 0 n m x) = Ok r -> fst (rpow false 0 n m' x) = Ok r' -> inner_symbols r = inner_symbols r'.
Proof.
  intros H. destruct rs_good as [G1 G2].
  assert (R : reachable2 exK exS Z_tag exK exS Z_cf exP Z_tag rI rP (snd (rpow false 0 2 ([], []) rs2))) by (apply (r2_pow _ _ _ _ _ _ _ _ _ _ (rE false 0) _ _ _ _ ([], []) rs2 xy); [constructor|apply rE_ok|exact G2]).
  specialize (H ([], []) (snd (rpow false 0 2 ([], []) rs2)) 2%nat rs1). remember (fst (rpow false 0 2 ([], []) rs1)) as o1 eqn:E1. remember (fst (rpow false 0 2 (snd (rpow false 0 2 ([], []) rs2)) rs1)) as o2 eqn:E2.
  assert (X1 : match o1 with Ok r => inner_symbols r | _ => [] end = [["x"]; ["x"]; ["x"]]%string) by (rewrite E1; vm_compute; reflexivity).
  assert (X2 : match o2 with Ok r => inner_symbols r | _ => [] end = [["x"; "y"]; ["x"; "y"]; ["x"; "y"]]%string) by (rewrite E2; vm_compute; reflexivity).
  clear E1 E2. destruct o1 as [r| |]; [|discriminate X1|discriminate X1]. destruct o2 as [r'| |]; [|discriminate X2|discriminate X2].
  specialize (H r r' (r2_empty _ _ _ _ _ _ _ _ _ _) R G1 eq_refl eq_refl). rewrite X1, X2 in H. discriminate H.
Qed.
Print Assumptions rec_pow_symbols_refuted.
Print Assumptions ex_rec_pow_arg.
Print Assumptions ex_rec_pow.
Print Assumptions ex_rec_pow_single.
