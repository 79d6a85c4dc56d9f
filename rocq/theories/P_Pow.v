(** Property C46: powers of polynomials, for every history of the cache of powers.  Vocabulary: PolySpec.v ([power_coef]: the coefficients of
    the n-th power, by recursion on n; [cpower]: the n-th power of a coefficient). *)
From Coq Require Import ZArith List Bool String Arith Sorted Permutation Lia Ring Ring_theory.
From Verif Require Import Base KpackModel KpackSpec KpackProofs P_Kpack IntModel IntSpec IntProofs SymModel SymSpec SymProofs P_Sym PMonModel PMonSpec PMonProofs PMonProofs2 P_PMon
  DPMModel DPMSpec DPMProofs DPMProofs2 DPMProofs3 P_DPM KeyOps KeyInst
  SeriesModel SeriesModel2 SeriesSpec SeriesProofs SeriesProofs2 SeriesProofs3 SeriesProofs4 SeriesProofs5 SeriesProofs6 Lin EvalSpec SeriesEval SeriesProofs7 CfInst P_Series P_Series2
  PolyModel PolyModel2 PolySpec PolyProofs7 PolyProofs8 PolyProofs9 P_Poly P_Poly2 PowProofs PowProofs2.
Import ListNotations.
Open Scope Z_scope.
Open Scope res_scope.
Local Notation len := List.length.

Lemma vscale_len n v : len (vscale n v) = len v. Proof. apply map_length. Qed.
Lemma expo_scale n u : forall v x, expo u (vscale n v) x = expo u v x * n.
Proof. induction u as [|y u IH]; intros [|a v] x; cbn; try reflexivity. destruct (String.eqb y x); [reflexivity|apply IH]. Qed.
Lemma spread_scale n u us v : spread u us (vscale n v) = vscale n (spread u us v).
Proof. unfold spread, vscale at 2. rewrite map_map. apply map_ext. intros x. apply expo_scale. Qed.
Lemma vscale_succ n v : vadd (vscale (Z.of_nat n) v) v = vscale (Z.of_nat (S n)) v.
Proof. unfold vscale, vadd. induction v as [|a v IH]; [reflexivity|]. cbn [map combine fst snd]. rewrite IH. f_equal. lia. Qed.
Lemma vscale_0 v : vscale 0 v = repeat 0 (len v).
Proof. induction v as [|a v IH]; [reflexivity|]. cbn [vscale map List.length repeat]. unfold vscale in IH. rewrite IH. f_equal. lia. Qed.

Section PW.
Context {K C Tag : Type} (KO : key_ops K) (KS : key_sem K) (CO : cf_ops C) (PO : tbl_policy (K * C)) (TO : tag_ops Tag).
Context (KL : key_laws KO KS) (CL : cf_laws CO).
Notation series := (series K C Tag).
Notation WF := (wf KO KS CO).
Notation coef := (coef KS CO).
Notation power_coef := (power_coef KS CO).
Notation exps s k := (ks_exps KS (List.length (s_ss s)) k).
Notation pow E := (poly_pow KO CO PO TO E).
Infix "+c" := (c_add CO) (at level 50, left associativity).
Infix "*c" := (c_mul CO) (at level 40, left associativity).
Add Ring CringPP : (cl_ring _ CL).

(** The series whose powers are taken. *)
Definition pow_arg (x : series) : Prop := WF x /\ Z.of_nat (len (s_ss x) + len (s_ss x)) <= imax size_t.

(** The caches a program can reach: empty (at the start, and after clear_series_pow_map), or after any call of pow, whatever its
    arguments, the environment of its multiplications and its outcome. *)
Inductive reachable : @pow_cache K C Tag -> Prop :=
  | r_empty : reachable []
  | r_pow E cpow kn z un m x : reachable m -> env_ok KO KS E -> pow_arg x -> reachable (snd (pow E cpow kn z un m x)).

(** r is the n-th power of x. *)
Definition is_power (x : series) (n : nat) (r : series) : Prop :=
  WF r /\ incl (s_ss r) (s_ss x) /\ forall us ws, covers us x -> len ws = len us -> coef us r ws = power_coef us x n ws.

(** ** Single terms *)
Lemma single_add (x : series) k c : WF x -> ks_valid KS (len (s_ss x)) k ->
  exists r, (retval <- set_symbol_set (series_default TO) (s_ss x) ;; add_term KO CO PO true retval k c) = Ok r /\ WF r /\ s_ss r = s_ss x /\ s_tag r = tag_default TO /\
    forall us, same CO (vt KS us r) [(spread (s_ss x) us (exps x k), c)].
Proof.
  intros W V. unfold set_symbol_set. change (series_empty (series_default TO)) with true. cbn iota. cbn [bind s_tables s_log2 s_tag series_default].
  destruct (set_n_segments_ok KO KS CO (Series [[]] 0 (tag_default TO) (s_ss x)) 0) as [_ W0]; [cbn; lia|apply (wf_ss _ _ _ _ W)|]. cbn [s_tag s_ss] in W0.
  change (repeat [] (2 ^ 0)) with [@nil (K * C)] in W0. set (s0 := Series [[]] 0 (tag_default TO) (s_ss x)) in *.
  unfold add_term. destruct (add_term_gen KO KS CO PO KL CL true true true true false s0 k c W0 V ltac:(discriminate) (or_introl eq_refl) (or_introl eq_refl)) as [(r & E & Wr & (M1 & M2 & M3) & _ & PS & _)|(_ & X & _)]; [|elim X; reflexivity].
  exists r. split; [exact E|]. split; [exact Wr|]. split; [exact M1|]. split; [exact M2|]. intros us Q. rewrite vt_psum. unfold nden, vden. rewrite M1. rewrite PS. change (terms s0) with (@nil (K * C)). rewrite !(psum_cons CO CL).
  cbn [fst snd s_ss s0 sg]. change (psum CO _ []) with (c_zero CO). change (@psum (list Z) C CO Q []) with (c_zero CO). unfold sg. cbn. ring.
Qed.

Lemma pow_single (E : mul_env K C Tag) cpow kn z un m (x : series) k c : WF x -> terms x = [(k, c)] ->
  pow E cpow kn z un m x = (k' <- k_pow KO k kn (s_ss x) ;; c' <- cpow c ;; retval <- set_symbol_set (series_default TO) (s_ss x) ;; add_term KO CO PO true retval k' c', m).
Proof.
  intros W T. unfold poly_pow, pow_poly_impl. rewrite size_terms, T. cbn [List.length Nat.eqb]. rewrite (begin_single x (k, c) T). unfold set_symbol_set. change (series_empty (series_default TO)) with true. cbn iota. cbn [bind fst snd]. reflexivity.
Qed.

(** C46. The power of a single term with any integral exponent (negative ones included): exponents are multiplied by it, the coefficient is raised
    to it; overflow_error if the exponents are not representable; invalid_argument if the exponent is not an integer. *)
Theorem pow_single_term : forall (E : mul_env K C Tag) cpow n z un m (x : series) k c c', WF x -> terms x = [(k, c)] -> cpow c = Ok c' ->
  let out := fst (pow E cpow (Some n) z un m x) in
  (ks_fits KS (vscale n (exps x k)) -> exists r, out = Ok r /\ WF r /\ s_ss r = s_ss x /\
    forall us ws, covers us x -> coef us r ws = if vec_eqb (vscale n (spread (s_ss x) us (exps x k))) ws then c' else c_zero CO) /\
  (~ ks_fits KS (vscale n (exps x k)) -> out = Throw overflow_error) /\
  fst (pow E cpow None z un m x) = Throw invalid_argument.
Proof.
  intros E cpow n z un m x k c c' W T EC. cbv zeta. rewrite !(pow_single E cpow _ z un m x k c W T). cbn [fst].
  assert (V : ks_valid KS (len (s_ss x)) k) by (apply (wf_valid _ _ _ _ W k c); rewrite T; left; reflexivity).
  destruct (kl_pow _ _ KL k (s_ss x) n V) as (K1 & K2 & K3). split; [|split].
  - intros F. destruct (K1 F) as (k' & EK & V' & EX). rewrite EK. cbn [bind]. rewrite EC. cbn [bind]. destruct (single_add x k' c' W V') as (r & ER & Wr & SR & _ & SM). exists r. split; [exact ER|]. split; [exact Wr|]. split; [exact SR|].
    intros us ws _. rewrite coef_nden, <- vt_psum, SM, EX, spread_scale, (psum_cons CO CL). cbn [fst snd]. change (psum CO _ []) with (c_zero CO). destruct (vec_eqb _ _); cbn [ifP]; ring.
  - intros F. rewrite (K2 F). reflexivity.
  - rewrite K3. reflexivity.
Qed.

Lemma powl_single us (x : series) k c n : terms x = [(k, c)] -> same CO (powl KS CO us x n) [(vscale (Z.of_nat n) (spread (s_ss x) us (exps x k)), cpower CO c n)].
Proof.
  intros T. induction n as [|n IH].
  - cbn [powl cpower]. unfold unit_vt. change (Z.of_nat 0) with 0. rewrite vscale_0, spread_len. apply same_refl.
  - cbn [powl]. eapply same_trans; [apply (same_prod CO CL); [exact IH|apply same_refl]|]. unfold vt. rewrite T. cbn [map fst snd]. unfold vprod. cbn [list_prod map app fst snd]. unfold vmulp. cbn [fst snd cpower].
    rewrite vscale_succ. intros Q. rewrite !(psum_cons CO CL). cbn [fst snd]. f_equal. destruct (Q _); cbn [ifP]; ring.
Qed.

(** ** The cache *)
Context (F0 : ks_fits KS []).
Notation cok := (cok KO KS CO).

Lemma series_pow_cache (E : mul_env K C Tag) cpow z un m x : env_ok KO KS E -> pow_arg x -> cok m -> cok (snd (series_pow KO CO PO TO (poly_mul KO CO PO TO E) cpow z un m x)).
Proof.
  intros EO G OK. unfold series_pow. destruct (is_single_cf KO x) as [[|]|e|]; cbn [snd]; auto. destruct z; [exact OK|]. destruct un as [n|]; [|exact OK]. apply (cache_pow KO KS CO PO TO KL CL F0 E EO); auto.
Qed.
Lemma reachable_ok m : reachable m -> cok m.
Proof.
  induction 1 as [|E cpow kn z un m x R IH EO G]; [intros ? ? []|]. unfold poly_pow, pow_poly_impl. destruct (Nat.eqb _ _); [exact IH|]. apply series_pow_cache; auto.
Qed.
Lemma multi_not_single (x : series) : WF x -> (2 <= len (terms x))%nat -> is_single_cf KO x = Ok false.
Proof.
  intros W L. destruct (is_single_cf_ok KO KS CO KL x W) as (b & -> & H). destruct b; [|reflexivity]. exfalso. pose proof (proj1 H eq_refl) as H1. pose proof (wf_keys _ _ _ _ W) as ND. pose proof (wf_valid _ _ _ _ W) as V.
  destruct (terms x) as [|[k1 c1] [|[k2 c2] l]]; cbn in L; try lia. inversion_clear ND as [|? ? N _]. apply N. left. cbn [fst].
  apply (kl_inj _ _ KL (len (s_ss x))); [apply (V k2 c2); cbn; auto|apply (V k1 c1); cbn; auto|]. rewrite (H1 k1 c1), (H1 k2 c2); cbn; auto.
Qed.
Lemma empty_single (x : series) : WF x -> terms x = [] -> is_single_cf KO x = Ok true.
Proof. intros W T. destruct (is_single_cf_ok KO KS CO KL x W) as (b & -> & H). destruct b; [reflexivity|]. f_equal. apply H. rewrite T. intros k c []. Qed.

Lemma pow_of_power x n r : pow_of KO KS CO x n r -> is_power x n r.
Proof.
  intros (W & ES & H). assert (I : incl (s_ss r) (s_ss x)) by (rewrite ES; destruct n; [intros ? []|apply incl_refl]). split; [exact W|]. split; [exact I|].
  intros us ws CV L. rewrite coef_nden, <- vt_psum, (H us CV). apply (powl_coef KS CO CL). exact L.
Qed.

Lemma pow_raw (E : mul_env K C Tag) cpow n m (x : series) : env_ok KO KS E -> pow_arg x -> cok m -> (forall c, cpow c = Ok (cpower CO c n)) ->
  let out := fst (pow E cpow (Some (Z.of_nat n)) (Nat.eqb n 0) (Some n) m x) in
  (exists r, out = Ok r /\ is_power x n r /\ (forall k c, terms x = [(k, c)] -> ks_fits KS (vscale (Z.of_nat n) (exps x k))) /\
     ((2 <= len (terms x))%nat -> is_pow KO KS CO x n r)) \/
  (key_overflow out /\
   ((exists k c, terms x = [(k, c)] /\ ~ ks_fits KS (vscale (Z.of_nat n) (exps x k))) \/
    ((2 <= len (terms x))%nat /\ exists i x' y, (i < n)%nat /\ (x' = x \/ WF x' /\ same_base x' x) /\ is_pow KO KS CO x i y /\ (unrepresentable KS (s_ss x) y x' \/ capacity y x')))).
Proof.
  intros EO G OK CP. cbv zeta. pose proof G as [W B]. destruct (terms x) as [|[k c] [|e2 l]] eqn:T.
  - left. unfold poly_pow, pow_poly_impl. rewrite size_terms, T. cbn [List.length Nat.eqb]. unfold series_pow. rewrite (empty_single x W T), (proj2 (empty_terms x) T). cbn [fst]. rewrite CP. cbn [bind].
    destruct (of_cf_ok KO KS CO PO TO KL CL (cpower CO (c_zero CO) n) [] ltac:(constructor) F0) as (o & EQ & Wo & ES & _ & _ & ET). exists o. split; [exact EQ|]. split; [|split; [intros k c; discriminate|intros L; exfalso; cbn in L; lia]].
    split; [exact Wo|]. split; [rewrite ES; intros ? []|]. intros us ws CV L. rewrite coef_nden, <- vt_psum.
    destruct n as [|n].
    + cbn [cpower] in *. destruct (c_is_zero CO (c_one CO)) eqn:ZO; [apply (cl_zero _ CL) in ZO; elim (cl_one _ CL ZO)|]. rewrite (one_vt KO KS CO KL F0 us o (c_one CO) Wo ES ET). rewrite <- (powl_coef KS CO CL us x 0 ws L). reflexivity.
    + cbn [cpower] in *. assert (ZO : c_zero CO *c cpower CO (c_zero CO) n = c_zero CO) by ring. rewrite ZO in ET. rewrite (proj2 (cl_zero _ CL _) eq_refl) in ET. unfold vt. rewrite ET. cbn [PolySpec.power_coef]. rewrite T. reflexivity.
  - assert (V : ks_valid KS (len (s_ss x)) k) by (apply (wf_valid _ _ _ _ W k c); rewrite T; left; reflexivity).
    rewrite (pow_single E cpow _ _ _ m x k c W T). cbn [fst]. destruct (kl_pow _ _ KL k (s_ss x) (Z.of_nat n) V) as (K1 & K2 & _). destruct (kl_fits_dec _ _ KL (vscale (Z.of_nat n) (exps x k))) as [F|F].
    + left. destruct (K1 F) as (k' & EK & V' & EX). rewrite EK. cbn [bind]. rewrite CP. cbn [bind]. destruct (single_add x k' (cpower CO c n) W V') as (r & ER & Wr & SR & _ & SM). exists r. split; [exact ER|].
      split; [|split; [intros k0 c0 [= <- <-]; exact F|cbn; lia]]. split; [exact Wr|]. split; [rewrite SR; apply incl_refl|].
      intros us ws CV L. rewrite coef_nden, <- vt_psum, SM, EX, spread_scale, <- (powl_coef KS CO CL us x n ws L). symmetry. apply powl_single. exact T.
    + right. rewrite (K2 F). cbn [bind]. split; [left; reflexivity|]. left. exists k, c. auto.
  - assert (L2 : (2 <= len (terms x))%nat) by (rewrite T; cbn; lia). unfold poly_pow, pow_poly_impl. rewrite size_terms. assert (NE : Nat.eqb (len (terms x)) 1 = false) by (apply Nat.eqb_neq; lia). rewrite NE. rewrite <- T in *. clear k c e2 l T.
    unfold series_pow. rewrite (multi_not_single x W L2). destruct n as [|n]; cbn [Nat.eqb].
    + destruct (one_ok KO KS CO PO TO KL CL F0) as (o & EQ & H). cbn [fst]. rewrite EQ. left. exists o. split; [reflexivity|]. specialize (H x G). split; [apply pow_of_power; exact (proj1 H)|]. split; [intros k c X; rewrite X in L2; cbn in L2; lia|intros _; exact H].
    + destruct (cache_pow KO KS CO PO TO KL CL F0 E EO m x (S n) OK G) as [_ [(r & ER & P)|[KV H]]]; [left|right].
      * exists r. split; [exact ER|]. split; [apply pow_of_power; exact (proj1 P)|]. split; [intros k c X; rewrite X in L2; cbn in L2; lia|intros _; exact P].
      * split; [exact KV|]. right. auto.
Qed.

(** C46. After any history, pow(x, n) is the n-th power of x, or an exception is thrown because x is a single term whose power is
    not representable, or because the product of some lower power y by x is not representable or fills a table.
    [cpow] is the power of a coefficient. *)
Theorem pow_exact : forall m (E : mul_env K C Tag) cpow n (x : series), reachable m -> env_ok KO KS E -> pow_arg x -> (forall c, cpow c = Ok (cpower CO c n)) ->
  let out := fst (pow E cpow (Some (Z.of_nat n)) (Nat.eqb n 0) (Some n) m x) in
  (exists r, out = Ok r /\ is_power x n r) \/
  (key_overflow out /\
   ((exists k c, terms x = [(k, c)] /\ ~ ks_fits KS (vscale (Z.of_nat n) (exps x k))) \/
    exists i x' y, (i < n)%nat /\ WF x' /\ s_ss x' = s_ss x /\ Permutation (terms x') (terms x) /\ is_power x i y /\ (unrepresentable KS (s_ss x) y x' \/ capacity y x'))).
Proof.
  intros m E cpow n x R EO G CP. cbv zeta. pose proof (pow_raw E cpow n m x EO G (reachable_ok m R) CP) as H. cbv zeta in H. destruct H as [(r & ER & P & _)|[KV [H|(_ & i & x' & y & L & X & P & U)]]]; [left; eauto|right; auto|right].
  split; [exact KV|]. right. exists i, x', y. split; [exact L|]. destruct X as [->|[WX [SX PX]]]; [split; [apply G|]; split; [reflexivity|]; split; [apply Permutation_refl|]|split; [exact WX|]; split; [exact SX|]; split; [exact PX|]];
    (split; [apply pow_of_power; exact (proj1 P)|exact U]).
Qed.

(** C46. The history, the environment and the segmentation are unobservable: two successful results are the same polynomial; and success depends on them only through the
    capacity of the tables. *)
Theorem pow_unobservable : forall m m' (E E' : mul_env K C Tag) cpow n (x : series), reachable m -> reachable m' -> env_ok KO KS E -> env_ok KO KS E' -> pow_arg x -> (forall c, cpow c = Ok (cpower CO c n)) ->
  let out := fst (pow E cpow (Some (Z.of_nat n)) (Nat.eqb n 0) (Some n) m x) in
  let out' := fst (pow E' cpow (Some (Z.of_nat n)) (Nat.eqb n 0) (Some n) m' x) in
  (forall r r', out = Ok r -> out' = Ok r' -> forall us ws, covers us x -> coef us r ws = coef us r' ws) /\
  (forall r, out = Ok r -> (exists r', out' = Ok r') \/
     exists i x' y, (i < n)%nat /\ s_ss x' = s_ss x /\ Permutation (terms x') (terms x) /\ is_power x i y /\ capacity y x').
Proof.
  intros m m' E E' cpow n x R R' EO EO' G CP. cbv zeta. pose proof (pow_raw E cpow n m x EO G (reachable_ok m R) CP) as H. pose proof (pow_raw E' cpow n m' x EO' G (reachable_ok m' R') CP) as H'. cbv zeta in H, H'. split.
  - intros r r' ER ER' us ws CV. rewrite ER in H. rewrite ER' in H'. destruct H as [(r0 & [= <-] & (W & I & P) & _)|[[X|X] _]]; try discriminate. destruct H' as [(r0 & [= <-] & (W' & I' & P') & _)|[[X|X] _]]; try discriminate.
    destruct (Nat.eq_dec (len ws) (len us)) as [L|L]; [rewrite P, P'; auto|]. rewrite !(coef_zero KS CO CL); [reflexivity| |]; intros k c _ X; apply L; rewrite <- X; apply spread_len.
  - intros r ER. rewrite ER in H. destruct H as [(r0 & [= <-] & P & S & M)|[[X|X] _]]; try discriminate. destruct H' as [(r' & ER' & _)|[_ [(k & c & T & N)|(L2 & i & x' & y & L & X & P' & U)]]]; [left; eauto|elim (N (S k c T))|].
    assert (SB : same_base x' x) by (destruct X as [->|[_ X]]; [split; [reflexivity|apply Permutation_refl]|exact X]). right. exists i, x', y. split; [exact L|]. split; [apply SB|]. split; [apply SB|]. split; [apply pow_of_power; exact (proj1 P')|].
    destruct U as [U|U]; [|exact U]. exfalso. destruct (M L2) as [_ N]. apply (N i y L (proj1 P')). apply (unrepresentable_same KS x' x y SB). destruct SB as [-> _]. exact U.
Qed.

(** C46. pow(x, 0) = 1; exponents that are neither zero nor convertible to unsigned (negative, fractional) are rejected for series of several terms, the cache is unchanged. *)
Theorem pow_zero : forall m (E : mul_env K C Tag) cpow un (x : series), WF x -> (2 <= len (terms x))%nat ->
  exists r, pow E cpow (Some 0) true un m x = (Ok r, m) /\ WF r /\ forall us ws, covers us x -> coef us r ws = if vec_eqb (repeat 0 (len us)) ws then c_one CO else c_zero CO.
Proof.
  intros m E cpow un x W L. unfold poly_pow, pow_poly_impl. rewrite size_terms. assert (NE : Nat.eqb (len (terms x)) 1 = false) by (apply Nat.eqb_neq; lia). rewrite NE. unfold series_pow. rewrite (multi_not_single x W L).
  destruct (of_cf_ok KO KS CO PO TO KL CL (c_one CO) [] ltac:(constructor) F0) as (o & EQ & Wo & ES & _ & _ & ET). exists o. rewrite EQ. split; [reflexivity|]. split; [exact Wo|]. intros us ws _.
  destruct (c_is_zero CO (c_one CO)) eqn:ZO; [apply (cl_zero _ CL) in ZO; elim (cl_one _ CL ZO)|]. rewrite coef_nden, <- vt_psum, (one_vt KO KS CO KL F0 us o (c_one CO) Wo ES ET), (psum_cons CO CL). cbn [fst snd]. change (psum CO _ []) with (c_zero CO). destruct (vec_eqb _ _); cbn [ifP]; ring.
Qed.
Theorem pow_rejects : forall m (E : mul_env K C Tag) cpow kn (x : series), WF x -> (2 <= len (terms x))%nat ->
  pow E cpow kn false None m x = (Throw invalid_argument, m).
Proof.
  intros m E cpow kn x W L. unfold poly_pow, pow_poly_impl. rewrite size_terms. assert (NE : Nat.eqb (len (terms x)) 1 = false) by (apply Nat.eqb_neq; lia). rewrite NE. unfold series_pow. rewrite (multi_not_single x W L). reflexivity.
Qed.

(** C46. The lookup by hash finds every identical series: identical series have the same hash, in whatever order their terms are stored. *)
Lemma hash_perm (l l' : list (K * C)) : Permutation l l' -> forall h, fold_left (fun h e => (h + k_hash KO (fst e)) mod 2 ^ 64) l h = fold_left (fun h e => (h + k_hash KO (fst e)) mod 2 ^ 64) l' h.
Proof.
  induction 1 as [|a l l' _ IH|a b l|l l' l'' _ IH1 _ IH2]; intros h; cbn [fold_left]; auto; [|rewrite IH1; apply IH2].
  f_equal. rewrite !Zplus_mod_idemp_l. f_equal. lia.
Qed.
Theorem identical_same_hash : forall (th : Tag -> Z) (x y : series), WF x -> WF y -> (forall a b, tags_equal TO a b -> th a = th b) ->
  series_are_identical KO CO TO x y = Ok true -> cache_hash KO th x = cache_hash KO th y.
Proof.
  intros th x y Wx Wy HT. unfold series_are_identical. destruct (ss_eqb (s_ss x) (s_ss y)) eqn:ES; [|discriminate]. apply ss_eqb_iff in ES.
  destruct (cmp_ok KO KS CO TO KL CL x y Wx Wy ES) as (b & -> & HB & HP). intros [= ->]. unfold cache_hash. rewrite (HT _ _ (proj1 (proj1 HB eq_refl))). apply hash_perm, HP. reflexivity.
Qed.
End PW.
Print Assumptions pow_single_term.
Print Assumptions pow_exact.
Print Assumptions pow_unobservable.
Print Assumptions pow_zero.
Print Assumptions pow_rejects.
Print Assumptions identical_same_hash.

(** The unit is representable for both key types. *)
Lemma pm_fits_nil D : ks_fits (pm_sem D) [].
Proof. split; [apply Nat.le_0_l|constructor]. Qed.
Lemma dpm_fits_nil D ps : ks_fits (dpm_sem D ps) [].
Proof. constructor. Qed.

(** Non-vacuity: the cube and then the square of 3 a b^2 - 2 a + 7 b; the second is read from the cache filled by the first call, with the segments of the first; the power -3 of
    a single term; rejected exponents. *)
Definition ex_pow (mt : bool) (lg n : nat) m x := poly_pow exK Z_cf exP Z_tag (exE mt lg) (fun c => Ok (cpower Z_cf c n)) (Some (Z.of_nat n)) (Nat.eqb n 0) (Some n) m x.
Definition ex_m3 : @pow_cache Z Z Z := snd (ex_pow true 1 3 [] ex_x).
Example ex_pow_arg : pow_arg exK exS Z_cf ex_x /\ pow_arg exK exS Z_cf ex_x' /\ reachable exK exS Z_cf exP Z_tag ex_m3.
Proof.
  destruct ex_x_wf as (W & S & _), ex_x'_wf as (W' & S' & _). assert (B : Z.of_nat (2 + 2) <= imax size_t) by (vm_compute; discriminate).
  assert (G : pow_arg exK exS Z_cf ex_x) by (split; [exact W|rewrite S; exact B]). split; [exact G|]. split; [split; [exact W'|rewrite S'; exact B]|]. apply r_pow; [apply r_empty|apply exE_ok|exact G].
Qed.
Example ex_cube : exists r, fst (ex_pow true 1 3 [] ex_x) = Ok r /\ series_size r = 10%nat /\ coef exS Z_cf ["a"; "b"]%string r [2; 3] = -252 /\ power_coef exS Z_cf ["a"; "b"]%string ex_x 3 [2; 3] = -252 /\
  len ex_m3 = 1%nat /\ exists q, ex_pow false 0 2 ex_m3 ex_x' = (Ok q, ex_m3) /\ s_log2 q = 1%nat /\ series_size q = 6%nat.
Proof.
  eexists. split; [vm_compute; reflexivity|]. split; [vm_compute; reflexivity|]. split; [vm_compute; reflexivity|]. split; [vm_compute; reflexivity|]. split; [vm_compute; reflexivity|].
  eexists. split; [vm_compute; reflexivity|]. split; vm_compute; reflexivity.
Qed.
