(** Properties C52, C53: powers, derivatives and integrals of power series; instances of C50, C52 for the key types.  Vocabulary: PSSpec.v
    ([no_negative]: no term has a negative degree in the symbols counted by the truncation), PolySpec.v ([power_coef]), CalcSpec.v ([bump]). *)
From Coq Require Import ZArith List Bool String Arith Sorted Permutation Lia Ring Ring_theory.
From Verif Require Import Base KpackModel KpackSpec KpackProofs P_Kpack IntModel IntSpec IntProofs SymModel SymSpec SymProofs P_Sym PMonModel PMonSpec PMonProofs PMonProofs2 P_PMon
  DPMModel DPMSpec DPMProofs DPMProofs2 DPMProofs3 P_DPM KeyOps KeyInst
  SeriesModel SeriesModel2 SeriesSpec SeriesProofs SeriesProofs2 SeriesProofs3 SeriesProofs4 SeriesProofs5 SeriesProofs6 Lin EvalSpec SeriesEval SeriesProofs7 CfInst P_Series P_Series2
  PolyModel PolyModel2 PolySpec PolyProofs7 PolyProofs8 PolyProofs9 P_Poly P_Poly2 PowProofs PowProofs2 P_Pow CalcSpec DiffProofs IntegProofs P_Calc PSModel PSSpec PSProofs P_PS PSPow.
Import ListNotations.
Open Scope Z_scope.
Open Scope res_scope.
Local Notation len := List.length.

Section PW.
Context {K C : Type} (KO : key_ops K) (KS : key_sem K) (CO : cf_ops C) (PO : tbl_policy (K * C)) (tD : ity).
Context (KL : key_laws KO KS) (CL : cf_laws CO) (HT : integral_type tD) (DI : degrees_in KS tD) (HP : promote tD = tD) (F0 : ks_fits KS []).
Notation series := (series K C trunc_t).
Notation WF := (wf KO KS CO).
Notation TO := ps_tag_ops.
Notation coef := (coef KS CO).
Notation tcoef := (truncated_power_coef KS CO).
Notation exps s k := (ks_exps KS (List.length (s_ss s)) k).
Notation "0c" := (c_zero CO).
Infix "+c" := (c_add CO) (at level 50, left associativity).
Infix "*c" := (c_mul CO) (at level 40, left associativity).
Notation pow E := (ps_pow KO CO PO E tD).
Notation ps_arg := (ps_arg KO KS CO tD).
Add Ring CringP2 : (cl_ring _ CL).

(** The caches a program can reach: empty (at the start, and after clear_series_pow_map), or after any call of pow on power series. *)
Inductive ps_reachable : @pow_cache K C trunc_t -> Prop :=
  | pr_empty : ps_reachable []
  | pr_pow E cpow kn z un m x : ps_reachable m -> env_ok KO KS E -> ps_arg x -> ps_reachable (snd (pow E cpow kn z un m x)).

Lemma ps_reachable_ok m : ps_reachable m -> tcok KO KS CO tD m.
Proof.
  induction 1 as [|E cpow kn z un m x R IH EO G]; [intros ? ? []|]. unfold ps_pow. destruct (pow_poly_impl _ _ _ _ _ _ _ _ _ _ _) as [r m'] eqn:EP. cbn [snd].
  replace m' with (snd (pow_poly_impl KO CO PO TO (ps_mul KO CO PO E tD) cpow kn z un m x)) by (rewrite EP; reflexivity). clear EP r m'. unfold pow_poly_impl. destruct (Nat.eqb _ _); [exact IH|].
  unfold series_pow. destruct (is_single_cf KO x) as [[|]|e|]; cbn [snd]; auto. destruct z; [exact IH|]. destruct un as [n|]; [|exact IH]. apply (cache_tpow KO KS CO PO tD KL CL HT HP F0 E EO); auto.
Qed.

(** Up to one term the multiplication and the cache are not used. *)
Lemma few_terms (E : mul_env K C trunc_t) mul cpow kn z un m (x : series) : WF x -> (len (terms x) <= 1)%nat ->
  fst (pow_poly_impl KO CO PO TO mul cpow kn z un m x) = fst (poly_pow KO CO PO TO E cpow kn z un [] x).
Proof.
  intros W L. unfold poly_pow, pow_poly_impl. rewrite size_terms. destruct (Nat.eqb_spec (len (terms x)) 1); [reflexivity|]. unfold series_pow. rewrite (empty_single KO KS CO KL x W) by (destruct (terms x); [reflexivity|cbn in *; lia]). destruct (series_empty x); reflexivity.
Qed.

(** C52. After any history, pow(x, n) carries the truncation of x and all its terms are within it; for a series of several terms it is the power
    with every product truncated; it is the truncated exact power if no term has a negative degree or there is at most one term. Exceptions: a power of a single term,
    the product of a lower power by x, or a degree of the result is not representable. *)
Theorem ps_pow_exact_partial : forall m (E : mul_env K C trunc_t) cpow n (x : series), ps_reachable m -> env_ok KO KS E -> ps_arg x -> (forall c, cpow c = Ok (cpower CO c n)) ->
  let out := fst (pow E cpow (Some (Z.of_nat n)) (Nat.eqb n 0) (Some n) m x) in
  let t := s_tag x in
  (exists r, out = Ok r /\ WF r /\ s_tag r = t /\ incl (s_ss r) (s_ss x) /\ respects KS r /\
     forall us ws, covers us x -> len ws = len us ->
       ((2 <= len (terms x))%nat -> coef us r ws = if within t us ws then tcoef t us x n ws else 0c) /\
       (no_negative KS t x \/ (len (terms x) <= 1)%nat -> coef us r ws = if within t us ws then power_coef KS CO us x n ws else 0c)) \/
  (key_overflow out /\
   ((exists k c, terms x = [(k, c)] /\ ~ ks_fits KS (vscale (Z.of_nat n) (exps x k))) \/
    (exists i x' y, (i < n)%nat /\ ps_arg x' /\ s_ss x' = s_ss x /\ s_tag x' = t /\ Permutation (terms x') (terms x) /\ is_tpow KO KS CO x i y /\ key_overflow (ps_mul KO CO PO E tD y x')) \/
    (exists s, WF s /\ incl (s_ss s) (s_ss x) /\ degree_lost KS t s))).
Proof.
  intros m E cpow n x R EO G CP. cbv zeta. pose proof G as (W & B & TK & SF). pose proof (ps_reachable_ok m R) as OK. unfold ps_pow.
  set (raw := pow_poly_impl KO CO PO TO (ps_mul KO CO PO E tD) cpow (Some (Z.of_nat n)) (Nat.eqb n 0) (Some n) m x).
  assert (RAW : (exists s, fst raw = Ok s /\ WF s /\ incl (s_ss s) (s_ss x) /\ forall us ws, covers us x -> len ws = len us ->
       ((2 <= len (terms x))%nat -> coef us s ws = tcoef (s_tag x) us x n ws) /\ ((len (terms x) <= 1)%nat -> coef us s ws = power_coef KS CO us x n ws)) \/
    (key_overflow (fst raw) /\ ((exists k c, terms x = [(k, c)] /\ ~ ks_fits KS (vscale (Z.of_nat n) (exps x k))) \/
       (exists i x' y, (i < n)%nat /\ ps_arg x' /\ s_ss x' = s_ss x /\ s_tag x' = s_tag x /\ Permutation (terms x') (terms x) /\ is_tpow KO KS CO x i y /\ key_overflow (ps_mul KO CO PO E tD y x'))))).
  { destruct (Nat.le_gt_cases (len (terms x)) 1) as [L|L].
    - unfold raw. rewrite (few_terms E _ cpow _ _ _ m x W L). destruct (pow_raw KO KS CO PO TO KL CL F0 E cpow n [] x EO (conj W B) ltac:(intros ? ? []) CP) as [(r & ER & (Wr & I & P) & _)|[KV [H|(L2 & _)]]]; [left|right|lia].
      + exists r. split; [exact ER|]. split; [exact Wr|]. split; [exact I|]. intros us ws CV LW. split; [lia|]. intros _. apply P; auto.
      + split; [exact KV|]. left. exact H.
    - unfold raw, pow_poly_impl. rewrite size_terms. assert (NE : Nat.eqb (len (terms x)) 1 = false) by (apply Nat.eqb_neq; lia). rewrite NE. unfold series_pow. rewrite (multi_not_single KO KS CO KL x W) by lia.
      assert (TP : (exists s, is_tpow KO KS CO x n s /\ fst (if Nat.eqb n 0 then (series_of_cf KO CO PO TO (c_one CO) [], m) else series_pow_from_cache KO CO PO TO (ps_mul KO CO PO E tD) m x n) = Ok s) \/ 
        (key_overflow (fst (if Nat.eqb n 0 then (series_of_cf KO CO PO TO (c_one CO) [], m) else series_pow_from_cache KO CO PO TO (ps_mul KO CO PO E tD) m x n)) /\
         exists i x' y, (i < n)%nat /\ ps_arg x' /\ s_ss x' = s_ss x /\ s_tag x' = s_tag x /\ Permutation (terms x') (terms x) /\ is_tpow KO KS CO x i y /\ key_overflow (ps_mul KO CO PO E tD y x'))).
      { destruct (Nat.eqb_spec n 0) as [->|N0].
        - destruct (one_tpow KO KS CO PO tD KL CL F0) as (o & E1 & P1). left. exists o. split; [apply P1; exact G|exact E1].
        - destruct (cache_tpow KO KS CO PO tD KL CL HT HP F0 E EO m x n OK G) as [_ [(r & ER & P)|(KV & i & x' & y & LI & SX & P & EM)]]; [left; exists r; auto|right]. split; [exact KV|]. exists i, x', y.
          split; [exact LI|]. rewrite <- EM in KV. destruct SX as [->|[GX (S1 & S2 & S3)]]; [split; [exact G|]; auto using Permutation_refl|]. split; [exact GX|]. tauto. }
      destruct TP as [(s & (Ws & S1 & S2 & S3) & ES)|[KV H]]; [left|right; auto]. exists s. split; [exact ES|]. split; [exact Ws|]. split; [rewrite S1; destruct n; [intros z []|apply incl_refl]|].
      intros us ws CV LW. split; [intros _; apply S3; auto|lia]. }
  clearbody raw. destruct raw as [ro m']. cbn [fst] in *. destruct RAW as [(s & -> & Ws & IS & D)|[KV H]]; cbn [bind].
  - destruct (truncate_ok KO KS CO tD KL HT DI (s_tag x) (set_tag s (s_tag x)) (set_tag_wf KO KS CO s _ Ws) TK eq_refl) as [(r & ER & WR & SR & TR & LR & FT & _)|[ER DL]]; rewrite ER.
    + left. exists r. split; [reflexivity|]. split; [exact WR|]. split; [exact TR|]. split; [rewrite SR; exact IS|]. split; [exact (kept_respects KS _ _ r SR TR FT)|].
      intros us ws CV LW. assert (CS : covers us (set_tag s (s_tag x))) by (destruct CV as [C1 C2]; split; [exact C1|eapply incl_tran; [exact IS|exact C2]]).
      rewrite (kept_coef KO KS CO KL CL (s_tag x) us _ r ws CS (set_tag_wf KO KS CO s _ Ws) SR FT), coef_tag. destruct (D us ws CV LW) as [D1 D2]. split.
      * intros L. rewrite D1 by exact L. reflexivity.
      * intros NN. destruct (within (s_tag x) us ws) eqn:IN; [|reflexivity]. destruct (Nat.le_gt_cases (len (terms x)) 1) as [L|L]; [apply D2; exact L|]. rewrite D1 by lia. apply (tcoef_power KO KS CO KL x us W CV); auto. destruct NN; [auto|lia].
    + right. split; [left; reflexivity|]. right. right. exists (set_tag s (s_tag x)). split; [apply set_tag_wf; exact Ws|]. split; [exact IS|exact DL].
  - right. split; [destruct KV as [->| ->]; [left|right]; reflexivity|]. destruct H as [H|H]; auto.
Qed.

(** C52. Hence the result does not depend on the history, the environment or the segmentation. *)
Theorem ps_pow_unobservable : forall m m' (E E' : mul_env K C trunc_t) cpow n (x r r' : series), ps_reachable m -> ps_reachable m' -> env_ok KO KS E -> env_ok KO KS E' -> ps_arg x -> (forall c, cpow c = Ok (cpower CO c n)) ->
  fst (pow E cpow (Some (Z.of_nat n)) (Nat.eqb n 0) (Some n) m x) = Ok r -> fst (pow E' cpow (Some (Z.of_nat n)) (Nat.eqb n 0) (Some n) m' x) = Ok r' ->
  s_tag r = s_tag r' /\ forall us ws, covers us x -> coef us r ws = coef us r' ws.
Proof.
  intros m m' E E' cpow n x r r' R R' EO EO' G CP E1 E2. pose proof (ps_pow_exact_partial m E cpow n x R EO G CP) as H. pose proof (ps_pow_exact_partial m' E' cpow n x R' EO' G CP) as H'. cbv zeta in H, H'. rewrite E1 in H. rewrite E2 in H'.
  destruct H as [(r0 & E0 & W & T & I & _ & D)|[[X|X] _]]; try discriminate. destruct H' as [(r1 & E3 & W' & T' & I' & _ & D')|[[X|X] _]]; try discriminate. assert (r0 = r) by congruence. assert (r1 = r') by congruence. subst r0 r1.
  split; [congruence|]. intros us ws CV. destruct (Nat.eq_dec (len ws) (len us)) as [L|L].
  - destruct (D us ws CV L) as [A B], (D' us ws CV L) as [A' B']. destruct (Nat.le_gt_cases (len (terms x)) 1) as [N|N]; [rewrite B, B'; auto|rewrite A, A'; auto].
  - rewrite !(coef_zero KS CO CL); [reflexivity| |]; intros k c _ X; apply L; rewrite <- X; apply spread_len.
Qed.
End PW.
Print Assumptions ps_truncate_exact.
Print Assumptions set_truncation_exact.
Print Assumptions set_truncation_p_exact.
Print Assumptions unset_truncation_exact.
Print Assumptions ps_add_sub_exact.
Print Assumptions ps_scalar_exact.
Print Assumptions ps_mul_exact.
Print Assumptions ps_pow_exact_partial.
Print Assumptions ps_pow_unobservable.
