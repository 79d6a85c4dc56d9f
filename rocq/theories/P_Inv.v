(** Property C24: the class invariants hold for every series a program can make.  [made] is the closure of the public operations: whatever sequence of
    operations is called, with whatever arguments, a series which is returned satisfies the invariants. *)
From Coq Require Import ZArith List Bool String Arith Sorted Permutation Lia Ring Ring_theory.
From Verif Require Import Base KpackModel KpackSpec KpackProofs P_Kpack IntModel IntSpec IntProofs SymModel SymSpec SymProofs P_Sym PMonModel PMonSpec PMonProofs PMonProofs2 P_PMon
  DPMModel DPMSpec DPMProofs DPMProofs2 DPMProofs3 P_DPM KeyOps KeyInst
  SeriesModel SeriesModel2 SeriesSpec SeriesProofs SeriesProofs2 SeriesProofs3 SeriesProofs4 SeriesProofs5 SeriesProofs6 Lin EvalSpec SeriesEval SeriesProofs7 CfInst P_Series P_Series2
  PolyModel PolyModel2 PolySpec PolyProofs7 PolyProofs8 PolyProofs9 P_Poly P_Poly2 PowProofs PowProofs2 P_Pow CalcSpec DiffProofs IntegProofs P_Calc SubsSpec SubsProofs SubsProofs2 P_Subs PSModel PSSpec PSProofs P_PS PSPow P_PS2 P_PS3 P_PS4 P_Gen SerModel SerSpec P_Ser PSModel3.
From Verif Require P_PS7.
Import ListNotations.
Open Scope Z_scope.
Open Scope res_scope.
Local Notation len := List.length.

(** The invariants, in the words of C24; [max_table_size] is the maximum table size of a series with several segments. *)
Definition invariants {K C Tag : Type} (KO : key_ops K) (CO : cf_ops C) (s : series K C Tag) : Prop :=
  (forall k c, In (k, c) (List.concat (s_tables s)) -> c <> c_zero CO) /\
  NoDup (map fst (List.concat (s_tables s))) /\
  (forall k c, In (k, c) (List.concat (s_tables s)) -> k_compatible KO k (s_ss s) = Ok true) /\
  len (s_tables s) = (2 ^ s_log2 s)%nat /\
  (forall i t k c, nth_error (s_tables s) i = Some t -> In (k, c) t -> Z.of_nat i = k_hash KO k mod 2 ^ Z.of_nat (s_log2 s)) /\
  (s_log2 s <> 0%nat -> forall t, In t (s_tables s) -> Z.of_nat (len t) <= max_table_size (s_log2 s)).

Section PI.
Context {K C Tag : Type} (KO : key_ops K) (KS : key_sem K) (CO : cf_ops C) (PO : tbl_policy (K * C)) (TO : tag_ops Tag).
Context (KL : key_laws KO KS) (CL : cf_laws CO).
Notation series := (series K C Tag).
Notation WF := (wf KO KS CO).
Notation bounded x y := (Z.of_nat (len (s_ss x) + len (s_ss y)) <= imax size_t).

Lemma wf_invariants (s : series) : WF s -> invariants KO CO s.
Proof.
  intros W. pose proof W as []. unfold invariants. repeat apply conj; auto; try (intros; eapply wf_nonzero; eauto; fail).
  intros k c I. destruct (kl_compat _ _ KL k (s_ss s)) as (b & E & V). rewrite E, V; eauto.
Qed.

(** The series which can be made: by construction, by modification and by the operations on series and polynomials (without truncation tags, for these see [made_ps]).
    The keys inserted by the user are those made by the key constructors (C12, C16), symbol sets are flat_sets, the numbers of symbols are in the range of size_t,
    the powers used by substitutions are made by the program as well. *)
Inductive made : series -> Prop :=
| m_default : made (series_default TO)
| m_of_scalar c ss r : sorted_set ss -> ks_fits KS (repeat 0 (len ss)) -> series_of_cf KO CO PO TO c ss = Ok r -> made r
| m_convert C' Tag' (CO' : cf_ops C') (g : C' -> C) tg (x : SeriesModel.series K C' Tag') r : cf_laws CO' -> g (c_zero CO') = c_zero CO -> (forall a b, g (c_add CO' a b) = c_add CO (g a) (g b)) ->
    wf KO KS CO' x -> series_convert KO CO PO g tg x = Ok r -> made r
| m_symbol_set s ss r : made s -> sorted_set ss -> set_symbol_set s ss = Ok r -> made r
| m_n_segments s l r : made s -> set_n_segments s l = Ok r -> made r
| m_tag s tg : made s -> made (set_tag s tg)
| m_clear_terms s : made s -> made (clear_terms s)
| m_clear s : made s -> made (series_clear TO s)
| m_add_term sign s k c r : made s -> ks_valid KS (len (s_ss s)) k -> add_term KO CO PO sign s k c = Ok r -> made r
| m_addsub (sign : bool) x y r : made x -> made y -> bounded x y -> (if sign then series_add KO CO PO TO x y else series_sub KO CO PO TO x y) = Ok r -> made r
| m_in_place sign x (aliased : bool) y r : made x -> made y -> bounded x y -> (aliased = true -> y = x) ->
    series_in_place_addsub KO CO PO CO PO TO sign (fun c => c) x aliased y = Ok r -> made r
| m_scalar_addsub sign (rhs_is_series : bool) x c r : made x -> ks_fits KS (repeat 0 (len (s_ss x))) ->
    (if rhs_is_series then scalar_addsub_series KO CO PO sign c x else series_addsub_scalar KO CO PO sign x c) = Ok r -> made r
| m_negate x : made x -> made (series_negate CO x)
| m_scalar_mul x c : made x -> made (series_scalar_mul KO CO x c)
| m_scalar_div U (cdiv : C -> U -> res C) x y r : made x -> series_scalar_div CO cdiv x y = Ok r -> made r
| m_filter f x : made x -> made (series_filter f x)
| m_filtered f x r : made x -> series_filtered KO PO f x = Ok r -> made r
| m_truncate f x r : made x -> series_filter_res f x = Ok r -> made r
| m_trim x r : made x -> series_trim KO CO PO TO x = Ok r -> made r
| m_add_symbols x ss r : made x -> sorted_set ss -> Z.of_nat (len (s_ss x) + len ss) <= imax size_t -> add_symbols KO CO PO TO x ss = Ok r -> made r
| m_mul E x y r : env_ok KO KS E -> made x -> made y -> bounded x y -> poly_mul KO CO PO TO E x y = Ok r -> made r
| m_truncated_mul E sel lim t x y r : env_ok KO KS E -> made x -> made y -> bounded x y -> (forall u, union_of (s_ss x) (s_ss y) u -> trunc_exact KS sel lim u t) ->
    poly_mul_switch KO CO PO TO E (Some t) x y = Ok r -> made r
| m_pow E cpow kn z un m x r : env_ok KO KS E -> ks_fits KS [] -> reachable KO KS CO PO TO m -> made x -> bounded x x -> fst (poly_pow KO CO PO TO E cpow kn z un m x) = Ok r -> made r
| m_diff cz x s r : int_embedding CO cz -> made x -> poly_diff KO CO PO TO cz x s = Ok r -> made r
| m_integrate cdiv x s r : total_division cdiv -> made x -> poly_integrate KO CO PO TO cdiv x s = Ok r -> made r
| m_subs_scalar U (vpow : U -> Z -> res C) pw x sm r : made x -> sorted_set (map fst sm) -> powers_exist KS vpow pw sm x -> bounded x x ->
    subs_scalar KO CO PO TO vpow x sm = Ok r -> made r
| m_subs E (vpow : series -> Z -> res series) x sm B r : env_ok KO KS E -> ks_fits KS [] -> made x -> sorted_set (map fst sm) -> sorted_set B -> Z.of_nat (len B + len B) <= imax size_t -> incl (s_ss x) B ->
    (forall z u n p, In (z, u) sm -> vpow u n = Ok p -> made p) -> (forall z u n p, In (z, u) sm -> vpow u n = Ok p -> incl (s_ss p) B) -> (forall z u n, In (z, u) sm -> vpow u n <> UB) ->
    subs_poly KO CO PO TO E vpow x sm = Ok r -> made r
| m_generator kof ss s r : constructs KS kof -> sorted_set ss -> Z.of_nat (len ss) <= imax int64 -> make_generator_ss KO CO PO TO kof ss s = Ok r -> made r.

Lemma symbol_set_wf (s r : series) ss : WF s -> sorted_set ss -> set_symbol_set s ss = Ok r -> WF r /\ s_tag r = s_tag s.
Proof.
  intros W SS E. unfold set_symbol_set in E. destruct (series_empty s) eqn:SE; [|discriminate]. injection E as <-. split; [|reflexivity]. destruct W. apply empty_terms in SE.
  constructor; cbn [s_ss s_log2 s_tables]; auto; unfold terms in *; cbn [s_tables]; rewrite ?SE; auto; intros ? ? [].
Qed.
Lemma n_segments_wf (s r : series) l : WF s -> set_n_segments s l = Ok r -> WF r /\ s_tag r = s_tag s.
Proof.
  intros W E0. destruct (Nat.leb_spec l max_log2_size) as [L|L].
  - destruct (set_n_segments_ok KO KS CO s l L (wf_ss _ _ _ _ W)) as [E W']. rewrite E in E0. injection E0 as <-. auto.
  - unfold set_n_segments in E0. assert ((max_log2_size <? l)%nat = true) as X by (apply Nat.ltb_lt; lia). rewrite X in E0. discriminate.
Qed.
Lemma clear_terms_wf (s : series) : WF s -> WF (clear_terms s).
Proof.
  intros W0. pose proof (filter_exact KO KS CO PO KL (fun _ => false) s W0) as (W & _). unfold series_filter in W. unfold clear_terms.
  erewrite (map_ext (fun _ => []) (filter (fun _ => false))); [exact W|]. intros l. induction l; auto.
Qed.
Lemma filter_res_wf f (x r : series) : WF x -> series_filter_res f x = Ok r -> WF r.
Proof.
  intros W E. set (g := fun e => match f e with Ok b => b | _ => false end). unfold series_filter_res in E.
  destruct (rmap (rfilter f) (s_tables x)) as [ts| |] eqn:ET; cbn [bind] in E; try discriminate. injection E as <-.
  assert (ts = map (filter g) (s_tables x)) as ->; [|exact (proj1 (filter_exact KO KS CO PO KL g x W))].
  revert ts ET. induction (s_tables x) as [|t l IH]; intros ts ET; cbn [rmap map] in *; [congruence|].
  destruct (rfilter f t) as [t'| |] eqn:EF; cbn [bind] in ET; try discriminate. destruct (rmap (rfilter f) l) as [ts'| |]; cbn [bind] in ET; try discriminate. injection ET as <-. rewrite (IH ts' eq_refl). f_equal.
  clear -EF. revert t' EF. induction t as [|e t IH]; intros r E; cbn [rfilter filter] in *; [congruence|]. unfold g at 1.
  destruct (f e) as [b| |]; cbn [bind] in E; try discriminate. destruct (rfilter f t) as [r'| |]; cbn [bind] in E; try discriminate. injection E as <-. rewrite (IH r' eq_refl). destruct b; reflexivity.
Qed.
Lemma pow_impl_wf mul cpow kn z un m (x r : series) : ks_fits KS [] -> WF x -> (forall n, fst (series_pow_from_cache KO CO PO TO mul m x n) = Ok r -> WF r) ->
  fst (pow_poly_impl KO CO PO TO mul cpow kn z un m x) = Ok r -> WF r.
Proof.
  intros F0 W CP ER. unfold pow_poly_impl in ER. destruct (Nat.eqb (series_size x) 1) eqn:S1.
  - apply Nat.eqb_eq in S1. rewrite size_terms in S1. destruct (terms x) as [|[k c] [|? ?]] eqn:T; try discriminate. clear S1.
    cbn [fst] in ER. destruct (set_symbol_set (series_default TO) (s_ss x)) as [s0| |] eqn:E0; cbn [bind] in ER; try discriminate.
    destruct (it_deref x (series_begin x)) as [e| |] eqn:ED; cbn [bind] in ER; try discriminate.
    assert (V : ks_valid KS (len (s_ss x)) (fst e)).
    { rewrite (begin_single _ _ T) in ED. injection ED as <-. apply (wf_valid _ _ _ _ W k c). rewrite T. left. reflexivity. }
    destruct kn as [n|]; [|rewrite (proj2 (proj2 (kl_pow _ _ KL (fst e) (s_ss x) 0 V))) in ER; discriminate].
    destruct (kl_pow _ _ KL (fst e) (s_ss x) n V) as (K1 & K2 & _). destruct (kl_fits_dec _ _ KL (vscale n (ks_exps KS (len (s_ss x)) (fst e)))) as [F|F]; [|rewrite (K2 F) in ER; discriminate].
    destruct (K1 F) as (k' & EK & V' & _). rewrite EK in ER. cbn [bind] in ER. destruct (cpow (snd e)) as [c'| |]; cbn [bind] in ER; try discriminate.
    destruct (single_add KO KS CO PO TO KL CL x k' c' W V') as (r' & ER' & W' & _). rewrite E0 in ER'. cbn [bind] in ER'. rewrite ER in ER'. injection ER' as ->. exact W'.
  - assert (OC : forall c r', series_of_cf KO CO PO TO c [] = Ok r' -> WF r').
    { intros c r' E'. destruct (of_cf_ok KO KS CO PO TO KL CL c [] (SSorted_nil _) F0) as (r0 & E0 & W0 & _). rewrite E' in E0. injection E0 as ->. exact W0. }
    unfold series_pow in ER. destruct (is_single_cf KO x) as [[|]| |]; cbn [fst] in ER; try discriminate.
    + destruct (series_empty x).
      * destruct (cpow (c_zero CO)) as [c| |]; cbn [bind] in ER; try discriminate. eauto.
      * destruct (it_deref x (series_begin x)) as [e| |]; cbn [bind] in ER; try discriminate. destruct (cpow (snd e)) as [c| |]; cbn [bind] in ER; try discriminate. eauto.
    + destruct z; [eapply OC; exact ER|]. destruct un as [n|]; [|discriminate].
      eapply CP; exact ER.
Qed.
Lemma pow_wf E cpow kn z un m (x r : series) : env_ok KO KS E -> ks_fits KS [] -> reachable KO KS CO PO TO m -> WF x -> bounded x x -> fst (poly_pow KO CO PO TO E cpow kn z un m x) = Ok r -> WF r.
Proof.
  intros EO F0 R W B ER. eapply pow_impl_wf; [exact F0|exact W| |exact ER]. intros n E1.
  destruct (cache_pow KO KS CO PO TO KL CL F0 E EO m x n (reachable_ok KO KS CO PO TO KL CL F0 m R) (conj W B)) as (_ & [(r' & ER' & P)|[[X|X] _]]); rewrite E1 in *; try discriminate. injection ER' as ->. apply P.
Qed.

Lemma unit_ring : ring_theory tt tt (fun _ _ => tt) (fun _ _ => tt) (fun _ _ => tt) (fun _ => tt) (@eq unit).
Proof. constructor; intros; repeat match goal with x : unit |- _ => destruct x end; reflexivity. Qed.


Lemma made_wf : forall s, made s -> WF s.
Proof.
  induction 1.
  - apply default_wf.
  - destruct (of_cf_ok KO KS CO PO TO KL CL c ss H H0) as (r0 & E & W & _). congruence.
  - destruct (convert_exact KO KS CO PO KL CL C' Tag' CO' H g tg x H0 H1 H2) as (r0 & E & W & _). congruence.
  - eapply symbol_set_wf; eauto.
  - eapply n_segments_wf; eauto.
  - destruct IHmade; constructor; auto.
  - apply clear_terms_wf; auto.
  - apply (proj1 (clear_cleared KO KS CO TO s IHmade)).
  - destruct (add_term_exact KO KS CO PO KL CL sign s k c IHmade H0) as [(r0 & E & W & _)|[E _]]; congruence.
  - destruct (add_sub_exact KO KS CO PO TO KL CL sign x y IHmade1 IHmade2 H1) as [(r0 & E & W & _)|[[E|E] _]]; congruence.
  - destruct (in_place_exact KO KS CO PO TO KL CL sign x aliased y IHmade1 IHmade2 H2 H1) as [(r0 & E & W & _)|[[E|E] _]]; congruence.
  - destruct (scalar_addsub_exact KO KS CO PO KL CL sign x c IHmade H0 _ rhs_is_series eq_refl) as [(r0 & E & W & _)|[E _]]; congruence.
  - apply (negate_exact KO KS CO CL x IHmade).
  - apply (scalar_mul_exact KO KS CO KL CL x c IHmade).
  - destruct (scalar_div_exact KO KS CO CL U cdiv x y IHmade) as [(r0 & E & W & _)|(k & c & _ & [(e & _ & E)|[_ E]])]; congruence.
  - apply (filter_exact KO KS CO PO KL f x IHmade).
  - destruct (filter_exact KO KS CO PO KL f x IHmade) as (_ & _ & _ & _ & _ & r0 & E & W & _). congruence.
  - eapply filter_res_wf; eauto.
  - destruct (trim_exact_partial KO KS CO PO TO KL CL x IHmade) as (r0 & E & W & _). congruence.
  - destruct (add_symbols_exact KO KS CO PO TO KL CL x ss IHmade H0 H1) as [(r0 & E & W & _)|[[E|E] _]]; congruence.
  - destruct (mul_exact KO KS CO PO TO KL CL E x y H IHmade1 IHmade2 H2) as (u & _ & [(r0 & E' & W & _)|[[E'|E'] _]]); congruence.
  - destruct (truncated_mul_exact KO KS CO PO TO KL CL E sel lim t x y H IHmade1 IHmade2 H2 H3) as (u & _ & [(r0 & E' & W & _)|[[E'|E'] _]]); congruence.
  - eapply pow_wf; eauto.
  - destruct (diff_exact KO KS CO PO TO KL CL cz H x s IHmade) as [(r0 & E & W & _)|[E _]]; congruence.
  - destruct (integ_ok KO KS CO PO TO KL CL cdiv H x s IHmade) as (u & _ & [(r0 & E & W & _)|[[E _]|[[E|E] _]]]); congruence.
  - destruct (subs_scalar_exact KO KS CO PO TO KL CL U vpow pw x sm IHmade H0 H1 H2) as (r0 & E & W & _). congruence.
  - destruct (subs_poly_value KO KS CO PO TO KL CL tt tt (fun _ _ => tt) (fun _ _ => tt) (fun _ _ => tt) (fun _ => tt) unit_ring (fun _ _ => tt) (fun _ => tt) eq_refl eq_refl (fun _ _ => eq_refl) (fun _ _ => eq_refl)
       E vpow x sm [] (map (fun e => (fst e, tt)) sm) B (fun _ => True)) as [(r0 & E' & W & _)|(e & E' & _)]; auto; try congruence.
    + constructor.
    + split; auto.
    + intros ? ? _. apply Forall_forall. auto.
    + intros z u n I. destruct (vpow u n) as [p|e|] eqn:EV; [left|right; eauto|elim (H9 z u n I EV)]. exists p. split; [reflexivity|]. split; [eauto|]. split; [eauto|]. split; [intros ? ? _; apply Forall_forall; auto|].
      match goal with |- ?v = tt => destruct v end. reflexivity.
    + intros z. clear. induction sm as [|[a u] l IH]; cbn [map assoc fst]; [reflexivity|]. unfold assoc in *; cbn [find fst snd] in *; destruct (String.eqb a z) eqn:EA; [cbn [snd option_map]|exact IH]. f_equal. match goal with |- ?a = ?b => destruct a, b end. reflexivity.
  - destruct (make_generator_ss_ok KO KS CO PO TO KL CL kof H ss s H0 H1) as [(r0 & E & _ & W & _)|[[E _]|[[E|E] _]]]; congruence.
Qed.

(** C24. *)
Theorem invariants_hold : forall s, made s -> invariants KO CO s.
Proof. intros s M. apply wf_invariants, made_wf, M. Qed.
End PI.

(** * Power series *)
Section PIS.
Context {K C : Type} (KO : key_ops K) (KS : key_sem K) (CO : cf_ops C) (PO : tbl_policy (K * C)) (tD : ity).
Context (KL : key_laws KO KS) (CL : cf_laws CO) (HT : integral_type tD) (DI : degrees_in KS tD) (HP : promote tD = tD) (F0 : ks_fits KS []).
Notation series := (series K C trunc_t).
Notation WF := (wf KO KS CO).
Notation TO := ps_tag_ops.
Notation bounded x y := (Z.of_nat (len (s_ss x) + len (s_ss y)) <= imax size_t).

Lemma joint_ok a b t : trunc_ok tD a -> trunc_ok tD b -> joint a b t -> trunc_ok tD t.
Proof. intros A B [[_ ->]|[[_ ->]|[_ ->]]]; auto. Qed.
Lemma joint_or_clash a b : clash a b \/ exists t, joint a b t.
Proof.
  assert (D : a = b \/ a <> b). { destruct a as [|d|d s], b as [|e|e u]; try (right; discriminate); try (left; reflexivity); destruct (Z.eq_dec d e) as [->|]; try (right; congruence); [left; reflexivity|].
    destruct (list_eq_dec string_dec s u) as [->|]; [left; reflexivity|right; congruence]. }
  destruct D as [->|N]; [right; exists b; left; auto|]. destruct a as [|d|d s]; [right; exists b; right; left; auto| |]; (destruct b as [|e|e u]; [right; eexists; right; right; split; reflexivity| |]); left; repeat split; congruence.
Qed.

(** Substitution of power series: the invariants of the result. *)
Lemma ps_subs_wf (E : mul_env K C trunc_t) (vpow : series -> Z -> res series) (x : series) (sm : symbol_map series) (B : symbol_set) (r : series) :
  env_ok KO KS E -> (forall t u, trunc_ok tD t -> t <> no_truncation -> sums_fit KS tD (counted t) u) -> sorted_set B -> Z.of_nat (len B + len B) <= imax size_t ->
  WF x -> trunc_ok tD (s_tag x) -> incl (s_ss x) B -> sorted_set (map fst sm) ->
  (forall z u n p, In (z, u) sm -> vpow u n = Ok p -> WF p /\ trunc_ok tD (s_tag p) /\ incl (s_ss p) B) ->
  ps_subs KO CO PO E tD vpow x sm = Ok r -> WF r /\ trunc_ok tD (s_tag r).
Proof.
  intros EO SF HB SZ W TX IX Sm HV ER. assert (Hs := wf_ss _ _ _ _ W).
  pose (ok := fun p : series => WF p /\ trunc_ok tD (s_tag p) /\ incl (s_ss p) B).
  assert (BND : forall a b : series, ok a -> ok b -> bounded a b).
  { intros a b (Wa & _ & Ia) (Wb & _ & Ib). pose proof (NoDup_incl_length (sorted_set_nodup _ (wf_ss _ _ _ _ Wa)) Ia). pose proof (NoDup_incl_length (sorted_set_nodup _ (wf_ss _ _ _ _ Wb)) Ib). lia. }
  assert (IU : forall a b u, ok a -> ok b -> union_of (s_ss a) (s_ss b) u -> incl u B).
  { intros a b u (_ & _ & Ia) (_ & _ & Ib) [_ Hu] z J. apply Hu in J as [J|J]; auto. }
  assert (MUL : forall a b p, ok a -> ok b -> ps_mul KO CO PO E tD a b = Ok p -> ok p).
  { intros a b p Oa Ob EP. pose proof Oa as (Wa & Ta & Ia). pose proof Ob as (Wb & Tb & Ib).
    destruct (ps_mul_exact KO KS CO PO tD KL CL HT HP E a b EO Wa Wb Ta Tb (BND a b Oa Ob)) as [CL' JO]. destruct (joint_or_clash (s_tag a) (s_tag b)) as [X|(t & J)]; [rewrite (CL' X) in EP; discriminate|].
    destruct (JO t J (fun u _ NT => SF t u (joint_ok _ _ _ Ta Tb J) NT)) as (u & Hu & [(r0 & E' & W0 & S0 & T0 & _)|[[E'|E'] _]]); rewrite EP in E'; try discriminate. injection E' as ->.
    split; [exact W0|]. rewrite T0, S0. split; [exact (joint_ok _ _ _ Ta Tb J)|exact (IU a b u Oa Ob Hu)]. }
  assert (ADD : forall a b p, ok a -> ok b -> ps_in_place_addsub KO CO PO tD true a false b = Ok p -> ok p).
  { intros a b p Oa Ob EP. pose proof Oa as (Wa & Ta & Ia). pose proof Ob as (Wb & Tb & Ib).
    destruct (ps_add_sub_exact KO KS CO PO tD KL CL HT DI true true false a b Wa Wb Ta Tb (fun X => False_ind _ (Bool.diff_false_true X)) (BND a b Oa Ob)) as [CL' JO]. destruct (joint_or_clash (s_tag a) (s_tag b)) as [X|(t & J)]; [specialize (CL' X); cbv beta iota zeta in CL'; congruence|].
    destruct (JO t J) as [(r0 & E' & W0 & T0 & U0 & _)|[[E'|E'] _]]; cbv beta iota zeta in E'; rewrite EP in E'; try discriminate. injection E' as ->.
    split; [exact W0|]. rewrite T0. split; [exact (joint_ok _ _ _ Ta Tb J)|exact (IU a b _ Oa Ob U0)]. }
  unfold ps_subs in ER. unfold set_symbol_set in ER. change (series_empty (series_default ps_tag_ops)) with true in ER. cbn iota in ER. cbn [bind] in ER.
  change (set_tag _ (s_tag x)) with (blank x) in ER. cbv zeta in ER. match type of ER with rfold ?f _ _ = _ => set (step := f) in ER end.
  destruct (rfold_inv step (fun _ q => ok q) (fun q => forall p, q <> Ok p)) with (l := terms x) (pre := @nil (K * C)) (b := series_default ps_tag_ops : series) as [(r' & ER' & Hr)|H].
  - intros b H. apply (H b eq_refl).
  - split; [apply default_wf|]. split; [exact I|intros ? []].
  - cbn [app]. intros p b [k c] q EQ Ob. assert (J : In (k, c) (terms x)) by (rewrite EQ; apply in_or_app; right; left; reflexivity).
    pose proof (wf_valid _ _ _ _ W k c J) as Vk. destruct (step b (k, c)) as [b'| |] eqn:ES; [left|right; discriminate|right; discriminate]. exists b'. split; [reflexivity|].
    unfold step in ES. cbn [fst snd] in ES.
    destruct (kl_subs _ _ KL (res series) series (series_of_cf KO CO PO ps_tag_ops (c_one CO) []) (fun a b => a <- a ;; b <- b ;; ps_mul KO CO PO E tD a b) (fun u z => Ok (vpow u z)) vpow k (s_ss x) (sm_intersect_idx sm (s_ss x)) Vk (idx_sorted sm (s_ss x) Sm Hs) (idx_bound sm (s_ss x) Sm Hs)) as (k' & EK & V' & _).
    { reflexivity. }
    rewrite EK in ES. cbn [bind] in ES.
    destruct (tmp_ok KO KS CO PO KL CL x k' W V') as (tm & ET & Wt & ST & _). pose proof (P_PS7.tmp_tag KO KS CO PO KL CL x tm k' W V' ET) as TT. rewrite ET in ES. cbn [bind] in ES.
    match type of ES with bind ?w _ = _ => destruct w as [v| |] eqn:EV; cbn [bind] in ES; try discriminate ES end.
    assert (FV : forall (l : list (nat * series)) a, (forall i u, In (i, u) l -> exists z, In (z, u) sm) -> (forall p, a = Ok p -> ok p) ->
      forall p, fold_left (fun a b => a <- a ;; b <- b ;; ps_mul KO CO PO E tD a b) (map (fun a0 => vpow (snd a0) (nth (fst a0) (ks_exps KS (len (s_ss x)) k) 0)) l) a = Ok p -> ok p).
    { induction l as [|[i u] l IHl]; intros a HL HA p' EF; [apply HA; exact EF|]. cbn [map fold_left fst snd] in EF. refine (IHl _ (fun j w Q => HL j w (or_intror Q)) _ p' EF).
      intros p2 E2. destruct a as [a| |]; cbn [bind] in E2; try discriminate E2. destruct (vpow u _) as [w| |] eqn:EW; cbn [bind] in E2; try discriminate E2.
      destruct (HL i u (or_introl eq_refl)) as (z & Iz). exact (MUL a w p2 (HA a eq_refl) (HV z u _ w Iz EW) E2). }
    assert (Ov : ok v).
    { apply (FV _ _) in EV; [exact EV| |].
      - intros i u Q. apply (idx_iff sm (s_ss x) Sm Hs) in Q as (n & _ & A). exists n. apply assoc_iff in A; [exact A|apply sorted_set_nodup; exact Sm].
      - intros o EO'. destruct (of_cf_ok KO KS CO PO TO KL CL (c_one CO) [] (SSorted_nil _) F0) as (o' & E' & W' & S' & T' & _). rewrite EO' in E'. injection E' as ->. split; [exact W'|]. rewrite T', S'. split; [exact I|intros ? []]. }
    pose proof Ov as (Wv & Tv & Iv). destruct (scalar_mul_exact KO KS CO KL CL v c Wv) as (Ws & Ss & Ts & _).
    destruct (ps_mul KO CO PO E tD (series_scalar_mul KO CO v c) tm) as [pt| |] eqn:EM; cbn [bind] in ES; try discriminate ES.
    refine (ADD b pt b' Ob _ ES). refine (MUL _ tm pt _ _ EM).
    + split; [exact Ws|]. rewrite Ts, Ss. split; [exact Tv|exact Iv].
    + split; [exact Wt|]. rewrite TT, ST. split; [exact TX|exact IX].
  - rewrite ER in ER'. injection ER' as <-. destruct Hr as (A & B' & _). split; [exact A|exact B'].
  - elim (H r ER).
Qed.

(** The power series which can be made (the results of set_truncation also if it throws).  The truncated products are those for which the degree type suffices, as it
    does for packed monomials (P_PS4.v). *)
Inductive made_ps : series -> Prop :=
| mp_default : made_ps (series_default TO)
| mp_of_scalar c ss r : sorted_set ss -> ks_fits KS (repeat 0 (len ss)) -> series_of_cf KO CO PO TO c ss = Ok r -> made_ps r
| mp_symbol_set s ss r : made_ps s -> sorted_set ss -> set_symbol_set s ss = Ok r -> made_ps r
| mp_n_segments s l r : made_ps s -> set_n_segments s l = Ok r -> made_ps r
| mp_clear_terms s : made_ps s -> made_ps (clear_terms s)
| mp_clear s : made_ps s -> made_ps (series_clear TO s)
| mp_add_term sign s k c r : made_ps s -> ks_valid KS (len (s_ss s)) k -> add_term KO CO PO sign s k c = Ok r -> made_ps r
| mp_addsub (sign in_place aliased : bool) x y r : made_ps x -> made_ps y -> bounded x y -> (aliased = true -> y = x) ->
    (if in_place then ps_in_place_addsub KO CO PO tD sign x aliased y else if sign then ps_add KO CO PO tD x y else ps_sub KO CO PO tD x y) = Ok r -> made_ps r
| mp_scalar_addsub sign (scalar_first : bool) x c r : made_ps x -> ks_fits KS (repeat 0 (len (s_ss x))) ->
    (if scalar_first then scalar_addsub_ps KO CO PO tD sign c x else ps_addsub_scalar KO CO PO tD sign x c) = Ok r -> made_ps r
| mp_negate x : made_ps x -> made_ps (series_negate CO x)
| mp_scalar_mul x c : made_ps x -> made_ps (series_scalar_mul KO CO x c)
| mp_scalar_div U (cdiv : C -> U -> res C) x y r : made_ps x -> series_scalar_div CO cdiv x y = Ok r -> made_ps r
| mp_filter f x : made_ps x -> made_ps (series_filter f x)
| mp_filtered f x r : made_ps x -> series_filtered KO PO f x = Ok r -> made_ps r
| mp_trim x r : made_ps x -> series_trim KO CO PO TO x = Ok r -> made_ps r
| mp_add_symbols x ss r : made_ps x -> sorted_set ss -> Z.of_nat (len (s_ss x) + len ss) <= imax size_t -> add_symbols KO CO PO TO x ss = Ok r -> made_ps r
| mp_truncate x r : made_ps x -> ps_truncate KO tD x = Ok r -> made_ps r
| mp_set_truncation tV d x : made_ps x -> limit_value tV d -> made_ps (snd (set_truncation KO tD tV d x))
| mp_set_truncation_p tV d syms x : made_ps x -> limit_value tV d -> sorted_set syms -> made_ps (snd (set_truncation_p KO tD tV d syms x))
| mp_unset_truncation x : made_ps x -> made_ps (unset_truncation x)
| mp_mul E x y r : env_ok KO KS E -> made_ps x -> made_ps y -> bounded x y ->
    (forall t u, joint (s_tag x) (s_tag y) t -> union_of (s_ss x) (s_ss y) u -> t <> no_truncation -> sums_fit KS tD (counted t) u) -> ps_mul KO CO PO E tD x y = Ok r -> made_ps r
| mp_pow E cpow kn z un m x r : env_ok KO KS E -> ps_reachable KO KS CO PO tD m -> made_ps x -> ps_arg KO KS CO tD x -> fst (ps_pow KO CO PO E tD cpow kn z un m x) = Ok r -> made_ps r
| mp_diff cz x s r : int_embedding CO cz -> made_ps x -> ps_diff KO CO PO cz x s = Ok r -> made_ps r
| mp_integrate cdiv x s r : total_division cdiv -> made_ps x -> ps_integrate KO CO PO tD cdiv x s = Ok r -> made_ps r
| mp_generator kof ss s r : constructs KS kof -> sorted_set ss -> Z.of_nat (len ss) <= imax int64 -> make_generator_ss KO CO PO TO kof ss s = Ok r -> made_ps r
| mp_subs_scalar U (vpow : U -> Z -> res C) pw x sm r : made_ps x -> sorted_set (map fst sm) -> powers_exist KS vpow pw sm x -> bounded x x -> ps_subs_scalar KO CO PO tD vpow x sm = Ok r -> made_ps r
| mp_subs E (vpow : series -> Z -> res series) x sm B r : env_ok KO KS E -> (forall t u, trunc_ok tD t -> t <> no_truncation -> sums_fit KS tD (counted t) u) -> made_ps x -> sorted_set (map fst sm) ->
    sorted_set B -> Z.of_nat (len B + len B) <= imax size_t -> incl (s_ss x) B ->
    (forall z u n p, In (z, u) sm -> vpow u n = Ok p -> made_ps p) -> (forall z u n p, In (z, u) sm -> vpow u n = Ok p -> incl (s_ss p) B) -> ps_subs KO CO PO E tD vpow x sm = Ok r -> made_ps r.

Lemma made_ps_wf : forall s, made_ps s -> WF s /\ trunc_ok tD (s_tag s).
Proof.
  induction 1; repeat match goal with IH : _ /\ _ |- _ => destruct IH as [? ?] end.
  - split; [apply default_wf|exact I].
  - destruct (of_cf_ok KO KS CO PO TO KL CL c ss H H0) as (r0 & E & W & _ & T & _). rewrite H1 in E. injection E as ->. rewrite T. split; [exact W|exact I].
  - destruct (symbol_set_wf KO KS CO s r ss H2 H0 H1) as [W T]. rewrite T. auto.
  - destruct (n_segments_wf KO KS CO s r l H1 H0) as [W T]. rewrite T. auto.
  - split; [apply clear_terms_wf; auto|auto].
  - split; [apply (proj1 (clear_cleared KO KS CO TO s H0))|exact I].
  - destruct (add_term_exact KO KS CO PO KL CL sign s k c H2 H0) as [(r0 & E & W & _ & T & _)|[E _]]; [|congruence]. rewrite H1 in E. injection E as ->. rewrite T. auto.
  - destruct (ps_add_sub_exact KO KS CO PO tD KL CL HT DI sign in_place aliased x y H6 H4 H7 H5 H2 H1) as [CL' JO]. destruct (joint_or_clash (s_tag x) (s_tag y)) as [X|(t & J)]; [rewrite (CL' X) in H3; discriminate|].
    destruct (JO t J) as [(r0 & E & W & T & _)|[[E|E] _]]; rewrite H3 in E; try discriminate. injection E as ->. rewrite T. split; [exact W|]. eapply joint_ok; [| |exact J]; auto.
  - destruct (ps_scalar_exact KO KS CO PO tD KL CL HT DI sign scalar_first x c H2 H3 H0) as [(r0 & E & W & _ & T & _)|[E _]]; rewrite H1 in E; try discriminate. injection E as ->. rewrite T. auto.
  - split; [apply (negate_exact KO KS CO CL x H0)|auto].
  - destruct (scalar_mul_exact KO KS CO KL CL x c H0) as (W & _ & T & _). rewrite T. auto.
  - destruct (scalar_div_exact KO KS CO CL U cdiv x y H1) as [(r0 & E & W & _ & T & _)|(k & c & _ & [(e & _ & E)|[_ E]])]; rewrite H0 in E; try discriminate. injection E as ->. rewrite T. auto.
  - split; [apply (filter_exact KO KS CO PO KL f x H0)|auto].
  - destruct (filter_exact KO KS CO PO KL f x H1) as (_ & _ & _ & _ & _ & r0 & E & W & _ & T & _). rewrite H0 in E. injection E as ->. rewrite T. auto.
  - destruct (trim_exact_partial KO KS CO PO TO KL CL x H1) as (r0 & E & W & T & _). rewrite H0 in E. injection E as ->. rewrite T. auto.
  - destruct (add_symbols_exact KO KS CO PO TO KL CL x ss H3 H0 H1) as [(r0 & E & W & _ & T & _)|[[E|E] _]]; rewrite H2 in E; try discriminate. injection E as ->. rewrite T. auto.
  - destruct (ps_truncate_exact KO KS CO tD KL HT DI x H1 H2) as [(r0 & E & W & _ & T & _)|[E _]]; rewrite H0 in E; try discriminate. injection E as ->. rewrite T. auto.
  - destruct (set_truncation KO tD tV d x) as [out r] eqn:E. pose proof (set_truncation_exact KO KS CO tD KL HT DI tV d x H1 H0) as ST. rewrite E in ST. cbn [snd]. destruct ST as [(_ & W & _ & _ & T & _)|[(_ & _ & ->)|(EO & W & _)]]; [|auto|].
    + split; [exact W|]. unfold get_truncation in T. rewrite T. destruct (cast_ok tD HT tV d H0) as [[V _]|[_ X]]; [exact V|]. unfold set_truncation in E. rewrite X in E. injection E as <- <-. rewrite T in H2. exact H2.
    + split; [exact W|]. unfold set_truncation in E. destruct (safe_cast_int tD tV d); [|injection E as _ <-; exact H2|injection E as _ <-; exact H2].
      destruct (truncate_degree KO tD tD a x); [congruence|injection E as _ <-; exact I|injection E as _ <-; exact H2].
  - destruct (set_truncation_p KO tD tV d syms x) as [out r] eqn:E. pose proof (set_truncation_p_exact KO KS CO tD KL HT DI tV d syms x H2 H0 H1) as ST. rewrite E in ST. cbn [snd]. destruct ST as [(_ & W & _ & _ & T & _)|[(_ & _ & ->)|(EO & W & _)]]; [|auto|].
    + split; [exact W|]. unfold get_truncation in T. rewrite T. destruct (cast_ok tD HT tV d H0) as [[V _]|[_ X]]; [split; [exact V|exact H1]|]. unfold set_truncation_p in E. rewrite X in E. injection E as <- <-. rewrite T in H3. exact H3.
    + split; [exact W|]. unfold set_truncation_p in E. destruct (safe_cast_int tD tV d); [|injection E as _ <-; exact H3|injection E as _ <-; exact H3].
      destruct (truncate_p_degree KO tD tD a syms x); [congruence|injection E as _ <-; exact I|injection E as _ <-; exact H3].
  - split; [apply (unset_truncation_exact KO KS CO tD x H0)|exact I].
  - destruct (ps_mul_exact KO KS CO PO tD KL CL HT HP E x y H H7 H5 H8 H6 H2) as [CL' JO]. destruct (joint_or_clash (s_tag x) (s_tag y)) as [X|(t & J)]; [rewrite (CL' X) in H4; discriminate|].
    destruct (JO t J (fun u => H3 t u J)) as (u & _ & [(r0 & E' & W & _ & T & _)|[[E'|E'] _]]); rewrite H4 in E'; try discriminate. injection E' as ->. rewrite T. split; [exact W|]. eapply joint_ok; [| |exact J]; auto.
  - unfold ps_pow in H3. destruct (pow_poly_impl KO CO PO TO (ps_mul KO CO PO E tD) cpow kn z un m x) as [p m'] eqn:EP. cbn [fst] in H3. destruct p as [p| |]; cbn [bind] in H3; try discriminate.
    assert (W : WF p).
    { eapply (pow_impl_wf KO KS CO PO TO KL CL (ps_mul KO CO PO E tD) cpow kn z un m x p F0 H4); [|rewrite EP; reflexivity]. intros n EN.
      destruct (cache_tpow KO KS CO PO tD KL CL HT HP F0 E H m x n (ps_reachable_ok KO KS CO PO tD KL CL HT HP F0 m H0) H2) as (_ & [(r' & ER' & P)|[[X|X] _]]); rewrite EN in *; try discriminate. injection ER' as ->. apply P. }
    destruct (ps_truncate_exact KO KS CO tD KL HT DI (set_tag p (s_tag x)) (set_tag_wf KO KS CO p _ W) H5) as [(r0 & E' & W' & _ & T & _)|[E' _]]; rewrite H3 in E'; try discriminate. injection E' as ->. rewrite T. auto.
  - destruct (ps_diff_exact KO KS CO PO KL CL cz H x s H2) as [(r0 & E & W & _ & T & _)|[E _]]; rewrite H1 in E; try discriminate. injection E as ->. rewrite T. auto.
  - destruct (ps_integrate_truncates KO KS CO PO tD KL CL HT DI cdiv H x s H2 H3) as (u & _ & [(i0 & r0 & _ & E & W & _ & T & _)|[[E _]|[[E|E] _]]]); rewrite H1 in E; try discriminate. injection E as ->. rewrite T. auto.
  - destruct (make_generator_ss_ok KO KS CO PO TO KL CL kof H ss s H0 H1) as [(r0 & E & _ & W & T & _)|[[E _]|[[E|E] _]]]; rewrite H2 in E; try discriminate. injection E as ->. rewrite T. split; [exact W|exact I].
  - match goal with W : WF x, T : trunc_ok tD (s_tag x) |- _ => destruct (P_PS7.ps_subs_loop KO KS CO PO tD KL CL HT DI vpow pw x sm W H0 H1 H2 T) as [(r0 & E & W0 & [[_ ->]|[_ T0]] & _)|[E _]]; rewrite H3 in E; try discriminate; injection E as -> end; [split; [apply default_wf|exact I]|rewrite T0; auto].
  - match goal with W : WF x, T : trunc_ok tD (s_tag x) |- _ => apply (ps_subs_wf E vpow x sm B r H H0 H3 H4 W T H5 H2); [|assumption] end. intros z u n p Iz EV. match goal with IH : forall z u n p, In (z, u) sm -> vpow u n = Ok p -> WF p /\ _ |- _ => destruct (IH z u n p Iz EV) as [A B'] end.
    split; [exact A|]. split; [exact B'|]. eauto.
Qed.
(** C24 for power series. *)
Theorem ps_invariants_hold : forall s, made_ps s -> invariants KO CO s.
Proof. intros s M. apply (wf_invariants KO KS CO KL), made_ps_wf, M. Qed.
End PIS.

(** * Non-vacuity *)
(** A polynomial made by: a series with two segments, three terms inserted, a product, a power, a derivative, a sum. *)
Local Notation made_ex := (made exK exS Z_cf exP Z_tag).
Definition iv0 : series Z Z Z := get d0 (set_symbol_set (series_default Z_tag) ["a"; "b"]%string).
Definition iv1 : series Z Z Z := get d0 (set_n_segments iv0 1).
Definition iv2 : series Z Z Z := get d0 (add_term exK Z_cf exP true iv1 (exk [1; 2]) 3).
Definition iv3 : series Z Z Z := get d0 (add_term exK Z_cf exP false iv2 (exk [0; 1]) 5).
Definition iv4 : series Z Z Z := get d0 (poly_mul exK Z_cf exP Z_tag (exE true 1) iv3 iv3).
Definition iv5 : series Z Z Z := get d0 (fst (ex_pow true 1 3 [] iv4)).
Definition iv6 : series Z Z Z := get d0 (poly_diff exK Z_cf exP Z_tag (fun z => z) iv5 "b").
Definition iv7 : series Z Z Z := get d0 (series_add exK Z_cf exP Z_tag iv6 iv3).
Lemma ex_packable : packable kd_int64. Proof. right. right. left. reflexivity. Qed.
Lemma ex_fits0 : ks_fits exS []. Proof. apply pm_fits_nil. Qed.
Definition is_ok {A} (r : res A) : bool := match r with Ok _ => true | _ => false end.
Lemma get_is {A} (d : A) r : is_ok r = true -> r = Ok (get d r).
Proof. destruct r; [reflexivity|discriminate|discriminate]. Qed.
Example ex_made : made_ex iv7 /\ series_size iv7 = 9%nat /\ series_size iv5 = 7%nat /\ invariants exK Z_cf iv7.
Proof.
  assert (M0 : made_ex iv0). { apply (m_symbol_set _ _ _ _ _ (series_default Z_tag) ["a"; "b"]%string); [apply m_default|repeat constructor|]. apply get_is. vm_compute. reflexivity. }
  assert (M1 : made_ex iv1). { apply (m_n_segments _ _ _ _ _ iv0 1 _ M0). apply get_is. vm_compute. reflexivity. }
  assert (M2 : made_ex iv2). { apply (m_add_term _ _ _ _ _ true iv1 (exk [1; 2]) 3 _ M1); [exists [1; 2]; apply representsb_ok; vm_compute; reflexivity|]. apply get_is. vm_compute. reflexivity. }
  assert (M3 : made_ex iv3). { apply (m_add_term _ _ _ _ _ false iv2 (exk [0; 1]) 5 _ M2); [exists [0; 1]; apply representsb_ok; vm_compute; reflexivity|]. apply get_is. vm_compute. reflexivity. }
  assert (M4 : made_ex iv4). { apply (m_mul _ _ _ _ _ (exE true 1) iv3 iv3 _ (exE_ok true 1) M3 M3); [vm_compute; discriminate|]. apply get_is. vm_compute. reflexivity. }
  assert (M5 : made_ex iv5). { apply (m_pow _ _ _ _ _ (exE true 1) (fun c => Ok (cpower Z_cf c 3)) (Some (Z.of_nat 3)) (Nat.eqb 3 0) (Some 3%nat) [] iv4 iv5 (exE_ok true 1)); [ |apply r_empty|exact M4|vm_compute; discriminate|].
    - exact ex_fits0.
    - apply (get_is d0 (fst (ex_pow true 1 3 [] iv4))). vm_compute. reflexivity. }
  assert (M6 : made_ex iv6). { apply (m_diff _ _ _ _ _ (fun z => z) iv5 "b"%string _); [exact Z_embedding|exact M5|]. apply get_is. vm_compute. reflexivity. }
  assert (M7 : made_ex iv7). { apply (m_addsub _ _ _ _ _ true iv6 iv3 iv7 M6 M3); [vm_compute; discriminate|]. cbv iota. apply get_is. vm_compute. reflexivity. }
  split; [exact M7|]. split; [vm_compute; reflexivity|]. split; [vm_compute; reflexivity|]. exact (invariants_hold exK exS Z_cf exP Z_tag exK_laws Z_cf_laws iv7 M7).
Qed.

(** A power series made by: setting a truncation, two terms inserted, a truncated product. *)
Local Notation made_psx := (made_ps exK exS Z_cf exP (kd_ty kd_int64)).
Local Notation dps := (series_default ps_tag_ops).
Definition jv0 : series Z Z trunc_t := get dps (set_symbol_set (series_default ps_tag_ops) ["a"; "b"]%string).
Definition jv1 : series Z Z trunc_t := snd (set_truncation exK (kd_ty kd_int64) (kd_ty kd_int64) 3 jv0).
Definition jv2 : series Z Z trunc_t := get dps (add_term exK Z_cf exP true jv1 (exk [1; 1]) 3).
Definition jv3 : series Z Z trunc_t := get dps (add_term exK Z_cf exP true jv2 (exk [1; 0]) 2).
Definition jv4 : series Z Z trunc_t := get dps (ps_mul exK Z_cf exP (psE true 1) (kd_ty kd_int64) jv3 jv3).
Definition jvpow (u : series Z Z trunc_t) (z : Z) : res (series Z Z trunc_t) := fst (ps_powx (Z.to_nat z) [] u).
Definition jv5 : series Z Z trunc_t := get dps (ps_subs exK Z_cf exP (psE true 1) (kd_ty kd_int64) jvpow jv4 [("b"%string, jv3)]).
Definition jv6 : series Z Z trunc_t := get dps (ps_subs_scalar exK Z_cf exP (kd_ty kd_int64) (fun v e => Ok (v ^ e)) jv5 [("b"%string, 7)]).
Example ex_made_ps : made_psx jv6 /\ series_size jv4 = 2%nat /\ series_size jv5 = 2%nat /\ series_size jv6 = 2%nat /\ s_tag jv6 = total_truncation 3 /\ invariants exK Z_cf jv6.
Proof.
  assert (M0 : made_psx jv0). { apply (mp_symbol_set _ _ _ _ _ (series_default ps_tag_ops) ["a"; "b"]%string); [apply mp_default|repeat constructor|]. apply get_is. vm_compute. reflexivity. }
  assert (M1 : made_psx jv1). { apply mp_set_truncation; [exact M0|]. split; [apply kd_type_ok; exact ex_packable|vm_compute; split; [discriminate|reflexivity]]. }
  assert (M2 : made_psx jv2). { apply (mp_add_term _ _ _ _ _ true jv1 (exk [1; 1]) 3 _ M1); [exists [1; 1]; apply representsb_ok; vm_compute; reflexivity|]. apply get_is. vm_compute. reflexivity. }
  assert (M3 : made_psx jv3). { apply (mp_add_term _ _ _ _ _ true jv2 (exk [1; 0]) 2 _ M2); [exists [1; 0]; apply representsb_ok; vm_compute; reflexivity|]. apply get_is. vm_compute. reflexivity. }
  assert (M4 : made_psx jv4). { apply (mp_mul _ _ _ _ _ (psE true 1) jv3 jv3 _ (psE_ok true 1) M3 M3); [vm_compute; discriminate| |].
    - intros t u _ _ _. apply pm_sums_fit. right. right. left. reflexivity.
    - apply get_is. vm_compute. reflexivity. }
  assert (AR : ps_arg exK exS Z_cf (kd_ty kd_int64) jv3).
  { destruct (made_ps_wf exK exS Z_cf exP (kd_ty kd_int64) exK_laws Z_cf_laws (proj1 (kd_type_ok kd_int64 ex_packable)) (pm_degrees_in kd_int64 ex_packable) (proj2 (kd_type_ok kd_int64 ex_packable)) ex_fits0 jv3 M3) as [W3 T3].
    apply (pm_ps_arg Z_cf kd_int64); [exact ex_packable|exact W3|vm_compute; discriminate|exact T3]. }
  assert (M5 : made_psx jv5).
  { apply (mp_subs _ _ _ _ _ (psE true 1) jvpow jv4 [("b"%string, jv3)] ["a"; "b"]%string); [apply psE_ok| |exact M4|repeat constructor|repeat constructor|vm_compute; discriminate|intros z; vm_compute; intuition| | |apply get_is; vm_compute; reflexivity].
    - intros t u _ _. apply pm_sums_fit. exact ex_packable.
    - intros z u n p [X|[]] EP. assert (u = jv3) by (apply (f_equal snd) in X; symmetry; exact X). subst u. clear X.
      apply (mp_pow _ _ _ _ _ (psE false 0) (fun c => Ok (cpower Z_cf c (Z.to_nat n))) (Some (Z.of_nat (Z.to_nat n))) (Nat.eqb (Z.to_nat n) 0) (Some (Z.to_nat n)) [] jv3); [apply psE_ok|constructor|exact M3|exact AR|exact EP].
    - intros z u n p [X|[]] EP. assert (u = jv3) by (apply (f_equal snd) in X; symmetry; exact X). subst u. clear X. unfold jvpow, ps_powx in EP.
      destruct (ps_pow_exact_partial exK exS Z_cf exP (kd_ty kd_int64) exK_laws Z_cf_laws (proj1 (kd_type_ok kd_int64 ex_packable)) (pm_degrees_in kd_int64 ex_packable) (proj2 (kd_type_ok kd_int64 ex_packable)) ex_fits0 [] (psE false 0) (fun c => Ok (cpower Z_cf c (Z.to_nat n))) (Z.to_nat n) jv3)
        as [(r & E & _ & _ & IR & _)|[[E|E] _]]; [constructor|apply psE_ok|exact AR|intros c; reflexivity| | |]; rewrite EP in E; try discriminate E. injection E as ->. change ["a"; "b"]%string with (s_ss jv3). exact IR. }
  assert (M6 : made_psx jv6).
  { apply (mp_subs_scalar _ _ _ _ _ Z (fun v e => Ok (v ^ e)) Z.pow jv5 [("b"%string, 7)]); [exact M5|repeat constructor| |vm_compute; discriminate|apply get_is; vm_compute; reflexivity].
    intros ? ? ? ?. intros. reflexivity. }
  split; [exact M6|]. split; [vm_compute; reflexivity|]. split; [vm_compute; reflexivity|]. split; [vm_compute; reflexivity|]. split; [vm_compute; reflexivity|].
  exact (ps_invariants_hold exK exS Z_cf exP (kd_ty kd_int64) exK_laws Z_cf_laws (proj1 (kd_type_ok kd_int64 ex_packable)) (pm_degrees_in kd_int64 ex_packable) (proj2 (kd_type_ok kd_int64 ex_packable)) ex_fits0 jv6 M6).
Qed.

Print Assumptions invariants_hold.
Print Assumptions ps_invariants_hold.
